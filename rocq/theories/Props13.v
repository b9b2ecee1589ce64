(* Properties C86-C88 and additions to C56 and C70: the requests of the event loop, the log,
   the thresholds of managers. *)
From Verif Require Import Base Num MathUtils Knn Env Centroid CManager DataSpec MgrSpec Wp NumFacts MathSpec TestEnv Proc Owns
  Server ServerSpec ServerFacts TestWorld Core EventLoop CoreSpec Props05 Props06 LoopSpec Service FloatMargin TaskSpec TaskProofs ThreshProofs
  Log LogSpec LogProofs TaskCase.
From Coq.Init Require Import Byte.
From Coq Require Import Permutation.
Local Open Scope nat_scope.

(* ---- C56 ---- *)
Theorem C56_margin : forall mean, (0 <= mean < 2 ^ 50)%Z -> margin_of mean = (2 * mean / 5)%Z.
Proof. exact margin_two_fifths. Qed.
Print Assumptions C56_margin.

Example C56_margin_case : (0 <= 1234567 < 2 ^ 50)%Z /\ margin_of 1234567 = 493826%Z.
Proof. vm_compute. splits; discriminate || reflexivity. Qed.

(* ---- C70 ---- *)
Theorem C70_requests : forall a addrs fuel ns to,
  map (fun k => upkeep (N := f64) (shipped a addrs fuel) k ns) [TExpire; TMemTrim; TMerge; TSplit; TInternal] =
    [Some (QExpire ns); Some (QMemTrim ns); Some (QMerge ns (-1) 100); Some (QSplit ns 1000 1000000); Some (QDistributeInternal ns 200)] /\
  map (fun k => sending (N := f64) (shipped a addrs fuel) k ns to) [TFast; TAccurate] =
    [Some (QDistributeFast ns 100 to); Some (QDistributeAccurate ns 50 to)] /\
  el_local_only (shipped a addrs fuel) = true /\ el_local (shipped a addrs fuel) = a /\ el_remote (shipped a addrs fuel) = addrs.
Proof. exact shipped_requests. Qed.
Print Assumptions C70_requests.

Theorem C70_threshold : forall now perm fates rnd addrs fuel n stop hs sched t l w t',
  interleave DIdle sched
    (map (run_job (shipped_env now perm fates rnd)) (service_loops addrs fuel n stop ++ map (service_http addrs) hs)) (service_start addrs) t = Ok ((l, w), t') ->
  forall a ns m, manager w a ns = Some m -> cm_thresh m = 10000%Z.
Proof. exact shipped_thresholds. Qed.
Print Assumptions C70_threshold.

(* Two services, after three puts: there is a manager. *)
Example C70_threshold_case :
  wp (interleave DIdle (concat (repeat (seq 0 30) 150))
       (map (run_job (shipped_env (fun _ => 0%Z) natural (fun _ => Delivered) (fun k => k)))
            (service_loops [nA; nB] 5 1 (fun _ _ => false) ++ map (service_http [nA; nB]) (firstn 3 two_hs))) (service_start [nA; nB])) 0
    (fun r _ => existsb (fun a => match manager (snd r) a ns1 with Some m => (cm_thresh m =? 10000)%Z | None => false end) [nA; nB] = true).
Proof. vm_compute. reflexivity. Qed.

(* ---- C86 ---- *)
Theorem C86_upkeep : forall (N : Num) (E : Env N) c k f w t w' t', (forall ns, upkeep c k ns = Some (f ns)) ->
  exec (task_body E c k) w t = Ok ((tt, w'), t') <->
  exists o w1 t1 xs, Made E [(el_local c, QNamespaces)] w t [o] w1 t1 /\
    Made E (map (fun ns => (el_local c, f ns)) (listed o)) w1 t1 xs w' t'.
Proof. exact @upkeep_made. Qed.
Print Assumptions C86_upkeep.

(* Splitting at A, which has two namespaces. *)
Definition loopA : el_cfg := MkEl nA [nA; nB] (MkSkips 1 1 1 1 1 1 1 1 1) 1 1 1 2 9 (-1) 100 true 5.
Definition two_ns : World f64 := after cosE
  [(nA, QAdd ns1 (dp [1;7]%Z)); (nA, QAdd ns1 (dp [1;8]%Z)); (nA, QAdd ns1 (dp [9;2]%Z)); (nA, QAdd ns2 (dp [9;1]%Z));
   (nA, QAdd ns2 (dp [1;9]%Z)); (nA, QAdd ns2 (dp [1;8]%Z)); (nB, QAdd ns1 (dp [9;1]%Z))] (fresh [(nA, 20%Z); (nB, 20%Z)]).
Example C86_upkeep_case : (forall ns, upkeep loopA TSplit ns = Some (QSplit (N := f64) ns 2 9)) /\
  wp (exec (task_body cosE loopA TSplit) two_ns) 0 (fun r _ =>
    map (fun ns => map (fun c => length (c_dps c)) (centroids_at two_ns nA ns)) [ns1; ns2] = [[3]; [3]] /\
    map (fun ns => map (fun c => length (c_dps c)) (centroids_at (snd r) nA ns)) [ns1; ns2] = [[2; 1]; [2; 1]]).
Proof. split; [reflexivity|]. vm_compute. auto. Qed.

Theorem C86_sending : forall (N : Num) (E : Env N) c k f w t w' t', (forall ns addrs, sending c k ns addrs = Some (f ns addrs)) ->
  exec (task_body E c k) w t = Ok ((tt, w'), t') <->
  exists o w1 t1, Made E [(el_local c, QNamespaces)] w t [o] w1 t1 /\ Sent E c f (listed o) w1 t1 w' t'.
Proof. exact @sending_made. Qed.
Print Assumptions C86_sending.

(* One datapoint of each namespace of A is sent; B has the first namespace. *)
Example C86_sending_case : (forall ns addrs, sending loopA TAccurate ns addrs = Some (QDistributeAccurate (N := f64) ns 1 addrs)) /\
  wp (exec (task_body cosE loopA TAccurate) two_ns) 0 (fun r _ =>
    map (fun e => length (data_at two_ns (fst e) (snd e))) [(nA, ns1); (nA, ns2); (nB, ns1); (nB, ns2)] = [3; 3; 1; 0] /\
    map (fun e => length (data_at (snd r) (fst e) (snd e))) [(nA, ns1); (nA, ns2); (nB, ns1); (nB, ns2)] = [2; 3; 2; 0]).
Proof. split; [reflexivity|]. vm_compute. auto. Qed.

Theorem C86_meta : forall (N : Num) (E : Env N) c w t w' t',
  exec (task_body E c TMeta) w t = Ok ((tt, w'), t') <->
  exists xs, Made E (map (fun a => (a, QMeta)) (if el_local_only c then [el_local c] else el_remote c)) w t xs w' t'.
Proof. exact @meta_made. Qed.
Print Assumptions C86_meta.

(* A request costs a tick, and one for the order of the namespaces. *)
Example C86_meta_case :
  wp (exec (task_body cosE loopA TMeta) two_ns) 0 (fun _ t => t = 2) /\
  wp (exec (task_body cosE all_of TMeta) two_ns) 0 (fun _ t => t = 4).
Proof. vm_compute. auto. Qed.

Theorem C86_balance : forall (N : Num) (E : Env N), EnvOk E -> forall c w t w' t', WorldOk w -> NoDup (el_remote c) ->
  exec (task_body E c TBalance) w t = Ok ((tt, w'), t') ->
  exists os t1 nss, Made E (map (fun a => (a, QNamespaces)) (el_remote c)) w t os w t1 /\
    NoDup nss /\ (forall ns, In ns nss <-> holders (el_remote c) os ns <> []) /\
    Balanced E c (holders (el_remote c) os) nss w (S t1) w' t'.
Proof. exact @balance_made. Qed.
Print Assumptions C86_balance.

(* B has one of 41 datapoints; the mean is 20, 3 are wanted and a centroid with 10 is moved. *)
Definition lopsided : World f64 :=
  after cosE (repeat (nA, QAdd ns2 (dp [9;1]%Z)) 40 ++ [(nB, QAdd ns2 (dp [9;1]%Z))]) (fresh [(nA, 20%Z); (nB, 20%Z)]).
Example C86_balance_case : WorldOk lopsided /\ NoDup (el_remote loopB) /\
  wp (exec (task_body cosE loopB TBalance) lopsided) 0 (fun r _ =>
    map (fun a => length (data_at lopsided a ns2)) [nA; nB] = [40; 1] /\ map (fun a => length (data_at (snd r) a ns2)) [nA; nB] = [30; 11]).
Proof. splits; [apply world_check; vm_compute; reflexivity|apply distinct_nodup; reflexivity|]. vm_compute. auto. Qed.

(* ---- C87 ---- *)
Theorem C87_log_tells : forall (N : Num) (E : Env N), EnvOk E -> forall c w t, WorldOk w -> el_local_only c = true \/ el_remote c <> [] ->
  wp (exec (metas E (pull_from c) []) w) t (fun r _ => snd r = w /\ forall s,
    let lines := log_task (log_meta (default_logger c) (fst r)) s in
    map line_addr lines = filter (shown c) (el_remote c) /\
    (all_delivered E -> Forall (tells w) lines) /\ Forall (fun l => tells w l \/ blank l) lines /\
    Forall (fun l => line_task l = if str_eqb (line_addr l) (el_local c) then Some s else None) lines).
Proof. exact @log_tells. Qed.
Print Assumptions C87_log_tells.

Example C87_case : WorldOk two_ns /\ el_remote all_of <> [] /\
  wp (exec (metas cosE (pull_from all_of) []) two_ns) 0 (fun r _ =>
    log_task (log_meta (default_logger all_of) (fst r)) ns1 = [NodeLine nA 2 2 6 (Some ns1); NodeLine nB 1 1 1 None]) /\
  wp (exec (metas cosE (pull_from loopA) []) two_ns) 0 (fun r _ =>
    log_task (log_meta (default_logger loopA) (fst r)) ns1 = [NodeLine nA 2 2 6 (Some ns1)]).
Proof. splits; [apply world_check; vm_compute; reflexivity|discriminate| |]; vm_compute; reflexivity. Qed.

Theorem C87_task_shown : forall l s, (exists x, In x (log_task l s) /\ line_task x = Some s) <-> lg_items l = [] \/ In (lg_local l) (lg_global l).
Proof. exact task_shown. Qed.
Print Assumptions C87_task_shown.

Example C87_task_shown_case : In (lg_local (default_logger all_of)) (lg_global (default_logger all_of)) /\
  log_task (default_logger all_of) ns1 = [TaskLine nA ns1] /\
  log_task (log_meta (default_logger all_of) [(nB, [(ns2, (1, 3))])]) ns1 = [NodeLine nA 0 0 0 (Some ns1); NodeLine nB 1 1 3 None].
Proof. splits; [left| |]; reflexivity. Qed.

(* A node that is not in its own list of addresses logs nothing once it has metadata. *)
Theorem C87_unlisted_refuted : exists (E : Env f64) c w, EnvOk E /\ all_delivered E /\ WorldOk w /\ node_at w (el_local c) <> None /\
  wp (exec (metas E (pull_from c) []) w) 0 (fun r _ => forall s, log_task (log_meta (default_logger c) (fst r)) s = []).
Proof. exact outside_silent. Qed.
Print Assumptions C87_unlisted_refuted.

(* A node whose answer is lost is shown without namespaces. *)
Theorem C87_lost_refuted : exists (E : Env f64) c w, EnvOk E /\ WorldOk w /\ NoDup (el_remote c) /\ In (el_local c) (el_remote c) /\
  wp (exec (metas E (pull_from c) []) w) 0 (fun r _ => snd r = w /\ forall s, exists l,
    In l (log_task (log_meta (default_logger c) (fst r)) s) /\ ~ tells w l).
Proof. exact deaf_untold. Qed.
Print Assumptions C87_lost_refuted.

(* ---- C88 ---- *)
Theorem C88_threshold : forall (N : Num) (E : Env N) ths jobs sched t l w t',
  interleave DIdle sched (map (run_job E) jobs) (fresh ths) t = Ok ((l, w), t') ->
  forall a ns m, manager w a ns = Some m -> assoc a ths = Some (cm_thresh m).
Proof. exact threshold_stays. Qed.
Print Assumptions C88_threshold.

Example C88_case : wp (interleave DIdle (concat (repeat [0; 1; 2] 60))
    (map (run_job cosE) [JReq nA (QAdd ns1 (dp [1;7]%Z)); JReq nB (QAdd ns1 (dp [3;1]%Z)); JReq nA (QMerge ns1 0 9)]) (fresh [(nA, 4%Z); (nB, 5%Z)])) 0
  (fun r _ => map (fun a => option_map (@cm_thresh f64) (manager (snd r) a ns1)) [nA; nB] = [Some 4%Z; Some 5%Z]).
Proof. vm_compute. reflexivity. Qed.
