(* Properties C45, C47-C51, C68 and C71-C74: the HTTP interface, and whole systems of nodes,
   HTTP services and event loops. *)
From Verif Require Import Base Num MathUtils Knn SearchSpec Env Centroid CManager DataSpec MgrSpec Wp NumFacts
  MathSpec TestEnv Proc Owns Server ServerSpec ServerFacts ServerProofs TestWorld Core EventLoop CoreSpec CoreProofs SystemProofs CoreSeq
  Props05Lemmas JsonSpec JsonProofs.
From Coq Require Import SpecFloat.
From Coq.Init Require Import Byte.
Local Open Scope nat_scope.

(* Three nodes; A and B share the namespace m, C has nothing. *)
Definition nC : str := [x43].
Definition spread : list (str * req f64) :=
  [(nA, QAdd ns2 (dp [9;1]%Z)); (nA, QAdd ns2 (dp [8;2]%Z)); (nB, QAdd ns2 (dp [1;7]%Z)); (nB, QAdd ns2 (dp [2;9]%Z))].
Definition abc : World f64 := after cosE spread (fresh [(nA, 2%Z); (nB, 2%Z); (nC, 2%Z)]).
Definition dim2 (ns : str) : nat := 2.

(* ---- C45 ---- *)
Theorem C45_best_fit_nodes : forall (N : Num) (E : Env N), EnvOk E -> NumOrd N ->
  forall dist asc w (accurate : bool) addrs ns v t, WorldOk w ->
  wp (exec (if accurate then best_fit_accurate E (knn_brute dist asc) addrs ns v
            else best_fit_fast E (knn_brute dist asc) addrs ns v) w) t
    (fun r _ => snd r = w /\
      Ranked E dist asc (if accurate then accurate_vec E w ns v else fast_vec w ns) addrs v (fst r) /\
      incl (fst r) addrs /\ (NoDup addrs -> NoDup (fst r)) /\
      (all_delivered E -> forall a, In a addrs ->
         (exists u s, (if accurate then accurate_vec E w ns v a u else fast_vec w ns a u) /\
            dist v u = Some s /\ better asc s (sentinel asc) = true) -> In a (fst r))).
Proof. exact @best_fit_nodes. Qed.
Print Assumptions C45_best_fit_nodes.

Example C45_case : WorldOk abc /\
  wp (exec (best_fit_fast cosE knn_cos [nA; nC; nB] ns2 (fv [1;5]%Z)) abc) 0 (fun r _ => fst r = [nB; nA]) /\
  wp (exec (best_fit_accurate cosE knn_cos [nA; nC; nB] ns2 (fv [5;1]%Z)) abc) 0 (fun r _ => fst r = [nA; nB]).
Proof. split; [apply world_check; vm_compute; reflexivity|]. vm_compute. auto. Qed.

(* ---- C47 ---- *)
Theorem C47_put_once : forall (N : Num) (E : Env N), EnvOk E -> NumOrd N -> forall D addrs ns d w t,
  answers_arrive E -> WorldOk w -> DimsOk D w -> D ns (length (dp_vec d)) ->
  wp (exec (put_dp E addrs ns d) w) t (fun r t' =>
    if fst r then added_once E addrs ns d w t (snd r) t' /\ exists a, In a addrs /\ only w (snd r) a ns
    else snd r = w /\ forall i b, nth_error addrs i = Some b -> ~ reached E w b (t + i)).
Proof. exact @put_once. Qed.
Print Assumptions C47_put_once.

(* The first node does not exist; the second request is lost; the third node takes it. *)
Definition lose_second : Env f64 := lossy (fun k => if k =? 1 then ReqLost else Delivered).
Example C47_case : (forall k, e_fate lose_second k <> RespLost) /\ WorldOk abc /\ DimsOk (dims_are dim2) abc /\
  wp (exec (put_dp lose_second [ns1; nA; nB; nC] ns2 (dp [3;3]%Z)) abc) 0 (fun r _ => fst r = true /\
    length (data_at (snd r) nA ns2) = 2 /\ length (data_at (snd r) nB ns2) = 3 /\ length (data_at (snd r) nC ns2) = 0).
Proof.
  splits; [intros k; cbn; destruct (k =? 1); discriminate|apply world_check; vm_compute; reflexivity|
    apply dims_check; vm_compute; reflexivity|vm_compute; auto].
Qed.

Theorem C47_lost_answer_refuted : exists (E : Env f64) ths addrs ns d, EnvOk E /\ NoDup addrs /\
  wp (exec (put_dp E addrs ns d) (fresh ths)) 0 (fun r _ => fst r = true /\
    exists a b, a <> b /\ In d (data_at (snd r) a ns) /\ In d (data_at (snd r) b ns)).
Proof. exact put_twice_refuted. Qed.
Print Assumptions C47_lost_answer_refuted.

(* ---- C48 ---- *)
Theorem C48_gather : forall (N : Num) (E : Env N), EnvOk E -> NumOrd N -> forall D addrs ns v n (drain : bool) w t,
  answers_arrive E -> WorldOk w -> DimsOk D w -> (0 <= n)%Z ->
  wp (exec (get_dps E addrs ns v n drain) w) t (fun r t' =>
    gathers E ns v drain addrs n w t (fst r) (snd r) t' /\
    (Z.of_nat (length (fst r)) <= n)%Z /\
    Forall (fun d => seen_live E t t' d /\ exists a, In a addrs /\ In d (data_at w a ns)) (fst r) /\
    keeps E t t' (all_data w) (all_data (snd r) ++ tag ns (if drain then fst r else []))).
Proof. exact @gather_dps. Qed.
Print Assumptions C48_gather.

Theorem C48_negative : forall (N : Num) (E : Env N) addrs ns v n drain w t, (n < 0)%Z ->
  exec (get_dps E addrs ns v n drain) w t = Panic.
Proof. exact @negative_get. Qed.
Print Assumptions C48_negative.

(* Three wanted: the two of node B, which is asked first of those that have some, and one of A. *)
Example C48_case :
  wp (exec (get_dps cosE [nC; nB; nA] ns2 (fv [1;5]%Z) 3 true) abc) 0 (fun r _ =>
    length (fst r) = 3 /\ length (data_at (snd r) nB ns2) = 0 /\ length (data_at (snd r) nA ns2) = 1) /\
  wp (exec (get_dps cosE [nC; nB; nA] ns2 (fv [1;5]%Z) 2 false) abc) 0 (fun r _ =>
    length (fst r) = 2 /\ length (data_at (snd r) nB ns2) = 2 /\ length (data_at (snd r) nA ns2) = 2).
Proof. vm_compute. auto. Qed.

Theorem C48_lost_answer_refuted : exists (E : Env f64) ths setup addrs ns v n d, EnvOk E /\ never_expired E [d] /\
  wp (serve_seq E setup (fresh ths)) 0 (fun r t => In d (data_at (snd r) nA ns) /\
    wp (exec (get_dps E addrs ns v n true) (snd r)) t (fun r' _ =>
      fst r' = [] /\ ~ In (ns, d) (all_data (snd r')) /\ ~ In (ns, d) (w_dropped (snd r')))).
Proof. exact drained_query_refuted. Qed.
Print Assumptions C48_lost_answer_refuted.

(* ---- C49 ---- *)
Theorem C49_shuffle : forall (N : Num) (E : Env N) (A : Type) (l : list A) t,
  wp (shuffle E l) t (fun l' t' => t' = t + length l /\ Permutation l' l).
Proof. exact @shuffle_spec. Qed.
Print Assumptions C49_shuffle.

Definition dice : Env f64 := MkEnv f64 (fun _ => 0%Z) (fun _ n => seq 0 n) (fun _ => Delivered) (fun k => Nat.modulo (5 * (k + 1)) 7) knn_euc kfn_euc.
Example C49_case : wp (shuffle dice [nA; nB; nC; ns1]) 0 (fun l _ => l = [nB; nC; nA; ns1]).
Proof. vm_compute. reflexivity. Qed.

(* ---- C50 ---- *)
Theorem C50_put : forall (N : Num) (E : Env N), EnvOk E -> NumOrd N -> forall D addrs (o : put_opts N) w t,
  answers_arrive E -> WorldOk w -> DimsOk D w -> D (po_ns o) (length (wi_vec (po_dp o))) ->
  wp (exec (put_http E addrs (Some o)) w) t (fun r t' => exists code, fst r = Http code None /\
    put_effect E w (po_accurate o) addrs (po_ns o) (to_dp (po_dp o)) code (snd r) t').
Proof. exact @put_http_spec. Qed.
Print Assumptions C50_put.

(* When every message arrives and one of the nodes is there, a put is answered 200 and has
   gone to the node that ranks best, or to any if none can be ranked. *)
Theorem C50_put_reachable : forall (N : Num) (E : Env N), EnvOk E -> NumOrd N -> forall D addrs (o : put_opts N) w t,
  all_delivered E -> WorldOk w -> DimsOk D w -> D (po_ns o) (length (wi_vec (po_dp o))) ->
  (exists a, In a addrs /\ node_at w a <> None) ->
  wp (exec (put_http E addrs (Some o)) w) t (fun r t' => fst r = Http 200 None /\
    exists l t1 a, nodes_ranked E w (po_accurate o) addrs (po_ns o) (wi_vec (po_dp o)) l /\
      match l with
      | b :: _ => a = b
      | [] => In a addrs /\ node_at w a <> None
      end /\
      exec (serve E a (QAdd (po_ns o) (to_dp (po_dp o)))) w t1 = Ok ((ABool true, snd r), t')).
Proof. exact @put_reachable. Qed.
Print Assumptions C50_put_reachable.

Theorem C50_bad_body : forall (N : Num) (E : Env N) addrs w t,
  exec (put_http E addrs None) w t = Ok ((Http 400 None, w), t) /\
  exec (query_http E addrs None) w t = Ok ((Http 400 None, [], w), t).
Proof. exact @bad_body. Qed.
Print Assumptions C50_bad_body.

(* To the best node; to a node for a new namespace; nowhere. *)
Definition put2 (ns : str) (l : list Z) : option (put_opts f64) := Some (MkPut ns false (of_dp (dp l))).
Example C50_case : all_delivered cosE /\ WorldOk abc /\ DimsOk (dims_are dim2) abc /\
  wp (exec (put_http cosE [nA; nC; nB] (put2 ns2 [1;3]%Z)) abc) 0 (fun r _ => status (fst r) = 200%Z /\
    length (data_at (snd r) nA ns2) = 2 /\ length (data_at (snd r) nB ns2) = 3) /\
  wp (exec (put_http cosE [nA; nC; nB] (put2 ns1 [1;3]%Z)) abc) 0 (fun r _ => status (fst r) = 200%Z /\
    length (data_at (snd r) nA ns1 ++ data_at (snd r) nB ns1 ++ data_at (snd r) nC ns1) = 1) /\
  wp (exec (put_http cosE [ns1] (put2 ns2 [1;3]%Z)) abc) 0 (fun r _ => status (fst r) = 500%Z).
Proof.
  split; [intros k; reflexivity|]. split; [apply world_check; vm_compute; reflexivity|].
  split; [apply dims_check; vm_compute; reflexivity|]. vm_compute. auto 10.
Qed.

Theorem C50_lost_answer_refuted : exists (E : Env f64) ths addrs (o : put_opts f64), EnvOk E /\
  wp (exec (put_http E addrs (Some o)) (fresh ths)) 0 (fun r _ => fst r = Http 500 None /\
    exists a, In (to_dp (po_dp o)) (data_at (snd r) a (po_ns o))).
Proof. exact failed_put_refuted. Qed.
Print Assumptions C50_lost_answer_refuted.

(* ---- C51 ---- *)
Theorem C51_conversion : forall (N : Num), (forall x : wire N, of_dp (to_dp x) = x) /\
  (forall d : DataPoint N, to_dp (of_dp d) = d) /\
  (forall (ds : list (DataPoint N)) i d, nth_error ds i = Some d ->
     exists x, nth_error (of_dps ds) i = Some x /\ wi_vec x = dp_vec d /\ wi_payload x = dp_payload d /\
       wi_expires x = dp_expires d /\ wi_expire_enabled x = dp_expire_enabled d) /\
  (forall ds : list (DataPoint N), length (of_dps ds) = length ds).
Proof. exact @conversion. Qed.
Print Assumptions C51_conversion.

Example C51_case : length (of_dps [dp [1]%Z; dpx [2]%Z 5]) = 2 /\ wi_expires (of_dp (dpx [2]%Z 5)) = 5%Z.
Proof. vm_compute. auto. Qed.

Theorem C51_encoding : forall l : list (wire f64), Forall (fun x : wire f64 => Forall is_f64 (wi_vec x)) l ->
  (Forall Expressible l -> marshal l = Some l) /\ (~ Forall Expressible l -> marshal l = None).
Proof. exact marshal_exact. Qed.
Print Assumptions C51_encoding.

(* Ordinary points are expressible; NaN, the infinities and the year 10000 are not. *)
Example C51_encoding_case :
  map (fun x => match marshal [x] with Some _ => true | None => false end)
    (of_dps [dp [1;2]%Z; dpx [2]%Z (year_begin 0); dpx [2]%Z (year_begin 10000 - 1); dpx [2]%Z (year_begin 10000); dpx [2]%Z (year_begin 0 - 1);
             MkDP (N := f64) [S754_nan] [] 0%Z false; MkDP (N := f64) [S754_infinity true] [] 0%Z false;
             MkDP (N := f64) [S754_infinity false] [] 0%Z false; MkDP (N := f64) [fmaxv] [] 0%Z false])
  = [true; true; true; false; false; false; false; false; true] /\
  forallb (valid_binary prec64 emax64) (wi_vec (of_dp (dp [1;2]%Z)) ++ [S754_nan; S754_infinity true; S754_infinity false; @fmaxv f64]) = true.
Proof. vm_compute. split; reflexivity. Qed.

(* ---- C68 ---- *)
Theorem C68_query : forall (N : Num) (E : Env N), EnvOk E -> NumOrd N -> forall D addrs (o : query_opts N) w t,
  answers_arrive E -> WorldOk w -> DimsOk D w -> (0 <= qo_n o)%Z ->
  (forall a, Forall carries (data_at w a (qo_ns o))) ->
  wp (exec (query_http E addrs (Some o)) w) t (fun r t' => exists found,
    fst (fst r) = Http 200 (Some (of_dps found)) /\
    (exists l t1, nodes_ranked E w (qo_accurate o) addrs (qo_ns o) (qo_vec o) l /\ t <= t1 /\
       gathers E (qo_ns o) (qo_vec o) (qo_drain o) l (qo_n o) w t1 found (snd r) t') /\
    (Z.of_nat (length found) <= qo_n o)%Z /\
    Forall (fun d => exists a, In a addrs /\ In d (data_at w a (qo_ns o))) found).
Proof. exact @query_answer. Qed.
Print Assumptions C68_query.

Theorem C68_negative : forall (N : Num) (E : Env N), EnvOk E -> NumOrd N -> forall addrs (o : query_opts N) w t,
  WorldOk w -> (qo_n o < 0)%Z ->
  wp (exec (query_http E addrs (Some o)) w) t (fun r _ => fst r = (Aborted, []) /\ snd r = w).
Proof. exact @negative_query. Qed.
Print Assumptions C68_negative.

Example C68_case :
  forallb (fun a => forallb (fun d => encodable (of_dp d)) (data_at abc a ns2)) [nA; nB; nC] = true /\
  wp (exec (query_http cosE [nA; nC; nB] (Some (MkQuery ns2 true (fv [1;5]%Z) 3 true))) abc) 0 (fun r _ =>
    match fst (fst r) with
    | Http s (Some b) => s = 200%Z /\ length b = 3 /\ length (data_at (snd r) nB ns2) = 0 /\ length (data_at (snd r) nA ns2) = 1
    | _ => False
    end).
Proof. vm_compute. auto 10. Qed.

Theorem C68_unencodable_refuted : exists (E : Env f64) ths setup addrs (o : query_opts f64) d, EnvOk E /\ all_delivered E /\
  never_expired E [d] /\ qo_drain o = true /\
  wp (serve_seq E setup (fresh ths)) 0 (fun r t => In d (data_at (snd r) nA (qo_ns o)) /\
    wp (exec (query_http E addrs (Some o)) (snd r)) t (fun r' _ =>
      fst (fst r') = Http 200 None /\ all_data (snd r') = [] /\ w_dropped (snd r') = [])).
Proof. exact unanswered_query_refuted. Qed.
Print Assumptions C68_unencodable_refuted.

(* ---- C71 ---- *)
(* A put, a draining query, a distribution and a round of node A's event loop, all at once,
   step by step in turn. *)
Definition loopA : el_cfg := MkEl nA [nA; nB] (MkSkips 1 1 1 1 1 1 1 1 1) 1 1 1 1 3 (-1) 100 true 5.
Definition mix : list (job f64) :=
  [JPut [nA; nB; nC] (put2 ns2 [1;3]%Z); JQuery [nA; nB] (Some (MkQuery ns2 true (fv [1;5]%Z) 2 true));
   JReq nB (QDistributeFast ns2 1 [nA; nB]); JLoop loopA (fun _ => false) 1].
Definition turns : list nat := concat (repeat (seq 0 12) 120).
Lemma mix_ok : Jobs (dims_are dim2) abc mix.
Proof.
  repeat constructor; try (apply node_check; vm_compute; reflexivity); try discriminate.
  intros ns n n' H1 H2. unfold dims_are in *. congruence.
Qed.
Definition is_done (p : proc' f64 (done f64)) : bool := match p with Ret _ => true | _ => false end.
Example C71_case : WorldOk abc /\ DimsOk (dims_are dim2) abc /\ Jobs (dims_are dim2) abc mix /\
  Forall (fun j => ~ may_steal j) (firstn 3 mix) /\
  wp (interleave DIdle (firstn 40 turns) (map (run_job tieE) mix) abc) 0 (fun r _ => map is_done (fst r) = [false; false; false; false]).
Proof.
  splits; [apply world_check; vm_compute; reflexivity|apply dims_check; vm_compute; reflexivity|apply mix_ok| |vm_compute; auto].
  repeat constructor; cbn; auto.
Qed.

Theorem C71_no_crash : forall (N : Num) (E : Env N), EnvOk E -> NumOrd N -> forall D w js sched t,
  WorldOk w -> DimsOk D w -> Jobs D w js ->
  match interleave DIdle sched (map (run_job E) js) w t with
  | Ok ((_, w'), _) => WorldOk w' /\ DimsOk D w'
  | Panic => False
  | OutOfFuel => Exists may_steal js
  end.
Proof. exact @jobs_safe. Qed.
Print Assumptions C71_no_crash.

Theorem C71_complete : forall (N : Num) (E : Env N), EnvOk E -> NumOrd N -> forall D w js sched t,
  WorldOk w -> DimsOk D w -> Jobs D w js -> Forall (fun j => ~ may_steal j) js ->
  match interleave DIdle sched (map (run_job E) js) w t with
  | Ok ((th, w'), t') => exists sched2 ds w2 t2,
      interleave DIdle sched2 th w' t' = Ok ((map (fun d => Ret d) ds, w2), t2)
  | _ => False
  end.
Proof. exact @jobs_finish. Qed.
Print Assumptions C71_complete.

(* ---- C72 ---- *)
Theorem C72_conservation : forall (N : Num) (E : Env N), EnvOk E -> NumOrd N -> forall D w js sched t ds w' t',
  WorldOk w -> DimsOk D w -> Jobs D w js -> answers_arrive E ->
  interleave DIdle sched (map (run_job E) js) w t = Ok ((map (fun d => Ret d) ds, w'), t') ->
  exists dropped, w_dropped w' = w_dropped w ++ dropped /\
    keeps E t t' (all_data w ++ jobs_in js) (all_data w' ++ jobs_out ds ++ dropped) /\
    (none_refused E D w js -> Forall (fun e => seen_expired E t t' (snd e)) dropped).
Proof. exact @jobs_conserve. Qed.
Print Assumptions C72_conservation.

(* Here nothing is dropped for another reason than having expired, and the four datapoints
   and the one put are, at the end, the three that are stored and the two that were taken. *)
Example C72_case : none_refused tieE (dims_are dim2) abc mix /\ answers_arrive tieE /\ length (all_data abc) = 4 /\
  wp (interleave DIdle turns (map (run_job tieE) mix) abc) 0 (fun r _ => forallb is_done (fst r) = true /\
    length (all_data (snd r)) = 3 /\ length (w_dropped (snd r)) = 0).
Proof.
  splits; [|intros k; discriminate|vm_compute; reflexivity|vm_compute; auto].
  unfold none_refused. splits.
  - intros ns n n' H1 H2. unfold dims_are in *. congruence.
  - intros ns n _. apply tie_finds.
  - repeat (apply Forall_cons || apply Forall_nil); cbn [job_addrs mix]; auto; [cbn [req_addrs]; discriminate|].
    splits; [intros k; reflexivity|apply node_check; vm_compute; reflexivity|left; reflexivity].
Qed.

(* ---- C73 ---- *)
Theorem C73_isolation : forall (N : Num) (E : Env N), EnvOk E -> NumOrd N -> forall D w js sched t th w' t' a ns,
  WorldOk w -> DimsOk D w -> Jobs D w js -> Forall (fun j => ~ touches D j a ns) js ->
  interleave DIdle sched (map (run_job E) js) w t = Ok ((th, w'), t') ->
  manager w' a ns = manager w a ns.
Proof. exact @jobs_isolated. Qed.
Print Assumptions C73_isolation.

(* With dimensions only for the namespace m, the mix touches nothing of the namespace n. *)
Definition two_ns : World f64 := after cosE (spread ++ [(nA, QAdd ns1 (dp [5;5]%Z))]) (fresh [(nA, 2%Z); (nB, 2%Z); (nC, 2%Z)]).
Example C73_case : WorldOk two_ns /\ Forall (fun j => ~ touches (dims_are dim2) j nC ns1) mix /\
  Forall (fun j => ~ touches (dims_are dim2) j nA ns1) (firstn 3 mix) /\
  match manager two_ns nA ns1 with Some m => length (stored (cm_cs m)) = 1 | None => False end.
Proof.
  splits; [apply world_check; vm_compute; reflexivity| | |vm_compute; reflexivity];
    repeat (apply Forall_cons || apply Forall_nil); unfold put2; cbn [touches req_places map po_ns qo_ns In el_local el_remote loopA]; unfold nA, nB, nC, ns1, ns2; intuition discriminate.
Qed.

(* ---- C74 ---- *)
(* If the namespaces that the jobs use exist beforehand, nothing becomes unreachable. *)
Theorem C74_visible : forall (N : Num) (E : Env N), EnvOk E -> NumOrd N -> forall D w js sched t ds w' t',
  WorldOk w -> NoOrphans w -> DimsOk D w -> Jobs D w js ->
  Forall (fun j => forall b n, touches D j b n -> node_at w b <> None -> manager w b n <> None) js ->
  answers_arrive E ->
  interleave DIdle sched (map (run_job E) js) w t = Ok ((map (fun d => Ret d) ds, w'), t') ->
  exists dropped, w_dropped w' = w_dropped w ++ dropped /\
    keeps E t t' (visible w ++ jobs_in js) (visible w' ++ jobs_out ds ++ dropped) /\
    (none_refused E D w js -> Forall (fun e => seen_expired E t t' (snd e)) dropped).
Proof. exact @jobs_visible. Qed.
Print Assumptions C74_visible.

(* Puts and queries for nodes A and B, which have the namespace, and the loop of A. *)
Definition mix_ab : list (job f64) :=
  [JPut [nA; nB] (put2 ns2 [1;3]%Z); JQuery [nA; nB] (Some (MkQuery ns2 true (fv [1;5]%Z) 2 true));
   JReq nB (QDistributeFast ns2 1 [nA; nB]); JLoop loopA (fun _ => false) 1].
Definition only_m (ns : str) (n : nat) : Prop := ns = ns2 /\ n = 2.
Example C74_case : WorldOk abc /\ NoOrphans abc /\ DimsOk only_m abc /\ Jobs only_m abc mix_ab /\
  Forall (fun j => forall b n, touches only_m j b n -> node_at abc b <> None -> manager abc b n <> None) mix_ab /\
  wp (interleave DIdle turns (map (run_job tieE) mix_ab) abc) 0 (fun r _ => forallb is_done (fst r) = true /\ length (visible (snd r)) = 3).
Proof.
  assert (Hm : forall b, In b [nA; nB] -> manager abc b ns2 <> None).
  { intros b Hb. assert (H : forallb (fun b => match manager abc b ns2 with Some _ => true | None => false end) [nA; nB] = true)
      by (vm_compute; reflexivity). rewrite forallb_forall in H. specialize (H b Hb). destruct (manager abc b ns2); [discriminate|discriminate H]. }
  splits.
  - apply world_check; vm_compute; reflexivity.
  - apply orphans_check; vm_compute; reflexivity.
  - assert (Hn : forallb (fun e => forallb (fun s => str_eqb (fst s) ns2 && mgr_dim 2 (snd s)) (nd_heap (snd e))) (w_nodes abc) = true)
      by (vm_compute; reflexivity).
    intros a nd ns m H1 H2. rewrite forallb_forall in Hn. specialize (Hn _ H1). cbn [snd] in Hn. rewrite forallb_forall in Hn.
    specialize (Hn _ H2). cbn [fst snd] in Hn. apply andb_prop in Hn. destruct Hn as (Hn & Hd). apply str_eqb_eq in Hn. subst ns.
    exists 2. split; [split; reflexivity|apply mgr_dim_ok; exact Hd].
  - repeat constructor; try (apply node_check; vm_compute; reflexivity); try discriminate.
    intros ns n n' (_ & H1) (_ & H2). congruence.
  - repeat (apply Forall_cons || apply Forall_nil); cbn [touches req_places el_local el_remote loopA]; intros b n Hb _.
    + destruct Hb as (Hb & ->). apply (Hm b Hb).
    + destruct Hb as (Hb & ->). apply (Hm b Hb).
    + cbn [In map] in Hb. destruct Hb as [Hb|[Hb|[Hb|[]]]]; injection Hb as <- <-; apply Hm; cbn [In]; tauto.
    + destruct Hb as (Hb & k & -> & _). apply Hm. cbn [In] in Hb |- *. tauto.
  - vm_compute. auto.
Qed.
