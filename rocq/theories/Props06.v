(* Properties C46, C52-C58, C69 and C70: the event loop, the parallel fetch, the arbiter
   helpers and the shipped configuration. *)
From Verif Require Import Base Num MathUtils Knn Env Centroid CManager DataSpec MgrSpec Wp NumFacts MathSpec TestEnv Proc Owns
  Server ServerSpec ServerFacts TestWorld Core EventLoop CoreSpec Props05Lemmas Props05 LoopSpec LoopProofs LoopProofs2 Fetch FetchProofs
  Service Props06Lemmas.
From Coq.Init Require Import Byte.
Local Open Scope nat_scope.

(* ---- C46 ---- *)
Theorem C46_no_sender_blocks : forall (A V : Type) (answers : A -> option V -> Prop) addrs s f,
  fetch_run answers (length addrs) s (fetch_start addrs) f -> f_ready f <> [] -> length (f_chan f) < length addrs.
Proof. exact @fetch_never_blocks. Qed.
Print Assumptions C46_no_sender_blocks.

Theorem C46_progress : forall (A V : Type) (answers : A -> option V -> Prop) addrs s f,
  (forall a, In a addrs -> exists r, answers a r) -> fetch_run answers (length addrs) s (fetch_start addrs) f ->
  s <= 3 * length addrs /\ (fetch_done (length addrs) f \/ exists f', fetch_step answers (length addrs) f f').
Proof. exact @fetch_progress. Qed.
Print Assumptions C46_progress.

Theorem C46_collects : forall (A V : Type) (answers : A -> option V -> Prop) addrs s f,
  fetch_run answers (length addrs) s (fetch_start addrs) f -> fetch_done (length addrs) f ->
  f_busy f = [] /\ f_ready f = [] /\ f_chan f = [] /\
  exists got, Permutation (map fst got) addrs /\ Forall (fun x => answers (fst x) (snd x)) got /\
    f_kept f = flat_map (fun x => match snd x with Some v => [(fst x, v)] | None => [] end) got.
Proof. exact @fetch_collects. Qed.
Print Assumptions C46_collects.

(* Two addresses, the second of which answers first and has nothing. *)
Definition odd_answers (a : nat) (r : option nat) : Prop := r = if Nat.even a then None else Some a.
Example C46_case : fetch_run odd_answers (length [1; 2]) 6 (fetch_start [1; 2]) (MkFetch [] [] [] 2 [(1, 1)]) /\
  (forall a, In a [1; 2] -> exists r, odd_answers a r).
Proof.
  split; [|intros a _; eexists; reflexivity].
  eapply fr_step; [|apply (f_receive _ _ [] [] (1, Some 1) [] 1 []); cbn; lia].
  eapply fr_step; [|apply (f_send _ _ [] [] (1, Some 1) [] [] 1 []); cbn; lia].
  eapply fr_step; [|apply (f_answer _ _ [] 1 [] [] [] 1 [] (Some 1)); reflexivity].
  eapply fr_step; [|apply (f_receive _ _ [1] [] (2, None) [] 0 []); cbn; lia].
  eapply fr_step; [|apply (f_send _ _ [1] [] (2, None) [] [] 0 []); cbn; lia].
  eapply fr_step; [|apply (f_answer _ _ [1] 2 [] [] [] 0 [] None); reflexivity].
  apply fr_none.
Qed.

(* ---- C52 ---- *)
Theorem C52_schedule : forall s n t, (forall k, interval s k <> 0%Z) ->
  exists t', exec (logging s (fun _ => false) n) [] t = Ok ((false, schedule s n), t').
Proof. exact logging_schedule. Qed.
Print Assumptions C52_schedule.

Example C52_case : (forall k, interval (every 2) k <> 0%Z) /\
  match exec (logging (every 2) (fun _ => false) 3) [] 0 with
  | Ok ((_, l), _) => map fst l = repeat 0%Z 9 ++ [1%Z] ++ repeat 2%Z 9
  | _ => False end.
Proof. split; [intros []; discriminate|vm_compute; reflexivity]. Qed.

Theorem C52_every_kth_refuted : exists s k n, interval s k = 2%Z /\ (forall k', interval s k' <> 0%Z) /\
  runs k (schedule s (2 * n)) <> n.
Proof. exact kth_loop_refuted. Qed.
Print Assumptions C52_every_kth_refuted.

Theorem C52_period : forall s k n, (1 <= interval s k <= 1000)%Z ->
  runs k (schedule s (1001 * n)) = n * (Z.to_nat (1000 / interval s k) + 1).
Proof. exact period_runs. Qed.
Print Assumptions C52_period.

Example C52_period_case : interval (every 3) TExpire = 3%Z /\ runs TExpire (schedule (every 3) (1001 * 2)) = 2 * 334.
Proof. vm_compute. auto. Qed.

(* ---- C53 ---- *)
Theorem C53_runs : forall c k n, k <> TMeta -> (1000 < interval (el_skip c) k)%Z ->
  runs k (schedule (el_skip (validate c)) (1001 * n)) = 2 * n.
Proof. exact over_1000_runs. Qed.
Print Assumptions C53_runs.

Example C53_case : let c := MkEl nA [nA] (every 5000) 1 1 1 1 1 1 1 true 1 in
  interval (el_skip c) TMerge = 5000%Z /\ runs TMerge (schedule (el_skip (validate c)) (1001 * 2)) = 4.
Proof. vm_compute. auto. Qed.

Theorem C53_never_refuted : exists c k, (1000 < interval (el_skip c) k)%Z /\
  forall n, runs k (schedule (el_skip (validate c)) (S n)) <> 0.
Proof. exact over_1000_refuted. Qed.
Print Assumptions C53_never_refuted.

(* ---- C54 ---- *)
Theorem C54_validated : forall c k, k <> TMeta ->
  let v := interval (el_skip c) k in let v' := interval (el_skip (validate c)) k in
  (1 <= v' <= 1000)%Z /\ ((1 <= v <= 1000)%Z -> v' = v) /\ ((v < 1)%Z -> v' = 1%Z) /\ ((1000 < v)%Z -> v' = 1000%Z).
Proof. exact validated. Qed.
Print Assumptions C54_validated.

Theorem C54_rest : forall c, sk_meta (el_skip (validate c)) = sk_meta (el_skip c) /\
  el_local (validate c) = el_local c /\ el_remote (validate c) = el_remote c /\ validate (validate c) = validate c.
Proof. exact validated_rest. Qed.
Print Assumptions C54_rest.

Example C54_case : let c := MkEl nA [nA] (MkSkips 0 (-5) 1 500 1000 1001 2000 7 3) 1 1 1 1 1 1 1 true 1 in
  map (interval (el_skip (validate c))) task_order = [3; 1; 1; 1000; 1000; 1000; 1; 500; 7]%Z.
Proof. vm_compute. reflexivity. Qed.

Theorem C54_zero_meta : forall (N : Num) (E : Env N) c stop n w t, sk_meta (el_skip c) = 0%Z ->
  stop t = false -> stop (S t) = false -> stop (S (S t)) = false ->
  exec (event_loop E c stop (S n)) w t = Panic.
Proof. exact @zero_meta. Qed.
Print Assumptions C54_zero_meta.

Theorem C54_meta_refuted : exists (E : Env f64) c, EnvOk E /\
  Forall (fun k => k <> TMeta -> interval (el_skip c) k = 1%Z) task_order /\
  forall w t, exec (event_loop E c (fun _ => false) 1) w t = Panic.
Proof. exact zero_interval_refuted. Qed.
Print Assumptions C54_meta_refuted.

(* ---- C55 ---- *)
Theorem C55_stop : forall (W L : Type) (body : Z -> task -> proc (LW W) L unit) B,
  (forall i k, quiet (body i k) /\ short B (body i k)) ->
  forall dflt before after n sched x t th x' t', Forall quiet before -> Forall quiet after ->
  interleave dflt sched (before ++ stoppable body n :: after) x t = Ok ((th, x'), t') ->
  late x' <= late x + (if flag x then 0 else 1) /\
  forall sched2 th2 x2 t2 p, flag x' = true -> nth_error th (length before) = Some p -> unfinished p ->
    interleave dflt sched2 th x' t' = Ok ((th2, x2), t2) ->
    (forall r, nth_error th2 (length before) = Some (Ret r) -> r = true) /\
    (B + 12 <= count_occ Nat.eq_dec sched2 (length before) -> nth_error th2 (length before) = Some (Ret true)).
Proof. exact stopping. Qed.
Print Assumptions C55_stop.

(* Processes on the plain world and the one that stops the loop are quiet. *)
Theorem C55_quiet : forall (W L : Type), quiet (stopper : proc (LW W) L unit) /\
  forall R (p : proc W L R), quiet (lifted p).
Proof. intros W L. exact (conj quiet_stopper (fun R p => quiet_lifted p)). Qed.
Print Assumptions C55_quiet.

(* The loop may start one task although the flag is set by then; here it does: the stopper
   runs between the loop's second look and the start of the task. *)
Definition count_body (_ : Z) (_ : task) : proc (LW nat) unit unit := lifted (Act None (fun w => ret (tt, S w)) Ret).
Definition stop_pool : list (proc (LW nat) unit bool) := [pbind stopper (fun _ => Ret true); stoppable count_body 5].
Example C55_case :
  (forall i k, quiet (count_body i k) /\ short 1 (count_body i k)) /\
  wp (interleave true (repeat 1 3 ++ [0] ++ repeat 1 20) stop_pool (0, false, [])) 0 (fun r _ =>
    late (snd r) = 1 /\ fst (fst (snd r)) = 1 /\ match fst r with [Ret _; Ret b] => b = true | _ => False end) /\
  wp (interleave true (repeat 1 12 ++ [0] ++ repeat 1 20) stop_pool (0, false, [])) 0 (fun r _ =>
    late (snd r) = 0 /\ fst (fst (snd r)) = 3 /\ match fst r with [Ret _; Ret b] => b = true | _ => False end).
Proof.
  splits; [|vm_compute; auto|vm_compute; auto].
  intros i k. split; [apply quiet_lifted|]. cbn. auto.
Qed.

(* ---- C56 ---- *)
Theorem C56_pulls : forall got c naddrs mean todo lens t, el_remote c <> [] -> (0 <= mean)%Z -> NoDup (map fst todo) ->
  wp (exec (balance_loop (ask_log got) c naddrs mean (margin_of mean) todo lens) []) t
    (fun r _ => pulls c naddrs mean (margin_of mean) todo (len_at lens (el_local c)) (snd r) /\ NoDup (map asked_of (snd r))).
Proof. exact balance_pulls_ok. Qed.
Print Assumptions C56_pulls.

(* Node C has nothing, A and B have plenty: 27 are wanted of A and 30 come, then 24 of B. *)
Definition sizes_abc : list (str * Z) := [(nA, 400%Z); (nB, 500%Z); (nC, 0%Z)].
Definition loopC : el_cfg := MkEl nC [nA; nB; nC] (MkSkips 1 1 1 1 1 1 1 1 1) 1 1 1 1 3 (-1) 100 true 5.
Example C56_case : (0 <= 250)%Z /\ NoDup (map fst sizes_abc) /\ margin_of 250 = 100%Z /\
  wp (exec (balance_loop (ask_log (fun k => if k =? 0 then 30 else 20)) loopC 3 250 (margin_of 250) sizes_abc sizes_abc) []) 0
    (fun r _ => snd r = [(nA, 27%Z, 30); (nB, 24%Z, 20)]).
Proof. splits; [lia|apply distinct_nodup; reflexivity|vm_compute; reflexivity|vm_compute; reflexivity]. Qed.

Theorem C56_balanced : forall (N : Num) (E : Env N), EnvOk E -> forall c tbl ns w t, all_delivered E -> WorldOk w ->
  el_remote c <> [] -> NoDup (addrs_with tbl ns) -> In (el_local c) (addrs_with tbl ns) ->
  (let mean := mean_of w ns (addrs_with tbl ns) in let here := size_at w ns (el_local c) in
   mean - margin_of mean < here \/ mean - here < 3 * Z.of_nat (length (el_remote c)))%Z ->
  wp (exec (balance_ns E c tbl ns) w) t (fun r _ => snd r = w).
Proof. exact @balanced_stays. Qed.
Print Assumptions C56_balanced.

(* Two datapoints each; and nine at A, one at B, too few for a transfer. *)
Definition nine : World f64 := after cosE (repeat (nA, QAdd ns2 (dp [9;1]%Z)) 9 ++ [(nB, QAdd ns2 (dp [9;1]%Z))]) (fresh [(nA, 20%Z); (nB, 20%Z)]).
Definition loopB : el_cfg := MkEl nB [nA; nB] (MkSkips 1 1 1 1 1 1 1 1 1) 1 1 1 1 3 (-1) 100 true 5.
Example C56_balanced_case : let tbl := [(ns2, [nA; nB])] in
  WorldOk abc /\ In nA (addrs_with tbl ns2) /\ mean_of abc ns2 [nA; nB] = 2%Z /\ size_at abc ns2 nA = 2%Z /\
  WorldOk nine /\ mean_of nine ns2 [nA; nB] = 5%Z /\ margin_of 5 = 2%Z /\ size_at nine ns2 nB = 1%Z /\ size_at nine ns2 nA = 9%Z /\
  wp (exec (balance_ns cosE loopB tbl ns2) nine) 0 (fun r _ => length (data_at (snd r) nA ns2) = 9).
Proof.
  cbv zeta. splits; [apply world_check|left; reflexivity| | |apply world_check| | | | |]; vm_compute; reflexivity.
Qed.

(* ---- C57 ---- *)
Theorem C57_table : forall (N : Num) (E : Env N), EnvOk E -> forall addrs w t, WorldOk w ->
  wp (exec (poll E addrs []) w) t (fun r _ => snd r = w /\ exists answered, sublist answered addrs /\
    (all_delivered E -> answered = addrs) /\
    (forall ns, addrs_with (fst r) ns = filter (holds_ns w ns) answered) /\
    (forall ns, In ns (map fst (fst r)) <-> exists a, In a answered /\ holds_ns w ns a = true)).
Proof. exact namespace_table. Qed.
Print Assumptions C57_table.

Example C57_case : wp (exec (poll cosE [nC; nB; nA] []) abc) 0 (fun r _ => fst r = [(ns2, [nB; nA])]).
Proof. vm_compute. auto. Qed.

(* ---- C58 ---- *)
Theorem C58_check_all : forall (A Er : Type) (m l : list (A * option Er)), Permutation l m ->
  match check_all l with
  | None => forall a e, ~ In (a, Some e) m
  | Some (a, e) => In (a, Some e) m
  end.
Proof. exact @arbiter_check. Qed.
Print Assumptions C58_check_all.

Theorem C58_uniform_status : forall (A : Type) sc (m l : list (A * Z)), Permutation l m ->
  (uniform_status sc l = true <-> forall a s, In (a, s) m -> s = sc).
Proof. exact @arbiter_uniform. Qed.
Print Assumptions C58_uniform_status.

Example C58_case : check_all [(1, None); (2, Some 5); (3, Some 6)] = Some (2, 5) /\ check_all [(3, Some 6); (1, None); (2, Some 5)] = Some (3, 6) /\
  uniform_status 7 [(1, 7%Z); (2, 7%Z)] = true /\ uniform_status 7 [(1, 7%Z); (2, 8%Z)] = false.
Proof. vm_compute. auto. Qed.

(* ---- C69 ---- *)
Theorem C69_unlisted_refuted : exists (E : Env f64) ths setup c sched d, EnvOk E /\ all_delivered E /\ never_expired E [d] /\ loop_ok c /\
  ~ In (el_local c) (el_remote c) /\
  wp (serve_seq E setup (fresh ths)) 0 (fun r t => In (ns1, d) (all_data (snd r)) /\
    wp (interleave DIdle sched [run_job E (JLoop c (fun _ => false) 1)] (snd r)) t (fun r' _ =>
      match fst r' with Ret (DLoop _) :: _ => True | _ => False end /\ all_data (snd r') = [] /\ w_dropped (snd r') = [(ns1, d)])).
Proof. exact unlisted_refuted. Qed.
Print Assumptions C69_unlisted_refuted.

(* ---- C70 ---- *)
Theorem C70_shipped : forall now perm fates rnd addrs D fuel n stop hs sched t,
  (forall k m, Permutation (perm k m) (seq 0 m)) -> NoDup addrs -> one_dim D ->
  Forall (fun h => match h with HPut (Some o) => D (po_ns o) (length (wi_vec (po_dp o))) | _ => True end) hs ->
  match interleave DIdle sched
    (map (run_job (shipped_env now perm fates rnd)) (service_loops addrs fuel n stop ++ map (service_http addrs) hs)) (service_start addrs) t with
  | Ok ((_, w), _) => WorldOk w /\ DimsOk D w
  | Panic => False
  | OutOfFuel => addrs <> []
  end.
Proof. exact shipped_runs. Qed.
Print Assumptions C70_shipped.

Theorem C70_valid : forall a addrs fuel, validate (shipped a addrs fuel) = shipped a addrs fuel /\ loop_ok (shipped a addrs fuel).
Proof. exact shipped_valid. Qed.
Print Assumptions C70_valid.

(* Meta, Expire, MemTrim, Merge, Split, Internal, Fast, Accurate, LoadBalancing. *)
Theorem C70_period : forall a addrs fuel,
  map (fun k => runs k (schedule (el_skip (shipped a addrs fuel)) 1001)) task_order = [1001; 51; 101; 334; 334; 334; 251; 126; 143].
Proof. exact shipped_period. Qed.
Print Assumptions C70_period.

(* Two services, three puts and a draining query, in turns: all are answered. *)
Definition two_hs : list http_call := [HPut (put2 ns1 [1;3]%Z); HPut (put2 ns1 [2;1]%Z); HPut (put2 ns1 [4;1]%Z);
  HQuery (Some (MkQuery ns1 true (fv [1;5]%Z) 1 true))].
Definition natural (_ n : nat) : list nat := seq 0 n.
Example C70_case : NoDup [nA; nB] /\ one_dim (dims_are dim2) /\
  Forall (fun h => match h with HPut (Some o) => dims_are dim2 (po_ns o) (length (wi_vec (po_dp o))) | _ => True end) two_hs /\
  wp (interleave DIdle (concat (repeat (seq 0 30) 150))
       (map (run_job (shipped_env (fun _ => 0%Z) natural (fun _ => Delivered) (fun k => k)))
            (service_loops [nA; nB] 5 1 (fun _ _ => false) ++ map (service_http [nA; nB]) two_hs)) (service_start [nA; nB])) 0
    (fun r _ => forallb is_done (fst r) = true /\ length (all_data (snd r)) + length (w_dropped (snd r)) <= 3).
Proof.
  splits; [apply distinct_nodup; reflexivity|intros ns n n' H1 H2; unfold dims_are in *; congruence| |].
  - repeat (apply Forall_cons || apply Forall_nil); unfold put2; reflexivity || exact I.
  - vm_compute. split; [reflexivity|]. repeat constructor.
Qed.
