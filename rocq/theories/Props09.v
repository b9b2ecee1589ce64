(* Properties C75-C77: requests, HTTP calls and event loops that run at the same time, with
   vectors of any lengths; what lasts whatever runs. *)
From Verif Require Import Base Num MathUtils Knn Env Centroid CManager DataSpec MgrSpec Wp NumFacts MathSpec
  TestEnv Proc Owns Server ServerSpec ServerFacts ServerProofs TestWorld Core EventLoop CoreSpec SystemProofs Locks LockSpec
  MixCase Props09Lemmas.
From Coq.Init Require Import Byte.
Local Open Scope nat_scope.

(* ---- C75 ---- *)
Theorem C75_any_lengths_safe : forall (N : Num) (E : Env N), EnvOk E -> NumOrd N -> forall D w js sched t,
  WorldOk w -> OwnDims D w -> AnyJobs D w js ->
  match interleave DIdle sched (map (run_job E) js) w t with
  | Ok ((_, w'), _) => WorldOk w' /\ OwnDims D w'
  | Panic => False
  | OutOfFuel => Exists may_steal js
  end.
Proof. exact @any_jobs_safe. Qed.
Print Assumptions C75_any_lengths_safe.

Theorem C75_any_lengths_complete : forall (N : Num) (E : Env N), EnvOk E -> NumOrd N -> forall D w js sched t,
  WorldOk w -> OwnDims D w -> AnyJobs D w js -> Forall (fun j => ~ may_steal j) js ->
  match interleave DIdle sched (map (run_job E) js) w t with
  | Ok ((th, w'), t') => exists sched2 ds w2 t2,
      interleave DIdle sched2 th w' t' = Ok ((map (fun d => Ret d) ds, w2), t2)
  | _ => False
  end.
Proof. exact @any_jobs_finish. Qed.
Print Assumptions C75_any_lengths_complete.

Theorem C75_any_lengths_conservation : forall (N : Num) (E : Env N), EnvOk E -> NumOrd N -> forall D w js sched t ds w' t',
  WorldOk w -> OwnDims D w -> AnyJobs D w js -> answers_arrive E ->
  interleave DIdle sched (map (run_job E) js) w t = Ok ((map (fun d => Ret d) ds, w'), t') ->
  exists dropped, w_dropped w' = w_dropped w ++ dropped /\
    keeps E t t' (all_data w ++ jobs_in js) (all_data w' ++ jobs_out ds ++ dropped) /\
    (none_refused E D w js -> Forall (fun e => seen_expired E t t' (snd e)) dropped).
Proof. exact @any_jobs_conserve. Qed.
Print Assumptions C75_any_lengths_conservation.

Theorem C75_any_lengths_reachable : forall (N : Num) (E : Env N), EnvOk E -> NumOrd N -> forall D w js sched t ds w' t',
  WorldOk w -> NoOrphans w -> OwnDims D w -> AnyJobs D w js ->
  Forall (fun j => forall b n, touches D j b n -> node_at w b <> None -> manager w b n <> None) js ->
  answers_arrive E ->
  interleave DIdle sched (map (run_job E) js) w t = Ok ((map (fun d => Ret d) ds, w'), t') ->
  exists dropped, w_dropped w' = w_dropped w ++ dropped /\
    keeps E t t' (visible w ++ jobs_in js) (visible w' ++ jobs_out ds ++ dropped) /\
    (none_refused E D w js -> Forall (fun e => seen_expired E t t' (snd e)) dropped).
Proof. exact @any_jobs_visible. Qed.
Print Assumptions C75_any_lengths_reachable.

Theorem C75_any_lengths_isolation : forall (N : Num) (E : Env N), EnvOk E -> NumOrd N -> forall D w js sched t th w' t' a ns,
  WorldOk w -> OwnDims D w -> AnyJobs D w js -> Forall (fun j => ~ touches D j a ns) js ->
  interleave DIdle sched (map (run_job E) js) w t = Ok ((th, w'), t') ->
  manager w' a ns = manager w a ns.
Proof. exact @any_jobs_isolated. Qed.
Print Assumptions C75_any_lengths_isolation.

(* One instruction at a time, with mutexes. *)
Theorem C75_locks_safe : forall (N : Num) (E : Env N), EnvOk E -> NumOrd N -> forall D w js sched t,
  WorldOk w -> OwnDims D w -> AnyJobs D w js ->
  match irun DIdle sched (istart (map (run_job E) js) w) t with
  | Ok _ => True
  | Panic => False
  | OutOfFuel => Exists may_steal js
  end.
Proof. exact @any_locks_safe. Qed.
Print Assumptions C75_locks_safe.

Theorem C75_locks_complete : forall (N : Num) (E : Env N), EnvOk E -> NumOrd N -> forall D w js sched t,
  WorldOk w -> OwnDims D w -> AnyJobs D w js -> Forall (fun j => ~ may_steal j) js ->
  match irun DIdle sched (istart (map (run_job E) js) w) t with
  | Ok (s', t') => exists sched2 s2 t2 ds, irun DIdle sched2 s' t' = Ok (s2, t2) /\ all_ended s2 ds
  | _ => False
  end.
Proof. exact @any_locks_finish. Qed.
Print Assumptions C75_locks_complete.

Theorem C75_locks_conservation : forall (N : Num) (E : Env N), EnvOk E -> NumOrd N -> forall D w js sched t s' t' ds,
  WorldOk w -> OwnDims D w -> AnyJobs D w js -> answers_arrive E ->
  irun DIdle sched (istart (map (run_job E) js) w) t = Ok (s', t') -> all_ended s' ds ->
  WorldOk (world_of s') /\ OwnDims D (world_of s') /\
  exists dropped,
    keeps E t t' (all_data w ++ jobs_in js) (all_data (world_of s') ++ jobs_out ds ++ dropped) /\
    (none_refused E D w js -> Forall (fun e => seen_expired E t t' (snd e)) dropped).
Proof. exact @any_locks_conserve. Qed.
Print Assumptions C75_locks_conservation.

(* While node A steals from node B, A's only centroid is taken out by a draining search and a
   datapoint with three numbers is added: the manager of A then holds vectors of two lengths.
   Two jobs of the three do not steal. *)
Example C75_case : EnvOk cosE /\ NumOrd f64 /\ answers_arrive cosE /\
  WorldOk apart /\ NoOrphans apart /\ OwnDims any_dim apart /\ AnyJobs any_dim apart mixers /\
  Forall (fun j => ~ may_steal j) (tl mixers) /\
  (forall ns, ns <> ns2 -> Forall (fun j => ~ touches any_dim j nA ns) mixers) /\
  Forall (fun j => forall b n, touches any_dim j b n -> node_at apart b <> None -> manager apart b n <> None) mixers /\
  length (all_data apart) = 2 /\ lengths apart nA ns2 = [2] /\ lengths apart nB ns2 = [2] /\
  wp (interleave DIdle mixing (map (run_job cosE) mixers) apart) 0 (fun r _ =>
    forallb over (fst r) = true /\ lengths (snd r) nA ns2 = [3; 2] /\ lengths (snd r) nB ns2 = [] /\
    length (all_data (snd r)) = 2).
Proof. exact mixers_case. Qed.

(* ---- C76 ---- *)
(* In DimsOk any_dim, each manager has one length of its own; so in the conclusion. *)
Theorem C76_one_length : forall (N : Num) (E : Env N), EnvOk E -> NumOrd N -> forall D l w t, WorldOk w -> DimsOk D w ->
  Forall (fun e => node_at w (fst e) <> None /\ req_counts (snd e) /\ req_fits D (snd e)) l ->
  match serve_seq E l w t with
  | Ok ((_, w'), _) => WorldOk w' /\ DimsOk D w'
  | Panic => False
  | OutOfFuel => Exists (fun e => is_steal (snd e)) l
  end.
Proof. exact @uniform_seq. Qed.
Print Assumptions C76_one_length.

Example C76_case : EnvOk cosE /\ NumOrd f64 /\ WorldOk differ /\ DimsOk any_dim differ /\
  Forall (fun e => node_at differ (fst e) <> None /\ req_counts (snd e) /\ req_fits any_dim (snd e)) one_by_one /\
  lengths differ nA ns2 = [2] /\ lengths differ nB ns2 = [3] /\
  wp (serve_seq cosE one_by_one differ) 0 (fun r _ => map total_of (fst r) = [Some 0; None; None; Some 1] /\
    lengths (snd r) nA ns2 = [3; 3] /\ lengths (snd r) nB ns2 = []).
Proof. exact one_by_one_case. Qed.

(* Not so when requests run at the same time. *)
Theorem C76_concurrent_refuted : exists (E : Env f64) w js sched a ns,
  EnvOk E /\ WorldOk w /\ DimsOk any_dim w /\ AnyJobs any_dim w js /\
  wp (interleave DIdle sched (map (run_job E) js) w) 0 (fun r _ => forallb over (fst r) = true /\ lengths (snd r) a ns = [3; 2]).
Proof. exact mixed_by_race. Qed.
Print Assumptions C76_concurrent_refuted.

(* ---- C77 ---- *)
Theorem C77_namespaces_last : forall (N : Num) (E : Env N), EnvOk E -> NumOrd N -> forall D w js sched t th w' t',
  WorldOk w -> OwnDims D w -> AnyJobs D w js ->
  interleave DIdle sched (map (run_job E) js) w t = Ok ((th, w'), t') -> Lasts w w'.
Proof. exact @any_jobs_last. Qed.
Print Assumptions C77_namespaces_last.

(* The case of C75: both nodes have the namespace before and after, and no other node appears. *)
Example C77_case : WorldOk apart /\ OwnDims any_dim apart /\ AnyJobs any_dim apart mixers /\
  wp (interleave DIdle mixing (map (run_job cosE) mixers) apart) 0 (fun r _ =>
    map (fun a => has_ns apart a ns2) [nA; nB; nX] = [true; true; false] /\
    map (fun a => has_ns (snd r) a ns2) [nA; nB; nX] = [true; true; false]).
Proof.
  splits; [apply world_check; vm_compute; reflexivity|apply own_dims_check; vm_compute; reflexivity|apply mixers_ok|vm_compute; auto].
Qed.
