(* Property C41: requests, HTTP calls and event loops that run at the same time, one
   instruction at a time. *)
From Verif Require Import Base Num MathUtils Knn Env Centroid CManager DataSpec MgrSpec Wp NumFacts MathSpec
  TestEnv Proc Owns Server ServerSpec ServerFacts ServerProofs TestWorld Core EventLoop CoreSpec Locks LockSpec LockCase Props08Lemmas.
From Coq.Init Require Import Byte.
Local Open Scope nat_scope.

(* ---- C41 ---- *)
Theorem C41_no_deadlock : forall (N : Num) (E : Env N) js w sched t s' t',
  irun DIdle sched (istart (map (run_job E) js) w) t = Ok (s', t') ->
  one_each s' /\ no_deadlock s'.
Proof. exact @jobs_no_deadlock. Qed.
Print Assumptions C41_no_deadlock.

Theorem C41_no_crash : forall (N : Num) (E : Env N), EnvOk E -> NumOrd N -> forall D w js sched t,
  WorldOk w -> DimsOk D w -> Jobs D w js ->
  match irun DIdle sched (istart (map (run_job E) js) w) t with
  | Ok _ => True
  | Panic => False
  | OutOfFuel => Exists may_steal js
  end.
Proof. exact @jobs_locks_safe. Qed.
Print Assumptions C41_no_crash.

Theorem C41_complete : forall (N : Num) (E : Env N), EnvOk E -> NumOrd N -> forall D w js sched t,
  WorldOk w -> DimsOk D w -> Jobs D w js -> Forall (fun j => ~ may_steal j) js ->
  match irun DIdle sched (istart (map (run_job E) js) w) t with
  | Ok (s', t') => exists sched2 s2 t2 ds, irun DIdle sched2 s' t' = Ok (s2, t2) /\ all_ended s2 ds
  | _ => False
  end.
Proof. exact @jobs_locks_finish. Qed.
Print Assumptions C41_complete.

(* Whatever the mutexes let through looks as if each critical section had been one step. *)
Theorem C41_atomic : forall (N : Num) (E : Env N) js w sched t s' t' ds, NoDup (map fst (w_nodes w)) ->
  irun DIdle sched (istart (map (run_job E) js) w) t = Ok (s', t') -> all_ended s' ds ->
  locked s' = [] /\
  exists sched' w', interleave DIdle sched' (map (run_job E) js) w t = Ok ((map (fun d => Ret d) ds, w'), t') /\
    w_nodes (world_of s') = w_nodes w'.
Proof. exact @jobs_atomic. Qed.
Print Assumptions C41_atomic.

Theorem C41_conservation : forall (N : Num) (E : Env N), EnvOk E -> NumOrd N -> forall D w js sched t s' t' ds,
  WorldOk w -> DimsOk D w -> Jobs D w js -> answers_arrive E ->
  irun DIdle sched (istart (map (run_job E) js) w) t = Ok (s', t') -> all_ended s' ds ->
  WorldOk (world_of s') /\ DimsOk D (world_of s') /\
  exists dropped,
    keeps E t t' (all_data w ++ jobs_in js) (all_data (world_of s') ++ jobs_out ds ++ dropped) /\
    (none_refused E D w js -> Forall (fun e => seen_expired E t t' (snd e)) dropped).
Proof. exact @jobs_locks_conserve. Qed.
Print Assumptions C41_conservation.

(* Two adds and a draining search on one manager.  After twelve instructions the first add is
   between Lock and Unlock of the manager's slot, and the second, which has looked up the
   namespace, waits for it. *)
Definition contended : list nat := repeat 0 6 ++ repeat 1 6.
Definition round_robin : list nat := concat (repeat [0; 1; 2; 1; 0] 14).
Definition wants (e : list lock * iproc f64 (done f64)) : option lock := match snd e with ILock l _ => Some l | _ => None end.
Definition finished (e : list lock * iproc f64 (done f64)) : bool := match snd e with IRet _ => true | _ => false end.
Example C41_case : WorldOk pair /\ DimsOk (dims_are dim2) pair /\ Jobs (dims_are dim2) pair adds /\
  Forall (fun j => ~ may_steal j) adds /\ answers_arrive cosE /\
  wp (irun DIdle contended (istart (map (run_job cosE) adds) pair)) 0 (fun s _ =>
    locked s = [LSlot nA 0] /\ map fst (threads s) = [[LSlot nA 0]; []; []] /\
    map wants (threads s) = [None; Some (LSlot nA 0); Some (LTable nA)]) /\
  wp (irun DIdle round_robin (istart (map (run_job cosE) adds) pair)) 0 (fun s _ =>
    forallb finished (threads s) = true /\ length (all_data (world_of s)) = 3).
Proof.
  splits; [apply world_check; vm_compute; reflexivity|apply dims_check; vm_compute; reflexivity|apply adds_ok| | |vm_compute; auto|vm_compute; auto].
  - repeat constructor; cbn; auto.
  - intros k; discriminate.
Qed.

(* The same instructions without Lock and Unlock lose a datapoint although both adds are
   answered with true. *)
Example C41_locks_needed : exists (E : Env f64) w js sched, EnvOk E /\ WorldOk w /\ Jobs (dims_are dim2) w js /\
  jobs_in js = tag ns2 [dp [3;3]%Z; dp [4;2]%Z] /\ length (all_data w) = 2 /\
  wp (irun DIdle sched (no_locks (istart (map (run_job E) js) w))) 0 (fun s _ =>
    map said_yes (threads s) = [true; true] /\
    length (all_data (world_of s)) = 3).
Proof. exact without_locks. Qed.
