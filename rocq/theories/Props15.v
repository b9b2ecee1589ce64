(* Properties C92-C94: what a network that loses messages can and cannot do to the data. *)
From Verif Require Import Base Num MathUtils Knn Env Centroid CManager DataSpec MgrSpec Wp NumFacts MathSpec TestEnv Proc Owns
  Server ServerSpec ServerFacts TestWorld Core EventLoop CoreSpec Props05Lemmas Props05 MixCase OriginSpec OriginProofs CopiesProofs LossProofs.
Local Open Scope nat_scope.

(* A put, a distribution and a query, step by step in turn; every fourth message loses its answer. *)
Definition lossy4 : Env f64 := lossy (fun k => if k mod 4 =? 3 then RespLost else Delivered).
Definition jobs3 : list (job f64) := [JPut [nA; nB] (put2 ns2 [3;1]%Z); JReq nA (QDistributeFast ns2 2 [nB; nA]);
  JQuery [nA; nB] (Some (MkQuery ns2 true (fv [1;5]%Z) 2 false))].
Definition is31 (_ : str) (d : DataPoint f64) : bool := dp_same d (dp [3;1]%Z).

(* ---- C92 ---- *)
Theorem C92_nothing_made_up : forall (N : Num) (E : Env N) jobs sched t w l w' t', WorldOk w ->
  interleave DIdle sched (map (run_job E) jobs) w t = Ok ((l, w'), t') ->
  let known := all_data w ++ w_dropped w ++ jobs_in jobs in
  incl (all_data w') known /\ incl (w_dropped w') known /\ (forall x, In (Ret x) l -> incl (shown x) known).
Proof. exact @nothing_made_up. Qed.
Print Assumptions C92_nothing_made_up.

(* Four datapoints and the one put are seven in the end, and the query finds and shows two. *)
Example C92_case : WorldOk abc /\ length (all_data abc) = 4 /\ length (jobs_in jobs3) = 1 /\
  wp (interleave DIdle turns (map (run_job lossy4) jobs3) abc) 0 (fun r _ => forallb is_done (fst r) = true /\ length (all_data (snd r)) = 7 /\
    map (fun d => length (shown d)) (ended (fst r)) = [0; 0; 4; 0; 0; 0]).
Proof. splits; [apply world_check; vm_compute; reflexivity|vm_compute; reflexivity|vm_compute; reflexivity|vm_compute; auto]. Qed.

(* ---- C93 ---- *)
Theorem C93_copies : forall (N : Num) (E : Env N), EnvOk E -> forall f jobs sched t w l w' t',
  WorldOk w -> OwnDims any_dim w -> Forall job_counts jobs ->
  interleave DIdle sched (map (run_job E) jobs) w t = Ok ((l, w'), t') ->
  members f (all_data w') + members f (w_dropped w') + members f (jobs_out (ended l)) <=
  members f (all_data w) + members f (w_dropped w) + members f (jobs_in jobs) + answers_lost E t t'.
Proof. exact @copies_bounded. Qed.
Print Assumptions C93_copies.

(* One lost answer, one more copy of the datapoint put. *)
Definition lossy15 : Env f64 := lossy (fun k => if k =? 15 then RespLost else Delivered).
Example C93_case : EnvOk lossy15 /\ WorldOk abc /\ OwnDims any_dim abc /\ Forall job_counts jobs3 /\
  members is31 (all_data abc) = 0 /\ members is31 (jobs_in jobs3) = 1 /\
  wp (interleave DIdle turns (map (run_job lossy15) jobs3) abc) 0 (fun r t' => forallb is_done (fst r) = true /\
    members is31 (all_data (snd r)) = 2 /\ answers_lost lossy15 0 t' = 1).
Proof.
  splits; [apply lossy_ok|apply world_check; vm_compute; reflexivity|apply own_dims_check; vm_compute; reflexivity|
    repeat constructor|vm_compute; reflexivity|vm_compute; reflexivity|vm_compute; auto].
Qed.

(* ---- C94 ---- *)
Theorem C94_nothing_lost : forall (N : Num) (E : Env N), EnvOk E -> forall f jobs sched t w l w' t', lives E f ->
  WorldOk w -> OwnDims any_dim w -> Forall job_counts jobs -> Forall nothing_drained jobs ->
  interleave DIdle sched (map (run_job E) jobs) w t = Ok ((l, w'), t') -> Forall is_ret l ->
  members f (all_data w) + members f (w_dropped w) + members f (jobs_in jobs) <=
  members f (all_data w') + members f (w_dropped w') + members f (jobs_out (ended l)).
Proof. exact @nothing_lost. Qed.
Print Assumptions C94_nothing_lost.

Example C94_case : EnvOk lossy4 /\ lives lossy4 is31 /\ Forall job_counts jobs3 /\ Forall nothing_drained jobs3 /\
  wp (interleave DIdle turns (map (run_job lossy4) jobs3) abc) 0 (fun r t' => forallb is_done (fst r) = true /\
    members is31 (all_data (snd r)) = 2 /\ answers_lost lossy4 0 t' = 9).
Proof.
  splits; [apply lossy_ok| |repeat constructor|repeat constructor|vm_compute; auto].
  intros ns d k H. unfold is31 in H. apply dp_same_eq in H. subst d. reflexivity.
Qed.

(* Without the condition on the jobs it is false: a draining query whose answer is lost. *)
Theorem C94_drained_refuted : exists (E : Env f64) ths setup addrs ns v n d, EnvOk E /\ never_expired E [d] /\
  wp (serve_seq E setup (fresh ths)) 0 (fun r t => In d (data_at (snd r) nA ns) /\
    wp (exec (get_dps E addrs ns v n true) (snd r)) t (fun r' _ =>
      fst r' = [] /\ ~ In (ns, d) (all_data (snd r')) /\ ~ In (ns, d) (w_dropped (snd r')))).
Proof. exact drained_query_refuted. Qed.
Print Assumptions C94_drained_refuted.
