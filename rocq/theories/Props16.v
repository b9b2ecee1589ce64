(* Property C95: expired data in a running system. *)
From Verif Require Import Base Num MathUtils Knn Env Centroid CManager DataSpec MgrSpec Wp NumFacts MathSpec TestEnv Proc Owns
  Server ServerSpec ServerFacts TestWorld Core EventLoop CoreSpec Props05Lemmas Props05 OriginSpec ExpirySpec ExpiryProofs ExpiryCase.
Local Open Scope nat_scope.

(* ---- C95 ---- *)
Theorem C95_expired_stays_out : forall (N : Num) (E : Env N) jobs sched t w l w' t', WorldOk w ->
  interleave DIdle sched (map (run_job E) jobs) w t = Ok ((l, w'), t') ->
  (forall x e, In (Ret x) l -> In e (handed x) -> seen_live E t t' (snd e)) /\
  (forall e, In e (all_data w') -> In e (all_data w) \/ (In e (jobs_in jobs) /\ seen_live E t t' (snd e))).
Proof. exact @expired_stays_out. Qed.
Print Assumptions C95_expired_stays_out.

(* With a clock that does not go back: what has expired when the jobs start is not handed out and not stored anew. *)
Theorem C95_expired_before : forall (N : Num) (E : Env N) jobs sched t w l w' t', WorldOk w ->
  (forall i j, i <= j -> (e_now E i <= e_now E j)%Z) ->
  interleave DIdle sched (map (run_job E) jobs) w t = Ok ((l, w'), t') ->
  forall ns d, expired_at (e_now E t) d = true ->
    (forall x, In (Ret x) l -> ~ In (ns, d) (handed x)) /\ (In (ns, d) (all_data w') -> In (ns, d) (all_data w)).
Proof. exact @expired_stays_out_mono. Qed.
Print Assumptions C95_expired_before.

Example C95_case : WorldOk aged /\ (forall i j, i <= j -> (e_now clockE i <= e_now clockE j)%Z) /\
  length (all_data aged) = 2 /\ has_expired (all_data aged) = true /\ has_expired (jobs_in ask_aged) = true /\ length (jobs_in ask_aged) = 2 /\
  wp (interleave DIdle turns (map (run_job clockE) ask_aged) aged) 100 (fun r _ => forallb is_done (fst r) = true /\
    map (fun d => length (handed d)) (ended (fst r)) = [0; 0; 4; 0] /\ has_expired (concat (map handed (ended (fst r)))) = false /\
    length (all_data (snd r)) = 2 /\ has_expired (all_data (snd r)) = false).
Proof.
  splits; [apply world_check; vm_compute; reflexivity|exact clock_mono|vm_compute; reflexivity|vm_compute; reflexivity|vm_compute; reflexivity|
    vm_compute; reflexivity|vm_compute; auto].
Qed.

(* The exception: NearestCentroids hands out whole centroids, with what has expired in them. *)
Theorem C95_centroids_refuted : exists (E : Env f64) w jobs sched t l w' t' x e, EnvOk E /\ WorldOk w /\
  (forall i j, i <= j -> (e_now E i <= e_now E j)%Z) /\
  interleave DIdle sched (map (run_job E) jobs) w t = Ok ((l, w'), t') /\ In (Ret x) l /\ In e (shown x) /\ expired_at (e_now E t) (snd e) = true.
Proof. exact centroid_shows_expired. Qed.
Print Assumptions C95_centroids_refuted.
