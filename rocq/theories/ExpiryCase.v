(* A clock that never goes back; examples with expired datapoints. *)
From Verif Require Import Base Num MathUtils Knn Env Centroid CManager DataSpec MgrSpec Wp NumFacts MathSpec TestEnv Proc Owns
  Server ServerSpec ServerFacts TestWorld Core EventLoop CoreSpec Props05Lemmas Props05 OriginSpec ExpirySpec ExpiryProofs.
Local Open Scope nat_scope.

Lemma expired_at_mono {N : Num} (a b : Z) (d : DataPoint N) : (a <= b)%Z -> expired_at a d = true -> expired_at b d = true.
Proof. unfold expired_at. intros H. rewrite !andb_true_iff, !Z.ltb_lt. intros (H1 & H2). split; [exact H1|lia]. Qed.

Theorem expired_stays_out_mono (N : Num) (E : Env N) jobs sched t (w : World N) l w' t' : WorldOk w ->
  (forall i j, i <= j -> (e_now E i <= e_now E j)%Z) ->
  interleave DIdle sched (map (run_job E) jobs) w t = Ok ((l, w'), t') ->
  forall ns d, expired_at (e_now E t) d = true ->
    (forall x, In (Ret x) l -> ~ In (ns, d) (handed x)) /\ (In (ns, d) (all_data w') -> In (ns, d) (all_data w)).
Proof.
  intros Hw Hm H ns d Hd. destruct (expired_stays_out N E jobs sched t w l w' t' Hw H) as (H1 & H2).
  assert (Hno : ~ seen_live E t t' d).
  { intros (k & Hk & Hl). rewrite (expired_at_mono (e_now E t) (e_now E k) d) in Hl; [discriminate Hl|apply Hm; lia|exact Hd]. }
  split.
  - intros x Hx Hi. exact (Hno (H1 x _ Hx Hi)).
  - intros Hi. destruct (H2 _ Hi) as [Ha|(_ & Hl)]; [exact Ha|]. destruct (Hno Hl).
Qed.

(* One of two datapoints expires at 20; two of the jobs after 100 look for both, one puts one that has expired. *)
Definition aged : World f64 := after clockE [(nA, QAdd ns2 (dp [9;1]%Z)); (nA, QAdd ns2 (dpx [9;2]%Z 20))] (fresh [(nA, 9%Z); (nB, 9%Z)]).
Definition ask_aged : list (job f64) :=
  [JReq nA (QNearest ns2 (fv [9;2]%Z) 1 false); JPut [nA; nB] (Some (MkPut ns2 false (of_dp (dpx [3;1]%Z 50))));
   JQuery [nA; nB] (Some (MkQuery ns2 true (fv [9;2]%Z) 2 false)); JReq nB (QAdd ns2 (dp [4;4]%Z))].
Definition has_expired (l : list (str * DataPoint f64)) : bool := existsb (fun e => expired_at 100 (snd e)) l.

Lemma clock_mono i j : i <= j -> (e_now clockE i <= e_now clockE j)%Z.
Proof. intros H. cbn. lia. Qed.
Lemma centroid_shows_expired : exists (E : Env f64) w jobs sched t l w' t' x e, EnvOk E /\ WorldOk w /\ (forall i j, i <= j -> (e_now E i <= e_now E j)%Z) /\
  interleave DIdle sched (map (run_job E) jobs) w t = Ok ((l, w'), t') /\ In (Ret x) l /\ In e (shown x) /\ expired_at (e_now E t) (snd e) = true.
Proof.
  pose (js := [JReq nA (QNearest ns2 (fv [9;2]%Z) 1 false)]).
  assert (H : match interleave DIdle [0; 0; 0] (map (run_job clockE) js) aged 100 with
              | Ok (([Ret x], _), _) => match nth_error (shown x) 1 with Some e => expired_at 100 (snd e) | None => false end
              | _ => false end = true) by (vm_compute; reflexivity).
  destruct (interleave DIdle [0; 0; 0] (map (run_job clockE) js) aged 100) as [[[l w'] t']| |] eqn:He; try discriminate H.
  destruct l as [|[x|A o f k|q k] [|p l]]; try discriminate H.
  destruct (nth_error (shown x) 1) as [e|] eqn:Hn; try discriminate H.
  exists clockE, aged, js, [0; 0; 0], 100, [Ret x], w', t', x, e. splits.
  - exact clockE_ok.
  - apply world_check. vm_compute. reflexivity.
  - exact clock_mono.
  - exact He.
  - left. reflexivity.
  - exact (nth_error_In _ _ Hn).
  - exact H.
Qed.
