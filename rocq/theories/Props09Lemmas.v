(* Lemmas for Props09. *)
From Verif Require Import Base Num MathUtils Knn Env Centroid CManager DataSpec MgrSpec Wp NumFacts
  Proc Owns Server ServerSpec ServerFacts ServerProofs Core EventLoop CoreSpec CoreProofs SystemProofs
  Locks LockSpec Props08Lemmas SeqProofs Uniform.

Section Any.
Context {N : Num} (E : Env N) (HE : EnvOk E) (HN : NumOrd N).

Lemma any_locks_safe D w js sched t : WorldOk w -> OwnDims D w -> AnyJobs D w js ->
  match irun DIdle sched (istart (map (run_job E) js) w) t with
  | Ok _ => True
  | Panic => False
  | OutOfFuel => Exists may_steal js
  end.
Proof.
  intros Hw HD Hj. apply locks_safe. intros sc. pose proof (@any_jobs_safe N E HE HN D w js sc t Hw HD Hj) as Hs.
  destruct (interleave DIdle sc (map (run_job E) js) w t); auto.
Qed.

Lemma any_locks_finish D w js sched t : WorldOk w -> OwnDims D w -> AnyJobs D w js -> Forall (fun j => ~ may_steal j) js ->
  match irun DIdle sched (istart (map (run_job E) js) w) t with
  | Ok (s', t') => exists sched2 s2 t2 ds, irun DIdle sched2 s' t' = Ok (s2, t2) /\ all_ended s2 ds
  | _ => False
  end.
Proof. intros Hw HD Hj Hn. apply locks_finish. intros sc. apply (@any_jobs_finish N E HE HN D w js sc t Hw HD Hj Hn). Qed.

Lemma any_locks_conserve D w js sched t s' t' ds : WorldOk w -> OwnDims D w -> AnyJobs D w js -> answers_arrive E ->
  irun DIdle sched (istart (map (run_job E) js) w) t = Ok (s', t') -> all_ended s' ds ->
  WorldOk (world_of s') /\ OwnDims D (world_of s') /\
  exists dropped,
    keeps E t t' (all_data w ++ jobs_in js) (all_data (world_of s') ++ jobs_out ds ++ dropped) /\
    (none_refused E D w js -> Forall (fun e => seen_expired E t t' (snd e)) dropped).
Proof.
  intros Hw HD Hj Ha H He. destruct (jobs_atomic E js w sched t s' t' ds (proj1 Hw) H He) as (_ & sc & w2 & Hi & Hn).
  pose proof (@any_jobs_safe N E HE HN D w js sc t Hw HD Hj) as Hs. rewrite Hi in Hs.
  destruct (@any_jobs_conserve N E HE HN D w js sc t ds w2 t' Hw HD Hj Ha Hi) as (dropped & _ & Hk & Hr).
  unfold WorldOk, OwnDims, all_data. rewrite Hn. split; [exact (proj1 Hs)|]. split; [exact (proj2 Hs)|]. exists dropped. split; auto.
Qed.

(* Requests one after the other. *)
Lemma DimsOk_OwnDims (D : str -> nat -> Prop) (w : World N) : DimsOk D w -> OwnDims D w.
Proof.
  intros H a nd ns m H1 H2. destruct (H _ _ _ _ H1 H2) as (n & Hn & _ & Hd). split; [exists n; auto|].
  eapply Forall_impl; [|exact Hd]. intros c Hc. exists n. auto.
Qed.
Lemma alone_nodes D a q (w : World N) t : WorldOk w -> OwnDims D w -> node_at w a <> None -> req_counts q -> req_fits D q ->
  match exec (serve E a q) w t with
  | Ok ((_, w'), _) => Lasts w w'
  | _ => True
  end.
Proof.
  intros H1 H2 H3 H4 H5. pose proof (@any_job_alone N E HE HN D w (JReq a q) t H1 H2 (conj H3 (conj H4 H5))) as H.
  cbn [run_job] in H. change (World N) with (Server.World N) in *. rewrite exec_bind in H.
  destruct (exec (serve E a q) w t) as [[[x w'] t']| |]; auto. cbn [exec] in H. apply H.
Qed.

Lemma uniform_seq D : forall l (w : World N) t, WorldOk w -> DimsOk D w ->
  Forall (fun e => node_at w (fst e) <> None /\ req_counts (snd e) /\ req_fits D (snd e)) l ->
  match serve_seq E l w t with
  | Ok ((_, w'), _) => WorldOk w' /\ DimsOk D w'
  | Panic => False
  | OutOfFuel => Exists (fun e => is_steal (snd e)) l
  end.
Proof.
  induction l as [|[a q] l IH]; intros w t Hw Hd Hl; cbn [serve_seq]; [cbn; auto|].
  inversion Hl as [|? ? (H1 & H2 & H3) Hl']; subst. cbn [fst snd] in *.
  pose proof (uniform_alone E HE HN D a q w t Hw Hd H1 H2 H3) as Hu.
  pose proof (alone_nodes D a q w t Hw (DimsOk_OwnDims D w Hd) H1 H2 H3) as Hn. unfold bind at 1.
  destruct (exec (serve E a q) w t) as [[[x w1] t1]| |]; [|contradiction|apply Exists_cons_hd; auto].
  destruct Hu as (Hw1 & Hd1). specialize (IH w1 t1 Hw1 Hd1).
  assert (Hl1 : Forall (fun e => node_at w1 (fst e) <> None /\ req_counts (snd e) /\ req_fits D (snd e)) l).
  { eapply Forall_impl; [|exact Hl']. intros e (K1 & K2). split; auto. destruct Hn as (Hn & _). specialize (Hn (fst e)).
    destruct (node_at w (fst e)); [|congruence]. destruct (node_at w1 (fst e)); [discriminate|discriminate]. }
  specialize (IH Hl1). unfold bind. destruct (serve_seq E l w1 t1) as [[[xs w2] t2]| |]; auto.
Qed.
End Any.
