(* Lemmas behind Props08. *)
From Verif Require Import Base Num MathUtils Knn Env Centroid CManager DataSpec MgrSpec Wp NumFacts TestEnv Proc Owns Server ServerSpec ServerFacts
  ServerProofs TestWorld Core EventLoop CoreSpec CoreProofs SystemProofs CoreSeq Props05Lemmas Locks LockSpec LocksProofs LocksProofs2 LocksProofs3 LocksProofs4.

Section Locks.
Context {N : Num} (E : Env N).

Lemma jobs_rel js (w : World N) : Rel (map (fun _ => POut) (map (run_job E) js)) (istart (map (run_job E) js) w) (map (run_job E) js) w.
Proof. apply rel_start. apply Forall_forall. intros p Hp. apply in_map_iff in Hp. destruct Hp as (j & <- & _). apply lw_run_job. Qed.

Lemma rel_in_order {R} phs (s : istate N R) thc wc : Rel phs s thc wc -> one_each s /\ no_deadlock s.
Proof.
  destruct s as [[th held] wf]. intros HR. pose proof HR as (Ht & Hh & Hw).
  assert (Hown : forall l, In l held <-> exists i, holds (th, held, wf) i l).
  { intros l. rewrite (h_in _ _ Hh l). split.
    - intros (i & ph & Hi & Hl). specialize (Ht i). rewrite Hi in Ht. exists i. unfold holds, threads. cbn [fst].
      destruct (nth_error th i) as [[own ip]|]; [|destruct Ht]. destruct (nth_error thc i); [|destruct Ht]. destruct Ht as (-> & _). eauto.
    - intros (i & own & ip & Hi & Hl). unfold threads in Hi. cbn [fst] in Hi. specialize (Ht i). rewrite Hi in Ht.
      destruct (nth_error phs i) as [ph|] eqn:Ei; [|destruct (nth_error thc i); destruct Ht].
      destruct (nth_error thc i); [|destruct Ht]. destruct Ht as (-> & _). eauto. }
  assert (Hno : forall i l, waits (th, held, wf) i l -> exists j, holds (th, held, wf) j l /\ ~ ended (th, held, wf) j /\ forall l', ~ waits (th, held, wf) j l').
  { intros i l (own & k & Hi & Hl). unfold threads, locked in *. cbn [fst snd] in *.
    destruct (waits_for_runner _ _ _ _ _ _ HR i own l k Hi Hl) as (j & own' & ip & Hj & Ho & Hn1 & Hn2).
    exists j. unfold holds, ended, waits, threads. cbn [fst]. rewrite Hj. splits; eauto.
    - destruct ip; auto. exfalso. eapply Hn2; eauto.
    - intros l' (o & k' & Hx & _). injection Hx as -> ->. eapply Hn1; eauto. }
  split; unfold one_each, no_deadlock.
  - splits; auto.
    + intros i l l' (own & ip & Hi & Hl) (own2 & ip2 & Hi2 & Hl2). rewrite Hi in Hi2. injection Hi2 as <- <-.
      destruct (one_lock _ _ _ _ _ _ HR _ _ _ Hi) as [Hlen _]. destruct own as [|x [|y own]]; cbn [length] in Hlen; [destruct Hl| |lia].
      destruct Hl as [<-|[]], Hl2 as [<-|[]]. auto.
    + intros i l l' (own & k & Hi & Hl) (own2 & ip2 & Hi2 & Hl2). rewrite Hi in Hi2. injection Hi2 as <- <-.
      unfold threads in Hi. cbn [fst] in Hi. specialize (Ht i). rewrite Hi in Ht.
      destruct (nth_error phs i) as [ph|]; [|destruct (nth_error thc i); destruct Ht].
      destruct (nth_error thc i); [|destruct Ht]. destruct Ht as (-> & Htr & _). inversion Htr; subst; destruct Hl2.
    + intros i j l (own & ip & Hi & Hl) (own2 & ip2 & Hj & Hl2). eapply exclusion; eauto.
  - split; auto. intros Hall.
    assert (He : forall i, ended (th, held, wf) i).
    { intros i. destruct (Hall i) as [H|(l & H)]; auto. destruct (Hno i l H) as (j & _ & Hn & Hw2).
      destruct (Hall j) as [H2|(l2 & H2)]; [destruct (Hn H2)|destruct (Hw2 l2 H2)]. }
    split; auto. unfold locked. cbn [fst snd]. destruct held as [|l held]; auto. exfalso.
    destruct (proj1 (Hown l) (or_introl eq_refl)) as (j & own & ip & Hj & Hl).
    pose proof (He j) as Hej. unfold ended, threads in *. cbn [fst] in *. rewrite Hj in Hej. specialize (Ht j). rewrite Hj in Ht.
    destruct (nth_error phs j) as [ph|]; [|destruct (nth_error thc j); destruct Ht].
    destruct (nth_error thc j); [|destruct Ht]. destruct Ht as (-> & Htr & _). destruct ip; try destruct Hej.
    inversion Htr; subst; destruct Hl.
Qed.

Lemma jobs_no_deadlock js w sched t s' t' :
  irun DIdle sched (istart (map (run_job E) js) w) t = Ok (s', t') -> one_each s' /\ no_deadlock s'.
Proof.
  intros H. pose proof (run_matched DIdle sched _ _ _ _ t (jobs_rel js w)) as Hm. rewrite H in Hm. cbn [matched] in Hm.
  destruct Hm as (phs & sc & thc & wc & _ & HR & _). eapply rel_in_order; eauto.
Qed.

Lemma run_keys {R} (d : R) : forall sc (th : list (proc' N R)) w t th' w' t', Forall lw th ->
  interleave d sc th w t = Ok ((th', w'), t') -> keys w' = keys w.
Proof.
  induction sc as [|i sc IH]; intros th w t th' w' t' Hl H; cbn [interleave] in H.
  { cbn in H. injection H as <- <- <-. auto. }
  unfold bind, step1 in H. change (@nth_error (proc (Server.World N) lock R) th i) with (@nth_error (proc' N R) th i) in H.
  destruct (nth_error th i) as [[r|A o f k|q k]|] eqn:Ei.
  - cbn [ret] in H. exact (IH _ _ _ _ _ _ Hl H).
  - pose proof (proj1 (Forall_forall _ _) Hl _ (nth_error_In _ _ Ei)) as Hp. cbn [lw] in Hp. destruct Hp as ((Hf & _) & Hk).
    specialize (Hf w t). unfold bind in H. destruct (f w t) as [[[x w1] t1]| |]; try discriminate. cbn [ret] in H.
    destruct Hf as (dl & _ & Hd & _). rewrite (IH _ _ _ _ _ _ (Forall_list_set _ _ _ _ Hl (Hk x)) H). unfold keys. rewrite Hd. apply dapply_keys.
  - pose proof (proj1 (Forall_forall _ _) Hl _ (nth_error_In _ _ Ei)) as Hp. cbn [lw] in Hp. destruct Hp as (Hq & Hk). cbn [ret] in H.
    refine (IH _ _ _ _ _ _ _ H). apply Forall_app. split; [apply Forall_list_set; auto|].
    constructor; auto. apply (lw_bind q (fun _ => Ret d)); auto. intros; exact I.
  - cbn [ret] in H. exact (IH _ _ _ _ _ _ Hl H).
Qed.

Lemma jobs_atomic js (w : World N) sched t s' t' ds : NoDup (map fst (w_nodes w)) ->
  irun DIdle sched (istart (map (run_job E) js) w) t = Ok (s', t') -> all_ended s' ds ->
  locked s' = [] /\
  exists sched' w', interleave DIdle sched' (map (run_job E) js) w t = Ok ((map (fun d => Ret d) ds, w'), t') /\
    w_nodes (world_of s') = w_nodes w'.
Proof.
  intros Hd H He. pose proof (run_matched DIdle sched _ _ _ _ t (jobs_rel js w)) as Hm. rewrite H in Hm. cbn [matched] in Hm.
  destruct Hm as (phs & sc & thc & wc & Hi & HR & _). destruct s' as [[th held] wf].
  assert (Hk : keys wc = keys w).
  { eapply run_keys; [|exact Hi]. apply Forall_forall. intros p Hp. apply in_map_iff in Hp. destruct Hp as (j & <- & _). apply lw_run_job. }
  destruct (ended_rel _ _ _ _ _ _ ds HR He) as (H1 & H2 & H3).
  { rewrite Hk. auto. }
  unfold locked, world_of. cbn [fst snd]. split; auto. subst. eauto.
Qed.

Context (HE : EnvOk E) (HN : NumOrd N).

(* From the steps that are whole critical sections to single instructions. *)
Lemma locks_safe w js sched t (F : Prop) :
  (forall sc, match interleave DIdle sc (map (run_job E) js) w t with Ok _ => True | Panic => False | OutOfFuel => F end) ->
  match irun DIdle sched (istart (map (run_job E) js) w) t with
  | Ok _ => True
  | Panic => False
  | OutOfFuel => F
  end.
Proof.
  intros H. pose proof (run_matched DIdle sched _ _ _ _ t (jobs_rel js w)) as Hm.
  destruct (irun DIdle sched (istart (map (run_job E) js) w) t) as [[s' t']| |]; cbn [matched] in Hm; auto.
  - destruct Hm as (sc & Hm). specialize (H sc). rewrite Hm in H. auto.
  - destruct Hm as (sc & Hm). specialize (H sc). rewrite Hm in H. auto.
Qed.

Lemma locks_finish w js sched t :
  (forall sc, match interleave DIdle sc (map (run_job E) js) w t with
     | Ok ((th, w'), t') => exists sched2 ds w2 t2, interleave DIdle sched2 th w' t' = Ok ((map (fun d => Ret d) ds, w2), t2)
     | _ => False end) ->
  match irun DIdle sched (istart (map (run_job E) js) w) t with
  | Ok (s', t') => exists sched2 s2 t2 ds, irun DIdle sched2 s' t' = Ok (s2, t2) /\ all_ended s2 ds
  | _ => False
  end.
Proof.
  intros HS.
  assert (Hsafe : safe DIdle (map (run_job E) js) w t).
  { intros sc. pose proof (HS sc) as Hs.
    change (proc (Server.World N) lock (done N)) with (proc' N (done N)) in *.
    destruct (interleave DIdle sc (map (run_job E) js) w t) as [[[th w'] t']| |]; auto. }
  pose proof (run_matched DIdle sched _ _ _ _ t (jobs_rel js w)) as Hm.
  destruct (irun DIdle sched (istart (map (run_job E) js) w) t) as [[s' t']| |]; cbn [matched] in Hm.
  - destruct Hm as (phs & sc & thc & wc & Hi & HR & _).
    destruct (fine_completes DIdle phs s' thc wc t' HR) as (sch & s2 & t2 & rs & K1 & K2).
    + eapply safe_later; eauto.
    + intros sc2 thc2 wc2 t2 H2. pose proof (HS (sc ++ sc2)) as Hs.
      rewrite interleave_app in Hs. change (proc (Server.World N) lock (done N)) with (proc' N (done N)) in *. rewrite Hi, H2 in Hs.
      destruct Hs as (s3 & ds & w3 & t3 & Hs). eauto 10.
    + exists sch, s2, t2, rs. auto.
  - destruct Hm as (sc & Hm). specialize (Hsafe sc). rewrite Hm in Hsafe. auto.
  - destruct Hm as (sc & Hm). specialize (Hsafe sc). rewrite Hm in Hsafe. auto.
Qed.

Lemma jobs_locks_safe D w js sched t : WorldOk w -> DimsOk D w -> Jobs D w js ->
  match irun DIdle sched (istart (map (run_job E) js) w) t with
  | Ok _ => True
  | Panic => False
  | OutOfFuel => Exists may_steal js
  end.
Proof.
  intros Hw HD Hj. apply locks_safe. intros sc. pose proof (@jobs_safe N E HE HN D w js sc t Hw HD Hj) as Hs.
  destruct (interleave DIdle sc (map (run_job E) js) w t); auto.
Qed.

Lemma jobs_locks_finish D w js sched t : WorldOk w -> DimsOk D w -> Jobs D w js -> Forall (fun j => ~ may_steal j) js ->
  match irun DIdle sched (istart (map (run_job E) js) w) t with
  | Ok (s', t') => exists sched2 s2 t2 ds, irun DIdle sched2 s' t' = Ok (s2, t2) /\ all_ended s2 ds
  | _ => False
  end.
Proof. intros Hw HD Hj Hn. apply locks_finish. intros sc. apply (@jobs_finish N E HE HN D w js sc t Hw HD Hj Hn). Qed.

Lemma jobs_locks_conserve D w js sched t s' t' ds : WorldOk w -> DimsOk D w -> Jobs D w js -> answers_arrive E ->
  irun DIdle sched (istart (map (run_job E) js) w) t = Ok (s', t') -> all_ended s' ds ->
  WorldOk (world_of s') /\ DimsOk D (world_of s') /\
  exists dropped,
    keeps E t t' (all_data w ++ jobs_in js) (all_data (world_of s') ++ jobs_out ds ++ dropped) /\
    (none_refused E D w js -> Forall (fun e => seen_expired E t t' (snd e)) dropped).
Proof.
  intros Hw HD Hj Ha H He. destruct (jobs_atomic js w sched t s' t' ds (proj1 Hw) H He) as (_ & sc & w2 & Hi & Hn).
  pose proof (@jobs_safe N E HE HN D w js sc t Hw HD Hj) as Hs. rewrite Hi in Hs.
  destruct (@jobs_conserve N E HE HN D w js sc t ds w2 t' Hw HD Hj Ha Hi) as (dropped & _ & Hk & Hr).
  unfold WorldOk, DimsOk, all_data. rewrite Hn. split; [exact (proj1 Hs)|]. split; [exact (proj2 Hs)|]. exists dropped. split; auto.
Qed.
End Locks.
