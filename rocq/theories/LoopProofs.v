(* The event loop: which tasks run when, and stopping. *)
From Verif Require Import Base Wp Proc Owns EventLoop LoopSpec SeqProofs CoreProofs.

(* ---- rounds ---- *)
Lemma next_counter j : next_iter (counter j) = counter (S j).
Proof.
  unfold next_iter, counter. cbv zeta. rewrite Nat2Z.inj_succ.
  pose proof (Z.mod_pos_bound (Z.of_nat j) 1001 eq_refl) as H1. pose proof (Z.div_mod (Z.of_nat j) 1001 ltac:(lia)) as H2.
  destruct (Z.ltb_spec 1000 (Z.of_nat j mod 1001 + 1)).
  - apply (Z.mod_unique_pos _ _ (Z.of_nat j / 1001 + 1)); lia.
  - apply (Z.mod_unique_pos _ _ (Z.of_nat j / 1001)); lia.
Qed.

Lemma ok_eq {A} (a b : A) (n m : nat) : a = b -> n = m -> Ok (a, n) = Ok (b, m).
Proof. congruence. Qed.

Definition one (s : skips) (j : nat) (l : list task) : list (Z * task) := map (pair (counter j)) (filter (due s j) l).

Lemma rem_mod a b : (b <> 0)%Z -> (Z.rem a b =? 0)%Z = (a mod b =? 0)%Z.
Proof.
  intros H. destruct (Z.eqb_spec (Z.rem a b) 0) as [E|E], (Z.eqb_spec (a mod b) 0) as [E'|E']; auto; exfalso.
  - apply E'. apply Z.mod_divide; auto. apply Z.rem_divide; auto.
  - apply E. apply Z.rem_divide; auto. apply Z.mod_divide; auto.
Qed.

Lemma steps_log s j : (forall k, interval s k <> 0%Z) -> forall l w t,
  exec (el_steps (read_stop (fun _ => false)) (fun k => with_skip (L := unit) (counter j) (interval s k) (note (counter j, k))) l) w t =
    Ok ((tt, w ++ one s j l), t + 2 * length l).
Proof.
  intros Hs. induction l as [|k l IH]; intros w t; cbn [el_steps].
  - cbn [exec one filter map length]. unfold ret. rewrite app_nil_r. apply ok_eq; auto.
  - rewrite exec_bind. assert (H : exec (el_step (read_stop (fun _ => false)) (with_skip (L := unit) (counter j) (interval s k) (note (counter j, k)))) w t =
      Ok ((tt, w ++ (if due s j k then [(counter j, k)] else [])), S (S t))).
    { unfold el_step. rewrite exec_bind. cbn [read_stop local exec]. unfold bind, tick, ret. rewrite exec_bind.
      cbn [read_stop local exec]. unfold bind, tick, ret. unfold with_skip. destruct (Z.eqb_spec (interval s k) 0); [contradiction (Hs k)|].
      rewrite rem_mod by auto. unfold due. destruct (counter j mod interval s k =? 0)%Z; cbn [exec note]; unfold bind, ret; rewrite ?app_nil_r; auto. }
    rewrite H, IH. rewrite <- app_assoc. unfold one. cbn [filter]. apply ok_eq.
    + destruct (due s j k); reflexivity.
    + cbn [length]. lia.
Qed.

Lemma loop_log s : (forall k, interval s k <> 0%Z) -> forall n j w t,
  exec (el_loop (read_stop (fun _ => false)) (fun iter k => with_skip (L := unit) iter (interval s k) (note (iter, k))) n (counter j)) w t =
    Ok ((false, w ++ flat_map (fun j => one s j task_order) (seq j n)), t + 19 * n + 1).
Proof.
  intros Hs. induction n as [|n IH]; intros j w t; cbn [el_loop].
  - rewrite exec_bind. cbn [read_stop local exec]. unfold bind, tick, ret. cbn [seq flat_map exec]. rewrite app_nil_r. unfold ret.
    apply ok_eq; auto. lia.
  - rewrite exec_bind. cbn [read_stop local exec]. unfold bind, tick, ret. fold (read_stop (W := list (Z * task)) (L := unit) (fun _ => false)).
    rewrite exec_bind. rewrite steps_log by auto. rewrite next_counter, IH. cbn [seq flat_map]. rewrite <- app_assoc.
    apply ok_eq; auto. cbn [length task_order]. lia.
Qed.

Lemma logging_schedule s n t : (forall k, interval s k <> 0%Z) ->
  exists t', exec (logging s (fun _ => false) n) [] t = Ok ((false, schedule s n), t').
Proof. intros Hs. unfold logging. change 0%Z with (counter 0). rewrite loop_log by auto. eexists. reflexivity. Qed.

(* How often a task runs. *)
Lemma runs_app k l l' : runs k (l ++ l') = runs k l + runs k l'.
Proof. unfold runs. rewrite filter_app, app_length. auto. Qed.
Lemma runs_round s j k : runs k (map (pair (counter j)) (filter (due s j) task_order)) = if due s j k then 1 else 0.
Proof.
  unfold task_order. cbn [filter].
  destruct k; destruct (due s j TMeta), (due s j TExpire), (due s j TMemTrim), (due s j TMerge), (due s j TSplit), (due s j TInternal),
    (due s j TFast), (due s j TAccurate), (due s j TBalance); reflexivity.
Qed.
Lemma runs_count s k : forall l, runs k (flat_map (fun j => map (pair (counter j)) (filter (due s j) task_order)) l) =
  length (filter (fun j => due s j k) l).
Proof.
  induction l as [|j l IH]; cbn [flat_map filter]; auto. rewrite runs_app, runs_round, IH. destruct (due s j k); auto.
Qed.
Lemma multiples v : 0 < v -> forall m, length (filter (fun i => i mod v =? 0) (seq 0 (S m))) = m / v + 1.
Proof.
  intros Hv. induction m as [|m IH].
  - cbn [seq filter]. rewrite Nat.mod_0_l, Nat.div_0_l by lia. auto.
  - rewrite seq_S, filter_app, app_length, IH, Nat.add_0_l. cbn [filter].
    pose proof (Nat.div_mod (S m) v ltac:(lia)) as H1. pose proof (Nat.mod_upper_bound (S m) v ltac:(lia)) as H2.
    pose proof (Nat.div_mod m v ltac:(lia)) as H3. pose proof (Nat.mod_upper_bound m v ltac:(lia)) as H4.
    destruct (Nat.eqb_spec (S m mod v) 0) as [H|H]; cbn [length]; nia.
Qed.
Lemma counter_small i : i < 1001 -> counter i = Z.of_nat i.
Proof. intros H. unfold counter. apply Z.mod_small. lia. Qed.
Lemma counter_shift n i : counter (1001 * n + i) = counter i.
Proof. unfold counter. rewrite Nat2Z.inj_add, Nat2Z.inj_mul, (Z.mul_comm (Z.of_nat 1001)), Z.add_comm. apply Z.mod_add. lia. Qed.
Lemma filter_shift (f g : nat -> bool) (a b len : nat) : (forall i, i < len -> f (a + i) = g (b + i)) ->
  length (filter f (seq a len)) = length (filter g (seq b len)).
Proof.
  revert a b. induction len as [|len IH]; intros a b H; cbn [seq filter]; auto.
  pose proof (H 0 ltac:(lia)) as H0. rewrite !Nat.add_0_r in H0. rewrite H0.
  assert (H1 : length (filter f (seq (S a) len)) = length (filter g (seq (S b) len))).
  { apply IH. intros i Hi. specialize (H (S i) ltac:(lia)). rewrite !Nat.add_succ_r in H. auto. }
  destruct (g b); cbn [length]; lia.
Qed.

(* In 1001 rounds a task runs once for each multiple of its interval from 0 to 1000. *)
Lemma period_runs s k n : (1 <= interval s k <= 1000)%Z ->
  runs k (schedule s (1001 * n)) = n * (Z.to_nat (1000 / interval s k) + 1).
Proof.
  intros Hv. unfold schedule. rewrite runs_count. induction n as [|n IH]; [rewrite Nat.mul_0_r; auto|].
  replace (1001 * S n) with (1001 * n + 1001) by lia. rewrite seq_app, filter_app, app_length, IH, Nat.add_0_l.
  rewrite (filter_shift _ (fun i => i mod Z.to_nat (interval s k) =? 0) (1001 * n) 0 1001).
  - change 1001 with (S 1000) at 1. rewrite multiples by lia.
    assert (Hd : 1000 / Z.to_nat (interval s k) = Z.to_nat (1000 / interval s k)); [|lia].
    rewrite Z2Nat.inj_div by lia. auto.
  - intros i Hi. cbn [plus]. unfold due. rewrite counter_shift, counter_small by auto.
    destruct (Z.eqb_spec (Z.of_nat i mod interval s k) 0) as [H|H], (Nat.eqb_spec (i mod Z.to_nat (interval s k)) 0) as [H'|H']; auto; exfalso.
    + apply H'. apply Nat2Z.inj. rewrite Nat2Z.inj_mod, Z2Nat.id by lia. auto.
    + apply H. apply (f_equal Z.of_nat) in H'. rewrite Nat2Z.inj_mod, Z2Nat.id in H' by lia. auto.
Qed.

(* ---- stopping ---- *)
Section Stop.
Context {W L : Type}.
Notation LW := (LW W).

(* What the loop's own process may do; b: it has made a step with the flag set. *)
Fixpoint ok {R : Type} (Q : R -> bool -> Prop) (b : bool) (p : proc LW L R) : Prop :=
  match p with
  | Ret r => Q r b
  | Act _ f k => forall x t r x' t', (b = true -> flag x = true) -> f x t = Ok ((r, x'), t') ->
      (flag x = true -> flag x' = true) /\
      (starts x' = starts x \/ b = false /\ exists k, starts x' = (k, flag x) :: starts x) /\
      ok Q (b || flag x) (k r)
  | Fork q k => quiet q /\ ok Q b k /\ ok Q true k
  end.

Lemma quiet_bind {R S} (p : proc LW L R) (f : R -> proc LW L S) : quiet p -> (forall r, quiet (f r)) -> quiet (pbind p f).
Proof.
  induction p as [R r|R A l a k IH|R q IHq k IHk]; cbn [pbind quiet]; intros Hp Hf; auto.
  - destruct Hp as (H1 & H2). auto.
  - destruct Hp as (H1 & H2). auto.
Qed.
Lemma quiet_lifted {R} (p : proc W L R) : quiet (lifted p).
Proof.
  induction p as [R r|R A l a k IH|R q IHq k IHk]; cbn [lifted quiet]; auto. split; auto.
  intros x t r x' t' H. unfold bind in H. destruct (a (fst (fst x)) t) as [[[r0 w'] t0]| |]; try discriminate.
  unfold ret in H. inversion H; subst. split; auto.
Qed.
Lemma quiet_stopper : quiet (stopper : proc LW L unit).
Proof. cbn [stopper quiet]. split; auto. intros x t a x' t' H. unfold ret in H. inversion H; subst. auto. Qed.

Lemma ok_quiet {R} (p : proc LW L R) : quiet p -> forall b, ok (fun _ b' => b = true -> b' = true) b p.
Proof.
  assert (H : forall b0 b, (b0 = true -> b = true) -> quiet p -> ok (fun _ b' => b0 = true -> b' = true) b p).
  { induction p as [R r|R A l a k IH|R q IHq k IHk]; cbn [quiet ok]; intros b0 b Hb Hp; auto.
    - destruct Hp as (H1 & H2). intros x t r x' t' Hf He. destruct (H1 _ _ _ _ _ He) as (H3 & H4). splits; auto.
      apply IH; auto. intros H. rewrite (Hb H). auto.
    - destruct Hp as (H1 & H2). auto. }
  intros Hp b. apply H; auto.
Qed.

Lemma ok_bind {R S} (p : proc LW L R) (f : R -> proc LW L S) (Q' : R -> bool -> Prop) Q : forall b,
  ok Q' b p -> (forall r b', Q' r b' -> ok Q b' (f r)) -> ok Q b (pbind p f).
Proof.
  revert f Q' Q. induction p as [R r|R A l a k IH|R q IHq k IHk]; cbn [pbind ok]; intros f Q' Q b Hp Hf; auto.
  - intros x t r x' t' Hb He. destruct (Hp x t r x' t' Hb He) as (H1 & H2 & H3). splits; auto. eapply IH; eauto.
  - destruct Hp as (H1 & H2 & H3). splits; eauto.
Qed.

Lemma ok_weaken {R} (Q Q' : R -> bool -> Prop) (p : proc LW L R) : forall b, ok Q b p -> (forall r b', Q r b' -> Q' r b') -> ok Q' b p.
Proof.
  induction p as [R r|R A l a k IH|R q IHq k IHk]; cbn [ok]; intros b Hp HQ; auto.
  - intros x t r x' t' Hb He. destruct (Hp x t r x' t' Hb He) as (H1 & H2 & H3). splits; auto. eapply IH; eauto.
  - destruct Hp as (H1 & H2 & H3). splits; eauto.
Qed.

(* Reading: the answer tells b. *)
Lemma ok_read b : ok (fun r b' => r = b' /\ (b = true -> b' = true)) b (read_flag : proc LW L bool).
Proof.
  cbn [read_flag ok]. intros x t r x' t' Hb He. unfold ret in He. inversion He; subst. splits; auto; destruct b; cbn [orb]; auto.
Qed.

Context (body : Z -> task -> proc LW L unit) (Hbody : forall i k, quiet (body i k)).
Let run (iter : Z) (k : task) : proc LW L unit := call _ <- begin k; body iter k.

Lemma ok_step iter k b : ok (fun _ b' => b = true -> b' = true) b (el_step read_flag (run iter k)).
Proof.
  unfold el_step. eapply ok_bind; [apply ok_read|]. intros r b1 (Hr1 & H1). subst r. destruct b1; [cbn [ok]; auto|].
  assert (b = false) by (destruct b; auto; discriminate (H1 eq_refl)). subst b. eapply ok_bind; [apply ok_read|].
  intros r b2 (Hr2 & H2). subst r. destruct b2; [cbn [ok]; auto|]. unfold run.
  apply ok_bind with (Q' := fun _ _ => True).
  - cbn [begin ok]. intros x t r x' t' _ He. unfold ret in He. inversion He; subst. splits; auto. right. split; auto. exists k. auto.
  - intros _ b' _. eapply ok_weaken; [apply ok_quiet, Hbody|]. discriminate.
Qed.
Lemma ok_steps iter l : forall b, ok (fun _ b' => b = true -> b' = true) b (el_steps read_flag (run iter) l).
Proof.
  induction l as [|k l IH]; intros b; cbn [el_steps]; [cbn [ok]; auto|].
  eapply ok_bind; [apply ok_step|]. intros ? b1 H1. eapply ok_weaken; [apply IH|]. auto.
Qed.
Lemma ok_loop n : forall iter b, ok (fun r b' => b' = true -> r = true) b (el_loop read_flag run n iter).
Proof.
  induction n as [|n IH]; intros iter b; cbn [el_loop]; (eapply ok_bind; [apply ok_read|]); intros r b1 (Hr1 & H1); subst r;
    (destruct b1; [cbn [ok]; auto|]); [cbn [ok]; discriminate|].
  eapply ok_bind; [apply ok_steps|]. intros ? b2 ?. apply IH.
Qed.

(* The loop among other processes. *)
Definition inv (n0 n1 : nat) (b : bool) (pre : list (proc LW L bool)) (p : proc LW L bool) (post : list (proc LW L bool)) (x : LW) : Prop :=
  Forall quiet pre /\ Forall quiet post /\ ok (fun r b' => b' = true -> r = true) b p /\
  (b = true -> flag x = true) /\ late x <= (if b then n1 else n0) /\ (b = false -> S n0 <= n1).

Lemma list_set_pre {A} (pre : list A) p post i y : i < length pre ->
  list_set (pre ++ p :: post) i y = list_set pre i y ++ p :: post.
Proof.
  revert i. induction pre as [|z pre IH]; intros i Hi; [cbn [length] in Hi; lia|].
  destruct i as [|i]; cbn [list_set app]; auto. f_equal. apply IH. cbn [length] in Hi. lia.
Qed.
Lemma list_set_post {A} (pre : list A) p post i y :
  list_set (pre ++ p :: post) (length pre + S i) y = pre ++ p :: list_set post i y.
Proof. induction pre as [|z pre IH]; cbn [length plus list_set app]; auto. f_equal. auto. Qed.
Lemma list_set_mid {A} (pre : list A) p post y : list_set (pre ++ p :: post) (length pre) y = pre ++ y :: post.
Proof. induction pre as [|z pre IH]; cbn [length list_set app]; auto. f_equal. auto. Qed.
Lemma Forall_set {A} (P : A -> Prop) l i y : Forall P l -> P y -> Forall P (list_set l i y).
Proof.
  intros Hl Hy. revert i. induction Hl as [|z l Hz Hl IH]; intros i; destruct i; cbn [list_set]; auto.
Qed.


Lemma late_same (x x' : LW) : starts x' = starts x -> late x' = late x.
Proof. unfold late. intros ->. auto. Qed.

(* A step of another process. *)
Lemma quiet_step {R} dflt (th : list (proc LW L R)) q i (x : LW) t th' x' t' : nth_error th i = Some q -> quiet q ->
  step1 dflt th i x t = Ok ((th', x'), t') ->
  starts x' = starts x /\ (flag x = true -> flag x' = true) /\
  exists q' more, quiet q' /\ Forall quiet more /\ th' = list_set th i q' ++ more.
Proof.
  intros Hi Hq. unfold step1. rewrite Hi. assert (Hs : list_set th i q = th) by (apply list_set_same; auto).
  destruct q as [r|A l f k|q k]; cbn [quiet] in Hq.
  - unfold ret. intros H. inversion H; subst. splits; auto. exists (Ret r), []. rewrite app_nil_r. cbn [quiet]. splits; auto.
  - unfold bind. destruct (f x t) as [[[a x1] t1]| |] eqn:He; try discriminate. unfold ret. intros H. inversion H; subst.
    destruct Hq as (H1 & H2). destruct (H1 _ _ _ _ _ He) as (H3 & H4). splits; auto. exists (k a), []. rewrite app_nil_r. splits; auto.
  - unfold ret. intros H. inversion H; subst. destruct Hq as (H1 & H2). splits; auto. eexists k, [_]. splits; auto.
    constructor; auto. apply quiet_bind; auto. cbn [quiet]. auto.
Qed.

(* A step of any process. *)
Lemma step_inv dflt n0 n1 b pre p post (x : LW) t i th' x' t' : inv n0 n1 b pre p post x ->
  step1 dflt (pre ++ p :: post) i x t = Ok ((th', x'), t') ->
  exists b' pre' p' post', th' = pre' ++ p' :: post' /\ length pre' = length pre /\ inv n0 n1 b' pre' p' post' x' /\
    (flag x = true -> flag x' = true) /\
    ((b' = b /\ p' = p) \/ b' = b || flag x).
Proof.
  intros (H1 & H2 & H3 & H4 & H5 & H6) Hs. destruct (lt_eq_lt_dec i (length pre)) as [[Hi|Hi]|Hi].
  - destruct (nth_error pre i) as [q|] eqn:Hq; [|apply nth_error_None in Hq; lia].
    assert (Hn : nth_error (pre ++ p :: post) i = Some q) by (rewrite nth_error_app1; auto).
    assert (Hqq : quiet q) by (rewrite Forall_forall in H1; apply H1; eapply nth_error_In; eauto).
    destruct (quiet_step _ _ _ _ _ _ _ _ _ Hn Hqq Hs) as (K1 & K2 & q' & more & K3 & K4 & ->). rewrite list_set_pre by auto.
    exists b, (list_set pre i q'), p, (post ++ more). rewrite <- app_assoc. rewrite list_set_length. splits; auto.
    split; [apply Forall_set; auto|]. split; [apply Forall_app; auto|]. splits; auto. rewrite (late_same _ _ K1). auto.
  - subst i. unfold step1 in Hs. rewrite nth_error_app2, Nat.sub_diag in Hs by lia. cbn [nth_error] in Hs.
    destruct p as [r|A l f k|q k]; cbn [ok] in H3.
    + unfold ret in Hs. inversion Hs; subst. exists b, pre, (Ret r), post. unfold inv. splits; auto.
    + unfold bind in Hs. destruct (f x t) as [[[a x1] t1]| |] eqn:He; try discriminate. unfold ret in Hs. inversion Hs; subst.
      destruct (H3 x t a x' t' H4 He) as (K1 & K2 & K3). rewrite list_set_mid. exists (b || flag x), pre, (k a), post. splits; auto.
      unfold inv. splits; auto.
      * intros Hb. apply K1. destruct b; auto.
      * destruct K2 as [K2|(-> & k0 & K2)].
        -- rewrite (late_same _ _ K2). destruct b; cbn [orb]; auto. specialize (H6 eq_refl). destruct (flag x); lia.
        -- specialize (H6 eq_refl). unfold late in *. rewrite K2. cbn [filter snd orb]. destruct (flag x); cbn [length]; lia.
      * destruct b; cbn [orb]; auto; discriminate.
    + unfold ret in Hs. inversion Hs; subst. destruct H3 as (K1 & K2 & K3). rewrite list_set_mid.
      exists (b || flag x'), pre, k, (post ++ [pbind q (fun _ => Ret dflt)]). rewrite <- app_assoc. splits; auto.
      unfold inv. splits; auto.
      * apply Forall_app. split; auto. constructor; auto. apply quiet_bind; auto. cbn [quiet]. auto.
      * destruct b; cbn [orb]; auto. destruct (flag x'); auto.
      * intros Hb. destruct b; auto.
      * destruct b; cbn [orb]; auto. specialize (H6 eq_refl). destruct (flag x'); lia.
      * destruct b; cbn [orb]; auto; discriminate.
  - destruct (nth_error post (i - length pre - 1)) as [q|] eqn:Hq.
    + assert (Hn : nth_error (pre ++ p :: post) i = Some q).
      { rewrite nth_error_app2 by lia. destruct (i - length pre) as [|m] eqn:Em; [lia|]. cbn [nth_error].
        replace m with (S m - 1) by lia. auto. }
      assert (Hqq : quiet q) by (rewrite Forall_forall in H2; apply H2; eapply nth_error_In; eauto).
      destruct (quiet_step _ _ _ _ _ _ _ _ _ Hn Hqq Hs) as (K1 & K2 & q' & more & K3 & K4 & ->).
      replace i with (length pre + S (i - length pre - 1)) by lia. rewrite list_set_post.
      exists b, pre, p, (list_set post (i - length pre - 1) q' ++ more). rewrite <- app_assoc. splits; auto.
      unfold inv. splits; auto.
      * apply Forall_app. split; auto. apply Forall_set; auto.
      * rewrite (late_same _ _ K1). auto.
    + assert (Hn : nth_error (pre ++ p :: post) i = None).
      { apply nth_error_None. apply nth_error_None in Hq. rewrite app_length. cbn [length]. lia. }
      unfold step1 in Hs. rewrite Hn in Hs. unfold ret in Hs. inversion Hs; subst. exists b, pre, p, post. unfold inv. splits; auto.
Qed.

Lemma run_inv dflt n0 n1 : forall sched b pre p post (x : LW) t th' x' t', inv n0 n1 b pre p post x ->
  interleave dflt sched (pre ++ p :: post) x t = Ok ((th', x'), t') ->
  exists b' pre' p' post', th' = pre' ++ p' :: post' /\ length pre' = length pre /\ inv n0 n1 b' pre' p' post' x' /\
    (flag x = true -> unfinished p \/ b = true -> unfinished p' \/ b' = true).
Proof.
  induction sched as [|i sched IH]; intros b pre p post x t th' x' t' HI; cbn [interleave].
  - unfold ret. intros H. inversion H; subst. exists b, pre, p, post. splits; auto.
  - unfold bind. destruct (step1 dflt (pre ++ p :: post) i x t) as [[[th1 x1] t1]| |] eqn:Hs; try discriminate.
    destruct (step_inv _ _ _ _ _ _ _ _ _ _ _ _ _ HI Hs) as (b1 & pre1 & p1 & post1 & -> & K1 & K2 & K3 & K4). intros H.
    destruct (IH _ _ _ _ _ _ _ _ _ K2 H) as (b' & pre' & p' & post' & -> & L1 & L2 & L3).
    exists b', pre', p', post'. splits; auto; [congruence|]. intros Hf Hp. apply L3; auto.
    destruct K4 as [(-> & ->)| ->]; auto. right. rewrite Hf. destruct b; auto.
Qed.

Lemma stop_stops dflt pre post n sched (x : LW) t th' x' t' : Forall quiet pre -> Forall quiet post ->
  interleave dflt sched (pre ++ el_loop read_flag run n 0 :: post) x t = Ok ((th', x'), t') ->
  late x' <= late x + (if flag x then 0 else 1) /\
  forall sched2 th2 x2 t2 p, flag x' = true -> nth_error th' (length pre) = Some p -> unfinished p ->
    interleave dflt sched2 th' x' t' = Ok ((th2, x2), t2) ->
    forall r, nth_error th2 (length pre) = Some (Ret r) -> r = true.
Proof.
  intros H1 H2 Hr.
  assert (HI : inv (late x) (late x + (if flag x then 0 else 1)) (flag x) pre (el_loop read_flag run n 0) post x).
  { unfold inv. splits; auto; [apply ok_loop|destruct (flag x); lia|intros ->; lia]. }
  destruct (run_inv _ _ _ _ _ _ _ _ _ _ _ _ _ HI Hr) as (b & pre' & p' & post' & -> & L1 & L2 & _). split.
  - destruct L2 as (_ & _ & _ & _ & L2 & L3). destruct b; [lia|]. destruct (flag x); lia.
  - intros sched2 th2 x2 t2 p Hf Hp Hu Hr2. rewrite <- L1, nth_error_app2, Nat.sub_diag in Hp by lia. cbn [nth_error] in Hp.
    injection Hp as ->. destruct (run_inv _ _ _ _ _ _ _ _ _ _ _ _ _ L2 Hr2) as (b2 & pre2 & p2 & post2 & -> & M1 & M2 & M3).
    intros r Hn. rewrite <- L1, <- M1, nth_error_app2, Nat.sub_diag in Hn by lia. cbn [nth_error] in Hn. injection Hn as ->.
    destruct M2 as (_ & _ & M2 & _). cbn [ok] in M2. destruct (M3 Hf (or_introl Hu)) as [[]|M4]. auto.
Qed.

(* With the flag set, the process ends within m of its own steps; and that is so wherever it is. *)
Fixpoint soon {R : Type} (m : nat) (p : proc LW L R) {struct p} : Prop :=
  match p with
  | Ret _ => True
  | Act _ f k => match m with O => False | S m' =>
      forall x t r x' t', flag x = true -> f x t = Ok ((r, x'), t') -> soon m' (k r) end
  | Fork _ k => match m with O => False | S m' => soon m' k end
  end.
Fixpoint always {R : Type} (m : nat) (p : proc LW L R) : Prop :=
  soon m p /\
  match p with
  | Ret _ => True
  | Act _ f k => forall r, always m (k r)
  | Fork _ k => always m k
  end.

Lemma soon_mono {R} (p : proc LW L R) : forall m m', soon m p -> m <= m' -> soon m' p.
Proof.
  induction p as [R r|R A l a k IH|R q IHq k IHk]; intros m m' H Hm; cbn [soon] in *; auto;
    (destruct m as [|m]; [try contradiction; destruct H|]); (destruct m' as [|m']; [lia|]).
  - intros x t r x' t' Hf He. eapply IH; [eapply H; eauto|lia].
  - eapply IHk; [apply H|lia].
Qed.
Lemma soon_bind {R S} (p : proc LW L R) (f : R -> proc LW L S) : forall m m', soon m p -> (forall r, soon m' (f r)) -> soon (m + m') (pbind p f).
Proof.
  revert f. induction p as [R r|R A l a k IH|R q IHq k IHk]; intros f m m' H Hf; cbn [soon pbind] in *.
  - eapply soon_mono; [apply Hf|lia].
  - destruct m as [|m]; [contradiction|]. cbn [plus]. intros x t r x' t' Hx He. eauto.
  - destruct m as [|m]; [contradiction|]. cbn [plus]. auto.
Qed.
Lemma short_soon {R} (p : proc LW L R) : forall m, short m p -> soon m p.
Proof.
  induction p as [R r|R A l a k IH|R q IHq k IHk]; intros m H; cbn [soon short] in *; auto; destruct m as [|m]; auto.
Qed.
Lemma short_mono {R} (p : proc LW L R) : forall m m', short m p -> m <= m' -> short m' p.
Proof.
  induction p as [R r|R A l a k IH|R q IHq k IHk]; intros m m' H Hm; cbn [short] in *; auto;
    (destruct m as [|m]; [try contradiction; destruct H|]); (destruct m' as [|m']; [lia|]).
  - intros r. eapply IH; [apply H|lia].
  - eapply IHk; [apply H|lia].
Qed.
Lemma short_always {R} (p : proc LW L R) : forall m, short m p -> always m p.
Proof.
  induction p as [R r|R A l a k IH|R q IHq k IHk]; intros m H; (split; [apply short_soon; auto|]); auto; cbn [short] in H;
    (destruct m as [|m]; [contradiction|]).
  - intros r. apply IH. eapply short_mono; [apply H|lia].
  - apply IHk. eapply short_mono; [apply H|lia].
Qed.
Lemma always_soon {R} m (p : proc LW L R) : always m p -> soon m p.
Proof. destruct p; intros (H & _); auto. Qed.
Lemma always_bind {R S} (p : proc LW L R) (f : R -> proc LW L S) K1 K2 K : always K1 p -> (forall r, soon K2 (f r)) ->
  (forall r, always K (f r)) -> K1 + K2 <= K -> always K (pbind p f).
Proof.
  revert f. induction p as [R r|R A l a k IH|R q IHq k IHk]; intros f Hp H2 H3 HK; [cbn [pbind]; auto| |];
    assert (Hs := soon_mono _ _ _ (soon_bind _ f _ _ (always_soon _ _ Hp) H2) HK); destruct Hp as (_ & Hp); (split; [exact Hs|]);
    auto.
Qed.

Lemma read_bind {R} m (f : bool -> proc LW L R) : 0 < m -> soon (m - 1) (f true) -> (forall r, always m (f r)) -> always m (pbind read_flag f).
Proof.
  intros Hm Ht Hf. cbn [read_flag pbind]. split; auto. destruct m as [|m]; [lia|]. cbn [soon].
  intros x t r x' t' Hx He. unfold ret in He. inversion He; subst. rewrite Hx. replace (S m - 1) with m in Ht by lia. auto.
Qed.

Context (B : nat) (Hshort : forall i k, short B (body i k)).

Lemma soon_step iter k : soon 1 (el_step read_flag (run iter k)).
Proof.
  unfold el_step. cbn [read_flag pbind soon]. intros x t r x' t' Hx He. unfold ret in He. inversion He; subst. rewrite Hx. exact I.
Qed.
Lemma always_step iter k : always (B + 2) (el_step read_flag (run iter k)).
Proof.
  unfold el_step. apply read_bind; [lia|exact I|]. intros [|]; [split; exact I|].
  apply read_bind; [lia|exact I|]. intros [|]; [split; exact I|]. unfold run.
  apply short_always. cbn [begin pbind short]. replace (B + 2) with (S (B + 1)) by lia. intros _. eapply short_mono; [apply Hshort|lia].
Qed.
Lemma soon_steps iter l : soon (length l) (el_steps read_flag (run iter) l).
Proof.
  induction l as [|k l IH]; cbn [el_steps length]; [exact I|]. change (S (length l)) with (1 + length l).
  apply soon_bind; [apply soon_step|auto].
Qed.
Lemma always_mono {R} (p : proc LW L R) m m' : always m p -> m <= m' -> always m' p.
Proof.
  induction p as [R r|R A l a k IH|R q IHq k IHk]; intros H Hm; assert (Hs := always_soon _ _ H); destruct H as (_ & H);
    (split; [eapply soon_mono; eauto|]); auto.
Qed.
Lemma always_steps iter l : always (B + 2 + length l) (el_steps read_flag (run iter) l).
Proof.
  induction l as [|k l IH]; cbn [el_steps length]; [split; exact I|].
  eapply always_bind; [apply always_step|intros _; apply soon_steps| |lia]. intros _. eapply always_mono; [apply IH|lia].
Qed.
Lemma soon_loop n iter : soon 1 (el_loop read_flag run n iter).
Proof.
  destruct n; cbn [el_loop read_flag pbind soon]; intros x t r x' t' Hx He; unfold ret in He; inversion He; subst; rewrite Hx; exact I.
Qed.
Lemma always_loop n : forall iter, always (B + 12) (el_loop read_flag run n iter).
Proof.
  induction n as [|n IH]; intros iter; cbn [el_loop]; (apply read_bind; [lia|exact I|]); intros [|]; try (split; exact I).
  eapply always_bind; [apply always_steps|intros _; apply soon_loop|intros _; apply IH|]. cbn [length task_order]. lia.
Qed.

(* How a step changes the process in the middle. *)
Lemma step_at {R} dflt (th : list (proc LW L R)) i j p x t th' x' t' : nth_error th i = Some p ->
  step1 dflt th j x t = Ok ((th', x'), t') ->
  exists p', nth_error th' i = Some p' /\ forall K m, always K p -> (flag x = true -> soon m p) ->
    always K p' /\ (flag x = true -> soon (if j =? i then m - 1 else m) p').
Proof.
  intros Hi. unfold step1. assert (Hlt : i < length th) by (apply nth_error_Some; congruence).
  destruct (j =? i) eqn:Hji; [apply Nat.eqb_eq in Hji; subst j; rewrite Hi|apply Nat.eqb_neq in Hji].
  - destruct p as [r|A l f k|q k].
    + unfold ret. intros H. inversion H; subst. exists (Ret r). splits; auto.
    + unfold bind. destruct (f x t) as [[[a x1] t1]| |] eqn:He; try discriminate. unfold ret. intros H. inversion H; subst.
      exists (k a). split; [apply Wp.list_set_same; auto|]. intros K m (_ & H1) H2. split; auto. intros Hf. specialize (H2 Hf). cbn [soon] in H2.
      destruct m as [|m]; [contradiction|]. replace (S m - 1) with m by lia. eauto.
    + unfold ret. intros H. inversion H; subst. exists k. split.
      { rewrite nth_error_app1 by (rewrite list_set_length; auto). apply Wp.list_set_same; auto. }
      intros K m (_ & H1) H2. split; auto. intros Hf. specialize (H2 Hf). cbn [soon] in H2.
      destruct m as [|m]; [contradiction|]. replace (S m - 1) with m by lia. auto.
  - intros H. exists p. split; [|intros K m H1 H2; auto].
    destruct (nth_error th j) as [[r|A l f k|q k]|].
    + unfold ret in H. inversion H; subst; auto.
    + unfold bind in H. destruct (f x t) as [[[a x1] t1]| |] eqn:He; try discriminate. unfold ret in H. inversion H; subst.
      rewrite list_set_other; auto.
    + unfold ret in H. inversion H; subst. rewrite nth_error_app1 by (rewrite list_set_length; auto). rewrite list_set_other; auto.
    + unfold ret in H. inversion H; subst; auto.
Qed.

Lemma run_always dflt i : forall sched th p x t th' x' t', nth_error th i = Some p ->
  interleave dflt sched th x t = Ok ((th', x'), t') ->
  exists p' : proc LW L bool, nth_error th' i = Some p' /\ forall K, always K p -> always K p'.
Proof.
  induction sched as [|j sched IH]; intros th p x t th' x' t' Hi; cbn [interleave].
  - unfold ret. intros H. inversion H; subst. exists p. auto.
  - unfold bind. destruct (step1 dflt th j x t) as [[[th1 x1] t1]| |] eqn:Hs; try discriminate. intros H.
    destruct (step_at _ _ _ _ _ _ _ _ _ _ Hi Hs) as (p1 & H1 & H2).
    destruct (IH _ _ _ _ _ _ _ H1 H) as (p' & H3 & H4). exists p'. split; auto. intros K HK. apply H4.
    destruct (H2 K K HK) as (H5 & _); auto. intros _. apply always_soon; auto.
Qed.

Lemma run_soon dflt n0 n1 : forall sched m b pre p post (x : LW) t th' x' t', inv n0 n1 b pre p post x -> flag x = true -> always m p ->
  forall m', soon m' p ->
  interleave dflt sched (pre ++ p :: post) x t = Ok ((th', x'), t') ->
  exists p', nth_error th' (length pre) = Some p' /\ soon (m' - count_occ Nat.eq_dec sched (length pre)) p'.
Proof.
  induction sched as [|j sched IH]; intros m b pre p post x t th' x' t' HI Hf Ha m' Hs; cbn [interleave].
  - unfold ret. intros H. inversion H; subst. exists p. cbn [count_occ]. rewrite Nat.sub_0_r. split; auto.
    rewrite nth_error_app2, Nat.sub_diag by lia. auto.
  - unfold bind. destruct (step1 dflt (pre ++ p :: post) j x t) as [[[th1 x1] t1]| |] eqn:He; try discriminate. intros H.
    destruct (step_inv _ _ _ _ _ _ _ _ _ _ _ _ _ HI He) as (b1 & pre1 & p1 & post1 & -> & K1 & K2 & K3 & K4).
    assert (Hi : nth_error (pre ++ p :: post) (length pre) = Some p) by (rewrite nth_error_app2, Nat.sub_diag by lia; auto).
    destruct (step_at _ _ _ _ _ _ _ _ _ _ Hi He) as (p2 & H1 & H2).
    rewrite <- K1, nth_error_app2, Nat.sub_diag in H1 by lia. injection H1 as <-.
    destruct (H2 m m' Ha (fun _ => Hs)) as (H5 & H6). specialize (H6 Hf).
    destruct (IH _ _ _ _ _ _ _ _ _ _ K2 (K3 Hf) H5 _ H6 H) as (p' & H7 & H8). rewrite K1 in H7, H8. exists p'. split; auto.
    cbn [count_occ]. destruct (Nat.eq_dec j (length pre)) as [->|Hn].
    + rewrite Nat.eqb_refl in H8. eapply soon_mono; [apply H8|lia].
    + rewrite (proj2 (Nat.eqb_neq _ _) Hn) in H8. auto.
Qed.

Lemma stop_ends dflt pre post n sched (x : LW) t th' x' t' : Forall quiet pre -> Forall quiet post ->
  interleave dflt sched (pre ++ el_loop read_flag run n 0 :: post) x t = Ok ((th', x'), t') ->
  late x' <= late x + (if flag x then 0 else 1) /\
  forall sched2 th2 x2 t2 p, flag x' = true -> nth_error th' (length pre) = Some p -> unfinished p ->
    interleave dflt sched2 th' x' t' = Ok ((th2, x2), t2) ->
    (forall r, nth_error th2 (length pre) = Some (Ret r) -> r = true) /\
    (B + 12 <= count_occ Nat.eq_dec sched2 (length pre) -> nth_error th2 (length pre) = Some (Ret true)).
Proof.
  intros H1 H2 Hr. destruct (stop_stops _ _ _ _ _ _ _ _ _ _ H1 H2 Hr) as (H3 & H4). split; auto.
  intros sched2 th2 x2 t2 p Hf Hp Hu Hr2. assert (H5 := H4 _ _ _ _ _ Hf Hp Hu Hr2). split; auto. intros Hc.
  assert (HI : inv (late x) (late x + 1) false pre (el_loop read_flag run n 0) post x).
  { unfold inv. splits; auto; [apply ok_loop|discriminate|lia]. }
  destruct (run_inv _ _ _ _ _ _ _ _ _ _ _ _ _ HI Hr) as (b & pre' & p' & post' & -> & L1 & L2 & _).
  assert (Hi : nth_error (pre ++ el_loop read_flag run n 0 :: post) (length pre) = Some (el_loop read_flag run n 0))
    by (rewrite nth_error_app2, Nat.sub_diag by lia; auto).
  destruct (run_always _ _ _ _ _ _ _ _ _ _ Hi Hr) as (p1 & M1 & M2). rewrite Hp in M1. injection M1 as <-.
  specialize (M2 _ (always_loop n 0)).
  rewrite <- L1, nth_error_app2, Nat.sub_diag in Hp by lia. cbn [nth_error] in Hp. injection Hp as ->.
  destruct (run_soon _ _ _ _ _ _ _ _ _ _ _ _ _ _ L2 Hf M2 _ (always_soon _ _ M2) Hr2) as (p2 & N1 & N2). rewrite L1 in N1, N2.
  replace (B + 12 - count_occ Nat.eq_dec sched2 (length pre)) with 0 in N2 by lia.
  destruct p2 as [r|A l f k|q k]; cbn [soon] in N2; try contradiction. rewrite N1. f_equal. f_equal. apply H5. auto.
Qed.
End Stop.
