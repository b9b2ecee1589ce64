(* One configuration for several loops: stopping them. *)
From Verif Require Import Base Num Env Wp Proc Server EventLoop LoopSpec Shared SeqProofs.

(* ---- specification ---- *)

(* Tasks that count how many of them were started. *)
Definition counted {V L : Type} (q : task -> proc V L unit) (k : task) : proc (V * nat) L unit :=
  call _ <- Act None (fun w => ret (tt, (fst w, S (snd w)))) Ret; on_world (q k).
Definition started {V : Type} (x : CW (V * nat)) : nat := snd (fst x).

(* ---- proofs ---- *)
Section Stop.
Context {V L : Type}.
Notation X := (CW (V * nat)).

(* Once the flag is set, the process starts at most c tasks, and does not reset it. *)
Fixpoint calm {R : Type} (c : nat) (p : proc X L R) : Prop :=
  match p with
  | Ret _ => True
  | Act _ f k => forall x t a x' t', in_stopped (snd x) = true -> f x t = Ok ((a, x'), t') ->
      in_stopped (snd x') = true /\
      ((started x' = started x /\ calm c (k a)) \/ (started x' = S (started x) /\ exists c0, c = S c0 /\ calm c0 (k a)))
  | Fork q k => calm 0 q /\ calm c k
  end.

(* So at every time. *)
Fixpoint fine {R : Type} (c : nat) (p : proc X L R) : Prop :=
  calm c p /\
  match p with
  | Ret _ => True
  | Act _ f k => forall x t a x' t', f x t = Ok ((a, x'), t') -> fine c (k a)
  | Fork q k => fine 0 q /\ fine c k
  end.

Lemma fine_calm {R} c (p : proc X L R) : fine c p -> calm c p.
Proof. destruct p; cbn [fine]; tauto. Qed.

Lemma calm_mono {R} (p : proc X L R) : forall c c', c <= c' -> calm c p -> calm c' p.
Proof.
  induction p as [R r|R A l f k IH|R q IHq k IH]; intros c c' Hc H; cbn [calm] in *; auto.
  - intros x t a x' t' Hx E. destruct (H _ _ _ _ _ Hx E) as (H1 & [(H2 & H3)|(H2 & c0 & -> & H3)]); split; auto.
    + left. split; auto. eapply IH; eauto.
    + right. split; auto. destruct c' as [|c']; [lia|]. exists c'. split; auto. eapply IH; [|exact H3]. lia.
  - destruct H. split; auto. eapply IH; eauto.
Qed.

Lemma fine_mono {R} (p : proc X L R) : forall c c', c <= c' -> fine c p -> fine c' p.
Proof.
  induction p as [R r|R A l f k IH|R q IHq k IH]; intros c c' Hc H; cbn [fine] in *; destruct H as (H1 & H2); (split; [eapply calm_mono; eauto|]); auto.
  - intros. eapply IH; eauto.
  - destruct H2. split; auto. eapply IH; eauto.
Qed.

Lemma calm_bind {R S} (p : proc X L R) : forall c (k : R -> proc X L S), calm c p -> (forall r, calm 0 (k r)) -> calm c (pbind p k).
Proof.
  induction p as [R r|R A l f k IH|R q IHq k IH]; intros c k' H Hk; cbn [pbind calm] in *.
  - eapply calm_mono; [|apply Hk]. lia.
  - intros x t a x' t' Hx E. destruct (H _ _ _ _ _ Hx E) as (H1 & [(H2 & H3)|(H2 & c0 & -> & H3)]); split; auto.
    right. split; auto. exists c0. auto.
  - destruct H. split; auto.
Qed.

Lemma fine_bind {R S} (p : proc X L R) : forall c (k : R -> proc X L S), fine c p -> (forall r, calm 0 (k r)) -> (forall r, fine c (k r)) -> fine c (pbind p k).
Proof.
  induction p as [R r|R A l f k IH|R q IHq k IH]; intros c k' H Hk Hf.
  - apply Hf.
  - assert (Hc : calm c (pbind (Act l f k) k')) by (apply calm_bind; [apply fine_calm, H|exact Hk]).
    split; [exact Hc|]. intros x t a x' t' E. apply IH; auto. apply H in E. exact E.
  - assert (Hc : calm c (pbind (Fork q k) k')) by (apply calm_bind; [apply fine_calm, H|exact Hk]).
    split; [exact Hc|]. destruct H as (_ & H1 & H2). split; auto.
Qed.

(* Looking at the flag. *)
Lemma calm_look {S} c (k : bool -> proc X L S) : calm c (k true) -> calm c (pbind look k).
Proof.
  intros H. cbn. intros x t a x' t' Hx E. unfold bind, tick, ret in E. injection E as <- <- <-. rewrite Hx. auto.
Qed.
Lemma fine_look {S} c (k : bool -> proc X L S) : fine c (k true) -> fine c (k false) -> fine c (pbind look k).
Proof.
  intros H1 H2. split; [apply calm_look, fine_calm, H1|]. intros x t a x' t' E. unfold bind, tick, ret in E. injection E as <- _ _.
  cbn [pbind]. destruct (in_stopped (snd x)); auto.
Qed.

Lemma fine_lifted {R} c (q : proc V L R) : fine c (on_world (on_world q)).
Proof.
  revert c. induction q as [R r|R A l f k IH|R q IHq k IH]; intros c; cbn [on_world fine]; [split; exact I| |].
  - split.
    + cbn [calm]. intros x t a x' t' Hx E. unfold bind, ret in E. cbn [fst snd] in E. destruct (f (fst (fst x)) t) as [[[a1 w1] t1]| |]; try discriminate.
      injection E as <- <- <-. split; [exact Hx|]. left. split; [reflexivity|]. apply fine_calm, IH.
    + intros x t a x' t' _. apply IH.
  - split; [split; apply fine_calm; auto|]. auto.
Qed.

Lemma fine_counted q k : fine 1 (on_world (counted q k) : proc X L unit).
Proof.
  cbn [counted pbind on_world fine]. split.
  - cbn [calm]. intros x t a x' t' Hx E. unfold bind, ret in E. injection E as <- <- <-. split; [exact Hx|]. right. split; [reflexivity|].
    exists 0. split; auto. apply fine_calm, fine_lifted.
  - intros. apply fine_lifted.
Qed.

Lemma fine_get c : fine c (get_iter : proc X L Z).
Proof.
  split; [|intros; split; exact I]. cbn. intros x t a x' t' Hx E. unfold ret in E. injection E as <- <- <-. auto.
Qed.
Lemma fine_set c i : fine c (set_iter i : proc X L unit).
Proof.
  split; [|intros; split; exact I]. cbn. intros x t a x' t' Hx E. unfold ret in E. injection E as <- <- <-. cbn. auto.
Qed.
Lemma fine_stop c : fine c (stop_cfg : proc X L unit).
Proof.
  split; [|intros; split; exact I]. cbn. intros x t a x' t' Hx E. unfold ret in E. injection E as <- <- <-. cbn. auto.
Qed.
Lemma fine_ret {R} c (r : R) : fine c (Ret r : proc X L R). Proof. split; exact I. Qed.
Lemma fine_bind0 {R S} (p : proc X L R) (k : R -> proc X L S) : (forall c, fine c p) -> (forall r c, fine c (k r)) -> forall c, fine c (pbind p k).
Proof. intros H Hk c. apply fine_bind; auto. intros. apply fine_calm; auto. Qed.

Lemma fine_count c : fine c (count : proc X L unit).
Proof.
  unfold count. revert c. apply fine_bind0; [intros; apply fine_get|]. intros i. apply fine_bind0; [intros; apply fine_set|]. intros _.
  apply fine_bind0; [intros; apply fine_get|]. intros j c. destruct (1000 <? j)%Z; [apply fine_set|apply fine_ret].
Qed.

Lemma fine_skip q k v : fine 1 (skip_now v (counted q k) : proc X L unit).
Proof.
  unfold skip_now. cbn [get_iter pbind]. split.
  - cbn [calm]. intros x t a x' t' Hx E. unfold ret in E. injection E as <- <- <-. split; auto. left. split; auto.
    unfold with_skip. destruct (v =? 0)%Z; [cbn; intros; discriminate|]. destruct (_ =? 0)%Z; [apply fine_calm, fine_counted|exact I].
  - intros x t a x' t' _. unfold with_skip. destruct (v =? 0)%Z; [split; cbn; intros; discriminate|].
    destruct (_ =? 0)%Z; [apply fine_counted|apply fine_ret].
Qed.

Lemma calm_steps c (run : task -> proc X L unit) l : calm c (el_steps look run l).
Proof.
  induction l as [|k l IH]; cbn [el_steps]; [exact I|]. apply (calm_look c (fun b => pbind (if b : bool then Ret tt else call s2 <- look; if s2 : bool then Ret tt else run k) (fun _ => el_steps look run l))).
  exact IH.
Qed.
Lemma fine_steps (run : task -> proc X L unit) : (forall k, fine 1 (run k)) -> forall l, fine 1 (el_steps look run l).
Proof.
  intros H. induction l as [|k l IH]; cbn [el_steps]; [apply fine_ret|]. apply fine_bind; [|intros; apply calm_steps|auto].
  unfold el_step. apply fine_look; [apply fine_ret|]. apply fine_look; [apply fine_ret|auto].
Qed.

Lemma calm_loop c s body n : calm c (cfg_loop s body n : proc X L bool).
Proof. destruct n; cbn [cfg_loop]; apply calm_look; exact I. Qed.
Lemma fine_loop s q n : fine 1 (cfg_loop s (counted q) n : proc X L bool).
Proof.
  induction n as [|n IH]; cbn [cfg_loop]; (apply fine_look; [apply fine_ret|]); [apply fine_ret|].
  apply fine_bind; [apply fine_steps; intros; apply fine_skip| |]; intros _.
  - apply calm_bind; [apply fine_calm, fine_count|]. intros. apply calm_loop.
  - apply fine_bind; [apply fine_count| |]; intros _; [apply calm_loop|exact IH].
Qed.

(* Pools. *)
Lemma list_set_fine {R} cs : forall (th : list (proc X L R)) j c p, Forall2 fine cs th -> nth_error cs j = Some c -> fine c p -> Forall2 fine cs (list_set th j p).
Proof. induction cs; intros th [|j] c p H Hj Hp; inversion H; subst; try discriminate; cbn [list_set nth_error] in *; constructor; auto; try congruence; eauto. Qed.

Lemma nth_fine {R} cs : forall (th : list (proc X L R)) j p, Forall2 fine cs th -> nth_error th j = Some p -> exists c, nth_error cs j = Some c /\ fine c p.
Proof. induction cs; intros th [|j] p H Hj; inversion H; subst; try discriminate; cbn [nth_error] in *; eauto. injection Hj as <-. eauto. Qed.

Lemma pool_fine {R} (dflt : R) sched : forall cs (th : list (proc X L R)) x t th' x' t',
  Forall2 fine cs th -> interleave dflt sched th x t = Ok ((th', x'), t') -> exists z, Forall2 fine (cs ++ repeat 0 z) th'.
Proof.
  induction sched as [|j sched IH]; intros cs th x t th' x' t' H E; cbn [interleave] in E.
  - unfold ret in E. injection E as <- <- <-. exists 0. cbn [repeat]. rewrite app_nil_r. exact H.
  - unfold bind, step1 in E. destruct (nth_error th j) as [p|] eqn:Ej; [|unfold ret in E; eapply IH; eauto].
    destruct (nth_fine _ _ _ _ H Ej) as (c & Ec & Hp). destruct p as [r|A l f k|q k].
    + unfold ret in E. eapply IH; eauto.
    + unfold bind, ret in E. destruct (f x t) as [[[a x1] t1]| |] eqn:Ef; try discriminate. eapply IH; [|exact E].
      eapply list_set_fine; eauto. destruct Hp as (_ & Hp). eapply Hp; eauto.
    + unfold ret in E. destruct Hp as (_ & Hq & Hk). apply (IH (cs ++ [0])) in E.
      * destruct E as (z & E). exists (S z). rewrite <- app_assoc in E. exact E.
      * apply Forall2_app; [eapply list_set_fine; eauto|]. constructor; [|constructor]. apply fine_bind; auto; intros; [exact I|apply fine_ret].
Qed.

Definition total (l : list nat) : nat := fold_right plus 0 l.
Lemma total_app l l' : total (l ++ l') = total l + total l'.
Proof. unfold total. induction l; cbn [app fold_right]; lia. Qed.
Lemma total_set : forall cs j c c', nth_error cs j = Some (S c') -> c = c' -> S (total (list_set cs j c)) = total cs.
Proof. induction cs; intros [|j] c c' H ->; try discriminate; cbn [nth_error list_set total fold_right] in *; [injection H as ->; unfold total; lia|]. fold (total cs). fold (total (list_set cs j c')). rewrite <- (IHcs j c' c' H eq_refl). lia. Qed.

Lemma nth_calm {R} cs : forall (th : list (proc X L R)) j p, Forall2 calm cs th -> nth_error th j = Some p -> exists c, nth_error cs j = Some c /\ calm c p.
Proof. induction cs; intros th [|j] p H Hj; inversion H; subst; try discriminate; cbn [nth_error] in *; eauto. injection Hj as <-. eauto. Qed.
Lemma set_calm {R} cs : forall (th : list (proc X L R)) j c p, Forall2 calm cs th -> nth_error cs j = Some c -> calm c p -> Forall2 calm cs (list_set th j p).
Proof. induction cs; intros th [|j] c p H Hj Hp; inversion H; subst; try discriminate; cbn [list_set nth_error] in *; constructor; auto; try congruence; eauto. Qed.
Lemma set_calm2 {R} cs : forall (th : list (proc X L R)) j c p, Forall2 calm cs th -> calm c p -> Forall2 calm (list_set cs j c) (list_set th j p).
Proof. induction cs; intros th [|j] c p H Hp; inversion H; subst; cbn [list_set]; constructor; auto. Qed.

Lemma pool_calm {R} (dflt : R) sched : forall cs (th : list (proc X L R)) x t th' x' t',
  Forall2 calm cs th -> in_stopped (snd x) = true -> interleave dflt sched th x t = Ok ((th', x'), t') ->
  in_stopped (snd x') = true /\ started x' <= started x + total cs.
Proof.
  induction sched as [|j sched IH]; intros cs th x t th' x' t' H Hx E; cbn [interleave] in E.
  - unfold ret in E. injection E as <- <- <-. split; auto. lia.
  - unfold bind, step1 in E. destruct (nth_error th j) as [p|] eqn:Ej; [|unfold ret in E; eapply IH; eauto].
    destruct (nth_calm _ _ _ _ H Ej) as (c & Ec & Hp). destruct p as [r|A l f k|q k].
    + unfold ret in E. eapply IH; eauto.
    + unfold bind, ret in E. destruct (f x t) as [[[a x1] t1]| |] eqn:Ef; try discriminate.
      destruct (Hp _ _ _ _ _ Hx Ef) as (H1 & [(H2 & H3)|(H2 & c0 & -> & H3)]).
      * rewrite <- H2. eapply IH; [|exact H1|exact E]. eapply set_calm; eauto.
      * apply (IH (list_set cs j c0)) in E; auto; [|apply set_calm2; auto]. destruct E as (E1 & E2). split; auto.
        pose proof (total_set cs j c0 c0 Ec eq_refl). lia.
    + unfold ret in E. destruct Hp as (Hq & Hk). apply (IH (cs ++ [0])) in E; auto.
      * rewrite total_app in E. change (total [0]) with 0 in E. rewrite Nat.add_0_r in E. exact E.
      * apply Forall2_app; [eapply set_calm; eauto|]. constructor; [|constructor]. apply calm_bind; auto. intros. exact I.
Qed.

Lemma total_repeat c n : total (repeat c n) = n * c.
Proof. unfold total. induction n; cbn [repeat fold_right]; lia. Qed.

Lemma stop_all s (q : task -> proc V L unit) ns (others : list (proc V L bool)) dflt sched sched2 (x : X) t th1 x1 t1 th2 x2 t2 :
  interleave dflt sched ((call _ <- stop_cfg; Ret true) :: map (cfg_loop s (counted q)) ns ++ map (fun p => on_world (on_world p)) others) x t =
    Ok ((th1, x1), t1) -> in_stopped (snd x1) = true ->
  interleave dflt sched2 th1 x1 t1 = Ok ((th2, x2), t2) ->
  in_stopped (snd x2) = true /\ started x2 <= started x1 + length ns.
Proof.
  intros E1 Hx E2. apply (pool_fine dflt sched (0 :: repeat 1 (length ns) ++ repeat 0 (length others))) in E1.
  - destruct E1 as (z & E1). replace (length ns) with (total ((0 :: repeat 1 (length ns) ++ repeat 0 (length others)) ++ repeat 0 z)).
    + eapply pool_calm; [|exact Hx|exact E2]. clear - E1. induction E1; constructor; auto. apply fine_calm; auto.
    + rewrite total_app. change (total (0 :: ?l)) with (total l). rewrite total_app, !total_repeat. lia.
  - constructor.
    + apply (fine_bind0 stop_cfg (fun _ => Ret true)); [intros; apply fine_stop|intros; apply fine_ret].
    + apply Forall2_app.
      * clear. induction ns; cbn; constructor; auto. apply fine_loop.
      * clear. induction others; cbn; constructor; auto. apply fine_lifted.
Qed.
End Stop.
