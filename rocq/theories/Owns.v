(* A program logic for processes: what one process guarantees at each of its steps, whatever
   the other processes do in between.  [hand] lists the things a process is carrying. *)
From Verif Require Import Base Proc Wp.

Ltac splits := repeat match goal with |- _ /\ _ => split end.

Section Owns.
Context {W L X : Type}.
Notation hand := (list X).
Context (Inv : W -> Prop) (ext : W -> W -> Prop).
Context (G : nat -> nat -> W -> hand -> W -> hand -> Prop).
Context (ext_refl : forall w, ext w w) (ext_trans : forall a b c, ext a b -> ext b c -> ext a c).
Context (G_refl : forall t w h, G t t w h w h).
Context (G_trans : forall t1 t2 t3 w1 h1 w2 h2 w3 h3,
  G t1 t2 w1 h1 w2 h2 -> G t2 t3 w2 h2 w3 h3 -> G t1 t3 w1 h1 w3 h3).
Context (G_frame : forall t t' w h w' h' f, G t t' w h w' h' -> G t t' w (h ++ f) w' (h' ++ f)).
Context (G_perm : forall t t' w h w' h' k k', Permutation h k -> Permutation h' k' ->
  G t t' w h w' h' -> G t t' w k w' k').

(* From w0 on, carrying h, p keeps the invariant, guarantees G at each step, and never
   panics; Q describes its result, what it then carries and the world at that point.  [J] is
   what a started goroutine may leave undone. *)
Context (J : hand -> Prop).
Context (J_done : forall t w h1 h, J h1 -> G t t w (h1 ++ h) w h).
(* When a bounded loop may exceed its bound. *)
Context (Fuel : Prop).
Fixpoint owns {R : Type} (p : proc W L R) (Q : R -> hand -> W -> Prop) (h : hand) (w0 : W) {struct p} : Prop :=
  match p with
  | Ret r => Q r h w0
  | Act _ f k => forall w t, ext w0 w -> Inv w ->
      match f w t with
      | Ok ((a, w'), t') => exists h', Inv w' /\ ext w w' /\ G t t' w h w' h' /\ owns (k a) Q h' w'
      | Panic => False
      | OutOfFuel => Fuel
      end
  | Fork q k => exists h1 h2, (forall t w, G t t w h w (h1 ++ h2)) /\
      owns q (fun _ h' _ => J h') h1 w0 /\ owns k Q h2 w0
  end.

Lemma owns_mono : forall {R} (p : proc W L R) (Q Q' : R -> hand -> W -> Prop) h w0 w1,
  ext w0 w1 -> owns p Q h w0 ->
  (forall r h w w', ext w0 w -> ext w w' -> Q r h w -> Q' r h w') ->
  owns p Q' h w1.
Proof.
  intros R p. induction p as [R r|R A l f k IH|R q IHq k IHk]; intros Q Q' h w0 w1 He H HQ; cbn [owns] in *.
  - apply (HQ r h w0 w1); auto.
  - intros w t Hw HI. specialize (H w t (ext_trans _ _ _ He Hw) HI).
    destruct (f w t) as [[[a w'] t']| |]; auto. destruct H as (h' & H1 & H2 & H3 & H4).
    exists h'. splits; auto. eapply IH; [apply ext_refl|exact H4|].
    intros r h0 w2 w3 E1 E2 Hq. eapply HQ; [|exact E2|exact Hq]. eauto.
  - destruct H as (h1 & h2 & Hp & H1 & H2). exists h1, h2. splits; auto.
    + eapply IHq; [exact He|exact H1|]. auto.
    + eapply IHk; [exact He|exact H2|auto].
Qed.

Lemma owns_bind : forall {R S} (p : proc W L R) (k : R -> proc W L S) (Q : R -> hand -> W -> Prop) Q' h w0,
  owns p Q h w0 -> (forall r h w, ext w0 w -> Q r h w -> owns (k r) Q' h w) ->
  owns (pbind p k) Q' h w0.
Proof.
  intros R S p. induction p as [R r|R A l f k0 IH|R q IHq k0 IHk]; intros k Q Q' h w0 H HQ; cbn [pbind owns] in *.
  - auto.
  - intros w t Hw HI. specialize (H w t Hw HI).
    destruct (f w t) as [[[a w'] t']| |]; auto. destruct H as (h' & H1 & H2 & H3 & H4).
    exists h'. splits; auto. eapply IH; [exact H4|]. intros r h0 w2 E2. apply HQ. eauto.
  - destruct H as (h1 & h2 & Hp & H1 & H2). exists h1, h2. splits; auto. eapply IHk; eauto.
Qed.

Lemma owns_weaken : forall {R} (p : proc W L R) (Q Q' : R -> hand -> W -> Prop) h w0,
  owns p Q h w0 -> (forall r h w, ext w0 w -> Q r h w -> Q' r h w) -> owns p Q' h w0.
Proof.
  intros R p. induction p as [R r|R A l f k0 IH|R q IHq k0 IHk]; intros Q Q' h w0 H HQ; cbn [owns] in *.
  - auto.
  - intros w t Hw HI. specialize (H w t Hw HI).
    destruct (f w t) as [[[a w'] t']| |]; auto. destruct H as (h' & H1 & H2 & H3 & H4).
    exists h'. splits; auto. eapply IH; [exact H4|]. intros r h0 w2 E2. apply HQ. eauto.
  - destruct H as (h1 & h2 & Hp & H1 & H2). exists h1, h2. splits; auto. eapply IHk; eauto.
Qed.

Lemma owns_frame : forall {R} (p : proc W L R) (Q : R -> hand -> W -> Prop) h f w0,
  owns p Q h w0 -> owns p (fun r h' w => exists h0, h' = h0 ++ f /\ Q r h0 w) (h ++ f) w0.
Proof.
  intros R p. induction p as [R r|R A l g k0 IH|R q IHq k0 IHk]; intros Q h f w0 H; cbn [owns] in *.
  - eauto.
  - intros w t Hw HI. specialize (H w t Hw HI).
    destruct (g w t) as [[[a w'] t']| |]; auto. destruct H as (h' & H1 & H2 & H3 & H4).
    exists (h' ++ f). splits; auto.
  - destruct H as (h1 & h2 & Hp & H1 & H2). exists h1, (h2 ++ f). splits; auto.
    intros t w. rewrite app_assoc. apply G_frame; auto.
Qed.

Definition stable {R} (Q : R -> hand -> W -> Prop) : Prop :=
  forall r h w w', ext w w' -> Q r h w -> Q r h w'.

Lemma owns_later {R} (p : proc W L R) (Q : R -> hand -> W -> Prop) h w0 w1 :
  stable Q -> ext w0 w1 -> owns p Q h w0 -> owns p Q h w1.
Proof. intros HQ He H. eapply owns_mono; [exact He|exact H|]. intros. eapply HQ; eauto. Qed.

(* Running alone. *)
Lemma owns_exec : forall {R} (p : proc W L R) (Q : R -> hand -> W -> Prop) h w t,
  stable Q -> Inv w -> owns p Q h w ->
  match exec p w t with
  | Ok ((r, w'), t') => exists h', Inv w' /\ ext w w' /\ G t t' w h w' h' /\ Q r h' w'
  | Panic => False
  | OutOfFuel => Fuel
  end.
Proof.
  intros R p. induction p as [R r|R A l f k0 IH|R q IHq k0 IHk]; intros Q h w t HQ HI H; cbn [owns exec] in *.
  - exists h. splits; auto.
  - specialize (H w t (ext_refl w) HI). unfold bind.
    destruct (f w t) as [[[a w'] t']| |]; auto. destruct H as (h1 & H1 & H2 & H3 & H4).
    specialize (IH a Q h1 w' t' HQ H1 H4). destruct (exec (k0 a) w' t') as [[[r w2] t2]| |]; auto.
    destruct IH as (h2 & K1 & K2 & K3 & K4). exists h2. splits; eauto.
  - destruct H as (h1 & h2 & Hp & H1 & H2). unfold bind.
    specialize (IHq (fun _ h' _ => J h') h1 w t (fun _ _ _ _ _ x => x) HI H1). destruct (exec q w t) as [[[[] w'] t']| |]; auto.
    destruct IHq as (h1' & K1 & K2 & K3 & K4).
    specialize (IHk Q h2 w' t' HQ K1 (owns_later _ _ _ _ _ HQ K2 H2)).
    destruct (exec k0 w' t') as [[[r w2] t2]| |]; auto.
    destruct IHk as (h2' & L1 & L2 & L3 & L4). exists h2'. splits; eauto.
    eapply G_trans; [apply Hp|]. eapply G_trans; [apply (G_frame _ _ _ _ _ _ h2 K3)|].
    eapply G_trans; [apply J_done; exact K4|exact L3].
Qed.

(* Running in a pool, in any order. *)
Definition pool_owns {R} (Q : R -> hand -> W -> Prop) (th : list (proc W L R)) (hs : list hand) (w : W) : Prop :=
  Forall2 (fun p h => owns p Q h w) th hs.

Lemma list_set_app {A} (l1 : list A) x l2 y : list_set (l1 ++ x :: l2) (length l1) y = l1 ++ y :: l2.
Proof. induction l1; cbn [app length list_set]; auto. rewrite IHl1; auto. Qed.

Lemma pool_later {R} (Q : R -> hand -> W -> Prop) th hs w w' :
  stable Q -> ext w w' -> pool_owns Q th hs w -> pool_owns Q th hs w'.
Proof. intros HQ He H. induction H; constructor; auto. eapply owns_later; eauto. Qed.

Lemma owns_step {R} (Q : R -> hand -> W -> Prop) (dflt : R) th hs i w t :
  stable Q -> (forall h w, J h -> Q dflt h w) -> Inv w -> pool_owns Q th hs w ->
  match step1 dflt th i w t with
  | Ok ((th', w'), t') => exists hs', Inv w' /\ ext w w' /\ G t t' w (concat hs) w' (concat hs') /\
                            pool_owns Q th' hs' w'
  | Panic => False
  | OutOfFuel => Fuel
  end.
Proof.
  intros HQ HJ HI H. unfold step1.
  destruct (nth_error th i) as [p|] eqn:Hn.
  2:{ cbn. exists hs. splits; auto. }
  destruct (nth_error_split _ _ Hn) as (th1 & th2 & -> & <-).
  apply Forall2_app_inv_l in H. destruct H as (hs1 & hs2' & H1 & H2 & ->).
  inversion H2 as [|? h ? hs2 Hp H2' ]; subst.
  destruct p as [r|A l f k|q k]; cbn [owns] in Hp.
  - cbn. exists (hs1 ++ h :: hs2). splits; auto. apply Forall2_app; auto.
  - unfold bind. specialize (Hp w t (ext_refl w) HI). destruct (f w t) as [[[a w'] t']| |]; auto. cbn [ret].
    destruct Hp as (h' & K1 & K2 & K3 & K4). exists (hs1 ++ h' :: hs2). splits; auto.
    + rewrite !concat_app. cbn [concat].
      eapply G_perm; [| |apply (G_frame _ _ _ _ _ _ (concat hs1 ++ concat hs2) K3)]; perm.
    + rewrite list_set_app. apply Forall2_app; [eapply pool_later; eauto|].
      constructor; auto. eapply pool_later; eauto.
  - cbn [ret]. destruct Hp as (h1 & h2 & Hp & K1 & K2). exists ((hs1 ++ h2 :: hs2) ++ [h1]). splits; auto.
    + rewrite !concat_app. cbn [concat].
      eapply G_perm; [| |apply (G_frame _ _ _ _ _ _ (concat hs1 ++ concat hs2) (Hp t w))]; perm.
    + rewrite list_set_app. apply Forall2_app; [apply Forall2_app; auto|].
      constructor; [|constructor]. eapply owns_bind; [exact K1|]. intros r h0 w0 _ Hj. cbn [owns]. auto.
Qed.

Theorem owns_interleave {R} (Q : R -> hand -> W -> Prop) (dflt : R) :
  stable Q -> (forall h w, J h -> Q dflt h w) ->
  forall sched th hs w t, Inv w -> pool_owns Q th hs w ->
  match interleave dflt sched th w t with
  | Ok ((th', w'), t') => exists hs', Inv w' /\ ext w w' /\ G t t' w (concat hs) w' (concat hs') /\
                            pool_owns Q th' hs' w'
  | Panic => False
  | OutOfFuel => Fuel
  end.
Proof.
  intros HQ HJ. induction sched as [|i s IH]; intros th hs w t HI H; cbn [interleave].
  - cbn. exists hs. splits; auto.
  - unfold bind. pose proof (owns_step Q dflt th hs i w t HQ HJ HI H) as Hs.
    destruct (step1 dflt th i w t) as [[[th' w'] t']| |]; auto. destruct Hs as (hs' & K1 & K2 & K3 & K4).
    specialize (IH th' hs' w' t' K1 K4). destruct (interleave dflt s th' w' t') as [[[th2 w2] t2]| |]; auto.
    destruct IH as (hs2 & L1 & L2 & L3 & L4). exists hs2. splits; eauto.
Qed.

(* Every pool can be run to completion. *)
Lemma interleave_app {R} (dflt : R) : forall s1 s2 (th : list (proc W L R)) w t,
  interleave dflt (s1 ++ s2) th w t =
    match interleave dflt s1 th w t with
    | Ok ((th', w'), t') => interleave dflt s2 th' w' t'
    | Panic => Panic
    | OutOfFuel => OutOfFuel
    end.
Proof.
  induction s1 as [|i s1 IH]; intros s2 th w t; cbn [app interleave]; auto. unfold bind.
  destruct (step1 dflt th i w t) as [[[th' w'] t']| |]; auto.
Qed.

Lemma owns_drive (HF : ~ Fuel) : forall {R} (p : proc W L R) {S} (dflt : S) (k : R -> proc W L S)
  (Q : R -> hand -> W -> Prop) h th1 th2 w t,
  stable Q -> Inv w -> owns p Q h w ->
  exists sched r w' t' n h', Inv w' /\ ext w w' /\ Q r h' w' /\
    interleave dflt sched (th1 ++ pbind p k :: th2) w t = Ok ((th1 ++ k r :: th2 ++ repeat (Ret dflt) n, w'), t').
Proof.
  intros R p. induction p as [R r|R A l f k0 IH|R q IHq k0 IHk]; intros S dflt k Q h th1 th2 w t HQ HI H; cbn [owns pbind] in *.
  - exists [], r, w, t, 0, h. cbn [repeat interleave]. unfold ret. rewrite app_nil_r. splits; auto.
  - specialize (H w t (ext_refl w) HI). destruct (f w t) as [[[a w'] t']| |] eqn:Hf; try contradiction.
    destruct H as (h' & H1 & H2 & H3 & H4).
    destruct (IH a S dflt k Q h' th1 th2 w' t' HQ H1 H4) as (s & r & w2 & t2 & n & h2 & K1 & K2 & K3 & K4).
    exists (length th1 :: s), r, w2, t2, n, h2. splits; eauto. cbn [interleave]. unfold bind at 1, step1.
    rewrite nth_error_app2, Nat.sub_diag by lia. cbn [nth_error]. unfold bind. rewrite Hf. unfold ret.
    rewrite list_set_app. exact K4.
  - destruct H as (h1 & h2 & Hp & H1 & H2).
    destruct (IHq S dflt (fun _ => Ret dflt) (fun _ h' _ => J h') h1 (th1 ++ pbind k0 k :: th2) [] w t
      (fun _ _ _ _ _ x => x) HI H1) as (s1 & u & w1 & t1 & n1 & h1' & K1 & K2 & _ & K4).
    pose proof (owns_later _ _ _ _ _ HQ K2 H2) as H2'.
    destruct (IHk S dflt k Q h2 th1 (th2 ++ Ret dflt :: repeat (Ret dflt) n1) w1 t1 HQ K1 H2')
      as (s2 & r & w2 & t2 & n2 & h2' & L1 & L2 & L3 & L4).
    exists (length th1 :: s1 ++ s2), r, w2, t2, (1 + n1 + n2), h2'. splits; eauto.
    cbn [interleave]. unfold bind at 1, step1. rewrite nth_error_app2, Nat.sub_diag by lia. cbn [nth_error]. unfold ret at 1.
    rewrite list_set_app, interleave_app, K4. cbn [app]. rewrite <- app_assoc. cbn [app].
    rewrite L4. rewrite <- !app_assoc. cbn [app plus repeat]. rewrite repeat_app. auto.
Qed.

Lemma owns_drive_self (HF : ~ Fuel) : forall {R} (p : proc W L R) (dflt : R)
  (Q : R -> hand -> W -> Prop) h th1 th2 w t,
  stable Q -> Inv w -> owns p Q h w ->
  exists sched r w' t' n, Inv w' /\ ext w w' /\
    interleave dflt sched (th1 ++ p :: th2) w t = Ok ((th1 ++ Ret r :: th2 ++ repeat (Ret dflt) n, w'), t').
Proof.
  intros R p. induction p as [R r|R A l f k0 IH|R q IHq k0 IHk]; intros dflt Q h th1 th2 w t HQ HI H; cbn [owns] in *.
  - exists [], r, w, t, 0. cbn [repeat interleave]. unfold ret. rewrite app_nil_r. splits; auto.
  - specialize (H w t (ext_refl w) HI). destruct (f w t) as [[[a w'] t']| |] eqn:Hf; try contradiction.
    destruct H as (h' & H1 & H2 & H3 & H4).
    destruct (IH a dflt Q h' th1 th2 w' t' HQ H1 H4) as (s & r & w2 & t2 & n & K1 & K2 & K4).
    exists (length th1 :: s), r, w2, t2, n. splits; eauto. cbn [interleave]. unfold bind at 1, step1.
    rewrite nth_error_app2, Nat.sub_diag by lia. cbn [nth_error]. unfold bind. rewrite Hf. unfold ret.
    rewrite list_set_app. exact K4.
  - destruct H as (h1 & h2 & Hp & H1 & H2).
    destruct (owns_drive HF q dflt (fun _ => Ret dflt) (fun _ h' _ => J h') h1 (th1 ++ k0 :: th2) [] w t
      (fun _ _ _ _ _ x => x) HI H1) as (s1 & u & w1 & t1 & n1 & h1' & K1 & K2 & _ & K4).
    pose proof (owns_later _ _ _ _ _ HQ K2 H2) as H2'.
    destruct (IHk dflt Q h2 th1 (th2 ++ Ret dflt :: repeat (Ret dflt) n1) w1 t1 HQ K1 H2')
      as (s2 & r & w2 & t2 & n2 & L1 & L2 & L4).
    exists (length th1 :: s1 ++ s2), r, w2, t2, (1 + n1 + n2). splits; eauto.
    cbn [interleave]. unfold bind at 1, step1. rewrite nth_error_app2, Nat.sub_diag by lia. cbn [nth_error]. unfold ret at 1.
    rewrite list_set_app, interleave_app, K4. cbn [app]. rewrite <- app_assoc. cbn [app].
    rewrite L4. rewrite <- !app_assoc. cbn [app plus repeat]. rewrite repeat_app. auto.
Qed.

Theorem pool_completes {R} (HF : ~ Fuel) (Q : R -> hand -> W -> Prop) (dflt : R) : stable Q ->
  forall th hs w t, Inv w -> pool_owns Q th hs w ->
  exists sched rs w' t', interleave dflt sched th w t = Ok ((map (fun r => Ret r) rs, w'), t').
Proof.
  intros HQ. assert (H : forall th hs rs n w t, Inv w -> pool_owns Q th hs w ->
    exists sched rs' w' t', interleave dflt sched (map (fun r => Ret r) rs ++ th ++ repeat (Ret dflt) n) w t =
      Ok ((map (fun r => Ret r) rs', w'), t')).
  { induction th as [|p th IH]; intros hs rs n w t HI H.
    - exists [], (rs ++ repeat dflt n), w, t. cbn [interleave app]. unfold ret. rewrite map_app.
      assert (Hr : map (fun r => Ret r) (repeat dflt n) = repeat (Ret dflt : proc W L R) n)
        by (clear; induction n; cbn [repeat map]; f_equal; auto).
      rewrite Hr. auto.
    - inversion H as [|? h ? hs' Hp H']; subst.
      destruct (owns_drive_self HF p dflt Q h (map (fun r => Ret r) rs) (th ++ repeat (Ret dflt) n) w t HQ HI Hp)
        as (s & r & w1 & t1 & n1 & K1 & K2 & K4).
      destruct (IH hs' (rs ++ [r]) (n + n1) w1 t1 K1 (pool_later _ _ _ _ _ HQ K2 H')) as (s2 & rs' & w2 & t2 & HL).
      exists (s ++ s2), rs', w2, t2. rewrite interleave_app. cbn [app]. rewrite K4, <- HL, map_app, repeat_app.
      cbn [map]. rewrite <- !app_assoc. auto. }
  intros th hs w t HI HP. destruct (H th hs [] 0 w t HI HP) as (s & rs & w' & t' & K). cbn [map repeat app] in K.
  rewrite app_nil_r in K. exists s, rs, w', t'. exact K.
Qed.
End Owns.
