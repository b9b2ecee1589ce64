From Verif Require Import Base Listen ListenSpec.

Lemma lrun_app es1 : forall s es2, lrun s (es1 ++ es2) =
  match lrun s es1 with Some s1 => lrun s1 es2 | None => None end.
Proof. induction es1 as [|e r IH]; intros s es2; cbn [app lrun]; auto. destruct (lstep s e); auto. Qed.

Lemma upd_link_spec i f ls j : nth_error (upd_link i f ls) j =
  if Nat.eqb j i then option_map f (nth_error ls i) else nth_error ls j.
Proof.
  unfold upd_link. destruct (nth_error ls i) as [k|] eqn:E.
  - assert (Hi : i < length ls) by (apply nth_error_Some; congruence).
    assert (Hl : length (firstn i ls) = i) by (rewrite firstn_length; lia).
    destruct (Nat.lt_trichotomy j i) as [H|[->|H]].
    + rewrite nth_error_app1 by lia. replace (j =? i) with false by (symmetry; apply Nat.eqb_neq; lia).
      rewrite <- (firstn_skipn i ls) at 2. rewrite nth_error_app1 by lia. auto.
    + rewrite nth_error_app2, Hl, Nat.sub_diag, Nat.eqb_refl by lia. reflexivity.
    + replace (j =? i) with false by (symmetry; apply Nat.eqb_neq; lia).
      rewrite nth_error_app2, Hl by lia. rewrite <- (firstn_skipn (S i) ls) at 2.
      rewrite nth_error_app2; rewrite firstn_length; [|lia].
      destruct (j - i) as [|m] eqn:Em; [lia|]. cbn [nth_error]. f_equal. lia.
  - destruct (Nat.eqb_spec j i) as [->|]; auto.
Qed.

Lemma upd_link_length i f ls : length (upd_link i f ls) = length ls.
Proof.
  unfold upd_link. destruct (nth_error ls i) eqn:E; auto.
  assert (i < length ls) by (apply nth_error_Some; congruence).
  rewrite app_length, firstn_length. cbn [length]. rewrite skipn_length. lia.
Qed.

(* Splits an event and the state it happens in. *)
Ltac lsplit s e H :=
  destruct s as [o ls c a p sv]; destruct e; cbn in H;
  repeat match type of H with context [match ?x with _ => _ end] => destruct x eqn:?; try discriminate H end;
  try discriminate H; injection H as <-.

Lemma links_count s e s' : lstep s e = Some s' ->
  length (l_links s') = length (l_links s) + match e with Dialled => 1 | _ => 0 end.
Proof. intros H. lsplit s e H; cbn; rewrite ?app_length, ?upd_link_length; cbn; lia. Qed.

Lemma links_run es : forall s s', lrun s es = Some s' -> length (l_links s') = length (l_links s) + dials es.
Proof.
  induction es as [|e r IH]; intros s s' H; cbn [lrun] in H.
  - injection H as <-. cbn. lia.
  - destruct (lstep s e) as [s1|] eqn:E; [|discriminate].
    rewrite (IH _ _ H), (links_count _ _ _ E). unfold dials. destruct e; cbn [filter length]; lia.
Qed.

(* The listener is open until stop is called. *)
Definition open_inv (s : listener) : Prop := stop_called s -> l_open s = false.

Lemma open_step s e s' : lstep s e = Some s' -> open_inv s -> open_inv s'.
Proof.
  unfold open_inv, stop_called. intros H HI.
  lsplit s e H; cbn in *; auto; intros X; try (apply HI; congruence); try congruence; auto.
Qed.

Lemma open_run es : forall s s', lrun s es = Some s' -> open_inv s -> open_inv s'.
Proof.
  induction es as [|e r IH]; intros s s' H HI; cbn [lrun] in H; [injection H as <-; auto|].
  destruct (lstep s e) as [s1|] eqn:E; [|discriminate]. eapply IH; eauto. eapply open_step; eauto.
Qed.

Lemma closed_step s e s' : lstep s e = Some s' -> l_open s = false -> l_open s' = false.
Proof. intros H HI. lsplit s e H; cbn in *; auto. Qed.

(* A closed listener gets no connections, and closed connections stay closed. *)
Lemma live_back s e s' i : lstep s e = Some s' -> l_open s = false -> live s' i -> live s i.
Proof.
  unfold live. intros H HI (k & Hk & Ho).
  lsplit s e H; cbn in *; subst; try (exists k; auto; fail); try discriminate;
    rewrite upd_link_spec in Hk;
    match type of Hk with context [?x =? ?y] => destruct (Nat.eqb_spec x y) as [->|] end; try (exists k; auto; fail);
    match type of Hk with context [nth_error ?x ?y] => destruct (nth_error x y) as [k'|] eqn:?; cbn in Hk; try discriminate Hk;
      injection Hk as <-; cbn in Ho; try discriminate Ho; exists k'; auto end.
Qed.

Lemma after_close es : forall s s', lrun s es = Some s' -> l_open s = false ->
  dials es = 0 /\ (forall i, In i (requests es) -> live s i) /\ (forall i, live s' i -> live s i).
Proof.
  induction es as [|e r IH]; intros s s' H Ho; cbn [lrun] in H.
  - injection H as <-. cbn. auto. repeat split; auto. contradiction.
  - destruct (lstep s e) as [s1|] eqn:E; [|discriminate].
    destruct (IH _ _ H (closed_step _ _ _ E Ho)) as (D & R & L).
    pose proof (live_back _ _ _ 0 E Ho) as _.
    assert (Lb : forall i, live s1 i -> live s i) by (intros i; eapply live_back; eauto).
    split; [|split; auto].
    + unfold dials in *. destruct e; cbn [filter]; auto.
      destruct s as [o ls c a p sv]. cbn in E, Ho. subst o. destruct a; discriminate.
    + intros i. unfold requests. cbn [flat_map]. intros Hi. apply in_app_or in Hi. destruct Hi as [Hi|Hi]; auto.
      destruct e; try contradiction. destruct Hi as [<-|[]].
      destruct s as [o ls c a p sv]. cbn in E. unfold live. cbn.
      destruct (nth_error ls i0) as [k|]; [|discriminate]. exists k. split; auto.
      destruct (k_open k); auto. rewrite andb_false_r in E. discriminate.
Qed.

Lemma start_open : open_inv listening.
Proof. intros H. exfalso. apply H. reflexivity. Qed.

Theorem nothing_new es1 s1 es2 s2 :
  lrun listening es1 = Some s1 -> stop_called s1 -> lrun s1 es2 = Some s2 ->
  dials es2 = 0 /\ forall i, In i (requests es2) -> i < dials es1 /\ live s1 i.
Proof.
  intros H1 Hs H2. pose proof (open_run _ _ _ H1 start_open Hs) as Ho.
  destruct (after_close _ _ _ H2 Ho) as (D & R & _). split; auto. intros i Hi.
  pose proof (R i Hi) as L. split; auto. destruct L as (k & Hk & _).
  pose proof (links_run _ _ _ H1) as HL. cbn in HL. rewrite <- HL. apply nth_error_Some. congruence.
Qed.

Theorem few_after es1 s1 es2 s2 :
  lrun listening es1 = Some s1 -> stop_called s1 -> lrun s1 es2 = Some s2 -> one_each es2 ->
  forall open, (forall i, live s1 i -> In i open) -> length (requests es2) <= length open.
Proof.
  intros H1 Hs H2 H3 l Hl. apply NoDup_incl_length; auto.
  intros i Hi. apply Hl. eapply (nothing_new _ _ _ _ H1 Hs H2); eauto.
Qed.

(* Without a failing Accept. *)
Definition last_link (ls : list link) : option nat :=
  match length ls with 0 => None | S n => Some n end.
Definition noted (s : listener) : Prop :=
  match l_accept s with
  | Waiting => l_conn s = last_link (l_links s)
  | Returned (Some i) => Some i = last_link (l_links s) /\ l_conn s = match i with 0 => None | S n => Some n end
  | Wrote (Some i) => l_conn s = Some i /\ Some i = last_link (l_links s)
  | _ => False
  end /\ (l_stop s = NotNil -> l_conn s <> None) /\ l_stop s <> Crashed.

Lemma last_link_upd i f ls : last_link (upd_link i f ls) = last_link ls.
Proof. unfold last_link. rewrite upd_link_length. auto. Qed.
Lemma last_link_app ls k : last_link (ls ++ [k]) = Some (length ls).
Proof. unfold last_link. rewrite app_length, Nat.add_comm. reflexivity. Qed.

Lemma noted_step s e s' : lstep s e = Some s' -> e <> Failed -> noted s -> noted s'.
Proof.
  unfold noted. intros H Hf (H1 & H2 & H3).
  destruct e; [| congruence | | | |].
  - destruct s as [o ls c a p sv]. cbn in H. destruct a; try discriminate H. destruct o; try discriminate H.
    injection H as <-. cbn in *. repeat split; auto; try (rewrite last_link_app; auto; fail).
  - destruct s as [o ls c a p sv]. cbn in H. destruct a as [|[i|]|[i|]|]; try discriminate H; cbn in H1; try contradiction;
      injection H as <-; cbn in *; repeat split; auto; try tauto; try congruence.
    rewrite last_link_upd. destruct H1 as (-> & ->). auto.
  - destruct s as [o ls c a p sv]. cbn in H. destruct p; try discriminate H.
    + injection H as <-. cbn in *. repeat split; auto; congruence.
    + injection H as <-. cbn in *. destruct c; repeat split; auto; try congruence.
    + destruct c as [i|]; [|exfalso; apply H2; reflexivity]. injection H as <-. cbn in *.
      destruct a as [|[j|]|[j|]|]; repeat split; auto; try congruence; rewrite ?last_link_upd; tauto.
  - destruct s as [o ls c a p sv]. cbn in H. destruct (nth_error ls i) as [k|]; try discriminate H.
    destruct (k_served k && k_open k); try discriminate H. injection H as <-. cbn in *. auto.
  - destruct s as [o ls c a p sv]. cbn in H. injection H as <-. cbn in *. rewrite last_link_upd. auto.
Qed.

Lemma noted_run es : forall s s', lrun s es = Some s' -> ~ In Failed es -> noted s -> noted s'.
Proof.
  induction es as [|e r IH]; intros s s' H Hf HI; cbn [lrun] in H; [injection H as <-; auto|].
  destruct (lstep s e) as [s1|] eqn:E; [|discriminate]. eapply IH; eauto.
  - intros X. apply Hf. right; auto.
  - eapply noted_step; eauto. intros ->. apply Hf. left; auto.
Qed.

Lemma start_noted : noted listening.
Proof. repeat split; cbn; congruence. Qed.

Theorem no_panic es s : lrun listening es = Some s -> ~ In Failed es -> l_stop s <> Crashed.
Proof. intros H Hf. apply (noted_run _ _ _ H Hf start_noted). Qed.

(* Called while the accepting goroutine waits, and it goes on waiting. *)
Definition closing (n : nat) (s : listener) : Prop :=
  l_open s = false /\ l_accept s = Waiting /\ length (l_links s) = n /\ l_conn s = last_link (l_links s) /\
  match l_stop s with
  | NotCalled => False
  | Closed => True
  | NotNil => 0 < n
  | Stopped => forall i, S i = n -> ~ live s i
  | Crashed => False
  end.

Lemma closing_step n s e s' : lstep s e = Some s' -> e <> Failed -> closing n s -> closing n s'.
Proof.
  intros H Hf (C1 & C2 & C3 & C4 & C5).
  assert (Lb : forall i, live s' i -> live s i) by (intros i; eapply live_back; eauto).
  destruct s as [o ls c a p sv]. cbn in C1, C2, C3, C4, C5. subst o a n.
  destruct e; cbn in H; try discriminate H; try congruence.
  - destruct p; try discriminate H.
    + contradiction.
    + injection H as <-. unfold closing. cbn. repeat split; auto. subst c. unfold last_link.
      destruct (length ls); [|lia]. cbn. discriminate.
    + subst c. unfold last_link in *. destruct (length ls) as [|n] eqn:El; [lia|].
      injection H as <-. unfold closing. cbn. rewrite upd_link_length. repeat split; auto; try lia.
      * unfold last_link. rewrite upd_link_length, El. auto.
      * intros i Hi (k & Hk & Ho). cbn in Hk. rewrite upd_link_spec in Hk. assert (i = n) by lia. subst i.
        rewrite Nat.eqb_refl in Hk. destruct (nth_error ls n); cbn in Hk; [|discriminate].
        injection Hk as <-. discriminate.
  - destruct (nth_error ls i) as [k|]; try discriminate H.
    destruct (k_served k && k_open k); try discriminate H. injection H as <-. unfold closing; cbn. repeat split; auto.
  - injection H as <-. unfold closing; cbn. rewrite upd_link_length, last_link_upd. repeat split; auto.
    destruct p; auto; intros j Hj Hl; apply (C5 j Hj); auto.
Qed.

Lemma closing_run n es : forall s s', lrun s es = Some s' -> ~ In Failed es -> closing n s -> closing n s'.
Proof.
  induction es as [|e r IH]; intros s s' H Hf HI; cbn [lrun] in H; [injection H as <-; auto|].
  destruct (lstep s e) as [s1|] eqn:E; [|discriminate]. eapply IH; eauto.
  - intros X. apply Hf. right; auto.
  - eapply closing_step; eauto. intros ->. apply Hf. left; auto.
Qed.

Theorem last_closed es1 s1 es2 s2 :
  lrun listening es1 = Some s1 -> l_accept s1 = Waiting -> l_stop s1 = NotCalled ->
  lrun s1 (Stopper :: es2) = Some s2 -> ~ In Failed (es1 ++ es2) -> stop_over s2 ->
  l_stop s2 = Stopped /\ forall i, S i = dials es1 -> ~ live s2 i.
Proof.
  intros H1 Ha Hp H2 Hf Ho.
  assert (N1 : noted s1) by (apply (noted_run _ _ _ H1); [intros X; apply Hf, in_or_app; auto|apply start_noted]).
  pose proof (links_run _ _ _ H1) as HL. cbn in HL.
  cbn [lrun] in H2. destruct s1 as [o ls c a p sv]. cbn in Ha, Hp, HL. subst a p. cbn in H2.
  destruct N1 as (N1 & _). cbn in N1.
  assert (C : closing (dials es1) s2).
  { apply (closing_run _ _ _ _ H2); [intros X; apply Hf, in_or_app; auto|].
    unfold closing; cbn. auto. }
  destruct C as (_ & _ & _ & _ & C5). destruct Ho as [E|E]; rewrite E in C5; [|contradiction].
  split; auto.
Qed.

(* One failing Accept is the end of accepting. *)
Definition failing (s : listener) : Prop := l_accept s = Returned None \/ l_accept s = Wrote None \/ l_accept s = Left.

Lemma failing_step s e s' : lstep s e = Some s' -> failing s -> failing s' /\ e <> Dialled.
Proof.
  unfold failing. intros H HI. destruct s as [o ls c a p sv]. cbn in HI.
  destruct e; cbn in H.
  - destruct HI as [->|[->| ->]]; discriminate.
  - destruct HI as [->|[->| ->]]; discriminate.
  - destruct HI as [->|[->| ->]]; try discriminate; injection H as <-; cbn; split; auto; discriminate.
  - split; [|discriminate]. destruct p; try discriminate H; try (injection H as <-; cbn; exact HI).
    destruct c; injection H as <-; cbn; exact HI.
  - split; [|discriminate]. destruct (nth_error ls i) as [k|]; try discriminate H.
    destruct (k_served k && k_open k); try discriminate H. injection H as <-. exact HI.
  - split; [|discriminate]. injection H as <-. exact HI.
Qed.

Lemma failing_run es : forall s s', lrun s es = Some s' -> failing s -> failing s' /\ dials es = 0.
Proof.
  induction es as [|e r IH]; intros s s' H HI; cbn [lrun] in H; [injection H as <-; auto|].
  destruct (lstep s e) as [s1|] eqn:E; [|discriminate]. destruct (failing_step _ _ _ E HI) as (F1 & F2).
  destruct (IH _ _ H F1) as (F3 & F4). split; auto. unfold dials in *. destruct e; cbn [filter]; auto. congruence.
Qed.

Theorem one_failure es1 s1 es2 s2 :
  lrun listening es1 = Some s1 -> In Failed es1 -> lrun s1 es2 = Some s2 -> dials es2 = 0.
Proof.
  intros H1 Hin H2. apply in_split in Hin. destruct Hin as (e1 & e2 & ->).
  rewrite lrun_app in H1. destruct (lrun listening e1) as [s|]; [|discriminate]. cbn [lrun] in H1.
  destruct (lstep s Failed) as [s'|] eqn:E; [|discriminate].
  assert (F : failing s').
  { destruct s as [o ls c a p sv]. cbn in E. destruct a; try discriminate. injection E as <-. left. reflexivity. }
  destruct (failing_run _ _ _ H1 F) as (F1 & _). apply (failing_run _ _ _ H2 F1).
Qed.
