(* Lemmas about the specification vocabulary of DataSpec.v. *)
From Verif Require Import Base Num MathUtils Env DataSpec Wp.

Section DataFacts.
Context {N : Num} (E : Env N).
Notation DP := (DataPoint N).

Lemma live_from_app t (a b : list DP) :
  live_from E t (a ++ b) = live_from E t a ++ live_from E (t + length a) b.
Proof.
  revert t; induction a as [|d a IH]; intros t; cbn [app live_from length].
  - f_equal; lia.
  - rewrite IH. replace (S t + length a) with (t + S (length a)) by lia.
    destruct (expired_at (e_now E t) d); auto.
Qed.

Lemma live_from_length t (l : list DP) : length (live_from E t l) <= length l.
Proof.
  revert t; induction l as [|d l IH]; intros t; cbn [live_from length]; auto.
  specialize (IH (S t)). destruct (expired_at _ _); simpl; lia.
Qed.

Lemma live_from_Forall (P : DP -> Prop) t l : Forall P l -> Forall P (live_from E t l).
Proof.
  intros H; revert t; induction H as [|d l Hd Hl IH]; intros t; cbn [live_from]; auto.
  destruct (expired_at _ _); auto.
Qed.

Lemma live_from_seen t l : Forall (seen_live E t (t + length l)) (live_from E t l).
Proof.
  revert t; induction l as [|d l IH]; intros t; cbn [live_from length]; auto.
  assert (H : Forall (seen_live E t (t + S (length l))) (live_from E (S t) l)).
  { eapply Forall_impl; [|apply (IH (S t))]. intros x (k & Hk & Hx). exists k; split; auto. lia. }
  destruct (expired_at (e_now E t) d) eqn:He; auto.
  constructor; auto. exists t; split; auto. lia.
Qed.

(* When nothing is expired, everything survives. *)
Lemma live_from_all t l :
  (forall k d, t <= k < t + length l -> In d l -> expired_at (e_now E k) d = false) ->
  live_from E t l = l.
Proof.
  revert t; induction l as [|d l IH]; intros t H; cbn [live_from]; auto.
  rewrite H; [|simpl; lia|simpl; auto]. f_equal. apply IH. intros k x Hk Hx. apply H; simpl; auto.
  simpl. lia.
Qed.

(* ---- conserves ---- *)
Lemma seen_expired_widen t t' u u' d : u <= t -> t' <= u' -> seen_expired E t t' d -> seen_expired E u u' d.
Proof. intros H1 H2 (k & Hk & Hx). exists k; split; auto. lia. Qed.
Lemma seen_live_widen t t' u u' d : u <= t -> t' <= u' -> seen_live E t t' d -> seen_live E u u' d.
Proof. intros H1 H2 (k & Hk & Hx). exists k; split; auto. lia. Qed.

Lemma conserves_refl t t' l : conserves E t t' l l.
Proof. exists []; split; auto. rewrite app_nil_r; auto. Qed.
Lemma conserves_perm t t' a b : Permutation a b -> conserves E t t' a b.
Proof. exists []; split; auto. rewrite app_nil_r; auto. Qed.
Lemma conserves_widen t t' u u' a b : u <= t -> t' <= u' -> conserves E t t' a b -> conserves E u u' a b.
Proof.
  intros H1 H2 (lost & Hp & Hl). exists lost; split; auto.
  eapply Forall_impl; [|exact Hl]. intros d. apply seen_expired_widen; auto.
Qed.
Lemma conserves_trans t t' a b c : conserves E t t' a b -> conserves E t t' b c -> conserves E t t' a c.
Proof.
  intros (l1 & Hp1 & Hl1) (l2 & Hp2 & Hl2). exists (l2 ++ l1). split.
  - rewrite Hp1, Hp2. perm.
  - apply Forall_app; auto.
Qed.
Lemma conserves_seq t t' t'' a b c :
  t <= t' -> t' <= t'' -> conserves E t t' a b -> conserves E t' t'' b c -> conserves E t t'' a c.
Proof.
  intros Ha Hb H1 H2. eapply conserves_trans.
  - eapply conserves_widen; [| |exact H1]; lia.
  - eapply conserves_widen; [| |exact H2]; lia.
Qed.
Lemma conserves_app t t' a b c d :
  conserves E t t' a b -> conserves E t t' c d -> conserves E t t' (a ++ c) (b ++ d).
Proof.
  intros (l1 & Hp1 & Hl1) (l2 & Hp2 & Hl2). exists (l1 ++ l2). split.
  - rewrite Hp1, Hp2. perm.
  - apply Forall_app; auto.
Qed.
Lemma conserves_frame t t' a b c : conserves E t t' a b -> conserves E t t' (a ++ c) (b ++ c).
Proof. intros H. apply conserves_app; auto. apply conserves_refl. Qed.
Lemma conserves_frame_l t t' a b c : conserves E t t' a b -> conserves E t t' (c ++ a) (c ++ b).
Proof. intros H. apply conserves_app; auto. apply conserves_refl. Qed.
Lemma conserves_proper t t' a a' b b' :
  Permutation a a' -> Permutation b b' -> conserves E t t' a b -> conserves E t t' a' b'.
Proof.
  intros H1 H2 (lost & Hp & Hl). exists lost; split; auto. rewrite <- H1, <- H2; auto.
Qed.
Lemma conserves_in t t' a b x : conserves E t t' a b -> In x b -> In x a.
Proof.
  intros (lost & Hp & _) H. eapply Permutation_in; [apply Permutation_sym; exact Hp|].
  apply in_or_app; auto.
Qed.
Lemma conserves_Forall t t' a b (P : DP -> Prop) : conserves E t t' a b -> Forall P a -> Forall P b.
Proof.
  intros H Ha. rewrite Forall_forall in *. intros x Hx. apply Ha. eapply conserves_in; eauto.
Qed.
Lemma conserves_length t t' a b : conserves E t t' a b -> length b <= length a.
Proof. intros (lost & Hp & _). rewrite (Permutation_length Hp), app_length. lia. Qed.
(* nothing lost when nothing is seen expired *)
Lemma conserves_noexp t t' a b :
  (forall k d, t <= k < t' -> In d a -> expired_at (e_now E k) d = false) ->
  conserves E t t' a b -> Permutation a b.
Proof.
  intros H (lost & Hp & Hl). destruct lost as [|d lost]; [rewrite app_nil_r in Hp; auto|].
  inversion Hl as [|? ? (k & Hk & Hx) _]; subst.
  rewrite (H k d) in Hx; auto; [discriminate|].
  eapply Permutation_in; [apply Permutation_sym; exact Hp|]. apply in_or_app; simpl; auto.
Qed.
Lemma conserves_live t l : conserves E t (t + length l) l (live_from E t l).
Proof.
  revert t; induction l as [|d l IH]; intros t; cbn [live_from length].
  - apply conserves_refl.
  - destruct (IH (S t)) as (lost & Hp & Hl).
    assert (Hl' : Forall (seen_expired E t (t + S (length l))) lost).
    { eapply Forall_impl; [|exact Hl]. intros x; apply seen_expired_widen; lia. }
    destruct (expired_at (e_now E t) d) eqn:He.
    + exists (d :: lost). split; [rewrite Hp at 1; perm|].
      constructor; auto. exists t; split; auto; lia.
    + exists lost. split; auto. rewrite Hp at 1. perm.
Qed.
Lemma conserves_nil t t' a : conserves E t t' a [] -> Forall (seen_expired E t t') a.
Proof.
  intros (lost & Hp & Hl). eapply Permutation_Forall; [apply Permutation_sym; exact Hp|]. auto.
Qed.
End DataFacts.

Section WithoutFacts.
Context {A : Type}.
Lemma without_from_app i idx (a b : list A) :
  without_from i idx (a ++ b) = without_from i idx a ++ without_from (i + length a) idx b.
Proof.
  revert i; induction a as [|x a IH]; intros i; cbn [app without_from length].
  - f_equal; lia.
  - rewrite IH. replace (S i + length a) with (i + S (length a)) by lia.
    destruct (existsb _ _); auto.
Qed.
Lemma existsb_eqb i idx : existsb (Nat.eqb i) idx = true <-> In i idx.
Proof.
  rewrite existsb_exists. split.
  - intros (x & Hx & He). apply Nat.eqb_eq in He. subst; auto.
  - intros H. exists i. split; auto. apply Nat.eqb_refl.
Qed.
Lemma without_from_ext i idx idx' (l : list A) :
  (forall j, i <= j < i + length l -> (In j idx <-> In j idx')) ->
  without_from i idx l = without_from i idx' l.
Proof.
  revert i; induction l as [|x l IH]; intros i H; cbn [without_from]; auto.
  assert (E : existsb (Nat.eqb i) idx = existsb (Nat.eqb i) idx').
  { apply eq_true_iff_eq. rewrite !existsb_eqb. apply H. simpl; lia. }
  rewrite E. rewrite (IH (S i)); auto. intros j Hj. apply H. simpl; lia.
Qed.
Lemma without_from_none i idx (l : list A) :
  (forall j, i <= j < i + length l -> ~ In j idx) -> without_from i idx l = l.
Proof.
  revert i; induction l as [|x l IH]; intros i H; cbn [without_from]; auto.
  assert (Ef : existsb (Nat.eqb i) idx = false).
  { destruct (existsb (Nat.eqb i) idx) eqn:Ee; auto. apply existsb_eqb in Ee. exfalso. apply (H i); auto. simpl; lia. }
  rewrite Ef. f_equal. apply IH. intros j Hj. apply H. simpl; lia.
Qed.
Lemma without_perm_idx idx idx' (l : list A) : Permutation idx idx' -> without idx l = without idx' l.
Proof.
  intros H. apply without_from_ext. intros j _. split; apply Permutation_in; auto.
  apply Permutation_sym; auto.
Qed.
(* Removing the largest position first. *)
Lemma without_step j r (l : list A) x :
  nth_error l j = Some x -> Forall (fun y => y < j) r ->
  without (j :: r) l = without r (remove_at j l).
Proof.
  intros Hn Hf. rewrite Forall_forall in Hf.
  assert (Hj : j < length l) by (eapply nth_error_len; eauto).
  assert (Hfn : length (firstn j l) = j) by (rewrite firstn_length; lia).
  unfold without. rewrite (remove_at_split _ _ _ Hn) at 1. unfold remove_at.
  rewrite !without_from_app, Hfn. cbn [plus without_from]. f_equal.
  - apply without_from_ext. intros k Hk. rewrite Hfn in Hk. simpl. split; auto. intros [<-|H]; auto. lia.
  - assert (Ee : existsb (Nat.eqb j) (j :: r) = true) by (apply existsb_eqb; simpl; auto).
    rewrite Ee. rewrite !without_from_none; auto.
    + intros k Hk Hin. apply Hf in Hin. lia.
    + intros k Hk [<-|Hin]; [lia|]. apply Hf in Hin. lia.
Qed.
Lemma pick_remove j r (l : list A) : Forall (fun y => y < j) r -> pick r l = pick r (remove_at j l).
Proof.
  intros Hf. unfold pick. induction Hf as [|y r Hy Hr IH]; simpl; auto. f_equal; auto.
  replace (nth_error (remove_at j l) y) with (nth_error l y); auto.
  unfold remove_at. destruct (Nat.le_gt_cases (length l) y).
  - rewrite firstn_all2 by lia. rewrite skipn_all2 by lia. rewrite app_nil_r; auto.
  - rewrite nth_error_app1 by (rewrite firstn_length; lia).
    clear - Hy. revert y l Hy. induction j as [|j IHj]; intros y l Hy; [lia|].
    destruct l as [|z l]; destruct y as [|y]; simpl; auto. apply IHj; lia.
Qed.
Lemma pick_without_desc r : forall (l : list A), desc r -> Forall (fun y => y < length l) r ->
  Permutation l (pick r l ++ without r l).
Proof.
  induction r as [|j r IH]; intros l Hd Hf.
  - simpl. unfold without. rewrite without_from_none; auto.
  - inversion Hd as [|? ? Hlt Hd']; subst. inversion Hf as [|? ? Hj Hf']; subst.
    destruct (nth_error_lt l j Hj) as (x & Hx).
    rewrite (pick_cons j r l x Hx), (without_step j r l x Hx Hlt), (pick_remove j r l Hlt).
    rewrite (remove_at_perm l j x Hx) at 1. cbn [app]. constructor. apply IH; auto.
    rewrite remove_at_length by auto. eapply Forall_impl; [|exact Hlt]. simpl; intros; lia.
Qed.
Lemma pick_without idx (l : list A) : NoDup idx -> Forall (fun y => y < length l) idx ->
  Permutation l (pick idx l ++ without idx l).
Proof.
  intros Hn Hf. rewrite <- (pick_perm _ _ l (rev_sort_perm idx)).
  rewrite <- (without_perm_idx _ _ l (rev_sort_perm idx)).
  apply pick_without_desc; [apply desc_rev_sort; auto|].
  eapply Permutation_Forall; [apply Permutation_sym, rev_sort_perm|auto].
Qed.
Lemma without_length idx (l : list A) : NoDup idx -> Forall (fun y => y < length l) idx ->
  length (without idx l) = length l - length idx.
Proof.
  intros Hn Hf. pose proof (Permutation_length (pick_without idx l Hn Hf)) as H.
  rewrite app_length, pick_length in H by auto. lia.
Qed.
End WithoutFacts.
