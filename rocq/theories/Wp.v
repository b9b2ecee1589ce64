(* Total-correctness reasoning for the effect monad, and list/permutation lemmas. *)
From Verif Require Import Base Num MathUtils Env.

(* m, started at tick t, terminates without panic in a value and tick satisfying Q. *)
Definition wp {A : Type} (m : M A) (t : nat) (Q : A -> nat -> Prop) : Prop :=
  match m t with
  | Ok (a, t') => Q a t'
  | Panic => False
  | OutOfFuel => False
  end.

Lemma wp_intro {A} (m : M A) t a t' (Q : A -> nat -> Prop) :
  m t = Ok (a, t') -> Q a t' -> wp m t Q.
Proof. unfold wp; intros ->; auto. Qed.

Lemma wp_elim {A} (m : M A) t (Q : A -> nat -> Prop) :
  wp m t Q -> exists a t', m t = Ok (a, t') /\ Q a t'.
Proof. unfold wp; destruct (m t) as [[a t']| |]; intros H; try contradiction; eauto. Qed.

Lemma wp_ok {A} (m : M A) t a t' (Q : A -> nat -> Prop) :
  wp m t Q -> m t = Ok (a, t') -> Q a t'.
Proof. unfold wp; intros H E; rewrite E in H; exact H. Qed.

Lemma wp_ret {A} (a : A) t (Q : A -> nat -> Prop) : Q a t -> wp (ret a) t Q.
Proof. exact (fun H => H). Qed.

Lemma wp_bind {A B} (m : M A) (f : A -> M B) t (Q : B -> nat -> Prop) :
  wp m t (fun a t' => wp (f a) t' Q) -> wp (bind m f) t Q.
Proof. unfold wp, bind; destruct (m t) as [[a t']| |]; auto. Qed.

Lemma wp_mono {A} (m : M A) t (Q Q' : A -> nat -> Prop) :
  wp m t Q -> (forall a t', Q a t' -> Q' a t') -> wp m t Q'.
Proof. unfold wp; destruct (m t) as [[a t']| |]; auto. Qed.

Lemma wp_conj {A} (m : M A) t (Q Q' : A -> nat -> Prop) :
  wp m t Q -> wp m t Q' -> wp m t (fun a t' => Q a t' /\ Q' a t').
Proof. unfold wp; destruct (m t) as [[a t']| |]; auto. Qed.

Lemma wp_index {A} (l : list A) i x t (Q : A -> nat -> Prop) :
  nth_error l i = Some x -> Q x t -> wp (index l i) t Q.
Proof. unfold wp, index; intros ->; auto. Qed.

Lemma wp_lift {A} (o : outcome A) a t (Q : A -> nat -> Prop) :
  o = Ok a -> Q a t -> wp (lift o) t Q.
Proof. unfold wp, lift; intros ->; auto. Qed.

Lemma wp_expired {N : Num} (E : Env N) d t (Q : bool -> nat -> Prop) :
  Q (expired_at (e_now E t) d) (S t) -> wp (expired E d) t Q.
Proof. exact (fun H => H). Qed.

Lemma nth_error_lt {A} (l : list A) i : i < length l -> exists x, nth_error l i = Some x.
Proof.
  intros H; destruct (nth_error l i) eqn:Hn; [eauto|].
  apply nth_error_None in Hn; lia.
Qed.

Lemma nth_error_len {A} (l : list A) i x : nth_error l i = Some x -> i < length l.
Proof. intros H; apply nth_error_Some; congruence. Qed.

(* ---- permutations of concatenations ---- *)
Lemma perm_find_here {A} (x r : list A) : Permutation (x ++ r) (x ++ r).
Proof. apply Permutation_refl. Qed.
Lemma perm_find_next {A} (x y r r' : list A) :
  Permutation r (x ++ r') -> Permutation (y ++ r) (x ++ (y ++ r')).
Proof.
  intros H; rewrite H. rewrite !app_assoc.
  apply Permutation_app_tail, Permutation_app_comm.
Qed.
Lemma perm_take {A} (x l r r' : list A) :
  Permutation r (x ++ r') -> Permutation l r' -> Permutation (x ++ l) r.
Proof. intros H1 H2; rewrite H1, H2; apply Permutation_refl. Qed.
Lemma perm_end {A} (l r : list A) : Permutation (l ++ []) (r ++ []) -> Permutation l r.
Proof. rewrite !app_nil_r; auto. Qed.
Lemma cons_app {A} (x : A) l : x :: l = [x] ++ l.
Proof. reflexivity. Qed.

Ltac perm_norm_cons :=
  repeat match goal with
  | |- context [ ?x :: ?l ] =>
      lazymatch l with
      | [] => fail
      | _ => rewrite (cons_app x l)
      end
  end.
Ltac perm_find := first [ apply perm_find_here | apply perm_find_next; perm_find ].
Ltac perm_loop :=
  lazymatch goal with
  | |- Permutation [] [] => apply perm_nil
  | |- Permutation (?x ++ ?l) ?r => eapply (perm_take x l); [ perm_find | perm_loop ]
  end.
(* Solves goals that are permutations of the same blocks glued by ++ and ::. *)
Ltac perm :=
  perm_norm_cons;
  apply perm_end;
  repeat rewrite <- app_assoc; repeat rewrite app_nil_l;
  perm_loop.

Example perm_test {A} (a b c : list A) (x : A) :
  Permutation (a ++ x :: b ++ c) (c ++ (b ++ a) ++ [x]).
Proof. perm. Qed.

(* ---- list_set / remove_at / nth_error ---- *)
Lemma list_set_length {A} (l : list A) i x : length (list_set l i x) = length l.
Proof. revert i; induction l as [|y l IH]; intros [|i]; simpl; auto. Qed.

Lemma list_set_same {A} (l : list A) i x : i < length l -> nth_error (list_set l i x) i = Some x.
Proof. revert i; induction l as [|y l IH]; intros [|i] H; simpl in *; try lia; auto. apply IH; lia. Qed.

Lemma list_set_other {A} (l : list A) i j x : i <> j -> nth_error (list_set l i x) j = nth_error l j.
Proof.
  revert i j; induction l as [|y l IH]; intros [|i] [|j] H; simpl; auto; try congruence.
Qed.

Lemma list_set_split {A} (l : list A) i y x :
  nth_error l i = Some y -> l = firstn i l ++ y :: skipn (S i) l /\
  list_set l i x = firstn i l ++ x :: skipn (S i) l.
Proof.
  revert i; induction l as [|z l IH]; intros [|i] H; simpl in *; try discriminate.
  - inversion H; subst; auto.
  - destruct (IH _ H) as [H1 H2]. split; f_equal; auto.
Qed.

Lemma list_set_id {A} (l : list A) i x : nth_error l i = Some x -> list_set l i x = l.
Proof. intros H. destruct (list_set_split l i x x H) as [H1 H2]. rewrite H2; auto. Qed.

Lemma list_set_set {A} (l : list A) i x y : list_set (list_set l i x) i y = list_set l i y.
Proof. revert i; induction l as [|z l IH]; intros [|i]; simpl; f_equal; auto. Qed.

Lemma map_list_set {A B} (f : A -> B) l i x :
  map f (list_set l i x) = list_set (map f l) i (f x).
Proof. revert i; induction l as [|z l IH]; intros [|i]; simpl; f_equal; auto. Qed.

Lemma Forall_list_set {A} (P : A -> Prop) l i x : Forall P l -> P x -> Forall P (list_set l i x).
Proof.
  intros H Hx; revert i; induction H as [|z l Hz Hl IH]; intros [|i]; simpl; constructor; auto.
Qed.

Lemma Forall_nth_error {A} (P : A -> Prop) l i x : Forall P l -> nth_error l i = Some x -> P x.
Proof. intros H Hn. rewrite Forall_forall in H. apply H. eapply nth_error_In; eauto. Qed.

Lemma remove_at_split {A} (l : list A) i x :
  nth_error l i = Some x -> l = firstn i l ++ x :: skipn (S i) l.
Proof. intros H; apply (list_set_split l i x x H). Qed.

Lemma remove_at_length {A} (l : list A) i : i < length l -> length (remove_at i l) = length l - 1.
Proof.
  intros H. unfold remove_at. rewrite app_length, firstn_length, skipn_length. lia.
Qed.

Lemma remove_at_perm {A} (l : list A) i x :
  nth_error l i = Some x -> Permutation l (x :: remove_at i l).
Proof.
  intros H. rewrite (remove_at_split _ _ _ H) at 1. unfold remove_at. perm.
Qed.

Lemma Forall_remove_at {A} (P : A -> Prop) l i : Forall P l -> Forall P (remove_at i l).
Proof.
  intros H. unfold remove_at. apply Forall_app; split.
  - apply Forall_forall; intros x Hx. rewrite Forall_forall in H. apply H.
    rewrite <- (firstn_skipn i l). apply in_or_app; auto.
  - apply Forall_forall; intros x Hx. rewrite Forall_forall in H. apply H.
    rewrite <- (firstn_skipn (S i) l). apply in_or_app; auto.
Qed.

(* concat (map f l) with one element replaced *)
Lemma concat_set_perm {A B} (f : A -> list B) (l : list A) i x y :
  nth_error l i = Some x ->
  exists rest, Permutation (concat (map f l)) (f x ++ rest) /\
               Permutation (concat (map f (list_set l i y))) (f y ++ rest).
Proof.
  intros H. destruct (list_set_split l i x y H) as [H1 H2].
  exists (concat (map f (firstn i l)) ++ concat (map f (skipn (S i) l))).
  split.
  - rewrite H1 at 1. rewrite map_app, concat_app. cbn [map concat]. perm.
  - rewrite H2. rewrite map_app, concat_app. cbn [map concat]. perm.
Qed.

(* ---- sort_ints ---- *)
From Coq Require Import Sorted.

Lemma insert_nat_perm x l : Permutation (insert_nat x l) (x :: l).
Proof.
  induction l as [|y l IH]; simpl; auto.
  destruct (x <=? y); auto. rewrite IH. apply perm_swap.
Qed.
Lemma sort_ints_perm l : Permutation (sort_ints l) l.
Proof. induction l as [|x l IH]; simpl; auto. rewrite insert_nat_perm, IH; auto. Qed.

Lemma insert_nat_sorted x l : StronglySorted le l -> StronglySorted le (insert_nat x l).
Proof.
  induction l as [|y l IH]; intros H; simpl.
  - repeat constructor.
  - inversion H as [|? ? Hs Hf]; subst. destruct (Nat.leb_spec x y).
    + constructor; auto. constructor; auto. eapply Forall_impl; [|exact Hf]. simpl; intros; lia.
    + constructor; [apply IH; auto|].
      eapply Permutation_Forall; [apply Permutation_sym, insert_nat_perm|].
      constructor; [lia|auto].
Qed.
Lemma sort_ints_sorted l : StronglySorted le (sort_ints l).
Proof. induction l as [|x l IH]; simpl; [constructor|]. apply insert_nat_sorted, IH. Qed.

(* Strictly decreasing lists: what rev (sort_ints idx) is for duplicate-free idx. *)
Inductive desc : list nat -> Prop :=
| desc_nil : desc []
| desc_cons x l : Forall (fun y => y < x) l -> desc l -> desc (x :: l).

Lemma desc_app l1 l2 : desc l1 -> desc l2 -> (forall a b, In a l1 -> In b l2 -> b < a) -> desc (l1 ++ l2).
Proof.
  intros H; induction H as [|x l Hf Hd IH]; intros H2 Hc; simpl; auto.
  constructor.
  - apply Forall_app; split; auto. apply Forall_forall; intros b Hb. apply Hc; simpl; auto.
  - apply IH; auto. intros a b Ha Hb; apply Hc; simpl; auto.
Qed.

Lemma desc_rev_sort l : NoDup l -> desc (rev (sort_ints l)).
Proof.
  intros Hnd.
  assert (Hnd' : NoDup (sort_ints l)).
  { eapply Permutation_NoDup; [apply Permutation_sym, sort_ints_perm|auto]. }
  pose proof (sort_ints_sorted l) as Hs. revert Hs Hnd'.
  generalize (sort_ints l) as s. clear. intros s Hs. induction Hs as [|x s Hs IH Hf]; intros Hnd; simpl.
  - constructor.
  - inversion Hnd as [|? ? Hx Hnd2]; subst. apply desc_app; auto.
    + repeat constructor.
    + intros a b Ha Hb. simpl in Hb. destruct Hb as [<-|[]]. apply in_rev in Ha.
      rewrite Forall_forall in Hf. specialize (Hf _ Ha).
      assert (x <> a) by (intros ->; auto). lia.
Qed.

Lemma rev_sort_perm l : Permutation (rev (sort_ints l)) l.
Proof. rewrite <- Permutation_rev. apply sort_ints_perm. Qed.

(* ---- pick ---- *)
Lemma pick_nil {A} (l : list A) : pick [] l = [].
Proof. reflexivity. Qed.
Lemma pick_cons {A} i idx (l : list A) x :
  nth_error l i = Some x -> pick (i :: idx) l = x :: pick idx l.
Proof. unfold pick; simpl; intros ->; auto. Qed.
Lemma pick_perm {A} idx idx' (l : list A) : Permutation idx idx' -> Permutation (pick idx l) (pick idx' l).
Proof. intros H; unfold pick; induction H; simpl; auto.
  - apply Permutation_app_head; auto.
  - rewrite !app_assoc. apply Permutation_app_tail, Permutation_app_comm.
  - etransitivity; eauto.
Qed.
Lemma pick_seq_shift {A} n k (a : list A) l :
  length a = k -> pick (seq k n) (a ++ l) = pick (seq 0 n) l.
Proof.
  intros Ha. subst k. unfold pick.
  assert (H : forall n j, flat_map (fun i => match nth_error (a ++ l) i with Some x => [x] | None => [] end) (seq (length a + j) n)
     = flat_map (fun i => match nth_error l i with Some x => [x] | None => [] end) (seq j n)).
  { clear n; induction n as [|n IH]; intros j; simpl; auto.
    rewrite nth_error_app2 by lia. replace (length a + j - length a) with j by lia.
    f_equal. rewrite <- IH. f_equal. f_equal. lia. }
  specialize (H n 0). rewrite Nat.add_0_r in H. exact H.
Qed.
Lemma pick_seq {A} (l : list A) : pick (seq 0 (length l)) l = l.
Proof.
  induction l as [|x l IH]; auto.
  cbn [length seq]. rewrite (pick_cons 0 _ (x :: l) x eq_refl). f_equal.
  change (x :: l) with ([x] ++ l). rewrite (pick_seq_shift (length l) 1 [x] l eq_refl). exact IH.
Qed.
Lemma pick_length {A} idx (l : list A) : Forall (fun i => i < length l) idx -> length (pick idx l) = length idx.
Proof.
  induction idx as [|i idx IH]; intros H; simpl; auto.
  inversion H; subst. destruct (nth_error_lt l i) as [x Hx]; auto.
  rewrite Hx. simpl. f_equal. apply IH; auto.
Qed.
Lemma pick_any_perm {A} idx (l : list A) : Permutation idx (seq 0 (length l)) -> Permutation (pick idx l) l.
Proof. intros H. rewrite (pick_perm _ _ l H). rewrite pick_seq; auto. Qed.

Lemma in_pick {A} idx (l : list A) x : In x (pick idx l) <-> exists i, In i idx /\ nth_error l i = Some x.
Proof.
  unfold pick. rewrite in_flat_map. split; intros (i & Hi & H); exists i; split; auto.
  - destruct (nth_error l i); simpl in H; [destruct H as [->|[]]; auto|contradiction].
  - rewrite H; simpl; auto.
Qed.

Lemma wp_any_order {N : Num} {A} (E : Env N) (l : list A) t (Q : list A -> nat -> Prop) :
  EnvOk E -> (forall l', Permutation l' l -> Q l' (S t)) -> wp (any_order E l) t Q.
Proof.
  intros (Hp & _) H. unfold wp, any_order, bind, tick, ret. apply H.
  apply pick_any_perm, Hp.
Qed.
