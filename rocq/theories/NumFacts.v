(* Facts about the number systems: what the proofs need from them, and that binary64 and
   the exact rationals provide it. *)
From Verif Require Import Base Num.
From Coq Require Import SpecFloat QArith Qcanon.

(* x takes part in the order (for binary64: x is not NaN). *)
Definition is_num {N : Num} (x : F N) : Prop :=
  exists y, fltb x y = true \/ fltb y x = true.

(* "<" is a strict weak order on the numbers that take part in it. *)
Record NumOrd (N : Num) : Prop := {
  lt_irrefl : forall a : F N, fltb a a = false;
  lt_trans : forall a b c : F N, fltb a b = true -> fltb b c = true -> fltb a c = true;
  lt_cotrans : forall a b c : F N, fltb a c = true -> is_num b ->
                 fltb a b = true \/ fltb b c = true
}.

(* ---- exact rationals ---- *)
Lemma Qc_ltb_lt a b : Qc_ltb a b = true <-> (a < b)%Qc.
Proof.
  unfold Qc_ltb. rewrite Qclt_alt. destruct (a ?= b)%Qc; split; intros H; try discriminate; auto.
Qed.

Lemma qc_ord : NumOrd qc.
Proof.
  split; cbn.
  - intros a. destruct (Qc_ltb a a) eqn:H; auto. apply Qc_ltb_lt in H.
    exfalso; exact (Qclt_not_eq _ _ H eq_refl).
  - intros a b c H1 H2. rewrite Qc_ltb_lt in *. eapply Qclt_trans; eauto.
  - intros a b c H _. rewrite !Qc_ltb_lt in *.
    destruct (Qclt_le_dec a b); auto. right. eapply Qcle_lt_trans; eauto.
Qed.

Lemma Q2Qc_plus a b : Q2Qc (a + b) = (Q2Qc a + Q2Qc b)%Qc.
Proof. apply Qc_is_canon. cbn [this Q2Qc Qcplus]. rewrite !Qred_correct. reflexivity. Qed.

Lemma qc_ofnat_S n : @fofnat qc (S n) = (@fofnat qc n + @f1 qc)%Qc.
Proof.
  unfold f1. cbn [fofnat qc]. rewrite <- Q2Qc_plus. f_equal.
  rewrite Nat2Z.inj_succ. unfold Z.succ. rewrite inject_Z_plus.
  unfold inject_Z, Qplus; cbn [Qnum Qden]. rewrite !Z.mul_1_r. reflexivity.
Qed.

Lemma qc_exact : ExactNum qc.
Proof.
  assert (H0 : @f0 qc = 0%Qc) by (apply Qc_is_canon; reflexivity).
  assert (H1 : @f1 qc = 1%Qc) by (apply Qc_is_canon; reflexivity).
  split; rewrite ?H0, ?H1; cbn [F fadd fsub fmul fdiv qc]; intros.
  - apply Qcplus_comm.
  - apply Qcplus_assoc.
  - apply Qcplus_0_l.
  - apply Qcmult_comm.
  - apply Qcmult_assoc.
  - apply Qcmult_1_l.
  - apply Qcmult_plus_distr_l.
  - split; intros H; [subst c|subst a]; ring.
  - split; intros H'; [subst c|subst a]; field; auto.
  - rewrite qc_ofnat_S, H1. reflexivity.
  - intros H'. cbn [fofnat qc] in H'.
    apply (f_equal this) in H'. cbn [this] in H'.
    assert (E : (Q2Qc (inject_Z (Z.of_nat (S n))) == 0)%Q) by (rewrite H'; reflexivity).
    cbn [this Q2Qc] in E. rewrite Qred_correct in E. unfold Qeq, inject_Z in E. cbn [Qnum Qden] in E. lia.
Qed.

(* ---- binary64 ---- *)
Definition sf_cls (x : spec_float) : Z * Z * Z :=
  match x with
  | S754_zero _ => (0, 0, 0)
  | S754_infinity true => (-2, 0, 0)
  | S754_infinity false => (2, 0, 0)
  | S754_nan => (0, 0, 0)
  | S754_finite true m e => (-1, - e, - Zpos m)
  | S754_finite false m e => (1, e, Zpos m)
  end%Z.

Definition lex3 (a b : Z * Z * Z) : Prop :=
  let '(a1, a2, a3) := a in
  let '(b1, b2, b3) := b in
  (a1 < b1 \/ (a1 = b1 /\ (a2 < b2 \/ (a2 = b2 /\ a3 < b3))))%Z.

Lemma sf_ltb_lex a b :
  SFltb a b = true <-> a <> S754_nan /\ b <> S754_nan /\ lex3 (sf_cls a) (sf_cls b).
Proof.
  unfold SFltb, SFcompare.
  destruct a as [sa|[|]| |[|] ma ea]; destruct b as [sb|[|]| |[|] mb eb]; cbn [sf_cls lex3];
    try (split; [intros H; try discriminate; repeat split; try discriminate; lia
                |intros (? & ? & ?); try congruence; try lia; reflexivity]).
  - destruct (Z.compare_spec ea eb) as [He|He|He].
    + replace (Pos.compare_cont Eq ma mb) with (Pos.compare ma mb) by reflexivity.
      destruct (Pos.compare_spec ma mb); cbn [CompOpp];
        (split; [intros H'; try discriminate; repeat split; try discriminate; lia
                |intros (? & ? & ?); try reflexivity; lia]).
    + split; [intros; discriminate|intros (? & ? & ?); lia].
    + split; [intros; repeat split; try discriminate; lia|reflexivity].
  - destruct (Z.compare_spec ea eb) as [He|He|He].
    + replace (Pos.compare_cont Eq ma mb) with (Pos.compare ma mb) by reflexivity.
      destruct (Pos.compare_spec ma mb);
        (split; [intros H'; try discriminate; repeat split; try discriminate; lia
                |intros (? & ? & ?); try reflexivity; lia]).
    + split; [intros; repeat split; try discriminate; lia|reflexivity].
    + split; [intros; discriminate|intros (? & ? & ?); lia].
Qed.

Lemma f64_ord : NumOrd f64.
Proof.
  split; cbn [F fltb f64].
  - intros a. destruct (SFltb a a) eqn:H; auto. apply sf_ltb_lex in H. destruct H as (_ & _ & H).
    destruct (sf_cls a) as [[? ?] ?]; cbn in H; lia.
  - intros a b c H1 H2. rewrite sf_ltb_lex in *. destruct H1 as (? & ? & H1), H2 as (? & ? & H2).
    repeat split; auto. destruct (sf_cls a) as [[? ?] ?], (sf_cls b) as [[? ?] ?], (sf_cls c) as [[? ?] ?];
      cbn in *; lia.
  - intros a b c H [y Hy]. rewrite !sf_ltb_lex in *. destruct H as (Ha & Hc & H).
    assert (Hb : b <> S754_nan).
    { destruct Hy as [Hy|Hy]; destruct Hy as (? & ? & ?); assumption. }
    assert (lex3 (sf_cls a) (sf_cls b) \/ lex3 (sf_cls b) (sf_cls c)); [|tauto].
    destruct (sf_cls a) as [[? ?] ?], (sf_cls b) as [[? ?] ?], (sf_cls c) as [[? ?] ?]; cbn in *; lia.
Qed.

(* NaN takes no part in the order of binary64. *)
Lemma f64_nan_not_num : ~ @is_num f64 S754_nan.
Proof. intros [y [H|H]]; apply (proj1 (sf_ltb_lex _ _)) in H; destruct H as (? & ? & ?); congruence. Qed.
