(* The real numbers of the standard library as a number system (Num.v): used to say what the
   distance functions compute when rounding is ignored. *)
From Verif Require Import Base Num MathUtils NumFacts.
From Coq Require Import Reals Lra.
Open Scope R_scope.

Definition R_ltb (a b : R) : bool := if Rlt_dec a b then true else false.
Definition R_eqb (a b : R) : bool := if Req_EM_T a b then true else false.

Definition rnum : Num := MkNum R Rplus Rminus Rmult Rdiv sqrt INR
  (IZR ((2 ^ 53 - 1) * 2 ^ 971)%Z) R_ltb R_eqb.

Lemma R_ltb_lt a b : R_ltb a b = true <-> a < b.
Proof. unfold R_ltb. destruct (Rlt_dec a b); split; auto; discriminate. Qed.
Lemma R_eqb_eq a b : R_eqb a b = true <-> a = b.
Proof. unfold R_eqb. destruct (Req_EM_T a b); split; auto; discriminate. Qed.

Lemma rnum_ord : NumOrd rnum.
Proof.
  split; cbn [F fltb rnum].
  - intros a. destruct (R_ltb a a) eqn:H; auto. apply R_ltb_lt in H. lra.
  - intros a b c H1 H2. rewrite R_ltb_lt in *. lra.
  - intros a b c H1 H2. rewrite !R_ltb_lt in *. destruct (Rlt_dec a b); auto. right; lra.
Qed.

Lemma rnum_exact : ExactNum rnum.
Proof.
  assert (H0 : @f0 rnum = 0) by reflexivity.
  assert (H1 : @f1 rnum = 1) by reflexivity.
  split; rewrite ?H0, ?H1; cbn [F fadd fsub fmul fdiv rnum]; intros; try ring.
  - split; intros; lra.
  - split; intros Hc.
    + rewrite <- Hc. field. auto.
    + rewrite Hc. field. auto.
  - change (INR (S n) = INR n + 1). apply S_INR.
  - change (INR (S n) <> 0). apply not_0_INR. lia.
Qed.

(* ---- sums ---- *)
Definition rsum (l : list R) : R := fold_right Rplus 0 l.

Lemma fold_left_rsum {A} (f : A -> R) (l : list A) : forall a,
  fold_left (fun r x => r + f x) l a = a + rsum (map f l).
Proof.
  induction l as [|x l IH]; intros a; cbn [fold_left map rsum fold_right]; [lra|].
  rewrite IH. unfold rsum. lra.
Qed.

Lemma rsum_cons x l : rsum (x :: l) = x + rsum l.
Proof. reflexivity. Qed.

(* pairs of coordinates *)
Notation rvec := (vec rnum).
Definition l1 (a b : list R) : R := rsum (map (fun p => Rabs (fst p - snd p)) (combine a b)).
Definition rdot (a b : list R) : R := rsum (map (fun p => fst p * snd p) (combine a b)).
Definition sumsq (a : list R) : R := rsum (map (fun x => x * x) a).

Lemma euclid_l1 (a b : rvec) : length a = length b -> euclidean_distance a b = Some (l1 a b).
Proof.
  intros H. unfold euclidean_distance. rewrite H, Nat.eqb_refl. f_equal.
  cbn [F fadd fsqrt fmul fsub rnum].
  rewrite (fold_left_rsum (fun p : R * R => sqrt ((fst p - snd p) * (fst p - snd p)))).
  unfold l1. change (@f0 rnum) with 0. rewrite Rplus_0_l. f_equal. apply map_ext. intros p.
  change ((fst p - snd p) * (fst p - snd p)) with (Rsqr (fst p - snd p)). apply sqrt_Rsqr_abs.
Qed.

Lemma norm_eq (a : rvec) : norm a = sqrt (sumsq a).
Proof.
  unfold norm. cbn [F fadd fsqrt fmul rnum]. f_equal.
  rewrite (fold_left_rsum (fun x : R => x * x)). change (@f0 rnum) with 0. unfold sumsq. lra.
Qed.
Lemma dot_eq (a b : rvec) : dot a b = rdot a b.
Proof.
  unfold dot. cbn [F fadd fmul rnum].
  rewrite (fold_left_rsum (fun p : R * R => fst p * snd p)). change (@f0 rnum) with 0. unfold rdot. lra.
Qed.

Lemma sumsq_nonneg a : 0 <= sumsq a.
Proof.
  induction a as [|x a IH]; unfold sumsq in *; cbn [map]; [cbn; lra|]. rewrite rsum_cons. nra.
Qed.
Lemma sumsq_zero a : sumsq a = 0 <-> Forall (fun x => x = 0) a.
Proof.
  induction a as [|x a IH]; [unfold sumsq; cbn; split; auto|].
  assert (Hc : sumsq (x :: a) = x * x + sumsq a) by reflexivity. rewrite Hc.
  pose proof (sumsq_nonneg a) as Ha. rewrite Forall_cons_iff, <- IH. split; intros H.
  - assert (sumsq a = 0) by nra. split; auto. nra.
  - destruct H as [-> ->]. lra.
Qed.
Lemma sqrt_zero_iff x : 0 <= x -> (sqrt x = 0 <-> x = 0).
Proof. intros H. split; [apply sqrt_eq_0; auto|intros ->; apply sqrt_0]. Qed.

(* ---- Cauchy-Schwarz ---- *)
Lemma quad_nonneg x : forall a b, length a = length b ->
  0 <= sumsq a * x * x - 2 * rdot a b * x + sumsq b.
Proof.
  induction a as [|p a IH]; intros [|q b] H; cbn [length] in H; try discriminate.
  - unfold sumsq, rdot; cbn. lra.
  - injection H as H. specialize (IH b H).
    assert (H1 : sumsq (p :: a) = p * p + sumsq a) by reflexivity.
    assert (H2 : sumsq (q :: b) = q * q + sumsq b) by reflexivity.
    assert (H3 : rdot (p :: a) (q :: b) = p * q + rdot a b) by reflexivity.
    rewrite H1, H2, H3. pose proof (Rle_0_sqr (p * x - q)) as Hs. unfold Rsqr in Hs. nra.
Qed.

Lemma rdot_zero a : forall b, Forall (fun x => x = 0) a -> rdot a b = 0.
Proof.
  induction a as [|p a IH]; intros b H; [reflexivity|]. inversion H; subst.
  destruct b as [|q b]; [reflexivity|]. change (0 * q + rdot a b = 0). rewrite IH by auto. lra.
Qed.

Lemma cauchy_schwarz a b : length a = length b -> rdot a b * rdot a b <= sumsq a * sumsq b.
Proof.
  intros H. destruct (Req_dec (sumsq a) 0) as [Hz|Hz].
  - rewrite (rdot_zero a b) by (apply sumsq_zero; auto). rewrite Hz. lra.
  - pose proof (sumsq_nonneg a) as Ha. pose proof (quad_nonneg (rdot a b / sumsq a) a b H) as Hq.
    set (S := rdot a b) in *. set (A := sumsq a) in *. set (B := sumsq b) in *.
    assert (HA : 0 < A) by lra.
    replace (A * (S / A) * (S / A) - 2 * S * (S / A) + B) with ((A * B - S * S) / A) in Hq by (field; lra).
    apply (Rmult_le_compat_l A) in Hq; [|lra].
    replace (A * ((A * B - S * S) / A)) with (A * B - S * S) in Hq by (field; lra). lra.
Qed.

Lemma dot_le_norms a b : length a = length b ->
  Rabs (rdot a b) <= sqrt (sumsq a) * sqrt (sumsq b).
Proof.
  intros H. rewrite <- sqrt_mult by apply sumsq_nonneg.
  rewrite <- sqrt_Rsqr_abs. apply sqrt_le_1_alt. unfold Rsqr. apply cauchy_schwarz; auto.
Qed.

Lemma rdot_comm a : forall b, rdot a b = rdot b a.
Proof.
  induction a as [|p a IH]; intros [|q b]; try reflexivity.
  change (p * q + rdot a b = q * p + rdot b a). rewrite IH. lra.
Qed.
Lemma rdot_self a : rdot a a = sumsq a.
Proof. induction a as [|p a IH]; auto. change (p * p + rdot a a = p * p + sumsq a). lra. Qed.
Lemma rdot_scale s a : forall b, rdot (map (fun x => s * x) a) b = s * rdot a b.
Proof.
  induction a as [|p a IH]; intros [|q b]; cbn [map]; try (unfold rdot; cbn; lra).
  change (s * p * q + rdot (map (fun x => s * x) a) b = s * (p * q + rdot a b)). rewrite IH. lra.
Qed.
Lemma sumsq_scale s a : sumsq (map (fun x => s * x) a) = s * s * sumsq a.
Proof. rewrite <- !rdot_self, rdot_scale, rdot_comm, rdot_scale. lra. Qed.

Definition nonzero (v : rvec) : Prop := exists x, In x v /\ x <> 0.

Lemma nonzero_norm v : nonzero v -> 0 < norm v.
Proof.
  intros (x & Hi & Hx). rewrite norm_eq. apply sqrt_lt_R0.
  pose proof (sumsq_nonneg v). destruct (Req_dec (sumsq v) 0) as [Hz|]; [|lra].
  apply sumsq_zero in Hz. rewrite Forall_forall in Hz. elim Hx. auto.
Qed.

Lemma cos_val (a b : rvec) : length a = length b -> nonzero a -> nonzero b ->
  cosine_similarity a b = Some (rdot a b / norm a / norm b).
Proof.
  intros Hl Ha Hb. unfold cosine_similarity. rewrite Hl, Nat.eqb_refl.
  pose proof (nonzero_norm a Ha). pose proof (nonzero_norm b Hb).
  cbn [feqb rnum]. assert (Hf : R_eqb (norm a) (@f0 rnum) = false).
  { destruct (R_eqb (norm a) (@f0 rnum)) eqn:He; auto. apply R_eqb_eq in He. change (@f0 rnum) with 0 in He. lra. }
  rewrite Hf. cbn [andb fdiv rnum]. rewrite dot_eq. reflexivity.
Qed.

Lemma cos_range (a b : rvec) s : nonzero a -> nonzero b -> cosine_similarity a b = Some s -> -1 <= s <= 1.
Proof.
  intros Ha Hb Hs. assert (Hl : length a = length b).
  { unfold cosine_similarity in Hs. destruct (Nat.eqb_spec (length a) (length b)); auto; discriminate. }
  rewrite (cos_val a b Hl Ha Hb) in Hs.
  assert (Hs' : s = rdot a b / norm a / norm b) by congruence. rewrite Hs'. clear Hs Hs'.
  pose proof (nonzero_norm a Ha) as H1. pose proof (nonzero_norm b Hb) as H2.
  pose proof (dot_le_norms a b Hl) as Hd. rewrite <- !norm_eq in Hd.
  revert H1 H2 Hd. generalize (norm a) (norm b) (rdot a b). cbn [F rnum]. intros x y z H1 H2 Hd.
  assert (Hp : 0 < x * y) by (apply Rmult_lt_0_compat; auto).
  replace (z / x / y) with (z / (x * y)) by (field; split; lra).
  assert (Hd' : - (x * y) <= z <= x * y) by (unfold Rabs in Hd; destruct (Rcase_abs z); lra).
  assert (He : z / (x * y) * (x * y) = z) by (field; split; lra).
  set (w := z / (x * y)) in *. clearbody w. split; nra.
Qed.

Lemma cos_sym (a b : rvec) : cosine_similarity a b = cosine_similarity b a.
Proof.
  unfold cosine_similarity. rewrite (Nat.eqb_sym (length b)).
  destruct (Nat.eqb_spec (length a) (length b)) as [Hl|]; auto.
  rewrite (andb_comm (feqb (norm b) f0)). destruct (feqb (norm a) f0 && feqb (norm b) f0) eqn:Hz; auto.
  rewrite !dot_eq, (rdot_comm b a). cbn [fdiv rnum]. f_equal. unfold Rdiv. ring.
Qed.

Lemma cos_self (a : rvec) : nonzero a -> cosine_similarity a a = Some 1.
Proof.
  intros Ha. rewrite (cos_val a a eq_refl Ha Ha). f_equal. pose proof (nonzero_norm a Ha) as Hn.
  rewrite rdot_self. rewrite <- (sqrt_sqrt (sumsq a)) by apply sumsq_nonneg. rewrite <- norm_eq. field. lra.
Qed.

Lemma nonzero_scale s (a : rvec) : 0 < s -> nonzero a -> nonzero (vec_mul_scalar a s).
Proof.
  intros Hs (x & Hi & Hx). exists (x * s). split; [|apply Rmult_integral_contrapositive_currified; lra].
  unfold vec_mul_scalar. cbn [fmul rnum]. apply (in_map (fun x => x * s)). auto.
Qed.

Lemma scale_comm (a : rvec) (s : R) : vec_mul_scalar a s = map (fun x : R => s * x) a.
Proof. unfold vec_mul_scalar. cbn [fmul rnum]. apply map_ext. intros; apply Rmult_comm. Qed.

Lemma cos_scale (s : R) (a b : rvec) : 0 < s -> nonzero a -> nonzero b ->
  cosine_similarity (vec_mul_scalar a s) b = cosine_similarity a b.
Proof.
  intros Hs Ha Hb. destruct (Nat.eq_dec (length a) (length b)) as [Hl|Hl].
  - rewrite !cos_val; auto; [|unfold vec_mul_scalar; rewrite map_length; auto|apply nonzero_scale; auto].
    f_equal. rewrite !norm_eq, scale_comm, rdot_scale, sumsq_scale.
    rewrite sqrt_mult, sqrt_square by (try apply sumsq_nonneg; nra).
    pose proof (nonzero_norm a Ha) as H1. pose proof (nonzero_norm b Hb) as H2. rewrite norm_eq in H1, H2.
    field. repeat split; lra.
  - unfold cosine_similarity. unfold vec_mul_scalar. rewrite map_length.
    destruct (Nat.eqb_spec (length a) (length b)); [contradiction|reflexivity].
Qed.

(* Cauchy-Schwarz equality is not characterised; the extreme value for opposite vectors: *)
Lemma cos_opposite (a : rvec) : nonzero a ->
  cosine_similarity a (vec_mul_scalar a (-1)) = Some (-1).
Proof.
  intros Ha. pose proof (nonzero_norm a Ha) as Hn.
  assert (Hb : nonzero (vec_mul_scalar a (-1))).
  { destruct Ha as (x & Hi & Hx). exists (x * -1). split; [|lra].
    unfold vec_mul_scalar. cbn [fmul rnum]. apply (in_map (fun x => x * -1)). auto. }
  rewrite cos_val; auto; [|unfold vec_mul_scalar; rewrite map_length; auto].
  rewrite scale_comm. f_equal. rewrite rdot_comm, rdot_scale, rdot_self, !norm_eq, sumsq_scale.
  replace (-1 * -1 * sumsq a) with (sumsq a) by lra. rewrite norm_eq in Hn.
  rewrite <- (sqrt_sqrt (sumsq a)) at 1 by apply sumsq_nonneg. field. lra.
Qed.

(* ---- the L1 distance ---- *)
Lemma l1_cons p a q b : l1 (p :: a) (q :: b) = Rabs (p - q) + l1 a b.
Proof. reflexivity. Qed.
Lemma l1_nonneg a : forall b, 0 <= l1 a b.
Proof.
  induction a as [|p a IH]; intros [|q b]; try (unfold l1; cbn; lra).
  rewrite l1_cons. pose proof (Rabs_pos (p - q)). pose proof (IH b). lra.
Qed.
Lemma l1_sym a : forall b, l1 a b = l1 b a.
Proof. induction a as [|p a IH]; intros [|q b]; auto. rewrite !l1_cons, IH, Rabs_minus_sym. auto. Qed.
Lemma l1_zero a : forall b, length a = length b -> (l1 a b = 0 <-> a = b).
Proof.
  induction a as [|p a IH]; intros [|q b] H; cbn [length] in H; try discriminate.
  - split; auto.
  - injection H as H. rewrite l1_cons. pose proof (Rabs_pos (p - q)) as Hp. pose proof (l1_nonneg a b) as Hn.
    split; intros He.
    + assert (H1 : Rabs (p - q) = 0) by lra. assert (H2 : l1 a b = 0) by lra.
      f_equal; [|apply IH; auto]. destruct (Req_dec (p - q) 0); [lra|]. pose proof (Rabs_no_R0 _ H0). lra.
    + injection He as -> ->. rewrite (proj2 (IH b eq_refl) eq_refl).
      replace (q - q) with 0 by lra. rewrite Rabs_R0. lra.
Qed.
Lemma l1_triangle a : forall b c, length a = length b -> length b = length c ->
  l1 a c <= l1 a b + l1 b c.
Proof.
  induction a as [|p a IH]; intros [|q b] [|r c] H1 H2; cbn [length] in *; try discriminate.
  - unfold l1; cbn; lra.
  - rewrite !l1_cons. pose proof (IH b c ltac:(lia) ltac:(lia)).
    pose proof (Rabs_triang (p - q) (q - r)). replace (p - q + (q - r)) with (p - r) in * by lra. lra.
Qed.

(* The Euclidean distance, for comparison. *)
Definition l2 (a b : list R) : R :=
  sqrt (rsum (map (fun p => (fst p - snd p) * (fst p - snd p)) (combine a b))).

Lemma l2_le_l1 a : forall b, l2 a b <= l1 a b.
Proof.
  assert (H : forall a b, rsum (map (fun p => (fst p - snd p) * (fst p - snd p)) (combine a b)) <= l1 a b * l1 a b).
  { clear a. induction a as [|p a IH]; intros [|q b]; try (unfold l1; cbn; lra).
    rewrite l1_cons. cbn [combine map]. rewrite rsum_cons. cbn [fst snd].
    pose proof (Rabs_pos (p - q)) as Hp. pose proof (l1_nonneg a b) as Hn.
    replace ((p - q) * (p - q)) with (Rabs (p - q) * Rabs (p - q)).
    - specialize (IH b). nra.
    - rewrite <- Rabs_mult. apply Rabs_right. apply Rle_ge, (Rle_0_sqr (p - q)). }
  intros b. unfold l2. rewrite <- (sqrt_square (l1 a b)) by apply l1_nonneg. apply sqrt_le_1_alt, H.
Qed.
