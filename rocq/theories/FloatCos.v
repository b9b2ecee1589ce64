(* CosineSimilarity in binary64: close to the cosine of the angle. *)
From Coq Require Import List ZArith QArith Qabs Qreals Reals SpecFloat Lia Lra.
From Verif Require Import Base Num MathUtils FloatSpec FloatRound FloatOps DistSpec FloatSqrt FloatTerm FloatDist Fused FloatDot RealNum.
Local Open Scope R_scope.

Local Notation u := (/ 9007199254740992).
Lemma ulp_R : Q2R ulp = u.
Proof. assert (H : (ulp == 1 # 9007199254740992)%Q) by reflexivity. rewrite (Qeq_eqR _ _ H). unfold Q2R. cbn [Qnum Qden]. lra. Qed.
Lemma Q2R_0 : Q2R 0 = 0.
Proof. unfold Q2R. cbn. lra. Qed.
Lemma Q2R_Z k : Q2R (inject_Z k) = IZR k.
Proof. unfold Q2R. cbn. lra. Qed.
Lemma Q2R_abs x : Q2R (Qabs x) = Rabs (Q2R x).
Proof.
  destruct (Qlt_le_dec x 0) as [H|H].
  - rewrite (Qeq_eqR _ _ (Qabs_neg x (Qlt_le_weak _ _ H))), Q2R_opp. apply Qlt_Rlt in H. rewrite Q2R_0 in H. rewrite Rabs_left; auto.
  - rewrite (Qeq_eqR _ _ (Qabs_pos x H)). apply Qle_Rle in H. rewrite Q2R_0 in H. rewrite Rabs_pos_eq; auto.
Qed.

Lemma Rabs_inv x a : Rabs x <= a -> - a <= x <= a.
Proof. unfold Rabs. destruct (Rcase_abs x); lra. Qed.

(* A root in binary64 is near the root of the real. *)
Lemma scale x : 0 < x -> x < Q2R (p2 1024) -> (Q2R (p2 (-800)) <= x) -> exists k, (-400 <= k <= 512)%Z /\ Q2R (p2 (2 * (k - 1))) <= x < Q2R (p2 (2 * k)).
Proof.
  intros Hx H1 H2.
  assert (H : forall n, (n <= 912)%nat -> x < Q2R (p2 (2 * (Z.of_nat n - 400))) -> exists k, (-400 <= k <= 512)%Z /\ Q2R (p2 (2 * (k - 1))) <= x < Q2R (p2 (2 * k))).
  { induction n as [|n IH]; intros Hn Hlt; [exfalso; change (2 * (Z.of_nat 0 - 400))%Z with (-800)%Z in Hlt; lra|].
    destruct (Rlt_le_dec x (Q2R (p2 (2 * (Z.of_nat n - 400))))) as [Hl|Hl]; [apply IH; auto; lia|].
    exists (Z.of_nat (S n) - 400)%Z. split; [lia|]. split; auto. replace (2 * (Z.of_nat (S n) - 400 - 1))%Z with (2 * (Z.of_nat n - 400))%Z by lia. exact Hl. }
  apply (H 912%nat); auto. 
Qed.

Lemma sqrt_real (x : F f64) : is_fin x = true -> (val x < p2 1024)%Q -> (p2 (-800) <= val x)%Q ->
  is_fin (fsqrt x) = true /\ Rabs (real (fsqrt x) - sqrt (real x)) <= 3 * u * sqrt (real x).
Proof.
  intros Fx Hx1 Hx2. assert (Hpos : (0 < val x)%Q) by (eapply Qlt_le_trans; [|exact Hx2]; reflexivity).
  destruct (sqrt_ok x Fx Hpos Hx1) as (p & e & Hn & (Hp0 & Hroot) & He). split; [exact (proj1 Hn)|].
  pose proof (Qle_Rle _ _ (nearest_err _ _ Hn)) as Herr. rewrite Q2R_abs, Q2R_minus, Q2R_plus, Q2R_mult, Q2R_abs, ulp_R in Herr. fold (real (fsqrt x)) in Herr.
  set (z := real (fsqrt x)) in *. clearbody z. unfold real. set (X := Q2R (val x)) in *. set (P := Q2R p) in *.
  assert (HP0 : 0 <= P) by (unfold P; rewrite <- Q2R_0; apply Qle_Rle; auto). rewrite (Rabs_pos_eq P) in Herr by auto.
  assert (HX0 : 0 < X) by (unfold X; rewrite <- Q2R_0; apply Qlt_Rlt; auto).
  destruct (scale X) as (k & Hk & Hk1 & Hk2); auto. { apply Qlt_Rlt; auto. } { apply Qle_Rle; auto. }
  assert (He1 : (e <= k - 53)%Z). { apply Rlt_Qlt in Hk2. specialize (He k Hk2). lia. }
  set (h := Q2R (p2 (e - 1))). assert (Hh : 0 < h) by (unfold h; rewrite <- Q2R_0; apply Qlt_Rlt, p2_pos).
  assert (Hhk : h <= u * Q2R (p2 (k - 1))).
  { rewrite <- ulp_R, <- Q2R_mult. apply Qle_Rle. unfold ulp. rewrite <- p2_plus. apply p2_le. lia. }
  assert (HrX : 0 <= sqrt X) by apply sqrt_pos. assert (HsX : sqrt X * sqrt X = X) by (apply sqrt_sqrt; lra).
  assert (Hk3 : 0 < Q2R (p2 (k - 1))) by (rewrite <- Q2R_0; apply Qlt_Rlt, p2_pos).
  assert (Hk4 : Q2R (p2 (k - 1)) <= sqrt X).
  { rewrite (Qeq_eqR _ _ (p2_sq (k - 1))), Q2R_mult in Hk1. apply Rsqr_incr_0_var; auto. unfold Rsqr. lra. }
  (* the multiples of half of 2^e around the root *)
  assert (Hpr : Rabs (P - sqrt X) <= h).
  { pose proof (archimed (sqrt X / h)) as (A1 & A2). set (j := up (sqrt X / h)) in *.
    assert (Hq0 : 0 <= sqrt X / h) by (apply Rmult_le_pos; [auto|apply Rlt_le, Rinv_0_lt_compat; auto]).
    assert (Hj : (0 < j)%Z) by (apply lt_IZR; lra).
    assert (Hqh : sqrt X / h * h = sqrt X) by (field; lra).
    assert (B1 : sqrt X < IZR j * h) by (rewrite <- Hqh; apply Rmult_lt_compat_r; auto).
    assert (B2 : IZR (j - 1) * h <= sqrt X) by (rewrite <- Hqh; apply Rmult_le_compat_r; [lra|rewrite minus_IZR; lra]).
    assert (B3 : 0 <= IZR (j - 1)) by (apply IZR_le; lia).
    destruct (Hroot j ltac:(lia)) as (_ & R2 & _). destruct (Hroot (j - 1)%Z ltac:(lia)) as (R1 & _ & R3). cbv zeta in *.
    assert (C1 : P <= IZR j * h).
    { apply Rlt_le. unfold P, h. rewrite <- (Q2R_Z j), <- Q2R_mult. apply Qlt_Rlt, R2, Rlt_Qlt. rewrite !Q2R_mult, Q2R_Z. fold h X. nra. }
    assert (C2 : IZR (j - 1) * h <= P).
    { destruct (Rle_lt_or_eq_dec _ _ B2) as [Hl|Hl].
      - apply Rlt_le. unfold P, h. rewrite <- (Q2R_Z (j - 1)), <- Q2R_mult. apply Qlt_Rlt, R1, Rlt_Qlt. rewrite !Q2R_mult, Q2R_Z. fold h X.
        assert (0 <= IZR (j - 1) * h) by (apply Rmult_le_pos; lra). nra.
      - apply Req_le. unfold P, h. rewrite <- (Q2R_Z (j - 1)), <- Q2R_mult. symmetry. apply Qeq_eqR, R3, eqR_Qeq. rewrite !Q2R_mult, Q2R_Z. fold h X. rewrite Hl. auto. }
    rewrite minus_IZR in *. apply Rabs_le. nra. }
  assert (Ht : Q2R tiny <= (1/4) * u * sqrt X).
  { assert (H : (tiny <= (1#4) * ulp * p2 (-401))%Q) by discriminate. apply Qle_Rle in H. rewrite !Q2R_mult, ulp_R in H.
    assert (H4 : Q2R (1#4) = 1/4) by (unfold Q2R; cbn; lra). rewrite H4 in H.
    assert (H5 : Q2R (p2 (-401)) <= Q2R (p2 (k - 1))) by (apply Qle_Rle, p2_le; lia). lra. }
  apply Rabs_inv in Hpr. apply Rabs_inv in Herr. apply Rabs_le. lra.
Qed.

Lemma inner_q a b : Q2R (dotq (combine a b)) = inner a b.
Proof.
  unfold inner. induction (combine a b) as [|p l IH]; [apply Q2R_0|]. cbn [dotq fold_right]. fold (dotq l). rewrite Q2R_plus, Q2R_mult, IH. reflexivity.
Qed.
Lemma inner_rdot a b : inner a b = rdot (map real a) (map real b).
Proof.
  unfold inner, rdot. revert b. induction a as [|x a IH]; intros [|y b]; try reflexivity. cbn [combine map fold_right fst snd]. rewrite IH. reflexivity.
Qed.
Lemma inner_sumsq a : inner a a = sumsq (map real a).
Proof.
  unfold inner, sumsq. induction a as [|x a IH]; try reflexivity. cbn [combine map fold_right fst snd]. rewrite IH. reflexivity.
Qed.
Lemma absq_R a b : length a = length b -> Q2R (absq (combine a b)) <= size a * size b.
Proof.
  intros Hl. assert (H : Q2R (absq (combine a b)) = rdot (map (fun x => Rabs (real x)) a) (map (fun x => Rabs (real x)) b)).
  { clear Hl. unfold rdot. revert b. induction a as [|x a IH]; intros [|y b]; try apply Q2R_0. cbn [combine map fold_right fst snd absq].
    fold (absq (combine a b)). rewrite Q2R_plus, Q2R_abs, Q2R_mult, IH, Rabs_mult. reflexivity. }
  assert (Hs : forall c, sumsq (map (fun x => Rabs (real x)) c) = inner c c).
  { intros c. rewrite inner_sumsq. unfold sumsq. rewrite !map_map. f_equal. apply map_ext. intros x. pose proof (Rsqr_abs (real x)) as Hr. unfold Rsqr in Hr. auto. }
  rewrite H. eapply Rle_trans; [apply Rle_abs|]. unfold size. rewrite <- !Hs. apply dot_le_norms. rewrite !map_length. exact Hl.
Qed.

Lemma inner_ge a x : In x a -> real x * real x <= inner a a.
Proof.
  unfold inner. induction a as [|y a IH]; intros Hi; [destruct Hi|]. destruct Hi as [Hi|H].
  - subst y. cbn [combine fold_right fst snd]. assert (H : 0 <= inner a a) by (rewrite inner_sumsq; apply sumsq_nonneg). unfold inner in H. lra.
  - cbn [combine fold_right fst snd]. specialize (IH H). pose proof (Rle_0_sqr (real y)). unfold Rsqr in *. lra.
Qed.

Lemma size_ge a : moderate a -> Q2R (p2 (-200)) <= size a.
Proof.
  intros (_ & _ & x & Hi & Hx). apply Qle_Rle in Hx. rewrite Q2R_abs in Hx. fold (real x) in Hx. pose proof (inner_ge a x Hi) as H.
  pose proof (Rsqr_abs (real x)) as Hr. unfold Rsqr in Hr. unfold size. assert (H0 : 0 < Q2R (p2 (-200))) by (rewrite <- Q2R_0; apply Qlt_Rlt, p2_pos).
  apply Rsqr_incr_0_var; [|apply sqrt_pos]. unfold Rsqr. rewrite sqrt_sqrt by (rewrite inner_sumsq; apply sumsq_nonneg). nra.
Qed.

(* n u, for a vector of n coordinates. *)
Definition share (a : list spec_float) : R := IZR (Z.of_nat (length a)) * u.
Lemma share_small a : moderate a -> 0 <= share a <= / 8589934592.
Proof.
  intros (H & _). unfold share. apply IZR_le in H. change (2 ^ 20)%Z with 1048576%Z in H. assert (0 <= IZR (Z.of_nat (length a))) by (apply IZR_le; lia).
  lra.
Qed.

Lemma dot_R fused (a b : vec f64) : length a = length b -> moderate a -> moderate b ->
  is_fin (dot_f fused a b) = true /\ Rabs (real (dot_f fused a b) - inner a b) <= (2 * share a + 2 * u) * (size a * size b) /\ size a * size b <= Q2R (p2 920).
Proof.
  intros Hl Ha Hb. pose proof (size_ge a Ha) as Sa. pose proof (size_ge b Hb) as Sb. pose proof (share_small a Ha) as Hs.
  destruct Ha as (Hn & Ha & _). destruct Hb as (_ & Hb & _).
  assert (Na : (Z.of_nat (@length (F f64) a) <= 2 ^ 40)%Z) by (eapply Z.le_trans; [exact Hn|discriminate]).
  assert (Nb : (Z.of_nat (@length (F f64) b) <= 2 ^ 40)%Z) by (rewrite <- Hl; exact Na).
  destruct (dot_ieee fused a b Hl Na Ha Hb) as (H1 & H2 & H3). cbv zeta in H2, H3. split; auto.
  destruct (dot_ieee fused a a eq_refl Na Ha Ha) as (_ & _ & H3a). destruct (dot_ieee fused b b eq_refl Nb Hb Hb) as (_ & _ & H3b). cbv zeta in H3a, H3b. rewrite <- Hl in H3b.
  rewrite abs_dot in H3a, H3b. apply Qle_Rle in H3a. apply Qle_Rle in H3b. rewrite inner_q, Q2R_mult, Q2R_Z in H3a, H3b.
  apply Qle_Rle in H2. rewrite Q2R_abs, Q2R_minus, inner_q, Q2R_plus, !Q2R_mult, Q2R_plus, Q2R_mult, ulp_R, Q2R_Z in H2. fold (real (dot_f fused a b)) in H2.
  pose proof (absq_R a b Hl) as H4. set (S := size a * size b) in *. set (N := IZR (Z.of_nat (length a))) in *.
  assert (E2 : Q2R 2 = 2) by (unfold Q2R; cbn; lra). assert (E1 : Q2R 1 = 1) by (unfold Q2R; cbn; lra). rewrite E2, E1 in H2.
  assert (HN : 0 <= N) by (apply IZR_le; lia). assert (HN2 : N <= 1048576) by (apply IZR_le in Hn; exact Hn).
  assert (Hz : 0 < Q2R (p2 (-200))) by (rewrite <- Q2R_0; apply Qlt_Rlt, p2_pos).
  assert (HS : Q2R (p2 (-400)) <= S).
  { assert (H : (p2 (-400) == p2 (-200) * p2 (-200))%Q) by reflexivity. rewrite (Qeq_eqR _ _ H), Q2R_mult. unfold S. apply Rmult_le_compat; lra. }
  assert (Hslack : 1048576 * Q2R slack <= u * S).
  { assert (H : (1048576 * slack <= ulp * p2 (-400))%Q) by discriminate. apply Qle_Rle in H. rewrite !Q2R_mult, ulp_R in H.
    assert (E3 : Q2R 1048576 = 1048576) by (unfold Q2R; cbn; lra). rewrite E3 in H. nra. }
  assert (Hsl0 : 0 < Q2R slack) by (rewrite <- Q2R_0; apply Qlt_Rlt; reflexivity).
  split.
  - eapply Rle_trans; [exact H2|]. change (share a) with (N * u). set (V := Q2R (absq (@combine (F f64) (F f64) a b))) in *. change (V <= S) in H4.
    assert (N * Q2R slack <= u * S) by nra. assert ((2 * N + 1) * (u * V) <= (2 * N + 1) * (u * S)) by (apply Rmult_le_compat_l; [lra|apply Rmult_le_compat_l; lra]). lra.
  - assert (HP9 : 0 < Q2R (p2 900)) by (rewrite <- Q2R_0; apply Qlt_Rlt, p2_pos).
    assert (H : (p2 920 == 1048576 * p2 900)%Q) by reflexivity. rewrite (Qeq_eqR _ _ H), Q2R_mult.
    assert (E3 : Q2R 1048576 = 1048576) by (unfold Q2R; cbn; lra). rewrite E3.
    assert (Hq : forall c, inner c c <= N * Q2R (p2 900) -> size c * size c <= 1048576 * Q2R (p2 900)).
    { intros c Hc. unfold size. rewrite sqrt_sqrt by (rewrite inner_sumsq; apply sumsq_nonneg). nra. }
    apply Hq in H3a. apply Hq in H3b. unfold S. nra.
Qed.

Lemma norm_R fused (a : vec f64) : moderate a ->
  is_fin (norm_f fused a) = true /\ Rabs (real (norm_f fused a) - size a) <= (share a + 5 * u) * size a.
Proof.
  intros Ha. pose proof (size_ge a Ha) as Sa. pose proof (share_small a Ha) as Hs. destruct (dot_R fused a a eq_refl Ha Ha) as (H1 & H2 & H3). unfold norm_f.
  assert (Hi : inner a a = size a * size a) by (unfold size; rewrite sqrt_sqrt; auto; rewrite inner_sumsq; apply sumsq_nonneg).
  rewrite Hi in H2. set (A := size a) in *. set (d := dot_f fused a a) in *. set (E := share a) in *.
  assert (Hz : 0 < Q2R (p2 (-200))) by (rewrite <- Q2R_0; apply Qlt_Rlt, p2_pos). assert (HAA : 0 < A * A) by nra.
  assert (Hd : Rabs (real d - A * A) <= / 2147483648 * (A * A)).
  { eapply Rle_trans; [exact H2|]. apply Rmult_le_compat_r; lra. }
  apply Rabs_inv in Hd.
  destruct (sqrt_real d H1) as (H5 & H6).
  - apply Rlt_Qlt. fold (real d). assert (H : (2 * p2 920 < p2 1024)%Q) by reflexivity. apply Qlt_Rlt in H. rewrite Q2R_mult in H.
    assert (E2 : Q2R 2 = 2) by (unfold Q2R; cbn; lra). rewrite E2 in H. lra.
  - apply Rle_Qle. fold (real d). assert (H : (2 * p2 (-800) <= p2 (-200) * p2 (-200))%Q) by discriminate. apply Qle_Rle in H. rewrite !Q2R_mult in H.
    assert (E2 : Q2R 2 = 2) by (unfold Q2R; cbn; lra). rewrite E2 in H. assert (0 < Q2R (p2 (-800))) by (rewrite <- Q2R_0; apply Qlt_Rlt, p2_pos). nra.
  - split; auto. set (r := sqrt (real d)) in *. assert (Hr0 : 0 <= r) by apply sqrt_pos. assert (Hr2 : r * r = real d) by (apply sqrt_sqrt; lra).
    (* r^2 - A^2 = (r - A) (r + A), and r + A is nearly 2 A *)
    assert (Hr1 : (1 - / 1073741824) * A <= r). { apply Rsqr_incr_0_var; auto. unfold Rsqr. nra. }
    assert (Hr3 : r <= (1 + / 1073741824) * A). { apply Rsqr_incr_0_var; [|nra]. unfold Rsqr. nra. }
    rewrite <- Hr2 in H2. apply Rabs_inv in H2.
    assert (Hm : Rabs (r - A) * ((2 - / 1073741824) * A) <= (2 * E + 2 * u) * (A * A)).
    { apply Rle_trans with (Rabs (r - A) * (r + A)); [apply Rmult_le_compat_l; [apply Rabs_pos|lra]|].
      rewrite <- (Rabs_pos_eq (r + A)) by nra. rewrite <- Rabs_mult. replace ((r - A) * (r + A)) with (r * r - A * A) by ring. apply Rabs_le. lra. }
    assert (HA : 0 < A) by lra.
    assert (Hm2 : Rabs (r - A) * (2 - / 1073741824) <= (2 * E + 2 * u) * A).
    { apply Rmult_le_reg_r with A; auto. lra. }
    assert (Hm3 : Rabs (r - A) <= (E + (3/2) * u) * A).
    { assert (Hc : (2 * E + 2 * u) * A <= (E + (3/2) * u) * A * (2 - / 1073741824)).
      { replace ((E + (3/2) * u) * A * (2 - / 1073741824)) with ((E + (3/2) * u) * (2 - / 1073741824) * A) by ring. apply Rmult_le_compat_r; [lra|]. lra. }
      apply Rmult_le_reg_r with (2 - / 1073741824); lra. }
    apply Rabs_inv in H6. apply Rabs_inv in Hm3. apply Rabs_le.
    assert (E * A <= / 8589934592 * A) by (apply Rmult_le_compat_r; lra). assert (0 <= E * A) by nra. lra.
Qed.

Lemma shrink y d e : Rabs d <= e -> e <= / 1073741824 -> Rabs (y / (1 + d) - y) <= Rabs y * (e * (1 + / 536870912)).
Proof.
  intros Hd He. pose proof (Rabs_inv _ _ Hd) as (D1 & D2). assert (H1 : 0 < 1 + d) by lra.
  replace (y / (1 + d) - y) with (- (y * (d / (1 + d)))) by (field; lra). rewrite Rabs_Ropp, Rabs_mult. apply Rmult_le_compat_l; [apply Rabs_pos|].
  unfold Rdiv. rewrite Rabs_mult, (Rabs_pos_eq (/ (1 + d))) by (apply Rlt_le, Rinv_0_lt_compat; auto).
  apply Rmult_le_compat; [apply Rabs_pos|apply Rlt_le, Rinv_0_lt_compat; auto|auto|].
  apply Rmult_le_reg_r with (1 + d); auto. rewrite Rinv_l by lra. nra.
Qed.

Lemma two_divisions E c y0 d1 d2 r1 q t : 0 <= E <= / 8589934592 -> Rabs c <= 1 -> 0 <= t <= u * / 8 ->
  Rabs (y0 - c) <= 2 * E + 2 * u -> Rabs d1 <= E + 5 * u -> Rabs d2 <= E + 5 * u ->
  Rabs (r1 - y0 / (1 + d1)) <= u * Rabs (y0 / (1 + d1)) + t -> Rabs (q - r1 / (1 + d2)) <= u * Rabs (r1 / (1 + d2)) + t ->
  Rabs (r1 / (1 + d2)) <= 2 /\ Rabs (y0 / (1 + d1)) <= 2 /\ Rabs (q - c) <= 4 * E + 16 * u.
Proof.
  intros HE Hc Ht H0 H1 H2 H3 H4.
  pose proof (shrink y0 d1 _ H1 ltac:(lra)) as S1. pose proof (shrink r1 d2 _ H2 ltac:(lra)) as S2. set (y1 := y0 / (1 + d1)) in *. set (y2 := r1 / (1 + d2)) in *.
  set (f := (E + 5 * u) * (1 + / 536870912)) in *. assert (Hf : 0 <= f <= / 4294967296) by (unfold f; lra).
  assert (T : forall a b m, Rabs (a - b) <= m -> Rabs a <= Rabs b + m).
  { intros a b m H. pose proof (Rabs_triang (a - b) b) as Ht'. replace (a - b + b) with a in Ht' by ring. lra. }
  pose proof (T _ _ _ H0) as A0. assert (B0 : Rabs y0 <= 1 + / 1073741824) by lra.
  assert (C1 : Rabs y0 * f <= (1 + / 1073741824) * f) by (apply Rmult_le_compat_r; lra).
  pose proof (T _ _ _ S1) as A1. assert (B1 : Rabs y1 <= 1 + / 536870912) by lra.
  pose proof (T _ _ _ H3) as A2. assert (B2 : Rabs r1 <= 1 + / 268435456) by lra.
  assert (C2 : Rabs r1 * f <= (1 + / 268435456) * f) by (apply Rmult_le_compat_r; lra).
  pose proof (T _ _ _ S2) as A3. assert (B3 : Rabs y2 <= 1 + / 134217728) by lra.
  split; [lra|]. split; [lra|].
  apply Rabs_inv in H0. apply Rabs_inv in S1. apply Rabs_inv in H3. apply Rabs_inv in S2. apply Rabs_inv in H4. apply Rabs_le. unfold f in *. lra.
Qed.

Lemma zero_test (x : F f64) : real x <> 0 -> feqb x f0 = false.
Proof.
  intros H. change (SFeqb x (S754_zero false) = false). destruct x as [s|s| |s m e]; try reflexivity.
  - exfalso. apply H. unfold real. cbn [val]. apply Q2R_0.
  - destruct s; reflexivity.
  - destruct s; reflexivity.
Qed.

Theorem cosine_fused fn fd (a b : vec f64) : length a = length b -> moderate a -> moderate b ->
  exists c, cosine_f fn fd a b = Some c /\ is_fin c = true /\
    Rabs (real c - inner a b / (size a * size b)) <= (4 * IZR (Z.of_nat (length a)) + 16) * Q2R ulp.
Proof.
  intros Hl Ha Hb. pose proof (size_ge a Ha) as Sa. pose proof (size_ge b Hb) as Sb. pose proof (share_small a Ha) as Hs.
  destruct (dot_R fd a b Hl Ha Hb) as (F0 & H0 & Hbig). destruct (norm_R fn a Ha) as (F1 & H1). destruct (norm_R fn b Hb) as (F2 & H2).
  assert (Hsb : share b = share a) by (unfold share; change (@length spec_float b) with (@length (F f64) b); rewrite <- Hl; reflexivity). rewrite Hsb in H2.
  assert (Hz : 0 < Q2R (p2 (-200))) by (rewrite <- Q2R_0; apply Qlt_Rlt, p2_pos).
  assert (Hcs : Rabs (inner a b) <= size a * size b).
  { rewrite inner_rdot. unfold size. rewrite !inner_sumsq. apply dot_le_norms. rewrite !map_length. exact Hl. }
  unfold cosine_f. rewrite Hl, Nat.eqb_refl. change (@length (F f64) a) with (@length spec_float a).
  set (A := size a) in *. set (B := size b) in *. set (E := share a) in *. set (x := dot_f fd a b) in *. set (m := norm_f fn a) in *. set (k := norm_f fn b) in *.
  assert (HA : 0 < A) by lra. assert (HB : 0 < B) by lra. set (D := inner a b) in *.
  set (d1 := (real m - A) / A). set (d2 := (real k - B) / B).
  assert (Em : real m = A * (1 + d1)) by (unfold d1; field; lra). assert (Ek : real k = B * (1 + d2)) by (unfold d2; field; lra).
  assert (Hd1 : Rabs d1 <= E + 5 * u).
  { unfold d1, Rdiv. rewrite Rabs_mult, (Rabs_pos_eq (/ A)) by (apply Rlt_le, Rinv_0_lt_compat; auto). apply Rmult_le_reg_r with A; auto. rewrite Rmult_assoc, Rinv_l by lra. lra. }
  assert (Hd2 : Rabs d2 <= E + 5 * u).
  { unfold d2, Rdiv. rewrite Rabs_mult, (Rabs_pos_eq (/ B)) by (apply Rlt_le, Rinv_0_lt_compat; auto). apply Rmult_le_reg_r with B; auto. rewrite Rmult_assoc, Rinv_l by lra. lra. }
  pose proof (Rabs_inv _ _ Hd1) as D1. pose proof (Rabs_inv _ _ Hd2) as D2.
  assert (Pm : 0 < real m) by (rewrite Em; apply Rmult_lt_0_compat; lra). assert (Pk : 0 < real k) by (rewrite Ek; apply Rmult_lt_0_compat; lra).
  rewrite (zero_test m) by lra. cbn [andb]. eexists. split; [reflexivity|].
  set (c := D / (A * B)). set (y0 := real x / (A * B)).
  assert (HAB : 0 < A * B) by nra.
  assert (Hc : Rabs c <= 1).
  { unfold c, Rdiv. rewrite Rabs_mult, (Rabs_pos_eq (/ (A * B))) by (apply Rlt_le, Rinv_0_lt_compat; auto). apply Rmult_le_reg_r with (A * B); auto. rewrite Rmult_assoc, Rinv_l by lra. lra. }
  assert (Hy0 : Rabs (y0 - c) <= 2 * E + 2 * u).
  { unfold y0, c. replace (real x / (A * B) - D / (A * B)) with ((real x - D) * / (A * B)) by (field; lra).
    rewrite Rabs_mult, (Rabs_pos_eq (/ (A * B))) by (apply Rlt_le, Rinv_0_lt_compat; auto). apply Rmult_le_reg_r with (A * B); auto. rewrite Rmult_assoc, Rinv_l by lra. lra. }
  assert (Nm : ~ (val m == 0)%Q) by (intros H; apply Qeq_eqR in H; rewrite Q2R_0 in H; unfold real in Pm; lra).
  assert (Nk : ~ (val k == 0)%Q) by (intros H; apply Qeq_eqR in H; rewrite Q2R_0 in H; unfold real in Pk; lra).
  (* the first quotient *)
  assert (Hq1 : real x / real m = B * (y0 / (1 + d1))) by (rewrite Em; unfold y0; field; repeat split; lra).
  assert (By1 : Rabs (y0 / (1 + d1)) <= 2).
  { pose proof (shrink y0 d1 _ Hd1 ltac:(lra)) as S1.
    assert (Rabs y0 <= 1 + (2 * E + 2 * u)). { pose proof (Rabs_triang (y0 - c) c) as T. replace (y0 - c + c) with y0 in T by ring. lra. }
    pose proof (Rabs_triang (y0 / (1 + d1) - y0) y0) as T. replace (y0 / (1 + d1) - y0 + y0) with (y0 / (1 + d1)) in T by ring.
    assert (Rabs y0 * ((E + 5 * u) * (1 + / 536870912)) <= 2 * ((E + 5 * u) * (1 + / 536870912))) by (apply Rmult_le_compat_r; lra). lra. }
  assert (HB2 : B <= Q2R (p2 920) / Q2R (p2 (-200))).
  { apply Rmult_le_reg_l with (Q2R (p2 (-200))); auto. replace (Q2R (p2 (-200)) * (Q2R (p2 920) / Q2R (p2 (-200)))) with (Q2R (p2 920)) by (field; lra). nra. }
  assert (HB3 : B <= Q2R (p2 470)).
  { destruct (dot_R fd b b eq_refl Hb Hb) as (_ & _ & Hbb). fold B in Hbb. assert (H : (p2 920 <= p2 470 * p2 470)%Q) by discriminate. apply Qle_Rle in H. rewrite Q2R_mult in H.
    apply Rsqr_incr_0_var; [unfold Rsqr; lra|]. rewrite <- Q2R_0. apply Qle_Rle. discriminate. }
  assert (G1 : nearest (fdiv x m) (val x / val m)).
  { apply div_ok; auto. apply Rlt_Qlt. rewrite Q2R_abs, Q2R_div by auto. fold (real x) (real m). rewrite Hq1, Rabs_mult, (Rabs_pos_eq B) by lra.
    apply Rle_lt_trans with (Q2R (p2 470) * 2); [apply Rmult_le_compat; auto; [lra|apply Rabs_pos]|].
    assert (E2 : Q2R 2 = 2) by (unfold Q2R; cbn; lra). rewrite <- E2, <- Q2R_mult. apply Qlt_Rlt. reflexivity. }
  pose proof (Qle_Rle _ _ (nearest_err _ _ G1)) as N1. rewrite Q2R_abs, Q2R_minus, Q2R_plus, Q2R_mult, Q2R_abs, ulp_R, Q2R_div in N1 by auto. fold (real x) (real m) in N1.
  fold (real (fdiv x m)) in N1. rewrite Hq1 in N1. destruct G1 as (Fq & _). set (q1 := fdiv x m) in *. set (r1 := real q1 / B).
  assert (Er : real q1 = B * r1) by (unfold r1; field; lra). rewrite Er in N1.
  assert (Ht : Q2R tiny <= u * / 8 * Q2R (p2 (-200))).
  { assert (H : (tiny <= ulp * (1#8) * p2 (-200))%Q) by discriminate. apply Qle_Rle in H. rewrite !Q2R_mult, ulp_R in H. assert (E8 : Q2R (1#8) = / 8) by (unfold Q2R; cbn; lra). rewrite E8 in H. exact H. }
  assert (Ht0 : 0 <= Q2R tiny) by (rewrite <- Q2R_0; apply Qle_Rle; discriminate).
  assert (Ht1 : Q2R tiny <= u * / 8 * B) by lra.
  assert (Hone : Q2R (p2 (-200)) <= 1). { assert (E1 : Q2R 1 = 1) by (unfold Q2R; cbn; lra). rewrite <- E1. apply Qle_Rle. discriminate. }
  assert (K1 : Rabs (r1 - y0 / (1 + d1)) <= u * Rabs (y0 / (1 + d1)) + u * / 8).
  { rewrite <- Rmult_minus_distr_l, !Rabs_mult, (Rabs_pos_eq B) in N1 by lra. apply Rmult_le_reg_l with B; auto. lra. }
  (* the second *)
  assert (Hq2 : real q1 / real k = r1 / (1 + d2)) by (rewrite Er, Ek; field; split; lra).
  assert (By2 : Rabs (r1 / (1 + d2)) <= 2).
  { destruct (two_divisions E c y0 d1 d2 r1 (r1 / (1 + d2)) (u * / 8)) as (X & _); auto; try lra.
    replace (r1 / (1 + d2) - r1 / (1 + d2)) with 0 by ring. rewrite Rabs_R0. pose proof (Rabs_pos (r1 / (1 + d2))). lra. }
  assert (G2 : nearest (fdiv q1 k) (val q1 / val k)).
  { apply div_ok; auto. apply Rlt_Qlt. rewrite Q2R_abs, Q2R_div by auto. fold (real q1) (real k). rewrite Hq2.
    eapply Rle_lt_trans; [exact By2|]. assert (E2 : Q2R 2 = 2) by (unfold Q2R; cbn; lra). rewrite <- E2. apply Qlt_Rlt. reflexivity. }
  pose proof (Qle_Rle _ _ (nearest_err _ _ G2)) as N2. rewrite Q2R_abs, Q2R_minus, Q2R_plus, Q2R_mult, Q2R_abs, ulp_R, Q2R_div in N2 by auto. fold (real q1) (real k) in N2.
  fold (real (fdiv q1 k)) in N2. rewrite Hq2 in N2. split; [exact (proj1 G2)|].
  destruct (two_divisions E c y0 d1 d2 r1 (real (fdiv q1 k)) (u * / 8)) as (_ & _ & X); auto; try lra.
  rewrite ulp_R. eapply Rle_trans; [exact X|]. unfold E, share. change (@length spec_float b) with (@length (F f64) b). rewrite <- Hl. change (@length (F f64) a) with (@length spec_float a). lra.
Qed.
Theorem cosine_ieee (a b : vec f64) : length a = length b -> moderate a -> moderate b ->
  exists c, cosine_similarity a b = Some c /\ is_fin c = true /\
    Rabs (real c - inner a b / (size a * size b)) <= (4 * IZR (Z.of_nat (length a)) + 16) * Q2R ulp.
Proof. rewrite <- cosine_plain. apply cosine_fused. Qed.
