(* The root of a square, as in EuclideanDistance: the absolute value, but for underflow. *)
From Coq Require Import ZArith QArith Qabs Qpower Qround SpecFloat Lia Lqa Setoid Morphisms.
From Verif Require Import Base Num FloatSpec FloatRound FloatOps FloatSqrt.
Local Open Scope Q_scope.

Lemma grid_shift M g e : (e <= g)%Z -> inject_Z M * p2 g == inject_Z (M * 2 ^ (g - e)) * p2 e.
Proof.
  intros H. rewrite inject_Z_mult, <- (p2_Z (g - e)) by lia. rewrite <- Qmult_assoc, <- p2_plus. replace (g - e + e)%Z with g by lia. reflexivity.
Qed.
(* A finite number that is not small is a multiple of the spacing. *)
Lemma on_grid z g : is_fin z = true -> p2 (52 + g) <= Qabs (val z) -> exists r, val z == inject_Z r * p2 g.
Proof.
  destruct z as [s|s| |s m e]; try discriminate; intros Hf H; [exists 0%Z; reflexivity|]. cbn [is_fin val] in *.
  destruct (fin_canonical _ _ Hf) as (X1 & X2 & X3). rewrite signed_Qabs in H by apply fin_nonneg.
  assert (He : (g <= e)%Z).
  { assert (52 + g < 53 + e)%Z; [|lia]. apply p2_lt_inv. eapply Qle_lt_trans; [exact H|]. rewrite p2_plus.
    apply Qmult_lt_compat_r; [apply p2_pos|]. rewrite (p2_Z 53) by lia. apply (proj1 (Zlt_Q _ _)).
    destruct (digits_Z (Z.pos m)) as ((A1 & A2) & A3); [lia|]. eapply Z.lt_le_trans; [exact A2|]. apply Z.pow_le_mono_r; lia. }
  exists (if s then - (Z.pos m * 2 ^ (e - g)) else Z.pos m * 2 ^ (e - g))%Z.
  destruct s; cbn [signed]; rewrite (grid_shift _ e g He); rewrite ?inject_Z_opp; ring.
Qed.
Lemma normal_form z : is_fin z = true -> p2 (-1022) <= Qabs (val z) ->
  exists M g, Qabs (val z) == inject_Z M * p2 g /\ (2 ^ 52 <= M < 2 ^ 53)%Z /\ (-1074 <= g)%Z.
Proof.
  destruct z as [s|s| |s m e]; try discriminate; intros Hf H; [exfalso; cbn [val] in H; change (Qabs 0) with 0 in H; pose proof (p2_pos (-1022)); lra|]. cbn [is_fin val] in *.
  destruct (fin_canonical _ _ Hf) as (X1 & X2 & X3). rewrite signed_Qabs in H by apply fin_nonneg. exists (Z.pos m), e.
  split; [apply signed_Qabs, fin_nonneg|]. split; [|lia]. destruct (digits_Z (Z.pos m)) as ((A1 & A2) & A3); [lia|].
  destruct X1 as [X1|X1]; [rewrite X1 in *; lia|]. split.
  - subst e. change (-1022)%Z with (52 + -1074)%Z in H. rewrite p2_plus in H. apply Qmult_le_r in H; [|apply p2_pos].
    rewrite (p2_Z 52) in H by lia. apply (proj2 (Zle_Q _ _)) in H. exact H.
  - eapply Z.lt_le_trans; [exact A2|]. apply Z.pow_le_mono_r; lia.
Qed.
Lemma near_grid r M e c : 0 < c -> Qabs (inject_Z r * c - inject_Z M * c) <= (1#2) * c -> inject_Z r * p2 e == inject_Z M * p2 e.
Proof.
  intros Hc H. assert (r = M); [|subst; reflexivity]. apply inject_eq.
  setoid_replace (inject_Z r * c - inject_Z M * c) with ((inject_Z r - inject_Z M) * c) in H by ring.
  rewrite Qabs_Qmult, (Qabs_pos c) in H by lra. eapply Qmult_le_r; [|exact H]. auto.
Qed.
Lemma abs_sq x : Qabs x * Qabs x == x * x.
Proof. rewrite <- Qabs_Qmult. apply Qabs_pos. destruct (Qlt_le_dec x 0); nra. Qed.
Lemma p2_half k : p2 k == 2 * p2 (k - 1).
Proof. rewrite <- p2_1. replace (k - 1 + 1)%Z with k by lia. reflexivity. Qed.

Lemma sq_bounds M u y : 0 < u -> (2 ^ 52 < M)%Z -> Qabs (y - inject_Z M * u * (inject_Z M * u)) <= inject_Z (2 ^ 52) * (u * u) ->
  inject_Z (2 * M - 1) * ((1#2) * u) * (inject_Z (2 * M - 1) * ((1#2) * u)) < y /\
  y < inject_Z (2 * M + 1) * ((1#2) * u) * (inject_Z (2 * M + 1) * ((1#2) * u)).
Proof.
  intros Hu HM H. apply Qabs_Qle_condition in H. destruct H as (H1 & H2).
  assert (Hm : inject_Z (2 ^ 52) + 1 <= inject_Z M).
  { change 1 with (inject_Z 1). rewrite <- inject_Z_plus. apply (proj1 (Zle_Q _ _)). lia. }
  unfold Z.sub. rewrite !inject_Z_plus, inject_Z_mult. change (inject_Z 2) with 2. change (inject_Z (-1)) with (-1). change (inject_Z 1) with 1.
  set (m := inject_Z M) in *. set (T := inject_Z (2 ^ 52)) in *. assert (Huu : 0 < u * u) by nra. set (v := u * u) in *.
  setoid_replace (m * u * (m * u)) with (m * m * v) in H1 by (unfold v; ring). setoid_replace (m * u * (m * u)) with (m * m * v) in H2 by (unfold v; ring).
  setoid_replace ((2 * m + -1) * ((1 # 2) * u) * ((2 * m + -1) * ((1 # 2) * u))) with (m * m * v - m * v + (1#4) * v) by (unfold v; ring).
  setoid_replace ((2 * m + 1) * ((1 # 2) * u) * ((2 * m + 1) * ((1 # 2) * u))) with (m * m * v + m * v + (1#4) * v) by (unfold v; ring).
  assert (T * v + v <= m * v) by nra. split; lra.
Qed.

Theorem root_exact (x : F f64) : is_fin x = true -> p2 (-511) <= Qabs (val x) -> Qabs (val x) < p2 511 ->
  is_fin (fsqrt (fmul x x)) = true /\ val (fsqrt (fmul x x)) == Qabs (val x).
Proof.
  intros Hf H1 H2. destruct (normal_form x Hf) as (M & g & HX & HM & Hg).
  { eapply Qle_trans; [|exact H1]. apply p2_le. lia. }
  set (X := Qabs (val x)) in *. assert (Hu : 0 < p2 g) by apply p2_pos. set (u := p2 g) in *.
  assert (HX2 : X * X == val x * val x) by apply abs_sq.
  assert (Huu : u * u == p2 (2 * g)) by (unfold u; symmetry; apply p2_sq).
  assert (HXX : val x * val x == inject_Z M * u * (inject_Z M * u)) by (rewrite <- HX2, HX; reflexivity).
  assert (HX0 : 0 <= X) by apply Qabs_nonneg.
  assert (Hlo : p2 (-1022) <= X * X).
  { change (-1022)%Z with (2 * -511)%Z. rewrite p2_sq. pose proof (p2_pos (-511)). nra. }
  assert (Hhi : X * X < p2 1022).
  { change 1022%Z with (2 * 511)%Z. rewrite p2_sq. pose proof (p2_pos 511). nra. }
  assert (Hmul : nearest (fmul x x) (X * X)).
  { eapply nearest_eq; [symmetry; exact HX2|]. apply mul_ok; auto. rewrite <- HX2. rewrite Qabs_pos by nra.
    eapply Qlt_trans; [exact Hhi|]. reflexivity. }
  set (y := fmul x x) in *. clearbody y. destruct Hmul as (Hy & r & e & Hyv & Hye & He & Hc).
  assert (HMu : inject_Z M * u * (inject_Z M * u) == inject_Z (M * M) * p2 (2 * g)) by (rewrite <- Huu, inject_Z_mult; ring).
  assert (He2 : (e <= 53 + 2 * g)%Z).
  { assert (Hce : p2 (52 + e) <= X * X).
    { destruct Hc as [Hc| ->]; [rewrite Qabs_pos in Hc by nra; auto|exact Hlo]. }
    assert (52 + e < 106 + 2 * g)%Z; [|lia]. apply p2_lt_inv. eapply Qle_lt_trans; [exact Hce|]. rewrite HX2, HXX, HMu, p2_plus.
    apply Qmult_lt_compat_r; [apply p2_pos|]. rewrite (p2_Z 106) by lia. apply (proj1 (Zlt_Q _ _)). change (2 ^ 106)%Z with (2 ^ 53 * 2 ^ 53)%Z. nia. }
  assert (Herr : Qabs (val y - X * X) <= inject_Z (2 ^ 52) * (u * u)).
  { eapply Qle_trans; [exact Hye|]. rewrite half_p2, Huu, <- (p2_Z 52), <- p2_plus by lia. apply p2_le. lia. }
  assert (Hyy : val y < p2 (2 * (53 + g))).
  { rewrite HX2, HXX in Herr. apply Qabs_Qle_condition in Herr. destruct Herr as (_ & Herr). rewrite p2_sq, p2_plus. fold u.
    rewrite (p2_Z 53) by lia. assert (Hm : inject_Z M <= inject_Z (2 ^ 53 - 1)) by (apply (proj1 (Zle_Q _ _)); lia).
    assert (Hm0 : 0 <= inject_Z M) by (apply (proj1 (Zle_Q 0 _)); lia).
    change (inject_Z (2 ^ 53 - 1)) with (9007199254740991 # 1) in Hm. change (inject_Z (2 ^ 52)) with (4503599627370496 # 1) in Herr.
    change (inject_Z (2 ^ 53)) with (9007199254740992 # 1).
    assert (Hv : 0 < u * u) by nra.
    assert (Hmm : inject_Z M * inject_Z M <= (9007199254740991 # 1) * (9007199254740991 # 1)) by nra.
    setoid_replace (inject_Z M * u * (inject_Z M * u)) with (inject_Z M * inject_Z M * (u * u)) in Herr by ring.
    setoid_replace ((9007199254740992 # 1) * u * ((9007199254740992 # 1) * u)) with ((9007199254740992 # 1) * (9007199254740992 # 1) * (u * u)) by ring.
    set (v := u * u) in *. set (mm := inject_Z M * inject_Z M) in *. nra. }
  assert (Hy0 : 0 < val y).
  { assert (HT : inject_Z (2 ^ 52) * (u * u) < X * X).
    { rewrite HX2, HXX, HMu, Huu. apply Qmult_lt_compat_r; [apply p2_pos|]. apply (proj1 (Zlt_Q _ _)). nia. }
    apply Qabs_Qle_condition in Herr. lra. }
  destruct (sqrt_ok y Hy Hy0) as (p & e' & Hn & (Hp0 & Hr) & Hk).
  { apply Qabs_Qle_condition in Herr. destruct Herr as (_ & Herr).
    assert (HT : inject_Z (2 ^ 52) * (u * u) <= X * X).
    { rewrite HX2, HXX, HMu, Huu. apply Qmult_le_compat_r; [|apply Qlt_le_weak, p2_pos]. apply (proj1 (Zle_Q _ _)). nia. }
    assert (p2 1023 == 2 * p2 1022) by (apply (p2_1 1022)). assert (p2 1023 < p2 1024) by reflexivity. lra. }
  specialize (Hk (53 + g)%Z Hyy). assert (Hek : (e' <= g)%Z) by lia. clear Hk.
  set (z := fsqrt y) in *. clearbody z. destruct Hn as (Hz & r2 & e2 & Hzv & Hze & He2z & Hc2). split; auto.
  rewrite (Qabs_pos p) in Hc2 by auto. rewrite HX.
  destruct (Z.eq_dec M (2 ^ 52)) as [HM52|HM52].
  - (* a power of two: everything is exact *)
    assert (HXp : X == p2 (52 + g)) by (rewrite HX, HM52, p2_plus, (p2_Z 52) by lia; reflexivity).
    assert (HXp2 : X * X == p2 (104 + 2 * g)).
    { rewrite HXp, <- p2_sq. replace (2 * (52 + g))%Z with (104 + 2 * g)%Z by lia. reflexivity. }
    assert (Hyx : val y == X * X).
    { rewrite HXp2, Hyv in *. assert (Hg1 : p2 (104 + 2 * g) == inject_Z (2 ^ (104 + 2 * g - e)) * p2 e).
      { rewrite <- (p2_Z (104 + 2 * g - e)), <- p2_plus by lia. replace (104 + 2 * g - e + e)%Z with (104 + 2 * g)%Z by lia. reflexivity. }
      rewrite Hg1 in *. apply (near_grid _ _ e (p2 e)); auto. apply p2_pos. }
    assert (Hpx : p == X).
    { assert (Hb : X == inject_Z (2 ^ (52 + g - (e' - 1))) * p2 (e' - 1)).
      { rewrite HXp, <- (p2_Z (52 + g - (e' - 1))), <- p2_plus by lia. replace (52 + g - (e' - 1) + (e' - 1))%Z with (52 + g)%Z by lia. reflexivity. }
      destruct (Hr (2 ^ (52 + g - (e' - 1)))%Z) as (_ & _ & R3); [apply Z.pow_nonneg; lia|]. cbv zeta in R3. rewrite <- Hb in R3. apply R3. exact Hyx. }
    assert (He2g : (e2 <= g)%Z).
    { destruct Hc2 as [Hc2|Hc2]; [|lia]. destruct (Z.le_gt_cases e2 g); auto. exfalso.
      assert (Hlt : p2 (52 + e2) <= p2 (52 + g)) by (rewrite <- HXp, <- Hpx; auto).
      assert (Hlt2 : p2 (52 + (g + 1)) <= p2 (52 + e2)) by (apply p2_le; lia).
      replace (52 + (g + 1))%Z with (52 + g + 1)%Z in Hlt2 by lia. rewrite p2_1 in Hlt2. pose proof (p2_pos (52 + g)). lra. }
    rewrite Hpx, HX in Hze. rewrite Hzv in *. unfold u in *. rewrite (grid_shift M g e2 He2g) in *. apply (near_grid _ _ e2 (p2 e2)); auto. apply p2_pos.
  - assert (HM' : (2 ^ 52 < M)%Z) by lia. rewrite HX2, HXX in Herr. destruct (sq_bounds M u (val y) Hu HM' Herr) as (B1 & B2).
    assert (Hhu : (1#2) * u == p2 (g - 1)) by (unfold u; apply half_p2).
    assert (Hb : forall j, inject_Z j * ((1#2) * u) == inject_Z (j * 2 ^ (g - e')) * p2 (e' - 1)).
    { intros j. rewrite Hhu, (grid_shift j (g - 1) (e' - 1)) by lia. replace (g - 1 - (e' - 1))%Z with (g - e')%Z by lia. reflexivity. }
    assert (Hpw : (0 < 2 ^ (g - e'))%Z) by (apply Z.pow_pos_nonneg; lia).
    assert (P1 : inject_Z (2 * M - 1) * ((1#2) * u) < p).
    { rewrite Hb in *. apply Hr; [nia|exact B1]. }
    assert (P2 : p < inject_Z (2 * M + 1) * ((1#2) * u)).
    { rewrite (Hb (2 * M + 1)%Z) in *. apply Hr; [nia|exact B2]. }
    assert (Hm : inject_Z M <= inject_Z (2 ^ 53 - 1)) by (apply (proj1 (Zle_Q _ _)); lia).
    assert (Hm1 : inject_Z (2 ^ 52 + 1) <= inject_Z M) by (apply (proj1 (Zle_Q _ _)); lia).
    assert (He2g : (e2 <= g)%Z).
    { destruct Hc2 as [Hc2|Hc2]; [|lia]. assert (52 + e2 < 53 + g)%Z; [|lia]. apply p2_lt_inv. eapply Qle_lt_trans; [exact Hc2|].
      eapply Qlt_trans; [exact P2|]. rewrite p2_plus, (p2_Z 53) by lia. fold u.
      rewrite inject_Z_plus, inject_Z_mult. change (inject_Z 2) with 2. change (inject_Z 1) with 1.
      change (inject_Z (2 ^ 53 - 1)) with (9007199254740991 # 1) in Hm. change (inject_Z (2 ^ 53)) with (9007199254740992 # 1). nra. }
    assert (Hze' : Qabs (val z - p) <= (1#2) * u).
    { eapply Qle_trans; [exact Hze|]. rewrite !half_p2. unfold u. rewrite half_p2. apply p2_le. lia. }
    apply Qabs_Qle_condition in Hze'. destruct Hze' as (Z1 & Z2).
    unfold Z.sub in P1. rewrite inject_Z_plus, inject_Z_mult in P1, P2. change (inject_Z 2) with 2 in *. change (inject_Z (- (1))) with (-(1)) in P1.
    change (inject_Z 1) with 1 in P2. set (m := inject_Z M) in *.
    assert (Q1 : m * u - u < val z) by lra. assert (Q2 : val z < m * u + u) by lra.
    destruct (on_grid z g Hz) as (R & HR).
    { rewrite p2_plus, (p2_Z 52) by lia. fold u. rewrite inject_Z_plus in Hm1. change (inject_Z 1) with 1 in Hm1.
      eapply Qle_trans; [|apply Qle_Qabs]. set (T := inject_Z (2 ^ 52)) in *. nra. }
    rewrite HR in Q1, Q2 |- *. fold u in Q1, Q2 |- *. assert (HRM : R = M); [|subst R; reflexivity].
    assert (R1 : m - 1 < inject_Z R) by (apply (Qmult_lt_r _ _ u Hu); lra).
    assert (R2 : inject_Z R < m + 1) by (apply (Qmult_lt_r _ _ u Hu); lra).
    unfold m in R1, R2. change 1 with (inject_Z 1) in R1, R2. rewrite <- inject_Z_plus in R2. unfold Qminus in R1. rewrite <- inject_Z_opp, <- inject_Z_plus in R1.
    apply (proj2 (Zlt_Q _ _)) in R1. apply (proj2 (Zlt_Q _ _)) in R2. lia.
Qed.
