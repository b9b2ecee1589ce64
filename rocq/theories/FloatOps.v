(* Addition, subtraction, multiplication and division of binary64 numbers, with their errors. *)
From Coq Require Import ZArith QArith Qabs Qpower SpecFloat Lia Lqa Setoid Morphisms.
From Verif Require Import Base Num FloatSpec FloatRound.
Local Open Scope Q_scope.

Lemma stands_exact m e : stands (shr_record_of_loc m loc_Exact) e (inject_Z m * p2 e).
Proof. exists 0. cbn. split; [reflexivity|]. ring. Qed.
Lemma stands_eq k e x y : x == y -> stands k e x -> stands k e y.
Proof. intros H (f & Hf & Hx). exists f. split; auto. rewrite <- H. exact Hx. Qed.

Lemma shift_value d m : inject_Z (Z.pos (shift_pos d m)) == inject_Z (Z.pos m) * p2 (Z.pos d).
Proof. rewrite shift_pos_correct, inject_Z_mult, (p2_Z (Z.pos d)) by lia. rewrite Z.pow_pos_fold. ring. Qed.
Lemma shift_digits d m : Zdigits2 (Z.pos (shift_pos d m)) = (Zdigits2 (Z.pos m) + Z.pos d)%Z.
Proof.
  destruct (digits_Z (Z.pos m)) as ((D1 & D2) & D3); [lia|]. set (k := Zdigits2 (Z.pos m)) in *.
  replace (k + Z.pos d)%Z with (k - 1 + Z.pos d + 1)%Z by lia. apply digits_is; [lia|].
  rewrite shift_pos_correct, Z.pow_pos_fold. replace (k - 1 + Z.pos d + 1)%Z with (k + Z.pos d)%Z by lia.
  rewrite !Z.pow_add_r by lia. pose proof (Z.pow_pos_nonneg 2 (Z.pos d)). nia.
Qed.

Lemma align_value m e e' : let '(m', e2) := shl_align m e e' in
  inject_Z (Z.pos m') * p2 e2 == inject_Z (Z.pos m) * p2 e /\ e2 = Z.min e e' /\
  Zdigits2 (Z.pos m') = (Zdigits2 (Z.pos m) + (e - e2))%Z.
Proof.
  unfold shl_align. destruct (e' - e)%Z as [|p|d] eqn:E.
  - split; [reflexivity|]. split; lia.
  - split; [reflexivity|]. split; lia.
  - split; [|split; [lia|rewrite shift_digits; lia]]. rewrite shift_value. assert (He : e = (Z.pos d + e')%Z) by lia. rewrite He, p2_plus. ring.
Qed.

Lemma tiny_pos : 0 < tiny.
Proof. apply p2_pos. Qed.
Lemma ulp_pos : 0 < ulp.
Proof. apply p2_pos. Qed.
Lemma nearest_zero s a : 0 == a -> nearest (S754_zero s) a.
Proof.
  intros H. apply (nearest_eq _ 0 a H). split; [reflexivity|]. exists 0%Z, (-1074)%Z. split; [reflexivity|]. split; [|split; [lia|auto]].
  cbn [val]. change (Qabs (0 - 0)) with 0. pose proof (p2_pos (-1074)). lra.
Qed.
Theorem normalize_ok m e z0 : Qabs (inject_Z m * p2 e) < p2 1023 ->
  nearest (binary_normalize prec64 emax64 m e z0) (inject_Z m * p2 e).
Proof.
  intros Hx.
  assert (H : forall s p, Qabs (inject_Z m * p2 e) == inject_Z (Z.pos p) * p2 e ->
    inject_Z m * p2 e == signed s (inject_Z (Z.pos p) * p2 e) ->
    nearest (binary_round prec64 emax64 s p e) (inject_Z m * p2 e)).
  { intros s p Ha Hs. rewrite Ha in Hx. eapply nearest_eq; [symmetry; exact Hs|]. unfold binary_round.
    pose proof (align_value p e (fexp64 (Zdigits2 (Z.pos p) + e))) as Hv.
    change (Z.pos (digits2_pos p)) with (Zdigits2 (Z.pos p)).
    destruct (shl_align p e (fexp64 (Zdigits2 (Z.pos p) + e))) as [m' e']. destruct Hv as (Hv & He & Hd).
    apply round_ok; [lia| |rewrite Hd, fexp_eq in *; lia|exact Hx]. eapply stands_eq; [exact Hv|apply stands_exact]. }
  destruct m as [|p|p]; cbn [binary_normalize].
  - apply nearest_zero. change (inject_Z 0) with 0. ring.
  - apply H; [|reflexivity]. apply Qabs_pos. apply Qmult_le_0_compat; [discriminate|apply Qlt_le_weak, p2_pos].
  - assert (Hn : inject_Z (Z.neg p) * p2 e == - (inject_Z (Z.pos p) * p2 e)).
    { change (Z.neg p) with (- Z.pos p)%Z. rewrite inject_Z_opp. ring. }
    apply H; [|exact Hn]. rewrite Hn, Qabs_opp. apply Qabs_pos. apply Qmult_le_0_compat; [discriminate|apply Qlt_le_weak, p2_pos].
Qed.

Global Instance signed_proper : Proper (eq ==> Qeq ==> Qeq) signed.
Proof. intros s t <- x y H. destruct s; cbn [signed]; rewrite H; reflexivity. Qed.
Lemma signed_mult s t a b : signed (xorb s t) (a * b) == signed s a * signed t b.
Proof. destruct s, t; cbn [xorb signed]; ring. Qed.
Lemma signed_Qabs s a : 0 <= a -> Qabs (signed s a) == a.
Proof. intros H. destruct s; cbn [signed]; [rewrite Qabs_opp|]; apply Qabs_pos; auto. Qed.
Lemma fin_nonneg m e : 0 <= inject_Z (Z.pos m) * p2 e.
Proof. apply Qmult_le_0_compat; [discriminate|apply Qlt_le_weak, p2_pos]. Qed.

Lemma fin_canonical m e : bounded prec64 emax64 m e = true ->
  (Zdigits2 (Z.pos m) = 53 \/ e = -1074)%Z /\ (Zdigits2 (Z.pos m) <= 53)%Z /\ (-1074 <= e <= 971)%Z.
Proof.
  unfold bounded, canonical_mantissa. intros H. apply andb_prop in H. destruct H as (H1 & H2).
  apply Zeq_bool_eq in H1. apply Z.leb_le in H2. change (Z.pos (digits2_pos m)) with (Zdigits2 (Z.pos m)) in H1.
  rewrite fexp_eq in H1. change (emax64 - prec64)%Z with 971%Z in H2. lia.
Qed.

Lemma nearest_same x a : is_fin x = true -> val x == a -> nearest x a.
Proof.
  intros Hf Hv. apply (nearest_eq x (val x) a Hv). clear a Hv. destruct x as [s|s| |s m e]; try discriminate; [apply nearest_zero; reflexivity|].
  split; auto. cbn [is_fin] in Hf. destruct (fin_canonical _ _ Hf) as (X1 & X2 & X3). exists (if s then - Z.pos m else Z.pos m)%Z, e.
  split; [cbn [val]; destruct s; cbn [signed]; rewrite ?inject_Z_opp; ring|]. pose proof (p2_pos e) as Hp.
  split; [setoid_replace (val (S754_finite s m e) - val (S754_finite s m e)) with 0 by ring; change (Qabs 0) with 0; lra|].
  split; [lia|]. destruct X1 as [X1|X1]; [left|auto]. cbn [val]. rewrite signed_Qabs by apply fin_nonneg.
  destruct (digits_Z (Z.pos m)) as ((A1 & A2) & A3); [lia|]. rewrite X1 in A1. change (53 - 1)%Z with 52%Z in A1. rewrite Zle_Qle in A1.
  rewrite p2_plus, (p2_Z 52) by lia. nra.
Qed.
Theorem mul_ok (x y : F f64) : is_fin x = true -> is_fin y = true -> Qabs (val x * val y) < p2 1023 ->
  nearest (fmul x y) (val x * val y).
Proof.
  change (@fmul f64) with (SFmul prec64 emax64).
  destruct x as [s|s| |s m e], y as [t|t| |t n f]; try discriminate; intros Hx Hy Hb; cbn [SFmul];
    try (apply nearest_zero; cbn [val]; ring).
  cbn [is_fin val] in *. destruct (fin_canonical _ _ Hx) as (X1 & X2 & X3), (fin_canonical _ _ Hy) as (Y1 & Y2 & Y3).
  assert (Hv : inject_Z (Z.pos (m * n)) * p2 (e + f) == inject_Z (Z.pos m) * p2 e * (inject_Z (Z.pos n) * p2 f)).
  { rewrite Pos2Z.inj_mul, inject_Z_mult, p2_plus. ring. }
  assert (Hs : signed s (inject_Z (Z.pos m) * p2 e) * signed t (inject_Z (Z.pos n) * p2 f) ==
    signed (xorb s t) (inject_Z (Z.pos (m * n)) * p2 (e + f))). { rewrite Hv, signed_mult. reflexivity. }
  rewrite Hs in Hb. rewrite signed_Qabs in Hb by apply fin_nonneg. eapply nearest_eq; [symmetry; exact Hs|].
  apply round_ok; auto; [lia|apply stands_exact|].
  destruct (digits_Z (Z.pos m)) as ((A1 & A2) & A3); [lia|]. destruct (digits_Z (Z.pos n)) as ((B1 & B2) & B3); [lia|].
  set (dm := Zdigits2 (Z.pos m)) in *. set (dn := Zdigits2 (Z.pos n)) in *.
  assert (Hd : (dm - 1 + (dn - 1) < Zdigits2 (Z.pos (m * n)))%Z).
  { apply digits_ge; [lia|]. rewrite Pos2Z.inj_mul, Z.pow_add_r by lia. pose proof (Z.pow_pos_nonneg 2 (dm - 1)). pose proof (Z.pow_pos_nonneg 2 (dn - 1)). nia. }
  rewrite fexp_eq. lia.
Qed.

(* Sums and differences: t says whether to negate y. *)
Lemma sum_value m e n f s t :
  inject_Z (cond_Zopp s (Z.pos (fst (shl_align m e (Z.min e f)))) + cond_Zopp t (Z.pos (fst (shl_align n f (Z.min e f))))) * p2 (Z.min e f) ==
  signed s (inject_Z (Z.pos m) * p2 e) + signed t (inject_Z (Z.pos n) * p2 f).
Proof.
  pose proof (align_value m e (Z.min e f)) as H1. pose proof (align_value n f (Z.min e f)) as H2.
  destruct (shl_align m e (Z.min e f)) as [m' e']. destruct (shl_align n f (Z.min e f)) as [n' f'].
  destruct H1 as (H1 & E1 & _), H2 as (H2 & E2 & _). cbn [fst]. rewrite <- H1, <- H2.
  assert (He : e' = Z.min e f) by lia. assert (Hf : f' = Z.min e f) by lia. rewrite He, Hf.
  destruct s, t; cbn [cond_Zopp signed]; rewrite inject_Z_plus, ?inject_Z_opp; ring.
Qed.

Theorem add_ok (x y : F f64) : is_fin x = true -> is_fin y = true -> Qabs (val x + val y) < p2 1023 ->
  nearest (fadd x y) (val x + val y).
Proof.
  change (@fadd f64) with (SFadd prec64 emax64).
  destruct x as [s|s| |s m e], y as [t|t| |t n f]; try discriminate; intros Hx Hy Hb; cbn [SFadd].
  - destruct (Bool.eqb s t); apply nearest_zero; cbn [val]; ring.
  - apply nearest_same; [exact Hy|]. cbn [val]. ring.
  - apply nearest_same; [exact Hx|]. cbn [val]. ring.
  - cbn [val] in *. rewrite <- sum_value in Hb. eapply nearest_eq; [apply sum_value|]. apply normalize_ok. exact Hb.
Qed.
Theorem sub_ok (x y : F f64) : is_fin x = true -> is_fin y = true -> Qabs (val x - val y) < p2 1023 ->
  nearest (fsub x y) (val x - val y).
Proof.
  change (@fsub f64) with (SFsub prec64 emax64).
  destruct x as [s|s| |s m e], y as [t|t| |t n f]; try discriminate; intros Hx Hy Hb; cbn [SFsub].
  - destruct (Bool.eqb s (negb t)); apply nearest_zero; cbn [val]; ring.
  - apply nearest_same; [exact Hy|]. cbn [val]. destruct t; cbn [signed negb]; ring.
  - apply nearest_same; [exact Hx|]. cbn [val]. ring.
  - cbn [val] in *.
    assert (Hs : signed s (inject_Z (Z.pos m) * p2 e) - signed t (inject_Z (Z.pos n) * p2 f) ==
      inject_Z (cond_Zopp s (Z.pos (fst (shl_align m e (Z.min e f)))) - cond_Zopp t (Z.pos (fst (shl_align n f (Z.min e f))))) * p2 (Z.min e f)).
    { rewrite <- Z.add_opp_r. replace (- cond_Zopp t (Z.pos (fst (shl_align n f (Z.min e f)))))%Z with
        (cond_Zopp (negb t) (Z.pos (fst (shl_align n f (Z.min e f))))) by (destruct t; reflexivity).
      rewrite sum_value. destruct t; cbn [negb signed]; ring. }
    rewrite Hs in Hb. eapply nearest_eq; [symmetry; exact Hs|]. apply normalize_ok. exact Hb.
Qed.

(* Quotients. *)
Lemma location_frac n k : (0 <= k < n)%Z ->
  exists r s, shr_record_of_loc 0 (new_location n k) = Build_shr_record 0 r s /\ frac r s (inject_Z k / inject_Z n).
Proof.
  intros H. assert (Hn : 0 < inject_Z n) by (change 0 with (inject_Z 0); rewrite <- Zlt_Qlt; lia).
  assert (Hk0 : (0 < k)%Z -> 0 < inject_Z k) by (intros; change 0 with (inject_Z 0); rewrite <- Zlt_Qlt; lia).
  assert (Hkn : inject_Z k < inject_Z n) by (rewrite <- Zlt_Qlt; lia).
  assert (Hc : forall c : comparison, (match c with Lt => 2 * k < n | Eq => 2 * k = n | Gt => 2 * k > n end)%Z -> (0 < k)%Z ->
    exists r s, shr_record_of_loc 0 (loc_Inexact c) = Build_shr_record 0 r s /\ frac r s (inject_Z k / inject_Z n)).
  { intros c Hc Hk. specialize (Hk0 Hk). destruct c; cbn [shr_record_of_loc]; eexists _, _; (split; [reflexivity|]); cbn [frac].
    - assert (inject_Z n == 2 * inject_Z k) by (rewrite <- Hc, inject_Z_mult; reflexivity). rewrite H0. field. lra.
    - assert (2 * inject_Z k < inject_Z n) by (change 2 with (inject_Z 2); rewrite <- inject_Z_mult, <- Zlt_Qlt; lia). split.
      + apply Qlt_shift_div_l; lra.
      + apply Qlt_shift_div_r; lra.
    - assert (inject_Z n < 2 * inject_Z k) by (change 2 with (inject_Z 2); rewrite <- inject_Z_mult, <- Zlt_Qlt; lia). split.
      + apply Qlt_shift_div_l; lra.
      + apply Qlt_shift_div_r; lra. }
  unfold new_location, new_location_even, new_location_odd. destruct (Z.eq_dec k 0) as [->|Hk].
  - exists false, false. split; [destruct (Z.even n); reflexivity|]. cbn [frac]. change (inject_Z 0) with 0. field. lra.
  - destruct (Zeq_bool k 0) eqn:Ek; [apply Zeq_bool_eq in Ek; lia|]. destruct (Z.even n) eqn:En.
    + rewrite Ek. apply Hc; [|lia]. destruct (Z.compare_spec (2 * k) n); lia.
    + assert (n <> 2 * k)%Z by (intros ->; rewrite Z.even_mul in En; discriminate).
      rewrite Ek. destruct (Z.compare_spec (2 * k + 1) n); apply Hc; lia.
Qed.

Lemma location_stands q e n k : (0 <= k < n)%Z ->
  stands (shr_record_of_loc q (new_location n k)) e ((inject_Z q + inject_Z k / inject_Z n) * p2 e).
Proof.
  intros H. destruct (location_frac n k H) as (r & s & Hr & Hf).
  assert (Hq : shr_record_of_loc q (new_location n k) = Build_shr_record q r s).
  { destruct (new_location n k) as [|[| |]]; cbn in *; congruence. }
  rewrite Hq. exists (inject_Z k / inject_Z n). split; [exact Hf|reflexivity].
Qed.

Theorem div_ok (x y : F f64) : is_fin x = true -> is_fin y = true -> ~ val y == 0 -> Qabs (val x / val y) < p2 1023 ->
  nearest (fdiv x y) (val x / val y).
Proof.
  change (@fdiv f64) with (SFdiv prec64 emax64).
  destruct x as [s|s| |s m e], y as [t|t| |t n f]; try discriminate; intros Hx Hy Hy0 Hb; cbn [SFdiv];
    try (exfalso; apply Hy0; reflexivity).
  - apply nearest_zero. cbn [val] in *. field. exact Hy0.
  - cbn [is_fin val] in *. unfold SFdiv_core_binary.
    destruct (digits_Z (Z.pos m)) as ((A1 & A2) & A3); [lia|]. destruct (digits_Z (Z.pos n)) as ((B1 & B2) & B3); [lia|].
    set (dm := Zdigits2 (Z.pos m)) in *. set (dn := Zdigits2 (Z.pos n)) in *.
    set (e' := Z.min (fexp64 (dm + e - (dn + f))) (e - f)).
    assert (Hk : (0 <= e - f - e')%Z) by lia. set (k := (e - f - e')%Z) in *.
    assert (Hm' : match k with Z0 => Z.pos m | Z.pos _ => Z.shiftl (Z.pos m) k | Z.neg _ => 0%Z end = (Z.pos m * 2 ^ k)%Z).
    { destruct k as [|p|p]; [lia| |lia]. apply Z.shiftl_mul_pow2. lia. }
    rewrite Hm'. pose proof (Z_div_mod (Z.pos m * 2 ^ k) (Z.pos n) ltac:(lia)) as Hd.
    destruct (Z.div_eucl (Z.pos m * 2 ^ k) (Z.pos n)) as [q r]. destruct Hd as (Hd1 & Hd2).
    assert (Hn0 : 0 < inject_Z (Z.pos n)) by reflexivity.
    assert (Hv : (inject_Z q + inject_Z r / inject_Z (Z.pos n)) * p2 e' == inject_Z (Z.pos m) * p2 e / (inject_Z (Z.pos n) * p2 f)).
    { assert (Hq : inject_Z q * inject_Z (Z.pos n) + inject_Z r == inject_Z (Z.pos m) * p2 k).
      { rewrite (p2_Z k) by lia. rewrite <- !inject_Z_mult, <- inject_Z_plus. rewrite Hd1. rewrite (Z.mul_comm q). reflexivity. }
      assert (He : p2 e == p2 k * p2 f * p2 e'). { rewrite <- !p2_plus. replace (k + f + e')%Z with e by lia. reflexivity. }
      pose proof (p2_pos f). rewrite He.
      setoid_replace (inject_Z q + inject_Z r / inject_Z (Z.pos n)) with ((inject_Z q * inject_Z (Z.pos n) + inject_Z r) / inject_Z (Z.pos n)) by (field; lra).
      rewrite Hq. field. lra. }
    assert (Hs : signed s (inject_Z (Z.pos m) * p2 e) / signed t (inject_Z (Z.pos n) * p2 f) ==
      signed (xorb s t) ((inject_Z q + inject_Z r / inject_Z (Z.pos n)) * p2 e')).
    { rewrite Hv. pose proof (p2_pos f). destruct s, t; cbn [xorb signed]; field; lra. }
    assert (Hq0 : (0 <= q)%Z). { pose proof (Z.pow_pos_nonneg 2 k). nia. }
    rewrite Hs in Hb. eapply nearest_eq; [symmetry; exact Hs|]. rewrite signed_Qabs in Hb.
    2: rewrite Hv; apply Qle_shift_div_l; [pose proof (p2_pos f); nra|]; rewrite Qmult_0_l; apply fin_nonneg.
    apply round_ok; auto; [apply location_stands; lia|].
    assert (Hdq : (dm + k - dn <= Zdigits2 q)%Z).
    { destruct (Z.le_gt_cases (dm + k - dn) 0); [destruct (Z.eq_dec q 0) as [->|]; [change (Zdigits2 0) with 0%Z; lia|destruct (digits_Z q); lia]|].
      assert (dm + k - dn - 1 < Zdigits2 q)%Z; [|lia]. apply digits_ge; [lia|].
      assert (2 ^ (dm + k - dn - 1) * Z.pos n < (q + 1) * Z.pos n)%Z; [|nia].
      eapply Z.lt_le_trans with (2 ^ (dm + k - dn - 1) * 2 ^ dn)%Z; [pose proof (Z.pow_pos_nonneg 2 (dm + k - dn - 1)); nia|].
      rewrite <- Z.pow_add_r by lia. replace (dm + k - dn - 1 + dn)%Z with (dm - 1 + k)%Z by lia. rewrite Z.pow_add_r by lia.
      pose proof (Z.pow_pos_nonneg 2 k). nia. }
    { assert (He' : (e' <= Z.max (dm + e - (dn + f) - 53) (-1074))%Z) by (unfold e'; rewrite fexp_eq; lia). rewrite fexp_eq. lia. }
Qed.

(* Whole numbers. *)
Lemma whole_bound j : (Z.abs j <= 2 ^ 53)%Z -> Qabs (inject_Z j) < p2 1023.
Proof.
  intros H. rewrite Qabs_Zabs. eapply Qle_lt_trans with (p2 53); [rewrite (p2_Z 53) by lia; rewrite <- Zle_Qle; exact H|]. reflexivity.
Qed.
Theorem of_nat_ok n : (Z.of_nat n <= 2 ^ 53)%Z -> is_fin (@fofnat f64 n) = true /\ val (@fofnat f64 n) == inject_Z (Z.of_nat n).
Proof.
  intros Hn. assert (H1 : inject_Z (Z.of_nat n) * p2 0 == inject_Z (Z.of_nat n)) by (change (p2 0) with 1; ring).
  assert (H : nearest (@fofnat f64 n) (inject_Z (Z.of_nat n))).
  { eapply nearest_eq; [exact H1|]. apply normalize_ok. rewrite H1. apply whole_bound. lia. }
  split; [exact (proj1 H)|]. eapply nearest_whole; [exact H|reflexivity|lia].
Qed.
Theorem add_whole (x y : F f64) i j : is_fin x = true -> is_fin y = true -> val x == inject_Z i -> val y == inject_Z j -> (Z.abs (i + j) <= 2 ^ 53)%Z ->
  is_fin (fadd x y) = true /\ val (fadd x y) == inject_Z (i + j).
Proof.
  intros Hx Hy Hi Hj Hb. assert (Hs : val x + val y == inject_Z (i + j)) by (rewrite Hi, Hj, inject_Z_plus; reflexivity).
  assert (H : nearest (fadd x y) (val x + val y)) by (apply add_ok; auto; rewrite Hs; apply whole_bound; auto).
  split; [exact (proj1 H)|]. rewrite <- Hs. eapply nearest_whole; eauto.
Qed.
