(* SpecFloat's operations are within half a unit in the last place of the exact result. *)
From Coq Require Import ZArith QArith Qabs Qpower SpecFloat Lia Lqa.
From Verif Require Import Base Num FloatSpec.
Local Open Scope Q_scope.

Lemma two_nz : ~ 2 == 0.
Proof. discriminate. Qed.
Lemma p2_pos e : 0 < p2 e.
Proof. apply Qpower_0_lt. reflexivity. Qed.
Lemma p2_plus a b : p2 (a + b) == p2 a * p2 b.
Proof. apply Qpower_plus. apply two_nz. Qed.
Lemma p2_Z n : (0 <= n)%Z -> p2 n == inject_Z (2 ^ n).
Proof. intros H. unfold p2. rewrite Zpower_Qpower by auto. reflexivity. Qed.
Lemma p2_1 e : p2 (e + 1) == 2 * p2 e.
Proof. rewrite p2_plus. change (p2 1) with 2. ring. Qed.
Lemma p2_le a b : (a <= b)%Z -> p2 a <= p2 b.
Proof.
  intros H. replace b with (a + (b - a))%Z by lia. rewrite p2_plus. rewrite (p2_Z (b - a)) by lia.
  assert (1 <= inject_Z (2 ^ (b - a))). { rewrite <- (Zle_Qle 1). apply (Z.pow_le_mono_r 2 0); lia. }
  pose proof (p2_pos a). nra.
Qed.

(* ---- locations ---- *)
(* The fraction f that the round and sticky bits stand for. *)
Definition frac (r s : bool) (f : Q) : Prop :=
  match r, s with
  | false, false => f == 0
  | false, true => 0 < f /\ f < 1#2
  | true, false => f == 1#2
  | true, true => 1#2 < f /\ f < 1
  end.
Definition stands (k : shr_record) (e : Z) (x : Q) : Prop :=
  exists f, frac (shr_r k) (shr_s k) f /\ x == (inject_Z (shr_m k) + f) * p2 e.

Lemma frac_bounds r s f : frac r s f -> 0 <= f /\ f < 1.
Proof. destruct r, s; cbn; intros H; lra. Qed.

Lemma shr1_stands k e x : (0 <= shr_m k)%Z -> stands k e x -> stands (shr_1 k) (e + 1) x /\ shr_m (shr_1 k) = (shr_m k / 2)%Z.
Proof.
  destruct k as [m r s]. unfold stands. cbn [shr_m shr_r shr_s]. intros Hm (f & Hf & Hx).
  assert (H : exists b : bool, m = (2 * (m / 2) + Z.b2z b)%Z /\ shr_1 (Build_shr_record m r s) = Build_shr_record (m / 2) b (r || s)).
  { destruct m as [|[p|p|]|p]; try lia.
    - exists false. split; reflexivity.
    - exists true. rewrite <- (Z.div_unique (Z.pos p~1) 2 (Z.pos p) 1) by lia. split; [cbn [Z.b2z]; lia|reflexivity].
    - exists false. rewrite <- (Z.div_unique (Z.pos p~0) 2 (Z.pos p) 0) by lia. split; [cbn [Z.b2z]; lia|reflexivity].
    - exists true. split; reflexivity. }
  destruct H as (b & Hb & ->). cbn [shr_m shr_r shr_s]. split; auto.
  exists ((inject_Z (Z.b2z b) + f) * (1#2)). split.
  - destruct b, r, s; cbn [frac orb Z.b2z] in *; unfold inject_Z; lra.
  - rewrite Hx, p2_1. rewrite Hb at 1. rewrite inject_Z_plus, inject_Z_mult. change (inject_Z 2) with 2. field.
Qed.

Lemma iter_shr p : forall k e x, (0 <= shr_m k)%Z -> stands k e x ->
  stands (SpecFloat.iter_pos shr_1 p k) (e + Z.pos p) x /\ shr_m (SpecFloat.iter_pos shr_1 p k) = (shr_m k / 2 ^ Z.pos p)%Z.
Proof.
  induction p as [p IH|p IH|]; intros k e x Hk Hs; cbn [SpecFloat.iter_pos].
  - destruct (shr1_stands k e x Hk Hs) as (H1 & M1).
    assert (K1 : (0 <= shr_m (shr_1 k))%Z) by (rewrite M1; apply Z.div_pos; lia).
    destruct (IH _ _ _ K1 H1) as (H2 & M2).
    assert (K2 : (0 <= shr_m (SpecFloat.iter_pos shr_1 p (shr_1 k)))%Z) by (rewrite M2; apply Z.div_pos; lia).
    destruct (IH _ _ _ K2 H2) as (H3 & M3). split.
    + replace (e + Z.pos p~1)%Z with (e + 1 + Z.pos p + Z.pos p)%Z by lia. exact H3.
    + rewrite M3, M2, M1. rewrite !Z.div_div by lia. f_equal. rewrite <- !Z.pow_add_r by lia.
      change 2%Z with (2 ^ 1)%Z at 1. rewrite <- !Z.pow_add_r by lia. f_equal. lia.
  - destruct (IH _ _ _ Hk Hs) as (H2 & M2).
    assert (K2 : (0 <= shr_m (SpecFloat.iter_pos shr_1 p k))%Z) by (rewrite M2; apply Z.div_pos; lia).
    destruct (IH _ _ _ K2 H2) as (H3 & M3). split.
    + replace (e + Z.pos p~0)%Z with (e + Z.pos p + Z.pos p)%Z by lia. exact H3.
    + rewrite M3, M2. rewrite !Z.div_div by lia. f_equal. rewrite <- !Z.pow_add_r by lia. f_equal. lia.
  - destruct (shr1_stands k e x Hk Hs) as (H1 & M1). split; auto.
Qed.
Lemma shr_stands k e x n : (0 <= shr_m k)%Z -> (0 <= n)%Z -> stands k e x ->
  let '(k', e') := shr k e n in stands k' e' x /\ shr_m k' = (shr_m k / 2 ^ n)%Z /\ e' = (e + n)%Z.
Proof.
  intros Hk Hn Hs. destruct n as [|p|p]; try lia; cbn [shr].
  - split; [exact Hs|]. rewrite Z.pow_0_r, Z.div_1_r. split; [reflexivity|lia].
  - destruct (iter_shr p k e x Hk Hs). auto.
Qed.

(* ---- digits ---- *)
Lemma digits_pos m : (2 ^ (Z.pos (digits2_pos m) - 1) <= Z.pos m < 2 ^ Z.pos (digits2_pos m))%Z.
Proof.
  induction m as [m IH|m IH|]; cbn [digits2_pos]; [| |cbn; lia];
    rewrite Pos2Z.inj_succ; replace (Z.succ (Z.pos (digits2_pos m)) - 1)%Z with (Z.succ (Z.pos (digits2_pos m) - 1)) by lia;
    rewrite !Z.pow_succ_r by lia; lia.
Qed.
Lemma digits_Z m : (0 < m)%Z -> (2 ^ (Zdigits2 m - 1) <= m < 2 ^ Zdigits2 m)%Z /\ (0 < Zdigits2 m)%Z.
Proof. destruct m as [|p|p]; try lia. intros _. cbn [Zdigits2]. split; [apply digits_pos|lia]. Qed.
Lemma digits_is m d : (0 <= d)%Z -> (2 ^ d <= m < 2 ^ (d + 1))%Z -> Zdigits2 m = (d + 1)%Z.
Proof.
  intros Hd (H1 & H2). assert (Hm : (0 < m)%Z) by (pose proof (Z.pow_pos_nonneg 2 d); lia).
  destruct (digits_Z m Hm) as ((K1 & K2) & K3).
  assert (d < Zdigits2 m)%Z by (apply (Z.pow_lt_mono_r_iff 2); lia).
  assert (Zdigits2 m - 1 < d + 1)%Z by (apply (Z.pow_lt_mono_r_iff 2); lia). lia.
Qed.
Lemma digits_le m d : (0 <= d)%Z -> (0 <= m < 2 ^ d)%Z -> (Zdigits2 m <= d)%Z.
Proof.
  intros Hd (H1 & H2). destruct (Z.eq_dec m 0) as [->|]; [exact Hd|].
  destruct (digits_Z m) as ((K1 & K2) & K3); [lia|].
  assert (Zdigits2 m - 1 < d)%Z by (apply (Z.pow_lt_mono_r_iff 2); lia). lia.
Qed.
Lemma digits_ge m d : (0 <= d)%Z -> (2 ^ d <= m)%Z -> (d < Zdigits2 m)%Z.
Proof.
  intros Hd H. assert (Hm : (0 < m)%Z) by (pose proof (Z.pow_pos_nonneg 2 d); lia).
  destruct (digits_Z m Hm) as ((K1 & K2) & K3). apply (Z.pow_lt_mono_r_iff 2); lia.
Qed.

(* ---- rounding ---- *)
Notation fexp64 := (fexp prec64 emax64).
Lemma fexp_eq e : fexp64 e = Z.max (e - 53) (-1074).
Proof. reflexivity. Qed.

Lemma loc_back k : loc_of_shr_record (shr_record_of_loc (shr_m k) (loc_of_shr_record k)) = loc_of_shr_record k.
Proof. destruct k as [m [|] [|]]; reflexivity. Qed.
Lemma of_loc m l : shr_m (shr_record_of_loc m l) = m.
Proof. destruct l as [|[| |]]; reflexivity. Qed.

Lemma rne_near k e x : (0 <= shr_m k)%Z -> stands k e x ->
  let r := round_nearest_even (shr_m k) (loc_of_shr_record k) in
  (shr_m k <= r <= shr_m k + 1)%Z /\ Qabs (inject_Z r * p2 e - x) <= (1#2) * p2 e.
Proof.
  intros Hk (f & Hf & Hx). pose proof (p2_pos e) as Hp. cbv zeta.
  assert (H : forall r : Z, (r = shr_m k /\ f <= 1#2) \/ (r = shr_m k + 1)%Z /\ 1#2 <= f ->
    (shr_m k <= r <= shr_m k + 1)%Z /\ Qabs (inject_Z r * p2 e - x) <= (1#2) * p2 e).
  { pose proof (frac_bounds _ _ _ Hf) as (F1 & F2). intros r [(-> & Hh)|(-> & Hh)]; (split; [lia|]).
    - apply Qabs_Qle_condition. rewrite Hx. split; nra.
    - apply Qabs_Qle_condition. rewrite Hx, inject_Z_plus. change (inject_Z 1) with 1. split; nra. }
  destruct k as [m [|] [|]]; cbn [shr_m shr_r shr_s loc_of_shr_record round_nearest_even frac] in *.
  - apply H. right. split; auto. lra.
  - destruct (Z.even m); apply H; [left|right]; split; auto; lra.
  - apply H. left. split; auto. lra.
  - apply H. left. split; auto. lra.
Qed.

Lemma p2_lt_inv a b : p2 a < p2 b -> (a < b)%Z.
Proof. intros H. destruct (Z.lt_ge_cases a b) as [|Hle]; auto. apply p2_le in Hle. lra. Qed.

(* After the first shift: 53 bits, or the smallest exponent. *)
Lemma first_shift m e l x : (0 <= m)%Z -> stands (shr_record_of_loc m l) e x -> (e <= fexp64 (Zdigits2 m + e))%Z ->
  exists k1 e1, shr_fexp prec64 emax64 m e l = (k1, e1) /\ stands k1 e1 x /\ (0 <= shr_m k1 < 2 ^ 53)%Z /\ (-1074 <= e1)%Z /\
    ((2 ^ 52 <= shr_m k1)%Z \/ e1 = (-1074)%Z).
Proof.
  intros Hm Hs He. unfold shr_fexp. set (n := (fexp64 (Zdigits2 m + e) - e)%Z).
  pose proof (shr_stands (shr_record_of_loc m l) e x n) as H. rewrite of_loc in H. specialize (H Hm ltac:(unfold n; lia) Hs).
  destruct (shr (shr_record_of_loc m l) e n) as [k1 e1]. destruct H as (H1 & H2 & H3). exists k1, e1. split; auto. split; auto.
  assert (Hne : n = (Z.max (Zdigits2 m + e - 53) (-1074) - e)%Z) by reflexivity. rewrite fexp_eq in He. clearbody n.
  assert (Hn : (0 <= n)%Z) by lia.
  assert (Hdiv : (0 <= m / 2 ^ n)%Z) by (apply Z.div_pos; [lia|apply Z.pow_pos_nonneg; lia]).
  rewrite H2. destruct (Z.eq_dec m 0) as [->|Hm0].
  { rewrite Z.div_0_l by (apply Z.pow_nonzero; lia). cbn [Zdigits2] in *. split; [lia|]. split; [lia|]. right. lia. }
  destruct (digits_Z m) as ((D1 & D2) & D3); [lia|]. set (d := Zdigits2 m) in *.
  assert (Hlt : (m / 2 ^ n < 2 ^ 53)%Z).
  { apply Z.div_lt_upper_bound; [apply Z.pow_pos_nonneg; lia|]. rewrite <- Z.pow_add_r by lia.
    eapply Z.lt_le_trans; [exact D2|]. apply Z.pow_le_mono_r; lia. }
  split; [lia|]. split; [lia|].
  destruct (Z.le_gt_cases (d + e - 53) (-1074)) as [Hc|Hc]; [right; lia|left].
  assert (n = (d - 53)%Z) by lia. apply Z.div_le_lower_bound; [apply Z.pow_pos_nonneg; lia|]. rewrite <- Z.pow_add_r by lia.
  eapply Z.le_trans; [|exact D1]. apply Z.pow_le_mono_r; lia.
Qed.

Lemma second_shift r e1 : (0 <= r <= 2 ^ 53)%Z -> (-1074 <= e1)%Z -> (2 ^ 52 <= r)%Z \/ e1 = (-1074)%Z ->
  exists m2 e2, shr_fexp prec64 emax64 r e1 loc_Exact = (Build_shr_record m2 false false, e2) /\
    inject_Z m2 * p2 e2 == inject_Z r * p2 e1 /\ (0 <= m2)%Z /\ (e1 <= e2 <= e1 + 1)%Z /\ fexp64 (Zdigits2 m2 + e2) = e2.
Proof.
  intros Hr He Hc. unfold shr_fexp. cbn [shr_record_of_loc].
  destruct (Z.eq_dec r (2 ^ 53)) as [->|Hne].
  - exists (2 ^ 52)%Z, (e1 + 1)%Z. replace (fexp64 (Zdigits2 (2 ^ 53) + e1) - e1)%Z with 1%Z.
    + split; [reflexivity|]. split; [rewrite p2_1; change (inject_Z (2 ^ 53)) with (2 * inject_Z (2 ^ 52)); ring|].
      split; [lia|]. split; [lia|]. rewrite fexp_eq. change (Zdigits2 (2 ^ 52)) with 53%Z. lia.
    + rewrite fexp_eq. change (Zdigits2 (2 ^ 53)) with 54%Z. lia.
  - assert (Hf : fexp64 (Zdigits2 r + e1) = e1).
    { rewrite fexp_eq. assert (Zdigits2 r <= 53)%Z by (apply digits_le; lia). destruct Hc as [Hc| ->]; [|lia].
      apply digits_ge in Hc; lia. }
    exists r, e1. rewrite Hf, Z.sub_diag. split; [reflexivity|]. split; [reflexivity|]. split; [lia|]. split; [lia|reflexivity].
Qed.

Lemma signed_abs s a b : Qabs (signed s a - signed s b) == Qabs (a - b).
Proof.
  destruct s; cbn [signed]; [|reflexivity]. setoid_replace (- a - - b) with (- (a - b)) by ring. apply Qabs_opp.
Qed.

(* z is one of the numbers nearest to x; e is the exponent of the last digit of z. *)
Definition nearest (z : spec_float) (x : Q) : Prop :=
  is_fin z = true /\ exists r e, val z == inject_Z r * p2 e /\ Qabs (val z - x) <= (1#2) * p2 e /\
    (-1074 <= e)%Z /\ (p2 (52 + e) <= Qabs x \/ e = (-1074)%Z).

Lemma nearest_eq z x y : x == y -> nearest z x -> nearest z y.
Proof.
  intros H (H1 & r & e & H2 & H3 & H4 & H5). split; auto. exists r, e. rewrite <- H. auto.
Qed.
Lemma half_p2 a : (1#2) * p2 a == p2 (a - 1).
Proof. replace a with (a - 1 + 1)%Z at 1 by lia. rewrite p2_1. ring. Qed.

Theorem nearest_err z x : nearest z x -> Qabs (val z - x) <= ulp * Qabs x + tiny.
Proof.
  intros (_ & r & e & _ & H & _ & Hc). eapply Qle_trans; [exact H|]. rewrite half_p2.
  assert (0 < ulp) by apply p2_pos. assert (0 < tiny) by apply p2_pos. pose proof (Qabs_nonneg x) as Hx. destruct Hc as [Hc| ->].
  - assert (He : p2 (e - 1) == ulp * p2 (52 + e)).
    { unfold ulp. rewrite <- p2_plus. replace (-53 + (52 + e))%Z with (e - 1)%Z by lia. reflexivity. }
    rewrite He. nra.
  - change (-1074 - 1)%Z with (-1075)%Z. fold tiny. nra.
Qed.
Lemma Qabs_Zabs j : Qabs (inject_Z j) = inject_Z (Z.abs j).
Proof. reflexivity. Qed.
Lemma inject_eq a b : Qabs (inject_Z a - inject_Z b) <= 1#2 -> a = b.
Proof.
  intros H. assert (Hz : Qabs (inject_Z (a - b)) < 1).
  { unfold Z.sub. rewrite inject_Z_plus, inject_Z_opp. eapply Qle_lt_trans; [exact H|]. reflexivity. }
  apply Qabs_Qlt_condition in Hz. destruct Hz as (H1 & H2). change 1 with (inject_Z 1) in *. rewrite <- inject_Z_opp in H1.
  rewrite <- Zlt_Qlt in H1, H2. lia.
Qed.
(* Whole numbers up to 2^53 are met exactly. *)
Theorem nearest_whole z x j : nearest z x -> x == inject_Z j -> (Z.abs j <= 2 ^ 53)%Z -> val z == x.
Proof.
  intros (_ & r & e & Hv & H & He & Hc) Hx Hj.
  assert (He1 : (e <= 1)%Z).
  { destruct Hc as [Hc| ->]; [|lia]. assert (52 + e < 54)%Z; [|lia]. apply p2_lt_inv. eapply Qle_lt_trans; [exact Hc|].
    rewrite Hx. rewrite Qabs_Zabs. rewrite (p2_Z 54) by lia. rewrite <- Zlt_Qlt. lia. }
  destruct (Z.eq_dec e 1) as [->|Hne].
  - destruct Hc as [Hc|Hc]; [|lia]. rewrite Hx in Hc. rewrite Qabs_Zabs in Hc.
    change (52 + 1)%Z with 53%Z in Hc. rewrite (p2_Z 53) in Hc by lia. rewrite <- Zle_Qle in Hc.
    assert (Hj2 : exists i, j = (i * 2)%Z). { destruct (Z.abs_eq_or_opp j); [exists (2 ^ 52)%Z|exists (- 2 ^ 52)%Z]; lia. }
    destruct Hj2 as (i & ->). rewrite Hv, Hx in *. rewrite inject_Z_mult in *. change (p2 1) with (inject_Z 2) in *.
    assert (Hr : r = i); [|rewrite Hr; reflexivity]. apply inject_eq.
    setoid_replace (inject_Z r * inject_Z 2 - inject_Z i * inject_Z 2) with ((inject_Z r - inject_Z i) * 2) in H by (change (inject_Z 2) with 2; ring).
    rewrite Qabs_Qmult in H. change (Qabs 2) with 2 in H. change (inject_Z 2) with 2 in H. lra.
  - assert (Hj2 : inject_Z j == inject_Z (j * 2 ^ (- e)) * p2 e).
    { rewrite inject_Z_mult, <- (p2_Z (- e)) by lia. rewrite <- Qmult_assoc, <- p2_plus. replace (- e + e)%Z with 0%Z by lia. change (p2 0) with 1. ring. }
    rewrite Hx, Hj2 in *. rewrite Hv in *. assert (Hr : r = (j * 2 ^ (- e))%Z); [|rewrite Hr; reflexivity]. apply inject_eq.
    setoid_replace (inject_Z r * p2 e - inject_Z (j * 2 ^ (- e)) * p2 e) with ((inject_Z r - inject_Z (j * 2 ^ (- e))) * p2 e) in H by ring.
    pose proof (p2_pos e). rewrite Qabs_Qmult, (Qabs_pos (p2 e)) in H by lra. eapply Qmult_le_r; [|exact H]. auto.
Qed.

Theorem round_ok s m e l x : (0 <= m)%Z -> stands (shr_record_of_loc m l) e x -> (e <= fexp64 (Zdigits2 m + e))%Z -> x < p2 1023 ->
  nearest (binary_round_aux prec64 emax64 s m e l) (signed s x).
Proof.
  intros Hm Hs He Hx. unfold binary_round_aux.
  destruct (first_shift m e l x Hm Hs He) as (k1 & e1 & -> & H1 & H2 & H3 & H4).
  destruct (rne_near k1 e1 x ltac:(lia) H1) as (R1 & R2). set (r := round_nearest_even _ _) in *.
  destruct (second_shift r e1) as (m2 & e2 & -> & S1 & S2 & S3 & S4); [lia|lia|destruct H4; [left; lia|auto]|].
  cbn [shr_m].
  assert (Hx0 : inject_Z (shr_m k1) * p2 e1 <= x).
  { destruct H1 as (f & Hf & Hxf). apply frac_bounds in Hf. pose proof (p2_pos e1). rewrite Hxf. nra. }
  assert (Hk0 : 0 <= inject_Z (shr_m k1)) by (change 0 with (inject_Z 0); rewrite <- Zle_Qle; lia).
  assert (Hxp : 0 <= x) by (pose proof (p2_pos e1); nra).
  assert (H52 : (2 ^ 52 <= shr_m k1)%Z -> p2 (52 + e1) <= x).
  { intros H. rewrite p2_plus, (p2_Z 52) by lia. rewrite Zle_Qle in H. pose proof (p2_pos e1). nra. }
  assert (He2 : (e2 <= 971)%Z).
  { destruct H4 as [H4| ->]; [|lia]. assert (52 + e1 < 1023)%Z; [|lia]. apply p2_lt_inv. eapply Qle_lt_trans; [|exact Hx]. auto. }
  assert (Habs : Qabs (signed s x) == x) by (destruct s; cbn [signed]; [rewrite Qabs_opp|]; apply Qabs_pos; auto).
  assert (Hend : forall z, is_fin z = true -> val z == signed s (inject_Z m2 * p2 e2) -> nearest z (signed s x)).
  { intros z Hf Hz. split; auto. exists (if s then - r else r)%Z, e1.
    assert (Hz' : val z == signed s (inject_Z r * p2 e1)). { rewrite Hz. destruct s; cbn [signed]; rewrite S1; reflexivity. }
    split; [rewrite Hz'; destruct s; cbn [signed]; [rewrite inject_Z_opp; ring|reflexivity]|].
    split; [rewrite Hz', signed_abs; exact R2|]. split; [exact H3|]. rewrite Habs. destruct H4; auto. }
  destruct m2 as [|p|p]; [| |lia].
  - apply Hend; [reflexivity|]. cbn [val]. change (inject_Z 0) with 0. destruct s; cbn [signed]; ring.
  - change (emax64 - prec64)%Z with 971%Z. destruct (Z.leb_spec e2 971); [|lia]. apply Hend; [|reflexivity].
    cbn [is_fin]. unfold bounded, canonical_mantissa. apply andb_true_intro. split.
    + apply Zeq_is_eq_bool. exact S4.
    + apply Z.leb_le. exact He2.
Qed.
