(* The digits that are found are the fewest that are enough, and the closest of as many. *)
From Coq Require Import ZArith QArith Qabs Qpower SpecFloat Lia Lqa Setoid Morphisms.
From Verif Require Import Base Num Env Server Routes FloatSpec FloatRound FloatOps JsonText TextSpec TextParse TextUtf8 TextTime TextNumSpec FloatText ShowFloat TextNum.
Local Open Scope Q_scope.

(* ---- there is one closest number ---- *)
Lemma next_between (z z' : F f64) : is_fin z = true -> is_fin z' = true -> 0 <= val z -> even z = true -> val z < val z' ->
  exists w : F f64, is_fin w = true /\ val z < val w /\ val w <= val z' /\ (val w == val z' -> even z' = false).
Proof.
  intros Hz Hz' Hp Hev Hlt.
  destruct z' as [t|t| |t n f]; try discriminate Hz'; [cbn [val] in Hlt; lra|]. cbn [is_fin] in Hz'.
  assert (t = false). { destruct t; auto. cbn [val signed] in Hlt. pose proof (fin_pos n f). lra. } subst t. cbn [val signed] in *.
  destruct (fin_canonical _ _ Hz') as (Y1 & Y2 & Y3). destruct (digits_Z (Z.pos n)) as ((Dn1 & Dn2) & Dn3); [lia|].
  destruct z as [s|s| |s m e]; try discriminate Hz.
  - exists (S754_finite false 1 (-1074)). assert (B : bounded prec64 emax64 1 (-1074) = true) by reflexivity. cbn [is_fin val signed]. split; [exact B|].
    pose proof (p2_pos (-1074)) as P0. assert (One : inject_Z (Z.pos 1) == 1) by reflexivity. split; [rewrite One; lra|]. split.
    + rewrite (p2_multiple (Z.pos n) (-1074) f) by lia. apply Qmult_le_r; auto. apply inj_le. pose proof (Z.pow_pos_nonneg 2 (f - -1074) ltac:(lia) ltac:(lia)). nia.
    + intros E. destruct (same_value 1 (-1074) n f B Hz' ltac:(lia) E) as (<- & _). reflexivity.
  - cbn [is_fin even] in *. destruct (fin_canonical _ _ Hz) as (X1 & X2 & X3). destruct (digits_Z (Z.pos m)) as ((Dm1 & Dm2) & Dm3); [lia|].
    assert (s = false). { destruct s; auto. cbn [val signed] in Hp. pose proof (fin_pos m e). lra. } subst s. cbn [val signed] in *.
    assert (Hm : (Z.pos m < 2 ^ 53)%Z) by (eapply Z.lt_le_trans; [exact Dm2|]; apply Z.pow_le_mono_r; lia).
    assert (Hm1 : (Z.pos m + 1 < 2 ^ 53)%Z).
    { assert (Z.pos m <> 2 ^ 53 - 1)%Z; [|lia]. intros E. rewrite E in Hev. discriminate Hev. }
    assert (Hq : Z.pos (Pos.succ m) = (Z.pos m + 1)%Z) by lia.
    assert (B : bounded prec64 emax64 (Pos.succ m) e = true).
    { unfold bounded, canonical_mantissa. apply andb_true_intro. split; [|apply Z.leb_le; change (emax64 - prec64)%Z with 971%Z; lia]. apply Zeq_is_eq_bool.
      change (fexp prec64 emax64) with fexp64. rewrite fexp_eq. change (Z.pos (digits2_pos (Pos.succ m))) with (Zdigits2 (Z.pos (Pos.succ m))). rewrite Hq.
      pose proof (digits_le (Z.pos m + 1) 53 ltac:(lia) ltac:(lia)). destruct (Z.eq_dec e (-1074)); [lia|].
      assert (Hd : (Zdigits2 (Z.pos m) = 53)%Z) by lia. rewrite Hd in Dm1. pose proof (digits_ge (Z.pos m + 1) 52 ltac:(lia) ltac:(change (2 ^ (53 - 1))%Z with (2 ^ 52)%Z in Dm1; lia)). lia. }
    exists (S754_finite false (Pos.succ m) e). cbn [is_fin val signed]. split; [exact B|]. pose proof (p2_pos e) as Pe. rewrite Hq. split.
    { apply Qmult_lt_r; auto. apply inj_lt. lia. }
    destruct (Z.le_gt_cases e f) as [Hc|Hc].
    + split.
      * rewrite (p2_multiple (Z.pos n) e f Hc) in *. apply Qmult_le_r; auto. apply Qmult_lt_r in Hlt; auto. apply inj_le. rewrite <- Zlt_Qlt in Hlt. lia.
      * intros E. rewrite <- Hq in E. destruct (same_value _ _ n f B Hz' Hc E) as (<- & _). cbn [even]. rewrite Hq, Z.even_add, Hev. reflexivity.
    + exfalso. assert (Hd : (Zdigits2 (Z.pos m) = 53)%Z) by lia. rewrite Hd in Dm1. change (2 ^ (53 - 1))%Z with (2 ^ 52)%Z in Dm1.
      assert (Hn : (Z.pos n < 2 ^ 53)%Z) by (eapply Z.lt_le_trans; [exact Dn2|]; apply Z.pow_le_mono_r; lia).
      rewrite (p2_multiple (Z.pos m) f e) in Hlt by lia. apply Qmult_lt_r in Hlt; [|apply p2_pos]. rewrite <- Zlt_Qlt in Hlt.
      pose proof (Z.pow_le_mono_r 2 1 (e - f) ltac:(lia) ltac:(lia)) as P1. change (2 ^ 1)%Z with 2%Z in P1. nia.
Qed.
Lemma closest_even (z z' : F f64) x : closest z x -> closest z' x -> ~ val z == val z' -> Qabs (val z - x) == Qabs (val z' - x) /\ even z = true /\ even z' = true.
Proof.
  intros (Hz & C) (Hz' & C') Hne. destruct (C z' Hz') as (A1 & A2). destruct (C' z Hz) as (B1 & B2).
  assert (E : Qabs (val z - x) == Qabs (val z' - x)) by lra. split; auto. split.
  - destruct (A2 E) as [E'|E']; [exfalso; apply Hne; lra|exact E'].
  - destruct (B2 ltac:(lra)) as [E'|E']; [contradiction|exact E'].
Qed.
Lemma closest_lt (z z' : F f64) x : closest z x -> closest z' x -> 0 <= val z -> ~ val z < val z'.
Proof.
  intros C C' Hp Hlt. destruct (closest_even z z' x C C') as (E & Ev & Ev'); [intros H; lra|]. destruct C as (Hz & C), C' as (Hz' & C').
  destruct (next_between z z' Hz Hz' Hp Ev Hlt) as (w & Hw & W1 & W2 & W3). destruct (C w Hw) as (A & _).
  assert (Hx : 2 * x == val z + val z').
  { revert E. apply Qabs_case; apply Qabs_case; intros; lra. }
  destruct (Qlt_le_dec (val w) (val z')) as [Hl|Hl].
  - revert A. apply Qabs_case; apply Qabs_case; intros; lra.
  - rewrite W3 in Ev' by lra. discriminate.
Qed.
Theorem closest_unique (z z' : F f64) x : closest z x -> closest z' x -> 0 <= val z -> 0 <= val z' -> val z == val z'.
Proof.
  intros C C' P P'. pose proof (closest_lt z z' x C C' P). pose proof (closest_lt z' z x C' C P'). lra.
Qed.

(* ---- what is read as a positive number ---- *)
Definition reads (z : F f64) (y : Q) : Prop := closest z y /\ y < limit.
Lemma reads_eq z x y : x == y -> reads z x -> reads z y.
Proof. intros E ((H1 & H2) & H3). split; [split; auto|lra]. intros z' Hz'. destruct (H2 z' Hz') as (A & B). rewrite <- E. auto. Qed.
Lemma between_far x x' y w : (y <= w /\ w <= x) \/ (x <= w /\ w <= y) -> Qabs (x - y) <= Qabs (x' - y) ->
  Qabs (x - w) <= Qabs (x' - w) /\ (Qabs (x - w) == Qabs (x' - w) -> x' == x \/ (Qabs (x - y) == Qabs (x' - y))).
Proof.
  intros [(H1 & H2)|(H1 & H2)].
  - rewrite (Qabs_pos (x - y)), (Qabs_pos (x - w)) by lra. apply Qabs_case; apply Qabs_case; intros; split; try lra; intros; solve [left; lra|right; lra].
  - rewrite (Qabs_neg (x - y)), (Qabs_neg (x - w)) by lra. apply Qabs_case; apply Qabs_case; intros; split; try lra; intros; solve [left; lra|right; lra].
Qed.
Lemma reads_between z y w : (y <= w /\ w <= val z) \/ (val z <= w /\ w <= y) -> reads z y -> reads z w.
Proof.
  intros H ((Hz & C) & L). split; [split; auto|].
  - intros z' Hz'. destruct (C z' Hz') as (A & B). destruct (between_far (val z) (val z') y w H A) as (T1 & T2). split; auto.
    intros E. destruct (T2 E); auto.
  - pose proof (fin_limit z Hz) as F. pose proof (Qle_Qabs (val z)). lra.
Qed.
Lemma round_reads m e d k : bounded prec64 emax64 m e = true -> (0 <= d)%Z ->
  let z := S754_finite false m e in reads_as z d k = true <-> reads z (inject_Z d * Qpower 10 k).
Proof.
  intros B Hd z. destruct (round_decimal_ok false d k Hd) as (R1 & R2). set (x := inject_Z d * Qpower 10 k) in *. cbn [signed] in R1.
  assert (Hz : is_fin z = true) by exact B. unfold reads_as. split.
  - intros H. assert (E : round_decimal false d k = z).
    { assert (Hs : forall s m' e', round_decimal false d k = S754_finite s m' e' -> s = false).
      { intros s m' e' E. destruct (Qlt_le_dec x limit) as [Hl|Hl]; [|rewrite (R2 Hl) in E; discriminate]. destruct (R1 Hl) as (_ & R). rewrite E in R. exact R. }
      destruct (round_decimal false d k) as [s|s| |s m' e'] eqn:E; try discriminate H. rewrite (Hs s m' e' eq_refl). cbn in H.
      apply andb_prop in H. destruct H as (H1 & H2). apply Pos.eqb_eq in H1. apply Z.eqb_eq in H2. subst. reflexivity. }
    destruct (Qlt_le_dec x limit) as [Hl|Hl]; [|rewrite (R2 Hl) in E; discriminate]. destruct (R1 Hl) as (R & _). rewrite E in R. split; auto. apply nearest_closest. exact R.
  - intros (C & L). destruct (R1 L) as (R & N). apply nearest_closest in R.
    assert (P : 0 <= val (round_decimal false d k)).
    { destruct (round_decimal false d k) as [s|s| |s m' e'] eqn:E; cbn [val]; try lra. cbn [negative] in N. subst s. cbn [signed]. pose proof (fin_pos m' e'). lra. }
    assert (P' : 0 <= val z) by (cbn [z val signed]; pose proof (fin_pos m e); lra).
    pose proof (closest_unique z _ x C R P' P) as E. assert (E' : round_decimal false d k = z).
    { apply val_unique; auto; [exact (proj1 R)|symmetry; exact E]. }
    rewrite E'. cbn. rewrite Pos.eqb_refl, Z.eqb_refl. reflexivity.
Qed.
Lemma reads_self (z : F f64) : is_fin z = true -> 0 <= val z -> reads z (val z).
Proof.
  intros H P. split; [split; auto|].
  - intros z' Hz'. setoid_replace (val z - val z) with 0 by ring. change (Qabs 0) with 0. split; [apply Qabs_nonneg|].
    intros E. left. symmetry in E. revert E. apply Qabs_case; intros; lra.
  - pose proof (fin_limit z H) as F. pose proof (Qle_Qabs (val z)). lra.
Qed.

(* ---- the digits of a whole number ---- *)
Lemma show_nat_length k : forall n, (1 <= n < 2 ^ (Z.of_nat k + 1))%Z ->
  let L := Z.of_nat (List.length (show_nat k n)) in (10 ^ (L - 1) <= n < 10 ^ L)%Z /\ (1 <= L)%Z.
Proof.
  induction k as [|k IH]; intros n Hn; cbn [show_nat].
  - change (2 ^ (Z.of_nat 0 + 1))%Z with 2%Z in Hn. cbn. lia.
  - destruct (Z.ltb_spec n 10) as [H|H]; [cbn; lia|].
    assert (Hq : (1 <= n / 10 < 2 ^ (Z.of_nat k + 1))%Z).
    { split; [apply Z.div_le_lower_bound; lia|]. apply Z.div_lt_upper_bound; [lia|]. replace (Z.of_nat (S k) + 1)%Z with (Z.of_nat k + 1 + 1)%Z in Hn by lia.
      rewrite Z.pow_add_r in Hn by lia. lia. }
    destruct (IH (n / 10)%Z Hq) as ((I1 & I2) & I3). cbv zeta. rewrite app_length. cbn [List.length].
    set (l := Z.of_nat (List.length (show_nat k (n / 10)))) in *. replace (Z.of_nat (List.length (show_nat k (n / 10)) + 1)) with (l + 1)%Z by (unfold l; lia).
    replace (l + 1 - 1)%Z with (l - 1 + 1)%Z by lia. rewrite !Z.pow_add_r by lia. change (10 ^ 1)%Z with 10%Z.
    pose proof (Z.div_mod n 10 ltac:(lia)). pose proof (Z.mod_pos_bound n 10 ltac:(lia)). lia.
Qed.
Lemma show_int_length n : (1 <= n)%Z -> let L := Z.of_nat (List.length (show_int n)) in (10 ^ (L - 1) <= n < 10 ^ L)%Z /\ (1 <= L)%Z.
Proof.
  intros H. unfold show_int. pose proof (Z.log2_spec n ltac:(lia)) as (L1 & L2). pose proof (Z.log2_nonneg n) as L3.
  apply show_nat_length. rewrite Z2Nat.id by lia. lia.
Qed.

(* ---- the search ---- *)
Section Search.
Context (m : positive) (e : Z) (B : bounded prec64 emax64 m e = true).
Let z : F f64 := S754_finite false m e.
Context (d k L : Z) (HL : (1 <= L)%Z) (Hd : (10 ^ (L - 1) <= d < 10 ^ L)%Z) (HX : val z == inject_Z d * p10 k).
Let X := val z.
Let down (j : Z) : Q := inject_Z (d / 10 ^ j) * p10 (k + j).
Let up (j : Z) : Q := inject_Z (d / 10 ^ j + 1) * p10 (k + j).

Lemma z_pos : 0 < X.
Proof. unfold X. cbn [z val signed]. apply fin_pos. Qed.
Lemma down_up j : (0 <= j)%Z -> down j <= X /\ X < up j.
Proof.
  intros Hj. unfold down, up, X. rewrite HX. rewrite !(p10_multiple _ k (k + j)) by lia. replace (k + j - k)%Z with j by lia. pose proof (p10_pos k).
  pose proof (Z.pow_pos_nonneg 10 j ltac:(lia) Hj). pose proof (Z.div_mod d (10 ^ j) ltac:(lia)). pose proof (Z.mod_pos_bound d (10 ^ j) ltac:(lia)). split.
  - apply Qmult_le_r; auto. apply inj_le. lia.
  - apply Qmult_lt_r; auto. apply inj_lt. lia.
Qed.
Lemma d_pos : (1 <= d)%Z.
Proof. pose proof (Z.pow_pos_nonneg 10 (L - 1) ltac:(lia) ltac:(lia)). lia. Qed.
Lemma q_bounds j : (0 <= j <= L)%Z -> (0 <= d / 10 ^ j < 10 ^ (L - j))%Z /\ ((j < L)%Z -> (10 ^ (L - j - 1) <= d / 10 ^ j)%Z).
Proof.
  intros Hj. pose proof (Z.pow_pos_nonneg 10 j ltac:(lia) ltac:(lia)) as Hp. pose proof d_pos. split; [split|].
  - apply Z.div_pos; lia.
  - apply Z.div_lt_upper_bound; [lia|]. rewrite <- Z.pow_add_r by lia. replace (j + (L - j))%Z with L by lia. lia.
  - intros Hl. apply Z.div_le_lower_bound; [lia|]. rewrite <- Z.pow_add_r by lia. replace (j + (L - j - 1))%Z with (L - 1)%Z by lia. lia.
Qed.
Lemma reads_at c j : (0 <= c)%Z -> reads_as z c j = true <-> reads z (inject_Z c * p10 j).
Proof. intros Hc. apply (round_reads m e c j B Hc). Qed.

(* Every decimal of n digits is below [down] or above [up]. *)
Lemma grid c i n : (0 <= c < 10 ^ n)%Z -> (1 <= n <= L)%Z ->
  let y := inject_Z c * p10 i in (y <= X -> y <= down (L - n)) /\ (X < y -> up (L - n) <= y).
Proof.
  intros Hc Hn y. destruct (down_up (L - n) ltac:(lia)) as (D & U). destruct (q_bounds (L - n) ltac:(lia)) as (_ & Q2). specialize (Q2 ltac:(lia)).
  unfold down, up in *. set (K := (k + (L - n))%Z) in *. set (q := (d / 10 ^ (L - n))%Z) in *. pose proof (p10_pos K) as PK.
  destruct (Z.le_gt_cases K i) as [Hi|Hi].
  - unfold y. rewrite (p10_multiple c K i Hi). set (c' := (c * 10 ^ (i - K))%Z). split; intros H; apply Qmult_le_r; auto; apply inj_le.
    + assert (c' < q + 1)%Z; [|lia]. rewrite Zlt_Qlt. apply (Qmult_lt_r _ _ (p10 K)); auto. lra.
    + assert (q < c')%Z; [|lia]. rewrite Zlt_Qlt. apply (Qmult_lt_r _ _ (p10 K)); auto. lra.
  - assert (Hy : y < p10 (k + L - 1)).
    { unfold y. apply Qlt_le_trans with (inject_Z (10 ^ n) * p10 i).
      - apply Qmult_lt_r; [apply p10_pos|]. apply inj_lt. lia.
      - rewrite <- p10_Z by lia. rewrite <- p10_plus. apply p10_le. unfold K in Hi. lia. }
    assert (Hq : p10 (k + L - 1) <= inject_Z q * p10 K).
    { replace (k + L - 1)%Z with (L - (L - n) - 1 + K)%Z by (unfold K; lia). rewrite p10_plus, p10_Z by lia. apply Qmult_le_r; auto. apply inj_le. exact Q2. }
    split; intros; lra.
Qed.

(* What is found. *)
Definition found (r : Z * Z) : Prop := exists j, (0 <= j <= L)%Z /\ snd r = (k + j)%Z /\ (fst r = (d / 10 ^ j)%Z \/ fst r = (d / 10 ^ j + 1)%Z) /\
  reads z (inject_Z (fst r) * p10 (snd r)) /\
  (forall i, (j < i <= L)%Z -> ~ reads z (down i) /\ ~ reads z (up i)) /\
  (reads z (down j) -> Qabs (inject_Z (fst r) * p10 (snd r) - X) <= Qabs (down j - X)) /\
  (reads z (up j) -> Qabs (inject_Z (fst r) * p10 (snd r) - X) <= Qabs (up j - X)) /\
  (reads z (down j) -> reads z (up j) -> Qabs (down j - X) == Qabs (up j - X) -> Z.even (fst r) = true).
Lemma rounded j : (0 < j)%Z -> let r := round_digits d j in
  (r = d / 10 ^ j \/ r = d / 10 ^ j + 1)%Z /\ Qabs (inject_Z r * p10 (k + j) - X) <= Qabs (down j - X) /\ Qabs (inject_Z r * p10 (k + j) - X) <= Qabs (up j - X) /\
  (Qabs (down j - X) == Qabs (up j - X) -> Z.even r = true).
Proof.
  intros Hj. destruct (down_up j ltac:(lia)) as (D & U). cbv zeta. unfold round_digits.
  set (q := (d / 10 ^ j)%Z) in *. set (rm := (d mod 10 ^ j)%Z).
  pose proof (Z.pow_pos_nonneg 10 j ltac:(lia) ltac:(lia)) as Hp. pose proof (Z.div_mod d (10 ^ j) ltac:(lia)) as Hdm. fold q rm in Hdm.
  assert (E1 : X - down j == inject_Z rm * p10 k).
  { unfold X, down. rewrite HX, (p10_multiple _ k (k + j)) by lia. replace (k + j - k)%Z with j by lia. fold q. rewrite Hdm at 1. rewrite inject_Z_plus.
    rewrite (Z.mul_comm (10 ^ j) q). ring. }
  assert (E2 : up j - X == inject_Z (10 ^ j - rm) * p10 k).
  { unfold X, up. rewrite HX, (p10_multiple _ k (k + j)) by lia. replace (k + j - k)%Z with j by lia. fold q.
    replace ((q + 1) * 10 ^ j)%Z with (d + (10 ^ j - rm))%Z by lia. rewrite (inject_Z_plus d). ring. }
  assert (Dn : Qabs (down j - X) == inject_Z rm * p10 k) by (rewrite Qabs_neg by lra; lra).
  assert (Up : Qabs (up j - X) == inject_Z (10 ^ j - rm) * p10 k) by (rewrite Qabs_pos by lra; lra).
  pose proof (p10_pos k) as Pk.
  assert (Hdown : (2 * rm <= 10 ^ j)%Z -> Qabs (down j - X) <= Qabs (up j - X)).
  { intros H. rewrite Dn, Up. apply Qmult_le_r; auto. apply inj_le. lia. }
  assert (Hup : (10 ^ j <= 2 * rm)%Z -> Qabs (up j - X) <= Qabs (down j - X)).
  { intros H. rewrite Dn, Up. apply Qmult_le_r; auto. apply inj_le. lia. }
  assert (Heven : Qabs (down j - X) == Qabs (up j - X) -> (2 * rm = 10 ^ j)%Z).
  { intros H. rewrite Dn, Up in H. apply Qmult_inj_r in H; [|lra]. unfold Qeq in H. cbn in H. lia. }
  assert (Fd : inject_Z q * p10 (k + j) = down j) by reflexivity. assert (Fu : inject_Z (q + 1) * p10 (k + j) = up j) by reflexivity.
  destruct (Z.compare_spec (2 * rm) (10 ^ j)) as [H|H|H].
  - destruct (Z.even q) eqn:Ev; [rewrite Fd|rewrite Fu]; (split; [auto|]).
    + split; [apply Qle_refl|]. split; [apply Hdown; lia|auto].
    + split; [apply Hup; lia|]. split; [apply Qle_refl|]. intros _. rewrite Z.add_1_r, Z.even_succ, <- Z.negb_even, Ev. reflexivity.
  - rewrite Fd. split; auto. split; [apply Qle_refl|]. split; [apply Hdown; lia|]. intros E. apply Heven in E. lia.
  - rewrite Fu. split; auto. split; [apply Hup; lia|]. split; [apply Qle_refl|]. intros E. apply Heven in E. lia.
Qed.
Theorem shorten_found left : (Z.of_nat left <= L)%Z -> (forall i, (Z.of_nat left < i <= L)%Z -> ~ reads z (down i) /\ ~ reads z (up i)) -> found (shorten z d k left).
Proof.
  induction left as [|l IH]; intros Hl Hn; cbn [shorten].
  - exists 0%Z. cbn [fst snd]. split; [lia|]. split; [lia|]. assert (E0 : (d / 10 ^ 0)%Z = d) by (change (10 ^ 0)%Z with 1%Z; apply Z.div_1_r). rewrite E0.
    split; [auto|]. assert (E : inject_Z d * p10 k == X) by (unfold X; rewrite HX; reflexivity). split.
    + apply (reads_eq z X); [symmetry; exact E|]. apply reads_self; [exact B|]. pose proof z_pos. unfold X in *. lra.
    + split; [exact Hn|]. assert (E' : Qabs (inject_Z d * p10 k - X) == 0). { rewrite E. setoid_replace (X - X) with 0 by ring. reflexivity. }
      rewrite E'. split; [intros _; apply Qabs_nonneg|]. split; [intros _; apply Qabs_nonneg|]. intros _ _ Ht. exfalso.
      destruct (down_up 0 ltac:(lia)) as (_ & U). revert Ht. unfold down at 1. rewrite E0, Z.add_0_r, E', Qabs_pos by lra. lra.
  - set (j := Z.of_nat (S l)) in *. destruct (q_bounds j ltac:(lia)) as ((Q1 & _) & _).
    pose proof (reads_at (d / 10 ^ j) (k + j) Q1) as Rd. pose proof (reads_at (d / 10 ^ j + 1) (k + j) ltac:(lia)) as Ru.
    fold (down j) in Rd. fold (up j) in Ru.
    destruct (rounded j ltac:(lia)) as (N1 & N2 & N3 & N4).
    destruct (reads_as z (d / 10 ^ j) (k + j)) eqn:Ed; destruct (reads_as z (d / 10 ^ j + 1) (k + j)) eqn:Eu.
    + exists j. cbn [fst snd]. split; [lia|]. split; auto. split; auto. split; [|auto]. destruct N1 as [->| ->]; [apply Rd|apply Ru]; auto.
    + exists j. cbn [fst snd]. split; [lia|]. split; auto. split; auto. split; [apply Rd; auto|]. split; [auto|]. split; [intros _; apply Qle_refl|]. split; [intros H; apply Ru in H; discriminate|]. intros _ H. apply Ru in H. discriminate.
    + exists j. cbn [fst snd]. split; [lia|]. split; auto. split; auto. split; [apply Ru; auto|]. split; [auto|]. split; [intros H; apply Rd in H; discriminate|]. split; [intros _; apply Qle_refl|]. intros H. apply Rd in H. discriminate.
    + apply IH; [lia|]. intros i Hi. destruct (Z.eq_dec i j) as [->|Hne].
      * split; intros H; [apply Rd in H|apply Ru in H]; discriminate.
      * apply Hn. lia.
Qed.

(* A power of ten above is far away only for the smallest numbers. *)
Lemma found_bound r : found r -> exists j, (0 <= j <= L)%Z /\ snd r = (k + j)%Z /\ (1 <= fst r)%Z /\ (fst r < 10 ^ Z.max 1 (L - j))%Z /\ ((j < L)%Z -> (10 ^ (L - j - 1) <= fst r)%Z) /\ (j = L -> fst r = 1%Z) /\
  (fst r = (d / 10 ^ j)%Z \/ fst r = (d / 10 ^ j + 1)%Z) /\
  (forall i, (j < i <= L)%Z -> ~ reads z (down i) /\ ~ reads z (up i)).
Proof.
  intros (j & Hj & Hk & Hc & Hr & Hn & Hdn & Hup & _). exists j. destruct (q_bounds j Hj) as ((Q1 & Q2) & Q3).
  assert (Hpos : (fst r <> 0)%Z).
  { intros E. rewrite E in Hr. destruct Hr as ((_ & C) & _). destruct (C (S754_zero false) eq_refl) as (A & _). pose proof z_pos as P. unfold X in P. cbn [val] in A.
    change (inject_Z 0) with 0 in A. revert A. setoid_replace (val z - 0 * p10 (snd r)) with (val z) by ring. setoid_replace (0 - 0 * p10 (snd r)) with 0 by ring.
    rewrite (Qabs_pos (val z)) by lra. change (Qabs 0) with 0. lra. }
  assert (Hpos1 : (1 <= fst r)%Z) by lia.
  split; auto. split; auto. split; auto.
  assert (HjL : j = L -> fst r = 1%Z). { intros ->. rewrite Z.sub_diag in Q2. change (10 ^ 0)%Z with 1%Z in Q2. lia. }
  split; [|split; [intros Hl; specialize (Q3 Hl); lia|auto]].
  destruct (Z.eq_dec j L) as [E|E]; [rewrite (HjL E), E, Z.sub_diag; reflexivity|]. rewrite Z.max_r by lia.
  destruct (Z.eq_dec (fst r) (10 ^ (L - j))) as [E'|E']; [|lia]. exfalso. destruct (Hn L ltac:(lia)) as (_ & Hu). apply Hu.
  eapply reads_eq; [|exact Hr]. unfold up. rewrite E', Hk. rewrite (Z.div_small d (10 ^ L)) by (pose proof d_pos; lia). change (inject_Z (0 + 1)) with 1.
  rewrite <- p10_Z by lia. rewrite <- p10_plus. replace (L - j + (k + j))%Z with (k + L)%Z by lia. ring.
Qed.
Theorem found_fewest r c i n : found r -> (0 <= n)%Z -> (0 <= c < 10 ^ n)%Z -> reads z (inject_Z c * p10 i) -> (fst r < 10 ^ n)%Z.
Proof.
  intros Hf Hn0 Hc Hr. destruct (found_bound r Hf) as (j & Hj & Hk & H1 & H2 & H3 & H4 & H5 & H6).
  assert (Hn : (1 <= n)%Z).
  { assert (n <> 0)%Z; [|lia]. intros ->. change (10 ^ 0)%Z with 1%Z in Hc. assert (c = 0)%Z by lia. subst c.
    destruct Hr as ((_ & C) & _). destruct (C (S754_zero false) eq_refl) as (A & _). pose proof z_pos as P. unfold X in P. cbn [val] in A.
    change (inject_Z 0) with 0 in A. revert A. setoid_replace (val z - 0 * p10 i) with (val z) by ring. setoid_replace (0 - 0 * p10 i) with 0 by ring.
    rewrite (Qabs_pos (val z)) by lra. change (Qabs 0) with 0. lra. }
  eapply Z.lt_le_trans; [exact H2|]. apply Z.pow_le_mono_r; [lia|].
  destruct (Z.le_gt_cases (L - j) n) as [Hl|Hl]; [lia|]. exfalso.
  destruct (grid c i n Hc ltac:(lia)) as (G1 & G2). destruct (down_up (L - n) ltac:(lia)) as (D & U). destruct (H6 (L - n)%Z ltac:(lia)) as (N1 & N2).
  destruct (Qlt_le_dec X (inject_Z c * p10 i)) as [Hx|Hx].
  - apply N2. eapply reads_between; [|exact Hr]. right. split; [apply Qlt_le_weak; exact U|]. apply G2; auto.
  - apply N1. eapply reads_between; [|exact Hr]. left. split; [apply G1; auto|exact D].
Qed.

(* A power of ten above is far away only for the smallest numbers, and not even for those. *)
Lemma reads_rounds c i : (0 <= c)%Z -> reads z (inject_Z c * p10 i) -> nearest_even z (inject_Z c * p10 i).
Proof.
  intros Hc H. pose proof (proj2 (reads_at c i Hc) H) as E. destruct H as (_ & L0). destruct (round_decimal_ok false c i Hc) as (R1 & _).
  destruct (R1 L0) as (R2 & R3). cbn [signed] in R2. unfold reads_as in E. destruct (round_decimal false c i) as [s|s| |s m' e'] eqn:Er; try discriminate E.
  cbn [negative] in R3. subst s. cbn in E. apply andb_prop in E. destruct E as (E1 & E2). apply Pos.eqb_eq in E1. apply Z.eqb_eq in E2. subst m' e'. exact R2.
Qed.
Lemma X_bounds : p10 (k + L - 1) <= X /\ X < p10 (k + L).
Proof.
  unfold X. rewrite HX. pose proof (p10_pos k) as P. split.
  - replace (k + L - 1)%Z with (L - 1 + k)%Z by lia. rewrite p10_plus, p10_Z by lia. apply Qmult_le_r; auto. apply inj_le. lia.
  - replace (k + L)%Z with (L + k)%Z by lia. rewrite p10_plus, (p10_Z L) by lia. apply Qmult_lt_r; auto. apply inj_lt. lia.
Qed.
Lemma smallest_powers : p10 (-324) < p2 (-1074) /\ 2 * p2 (-1074) < p10 (-323) /\ p10 (-323) < (21#10) * p2 (-1074) /\ 10 * p2 (-1074) < p10 (-322).
Proof. repeat split; vm_compute; reflexivity. Qed.
Lemma power_near : reads z (p10 (k + L)) -> 19 * p10 (k + L - 1) < 2 * X.
Proof.
  intros H. assert (H1 : reads z (inject_Z 1 * p10 (k + L))) by (eapply reads_eq; [|exact H]; change (inject_Z 1) with 1; ring).
  apply reads_rounds in H1; [|lia]. destruct H1 as (_ & r0 & e0 & _ & R1 & R2 & R3 & _). change (inject_Z 1) with 1 in *. rewrite Qmult_1_l in *.
  fold X in R1. destruct X_bounds as (X1 & X2). set (w := p10 (k + L - 1)) in *.
  assert (Ey : p10 (k + L) == 10 * w) by (replace (k + L)%Z with (1 + (k + L - 1))%Z by lia; rewrite p10_plus; reflexivity).
  pose proof (p10_pos (k + L - 1)) as Pw. fold w in Pw. rewrite Qabs_neg in R1 by lra.
  destruct R3 as [R3|R3].
  - rewrite Qabs_pos in R3 by lra. rewrite p2_plus in R3. change (p2 52) with (4503599627370496#1) in R3. lra.
  - subst e0. destruct smallest_powers as (S1 & S2 & S3 & S4). set (t := p2 (-1074)) in *. pose proof (p2_pos (-1074)) as Pt. fold t in Pt.
    destruct (Qlt_le_dec (10 * t) (p10 (k + L))) as [Hs|Hs]; [lra|].
    destruct (fin_canonical _ _ B) as (_ & F2 & F3).
    assert (Xt : X == inject_Z (Z.pos m * 2 ^ (e - -1074)) * t) by (unfold X; cbn [z val signed]; apply p2_multiple; lia).
    pose proof (Z.pow_pos_nonneg 2 (e - -1074) ltac:(lia) ltac:(lia)) as Pe. set (n := (Z.pos m * 2 ^ (e - -1074))%Z) in *.
    assert (Hn : (1 <= n)%Z) by (unfold n; nia). pose proof (inj_le 1 n Hn) as Hn'. change (inject_Z 1) with 1 in Hn'.
    assert (HM : (k + L = -323)%Z).
    { destruct (Z.lt_trichotomy (k + L) (-323)) as [HM|[HM|HM]]; auto; exfalso.
      - pose proof (p10_le (k + L) (-324) ltac:(lia)). nra.
      - pose proof (p10_le (-322) (k + L) ltac:(lia)). lra. }
    rewrite HM in *. assert (Hn2 : (n = 1 \/ n = 2 \/ 3 <= n)%Z) by lia. destruct Hn2 as [Hn2|[Hn2|Hn2]].
    + exfalso. rewrite Hn2 in Xt. change (inject_Z 1) with 1 in Xt. lra.
    + rewrite Hn2 in Xt. change (inject_Z 2) with 2 in Xt. lra.
    + exfalso. apply inj_le in Hn2. change (inject_Z 3) with 3 in Hn2. nra.
Qed.
Theorem found_closest r c i n : found r -> (10 ^ (n - 1) <= fst r)%Z -> (0 <= c < 10 ^ n)%Z -> reads z (inject_Z c * p10 i) ->
  Qabs (inject_Z (fst r) * p10 (snd r) - X) <= Qabs (inject_Z c * p10 i - X) /\
  (Qabs (inject_Z c * p10 i - X) <= Qabs (inject_Z (fst r) * p10 (snd r) - X) -> inject_Z c * p10 i == inject_Z (fst r) * p10 (snd r) \/ Z.even (fst r) = true).
Proof.
  intros Hf Hn Hc Hr. pose proof Hf as Hf0. destruct Hf0 as (j & Hj & Hk & Hq & Hrr & Hno & Hdn & Hup & Hev).
  destruct (found_bound r Hf) as (j' & Hj' & Hk' & H1 & H2 & H3 & H4 & _). assert (j' = j) by lia. subst j'.
  assert (Hn1 : (n <= Z.max 1 (L - j))%Z). { assert (n - 1 < Z.max 1 (L - j))%Z; [|lia]. apply (Z.pow_lt_mono_r_iff 10); try lia. }
  assert (Hc1 : (0 <= c < 10 ^ Z.max 1 (L - j))%Z). { split; [lia|]. eapply Z.lt_le_trans; [apply Hc|]. apply Z.pow_le_mono_r; lia. }
  destruct (grid c i (Z.max 1 (L - j)) Hc1 ltac:(lia)) as (G1 & G2).
  assert (Hbr : forall w, ((inject_Z c * p10 i <= w /\ w <= X) \/ (X <= w /\ w <= inject_Z c * p10 i)) -> reads z w) by (intros w Hw; eapply reads_between; [exact Hw|exact Hr]).
  destruct (Z.eq_dec j L) as [E|E].
  - subst j. rewrite Z.sub_diag, Z.max_l in * by lia. rewrite (H4 eq_refl), Hk in *. change (inject_Z 1) with 1 in *. rewrite Qmult_1_l in *.
    assert (Hr1 : reads z (p10 (k + L))) by (eapply reads_eq; [|exact Hrr]; ring).
    pose proof (power_near Hr1) as Pn. destruct X_bounds as (X1 & X2). destruct (down_up (L - 1) ltac:(lia)) as (D & U).
    assert (Ey : p10 (k + L) == 10 * p10 (k + L - 1)) by (replace (k + L)%Z with (1 + (k + L - 1))%Z at 1 by lia; rewrite p10_plus; reflexivity).
    unfold down, up in *. replace (k + (L - 1))%Z with (k + L - 1)%Z in * by lia. set (w := p10 (k + L - 1)) in *. pose proof (p10_pos (k + L - 1)) as Pw. fold w in Pw.
    destruct (q_bounds (L - 1) ltac:(lia)) as ((Q1 & Q2) & _). replace (L - (L - 1))%Z with 1%Z in Q2 by lia. change (10 ^ 1)%Z with 10%Z in Q2.
    set (q := (d / 10 ^ (L - 1))%Z) in *.
    assert (Hq9 : (q = 9)%Z).
    { assert (8 < q)%Z; [|lia]. rewrite Zlt_Qlt. change (inject_Z 8) with 8. rewrite inject_Z_plus in U. change (inject_Z 1) with 1 in U. nra. }
    rewrite Hq9 in *. change (inject_Z 9) with 9 in *. change (inject_Z (9 + 1)) with 10 in *. rewrite (Qabs_pos (p10 (k + L) - X)) by lra.
    destruct (Qlt_le_dec X (inject_Z c * p10 i)) as [Hx|Hx].
    + specialize (G2 Hx). rewrite Qabs_pos by lra. split; [lra|]. intros Ht. left. lra.
    + specialize (G1 Hx). rewrite Qabs_neg by lra. split; [lra|]. intros Ht. exfalso. lra.
  - rewrite Z.max_r in * by lia. replace (L - (L - j))%Z with j in * by lia. destruct (down_up j ltac:(lia)) as (D & U).
    destruct (Qlt_le_dec X (inject_Z c * p10 i)) as [Hx|Hx].
    + specialize (G2 Hx). pose proof (Hbr (up j) ltac:(right; split; lra)) as Ru. specialize (Hup Ru). rewrite (Qabs_pos (inject_Z c * p10 i - X)) by lra.
      assert (Eu : Qabs (up j - X) == up j - X) by (apply Qabs_pos; lra). split; [lra|]. intros Ht.
      destruct Hq as [Hq|Hq]; rewrite Hk in *; [right|left; rewrite Hq; fold (up j); lra]. rewrite Hq in *. fold (down j) in *. apply Hev; auto. lra.
    + specialize (G1 Hx). pose proof (Hbr (down j) ltac:(left; split; lra)) as Rd. specialize (Hdn Rd). rewrite (Qabs_neg (inject_Z c * p10 i - X)) by lra.
      assert (Ed : Qabs (down j - X) == X - down j) by (rewrite Qabs_neg by lra; lra). split; [lra|]. intros Ht.
      destruct Hq as [Hq|Hq]; rewrite Hk in *; [left; rewrite Hq; fold (down j); lra|right]. rewrite Hq in *. fold (up j) in *. apply Hev; auto. lra.
Qed.

(* ---- seventeen digits are enough ---- *)
Lemma gap (z' : F f64) : is_fin z' = true -> ~ val z' == X -> X * p2 (-53) <= Qabs (val z' - X).
Proof.
  intros Hz' Hne. destruct (fin_canonical _ _ B) as (C1 & C2 & C3). destruct (digits_Z (Z.pos m)) as ((D1 & D2) & D3); [lia|].
  assert (Hm : (Z.pos m < 2 ^ 53)%Z) by (eapply Z.lt_le_trans; [exact D2|]; apply Z.pow_le_mono_r; lia).
  assert (EX : X = inject_Z (Z.pos m) * p2 e) by reflexivity. pose proof (p2_pos e) as Pe.
  assert (E53 : p2 (-53) == 1 # 9007199254740992) by reflexivity.
  destruct (fin_parts z' Hz') as (r' & e' & V & R & E'). rewrite EX in *. rewrite V in *. destruct (Z.le_gt_cases e e') as [Hc|Hc].
  - rewrite (p2_multiple r' e e' Hc) in *. set (i := (r' * 2 ^ (e' - e))%Z) in *.
    assert (Hi : i <> Z.pos m) by (intros E; apply Hne; rewrite E; reflexivity).
    apply inj_lt in Hm. change (inject_Z (2 ^ 53)) with 9007199254740992 in Hm. rewrite E53. apply Qle_trans with (p2 e); [nra|].
    destruct (Z.lt_ge_cases i (Z.pos m)) as [Hl|Hl].
    + pose proof (inj_le (i + 1) (Z.pos m) ltac:(lia)) as H. rewrite inject_Z_plus in H. change (inject_Z 1) with 1 in H. rewrite Qabs_neg by nra. nra.
    + pose proof (inj_le (Z.pos m + 1) i ltac:(lia)) as H. rewrite inject_Z_plus in H. change (inject_Z 1) with 1 in H. rewrite Qabs_pos by nra. nra.
  - assert (Hd53 : (Zdigits2 (Z.pos m) = 53)%Z) by lia. rewrite Hd53 in D1. change (2 ^ (53 - 1))%Z with 4503599627370496%Z in D1. change (2 ^ 53)%Z with 9007199254740992%Z in *.
    apply inj_le in D1. change (inject_Z 4503599627370496) with 4503599627370496 in D1. apply inj_lt in Hm. change (inject_Z 9007199254740992) with 9007199254740992 in Hm.
    assert (Hz : inject_Z r' * p2 e' <= 9007199254740991 * ((1#2) * p2 e)).
    { rewrite half_p2. apply Qle_trans with (9007199254740991 * p2 e').
      - apply Qmult_le_r; [apply p2_pos|]. pose proof (inj_le r' 9007199254740991 ltac:(lia)) as H. exact H.
      - pose proof (p2_le e' (e - 1) ltac:(lia)). lra. }
    rewrite E53. rewrite Qabs_neg by nra. nra.
Qed.
Lemma near_reads y : Qabs (y - X) < X * p2 (-54) -> reads z y.
Proof.
  intros H. pose proof z_pos as P. split; [split; [exact B|]|].
  - intros z' Hz'. destruct (Qeq_dec (val z') X) as [E|E]; [split; [fold X; rewrite E; apply Qle_refl|intros _; left; exact E]|].
    pose proof (gap z' Hz' E) as G. assert (E54 : p2 (-53) == 2 * p2 (-54)) by reflexivity. rewrite E54 in G.
    assert (Hlt : Qabs (X - y) < Qabs (val z' - y)).
    { pose proof (Qabs_triangle (val z' - y) (y - X)) as T. setoid_replace (val z' - y + (y - X)) with (val z' - X) in T by ring.
      rewrite (Qabs_Qminus X y). lra. }
    fold X. split; [lra|]. intros E'. lra.
  - destruct (fin_canonical _ _ B) as (C1 & C2 & C3). destruct (digits_Z (Z.pos m)) as ((D1 & D2) & D3); [lia|].
    assert (Hm : (Z.pos m < 2 ^ 53)%Z) by (eapply Z.lt_le_trans; [exact D2|]; apply Z.pow_le_mono_r; lia).
    assert (HXm : X <= 9007199254740991 * p2 971).
    { unfold X. cbn [z val signed]. apply Qle_trans with (9007199254740991 * p2 e).
      - apply Qmult_le_r; [apply p2_pos|]. change (2 ^ 53)%Z with 9007199254740992%Z in Hm. pose proof (inj_le (Z.pos m) 9007199254740991 ltac:(lia)) as H'. exact H'.
      - pose proof (p2_le e 971 ltac:(lia)). lra. }
    pose proof (Qle_Qabs (y - X)). rewrite limit_alt. change (inject_Z (2 ^ 53)) with 9007199254740992. pose proof (p2_pos 971) as P9. set (t := p2 971) in *.
    assert (E54 : p2 (-54) == 1 # 18014398509481984) by reflexivity. rewrite E54 in H. lra.
Qed.
Theorem found_seventeen r : found r -> (fst r < 10 ^ 17)%Z.
Proof.
  intros Hf. destruct (found_bound r Hf) as (j & Hj & Hk & H1 & H2 & H3 & H4 & H5 & H6).
  eapply Z.lt_le_trans; [exact H2|]. apply Z.pow_le_mono_r; [lia|].
  destruct (Z.le_gt_cases (L - j) 17) as [Hl|Hl]; [lia|]. exfalso. set (j0 := (L - 17)%Z). destruct (H6 j0 ltac:(unfold j0; lia)) as (N1 & N2).
  destruct (down_up j0 ltac:(unfold j0; lia)) as (D & U). destruct X_bounds as (X1 & _).
  assert (Ew : p10 (k + L - 1) == 10000000000000000 * p10 (k + j0)).
  { replace (k + L - 1)%Z with (16 + (k + j0))%Z by (unfold j0; lia). rewrite p10_plus. reflexivity. }
  assert (Eu : up j0 == down j0 + p10 (k + j0)). { unfold up, down. rewrite inject_Z_plus. change (inject_Z 1) with 1. ring. }
  pose proof (p10_pos (k + j0)) as P. set (w := p10 (k + j0)) in *. assert (E54 : p2 (-54) == 1 # 18014398509481984) by reflexivity.
  destruct (Qlt_le_dec ((1#2) * w) (X - down j0)) as [Hx|Hx].
  - apply N2. apply near_reads. rewrite E54. rewrite Qabs_pos by lra. lra.
  - apply N1. apply near_reads. rewrite E54. rewrite Qabs_neg by lra. lra.
Qed.
End Search.

(* ---- all of it ---- *)
Lemma exact_decimal_ok m e : let '(d, k) := exact_decimal m e in (1 <= d)%Z /\ val (S754_finite false m e) == inject_Z d * p10 k.
Proof.
  unfold exact_decimal. destruct (Z.leb_spec 0 e) as [He|He].
  - pose proof (Z.pow_pos_nonneg 2 e ltac:(lia) He). split; [nia|]. cbn [val signed]. rewrite inject_Z_mult, <- (p2_Z e) by lia. change (p10 0) with 1. ring.
  - pose proof (Z.pow_pos_nonneg 5 (- e) ltac:(lia) ltac:(lia)). split; [nia|]. cbn [val signed]. rewrite inject_Z_mult.
    rewrite (Zpower_Qpower 5 (- e)) by lia. change (inject_Z 5) with (5 # 1). unfold p10. change (10 # 1) with ((2 # 1) * (5 # 1)). rewrite Qmult_power, Qpower_opp. unfold p2. field.
    apply Qpower_not_0. discriminate.
Qed.
Theorem shortest_ok m e : bounded prec64 emax64 m e = true -> let z : F f64 := S754_finite false m e in let r := shortest m e in
  (1 <= fst r < 10 ^ 17)%Z /\ reads z (inject_Z (fst r) * p10 (snd r)) /\
  (forall c i n, (0 <= n)%Z -> (0 <= c < 10 ^ n)%Z -> reads z (inject_Z c * p10 i) ->
     (fst r < 10 ^ n)%Z /\ ((10 ^ (n - 1) <= fst r)%Z -> Qabs (inject_Z (fst r) * p10 (snd r) - val z) <= Qabs (inject_Z c * p10 i - val z) /\
       (Qabs (inject_Z c * p10 i - val z) <= Qabs (inject_Z (fst r) * p10 (snd r) - val z) -> inject_Z c * p10 i == inject_Z (fst r) * p10 (snd r) \/ Z.even (fst r) = true))).
Proof.
  intros B z. unfold shortest. pose proof (exact_decimal_ok m e) as E. destruct (exact_decimal m e) as [d k]. destruct E as (Hd & HX).
  destruct (show_int_length d Hd) as (H1 & H2). cbv zeta. set (n0 := List.length (show_int d)) in *. set (L := Z.of_nat n0) in *.
  assert (Hf : found m e d k L (shorten (S754_finite false m e) d k n0)).
  { apply (shorten_found m e B d k L H2 H1 HX); [lia|]. intros i Hi. lia. }
  set (r := shorten _ d k n0) in *. fold z in Hf. 
  destruct (found_bound m e d k L H2 H1 r Hf) as (j & _ & _ & P1 & _). split; [|split].
  - split; auto. exact (found_seventeen m e B d k L H2 H1 HX r Hf).
  - destruct Hf as (j' & _ & _ & _ & Hr & _). exact Hr.
  - intros c i n Hn Hc Hr. split; [exact (found_fewest m e d k L H2 H1 HX r c i n Hf Hn Hc Hr)|]. intros Hl. exact (found_closest m e B d k L H2 H1 HX r c i n Hf Hl Hc Hr).
Qed.
