(* Rounding over the whole range, and what is closest. *)
From Coq Require Import ZArith QArith Qabs Qpower SpecFloat Lia Lqa Setoid Morphisms.
From Verif Require Import Base Num FloatSpec FloatRound FloatOps TextNumSpec.
Local Open Scope Q_scope.

Lemma inj_le a b : (a <= b)%Z -> inject_Z a <= inject_Z b.
Proof. intros. rewrite <- Zle_Qle. auto. Qed.
Lemma inj_lt a b : (a < b)%Z -> inject_Z a < inject_Z b.
Proof. intros. rewrite <- Zlt_Qlt. auto. Qed.
Lemma inj_same a b : inject_Z a == inject_Z b -> a = b.
Proof. intros H. apply (proj1 (inject_Z_injective a b) H). Qed.
Lemma limit_alt : limit == (inject_Z (2 ^ 53) - (1#2)) * p2 971.
Proof. unfold limit. change 971%Z with (970 + 1)%Z. rewrite p2_1. setoid_replace (inject_Z (2 ^ 54 - 1)) with (2 * (inject_Z (2 ^ 53) - (1#2))) by reflexivity. ring. Qed.
Lemma limit_1023 : inject_Z (2 ^ 53) * p2 970 < limit.
Proof. unfold limit. apply Qmult_lt_r; [apply p2_pos|]. reflexivity. Qed.
Lemma limit_1024 : limit < inject_Z (2 ^ 52) * p2 972.
Proof.
  unfold limit. change 972%Z with (970 + 2)%Z. rewrite p2_plus. change (p2 2) with 4. rewrite (Qmult_comm (p2 970)), Qmult_assoc.
  apply Qmult_lt_r; [apply p2_pos|]. reflexivity.
Qed.

(* Nearest, and even if it is just between two. *)
Definition nearest_even (z : F f64) (x : Q) : Prop :=
  is_fin z = true /\ exists r e, val z == inject_Z r * p2 e /\ Qabs (val z - x) <= (1#2) * p2 e /\
    (-1074 <= e)%Z /\ (p2 (52 + e) <= Qabs x \/ e = (-1074)%Z) /\ (Qabs (val z - x) == (1#2) * p2 e -> even z = true).
Lemma rne_even k e x : (0 <= shr_m k)%Z -> stands k e x -> let r := round_nearest_even (shr_m k) (loc_of_shr_record k) in
  Qabs (inject_Z r * p2 e - x) == (1#2) * p2 e -> Z.even r = true.
Proof.
  intros Hk (f & Hf & Hx). pose proof (p2_pos e) as Hp. cbv zeta.
  destruct k as [m [|] [|]]; cbn [shr_m shr_r shr_s loc_of_shr_record round_nearest_even frac] in *; rewrite Hx.
  - intros H. exfalso. rewrite inject_Z_plus in H. change (inject_Z 1) with 1 in H. rewrite Qabs_pos in H by nra. nra.
  - intros _. destruct (Z.even m) eqn:Em; auto. rewrite Z.even_add, Em. reflexivity.
  - intros H. exfalso. rewrite Qabs_neg in H by nra. nra.
  - intros H. exfalso. setoid_replace (inject_Z m * p2 e - (inject_Z m + f) * p2 e) with 0 in H by (rewrite Hf; ring). change (Qabs 0) with 0 in H. nra.
Qed.
Lemma shifted_even r e1 m2 e2 : (e1 <= e2 <= e1 + 1)%Z -> inject_Z m2 * p2 e2 == inject_Z r * p2 e1 -> (0 <= r <= 2 ^ 53)%Z -> fexp64 (Zdigits2 m2 + e2) = e2 -> (0 <= m2)%Z ->
  (-1074 <= e1)%Z -> Z.even r = true -> Z.even m2 = true.
Proof.
  intros He E Hr Hf Hm H1 Hev. pose proof (p2_pos e1) as Hp. destruct (Z.eq_dec e2 e1) as [->|Hne].
  - apply Qmult_inj_r in E; [|intros C; rewrite C in Hp; lra]. apply inj_same in E. congruence.
  - assert (e2 = e1 + 1)%Z as -> by lia. rewrite p2_1 in E. rewrite Qmult_assoc in E. apply Qmult_inj_r in E; [|intros C; rewrite C in Hp; lra].
    change 2 with (inject_Z 2) in E. rewrite <- inject_Z_mult in E. apply inj_same in E.
    rewrite fexp_eq in Hf. assert (D : (Zdigits2 m2 = 53)%Z) by lia. assert (0 < m2)%Z by (destruct m2; cbn in *; lia).
    destruct (digits_Z m2) as ((D1 & D2) & _); [lia|]. rewrite D in D1. change (2 ^ (53 - 1))%Z with (2 ^ 52)%Z in D1. assert (m2 = 2 ^ 52)%Z as -> by lia. reflexivity.
Qed.
Theorem round_full s m e l x : (0 <= m)%Z -> stands (shr_record_of_loc m l) e x -> (e <= fexp64 (Zdigits2 m + e))%Z ->
  (x < limit -> nearest_even (binary_round_aux prec64 emax64 s m e l) (signed s x) /\
                (binary_round_aux prec64 emax64 s m e l = S754_zero s \/ exists m' e', binary_round_aux prec64 emax64 s m e l = S754_finite s m' e')) /\
  (limit <= x -> binary_round_aux prec64 emax64 s m e l = S754_infinity s).
Proof.
  intros Hm Hs He. unfold binary_round_aux.
  destruct (first_shift m e l x Hm Hs He) as (k1 & e1 & -> & H1 & H2 & H3 & H4).
  destruct (rne_near k1 e1 x ltac:(lia) H1) as (R1 & R2). pose proof (rne_even k1 e1 x ltac:(lia) H1) as R5. cbv zeta in R5.
  assert (Hodd : e1 = 971%Z -> limit <= x -> round_nearest_even (shr_m k1) (loc_of_shr_record k1) = (2 ^ 53)%Z).
  { intros -> Hx. destruct H1 as (f & Hf & Hxf). rewrite limit_alt, Hxf in Hx. apply Qmult_le_r in Hx; [|apply p2_pos].
    pose proof (frac_bounds _ _ _ Hf) as (F1 & F2).
    assert (Hk : shr_m k1 = (2 ^ 53 - 1)%Z).
    { assert (2 ^ 53 - 2 < shr_m k1)%Z; [|lia]. rewrite Zlt_Qlt. change (inject_Z (2 ^ 53 - 2)) with (inject_Z (2 ^ 53) - 2). lra. }
    rewrite Hk in *. change (inject_Z (2 ^ 53 - 1)) with (inject_Z (2 ^ 53) - 1) in Hx.
    destruct k1 as [m1 [|] [|]]; cbn [shr_m shr_r shr_s frac] in *; cbn [loc_of_shr_record]; try reflexivity; exfalso; lra. }
  set (r := round_nearest_even _ _) in *. clearbody r.
  destruct (second_shift r e1) as (m2 & e2 & -> & S1 & S2 & S3 & S4); [lia|lia|destruct H4; [left; lia|auto]|].
  cbn [shr_m].
  assert (Hf0 : exists f, 0 <= f /\ f < 1 /\ x == (inject_Z (shr_m k1) + f) * p2 e1).
  { destruct H1 as (f & Hf & Hxf). apply frac_bounds in Hf. exists f. tauto. }
  destruct Hf0 as (f & F1 & F2 & Hxf). pose proof (p2_pos e1) as Hp1.
  assert (Hk0 : 0 <= inject_Z (shr_m k1)) by (apply (inj_le 0); lia).
  assert (Hxp : 0 <= x) by (rewrite Hxf; nra).
  (* which exponents are too large *)
  assert (Hr53 : e1 = 971%Z -> (e2 <= 971)%Z <-> r <> (2 ^ 53)%Z).
  { intros ->. split.
    - intros Hle ->. assert (e2 = 971)%Z by lia. subst e2. apply Qmult_inj_r in S1; [|intros C; rewrite C in Hp1; lra].
      apply inj_same in S1. rewrite S1 in S4. rewrite fexp_eq in S4. change (Zdigits2 (2 ^ 53)) with 54%Z in S4. lia.
    - intros Hne. destruct (Z.eq_dec e2 972) as [->|]; [|lia]. exfalso. change 972%Z with (971 + 1)%Z in S1. rewrite p2_1 in S1.
      rewrite Qmult_assoc in S1. apply Qmult_inj_r in S1; [|intros C; rewrite C in Hp1; lra].
      change 2 with (inject_Z 2) in S1. rewrite <- inject_Z_mult in S1. apply inj_same in S1.
      rewrite fexp_eq in S4. assert (Zdigits2 m2 = 53)%Z by lia. assert (0 < m2)%Z by (destruct m2; cbn in *; lia).
      destruct (digits_Z m2) as ((D1 & D2) & _); [lia|]. rewrite H in D1. change (2 ^ (53 - 1))%Z with (2 ^ 52)%Z in D1. lia. }
  assert (Hlow : (e1 <= 970)%Z -> x < limit).
  { intros Hle. apply Qle_lt_trans with (inject_Z (2 ^ 53) * p2 970); [|apply limit_1023].
    rewrite Hxf. apply Qle_trans with (inject_Z (2 ^ 53) * p2 e1).
    - apply Qmult_le_r; auto. pose proof (inj_le (shr_m k1 + 1) (2 ^ 53) ltac:(lia)) as Hi. rewrite inject_Z_plus in Hi. change (inject_Z 1) with 1 in Hi. lra.
    - pose proof (p2_le e1 970 Hle). assert (0 < inject_Z (2 ^ 53)) by reflexivity. nra. }
  assert (Hhigh : (972 <= e1)%Z -> limit <= x).
  { intros Hge. apply Qlt_le_weak. eapply Qlt_le_trans; [apply limit_1024|]. destruct H4 as [H4|H4]; [|lia].
    rewrite Hxf. pose proof (p2_le 972 e1 Hge). pose proof (inj_le _ _ H4). assert (0 < inject_Z (2 ^ 52)) by reflexivity. nra. }
  assert (Hm2 : (971 <= e1)%Z -> (0 < m2)%Z).
  { intros Hge. destruct H4 as [H4|H4]; [|lia]. assert (m2 <> 0)%Z; [|lia]. intros ->.
    change (inject_Z 0) with 0 in S1. rewrite Qmult_0_l in S1. pose proof (inj_lt 0 r ltac:(lia)) as Hr. change (inject_Z 0) with 0 in Hr. nra. }
  split.
  - intros Hx.
    assert (He2 : (e2 <= 971)%Z).
    { destruct (Z.le_gt_cases e1 970); [lia|]. destruct (Z.le_gt_cases 972 e1) as [Hc|Hc]; [specialize (Hhigh Hc); lra|].
      assert (e1 = 971)%Z by lia. apply Hr53; auto. intros Hr. rewrite Hr in R2. subst e1. apply Qabs_Qle_condition in R2. rewrite limit_alt in Hx. nra. }
    assert (Habs : Qabs (signed s x) == x) by (destruct s; cbn [signed]; [rewrite Qabs_opp|]; apply Qabs_pos; auto).
    assert (H52 : (2 ^ 52 <= shr_m k1)%Z -> p2 (52 + e1) <= x).
    { intros H. rewrite p2_plus, (p2_Z 52) by lia. rewrite Zle_Qle in H. rewrite Hxf. nra. }
    assert (Hend : forall z, is_fin z = true -> val z == signed s (inject_Z m2 * p2 e2) -> even z = Z.even m2 -> nearest_even z (signed s x)).
    { intros z Hf Hz Hev. split; auto. exists (if s then - r else r)%Z, e1.
      assert (Hz' : val z == signed s (inject_Z r * p2 e1)). { rewrite Hz. destruct s; cbn [signed]; rewrite S1; reflexivity. }
      split; [rewrite Hz'; destruct s; cbn [signed]; [rewrite inject_Z_opp; ring|reflexivity]|].
      split; [rewrite Hz', signed_abs; exact R2|]. split; [exact H3|]. split; [rewrite Habs; destruct H4; auto|].
      rewrite Hz', signed_abs. intros Ht. rewrite Hev. apply (shifted_even r e1 m2 e2); auto; try lia. }
    destruct m2 as [|p|p]; [| |lia].
    + split; [|auto]. apply Hend; [reflexivity| |reflexivity]. cbn [val]. change (inject_Z 0) with 0. destruct s; cbn [signed]; ring.
    + change (emax64 - prec64)%Z with 971%Z. destruct (Z.leb_spec e2 971); [|lia]. split; [|eauto]. apply Hend; [|reflexivity|reflexivity].
      cbn [is_fin]. unfold bounded, canonical_mantissa. apply andb_true_intro. split.
      * apply Zeq_is_eq_bool. exact S4.
      * apply Z.leb_le. exact He2.
  - intros Hx. assert (He1 : (971 <= e1)%Z). { apply Z.nlt_ge. intros Hc. specialize (Hlow ltac:(lia)). lra. }
    specialize (Hm2 He1). destruct m2 as [|p|p]; [lia| |lia]. change (emax64 - prec64)%Z with 971%Z. destruct (Z.leb_spec e2 971) as [Hc|Hc]; [|reflexivity].
    exfalso. assert (e1 = 971)%Z by lia. apply Hr53 in Hc; auto.
Qed.

(* The quotient of two whole numbers. *)
Theorem div_core M n : (0 < M)%Z -> (0 < n)%Z -> let '(q, e', l) := SFdiv_core_binary prec64 emax64 M 0 n 0 in
  (0 <= q)%Z /\ stands (shr_record_of_loc q l) e' (inject_Z M / inject_Z n) /\ (e' <= fexp64 (Zdigits2 q + e'))%Z.
Proof.
  intros HM Hn. unfold SFdiv_core_binary.
  destruct (digits_Z M) as ((A1 & A2) & A3); [lia|]. destruct (digits_Z n) as ((B1 & B2) & B3); [lia|].
  set (dm := Zdigits2 M) in *. set (dn := Zdigits2 n) in *.
  set (e' := Z.min (fexp64 (dm + 0 - (dn + 0))) (0 - 0)). assert (Hk : (0 <= 0 - 0 - e')%Z) by lia. set (k := (0 - 0 - e')%Z) in *.
  assert (Hm' : match k with Z0 => M | Z.pos _ => Z.shiftl M k | Z.neg _ => 0%Z end = (M * 2 ^ k)%Z).
  { destruct k as [|p|p]; [lia| |lia]. apply Z.shiftl_mul_pow2. lia. }
  rewrite Hm'. pose proof (Z_div_mod (M * 2 ^ k) n ltac:(lia)) as Hd.
  destruct (Z.div_eucl (M * 2 ^ k) n) as [q r]. destruct Hd as (Hd1 & Hd2).
  assert (Hn0 : 0 < inject_Z n) by (apply (inj_lt 0); lia).
  assert (Hv : (inject_Z q + inject_Z r / inject_Z n) * p2 e' == inject_Z M / inject_Z n).
  { assert (Hq : inject_Z q * inject_Z n + inject_Z r == inject_Z M * p2 k).
    { rewrite (p2_Z k) by lia. rewrite <- !inject_Z_mult, <- inject_Z_plus. rewrite Hd1. rewrite (Z.mul_comm q). reflexivity. }
    assert (He : p2 k * p2 e' == 1). { rewrite <- !p2_plus. replace (k + e')%Z with 0%Z by lia. reflexivity. }
    setoid_replace (inject_Z q + inject_Z r / inject_Z n) with ((inject_Z q * inject_Z n + inject_Z r) / inject_Z n) by (field; lra).
    rewrite Hq. setoid_replace (inject_Z M * p2 k / inject_Z n * p2 e') with (inject_Z M / inject_Z n * (p2 k * p2 e')) by (field; lra). rewrite He. ring. }
  assert (Hp : (0 < 2 ^ k)%Z) by (apply Z.pow_pos_nonneg; lia).
  assert (Hq0 : (0 <= q)%Z) by nia.
  split; [exact Hq0|]. split; [eapply stands_eq; [exact Hv|apply location_stands; lia]|].
  assert (Hdq : (dm + k - dn <= Zdigits2 q)%Z).
  { destruct (Z.le_gt_cases (dm + k - dn) 0); [destruct (Z.eq_dec q 0) as [->|]; [change (Zdigits2 0) with 0%Z; lia|destruct (digits_Z q); lia]|].
    assert (dm + k - dn - 1 < Zdigits2 q)%Z; [|lia]. apply digits_ge; [lia|].
    assert (2 ^ (dm + k - dn - 1) * n < (q + 1) * n)%Z; [|nia].
    eapply Z.lt_le_trans with (2 ^ (dm + k - dn - 1) * 2 ^ dn)%Z; [pose proof (Z.pow_pos_nonneg 2 (dm + k - dn - 1)); nia|].
    rewrite <- Z.pow_add_r by lia. replace (dm + k - dn - 1 + dn)%Z with (dm - 1 + k)%Z by lia. rewrite Z.pow_add_r by lia. nia. }
  assert (He' : (e' <= Z.max (dm + 0 - (dn + 0) - 53) (-1074))%Z) by (unfold e'; rewrite fexp_eq; lia). rewrite fexp_eq. lia.
Qed.

(* ---- what is nearest is closest ---- *)
Lemma multiple_far i j e x : Qabs (inject_Z i * p2 e - x) <= (1#2) * p2 e -> Qabs (inject_Z i * p2 e - x) <= Qabs (inject_Z j * p2 e - x).
Proof.
  intros H. destruct (Z.eq_dec i j) as [->|Hn]; [apply Qle_refl|]. pose proof (p2_pos e) as Hp.
  apply Qle_trans with ((1#2) * p2 e); auto. apply Qabs_Qle_condition in H. destruct H as (H1 & H2).
  destruct (Z.lt_ge_cases i j) as [Hl|Hl].
  - apply Qle_trans with (inject_Z j * p2 e - x); [|apply Qle_Qabs]. pose proof (inj_le (i + 1) j ltac:(lia)) as Hi.
    rewrite inject_Z_plus in Hi. change (inject_Z 1) with 1 in Hi. nra.
  - apply Qle_trans with (- (inject_Z j * p2 e - x)); [|rewrite <- Qabs_opp; apply Qle_Qabs]. pose proof (inj_le (j + 1) i ltac:(lia)) as Hi.
    rewrite inject_Z_plus in Hi. change (inject_Z 1) with 1 in Hi. nra.
Qed.
Lemma fin_parts (z : F f64) : is_fin z = true -> exists r e, val z == inject_Z r * p2 e /\ (Z.abs r < 2 ^ 53)%Z /\ (-1074 <= e)%Z.
Proof.
  destruct z as [s|s| |s m e]; try discriminate; intros H.
  - exists 0%Z, 0%Z. split; [reflexivity|]. split; lia.
  - cbn [is_fin] in H. destruct (fin_canonical _ _ H) as (_ & X2 & X3). destruct (digits_Z (Z.pos m)) as ((_ & D2) & D3); [lia|].
    assert (Hb : (Z.pos m < 2 ^ 53)%Z). { eapply Z.lt_le_trans; [exact D2|]. apply Z.pow_le_mono_r; lia. }
    exists (if s then - Z.pos m else Z.pos m)%Z, e. split; [cbn [val]; destruct s; cbn [signed]; [rewrite inject_Z_opp; ring|reflexivity]|].
    split; [destruct s; lia|lia].
Qed.
Lemma p2_multiple i e e' : (e <= e')%Z -> inject_Z i * p2 e' == inject_Z (i * 2 ^ (e' - e)) * p2 e.
Proof. intros H. rewrite inject_Z_mult, <- (p2_Z (e' - e)) by lia. rewrite <- Qmult_assoc, <- p2_plus. replace (e' - e + e)%Z with e' by lia. reflexivity. Qed.
Lemma tie_half i j e x : i <> j -> Qabs (inject_Z i * p2 e - x) <= (1#2) * p2 e -> Qabs (inject_Z i * p2 e - x) == Qabs (inject_Z j * p2 e - x) ->
  Qabs (inject_Z i * p2 e - x) == (1#2) * p2 e.
Proof.
  intros Hn H E. pose proof (p2_pos e) as Hp. apply Qle_antisym; auto. rewrite Qabs_Qle_condition in H. destruct H as (H1 & H2).
  destruct (Z.lt_ge_cases i j) as [Hl|Hl].
  - rewrite E. apply Qle_trans with (inject_Z j * p2 e - x); [|apply Qle_Qabs]. pose proof (inj_le (i + 1) j ltac:(lia)) as Hi.
    rewrite inject_Z_plus in Hi. change (inject_Z 1) with 1 in Hi. nra.
  - rewrite E. apply Qle_trans with (- (inject_Z j * p2 e - x)); [|rewrite <- Qabs_opp; apply Qle_Qabs]. pose proof (inj_le (j + 1) i ltac:(lia)) as Hi.
    rewrite inject_Z_plus in Hi. change (inject_Z 1) with 1 in Hi. nra.
Qed.
Theorem nearest_closest (z : F f64) x : nearest_even z x -> closest z x.
Proof.
  intros (Hf & r & e & Hv & Hr & He & Hc & Hev). split; auto. intros z' Hz'. destruct (fin_parts z' Hz') as (r' & e' & Hv' & Hr' & He').
  rewrite Hv in *. rewrite Hv'. destruct (Z.le_gt_cases e e') as [Hle|Hgt].
  - rewrite (p2_multiple r' e e' Hle). split; [apply multiple_far; exact Hr|]. intros E.
    destruct (Z.eq_dec r (r' * 2 ^ (e' - e))) as [<-|Hn]; [left; reflexivity|]. right. apply Hev. eapply tie_half; eauto.
  - destruct Hc as [Hc|Hc]; [|lia].
    assert (Hs : exists i, (i = 2 ^ 52 \/ i = - 2 ^ 52)%Z /\ Qabs (inject_Z i * p2 e - x) == Qabs x - p2 (52 + e)).
    { rewrite p2_plus, (p2_Z 52) in * by lia. destruct (Qlt_le_dec x 0) as [Hx|Hx].
      - exists (- 2 ^ 52)%Z. split; auto. rewrite (Qabs_neg x) in * by lra. rewrite inject_Z_opp.
        rewrite p2_plus, (p2_Z 52) by lia. rewrite Qabs_pos by lra. ring.
      - exists (2 ^ 52)%Z. split; auto. rewrite (Qabs_pos x) in * by lra. 
        rewrite p2_plus, (p2_Z 52) by lia. rewrite Qabs_neg by lra. ring. }
    destruct Hs as (i & _ & Hi). pose proof (multiple_far r i e x Hr) as Hfar. rewrite Hi in Hfar.
    assert (Hz : Qabs (inject_Z r' * p2 e') < p2 (52 + e)).
    { pose proof (p2_pos e'). rewrite Qabs_Qmult, Qabs_Zabs, (Qabs_pos (p2 e')) by lra.
      apply Qlt_le_trans with (p2 (53 + e')); [|apply p2_le; lia]. rewrite p2_plus, (p2_Z 53) by lia. apply Qmult_lt_r; auto. apply inj_lt. lia. }
    pose proof (Qabs_triangle (inject_Z r' * p2 e' - x) (- (inject_Z r' * p2 e'))) as T.
    setoid_replace (inject_Z r' * p2 e' - x + - (inject_Z r' * p2 e')) with (- x) in T by ring. rewrite !Qabs_opp in T. split; [lra|]. intros E. exfalso. lra.
Qed.

(* Numbers in canonical form are determined by their value. *)
Lemma same_value m e n f : bounded prec64 emax64 m e = true -> bounded prec64 emax64 n f = true -> (e <= f)%Z ->
  inject_Z (Z.pos m) * p2 e == inject_Z (Z.pos n) * p2 f -> m = n /\ e = f.
Proof.
  intros Hm Hn Hef E. destruct (fin_canonical _ _ Hm) as (X1 & X2 & X3). destruct (fin_canonical _ _ Hn) as (Y1 & Y2 & Y3).
  rewrite (p2_multiple (Z.pos n) e f Hef) in E. pose proof (p2_pos e) as Hp. apply Qmult_inj_r in E; [|intros C; rewrite C in Hp; lra].
  apply inj_same in E. destruct (Z.eq_dec e f) as [->|Hne]; [rewrite Z.sub_diag in E; split; [lia|auto]|]. exfalso.
  assert (Hd : (53 < Zdigits2 (Z.pos m))%Z); [|lia]. rewrite E. assert (Y : (Zdigits2 (Z.pos n) = 53)%Z) by lia.
  destruct (digits_Z (Z.pos n)) as ((D1 & D2) & D3); [lia|]. rewrite Y in D1. apply digits_ge; [lia|].
  replace (2 ^ 53)%Z with (2 ^ (53 - 1) * 2 ^ 1)%Z by reflexivity. pose proof (Z.pow_le_mono_r 2 1 (f - e) ltac:(lia) ltac:(lia)). nia.
Qed.
Lemma fin_pos m e : 0 < inject_Z (Z.pos m) * p2 e.
Proof. pose proof (p2_pos e). assert (0 < inject_Z (Z.pos m)) by reflexivity. nra. Qed.
Theorem val_unique (x y : F f64) : is_fin x = true -> is_fin y = true -> val x == val y -> negative x = negative y -> x = y.
Proof.
  destruct x as [s|s| |s m e], y as [t|t| |t n f]; try discriminate; intros Hx Hy E Es; cbn [val negative is_fin] in *.
  - congruence.
  - exfalso. pose proof (fin_pos n f). destruct t; cbn [signed] in E; lra.
  - exfalso. pose proof (fin_pos m e). destruct s; cbn [signed] in E; lra.
  - subst t. assert (E' : inject_Z (Z.pos m) * p2 e == inject_Z (Z.pos n) * p2 f) by (destruct s; cbn [signed] in E; lra).
    destruct (Z.le_ge_cases e f) as [Hc|Hc].
    + destruct (same_value m e n f Hx Hy Hc E') as (-> & ->). reflexivity.
    + symmetry in E'. destruct (same_value n f m e Hy Hx Hc E') as (-> & ->). reflexivity.
Qed.
Lemma fin_limit (z : F f64) : is_fin z = true -> Qabs (val z) < limit.
Proof.
  destruct z as [s|s| |s m e]; try discriminate; intros H; [cbn; reflexivity|]. cbn [is_fin val] in *. rewrite signed_Qabs by apply fin_nonneg.
  destruct (fin_canonical _ _ H) as (X1 & X2 & X3). destruct (digits_Z (Z.pos m)) as ((D1 & D2) & D3); [lia|].
  assert (Hm : (Z.pos m <= 2 ^ 53 - 1)%Z). { assert (Z.pos m < 2 ^ 53)%Z; [|lia]. eapply Z.lt_le_trans; [exact D2|]. apply Z.pow_le_mono_r; lia. }
  rewrite limit_alt. apply Qle_lt_trans with (inject_Z (2 ^ 53 - 1) * p2 971).
  - apply inj_le in Hm. pose proof (p2_le e 971 ltac:(lia)). pose proof (p2_pos e). assert (0 < inject_Z (Z.pos m)) by reflexivity. nra.
  - apply Qmult_lt_r; [apply p2_pos|]. reflexivity.
Qed.
