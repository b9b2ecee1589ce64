(* The square root of binary64 numbers; the root of a square. *)
From Coq Require Import ZArith QArith Qabs Qpower SpecFloat Lia Lqa Setoid Morphisms.
From Verif Require Import Base Num FloatSpec FloatRound FloatOps.
Local Open Scope Q_scope.

(* p lies where the root of x does, relative to all multiples of half of 2^e. *)
Definition root_of (p x : Q) (e : Z) : Prop := 0 <= p /\ forall j, (0 <= j)%Z -> let b := inject_Z j * p2 (e - 1) in
  (b * b < x -> b < p) /\ (x < b * b -> p < b) /\ (x == b * b -> p == b).

Lemma Zlt_Q a b : (a < b)%Z <-> inject_Z a < inject_Z b.
Proof. rewrite <- Zlt_Qlt. reflexivity. Qed.
Lemma Zle_Q a b : (a <= b)%Z <-> inject_Z a <= inject_Z b.
Proof. rewrite <- Zle_Qle. reflexivity. Qed.

Lemma Q_scale_lt a b c : 0 < c -> (a * c < b * c <-> a < b).
Proof. intros H. split; [apply Qmult_lt_r; auto|intros; apply Qmult_lt_compat_r; auto]. Qed.
Lemma Q_scale_eq a b c : 0 < c -> (a * c == b * c <-> a == b).
Proof. intros H. split; [|intros ->; reflexivity]. intros Hab. apply Qmult_inj_r in Hab; auto. lra. Qed.

Definition quarters (q r : Z) : Z := if (r =? 0)%Z then 0 else if (r <=? q)%Z then 1 else 3.

Lemma root_cases q r j : (0 <= q -> 0 <= r <= 2 * q -> 0 <= j ->
  (j * j < 4 * (q * q + r) -> 2 * j < 4 * q + quarters q r) /\
  (4 * (q * q + r) < j * j -> 4 * q + quarters q r < 2 * j) /\
  (4 * (q * q + r) = j * j -> 4 * q + quarters q r = 2 * j))%Z.
Proof.
  intros Hq Hr Hj. unfold quarters. destruct (Z.eqb_spec r 0) as [->|Hr0]; [|destruct (Z.leb_spec r q)].
  - split; [|split]; intros; nia.
  - split; [|split]; intros; [nia|nia|]. exfalso.
    assert (2 * q < j)%Z by nia. assert (j < 2 * q + 1)%Z by nia. lia.
  - split; [|split]; intros; [nia|nia|]. exfalso.
    assert (2 * q + 1 < j)%Z by nia. assert (j < 2 * q + 2)%Z by nia. lia.
Qed.

Lemma sqrt_core m e : exists q r e' l, SFsqrt_core_binary prec64 emax64 (Z.pos m) e = (q, e', l) /\
  (0 <= q /\ 0 <= r <= 2 * q)%Z /\ inject_Z (Z.pos m) * p2 e == inject_Z (q * q + r) * p2 (2 * e') /\
  stands (shr_record_of_loc q l) e' ((inject_Z q + inject_Z (quarters q r) * (1#4)) * p2 e') /\
  (e' <= fexp64 (Zdigits2 q + e'))%Z.
Proof.
  unfold SFsqrt_core_binary. set (d := Zdigits2 (Z.pos m)). destruct (digits_Z (Z.pos m)) as ((D1 & D2) & D3); [lia|]. fold d in D1, D2, D3.
  set (e' := Z.min (fexp64 (Z.div2 (d + e + 1))) (Z.div2 e)).
  assert (He2 : (2 * Z.div2 e <= e)%Z) by (pose proof (Zdiv2_odd_eqn e); destruct (Z.odd e); lia).
  assert (Hk : (0 <= e - 2 * e')%Z) by lia. set (k := (e - 2 * e')%Z) in *.
  assert (Hm' : match k with Z0 => Z.pos m | Z.pos _ => Z.shiftl (Z.pos m) k | Z.neg _ => 0%Z end = (Z.pos m * 2 ^ k)%Z).
  { destruct k as [|p|p]; [lia| |lia]. apply Z.shiftl_mul_pow2. lia. }
  rewrite Hm'. clear Hm'. assert (Hk0 : (0 < 2 ^ k)%Z) by (apply Z.pow_pos_nonneg; lia).
  pose proof (Z.sqrtrem_spec (Z.pos m * 2 ^ k) ltac:(lia)) as Hs. destruct (Z.sqrtrem (Z.pos m * 2 ^ k)) as [q r]. destruct Hs as (Hs & Hr).
  assert (Hq : (0 <= q)%Z) by lia. do 4 eexists. split; [reflexivity|]. split; [split; [exact Hq|exact Hr]|]. split; [|split].
  - rewrite <- Hs, inject_Z_mult, <- (p2_Z k) by lia. rewrite <- Qmult_assoc, <- p2_plus. replace (k + 2 * e')%Z with e by lia. reflexivity.
  - unfold quarters. exists (inject_Z (if (r =? 0)%Z then 0 else if (r <=? q)%Z then 1 else 3) * (1#4)). split; [|rewrite of_loc; reflexivity].
    unfold Zeq_bool, Z.eqb. destruct r as [|r|r]; [reflexivity| |lia]. cbn [Z.compare]. destruct (Z.pos r <=? q)%Z; cbn; split; reflexivity.
  - rewrite fexp_eq. assert (He' : (e' <= Z.max (Z.div2 (d + e + 1) - 53) (-1074))%Z) by (unfold e'; rewrite fexp_eq; lia).
    assert (Hd2 : (d + e <= 2 * Z.div2 (d + e + 1) <= d + e + 1)%Z) by (pose proof (Zdiv2_odd_eqn (d + e + 1)); destruct (Z.odd (d + e + 1)); lia).
    set (h := Z.div2 (d + e + 1)) in *. assert (Hdq : (h - e' - 1 < Zdigits2 q)%Z); [|lia].
    apply digits_ge; [lia|].
    assert (Hpow : (2 ^ (h - e' - 1) * 2 ^ (h - e' - 1) <= Z.pos m * 2 ^ k)%Z).
    { rewrite <- Z.pow_add_r by lia. eapply Z.le_trans with (2 ^ (d - 1 + k))%Z; [apply Z.pow_le_mono_r; lia|]. rewrite Z.pow_add_r by lia. nia. }
    pose proof (Z.pow_pos_nonneg 2 (h - e' - 1)). nia.
Qed.

Lemma p2_sq k : p2 (2 * k) == p2 k * p2 k.
Proof. replace (2 * k)%Z with (k + k)%Z by lia. apply p2_plus. Qed.
Lemma sq_lt_inv a b : 0 <= a -> 0 <= b -> a * a < b * b -> a < b.
Proof. intros. destruct (Qlt_le_dec a b); auto. nra. Qed.

(* The root is rounded correctly. *)
Theorem sqrt_ok (x : F f64) : is_fin x = true -> 0 < val x -> val x < p2 1024 ->
  exists p e, nearest (fsqrt x) p /\ root_of p (val x) e /\
    forall k, val x < p2 (2 * k) -> (e <= Z.max (k - 53) (-1074))%Z.
Proof.
  change (@fsqrt f64) with (SFsqrt prec64 emax64). destruct x as [s|s| |s m e]; try discriminate; intros Hf Hp Hx.
  assert (Hs : s = false). { destruct s; auto. cbn [val signed] in Hp. pose proof (fin_nonneg m e). lra. }
  subst s. cbn [SFsqrt val signed] in *. clear Hp. destruct (sqrt_core m e) as (q & r & e' & l & -> & (Hq & Hr) & Hv & Hst & Hfx).
  set (p := (inject_Z q + inject_Z (quarters q r) * (1#4)) * p2 e') in *. exists p, e'.
  assert (Hp0 : 0 < p2 e') by apply p2_pos. assert (Hp1 : 0 < p2 (e' - 1)) by apply p2_pos.
  assert (Hpe : p2 e' == 2 * p2 (e' - 1)) by (rewrite <- p2_1; replace (e' - 1 + 1)%Z with e' by lia; reflexivity).
  assert (Hpp : p == inject_Z (4 * q + quarters q r) * ((1#2) * p2 (e' - 1))).
  { unfold p. rewrite Hpe, inject_Z_plus, inject_Z_mult. change (inject_Z 4) with 4. ring. }
  assert (Hpos : 0 <= p).
  { rewrite Hpp. apply Qmult_le_0_compat; [|lra]. apply (proj1 (Zle_Q 0 _)). unfold quarters. destruct (r =? 0)%Z; [lia|]. destruct (r <=? q)%Z; lia. }
  assert (Hroot : root_of p (inject_Z (Z.pos m) * p2 e) e').
  { split; auto. intros j Hj. cbv zeta. destruct (root_cases q r j Hq Hr Hj) as (C1 & C2 & C3).
    assert (Hb : inject_Z j * p2 (e' - 1) == inject_Z (2 * j) * ((1#2) * p2 (e' - 1))) by (rewrite inject_Z_mult; change (inject_Z 2) with 2; ring).
    assert (Hbb : inject_Z j * p2 (e' - 1) * (inject_Z j * p2 (e' - 1)) == inject_Z (j * j) * (p2 (e' - 1) * p2 (e' - 1))) by (rewrite inject_Z_mult; ring).
    assert (Hvv : inject_Z (Z.pos m) * p2 e == inject_Z (4 * (q * q + r)) * (p2 (e' - 1) * p2 (e' - 1))).
    { rewrite Hv, (inject_Z_mult 4), p2_sq, Hpe. change (inject_Z 4) with 4. ring. }
    assert (Hc : 0 < p2 (e' - 1) * p2 (e' - 1)) by nra. assert (Hc2 : 0 < (1#2) * p2 (e' - 1)) by lra.
    rewrite Hbb, Hvv, Hpp, Hb, !Q_scale_lt, !Q_scale_eq, <- !Zlt_Q by auto. rewrite !inject_Z_injective. auto. }
  assert (Hdig : forall k, inject_Z (Z.pos m) * p2 e < p2 (2 * k) -> (Zdigits2 q + e' <= k)%Z \/ q = 0%Z).
  { intros k Hk. destruct (Z.eq_dec q 0) as [|Hq0]; auto. left. destruct (digits_Z q) as ((A1 & A2) & A3); [lia|].
    assert (Hl : inject_Z q * p2 e' < p2 k).
    { apply sq_lt_inv; [apply Qmult_le_0_compat; [apply (proj1 (Zle_Q 0 q) Hq)|lra]|apply Qlt_le_weak, p2_pos|].
      rewrite <- p2_sq. eapply Qle_lt_trans; [|exact Hk]. rewrite Hv, p2_sq.
      setoid_replace (inject_Z q * p2 e' * (inject_Z q * p2 e')) with (inject_Z (q * q) * (p2 e' * p2 e')) by (rewrite inject_Z_mult; ring).
      apply Qmult_le_compat_r; [apply (proj1 (Zle_Q _ _)); lia|apply Qmult_le_0_compat; lra]. }
    assert (Hl2 : p2 (Zdigits2 q - 1 + e') < p2 k).
    { eapply Qle_lt_trans; [|exact Hl]. rewrite p2_plus. apply Qmult_le_compat_r; [|lra]. rewrite (p2_Z (Zdigits2 q - 1)) by lia. apply (proj1 (Zle_Q _ _)). lia. }
    apply p2_lt_inv in Hl2. lia. }
  assert (Hq0 : q <> 0%Z).
  { intros Hq0. assert (r = 0%Z) by lia. subst q r. rewrite Z.mul_0_l, Z.add_0_l in Hv. change (inject_Z 0) with 0 in Hv. rewrite Qmult_0_l in Hv.
    pose proof (Qmult_lt_0_compat (inject_Z (Z.pos m)) (p2 e) eq_refl (p2_pos e)) as Hmp. rewrite Hv in Hmp. discriminate Hmp. }
  split; [|split; auto].
  - apply (round_ok false q e' l p); auto.
    eapply Qlt_trans with (p2 513); [|reflexivity]. destruct Hroot as (_ & Hroot).
    destruct (Hdig 512%Z) as [Hd|Hd]; [exact Hx| |contradiction]. destruct (digits_Z q) as ((A1 & A2) & A3); [lia|].
    assert (Hq1 : inject_Z q * p2 e' < p2 512).
    { eapply Qlt_le_trans with (inject_Z (2 ^ Zdigits2 q) * p2 e'); [apply Qmult_lt_compat_r; auto; apply (proj1 (Zlt_Q _ _)); auto|].
      rewrite <- p2_Z by lia. rewrite <- p2_plus. apply p2_le. lia. }
    assert (Hq2 : inject_Z (quarters q r) * (1#4) * p2 e' <= inject_Z q * p2 e').
    { apply Qmult_le_compat_r; [|lra]. assert (inject_Z (quarters q r) <= inject_Z (4 * q)).
      { apply (proj1 (Zle_Q _ _)). unfold quarters. destruct (r =? 0)%Z; [lia|]. destruct (r <=? q)%Z; lia. }
      rewrite inject_Z_mult in *. change (inject_Z 4) with 4 in *. lra. }
    assert (p2 513 == 2 * p2 512) by (apply (p2_1 512)). assert (Hps : p == inject_Z q * p2 e' + inject_Z (quarters q r) * (1#4) * p2 e') by (unfold p; ring). rewrite Hps. lra.
  - intros k Hk. destruct (Hdig k Hk); [|contradiction]. rewrite fexp_eq in Hfx. lia.
Qed.
