(* The margin of the load balancing: two fifths of the mean, rounded down. *)
From Coq Require Import ZArith QArith Qabs Qround Lqa Lia SpecFloat.
From Verif Require Import Base Num EventLoop FloatSpec FloatRound FloatOps.
Local Open Scope Q_scope.

Lemma trunc_between z k : is_fin z = true -> inject_Z k <= val z -> val z < inject_Z (k + 1) -> (0 <= k)%Z -> f64_trunc z = k.
Proof.
  intros Hf H1 H2 Hk. destruct z as [s|s| |s m e]; try discriminate Hf.
  - cbn [val f64_trunc] in *. change 0 with (inject_Z 0) in H1, H2. rewrite <- Zle_Qle in H1. rewrite <- Zlt_Qlt in H2. lia.
  - assert (Hs : s = false).
    { destruct s; auto. exfalso. cbn [val signed] in *. pose proof (p2_pos e) as Hp.
      assert (H3 : 0 < inject_Z (Z.pos m) * p2 e).
      { apply Qmult_lt_0_compat; auto. change 0 with (inject_Z 0). rewrite <- Zlt_Qlt. lia. }
      assert (H4 : 0 <= inject_Z k) by (change 0 with (inject_Z 0); rewrite <- Zle_Qle; lia). lra. }
    subst s. cbn [val signed f64_trunc] in *. destruct e as [|p|p].
    + rewrite p2_Z in H1, H2 by lia. rewrite <- inject_Z_mult in H1, H2. rewrite <- Zle_Qle in H1. rewrite <- Zlt_Qlt in H2. cbn in *. lia.
    + rewrite p2_Z in H1, H2 by lia. rewrite <- inject_Z_mult in H1, H2. rewrite <- Zle_Qle in H1. rewrite <- Zlt_Qlt in H2. lia.
    + assert (Hp : p2 (Z.neg p) * inject_Z (2 ^ Z.pos p) == 1).
      { rewrite <- p2_Z by lia. rewrite <- p2_plus. replace (Z.neg p + Z.pos p)%Z with 0%Z by lia. reflexivity. }
      set (T := (2 ^ Z.pos p)%Z) in *. assert (HT : (0 < T)%Z) by (apply Z.pow_pos_nonneg; lia).
      assert (HT' : 0 < inject_Z T) by (change 0 with (inject_Z 0); rewrite <- Zlt_Qlt; auto).
      assert (Hm : inject_Z (Z.pos m) * p2 (Z.neg p) * inject_Z T == inject_Z (Z.pos m)) by (rewrite <- Qmult_assoc, Hp; ring).
      apply (Qmult_le_compat_r _ _ (inject_Z T)) in H1; [|apply Qlt_le_weak; auto].
      apply (Qmult_lt_compat_r _ _ (inject_Z T)) in H2; auto. rewrite Hm in H1, H2.
      rewrite <- inject_Z_mult in H1, H2. rewrite <- Zle_Qle in H1. rewrite <- Zlt_Qlt in H2.
      symmetry. apply Z.div_unique with (r := (Z.pos m - T * k)%Z); [left|]; lia.
Qed.

Theorem margin_two_fifths mean : (0 <= mean < 2 ^ 50)%Z -> margin_of mean = (2 * mean / 5)%Z.
Proof.
  intros Hm. unfold margin_of.
  destruct (of_nat_ok (Z.to_nat mean)) as (F1 & V1); [rewrite Z2Nat.id by lia; lia|].
  change (@fofnat f64 (Z.to_nat mean)) with (f64_of_Z (Z.of_nat (Z.to_nat mean))) in F1, V1. rewrite Z2Nat.id in F1, V1 by lia.
  set (y := f64_of_Z mean) in *. clearbody y.
  assert (F2 : is_fin f64_04 = true) by reflexivity.
  assert (V2 : val f64_04 == 7205759403792794 # 18014398509481984) by reflexivity.
  set (M := inject_Z mean) in *.
  assert (M1 : 0 <= M) by (unfold M; change 0 with (inject_Z 0); rewrite <- Zle_Qle; lia).
  assert (M2 : M <= inject_Z (2 ^ 50)) by (unfold M; rewrite <- Zle_Qle; lia).
  change (inject_Z (2 ^ 50)) with (1125899906842624 # 1) in M2.
  set (x := M * (7205759403792794 # 18014398509481984)).
  assert (Hx : val y * val f64_04 == x) by (rewrite V1, V2; reflexivity).
  assert (Hx0 : 0 <= x) by (unfold x; nra).
  assert (Hx1 : x < p2 49) by (change (p2 49) with (562949953421312 # 1); unfold x; lra).
  assert (Hn : nearest (SFmul prec64 emax64 y f64_04) x).
  { eapply nearest_eq; [exact Hx|]. apply (mul_ok y f64_04); auto. rewrite Hx, Qabs_pos by auto.
    eapply Qlt_le_trans; [exact Hx1|]. apply p2_le. lia. }
  set (z := SFmul prec64 emax64 y f64_04) in *. clearbody z.
  pose proof (nearest_err _ _ Hn) as Herr. rewrite (Qabs_pos x) in Herr by auto.
  set (k := (2 * mean / 5)%Z).
  assert (K1 : (5 * k <= 2 * mean)%Z) by (apply Z.mul_div_le; lia).
  assert (K2 : (2 * mean <= 5 * k + 4)%Z) by (pose proof (Z.mod_pos_bound (2 * mean) 5); pose proof (Z.div_mod (2 * mean) 5); unfold k; lia).
  assert (K0 : (0 <= k)%Z) by (apply Z.div_pos; lia).
  assert (Q1 : 5 * inject_Z k <= 2 * M) by (unfold M; change 5 with (inject_Z 5); change 2 with (inject_Z 2); rewrite <- !inject_Z_mult, <- Zle_Qle; auto).
  assert (Q2 : 2 * M <= 5 * inject_Z k + 4).
  { unfold M; change 5 with (inject_Z 5); change 2 with (inject_Z 2); change 4 with (inject_Z 4). rewrite <- !inject_Z_mult, <- inject_Z_plus, <- Zle_Qle; auto. }
  assert (Q3 : (2#5) * M <= x) by (unfold x; lra).
  apply trunc_between; auto.
  - exact (proj1 Hn).
  - (* k is a multiple of the spacing, so z is not below it *)
    destruct Hn as (_ & r & e & N1 & N2 & N3 & N4). destruct (Qlt_le_dec (val z) (inject_Z k)) as [Hlt|]; auto. exfalso.
    assert (He : (e <= 0)%Z).
    { destruct N4 as [N4| ->]; [|lia]. rewrite Qabs_pos in N4 by auto. assert (Hl : p2 (52 + e) < p2 49) by (eapply Qle_lt_trans; eauto).
      apply p2_lt_inv in Hl. lia. }
    pose proof (p2_pos e) as Hp.
    assert (Hk : inject_Z k == inject_Z (k * 2 ^ (- e)) * p2 e).
    { rewrite inject_Z_mult, <- p2_Z by lia. rewrite <- Qmult_assoc, <- p2_plus. replace (- e + e)%Z with 0%Z by lia. change (p2 0) with 1. ring. }
    set (j := (k * 2 ^ (- e))%Z) in *. rewrite N1, Hk in Hlt.
    assert (Hr : (r < j)%Z). { rewrite Zlt_Qlt. apply (Qmult_lt_r _ _ (p2 e)); auto. }
    assert (Hr' : inject_Z r + 1 <= inject_Z j) by (change 1 with (inject_Z 1); rewrite <- inject_Z_plus, <- Zle_Qle; lia).
    assert (Hg : val z + p2 e <= inject_Z k).
    { rewrite N1, Hk. setoid_replace (inject_Z r * p2 e + p2 e) with ((inject_Z r + 1) * p2 e) by ring. apply Qmult_le_compat_r; auto. apply Qlt_le_weak; auto. }
    apply Qabs_Qle_condition in N2. destruct N2 as (N2 & _). lra.
  - rewrite inject_Z_plus. change (inject_Z 1) with 1. apply Qabs_Qle_condition in Herr. destruct Herr as (_ & Herr).
    assert (Ht : tiny <= 1 # 1000).
    { unfold tiny. apply Qle_trans with (p2 (-10)); [apply p2_le; lia|]. unfold p2. cbn. unfold Qle. cbn. lia. }
    change ulp with (1 # 9007199254740992) in Herr. unfold x in *. lra.
Qed.
