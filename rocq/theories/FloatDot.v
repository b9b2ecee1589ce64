(* The dot product and the norm in binary64. *)
From Coq Require Import List ZArith QArith Qabs Qpower SpecFloat Lia Lqa Setoid Morphisms.
From Verif Require Import Base Num MathUtils FloatSpec FloatRound FloatOps DistSpec FloatSqrt FloatTerm FloatDist Fused.
Local Open Scope Q_scope.

Definition dotq (l : list (spec_float * spec_float)) : Q := fold_right (fun p s => val (fst p) * val (snd p) + s) 0 l.
Definition absq (l : list (spec_float * spec_float)) : Q := fold_right (fun p s => Qabs (val (fst p) * val (snd p)) + s) 0 l.

Lemma product_ok (a b : F f64) : within (p2 450) a -> within (p2 450) b ->
  let d := val a * val b in is_fin (fmul a b) = true /\ Qabs d <= p2 900 /\
  Qabs (val (fmul a b) - d) <= ulp * Qabs d + (tiny + p2 (-536)).
Proof.
  intros (Fa & Ha) (Fb & Hb). cbv zeta.
  assert (Hd : Qabs (val a * val b) <= p2 900).
  { rewrite Qabs_Qmult. assert (p2 900 == p2 450 * p2 450) by reflexivity. pose proof (Qabs_nonneg (val a)). pose proof (Qabs_nonneg (val b)).
    assert (0 < p2 450) by reflexivity.
    apply Qle_trans with (p2 450 * Qabs (val b)); [apply Qmult_le_compat_r; auto|]. rewrite H, !(Qmult_comm (p2 450)). apply Qmult_le_compat_r; lra. }
  assert (Hs : nearest (fmul a b) (val a * val b)).
  { apply mul_ok; auto. eapply Qle_lt_trans; [exact Hd|]. reflexivity. }
  pose proof (nearest_err _ _ Hs) as He. split; [exact (proj1 Hs)|]. split; auto. assert (0 < p2 (-536)) by reflexivity. lra.
Qed.

(* A fused step is the rounding of the exact sum. *)
Theorem fma_ok (x y z : F f64) : is_fin x = true -> is_fin y = true -> is_fin z = true -> Qabs (val z + val x * val y) < p2 1023 ->
  nearest (fma x y z) (val z + val x * val y).
Proof.
  intros Hx Hy Hz Hb.
  assert (Hzero : val x * val y == 0 -> fmul x y = S754_zero false \/ fmul x y = S754_zero true -> nearest (fadd (fmul x y) z) (val z + val x * val y)).
  { intros Hm Hor. assert (Hp : is_fin (fmul x y) = true /\ val (fmul x y) == 0) by (destruct Hor as [->| ->]; split; reflexivity).
    destruct Hp as (Hp1 & Hp2). eapply nearest_eq; [|apply add_ok; auto].
    - rewrite Hp2, Hm. ring.
    - rewrite Hp2. setoid_replace (0 + val z) with (val z + val x * val y) by (rewrite Hm; ring). exact Hb. }
  change (F f64) with spec_float in *. destruct x as [s|s| |s m e], y as [t|t| |t n f]; try discriminate.
  - apply Hzero; [reflexivity|]. cbn. destruct (xorb s t); auto.
  - apply Hzero; [cbn [val]; ring|]. cbn. destruct (xorb s t); auto.
  - apply Hzero; [cbn [val]; ring|]. cbn. destruct (xorb s t); auto.
  - clear Hzero. unfold fma. destruct z as [w|w| |w k g]; try discriminate.
    + cbn [val] in Hb. eapply nearest_eq; [|apply (mul_ok (S754_finite s m e) (S754_finite t n f)); auto].
      * cbn [val]. ring.
      * cbn [val]. setoid_replace (signed s (inject_Z (Z.pos m) * p2 e) * signed t (inject_Z (Z.pos n) * p2 f)) with
          (0 + signed s (inject_Z (Z.pos m) * p2 e) * signed t (inject_Z (Z.pos n) * p2 f)) by ring. exact Hb.
    + assert (Hv : val (S754_finite w k g) + val (S754_finite s m e) * val (S754_finite t n f) ==
        inject_Z (cond_Zopp (xorb s t) (Z.pos (fst (shl_align (m * n) (e + f) (Z.min (e + f) g)))) +
          cond_Zopp w (Z.pos (fst (shl_align k g (Z.min (e + f) g))))) * p2 (Z.min (e + f) g)).
      { rewrite sum_value. cbn [val]. rewrite <- signed_mult, Pos2Z.inj_mul, inject_Z_mult, p2_plus.
        rewrite Qplus_comm. apply Qplus_comp; [|reflexivity]. apply signed_proper; [reflexivity|]. ring. }
      rewrite Hv in Hb. eapply nearest_eq; [symmetry; exact Hv|]. apply normalize_ok. exact Hb.
Qed.
Lemma step_ok fused (s a b : F f64) : is_fin s = true -> within (p2 450) a -> within (p2 450) b ->
  exists t, Qabs (t - val a * val b) <= ulp * Qabs (val a * val b) + (tiny + p2 (-536)) /\
    (Qabs (val s + t) < p2 1023 -> nearest (mul_add fused s a b) (val s + t)).
Proof.
  intros Fs Ha Hb. destruct fused; cbn [mul_add].
  - exists (val a * val b). split.
    + setoid_replace (val a * val b - val a * val b) with 0 by ring. change (Qabs 0) with 0.
      pose proof (Qabs_nonneg (val a * val b)). pose proof ulp_pos. pose proof tiny_pos. assert (0 < p2 (-536)) by reflexivity. nra.
    + apply fma_ok; auto; [apply Ha|apply Hb].
  - destruct (product_ok a b Ha Hb) as (T1 & _ & T4). exists (val (fmul a b)). split; [exact T4|]. apply add_ok; auto.
Qed.

Lemma dot_loop fused : forall (l : list (F f64 * F f64)) i k s S P, is_fin s = true -> Qabs S <= P -> P <= inject_Z (Z.of_nat k) * p2 900 ->
  (Z.of_nat (k + length l) <= 2 ^ 40)%Z -> Forall (fun p => within (p2 450) (fst p) /\ within (p2 450) (snd p)) l ->
  Qabs (val s - S) <= (2 * inject_Z (Z.of_nat k) + 1) * (ulp * P) + inject_Z (Z.of_nat k) * slack ->
  let z := products fused i l s in
  let n := inject_Z (Z.of_nat (k + length l)) in
  is_fin z = true /\ Qabs (val z - (dotq l + S)) <= (2 * n + 1) * (ulp * (absq l + P)) + n * slack /\ absq l + P <= n * p2 900.
Proof.
  induction l as [|[a b] l IH]; intros i k s S P Fs HSP HSk Hk Hl He; cbn [products dotq absq fold_right length fst snd].
  - rewrite Nat.add_0_r. cbv zeta. rewrite !Qplus_0_l. split; auto.
  - inversion Hl; subst. cbn [fst snd] in *. cbn [length] in Hk. destruct H1 as (Ha & Hb).
    destruct (product_ok a b Ha Hb) as (_ & T3 & _). destruct (step_ok (fused i) s a b Fs Ha Hb) as (t & T4 & T5). cbv zeta in T3. set (d := val a * val b) in *.
    assert (HP0 : 0 <= P) by (pose proof (Qabs_nonneg S); lra).
    assert (Hd0 : 0 <= Qabs d) by apply Qabs_nonneg. set (K := inject_Z (Z.of_nat k)) in *.
    assert (HK0 : 0 <= K) by (apply (proj1 (Zle_Q 0 _)); lia). assert (HK : K <= 1099511627776) by (apply (proj1 (Zle_Q _ 1099511627776)); lia).
    assert (Hdp : Qabs d <= Qabs d) by lra. destruct (sum_step K S P d (Qabs d) (val s) t HK0 HK HSP Hdp He T4) as (U1 & U2).
    assert (Hadd : nearest (mul_add (fused i) s a b) (val s + t)).
    { apply T5. eapply Qle_lt_trans; [exact U1|]. assert (p2 900 * 1099511627776 + p2 900 + slack * (1099511627776 + 1) < p2 1022) by reflexivity.
      assert (p2 1023 == 2 * p2 1022) by (apply (p2_1 1022)). assert (0 < p2 900) by reflexivity. assert (0 < slack) by reflexivity.
      assert (K * p2 900 <= 1099511627776 * p2 900) by (apply Qmult_le_compat_r; lra).
      assert (K * slack <= 1099511627776 * slack) by (apply Qmult_le_compat_r; lra). lra. }
    pose proof (U2 _ (nearest_err _ _ Hadd)) as U3. destruct Hadd as (Fz & _).
    destruct (IH (Datatypes.S i) (Datatypes.S k) (mul_add (fused i) s a b) (d + S) (Qabs d + P)) as (V1 & V2 & V3).
    + exact Fz.
    + eapply Qle_trans; [apply Qabs_triangle|]. lra.
    + rewrite Qcount. fold K. rewrite Qmult_plus_distr_l. lra.
    + lia.
    + auto.
    + rewrite Qcount. fold K. exact U3.
    + cbv zeta in V1, V2, V3. fold (dotq l). fold (absq l). replace (k + Datatypes.S (length l))%nat with (Datatypes.S k + length l)%nat by lia.
      assert (HD : dotq l + (d + S) == d + dotq l + S) by ring. assert (HA : absq l + (Qabs d + P) == Qabs d + absq l + P) by ring. rewrite HD, HA in V2. rewrite HA in V3.
      split; auto.
Qed.

Theorem dot_ieee fused (a b : vec f64) : length a = length b -> (Z.of_nat (length a) <= 2 ^ 40)%Z ->
  Forall (within (p2 450)) a -> Forall (within (p2 450)) b ->
  is_fin (dot_f fused a b) = true /\ let n := inject_Z (Z.of_nat (length a)) in
    Qabs (val (dot_f fused a b) - dotq (combine a b)) <= (2 * n + 1) * (ulp * absq (combine a b)) + n * slack /\ absq (combine a b) <= n * p2 900.
Proof.
  intros Hl Hn Ha Hb. unfold dot_f. assert (Hc : length (combine a b) = length a) by (rewrite combine_length; lia).
  destruct (dot_loop fused (combine a b) 0 0 (@f0 f64) 0 0) as (H1 & H2 & H3).
  - reflexivity.
  - discriminate.
  - discriminate.
  - rewrite Nat.add_0_l, Hc. exact Hn.
  - apply Forall_forall. intros [x y] Hp. rewrite Forall_forall in Ha, Hb. split; [apply Ha; eapply in_combine_l; eauto|apply Hb; eapply in_combine_r; eauto].
  - discriminate.
  - split; auto. cbv zeta in *. rewrite Nat.add_0_l, Hc in H2, H3. rewrite (Qplus_0_r (dotq _)), (Qplus_0_r (absq _)) in H2. rewrite Qplus_0_r in H3. auto.
Qed.

(* Without fusing they are the functions of MathUtils.v. *)
Lemma dot_plain a b : dot_f (fun _ => false) a b = dot a b.
Proof.
  unfold dot_f, dot. generalize 0%nat. generalize (@f0 f64). induction (combine a b) as [|p l IH]; intros r i; [reflexivity|]. cbn [products fold_left]. apply IH.
Qed.
Lemma norm_plain a : norm_f (fun _ => false) a = norm a.
Proof.
  unfold norm_f. rewrite dot_plain. unfold norm, dot. f_equal. generalize (@f0 f64). induction a as [|x a IH]; intros r; [reflexivity|]. cbn [combine fold_left fst snd]. apply IH.
Qed.
Lemma cosine_plain a b : cosine_f (fun _ => false) (fun _ => false) a b = cosine_similarity a b.
Proof. unfold cosine_f, cosine_similarity. rewrite !norm_plain, dot_plain. reflexivity. Qed.
Lemma abs_dot a : absq (combine a a) == dotq (combine a a).
Proof.
  induction a as [|x a IH]; [reflexivity|]. cbn [combine absq dotq fold_right fst snd]. fold (absq (combine a a)). fold (dotq (combine a a)). rewrite IH.
  rewrite Qabs_pos; [reflexivity|]. destruct (Qlt_le_dec (val x) 0); nra.
Qed.
