(* EuclideanDistance in binary64: close to the sum of the absolute differences. *)
From Coq Require Import List ZArith QArith Qabs Qpower Qround SpecFloat Lia Lqa Setoid Morphisms.
From Verif Require Import Base Num MathUtils FloatSpec FloatRound FloatOps DistSpec FloatSqrt FloatTerm.
Local Open Scope Q_scope.

(* A multiple of w just above a. *)
Lemma above a w : 0 < w -> exists j, a < inject_Z j * w /\ inject_Z j * w <= a + w.
Proof.
  intros Hw. exists (Qfloor (a / w) + 1)%Z. pose proof (Qlt_floor (a / w)) as H1. pose proof (Qfloor_le (a / w)) as H2.
  assert (Ha : a == a / w * w) by (field; lra). rewrite inject_Z_plus in *. change (inject_Z 1) with 1 in *. set (k := inject_Z (Qfloor (a / w))) in *.
  set (q := a / w) in *. clearbody q k. rewrite Ha. split; nra.
Qed.

Lemma root_small (x : F f64) : is_fin x = true -> Qabs (val x) < p2 (-511) ->
  is_fin (fsqrt (fmul x x)) = true /\ 0 <= val (fsqrt (fmul x x)) /\ Qabs (val (fsqrt (fmul x x)) - Qabs (val x)) <= p2 (-536).
Proof.
  intros Hf H. set (X := Qabs (val x)) in *. assert (HX0 : 0 <= X) by apply Qabs_nonneg. assert (HX2 : X * X == val x * val x) by apply abs_sq.
  assert (Hhi : X * X < p2 (-1022)).
  { change (-1022)%Z with (2 * -511)%Z. rewrite p2_sq. pose proof (p2_pos (-511)). nra. }
  assert (Hmul : nearest (fmul x x) (X * X)).
  { eapply nearest_eq; [symmetry; exact HX2|]. apply mul_ok; auto. rewrite <- HX2. rewrite Qabs_pos by nra.
    eapply Qlt_trans; [exact Hhi|]. reflexivity. }
  set (y := fmul x x) in *. clearbody y. destruct Hmul as (Hy & r & e & Hyv & Hye & He & Hc).
  assert (He2 : e = (-1074)%Z).
  { destruct Hc as [Hc|Hc]; auto. exfalso. rewrite Qabs_pos in Hc by nra. assert (52 + e < -1022)%Z; [|lia]. apply p2_lt_inv. lra. }
  subst e. clear Hc He. set (c := p2 (-537)). assert (Hc0 : 0 < c) by apply p2_pos.
  assert (Hcc : p2 (-1074) == c * c) by (apply (p2_sq (-537))). rewrite Hcc in Hyv, Hye.
  assert (H536 : p2 (-536) == 2 * c) by (apply (p2_1 (-537))).
  assert (Hr0 : (0 <= r)%Z).
  { destruct (Z.le_gt_cases 0 r) as [|Hr]; auto. exfalso. apply Qabs_Qle_condition in Hye. destruct Hye as (Hye & _). rewrite Hyv in Hye.
    assert (Hr1 : inject_Z r <= -(1)) by (apply (proj1 (Zle_Q r (-1))); lia). assert (0 < c * c) by nra. nra. }
  apply Qabs_Qle_condition in Hye. destruct Hye as (Y1 & Y2).
  destruct (Z.eq_dec r 0) as [Hr1|Hr1].
  - assert (Hy0 : val y == 0) by (rewrite Hyv, Hr1; change (inject_Z 0) with 0; ring).
    assert (Hz : exists s, y = S754_zero s).
    { destruct y as [s|s| |s m e]; try discriminate; eauto. exfalso. cbn [val] in Hy0. pose proof (p2_pos e).
      assert (0 < inject_Z (Z.pos m) * p2 e) by (apply Qmult_lt_0_compat; auto; reflexivity). destruct s; cbn [signed] in Hy0; lra. }
    destruct Hz as (s & ->). cbn. split; [reflexivity|]. split; [discriminate|].
    change (Qabs (0 - X) <= p2 (-536)). setoid_replace (0 - X) with (- X) by ring. rewrite Qabs_opp, Qabs_pos, H536 by auto.
    rewrite Hy0 in Y1. destruct (Qlt_le_dec (2 * c) X); auto. nra.
  - assert (Hrq : 1 <= inject_Z r) by (apply (proj1 (Zle_Q 1 r)); lia). assert (Hc2 : 0 < c * c) by nra.
    assert (Hyp : 0 < val y) by (rewrite Hyv; nra).
    assert (Hy1 : val y < p2 (2 * -510)).
    { assert (p2 (2 * -510) == 4 * p2 (-1022)) by reflexivity. assert (c * c < p2 (-1022)) by reflexivity. lra. }
    destruct (sqrt_ok y Hy Hyp) as (p & e' & Hn & (Hp0 & Hr) & Hk).
    { eapply Qlt_trans; [exact Hy1|]. reflexivity. }
    specialize (Hk (-510)%Z Hy1). assert (Hw : 0 < p2 (e' - 1)) by apply p2_pos. set (w := p2 (e' - 1)) in *.
    assert (Hw1 : w <= p2 (-564)) by (apply p2_le; lia).
    assert (Hpu : p <= X + c + w).
    { destruct (above (X + c) w Hw) as (j & J1 & J2). assert (Hj : (0 <= j)%Z).
      { destruct (Z.le_gt_cases 0 j) as [|Hj]; auto. exfalso. assert (inject_Z j <= -(1)) by (apply (proj1 (Zle_Q j (-1))); lia). nra. }
      destruct (Hr j Hj) as (_ & R2 & _). cbv zeta in R2. set (b := inject_Z j * w) in *. assert (p < b); [|lra]. apply R2.
      assert ((X + c) * (X + c) < b * b) by nra. assert (X * X + c * c <= (X + c) * (X + c)) by nra. lra. }
    assert (Hpl : X - c - w - w <= p).
    { destruct (Qlt_le_dec (X - c - w) 0); [lra|]. destruct (above (X - c - w) w Hw) as (j & J1 & J2).
      destruct (Qlt_le_dec (inject_Z j * w) (X - c)) as [J3|J3].
      + assert (Hj : (0 <= j)%Z).
        { destruct (Z.le_gt_cases 0 j) as [|Hj]; auto. exfalso. assert (inject_Z j <= -(1)) by (apply (proj1 (Zle_Q j (-1))); lia). nra. }
        destruct (Hr j Hj) as (R1 & _). cbv zeta in R1. set (b := inject_Z j * w) in *. assert (b < p); [|lra]. apply R1.
        assert (b * b < (X - c) * (X - c)) by nra. assert ((X - c) * (X - c) <= X * X - c * c) by nra. lra.
      + (* the multiple is X - c itself *)
        assert (Hj : (0 <= j)%Z).
        { destruct (Z.le_gt_cases 0 j) as [|Hj]; auto. exfalso. assert (inject_Z j <= -(1)) by (apply (proj1 (Zle_Q j (-1))); lia). nra. }
        destruct (Hr j Hj) as (R1 & _). cbv zeta in R1. set (b := inject_Z j * w) in *. assert (b < p); [|lra]. apply R1.
        assert (b * b <= (X - c) * (X - c)) by nra. assert ((X - c) * (X - c) <= X * X - c * c) by nra. lra. }
    pose proof (nearest_err _ _ Hn) as Herr. destruct Hn as (Hz & r2 & e2 & Hzv & Hze & _). set (z := fsqrt y) in *. clearbody z.
    rewrite (Qabs_pos p) in Herr by auto.
    assert (Hz0 : 0 <= val z).
    { rewrite Hzv. pose proof (p2_pos e2) as H2. destruct (Z.le_gt_cases 0 r2) as [Hr2|Hr2].
      - apply Qmult_le_0_compat; [apply (proj1 (Zle_Q 0 _) Hr2)|lra].
      - exfalso. apply Qabs_Qle_condition in Hze. destruct Hze as (Hze & _). rewrite Hzv in Hze.
        assert (inject_Z r2 <= -(1)) by (apply (proj1 (Zle_Q r2 (-1))); lia). nra. }
    split; auto. split; auto. rewrite H536. apply Qabs_Qle_condition in Herr. destruct Herr as (E1 & E2).
    assert (B1 : p <= p2 (-509)).
    { assert (p2 (-509) == 4 * p2 (-511)) by reflexivity. assert (c < p2 (-511)) by reflexivity. assert (p2 (-564) < p2 (-511)) by reflexivity. lra. }
    assert (B2 : ulp * p2 (-509) <= p2 (-562)) by discriminate.
    assert (B3 : ulp * p <= p2 (-562)).
    { eapply Qle_trans; [|exact B2]. rewrite (Qmult_comm ulp p), (Qmult_comm ulp). apply Qmult_le_compat_r; auto; discriminate. }
    assert (B4 : p2 (-562) + tiny + 2 * p2 (-564) <= c) by discriminate.
    apply Qabs_Qle_condition. lra.
Qed.

(* One term of the sum. *)
Theorem root_ok (x : F f64) : is_fin x = true -> Qabs (val x) < p2 511 ->
  is_fin (fsqrt (fmul x x)) = true /\ 0 <= val (fsqrt (fmul x x)) /\ Qabs (val (fsqrt (fmul x x)) - Qabs (val x)) <= p2 (-536).
Proof.
  intros Hf H. destruct (Qlt_le_dec (Qabs (val x)) (p2 (-511))) as [Hs|Hs]; [apply root_small; auto|].
  destruct (root_exact x Hf Hs H) as (H1 & H2). split; auto. rewrite H2. split; [apply Qabs_nonneg|].
  setoid_replace (Qabs (val x) - Qabs (val x)) with 0 by ring. discriminate.
Qed.

Definition slack : Q := p2 (-535).

Lemma term_ok (a b : F f64) : within (p2 500) a -> within (p2 500) b ->
  let d := Qabs (val a - val b) in let t := fsqrt (fmul (fsub a b) (fsub a b)) in
  is_fin t = true /\ 0 <= val t /\ d <= p2 501 /\ Qabs (val t - d) <= ulp * d + (tiny + p2 (-536)).
Proof.
  intros (Fa & Ha) (Fb & Hb). cbv zeta. set (d := Qabs (val a - val b)).
  assert (Hd : d <= p2 501).
  { unfold d. apply Qabs_Qle_condition in Ha. apply Qabs_Qle_condition in Hb. assert (p2 501 == 2 * p2 500) by reflexivity.
    apply Qabs_Qle_condition. lra. }
  assert (Hs : nearest (fsub a b) (val a - val b)).
  { apply sub_ok; auto. fold d. eapply Qle_lt_trans; [exact Hd|]. reflexivity. }
  pose proof (nearest_err _ _ Hs) as He. fold d in He. destruct Hs as (Fx & _). set (x := fsub a b) in *. clearbody x.
  assert (Hd0 : 0 <= d) by apply Qabs_nonneg.
  assert (Hu : ulp * d <= d).
  { assert (ulp <= 1) by discriminate. apply (Qmult_le_compat_r _ _ d) in H; auto. lra. }
  assert (Hxd : Qabs (Qabs (val x) - d) <= ulp * d + tiny).
  { eapply Qle_trans; [|exact He]. unfold d. apply Qabs_Qle_condition. pose proof (Qabs_triangle (val x - (val a - val b)) (val a - val b)) as T1.
    pose proof (Qabs_triangle (val a - val b - val x) (val x)) as T2.
    setoid_replace (val x - (val a - val b) + (val a - val b)) with (val x) in T1 by ring.
    setoid_replace (val a - val b - val x + val x) with (val a - val b) in T2 by ring.
    setoid_replace (val a - val b - val x) with (- (val x - (val a - val b))) in T2 by ring. rewrite Qabs_opp in T2. lra. }
  assert (Hx : Qabs (val x) < p2 511).
  { apply Qabs_Qle_condition in Hxd. assert (p2 501 + p2 501 + tiny < p2 511) by reflexivity. lra. }
  destruct (root_ok x Fx Hx) as (T1 & T2 & T3). set (t := fsqrt (fmul x x)) in *. clearbody t. split; auto. split; auto. split; auto.
  apply Qabs_Qle_condition in Hxd. apply Qabs_Qle_condition in T3. apply Qabs_Qle_condition. lra.
Qed.

Lemma sum_step K S P d p s t : 0 <= K -> K <= 1099511627776 -> Qabs S <= P -> Qabs d <= p ->
  Qabs (s - S) <= (2 * K + 1) * (ulp * P) + K * slack -> Qabs (t - d) <= ulp * p + (tiny + p2 (-536)) ->
  Qabs (s + t) <= 2 * (P + p + slack * (K + 1)) /\
  forall z, Qabs (z - (s + t)) <= ulp * Qabs (s + t) + tiny ->
    Qabs (z - (d + S)) <= (2 * (K + 1) + 1) * (ulp * (p + P)) + (K + 1) * slack.
Proof.
  intros HK0 HK HSP Hdp H1 H2. assert (Hu0 : 0 < ulp) by reflexivity. assert (Ht0 : 0 < slack) by reflexivity.
  assert (HS : 0 <= P) by (pose proof (Qabs_nonneg S); lra). assert (Hd : 0 <= p) by (pose proof (Qabs_nonneg d); lra).
  apply Qabs_Qle_condition in HSP. apply Qabs_Qle_condition in Hdp.
  assert (HuK : (2 * K + 1) * ulp <= 1#4).
  { assert ((2 * 1099511627776 + 1) * ulp <= 1#4) by discriminate. assert ((2 * K + 1) * ulp <= (2 * 1099511627776 + 1) * ulp) by (apply Qmult_le_compat_r; lra). lra. }
  set (a := ulp * P) in *. set (b := ulp * p) in *. assert (Ha0 : 0 <= a) by (unfold a; nra). assert (Hb0 : 0 <= b) by (unfold b; nra).
  assert (Hus : ulp * slack <= (1#8) * slack) by discriminate.
  assert (Htt : tiny + p2 (-536) <= (5#8) * slack) by discriminate. assert (Hty : tiny <= (1#32) * slack) by discriminate.
  assert (Hty0 : 0 < tiny) by reflexivity.
  set (E := (2 * K + 1) * a + K * slack) in *.
  assert (HuE : ulp * E <= (1#4) * a + (1#8) * slack).
  { unfold E. setoid_replace (ulp * ((2 * K + 1) * a + K * slack)) with ((2 * K + 1) * ulp * a + (K * ulp) * slack) by ring.
    assert ((2 * K + 1) * ulp * a <= (1#4) * a) by (apply Qmult_le_compat_r; auto).
    assert (K * ulp * slack <= (1#8) * slack) by (apply Qmult_le_compat_r; [lra|apply Qlt_le_weak; auto]). lra. }
  assert (HE1 : (2 * K + 1) * a <= (1#4) * P).
  { unfold a. setoid_replace ((2 * K + 1) * (ulp * P)) with ((2 * K + 1) * ulp * P) by ring. apply Qmult_le_compat_r; auto. }
  assert (HKs : 0 <= K * slack) by nra. assert (Hbd : b <= (1#8) * p). { unfold b. apply Qmult_le_compat_r; [discriminate|auto]. }
  assert (Hst : Qabs (s + t) <= P + E + p + b + (tiny + p2 (-536))).
  { apply Qabs_Qle_condition in H1. apply Qabs_Qle_condition in H2. apply Qabs_Qle_condition. lra. }
  split.
  - eapply Qle_trans; [exact Hst|]. unfold E. setoid_replace (2 * (P + p + slack * (K + 1))) with (2 * P + 2 * p + 2 * (K * slack) + 2 * slack) by ring. lra.
  - intros z Hz. assert (Hub : ulp * b <= (1#8) * b) by (apply Qmult_le_compat_r; auto; discriminate).
    assert (Hust : ulp * Qabs (s + t) <= a + ((1#4) * a + (1#8) * slack) + b + (1#8) * b + (1#8) * slack).
    { eapply Qle_trans; [rewrite Qmult_comm; apply Qmult_le_compat_r; [exact Hst|apply Qlt_le_weak; auto]|].
      setoid_replace ((P + E + p + b + (tiny + p2 (-536))) * ulp) with (a + ulp * E + b + ulp * b + ulp * (tiny + p2 (-536))) by (unfold a, b; ring).
      assert (ulp * (tiny + p2 (-536)) <= ulp * slack) by discriminate. lra. }
    setoid_replace ((2 * (K + 1) + 1) * (ulp * (p + P)) + (K + 1) * slack) with ((2 * K + 1) * a + 2 * a + 2 * (K * b) + 3 * b + K * slack + slack) by (unfold a, b; ring).
    assert (0 <= K * b) by nra.
    apply Qabs_Qle_condition in Hz. apply Qabs_Qle_condition in H1. apply Qabs_Qle_condition in H2. unfold E in H1. apply Qabs_Qle_condition. lra.
Qed.

Lemma Qcount k : inject_Z (Z.of_nat (Datatypes.S k)) == inject_Z (Z.of_nat k) + 1.
Proof. rewrite Nat2Z.inj_succ. unfold Z.succ. rewrite inject_Z_plus. reflexivity. Qed.

Lemma dist_loop : forall (l : list (F f64 * F f64)) k s S, is_fin s = true -> 0 <= S -> S <= inject_Z (Z.of_nat k) * p2 501 ->
  (Z.of_nat (k + length l) <= 2 ^ 40)%Z -> Forall (fun p => within (p2 500) (fst p) /\ within (p2 500) (snd p)) l ->
  Qabs (val s - S) <= (2 * inject_Z (Z.of_nat k) + 1) * (ulp * S) + inject_Z (Z.of_nat k) * slack ->
  let z := fold_left (fun r p => fadd r (fsqrt (fmul (fsub (fst p) (snd p)) (fsub (fst p) (snd p))))) l s in
  let D := apart l + S in let n := inject_Z (Z.of_nat (k + length l)) in
  is_fin z = true /\ Qabs (val z - D) <= (2 * n + 1) * (ulp * D) + n * slack.
Proof.
  induction l as [|[a b] l IH]; intros k s S Fs HS HSk Hk Hl He; cbn [fold_left apart fold_right length fst snd].
  - rewrite Nat.add_0_r. cbv zeta. rewrite Qplus_0_l. split; auto.
  - inversion Hl; subst. cbn [fst snd] in *. cbn [length] in Hk. destruct H1 as (Ha & Hb).
    destruct (term_ok a b Ha Hb) as (T1 & T2 & T3 & T4). cbv zeta in T1, T2, T3, T4. set (t := fsqrt (fmul (fsub a b) (fsub a b))) in *. set (d := Qabs (val a - val b)) in *.
    assert (Hd0 : 0 <= d) by apply Qabs_nonneg. set (K := inject_Z (Z.of_nat k)) in *.
    assert (HK0 : 0 <= K) by (apply (proj1 (Zle_Q 0 _)); lia). assert (HK : K <= 1099511627776) by (apply (proj1 (Zle_Q _ 1099511627776)); lia).
    assert (HSP : Qabs S <= S) by (rewrite Qabs_pos; lra). assert (Hdp : Qabs d <= d) by (rewrite Qabs_pos; lra).
    destruct (sum_step K S S d d (val s) (val t) HK0 HK HSP Hdp He T4) as (U1 & U2).
    assert (Hadd : nearest (@fadd f64 s t) (val s + val t)).
    { apply add_ok; auto. eapply Qle_lt_trans; [exact U1|]. assert (p2 501 * 1099511627776 + p2 501 + slack * (1099511627776 + 1) < p2 1022) by reflexivity.
      assert (p2 1023 == 2 * p2 1022) by (apply (p2_1 1022)). assert (0 < p2 501) by reflexivity. assert (0 < slack) by reflexivity.
      assert (K * p2 501 <= 1099511627776 * p2 501) by (apply Qmult_le_compat_r; lra).
      assert (K * slack <= 1099511627776 * slack) by (apply Qmult_le_compat_r; lra). lra. }
    pose proof (U2 _ (nearest_err _ _ Hadd)) as U3. destruct Hadd as (Fz & _).
    destruct (IH (Datatypes.S k) (@fadd f64 s t) (d + S)) as (V1 & V2).
    + exact Fz.
    + lra.
    + rewrite Qcount. fold K. rewrite Qmult_plus_distr_l. lra.
    + lia.
    + auto.
    + rewrite Qcount. fold K. exact U3.
    + cbv zeta in V1, V2. fold (apart l). replace (k + Datatypes.S (length l))%nat with (Datatypes.S k + length l)%nat by lia. split; auto.
      assert (HD : apart l + (d + S) == d + apart l + S) by ring. rewrite HD in V2. exact V2.
Qed.

Theorem dist_ieee (a b : vec f64) : length a = length b -> (Z.of_nat (length a) <= 2 ^ 40)%Z ->
  Forall (within (p2 500)) a -> Forall (within (p2 500)) b ->
  exists d, euclidean_distance a b = Some d /\ is_fin d = true /\
    let D := apart (combine a b) in let n := inject_Z (Z.of_nat (length a)) in
    Qabs (val d - D) <= (2 * n + 1) * ulp * D + n * p2 (-535).
Proof.
  intros Hl Hn Ha Hb. unfold euclidean_distance. rewrite Hl, Nat.eqb_refl. eexists. split; [reflexivity|].
  assert (Hc : length (combine a b) = length b) by (rewrite combine_length; lia).
  destruct (dist_loop (combine a b) 0 (@f0 f64) 0) as (H1 & H2); auto.
  - discriminate.
  - discriminate.
  - rewrite Nat.add_0_l, Hc, <- Hl. exact Hn.
  - apply Forall_forall. intros [x y] Hp. rewrite Forall_forall in Ha, Hb. split; [apply Ha; eapply in_combine_l; eauto|apply Hb; eapply in_combine_r; eauto].
  - discriminate.
  - split; auto. cbv zeta in *. rewrite Nat.add_0_l, Hc in H2. rewrite Qplus_0_r in H2. rewrite <- Qmult_assoc. exact H2.
Qed.
