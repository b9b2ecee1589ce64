(* Searches in binary64: the best up to rounding. *)
From Coq Require Import List ZArith QArith Qabs Qreals Reals SpecFloat Lia Lqa.
From Verif Require Import Base Num NumFacts MathUtils Knn SearchSpec KnnProofs FloatSpec FloatRound FloatOps DistSpec FloatSqrt FloatTerm FloatDist FloatDot FloatCos.
Local Open Scope Q_scope.

(* Finite numbers are compared by what they stand for. *)
Lemma exponents_lt m e n f : bounded prec64 emax64 m e = true -> bounded prec64 emax64 n f = true -> (e < f)%Z ->
  inject_Z (Z.pos m) * p2 e < inject_Z (Z.pos n) * p2 f.
Proof.
  intros Hm Hn Hef. destruct (fin_canonical _ _ Hm) as (_ & M2 & M3). destruct (fin_canonical _ _ Hn) as (N1 & N2 & N3).
  destruct N1 as [N1|N1]; [|lia]. destruct (digits_Z (Z.pos m) eq_refl) as ((A1 & A2) & _). destruct (digits_Z (Z.pos n) eq_refl) as ((B1 & B2) & _).
  apply Qlt_le_trans with (p2 53 * p2 e).
  - apply Qmult_lt_compat_r; [apply p2_pos|]. rewrite p2_Z by lia. apply (proj1 (Zlt_Q _ _)). eapply Z.lt_le_trans; [exact A2|]. apply Z.pow_le_mono_r; lia.
  - apply Qle_trans with (p2 52 * p2 f).
    + rewrite <- !p2_plus. apply p2_le. lia.
    + apply Qmult_le_compat_r; [|apply Qlt_le_weak, p2_pos]. rewrite p2_Z by lia. apply (proj1 (Zle_Q _ _)). rewrite N1 in B1. exact B1.
Qed.
Lemma same_exponent m n e : inject_Z (Z.pos m) * p2 e < inject_Z (Z.pos n) * p2 e <-> (m < n)%positive.
Proof. rewrite Q_scale_lt by apply p2_pos. rewrite <- Zlt_Q. lia. Qed.

Lemma compare_fin x y : is_fin x = true -> is_fin y = true -> SFltb x y = true <-> val x < val y.
Proof.
  assert (Hp : forall m e, 0 < inject_Z (Z.pos m) * p2 e) by (intros m e; apply Qmult_lt_0_compat; [reflexivity|apply p2_pos]).
  assert (Hc : forall m e n f, bounded prec64 emax64 m e = true -> bounded prec64 emax64 n f = true ->
    (match Z.compare e f with Lt => Lt | Gt => Gt | Eq => Pos.compare_cont Eq m n end = Lt <-> inject_Z (Z.pos m) * p2 e < inject_Z (Z.pos n) * p2 f) /\
    (match Z.compare e f with Lt => Lt | Gt => Gt | Eq => Pos.compare_cont Eq m n end = Gt <-> inject_Z (Z.pos n) * p2 f < inject_Z (Z.pos m) * p2 e)).
  { intros m e n f Hm Hn. destruct (Z.compare_spec e f) as [->|H|H].
    - change (Pos.compare_cont Eq m n) with (Pos.compare m n). rewrite !same_exponent. split; [reflexivity|]. rewrite Pos.compare_gt_iff. reflexivity.
    - pose proof (exponents_lt m e n f Hm Hn H). split; split; intros; auto; try discriminate. lra.
    - pose proof (exponents_lt n f m e Hn Hm H). split; split; intros; auto; try discriminate. lra. }
  intros Hx Hy. unfold SFltb. destruct x as [s|s| |s m e], y as [t|t| |t n f]; try discriminate; cbn [SFcompare val signed is_fin] in *.
  - split; [discriminate|]. intros H. exfalso. lra.
  - pose proof (Hp n f). destruct t; cbn [signed]; split; intros; auto; try discriminate; exfalso; lra.
  - pose proof (Hp m e). destruct s; cbn [signed]; split; intros; auto; try discriminate; try lra.
  - destruct (Hc m e n f Hx Hy) as (C1 & C2). pose proof (Hp m e). pose proof (Hp n f). destruct s, t; cbn [signed].
    + assert (E : (- (inject_Z (Z.pos m) * p2 e) < - (inject_Z (Z.pos n) * p2 f)) <-> inject_Z (Z.pos n) * p2 f < inject_Z (Z.pos m) * p2 e) by (split; intros; lra).
      rewrite E, <- C2. destruct (e ?= f)%Z; cbn [CompOpp]; try (split; intros; discriminate || reflexivity).
      destruct (Pos.compare_cont Eq m n); cbn [CompOpp]; split; intros; discriminate || reflexivity.
    + split; auto. intros _. lra.
    + split; [discriminate|]. intros. exfalso. lra.
    + rewrite <- C1. destruct (e ?= f)%Z; try (split; intros; discriminate || reflexivity).
      destruct (Pos.compare_cont Eq m n); split; intros; discriminate || reflexivity.
Qed.

(* A search over finite scores of moderate size ranks everything, and compares values. *)
Lemma fin_search dist asc (target : vec f64) pool k : (0 <= k)%Z ->
  (forall v, In v pool -> exists s, dist target v = Some s /\ is_fin s = true /\ Qabs (val s) < p2 1000) ->
  exists idx, knn_brute dist asc target pool k = Ok idx /\ NoDup idx /\ length idx = Nat.min (Z.to_nat k) (length pool) /\
    (forall i, In i idx -> i < length pool)%nat /\
    forall i j v w s r, In i idx -> ~ In j idx -> nth_error pool i = Some v -> nth_error pool j = Some w ->
      dist target v = Some s -> dist target w = Some r -> if asc then val s <= val r else val r <= val s.
Proof.
  intros Hk Hd. destruct (knn_brute_bestk f64_ord dist asc target pool k Hk) as (idx & H1 & [B1 B2 B3 B4 B5 B6]).
  assert (Hs : is_fin (@sentinel f64 asc) = true /\ val (@sentinel f64 asc) == if asc then val (@fmaxv f64) else - val (@fmaxv f64)) by (destruct asc; split; reflexivity).
  assert (Hmax : p2 1000 < val (@fmaxv f64)) by reflexivity.
  assert (Hb : forall x y : F f64, is_fin x = true -> is_fin y = true -> better asc x y = true <-> if asc then val x < val y else val y < val x).
  { intros x y Fx Fy. unfold better. change (@fltb f64) with SFltb. destruct asc; apply compare_fin; auto. }
  assert (Hr : forall i v s, nth_error pool i = Some v -> dist target v = Some s -> is_fin s = true /\ rankable dist asc target pool i s).
  { intros i v s Hi Hds. destruct (Hd v (nth_error_In _ _ Hi)) as (s' & D1 & D2 & D3). rewrite Hds in D1. injection D1 as <-. split; auto.
    exists v. split; auto. split; auto. destruct Hs as (S1 & S2). apply (Hb s); auto. apply Qabs_Qlt_condition in D3. destruct asc; lra. }
  assert (Hall : forall j, (j < length pool)%nat -> exists v s, nth_error pool j = Some v /\ dist target v = Some s /\ rankable dist asc target pool j s).
  { intros j Hj. destruct (nth_error pool j) as [v|] eqn:Hv; [|apply nth_error_None in Hv; lia].
    destruct (Hd v (nth_error_In _ _ Hv)) as (s & D1 & _). exists v, s. split; auto. split; auto. apply (Hr j v s Hv D1). }
  assert (Hlt : forall i, In i idx -> (i < length pool)%nat).
  { intros i Hi. destruct (B2 i Hi) as (s & v & Hv & _). apply nth_error_Some. congruence. }
  exists idx. split; auto. split; auto. split; [|split; auto].
  - assert (Hle : (length idx <= length pool)%nat).
    { rewrite <- (seq_length (length pool) 0). apply NoDup_incl_length; auto. intros i Hi. apply in_seq. specialize (Hlt i Hi). lia. }
    destruct (Nat.lt_ge_cases (length idx) (Z.to_nat k)) as [Hl|Hl]; [|lia].
    assert (Hge : (length pool <= length idx)%nat); [|lia].
    rewrite <- (seq_length (length pool) 0) at 1. apply NoDup_incl_length; [apply seq_NoDup|]. intros j Hj. apply in_seq in Hj.
    destruct (Hall j) as (v & s & _ & _ & X); [lia|]. exact (B4 Hl j s X).
  - intros i j v w s r Hi Hj Hv Hw Hs' Hr'. destruct (Hr i v s Hv Hs') as (F1 & R1). destruct (Hr j w r Hw Hr') as (F2 & R2).
    pose proof (B6 i j s r Hi Hj R1 R2) as Hbad. specialize (Hb r s F2 F1).
    destruct asc; [destruct (Qlt_le_dec (val r) (val s)) as [H|H]; auto|destruct (Qlt_le_dec (val s) (val r)) as [H|H]; auto];
      apply Hb in H; rewrite Hbad in H; discriminate H.
Qed.

Lemma fin_dist D d n : 0 <= D -> D <= n * p2 501 -> 0 <= n -> n <= 1099511627776 ->
  Qabs (d - D) <= (2 * n + 1) * ulp * D + n * p2 (-535) -> Qabs d < p2 1000.
Proof.
  intros H0 H1 H2 H3 H4. assert (Hu : 0 < ulp) by reflexivity. assert (Hp : 0 < p2 501) by reflexivity. assert (Ht : 0 < p2 (-535)) by reflexivity.
  assert (HuK : (2 * n + 1) * ulp <= 1).
  { assert ((2 * 1099511627776 + 1) * ulp <= 1) by discriminate. assert ((2 * n + 1) * ulp <= (2 * 1099511627776 + 1) * ulp) by (apply Qmult_le_compat_r; lra). lra. }
  assert ((2 * n + 1) * ulp * D <= 1 * D) by (apply Qmult_le_compat_r; auto).
  assert (n * p2 501 <= 1099511627776 * p2 501) by (apply Qmult_le_compat_r; lra). assert (n * p2 (-535) <= 1099511627776 * p2 (-535)) by (apply Qmult_le_compat_r; lra).
  assert (2 * (1099511627776 * p2 501) + 1099511627776 * p2 (-535) < p2 1000) by reflexivity.
  apply Qabs_Qle_condition in H4. apply Qabs_Qlt_condition. lra.
Qed.
Lemma apart_bounds a b : Forall (within (p2 500)) a -> Forall (within (p2 500)) b ->
  0 <= apart (combine a b) /\ apart (combine a b) <= inject_Z (Z.of_nat (length a)) * p2 501.
Proof.
  revert b. induction a as [|x a IH]; intros [|y b] Ha Hb; cbn [combine apart fold_right].
  - split; discriminate.
  - split; discriminate.
  - split; [discriminate|]. apply Qmult_le_0_compat; [apply (proj1 (Zle_Q 0 _)); lia|discriminate].
  - inversion Ha; inversion Hb; subst. destruct (IH b) as (I1 & I2); auto. fold (apart (combine a b)). cbn [fst snd length]. rewrite Qcount, Qmult_plus_distr_l.
    destruct H1 as (_ & X). destruct H5 as (_ & Y). pose proof (Qabs_nonneg (val x - val y)).
    assert (Qabs (val x - val y) <= p2 501).
    { apply Qabs_Qle_condition in X. apply Qabs_Qle_condition in Y. assert (p2 501 == 2 * p2 500) by reflexivity. apply Qabs_Qle_condition. lra. }
    lra.
Qed.

Theorem euclidean_search (near : bool) (target : vec f64) (pool : list (vec f64)) k : (0 <= k)%Z ->
  (Z.of_nat (length target) <= 2 ^ 40)%Z -> Forall (within (p2 500)) target ->
  Forall (fun v => length v = length target /\ Forall (within (p2 500)) v) pool ->
  exists idx, (if near then knn_euc target pool k else kfn_euc target pool k) = Ok idx /\
    NoDup idx /\ length idx = Nat.min (Z.to_nat k) (length pool) /\ (forall i, In i idx -> i < length pool)%nat /\
    forall i j v w, In i idx -> ~ In j idx -> nth_error pool i = Some v -> nth_error pool j = Some w ->
      let n := inject_Z (Z.of_nat (length target)) in let e := (2 * n + 1) * ulp in
      let far := if near then apart (combine target v) else apart (combine target w) in
      let close := if near then apart (combine target w) else apart (combine target v) in
      (1 - e) * far <= (1 + e) * close + 2 * n * p2 (-535).
Proof.
  intros Hk Hn Ht Hp. rewrite Forall_forall in Hp. set (n := inject_Z (Z.of_nat (length target))).
  assert (Hn0 : 0 <= n) by (apply (proj1 (Zle_Q 0 _)); lia). assert (Hn1 : n <= 1099511627776) by (apply (proj1 (Zle_Q _ 1099511627776)); exact Hn).
  assert (Hd : forall v, In v pool -> exists s, euclidean_distance target v = Some s /\ is_fin s = true /\ Qabs (val s) < p2 1000 /\
    Qabs (val s - apart (combine target v)) <= (2 * n + 1) * ulp * apart (combine target v) + n * p2 (-535)).
  { intros v Hv. destruct (Hp v Hv) as (Hl & Hw). destruct (dist_ieee target v (eq_sym Hl) Hn Ht Hw) as (d & D1 & D2 & D3). cbv zeta in D3. fold n in D3.
    exists d. split; auto. split; auto. split; auto. destruct (apart_bounds target v Ht Hw) as (A1 & A2). exact (fin_dist _ _ n A1 A2 Hn0 Hn1 D3). }
  destruct (fin_search euclidean_distance near target pool k Hk) as (idx & H1 & H2 & H3 & H4 & H5).
  { intros v Hv. destruct (Hd v Hv) as (s & D1 & D2 & D3 & _). exists s. auto. }
  exists idx. split; [destruct near; exact H1|]. split; auto. split; auto. split; auto. intros i j v w Hi Hj Hv Hw. cbv zeta.
  destruct (Hd v (nth_error_In _ _ Hv)) as (s & D1 & _ & _ & D2). destruct (Hd w (nth_error_In _ _ Hw)) as (r & R1 & _ & _ & R2).
  specialize (H5 i j v w s r Hi Hj Hv Hw D1 R1). apply Qabs_Qle_condition in D2. apply Qabs_Qle_condition in R2.
  set (e := (2 * n + 1) * ulp) in *. set (X := apart (combine target v)) in *. set (Y := apart (combine target w)) in *.
  destruct near; lra.
Qed.
