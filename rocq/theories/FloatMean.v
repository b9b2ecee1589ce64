(* The running mean of a centroid in binary64 arithmetic: how far it strays from the mean. *)
From Coq Require Import List ZArith QArith Qabs Qpower SpecFloat Lia Lqa Setoid Morphisms.
From Verif Require Import Base Num MathUtils Env Centroid CHistory DataSpec DataFacts Wp Exact CentroidProofs FloatSpec FloatRound FloatOps.
Local Open Scope Q_scope.

Lemma near_le z x K : nearest z x -> Qabs x <= K -> Qabs (val z - x) <= ulp * K + tiny.
Proof. intros H HK. apply nearest_err in H. pose proof ulp_pos. nra. Qed.
Lemma abs_le a b : Qabs a <= b <-> - b <= a /\ a <= b.
Proof. apply Qabs_Qle_condition. Qed.

Lemma one_ok : is_fin (@f1 f64) = true /\ val (@f1 f64) == inject_Z 1.
Proof. vm_compute. auto. Qed.

Section Scalar.
Context (B : Q) (HB1 : p2 (-1022) <= B) (HB2 : B <= p2 990).
Definition u : Q := ulp * B.

Lemma B_pos : 0 < B.
Proof using HB1. pose proof (p2_pos (-1022)). lra. Qed.
Lemma tiny_u : tiny <= u.
Proof using HB1.
  unfold u. assert (H : tiny == ulp * p2 (-1022)) by (unfold tiny, ulp; rewrite <- p2_plus; reflexivity). rewrite H.
  pose proof ulp_pos. nra.
Qed.
Lemma u_pos : 0 < u.
Proof using HB1. unfold u. pose proof B_pos. pose proof ulp_pos. nra. Qed.
Lemma u_small : u * 9007199254740992 == B.
Proof. unfold u. assert (H : ulp * 9007199254740992 == 1) by reflexivity. setoid_replace B with (1 * B) at 2 by ring. rewrite <- H. ring. Qed.
Lemma far x k : 0 <= k <= 16777300 -> Qabs x <= k * B -> Qabs x < p2 1023.
Proof using HB1 HB2.
  intros Hk Hx. eapply Qle_lt_trans; [exact Hx|]. eapply Qle_lt_trans with (p2 25 * p2 990); [|reflexivity].
  change (p2 25) with 33554432. pose proof B_pos. nra.
Qed.

(* What a computed step may be away from the exact one. *)
Lemma near_k z x k : nearest z x -> Qabs x <= k * B -> Qabs (val z - x) <= (k + 1) * u.
Proof using HB1.
  intros H Hx. apply (near_le _ _ _ H) in Hx. pose proof tiny_u. unfold u in *.
  setoid_replace ((k + 1) * (ulp * B)) with (ulp * (k * B) + ulp * B) by ring. lra.
Qed.

(* (v * n + x) / m, where m is n + 1 and z is fmul v k. *)
Context (n : nat) (Hn : (Z.of_nat n <= 2 ^ 24)%Z).
Notation N := (inject_Z (Z.of_nat n)).
Lemma N_bounds : 0 <= N /\ N <= 16777216.
Proof using Hn. change 0 with (inject_Z 0). change 16777216 with (inject_Z (2 ^ 24)). rewrite <- !Zle_Qle. lia. Qed.

Lemma step_err (z b c : spec_float) (nv x sum W M : Q) :
  Qabs (nv - sum) <= W -> W <= B -> Qabs sum <= N * B -> Qabs x <= B -> 0 < M -> M <= N + 1 ->
  nearest z nv -> nearest b (val z + x) -> nearest c (val b / M) ->
  Qabs (M * val c - (sum + x)) <= W + (4 * N + 11) * u.
Proof using HB1 HB2 Hn.
  intros Hv HW Hs Hx HM0 HM Hz Hb Hc. destruct N_bounds as (N0 & N1). pose proof u_pos as U. pose proof u_small as US. pose proof B_pos as BP.
  assert (H1 : Qabs nv <= (N + 1) * B). { apply abs_le in Hv, Hs. apply abs_le. split; nra. }
  pose proof (near_k _ _ _ Hz H1) as E1.
  assert (H2 : Qabs (val z + x) <= (N + 3) * B).
  { apply abs_le in E1, H1, Hx. apply abs_le. split; nra. }
  pose proof (near_k _ _ _ Hb H2) as E2.
  assert (H3 : Qabs (val b) <= (N + 4) * B).
  { apply abs_le in E2, H2. apply abs_le. split; nra. }
  assert (E3 : Qabs (M * val c - val b) <= (N + 4) * u + M * u).
  { apply nearest_err in Hc. setoid_replace (M * val c - val b) with (M * (val c - val b / M)) by (field; lra).
    rewrite Qabs_Qmult, (Qabs_pos M) by lra.
    assert (Hd : M * Qabs (val b / M) == Qabs (val b)).
    { setoid_replace (val b) with (M * (val b / M)) at 2 by (field; lra). rewrite Qabs_Qmult, (Qabs_pos M) by lra. reflexivity. }
    assert (Hm : M * Qabs (val c - val b / M) <= M * (ulp * Qabs (val b / M) + tiny)) by nra.
    setoid_replace (M * (ulp * Qabs (val b / M) + tiny)) with (ulp * (M * Qabs (val b / M)) + M * tiny) in Hm by ring. rewrite Hd in Hm.
    pose proof tiny_u. pose proof ulp_pos.
    assert (ulp * Qabs (val b) <= (N + 4) * u). { unfold u. setoid_replace ((N + 4) * (ulp * B)) with (ulp * ((N + 4) * B)) by ring. nra. }
    nra. }
  apply abs_le in E1, E2, E3, Hv. apply abs_le. split; nra.
Qed.

Lemma add_fin (v x k m : F f64) (sum W : Q) :
  is_fin v = true -> within B x -> is_fin k = true -> val k == N -> is_fin m = true -> val m == N + 1 ->
  Qabs (N * val v - sum) <= W -> W <= B -> Qabs sum <= N * B ->
  let c := fdiv (fadd (fmul v k) x) m in
  is_fin c = true /\ Qabs ((N + 1) * val c - (sum + val x)) <= W + (4 * N + 11) * u.
Proof using HB1 HB2 Hn.
  intros Fv (Fx & Hx) Fk Hk Fm Hm Hv HW Hs. cbv zeta. destruct N_bounds as (N0 & N1). pose proof u_pos as U. pose proof u_small as US. pose proof B_pos as BP.
  assert (H1 : Qabs (N * val v) <= (N + 1) * B). { apply abs_le in Hv, Hs. apply abs_le. split; nra. }
  assert (Z1 : nearest (fmul v k) (N * val v)).
  { eapply nearest_eq; [|apply mul_ok; auto]; [rewrite Hk; ring|]. rewrite Hk, Qmult_comm. apply (far _ (N + 1)); [lra|exact H1]. }
  pose proof (near_k _ _ _ Z1 H1) as E1.
  assert (H2 : Qabs (val (fmul v k) + val x) <= (N + 3) * B). { apply abs_le in E1, H1, Hx. apply abs_le. split; nra. }
  assert (Z2 : nearest (fadd (fmul v k) x) (val (fmul v k) + val x)).
  { apply add_ok; auto; [exact (proj1 Z1)|]. apply (far _ (N + 3)); [lra|exact H2]. }
  pose proof (near_k _ _ _ Z2 H2) as E2.
  assert (H3 : Qabs (val (fadd (fmul v k) x)) <= (N + 4) * B). { apply abs_le in E2, H2. apply abs_le. split; nra. }
  assert (Z3 : nearest (fdiv (fadd (fmul v k) x) m) (val (fadd (fmul v k) x) / (N + 1))).
  { eapply nearest_eq; [|apply div_ok; auto].
    - rewrite Hm. reflexivity.
    - exact (proj1 Z2).
    - rewrite Hm. lra.
    - rewrite Hm. apply (far _ (N + 4)); [lra|]. unfold Qdiv. rewrite Qabs_Qmult.
      assert (Hi : Qabs (/ (N + 1)) <= 1).
      { rewrite Qabs_pos by (apply Qinv_le_0_compat; lra). apply Qle_shift_inv_r; lra. }
      pose proof (Qabs_nonneg (val (fadd (fmul v k) x))). pose proof (Qabs_nonneg (/ (N + 1))). nra. }
  split; [exact (proj1 Z3)|]. eapply step_err; eauto; lra.
Qed.

Lemma rm_fin (v x k m : F f64) (sum W : Q) :
  is_fin v = true -> within B x -> is_fin k = true -> val k == N -> is_fin m = true -> val m == N - 1 -> 2 <= N ->
  Qabs (N * val v - sum) <= W -> W <= B -> Qabs sum <= N * B ->
  let c := fdiv (fsub (fmul v k) x) m in
  is_fin c = true /\ Qabs ((N - 1) * val c - (sum - val x)) <= W + (4 * N + 11) * u.
Proof using HB1 HB2 Hn.
  intros Fv (Fx & Hx) Fk Hk Fm Hm H2N Hv HW Hs. cbv zeta. destruct N_bounds as (N0 & N1). pose proof u_pos as U. pose proof u_small as US. pose proof B_pos as BP.
  assert (H1 : Qabs (N * val v) <= (N + 1) * B). { apply abs_le in Hv, Hs. apply abs_le. split; nra. }
  assert (Z1 : nearest (fmul v k) (N * val v)).
  { eapply nearest_eq; [|apply mul_ok; auto]; [rewrite Hk; ring|]. rewrite Hk, Qmult_comm. apply (far _ (N + 1)); [lra|exact H1]. }
  pose proof (near_k _ _ _ Z1 H1) as E1.
  assert (H2 : Qabs (val (fmul v k) - val x) <= (N + 3) * B). { apply abs_le in E1, H1, Hx. apply abs_le. split; nra. }
  assert (Z2 : nearest (fsub (fmul v k) x) (val (fmul v k) - val x)).
  { apply sub_ok; auto; [exact (proj1 Z1)|]. apply (far _ (N + 3)); [lra|exact H2]. }
  pose proof (near_k _ _ _ Z2 H2) as E2.
  assert (H3 : Qabs (val (fsub (fmul v k) x)) <= (N + 4) * B). { apply abs_le in E2, H2. apply abs_le. split; nra. }
  assert (Z3 : nearest (fdiv (fsub (fmul v k) x) m) (val (fsub (fmul v k) x) / (N - 1))).
  { eapply nearest_eq; [|apply div_ok; auto].
    - rewrite Hm. reflexivity.
    - exact (proj1 Z2).
    - rewrite Hm. lra.
    - rewrite Hm. apply (far _ (N + 4)); [lra|]. unfold Qdiv. rewrite Qabs_Qmult.
      assert (Hi : Qabs (/ (N - 1)) <= 1).
      { rewrite Qabs_pos by (apply Qinv_le_0_compat; lra). apply Qle_shift_inv_r; lra. }
      pose proof (Qabs_nonneg (val (fsub (fmul v k) x))). pose proof (Qabs_nonneg (/ (N - 1))). nra. }
  split; [exact (proj1 Z3)|].
  assert (Hx' : Qabs (- val x) <= B) by (rewrite Qabs_opp; exact Hx).
  pose proof (step_err (fmul v k) (fsub (fmul v k) x) (fdiv (fsub (fmul v k) x) m) (N * val v) (- val x) sum W (N - 1) Hv HW Hs Hx') as H.
  apply H; auto; lra.
Qed.
End Scalar.

(* ---- sums of coordinates ---- *)
Lemma total_perm j vs ws : Permutation vs ws -> total j vs == total j ws.
Proof.
  unfold total. induction 1; cbn [fold_right]; [reflexivity|rewrite IHPermutation; reflexivity|ring|].
  rewrite IHPermutation1. exact IHPermutation2.
Qed.
Lemma total_app j vs ws : total j (vs ++ ws) == total j vs + total j ws.
Proof. unfold total. induction vs as [|v vs IH]; cbn [fold_right app]; [ring|]. rewrite IH. ring. Qed.
Lemma total_cons j v vs : total j (v :: vs) = val (nth j v (S754_zero false)) + total j vs.
Proof. reflexivity. Qed.
Lemma nth_within B v j : Forall (within B) v -> (j < length v)%nat -> within B (nth j v (S754_zero false)).
Proof. intros H Hj. rewrite Forall_forall in H. apply H, nth_In, Hj. Qed.
Lemma len_S {A} (x : A) l : inject_Z (Z.of_nat (length (x :: l))) == inject_Z (Z.of_nat (length l)) + 1.
Proof. cbn [length]. rewrite Nat2Z.inj_succ. unfold Z.succ. rewrite inject_Z_plus. reflexivity. Qed.
Lemma total_bound B j vs : Forall (fun v => Forall (within B) v /\ (j < length v)%nat) vs ->
  Qabs (total j vs) <= inject_Z (Z.of_nat (length vs)) * B.
Proof.
  induction 1 as [|v vs (Hv & Hj) _ IH]; [change (0 <= 0 * B); lra|]. rewrite total_cons, len_S.
  destruct (nth_within B v j Hv Hj) as (_ & Hx). eapply Qle_trans; [apply Qabs_triangle|]. lra.
Qed.

Section Mean.
Context (E : Env f64) (HE : EnvOk E).
Context (B : Q) (HB1 : p2 (-1022) <= B) (HB2 : B <= p2 990) (dim : nat).
Notation Cen := (Centroid f64).
Notation z0 := (S754_zero false).
Notation U := (u B).
Notation NQ n := (inject_Z (Z.of_nat n)).

Definition good_dp (d : DataPoint f64) : Prop := Forall (within B) (dp_vec d).
(* The error of n times the vector, after a datapoints have been added and a - n removed. *)
Definition bound (a n : nat) : Q := 11 * (2 * NQ a - NQ n) * NQ a * U.
Definition near (a : nat) (c : Cen) : Prop :=
  (length (c_dps c) <= a)%nat /\ Forall good_dp (c_dps c) /\
  forall j, (j < dim)%nat -> is_fin (nth j (c_vec c) z0) = true /\
    Qabs (NQ (length (c_dps c)) * val (nth j (c_vec c) z0) - total j (map dp_vec (c_dps c))) <= bound a (length (c_dps c)).
Definition inv (a : nat) (c : Cen) : Prop := cwf dim c /\ ((Z.of_nat a <= 2 ^ 24)%Z -> near a c).

Lemma NQ_le a b : (a <= b)%nat -> NQ a <= NQ b.
Proof. intros H. rewrite <- Zle_Qle. lia. Qed.
Lemma NQ_0 a : 0 <= NQ a.
Proof. change 0 with (NQ 0). apply NQ_le. lia. Qed.
Lemma NQ_S a : NQ (S a) == NQ a + 1.
Proof. rewrite Nat2Z.inj_succ. unfold Z.succ. rewrite inject_Z_plus. reflexivity. Qed.
Lemma NQ_max a : (Z.of_nat a <= 2 ^ 24)%Z -> NQ a <= 16777216.
Proof. intros H. change 16777216 with (inject_Z (2 ^ 24)). rewrite <- Zle_Qle. exact H. Qed.

Lemma bound_B a n : (n <= a)%nat -> (Z.of_nat a <= 2 ^ 24)%Z -> bound a n <= B.
Proof using HB1.
  intros Hn Ha. unfold bound. pose proof (NQ_le _ _ Hn). pose proof (NQ_max _ Ha). pose proof (NQ_0 n). pose proof (NQ_0 a).
  pose proof (u_small B) as US. pose proof (u_pos B HB1) as UP. set (x := NQ a) in *. set (y := NQ n) in *.
  assert (H3 : 11 * (2 * x - y) * x <= 9007199254740992).
  { eapply Qle_trans with (22 * 16777216 * 16777216); [nra|discriminate]. }
  set (K := 11 * (2 * x - y) * x) in *. assert (K * U <= 9007199254740992 * U) by (apply Qmult_le_compat_r; lra). lra.
Qed.
Lemma sum_le c j : cwf dim c -> Forall good_dp (c_dps c) -> (j < dim)%nat ->
  Qabs (total j (map dp_vec (c_dps c))) <= NQ (length (c_dps c)) * B.
Proof.
  intros (_ & Hd) Hg Hj. rewrite <- (map_length dp_vec). apply total_bound. apply Forall_map. rewrite Forall_forall in *.
  intros d Hin. split; [apply Hg, Hin|]. exact (eq_ind_r (fun k => (j < k)%nat) Hj (Hd d Hin)).
Qed.

Lemma inv_add a c d : inv a c -> good_dp d -> length (dp_vec d) = length (c_vec c) -> inv (S a) (add_dp_raw c d).
Proof using HB1 HB2.
  intros (Hw & Hi) Hd Hl. split; [apply cwf_add; auto|]. intros Ha. destruct (Hi ltac:(lia)) as (H1 & H2 & H3). clear Hi.
  split; [cbn [c_dps add_dp_raw]; rewrite app_length; cbn [length]; lia|].
  split; [cbn [c_dps add_dp_raw]; apply Forall_app; split; auto|].
  intros j Hj. destruct (H3 j Hj) as (F & Hb). destruct (Hw) as (Hv & Hf).
  cbn [c_dps c_vec add_dp_raw]. set (n := length (c_dps c)) in *.
  rewrite vec_add_eq by (rewrite mul_length; lia).
  change z0 with (@f0 f64) in *.
  rewrite nth_scale_div by (rewrite zipw_length, mul_length; lia).
  rewrite nth_zipw by (rewrite ?mul_length; lia). rewrite nth_scale_mul by lia.
  destruct (of_nat_ok n ltac:(lia)) as (K1 & K2).
  assert (M : is_fin (fadd (@fofnat f64 n) f1) = true /\ val (fadd (@fofnat f64 n) f1) == inject_Z (Z.of_nat n + 1)).
  { apply add_whole; [exact K1|apply one_ok|exact K2|apply one_ok|lia]. }
  destruct M as (M1 & M2). rewrite inject_Z_plus in M2.
  pose proof (add_fin B HB1 HB2 n ltac:(lia) (nth j (c_vec c) f0) (nth j (dp_vec d) f0) (fofnat n) (fadd (fofnat n) f1)
    (total j (map dp_vec (c_dps c))) (bound a n) F) as H.
  assert (Hjd : (j < length (dp_vec d))%nat) by lia.
  specialize (H (nth_within B (dp_vec d) j Hd Hjd) K1 K2 M1 M2 Hb (bound_B a n H1 ltac:(lia)) (sum_le c j Hw H2 Hj)).
  destruct H as (G1 & G2). split; [exact G1|].
  rewrite app_length. cbn [length]. rewrite map_app, total_app. cbn [map]. rewrite total_cons. change (total j []) with 0.
  fold n. replace (n + 1)%nat with (S n) by lia. rewrite NQ_S, Qplus_0_r. eapply Qle_trans; [exact G2|].
  unfold bound. rewrite !NQ_S. pose proof (NQ_le _ _ H1). pose proof (NQ_0 n). pose proof (u_pos B HB1).
  set (x := NQ a) in *. set (y := NQ n) in *.
  assert (11 * (2 * x - y) * x + (4 * y + 11) <= 11 * (2 * (x + 1) - (y + 1)) * (x + 1)) by nra. nra.
Qed.

Lemma inv_rm a : RmClosed (inv a).
Proof using HB1 HB2.
  intros c i d (Hw & Hi) Hn. split; [apply cwf_rm; auto|]. intros Ha. destruct (Hi Ha) as (H1 & H2 & H3). clear Hi.
  assert (Hil : (i < length (c_dps c))%nat) by (eapply nth_error_len; eauto).
  pose proof (remove_at_perm _ _ _ Hn) as Hp.
  assert (Hd : good_dp d) by (exact (Forall_nth_error _ _ _ _ H2 Hn)).
  split; [cbn [c_dps rm_pure]; rewrite remove_at_length by auto; lia|].
  split; [cbn [c_dps rm_pure]; apply Forall_remove_at; auto|].
  intros j Hj. destruct (H3 j Hj) as (F & Hb). destruct (Hw) as (Hv & Hf).
  pose proof (Forall_nth_error _ _ _ _ Hf Hn) as Hdl. cbn beta in Hdl.
  cbn [c_dps c_vec rm_pure]. rewrite remove_at_length by auto. set (n := length (c_dps c)) in *.
  pose proof (total_perm j _ _ (Permutation_map dp_vec Hp)) as Ht. cbn [map] in Ht. rewrite total_cons in Ht.
  pose proof (NQ_le _ _ H1). pose proof (NQ_0 n). pose proof (u_pos B HB1) as UP.
  destruct (Nat.ltb_spec 1 n) as [Hlt|Hle].
  - rewrite vec_sub_eq by (rewrite mul_length; lia).
    change z0 with (@f0 f64) in *.
    rewrite nth_scale_div by (rewrite zipw_length, mul_length; lia).
    rewrite nth_zipw by (rewrite ?mul_length; lia). rewrite nth_scale_mul by lia.
    destruct (of_nat_ok n ltac:(lia)) as (K1 & K2). destruct (of_nat_ok (n - 1) ltac:(lia)) as (M1 & M2).
    assert (Hm : NQ (n - 1) == NQ n - 1).
    { assert (Hs : n = S (n - 1)) by lia. rewrite Hs at 2. rewrite NQ_S. ring. }
    rewrite Hm in M2.
    assert (H2n : 2 <= NQ n) by (change 2 with (NQ 2); apply NQ_le; lia).
    pose proof (rm_fin B HB1 HB2 n ltac:(lia) (nth j (c_vec c) f0) (nth j (dp_vec d) f0) (fofnat n) (fofnat (n - 1))
      (total j (map dp_vec (c_dps c))) (bound a n) F) as H'.
    assert (Hjd : (j < length (dp_vec d))%nat) by lia.
    specialize (H' (nth_within B (dp_vec d) j Hd Hjd) K1 K2 M1 M2 H2n Hb (bound_B a n H1 ltac:(lia)) (sum_le c j Hw H2 Hj)).
    destruct H' as (G1 & G2). split; [exact G1|]. rewrite Hm.
    change (nth j (dp_vec d) (@f0 f64)) with (nth j (dp_vec d) z0) in *.
    setoid_replace (total j (map dp_vec (c_dps c)) - val (nth j (dp_vec d) z0)) with (total j (map dp_vec (remove_at i (c_dps c)))) in G2
      by (rewrite Ht; ring).
    eapply Qle_trans; [exact G2|]. unfold bound. rewrite Hm. set (x := NQ a) in *. set (y := NQ n) in *.
    assert (11 * (2 * x - y) * x + (4 * y + 11) <= 11 * (2 * x - (y - 1)) * x) by nra. nra.
  - split; [exact F|]. assert (n = 1%nat) by lia. replace (n - 1)%nat with 0%nat by lia.
    assert (Hz : remove_at i (c_dps c) = []).
    { apply length_zero_iff_nil. rewrite remove_at_length by auto. fold n. lia. }
    rewrite Hz. change (NQ 0) with 0. cbn [map]. change (total j []) with 0.
    setoid_replace (0 * val (nth j (c_vec c) z0) - 0) with 0 by ring. change (Qabs 0) with 0. unfold bound. change (NQ 0) with 0.
    pose proof (NQ_0 a). set (x := NQ a) in *. assert (0 <= 11 * (2 * x - 0) * x) by nra. nra.
Qed.

(* VecMean: the running sums, then the division. *)
Lemma fold_whole (vs : list (vec f64)) : forall (k : F f64) i, is_fin k = true -> val k == inject_Z i -> (0 <= i)%Z ->
  (i + Z.of_nat (length vs) <= 2 ^ 24)%Z ->
  is_fin (fold_left (fun k (_ : vec f64) => fadd k f1) vs k) = true /\
  val (fold_left (fun k (_ : vec f64) => fadd k f1) vs k) == inject_Z (i + Z.of_nat (length vs)).
Proof.
  induction vs as [|v vs IH]; intros k i Fk Hk Hi Hb; cbn [fold_left length] in *.
  - rewrite Z.add_0_r. auto.
  - rewrite Nat2Z.inj_succ in *. destruct (add_whole k f1 i 1 Fk (proj1 one_ok) Hk (proj2 one_ok)) as (K1 & K2); [lia|].
    destruct (IH (fadd k f1) (i + 1)%Z K1 K2) as (J1 & J2); [lia|lia|]. split; auto. rewrite J2.
    replace (i + 1 + Z.of_nat (length vs))%Z with (i + Z.succ (Z.of_nat (length vs)))%Z by lia. reflexivity.
Qed.
Lemma fold_sum j (vs : list (vec f64)) : forall (v : vec f64) (k : nat) (sum W : Q), (j < dim)%nat ->
  length v = dim -> Forall (fun w : vec f64 => Forall (within B) w /\ length w = dim) vs ->
  (Z.of_nat (k + length vs) <= 2 ^ 24)%Z -> is_fin (nth j v z0) = true ->
  Qabs (val (nth j v z0) - sum) <= W -> W + NQ (length vs) * (NQ (k + length vs) + 2) * U <= B -> Qabs sum <= NQ k * B ->
  let s := nth j (fold_left (zipw fadd) vs v) z0 in
  length (fold_left (zipw fadd) vs v) = dim /\ is_fin s = true /\
  Qabs (val s - (sum + total j vs)) <= W + NQ (length vs) * (NQ (k + length vs) + 2) * U.
Proof using HB1 HB2.
  induction vs as [|w vs IH]; intros v k sum W Hj Hv Hf Hk Fv He HW Hs; cbn [fold_left length] in *.
  - cbv zeta. split; auto. split; auto. change (total j []) with 0. change (NQ 0) with 0. rewrite Qplus_0_r.
    eapply Qle_trans; [exact He|]. lra.
  - inversion Hf as [|? ? (Hw & Hwl) Hf']; subst.
    assert (Hjw : (j < length w)%nat) by lia. destruct (nth_within B w j Hw Hjw) as (Fw & Bw).
    replace (k + S (length vs))%nat with (S k + length vs)%nat in * by lia.
    pose proof (u_pos B HB1) as UP. pose proof (u_small B) as US. pose proof (B_pos B HB1) as BP.
    pose proof (NQ_0 (length vs)) as L0. pose proof (NQ_0 k) as K0. pose proof (NQ_S (length vs)) as LS. pose proof (NQ_S k) as KS.
    assert (HT : NQ (S k + length vs) == NQ k + 1 + NQ (length vs)) by (rewrite Nat2Z.inj_add, inject_Z_plus, KS; reflexivity).
    pose proof (NQ_max (S k + length vs) ltac:(lia)) as Hmax.
    set (T := NQ (S k + length vs)) in *. set (L := NQ (length vs)) in *. set (K := NQ k) in *.
    assert (HWB : W <= B).
    { assert (0 <= NQ (S (length vs)) * (T + 2) * U) by (rewrite LS; apply Qmult_le_0_compat; [nra|lra]). lra. }
    assert (H1 : Qabs (val (nth j v z0) + val (nth j w z0)) <= (K + 2) * B).
    { change (F f64) with spec_float in *. apply abs_le in He, Hs, Bw. apply abs_le. split; nra. }
    assert (Z1 : nearest (fadd (nth j v z0 : F f64) (nth j w z0)) (val (nth j v z0) + val (nth j w z0))).
    { apply add_ok; auto. apply (far B HB1 HB2 _ (K + 2)); [lra|exact H1]. }
    pose proof (near_k B HB1 _ _ _ Z1 H1) as E1.
    assert (Hnew : nth j (zipw fadd v w) z0 = fadd (nth j v z0 : F f64) (nth j w z0)).
    { apply (@nth_zipw f64 fadd v w j); lia. }
    specialize (IH (zipw fadd v w) (S k) (sum + val (nth j w z0)) (W + (T + 2) * U) Hj).
    rewrite Hnew in IH. destruct IH as (J1 & J2 & J3); auto.
    + rewrite zipw_length. lia.
    + exact (proj1 Z1).
    + apply abs_le in E1, He. apply abs_le.
      assert ((K + 2 + 1) * U <= (T + 2) * U) by (apply Qmult_le_compat_r; lra). split; lra.
    + fold T L. rewrite LS in HW. lra.
    + change (F f64) with spec_float in *. apply abs_le in Hs, Bw. apply abs_le. rewrite KS. split; nra.
    + split; auto. split; auto. rewrite total_cons. fold T L in J3. rewrite LS.
      setoid_replace (sum + (val (nth j w z0) + total j vs)) with (sum + val (nth j w z0) + total j vs) by ring.
      eapply Qle_trans; [exact J3|]. lra.
Qed.

Lemma fold_mean j (v : vec f64) (vs : list (vec f64)) : (j < dim)%nat ->
  Forall (fun w : vec f64 => Forall (within B) w /\ length w = dim) (v :: vs) -> (Z.of_nat (S (length vs)) <= 2 ^ 24)%Z ->
  let y := nth j (map (fun x : F f64 => fdiv x (fold_left (fun k (_ : vec f64) => fadd k f1) vs f1)) (fold_left (zipw fadd) vs v)) z0 in
  is_fin y = true /\
  Qabs (NQ (S (length vs)) * val y - total j (v :: vs)) <= (NQ (length vs) * (NQ (S (length vs)) + 2) + (2 * NQ (S (length vs)) + 1)) * U.
Proof using HB1 HB2.
  intros Hj Hgood Hn. cbv zeta. pose proof (Forall_inv Hgood) as (Hv1 & Hvl0).
  assert (Hvl : length v = dim) by exact Hvl0. clear Hvl0. pose proof (Forall_inv_tail Hgood) as Hvs.
  assert (Hjv : (j < length v)%nat) by lia. destruct (nth_within B v j Hv1 Hjv) as (Fv & Bv).
  pose proof (u_pos B HB1) as UP. pose proof (u_small B) as US. pose proof (B_pos B HB1) as BP.
  pose proof (NQ_0 (length vs)) as L0. pose proof (NQ_S (length vs)) as LS.
  pose proof (NQ_max (S (length vs)) ltac:(lia)) as Hmax.
  destruct (fold_sum j vs v 1 (val (nth j v z0)) 0 Hj Hvl Hvs) as (J1 & J2 & J3); auto.
  - setoid_replace (val (nth j v z0) - val (nth j v z0)) with 0 by ring. discriminate.
  - cbn [Nat.add]. set (L := NQ (length vs)) in *. rewrite LS in *.
    assert (H3 : L * (L + 1 + 2) <= 9007199254740992). { eapply Qle_trans with (16777216 * (16777216 + 2)); [nra|discriminate]. }
    assert (L * (L + 1 + 2) * U <= 9007199254740992 * U) by (apply Qmult_le_compat_r; lra). lra.
  - change (NQ 1) with 1. rewrite Qmult_1_l. exact Bv.
  - cbn [Nat.add] in *.
    destruct (fold_whole vs f1 1 (proj1 one_ok) (proj2 one_ok)) as (M1 & M2); [lia|lia|].
    replace (1 + Z.of_nat (length vs))%Z with (Z.of_nat (S (length vs))) in M2 by lia.
    set (s := fold_left (zipw fadd) vs v) in *. set (m := fold_left (fun k (_ : vec f64) => fadd k f1) vs f1) in *.
    pose proof (@nth_scale_div f64 s m j ltac:(lia)) as Hnth. unfold vec_div_scalar in Hnth.
    change (@f0 f64) with z0 in Hnth. rewrite Hnth. clear Hnth.
    assert (Hsum : val (nth j v z0) + total j vs == total j (v :: vs)) by reflexivity. rewrite Hsum in J3.
    assert (Htb : Qabs (total j (v :: vs)) <= NQ (S (length vs)) * B).
    { apply (total_bound B j (v :: vs)). rewrite Forall_forall in *. intros w Hin. destruct (Hgood w Hin) as (W1 & W2). split; auto.
      exact (eq_ind_r (fun k => (j < k)%nat) Hj W2). }
    set (L := NQ (length vs)) in *. set (T := NQ (S (length vs))) in *. set (x := val (nth j s z0)) in *.
    assert (H3 : L * (T + 2) * U <= B).
    { assert (L * (T + 2) <= 9007199254740992). { eapply Qle_trans with (16777216 * (16777216 + 2)); [nra|discriminate]. }
      assert (L * (T + 2) * U <= 9007199254740992 * U) by (apply Qmult_le_compat_r; lra). lra. }
    assert (Hx : Qabs x <= (T + 1) * B). { apply abs_le in J3, Htb. apply abs_le. split; lra. }
    assert (Z1 : nearest (fdiv (nth j s z0 : F f64) m) (x / T)).
    { eapply nearest_eq; [|apply div_ok; auto].
      - rewrite M2. reflexivity.
      - rewrite M2. fold T. lra.
      - rewrite M2. fold T x. apply (far B HB1 HB2 _ (T + 1)); [lra|]. unfold Qdiv. rewrite Qabs_Qmult.
        assert (Hinv : Qabs (/ T) <= 1).
        { rewrite Qabs_pos by (apply Qinv_le_0_compat; lra). apply Qle_shift_inv_r; lra. }
        pose proof (Qabs_nonneg x). pose proof (Qabs_nonneg (/ T)). nra. }
    split; [exact (proj1 Z1)|]. change (nth j s z0 : F f64) with (nth j s z0) in *. set (y := val (fdiv (nth j s z0 : F f64) m)) in *.
    assert (E3 : Qabs (T * y - x) <= (T + 1) * U + T * U).
    { apply nearest_err in Z1. fold y in Z1. setoid_replace (T * y - x) with (T * (y - x / T)) by (field; lra).
      rewrite Qabs_Qmult, (Qabs_pos T) by lra.
      assert (Hdv : T * Qabs (x / T) == Qabs x).
      { setoid_replace x with (T * (x / T)) at 2 by (field; lra). rewrite Qabs_Qmult, (Qabs_pos T) by lra. reflexivity. }
      assert (Hm : T * Qabs (y - x / T) <= T * (ulp * Qabs (x / T) + tiny)) by nra.
      setoid_replace (T * (ulp * Qabs (x / T) + tiny)) with (ulp * (T * Qabs (x / T)) + T * tiny) in Hm by ring. rewrite Hdv in Hm.
      pose proof (tiny_u B HB1). pose proof ulp_pos.
      assert (ulp * Qabs x <= (T + 1) * U). { unfold u. setoid_replace ((T + 1) * (ulp * B)) with (ulp * ((T + 1) * B)) by ring. nra. }
      nra. }
    apply abs_le in E3, J3. apply abs_le. split; lra.
Qed.

Lemma inv_move a (c : Cen) t : inv a c -> wp (c_move_vector E c) t (fun r _ => inv a (snd r)).
Proof using HB1 HB2.
  intros Hc.
  eapply wp_mono; [apply (c_move_vector_spec E dim (inv a) (inv_rm a) (fun c H => proj2 (proj1 H)) c t Hc)|].
  intros [ok c'] t' H. cbn [snd] in *. cbv zeta in H. destruct H as (H1 & _ & H).
  destruct (map dp_vec (live_from E t (c_dps c))) as [|v vs] eqn:Hl; [exact (proj2 H)|].
  destruct H as (_ & (v0 & (Hw0 & Hi)) & Hv). destruct Hw0 as (_ & Hd). cbn [c_dps] in *.
  set (l := live_from E t (c_dps c)) in *.
  assert (Hdims : Forall (fun w : vec f64 => length w = dim) (v :: vs)).
  { rewrite <- Hl. apply Forall_map. exact Hd. }
  inversion Hdims as [|? ? Hvl Hvsl]; subst.
  assert (Hlen : length l = S (length vs)) by (rewrite <- (map_length dp_vec), Hl; reflexivity).
  assert (Hnewl : length (fold_left (zipw fadd) vs v) = dim).
  { clear -Hvsl Hvl. revert v Hvl Hvsl. induction vs as [|w vs IH]; intros v Hv H; cbn [fold_left]; auto. inversion H; subst.
    apply IH; auto. rewrite zipw_length. lia. }
  split.
  { split; [rewrite Hv, map_length; exact Hnewl|]. rewrite H1. exact Hd. }
  intros Ha. destruct (Hi Ha) as (G1 & G2 & _). cbn [c_dps] in *. split; [rewrite H1; exact G1|]. split; [rewrite H1; exact G2|].
  intros j Hj. rewrite H1, Hv, Hl.
  assert (Hgood : Forall (fun w : vec f64 => Forall (within B) w /\ length w = dim) (v :: vs)).
  { rewrite <- Hl. apply Forall_map. rewrite Forall_forall in *. intros d Hin. split; [apply G2, Hin|apply Hd, Hin]. }
  pose proof (u_pos B HB1) as UP. pose proof (NQ_0 (length vs)) as L0. pose proof (NQ_S (length vs)) as LS.
  pose proof (NQ_le (S (length vs)) a ltac:(lia)) as Hla.
  destruct (fold_mean j v vs Hj Hgood ltac:(lia)) as (J1 & J2). split; [exact J1|]. rewrite Hlen.
  eapply Qle_trans; [exact J2|]. unfold bound. set (L := NQ (length vs)) in *. set (T := NQ (S (length vs))) in *.
  apply Qmult_le_compat_r; [nra|lra].
Qed.

(* ---- histories ---- *)
Lemma inv_step a (c : Cen) o t : inv a c -> ccounts_ok o -> o <> CMemTrim -> (forall d, o = CAdd d -> good_dp d) ->
  wp (cstep E c o) t (fun r _ => inv (a + length (r_in r)) (r_cen r)).
Proof using HB1 HB2 HE.
  intros Hc Hco Hm Hg. destruct o; cbn [cstep ccounts_ok] in *; apply wp_bind.
  - eapply wp_mono; [apply c_add_spec|]. intros [ok c'] t' (Ht & H). apply wp_ret. cbn [r_in r_cen].
    destruct H as [(Hl & -> & He & [= -> ->])|[(Hl & -> & He & [= -> ->])|(Hl & -> & [= -> ->])]]; cbn [length].
    + rewrite Nat.add_1_r. apply inv_add; auto.
    + rewrite Nat.add_0_r. auto.
    + rewrite Nat.add_0_r. auto.
  - eapply wp_mono; [apply (c_drain_unordered_spec E (inv a) (RmClosed_0 _ (inv_rm a)) c n t Hco Hc)|].
    intros [ds c'] t' (H1 & H2). apply wp_ret. cbn [r_in r_cen length]. rewrite Nat.add_0_r. exact H1.
  - eapply wp_mono; [apply (c_drain_ordered_spec E (inv a) (inv_rm a) c n t HE Hco Hc)|].
    intros [ds c'] t' (H1 & _). apply wp_ret. cbn [r_in r_cen length]. rewrite Nat.add_0_r. exact H1.
  - eapply wp_mono; [apply (c_expire_spec E (inv a) (inv_rm a) c t Hc)|].
    cbn beta. intros c' t' (H1 & _). apply wp_ret. cbn [r_in r_cen length]. rewrite Nat.add_0_r. exact H1.
  - congruence.
  - eapply wp_mono; [apply (inv_move a c t Hc)|].
    intros [ok c'] t' H1. apply wp_ret. cbn [r_in r_cen length]. rewrite Nat.add_0_r. exact H1.
  - eapply wp_mono; [apply (c_knn_lookup_spec E (inv a) (inv_rm a) c v k drain t HE Hco Hc)|].
    intros [ds c'] t' (H1 & _). apply wp_ret. cbn [r_in r_cen length]. rewrite Nat.add_0_r. exact H1.
Qed.
Lemma inv_run : forall ops a (c : Cen) t, inv a c -> Forall ccounts_ok ops -> ~ In CMemTrim ops -> (forall d, In (CAdd d) ops -> good_dp d) ->
  wp (crun E c ops) t (fun r _ => inv (a + length (r_in r)) (r_cen r)).
Proof using HB1 HB2 HE.
  induction ops as [|o ops IH]; intros a c t Hc Hco Hm Hg; cbn [crun].
  - apply wp_ret. cbn [r_in r_cen length]. rewrite Nat.add_0_r. exact Hc.
  - inversion Hco as [|? ? Hco1 Hco2]; subst. apply wp_bind. eapply wp_mono; [apply (inv_step a c o t Hc)|]; auto.
    { intros ->. apply Hm. left; auto. } { intros d ->. apply Hg. left; auto. }
    intros r1 t1 H1. apply wp_bind. eapply wp_mono; [apply (IH _ _ t1 H1)|]; auto.
    { intros H. apply Hm. right; auto. } { intros d H. apply Hg. right; auto. }
    intros r2 t2 H2. apply wp_ret. cbn [r_in r_cen]. rewrite app_length, Nat.add_assoc. exact H2.
Qed.
End Mean.

Theorem ieee_mean : forall (E : Env f64), EnvOk E -> forall B (v : vec f64) (ops : list (cenop f64)) t, p2 (-1022) <= B -> B <= p2 990 ->
  Forall (fun x => is_fin x = true) v ->
  Forall ccounts_ok ops -> ~ In CMemTrim ops ->
  (forall d, In (CAdd d) ops -> Forall (within B) (dp_vec d)) ->
  wp (crun E (new_centroid v) ops) t (fun r _ =>
    let a := inject_Z (Z.of_nat (length (r_in r))) in
    let n := inject_Z (Z.of_nat (length (c_dps (r_cen r)))) in
    (Z.of_nat (length (r_in r)) <= 2 ^ 24)%Z -> c_dps (r_cen r) <> [] ->
    forall j, (j < length v)%nat ->
      let x := nth j (c_vec (r_cen r)) (S754_zero false) in
      is_fin x = true /\
      Qabs (val x - total j (map dp_vec (c_dps (r_cen r))) / n) <= 22 * a * a / n * ulp * B).
Proof.
  intros E HE B v ops t HB1 HB2 Hv Hco Hm Hg.
  eapply wp_mono; [apply (inv_run E HE B HB1 HB2 (length v) ops 0 (new_centroid v) t)|]; auto.
  { split; [split; [reflexivity|constructor]|]. intros _. split; [cbn; lia|]. split; [constructor|].
    intros j Hj. cbn [c_vec c_dps new_centroid length map]. rewrite Forall_forall in Hv. split; [apply Hv, nth_In, Hj|].
    change (total j []) with 0. change (inject_Z (Z.of_nat 0)) with 0. unfold bound. change (inject_Z (Z.of_nat 0)) with 0.
    setoid_replace (0 * val (nth j v (S754_zero false)) - 0) with 0 by ring. change (Qabs 0) with 0. lra. }
  intros r t' (_ & Hi) a n Ha Hne j Hj x. destruct (Hi Ha) as (H1 & H2 & H3). destruct (H3 j Hj) as (F & Hb). split; [exact F|].
  cbn [Nat.add] in *. unfold bound in Hb. fold a n x in Hb. unfold u in Hb.
  assert (Hn : 0 < n). { unfold n. change 0 with (inject_Z 0). rewrite <- Zlt_Qlt. destruct (c_dps (r_cen r)); [congruence|]. cbn [length]. lia. }
  assert (Han : n <= a) by (apply NQ_le; exact H1).
  set (T := total j _) in *.
  setoid_replace (val x - T / n) with ((n * val x - T) / n) by (field; lra).
  setoid_replace (22 * a * a / n * ulp * B) with ((22 * a * a * ulp * B) / n) by (field; lra).
  unfold Qdiv. rewrite Qabs_Qmult, (Qabs_pos (/ n)) by (apply Qinv_le_0_compat; lra).
  apply Qmult_le_compat_r; [|apply Qinv_le_0_compat; lra]. eapply Qle_trans; [exact Hb|].
  pose proof ulp_pos. pose proof (B_pos B HB1). pose proof (u_pos B HB1) as UP. unfold u in UP. set (w := ulp * B) in *.
  setoid_replace (22 * a * a * ulp * B) with (22 * a * a * w) by (unfold w; ring).
  apply Qmult_le_compat_r; [nra|lra].
Qed.
