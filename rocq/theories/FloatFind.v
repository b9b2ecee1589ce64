(* Cosine searches in binary64; distances and searches that rounding spoils. *)
From Coq Require Import List ZArith QArith Qabs Qreals Reals SpecFloat Lia Lra.
From Verif Require Import Base Num MathUtils MathSpec Knn Env NumFacts KnnProofs FloatSpec FloatRound FloatOps DistSpec Fused FloatDot FloatCos FloatSearch RealNum.
Local Open Scope R_scope.

Lemma cosine_le a b : length a = length b -> moderate a -> moderate b -> Rabs (inner a b / (size a * size b)) <= 1.
Proof.
  intros Hl Ha Hb. pose proof (size_ge a Ha) as Sa. pose proof (size_ge b Hb) as Sb.
  assert (Hz : 0 < Q2R (p2 (-200))) by (rewrite <- Q2R_0; apply Qlt_Rlt, p2_pos).
  assert (Hcs : Rabs (inner a b) <= size a * size b).
  { rewrite inner_rdot. unfold size. rewrite !inner_sumsq. apply dot_le_norms. rewrite !map_length. exact Hl. }
  assert (HAB : 0 < size a * size b) by nra.
  unfold Rdiv. rewrite Rabs_mult, (Rabs_pos_eq (/ (size a * size b))) by (apply Rlt_le, Rinv_0_lt_compat; auto).
  apply Rmult_le_reg_r with (size a * size b); auto. rewrite Rmult_assoc, Rinv_l by lra. lra.
Qed.

Lemma cosine_search_by (dist : vec f64 -> vec f64 -> option (F f64)) :
  (forall a b, length a = length b -> moderate a -> moderate b -> exists c, dist a b = Some c /\ is_fin c = true /\
    Rabs (real c - inner a b / (size a * size b)) <= (4 * IZR (Z.of_nat (length a)) + 16) * Q2R ulp) ->
  forall (near : bool) (target : vec f64) (pool : list (vec f64)) k, (0 <= k)%Z -> moderate target ->
  Forall (fun v => length v = length target /\ moderate v) pool ->
  exists idx, knn_brute dist (negb near) target pool k = Ok idx /\
    NoDup idx /\ length idx = Nat.min (Z.to_nat k) (length pool) /\ (forall i, In i idx -> i < length pool)%nat /\
    forall i j v w, In i idx -> ~ In j idx -> nth_error pool i = Some v -> nth_error pool j = Some w ->
      let cosine x := inner target x / (size target * size x) in
      let worse := if near then cosine w else cosine v in let better := if near then cosine v else cosine w in
      worse <= better + 2 * (4 * IZR (Z.of_nat (length target)) + 16) * Q2R ulp.
Proof.
  intros Hdist near target pool k Hk Ht Hp. rewrite Forall_forall in Hp. set (n := IZR (Z.of_nat (length target))).
  assert (Hn : 0 <= n <= 1048576). { destruct Ht as (Hn & _). split; apply IZR_le; [lia|exact Hn]. }
  assert (Hd : forall v, In v pool -> exists s, dist target v = Some s /\ is_fin s = true /\ (Qabs (val s) < p2 1000)%Q /\
    Rabs (real s - inner target v / (size target * size v)) <= (4 * n + 16) * Q2R ulp).
  { intros v Hv. destruct (Hp v Hv) as (Hl & Hm). destruct (Hdist target v (eq_sym Hl) Ht Hm) as (c & C1 & C2 & C3).
    exists c. split; auto. split; auto. split; [|exact C3]. apply Rlt_Qlt. rewrite Q2R_abs. fold (real c).
    pose proof (cosine_le target v (eq_sym Hl) Ht Hm) as C4. rewrite ulp_R in C3. try (change (IZR (Z.of_nat (@length (F f64) target))) with n in C3). try (change (IZR (Z.of_nat (@length spec_float target))) with n in C3). 
    pose proof (Rabs_triang (real c - inner target v / (size target * size v)) (inner target v / (size target * size v))) as T.
    replace (real c - inner target v / (size target * size v) + inner target v / (size target * size v)) with (real c) in T by ring.
    apply Rle_lt_trans with 2; [lra|]. assert (E2 : Q2R 2 = 2) by (unfold Q2R; cbn; lra). rewrite <- E2. apply Qlt_Rlt. reflexivity. }
  destruct (fin_search dist (negb near) target pool k Hk) as (idx & H1 & H2 & H3 & H4 & H5).
  { intros v Hv. destruct (Hd v Hv) as (s & D1 & D2 & D3 & _). exists s. auto. }
  exists idx. split; [exact H1|]. split; auto. split; auto. split; auto. intros i j v w Hi Hj Hv Hw. cbv zeta.
  destruct (Hd v (nth_error_In _ _ Hv)) as (s & D1 & _ & _ & D2). destruct (Hd w (nth_error_In _ _ Hw)) as (r & R1 & _ & _ & R2).
  specialize (H5 i j v w s r Hi Hj Hv Hw D1 R1). apply Rabs_inv in D2. apply Rabs_inv in R2. fold n.
  destruct near; cbn [negb] in H5; apply Qle_Rle in H5; fold (real r) (real s) in H5; lra.
Qed.

Theorem cosine_search (near : bool) (target : vec f64) (pool : list (vec f64)) k : (0 <= k)%Z -> moderate target ->
  Forall (fun v => length v = length target /\ moderate v) pool ->
  exists idx, (if near then knn_cos target pool k else kfn_cos target pool k) = Ok idx /\
    NoDup idx /\ length idx = Nat.min (Z.to_nat k) (length pool) /\ (forall i, In i idx -> i < length pool)%nat /\
    forall i j v w, In i idx -> ~ In j idx -> nth_error pool i = Some v -> nth_error pool j = Some w ->
      let cosine x := inner target x / (size target * size x) in
      let worse := if near then cosine w else cosine v in let better := if near then cosine v else cosine w in
      worse <= better + 2 * (4 * IZR (Z.of_nat (length target)) + 16) * Q2R ulp.
Proof. intros Hk Ht Hp. destruct (cosine_search_by cosine_similarity cosine_ieee near target pool k Hk Ht Hp) as (idx & H1 & H2). exists idx. split; [destruct near; exact H1|exact H2]. Qed.
Theorem fused_search fn fd (near : bool) (target : vec f64) (pool : list (vec f64)) k : (0 <= k)%Z -> moderate target ->
  Forall (fun v => length v = length target /\ moderate v) pool ->
  exists idx, knn_brute (cosine_f fn fd) (negb near) target pool k = Ok idx /\
    NoDup idx /\ length idx = Nat.min (Z.to_nat k) (length pool) /\ (forall i, In i idx -> i < length pool)%nat /\
    forall i j v w, In i idx -> ~ In j idx -> nth_error pool i = Some v -> nth_error pool j = Some w ->
      let cosine x := inner target x / (size target * size x) in
      let worse := if near then cosine w else cosine v in let better := if near then cosine v else cosine w in
      worse <= better + 2 * (4 * IZR (Z.of_nat (length target)) + 16) * Q2R ulp.
Proof. apply (cosine_search_by (cosine_f fn fd) (cosine_fused fn fd)). Qed.

Lemma cosine_f_some fn fd (a b : vec f64) s : cosine_f fn fd a b = Some s -> length a = length b.
Proof. unfold cosine_f. destruct (Nat.eqb_spec (length a) (length b)); auto; discriminate. Qed.
Theorem fused_contract fn fd asc : SearchOk (knn_brute (cosine_f fn fd) asc).
Proof. apply knn_brute_ok; [exact f64_ord|]. apply cosine_f_some. Qed.

(* The same search on two machines: the second vector is nearer, by a hair. *)
Theorem fused_differs : exists target v w : vec f64, moderate target /\ moderate v /\ moderate w /\
  knn_brute (cosine_f (fun _ => false) (fun _ => false)) false target [v; w] 1 = Ok [0%nat] /\
  knn_brute (cosine_f (fun _ => true) (fun _ => true)) false target [v; w] 1 = Ok [1%nat].
Proof.
  exists (fv [218994; 818017]%Z), (fv [158952805; 268328041]%Z), (fv [666696385822720; 1125449375678465]%Z).
  assert (M : forall x y, within (p2 450) (fz x) -> within (p2 450) (fz y) -> (p2 (-200) <= Qabs (val (fz x)))%Q -> moderate (fv [x; y])).
  { intros x y Hx Hy H. split; [discriminate|]. split; [repeat constructor; try apply Hx; apply Hy|]. exists (fz x). split; [left; reflexivity|exact H]. }
  split; [apply M; vm_compute; try split; try reflexivity; discriminate|]. split; [apply M; vm_compute; try split; try reflexivity; discriminate|].
  split; [apply M; vm_compute; try split; try reflexivity; discriminate|]. split; vm_compute; reflexivity.
Qed.

(* ---- what rounding spoils ---- *)
Definition small : F f64 := S754_finite false 4503599627370496 (-652).  (* 2^-600 *)
Definition large : F f64 := S754_finite false 4503599627370496 548.     (* 2^600 *)

Lemma distance_refuted :
  (exists a b : vec f64, forallb is_fin (a ++ b) = true /\ (0 < apart (combine a b))%Q /\ euclidean_distance a b = Some f0) /\
  (exists a b : vec f64, forallb is_fin (a ++ b) = true /\ euclidean_distance a b = Some (S754_infinity false)) /\
  (exists a b c : vec f64, forallb is_fin (a ++ b ++ c) = true /\ (apart (combine a b) < apart (combine a c))%Q /\
     knn_euc a [b; c] 1 = Ok [1%nat]) /\
  (exists a b : vec f64, forallb is_fin (a ++ b) = true /\ length a = length b /\ knn_euc a [b] 1 = Ok []).
Proof.
  split; [exists [small], [f0]|split; [exists [large], [f0]|split; [exists (fv [0; 0; 0; 0]%Z), (fv [1; 1; 9007199254740992; 0]%Z), (fv [9007199254740992; 1; 1; 1]%Z)|exists [large], [f0]]]];
    vm_compute; auto.
Qed.

Lemma real_fz k : (Z.abs k <= 2 ^ 53)%Z -> real (fz k) = IZR k.
Proof.
  intros H. unfold real, fz. assert (Hv : (val (f64_of_Z k) == inject_Z k)%Q).
  { assert (Hn : nearest (f64_of_Z k) (inject_Z k * p2 0)).
    { apply (normalize_ok k 0 false). setoid_replace (inject_Z k * p2 0)%Q with (inject_Z k) by (change (p2 0) with 1%Q; ring). apply whole_bound; auto. }
    assert (Hn2 : nearest (f64_of_Z k) (inject_Z k)) by (eapply nearest_eq; [|exact Hn]; change (p2 0) with 1%Q; ring).
    eapply nearest_whole; eauto; reflexivity. }
  rewrite (Qeq_eqR _ _ Hv). apply Q2R_Z.
Qed.

Lemma cosine_refuted :
  (exists a : vec f64, moderate a /\ exists c, cosine_similarity a a = Some c /\ (1 < val c)%Q) /\
  (exists a b : vec f64, moderate a /\ moderate b /\ cosine_similarity a b <> cosine_similarity b a) /\
  (exists a b : vec f64, moderate a /\ moderate b /\ length a = length b /\ knn_cos a [a; b] 1 = Ok [1%nat] /\
     inner a b / (size a * size b) < inner a a / (size a * size a)).
Proof.
  assert (M : forall x y, (1 <= x <= 2 ^ 53)%Z -> (1 <= y <= 2 ^ 53)%Z -> forallb is_fin (fv [x; y]) = true -> moderate (fv [x; y])).
  { intros x y Hx Hy Hf. cbn [fv map forallb] in Hf. apply andb_prop in Hf. destruct Hf as (F1 & F2). apply andb_prop in F2. destruct F2 as (F2 & _).
    assert (Hr : forall k, (1 <= k <= 2 ^ 53)%Z -> (p2 (-200) <= Qabs (val (fz k)))%Q /\ (Qabs (val (fz k)) <= p2 450)%Q).
    { intros k Hk. pose proof (real_fz k ltac:(lia)) as E. unfold real in E. rewrite <- Q2R_Z in E. apply eqR_Qeq in E. rewrite E. rewrite Qabs_Zabs, Z.abs_eq by lia. split.
      - apply Qle_trans with (inject_Z 1); [discriminate|]. rewrite <- Zle_Qle. lia.
      - apply Qle_trans with (inject_Z (2 ^ 53)); [rewrite <- Zle_Qle; lia|discriminate]. }
    destruct (Hr x Hx) as (X1 & X2). destruct (Hr y Hy) as (Y1 & Y2). split; [discriminate|]. split.
    - repeat constructor; auto.
    - exists (fz x). split; [left; reflexivity|exact X1]. }
  split; [|split].
  - exists (fv [1; 5]%Z). split; [apply M; try lia; reflexivity|]. eexists. split; [reflexivity|]. vm_compute. reflexivity.
  - exists (fv [1; 1]%Z), (fv [1; 2]%Z). split; [apply M; try lia; reflexivity|]. split; [apply M; try lia; reflexivity|]. vm_compute. discriminate.
  - exists (fv [1; 1]%Z), (fv [100000004; 100000003]%Z). split; [apply M; try lia; reflexivity|]. split; [apply M; try lia; reflexivity|].
    split; [reflexivity|]. split; [vm_compute; reflexivity|].
    unfold size, inner. cbn [fv map combine fold_right fst snd]. rewrite !real_fz by lia.
    replace (1 * 1 + (1 * 1 + 0)) with 2 by lra. replace (1 * 100000004 + (1 * 100000003 + 0)) with 200000007 by lra.
    replace (100000004 * 100000004 + (100000003 * 100000003 + 0)) with 20000001400000025 by lra.
    rewrite sqrt_sqrt by lra. replace (2 / 2) with 1 by lra. rewrite <- sqrt_mult by lra. replace (2 * 20000001400000025) with 40000002800000050 by lra.
    assert (H : 200000007 < sqrt 40000002800000050).
    { rewrite <- (sqrt_square 200000007) by lra. apply sqrt_lt_1; lra. }
    apply Rmult_lt_reg_r with (sqrt 40000002800000050); [lra|]. unfold Rdiv. rewrite Rmult_assoc, Rinv_l by lra. lra.
Qed.
