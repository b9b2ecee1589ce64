(* Proofs of the statements collected in Props01.v. *)
From Verif Require Import Base Num MathUtils Knn Env SearchSpec MathSpec DataSpec Wp NumFacts KnnProofs
  RealNum MathProofs.
From Coq Require Import Reals Lra.
Local Open Scope nat_scope.

Lemma knn_best_k : forall dist ascending target pool k, (0 <= k)%Z ->
  exists idx, knn_brute (N := f64) dist ascending target pool k = Ok idx /\
    BestK dist ascending target pool (Z.to_nat k) idx /\
    forall all, enumerates (fun i => exists s, rankable dist ascending target pool i s) all ->
      length idx = min (Z.to_nat k) (length all).
Proof.
  intros dist asc tgt pool k Hk. destruct (knn_brute_bestk f64_ord dist asc tgt pool k Hk) as (idx & H1 & H2).
  exists idx. repeat (split; auto). intros all Ha. eapply bestk_length; eauto.
Qed.

Lemma ties_refuted : exists target pool idx i j s,
  knn_brute (N := f64) euclidean_distance false target pool 2 = Ok idx /\
  rankable euclidean_distance false target pool i s /\
  rankable euclidean_distance false target pool j s /\
  i < j /\ In j idx /\ ~ In i idx.
Proof.
  exists (fv [0]%Z), [fv [5]; fv [-5]; fv [7]]%Z, [2; 1], 0, 1, (fz 5).
  split; [vm_compute; reflexivity|].
  split; [eexists; split; [reflexivity|]; split; vm_compute; reflexivity|].
  split; [eexists; split; [reflexivity|]; split; vm_compute; reflexivity|].
  split; [lia|]. split; [simpl; auto|]. simpl. intros [H|[H|[]]]; discriminate.
Qed.

Lemma prefab_searches : forall s : search f64,
  In s [knn_cos; kfn_cos; knn_euc; kfn_euc] ->
  (forall target pool k, (0 <= k)%Z ->
     exists idx, s target pool k = Ok idx /\ NoDup idx /\ (Z.of_nat (length idx) <= k)%Z /\
       forall i, In i idx -> exists v, nth_error pool i = Some v /\ length v = length target) /\
  (forall target pool k, (k < 0)%Z -> s target pool k = Panic).
Proof.
  intros s [<-|[<-|[<-|[<-|[]]]]]; split; try (intros; apply knn_brute_negative; assumption).
  - exact (knn_cos_ok f64_ord).
  - exact (kfn_cos_ok f64_ord).
  - exact (knn_euc_ok f64_ord).
  - exact (kfn_euc_ok f64_ord).
Qed.

Lemma prefab_best : forall (target : vec f64) pool k, (0 <= k)%Z ->
  (exists idx, knn_cos target pool k = Ok idx /\ BestK cosine_similarity false target pool (Z.to_nat k) idx) /\
  (exists idx, kfn_cos target pool k = Ok idx /\ BestK cosine_similarity true target pool (Z.to_nat k) idx) /\
  (exists idx, knn_euc target pool k = Ok idx /\ BestK euclidean_distance true target pool (Z.to_nat k) idx) /\
  (exists idx, kfn_euc target pool k = Ok idx /\ BestK euclidean_distance false target pool (Z.to_nat k) idx).
Proof. intros target pool k Hk. repeat split; apply (knn_brute_bestk f64_ord); auto. Qed.

Lemma cosine_complete_refuted : exists target pool idx i v,
  knn_cos (N := f64) target pool (Z.of_nat (length pool)) = Ok idx /\
  nth_error pool i = Some v /\ length v = length target /\ ~ In i idx.
Proof.
  exists (fv [1;0]%Z), [fv [0;0]%Z], [], 0, (fv [0;0]%Z).
  split; [vm_compute; reflexivity|]. repeat (split; auto).
Qed.

Lemma cosine_complete : forall target pool k,
  (Z.of_nat (length pool) <= k)%Z ->
  exists idx, knn_cos (N := f64) target pool k = Ok idx /\
    forall i, In i idx <->
      exists v s, nth_error pool i = Some v /\ cosine_similarity target v = Some s /\
                  fltb (fmul fmaxv (fsub f0 f1)) s = true.
Proof.
  intros target pool k Hk. assert (H0 : (0 <= k)%Z) by lia.
  destruct (knn_brute_bestk f64_ord cosine_similarity false target pool k H0) as (idx & H1 & H2).
  exists idx. split; auto. intros i.
  rewrite (bestk_all cosine_similarity false target pool (Z.to_nat k) idx i) by (auto; lia).
  split.
  - intros (s & v & Hn & Hd & Hb). exists v, s. auto.
  - intros (v & s & Hn & Hd & Hb). exists s, v. auto.
Qed.

Lemma euclid_refuted :
  (exists a b : vec f64, length a = length b /\ euclidean_distance a b <> Some (true_euclid a b)) /\
  (exists (target : vec f64) a b idx,
     fltb (true_euclid target b) (true_euclid target a) = true /\
     knn_euc target [a; b] 1 = Ok idx /\ idx = [0]).
Proof.
  split.
  - exists (fv [0;0]%Z), (fv [3;4]%Z). split; auto. vm_compute. discriminate.
  - exists (fv [0;0]%Z), (fv [0;5]%Z), (fv [3;3]%Z), [0]. vm_compute. auto.
Qed.

Lemma true_euclid_l2 (a b : vec rnum) : true_euclid a b = l2 a b.
Proof.
  unfold true_euclid, l2. cbn [fsqrt rnum]. f_equal.
  assert (H : forall l : list (R * R),
    fold_right (fun p s => ((fst p - snd p) * (fst p - snd p) + s)%R) 0%R l
    = rsum (map (fun p => ((fst p - snd p) * (fst p - snd p))%R) l)).
  { induction l as [|p l IH]; [reflexivity|]. cbn [fold_right map]. rewrite IH. reflexivity. }
  exact (H (combine a b)).
Qed.

Lemma euclid_upper : forall (a b : vec rnum) d,
  euclidean_distance a b = Some d -> (true_euclid a b <= d)%R.
Proof.
  intros a b d H. assert (Hl := euclidean_some _ _ _ H). rewrite euclid_l1 in H by auto.
  assert (Hd : d = l1 a b) by congruence. rewrite Hd, true_euclid_l2. apply l2_le_l1.
Qed.

Lemma cosine_measure : forall a b : vec rnum,
  (exists x, In x a /\ x <> 0%R) -> (exists x, In x b /\ x <> 0%R) -> length a = length b ->
  exists s, cosine_similarity a b = Some s /\ (-1 <= s <= 1)%R /\
    cosine_similarity b a = Some s /\
    cosine_similarity a a = Some 1%R /\
    (forall r : R, (0 < r)%R -> cosine_similarity (N := rnum) (map (fun x => (x * r)%R) a) b = Some s).
Proof.
  intros a b Ha Hb Hl. pose proof (cos_val a b Hl Ha Hb) as Hv.
  eexists. split; [exact Hv|]. split; [exact (cos_range a b _ Ha Hb Hv)|].
  split; [rewrite RealNum.cos_sym; exact Hv|]. split; [apply cos_self; exact Ha|].
  intros r Hr. etransitivity; [exact (cos_scale r a b Hr Ha Hb)|exact Hv].
Qed.

Lemma distance_metric : forall a b c : vec rnum,
  length a = length b -> length b = length c ->
  exists dab dbc dac, euclidean_distance a b = Some dab /\ euclidean_distance b c = Some dbc /\
    euclidean_distance a c = Some dac /\
    (0 <= dab)%R /\ (dab = 0%R <-> a = b) /\ euclidean_distance b a = Some dab /\
    (dac <= dab + dbc)%R.
Proof.
  intros a b c H1 H2. exists (l1 a b), (l1 b c), (l1 a c).
  rewrite !euclid_l1 by congruence. repeat (split; auto).
  - apply l1_nonneg.
  - apply (l1_zero a b H1).
  - apply (l1_zero a b H1).
  - rewrite (l1_sym b a). reflexivity.
  - apply l1_triangle; auto.
Qed.

Lemma vec_inverses : forall N, ExactNum N -> forall (a b c : vec N),
  (vec_add a b = Some c -> vec_sub c b = Some a) /\
  (vec_sub a b = Some c -> vec_add c b = Some a) /\
  (forall s, s <> f0 -> vec_div_scalar (vec_mul_scalar a s) s = a /\
                        vec_mul_scalar (vec_div_scalar a s) s = a).
Proof.
  intros N HX a b c. split; [apply (add_sub_inverse HX)|]. split; [apply (sub_add_inverse HX)|].
  intros s Hs. apply (mul_div_inverse HX); auto.
Qed.

Lemma vec_equality : forall (N : Num) (a : vec N),
  (forall b, vec_eq a b = true <->
     length a = length b /\ forall j, j < length a -> feqb (nth j a f0) (nth j b f0) = true) /\
  (forall vs, vec_in a vs = true <-> exists w, In w vs /\ vec_eq a w = true).
Proof. intros N a. split; intros; [apply vec_eq_iff|apply vec_in_iff]. Qed.
