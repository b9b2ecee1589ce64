(* Properties C01-C08 and C59: distances, vector helpers and the linear search. *)
From Verif Require Import Base Num MathUtils Knn Env SearchSpec MathSpec DataSpec Wp NumFacts KnnProofs
  RealNum MathProofs Props01Lemmas.
From Coq Require Import Reals.
Local Open Scope nat_scope.

(* ---- C01 ---- *)
Theorem C01_knn_best_k : forall dist ascending target pool k, (0 <= k)%Z ->
  exists idx, knn_brute (N := f64) dist ascending target pool k = Ok idx /\
    BestK dist ascending target pool (Z.to_nat k) idx /\
    forall all, enumerates (fun i => exists s, rankable dist ascending target pool i s) all ->
      length idx = min (Z.to_nat k) (length all).
Proof. exact knn_best_k. Qed.
Print Assumptions C01_knn_best_k.

Example C01_case :
  knn_brute (N := f64) cosine_similarity false (fv [1;0]%Z) [fv [0;1]%Z; fv [1;1]%Z; fv [0;0]%Z; fv [2;0]%Z] 2
  = Ok [3; 1].
Proof. vm_compute. reflexivity. Qed.

(* ---- C59: which of several equally good positions are kept ---- *)
(* Full statement: of equally ranked positions the earlier ones are kept and come first. *)
Theorem C59_ties_in_pool_order_refuted : exists target pool idx i j s,
  knn_brute (N := f64) euclidean_distance false target pool 2 = Ok idx /\
  rankable euclidean_distance false target pool i s /\
  rankable euclidean_distance false target pool j s /\
  i < j /\ In j idx /\ ~ In i idx.
Proof. exact ties_refuted. Qed.
Print Assumptions C59_ties_in_pool_order_refuted.

(* ---- C02 ---- *)
Theorem C02_prefab_searches : forall s : search f64,
  In s [knn_cos; kfn_cos; knn_euc; kfn_euc] ->
  (forall target pool k, (0 <= k)%Z ->
     exists idx, s target pool k = Ok idx /\ NoDup idx /\ (Z.of_nat (length idx) <= k)%Z /\
       forall i, In i idx -> exists v, nth_error pool i = Some v /\ length v = length target) /\
  (forall target pool k, (k < 0)%Z -> s target pool k = Panic).
Proof. exact prefab_searches. Qed.
Print Assumptions C02_prefab_searches.

(* Which measure and which direction each of them ranks by: the largest cosine similarity is
   the nearest, the smallest distance is the nearest. *)
Theorem C02_prefab_best : forall (target : vec f64) pool k, (0 <= k)%Z ->
  (exists idx, knn_cos target pool k = Ok idx /\ BestK cosine_similarity false target pool (Z.to_nat k) idx) /\
  (exists idx, kfn_cos target pool k = Ok idx /\ BestK cosine_similarity true target pool (Z.to_nat k) idx) /\
  (exists idx, knn_euc target pool k = Ok idx /\ BestK euclidean_distance true target pool (Z.to_nat k) idx) /\
  (exists idx, kfn_euc target pool k = Ok idx /\ BestK euclidean_distance false target pool (Z.to_nat k) idx).
Proof. exact prefab_best. Qed.
Print Assumptions C02_prefab_best.

Example C02_case :
  knn_euc (N := f64) (fv [0;0]%Z) [fv [5]%Z; fv [0;3]%Z; fv [1;1]%Z] 3 = Ok [2; 1] /\
  knn_euc (N := f64) (fv [0;0]%Z) [fv [5]%Z] (-1) = Panic.
Proof. vm_compute. auto. Qed.

(* ---- C03 ---- *)
(* Full statement: with k >= length pool every pool vector of the target's dimension is
   returned.  It fails for a zero vector. *)
Theorem C03_cosine_search_complete_refuted : exists target pool idx i v,
  knn_cos (N := f64) target pool (Z.of_nat (length pool)) = Ok idx /\
  nth_error pool i = Some v /\ length v = length target /\ ~ In i idx.
Proof. exact cosine_complete_refuted. Qed.
Print Assumptions C03_cosine_search_complete_refuted.

(* What holds: exactly the vectors with a score above -MaxFloat64 (so: a number) are
   returned. *)
Theorem C03_cosine_search_complete_partial : forall target pool k,
  (Z.of_nat (length pool) <= k)%Z ->
  exists idx, knn_cos (N := f64) target pool k = Ok idx /\
    forall i, In i idx <->
      exists v s, nth_error pool i = Some v /\ cosine_similarity target v = Some s /\
                  fltb (fmul fmaxv (fsub f0 f1)) s = true.
Proof. exact cosine_complete. Qed.
Print Assumptions C03_cosine_search_complete_partial.

Example C03_case :
  knn_cos (N := f64) (fv [1;2]%Z) [fv [0;0]%Z; fv [1;1]%Z; fv [-1;-2]%Z] 3 = Ok [1; 2].
Proof. vm_compute. reflexivity. Qed.

(* ---- C04 ---- *)
Theorem C04_euclidean_refuted :
  (exists a b : vec f64, length a = length b /\ euclidean_distance a b <> Some (true_euclid a b)) /\
  (exists (target : vec f64) a b idx,
     fltb (true_euclid target b) (true_euclid target a) = true /\
     knn_euc target [a; b] 1 = Ok idx /\ idx = [0]).
Proof. exact euclid_refuted. Qed.
Print Assumptions C04_euclidean_refuted.

(* What the function computes over the reals: the sum of absolute differences. *)
Theorem C04_euclidean_partial : forall a b : vec rnum, length a = length b ->
  euclidean_distance a b =
    Some (fold_right Rplus 0%R (map (fun p => Rabs (fst p - snd p)) (combine a b))).
Proof. exact euclid_l1. Qed.
Print Assumptions C04_euclidean_partial.

(* It never underestimates the Euclidean distance. *)
Theorem C04_euclidean_upper_partial : forall (a b : vec rnum) d,
  euclidean_distance a b = Some d -> (true_euclid a b <= d)%R.
Proof. exact euclid_upper. Qed.
Print Assumptions C04_euclidean_upper_partial.

Example C04_case : euclidean_distance (N := f64) (fv [0;0]%Z) (fv [3;4]%Z) = Some (fz 7) /\
  true_euclid (N := f64) (fv [0;0]%Z) (fv [3;4]%Z) = fz 5.
Proof. vm_compute. auto. Qed.

(* ---- C05 ---- *)
Theorem C05_cosine_measure : forall a b : vec rnum,
  (exists x, In x a /\ x <> 0%R) -> (exists x, In x b /\ x <> 0%R) -> length a = length b ->
  exists s, cosine_similarity a b = Some s /\ (-1 <= s <= 1)%R /\
    cosine_similarity b a = Some s /\
    cosine_similarity a a = Some 1%R /\
    (forall r : R, (0 < r)%R -> cosine_similarity (N := rnum) (map (fun x => (x * r)%R) a) b = Some s).
Proof. exact cosine_measure. Qed.
Print Assumptions C05_cosine_measure.

Theorem C05_distance_metric : forall a b c : vec rnum,
  length a = length b -> length b = length c ->
  exists dab dbc dac, euclidean_distance a b = Some dab /\ euclidean_distance b c = Some dbc /\
    euclidean_distance a c = Some dac /\
    (0 <= dab)%R /\ (dab = 0%R <-> a = b) /\ euclidean_distance b a = Some dab /\
    (dac <= dab + dbc)%R.
Proof. exact distance_metric. Qed.
Print Assumptions C05_distance_metric.

Example C05_case : exists x, In x [0%R; 2%R] /\ x <> 0%R.
Proof. exists 2%R. split; [right; left; reflexivity|]. apply IZR_neq. discriminate. Qed.

(* ---- C06 ---- *)
Theorem C06_error_iff_dimension_mismatch : forall (N : Num) (a b : vec N),
  (cosine_similarity a b = None <-> length a <> length b) /\
  (euclidean_distance a b = None <-> length a <> length b).
Proof. exact @distance_error_iff. Qed.
Print Assumptions C06_error_iff_dimension_mismatch.

Example C06_case : cosine_similarity (N := f64) (fv [1]%Z) (fv [1;2]%Z) = None /\
  euclidean_distance (N := f64) (fv [1;1]%Z) (fv [1;2]%Z) = Some (fz 1).
Proof. vm_compute. auto. Qed.

(* ---- C07 ---- *)
Theorem C07_vec_mean : forall N, ExactNum N -> forall n (vs : list (vec N)) t,
  vs <> [] -> Forall (fun v => length v = n) vs ->
  wp (vec_mean (S (length vs)) list_gen vs) t (fun r _ => fst r = (mean_of n vs, true)).
Proof. exact @vec_mean_exact. Qed.
Print Assumptions C07_vec_mean.

Theorem C07_vec_mean_fails_iff : forall (N : Num) (vs : list (vec N)) t,
  wp (vec_mean (S (length vs)) list_gen vs) t (fun r _ =>
    snd (fst r) = false <->
    vs = [] \/ exists v w, In v vs /\ In w vs /\ length v <> length w).
Proof. exact @vec_mean_fails_iff. Qed.
Print Assumptions C07_vec_mean_fails_iff.

Example C07_case : ExactNum qc /\
  wp (vec_mean (N := f64) 3 list_gen [fv [1;5]%Z; fv [3;9]%Z]) 0 (fun r _ => fst r = (fv [2;7]%Z, true)).
Proof. split; [exact qc_exact|]. vm_compute. reflexivity. Qed.

(* ---- C08 ---- *)
Theorem C08_dimensions : forall (N : Num) (a b : vec N),
  (vec_add a b <> None <-> length a = length b) /\
  (vec_sub a b <> None <-> length a = length b) /\
  (forall c, vec_add a b = Some c -> length c = length a) /\
  (forall c, vec_sub a b = Some c -> length c = length a) /\
  (forall s, length (vec_mul_scalar a s) = length a) /\
  (forall s, length (vec_div_scalar a s) = length a).
Proof. exact @vec_add_sub_dims. Qed.
Print Assumptions C08_dimensions.

Theorem C08_coordinates : forall (N : Num) (a b : vec N) j,
  length a = length b -> j < length a ->
  (forall c, vec_add a b = Some c -> nth j c f0 = fadd (nth j a f0) (nth j b f0)) /\
  (forall c, vec_sub a b = Some c -> nth j c f0 = fsub (nth j a f0) (nth j b f0)) /\
  (forall s, nth j (vec_mul_scalar a s) f0 = fmul (nth j a f0) s) /\
  (forall s, nth j (vec_div_scalar a s) f0 = fdiv (nth j a f0) s).
Proof. exact @vec_ops_coords. Qed.
Print Assumptions C08_coordinates.

Theorem C08_inverses : forall N, ExactNum N -> forall (a b c : vec N),
  (vec_add a b = Some c -> vec_sub c b = Some a) /\
  (vec_sub a b = Some c -> vec_add c b = Some a) /\
  (forall s, s <> f0 -> vec_div_scalar (vec_mul_scalar a s) s = a /\
                        vec_mul_scalar (vec_div_scalar a s) s = a).
Proof. exact vec_inverses. Qed.
Print Assumptions C08_inverses.

Theorem C08_equality : forall (N : Num) (a : vec N),
  (forall b, vec_eq a b = true <->
     length a = length b /\ forall j, j < length a -> feqb (nth j a f0) (nth j b f0) = true) /\
  (forall vs, vec_in a vs = true <-> exists w, In w vs /\ vec_eq a w = true).
Proof. exact vec_equality. Qed.
Print Assumptions C08_equality.

Example C08_case : vec_add (N := f64) (fv [1;2]%Z) (fv [3;4]%Z) = Some (fv [4;6]%Z) /\
  vec_in (N := f64) (fv [1;2]%Z) [fv [2;1]%Z; fv [1;2]%Z] = true.
Proof. vm_compute. auto. Qed.
