(* Properties C89-C91: distances and searches in binary64. *)
From Coq Require Import List ZArith QArith Qabs Qreals Reals SpecFloat.
From Verif Require Import Base Num MathUtils MathSpec Knn FloatSpec DistSpec FloatDist FloatCos FloatSearch FloatFind.

(* ---- C89 ---- *)
Theorem C89_distance : forall a b : vec f64, length a = length b -> (Z.of_nat (length a) <= 2 ^ 40)%Z ->
  Forall (within (p2 500)) a -> Forall (within (p2 500)) b ->
  exists d, euclidean_distance a b = Some d /\ is_fin d = true /\
    let D := apart (combine a b) in let n := inject_Z (Z.of_nat (length a)) in
    (Qabs (val d - D) <= (2 * n + 1) * ulp * D + n * p2 (-535))%Q.
Proof. exact dist_ieee. Qed.
Print Assumptions C89_distance.

(* 2^53 + 1 + 1 is added up to 2^53. *)
Example C89_distance_case :
  let a := fv [0; 0; 0]%Z in let b := fv [9007199254740992; 1; 1]%Z in
  length a = length b /\ Forall (within (p2 500)) a /\ Forall (within (p2 500)) b /\
  (apart (combine a b) == 9007199254740994)%Q /\ euclidean_distance a b = Some (fz 9007199254740992).
Proof. cbv zeta. split; [reflexivity|]. split; [repeat constructor; discriminate|]. split; [repeat constructor; vm_compute; discriminate|]. split; vm_compute; reflexivity. Qed.

Theorem C89_cosine : forall a b : vec f64, length a = length b -> moderate a -> moderate b ->
  exists c, cosine_similarity a b = Some c /\ is_fin c = true /\
    (Rabs (real c - inner a b / (size a * size b)) <= (4 * IZR (Z.of_nat (length a)) + 16) * Q2R ulp)%R.
Proof. exact cosine_ieee. Qed.
Print Assumptions C89_cosine.

Example C89_cosine_case : let a := fv [3; 4]%Z in let b := fv [-5; 12]%Z in
  length a = length b /\ moderate a /\ moderate b /\ exists c, cosine_similarity a b = Some c /\ (Qabs (val c - (33 # 65)) <= ulp)%Q.
Proof.
  cbv zeta. split; [reflexivity|]. split; [|split].
  - split; [discriminate|]. split; [repeat constructor; vm_compute; discriminate|]. exists (fz 3). split; [left; reflexivity|vm_compute; discriminate].
  - split; [discriminate|]. split; [repeat constructor; vm_compute; discriminate|]. exists (fz 12). split; [right; left; reflexivity|vm_compute; discriminate].
  - eexists. split; [reflexivity|]. vm_compute. discriminate.
Qed.

(* ---- C90 ---- *)
Theorem C90_euclidean : forall (near : bool) (target : vec f64) (pool : list (vec f64)) k, (0 <= k)%Z ->
  (Z.of_nat (length target) <= 2 ^ 40)%Z -> Forall (within (p2 500)) target ->
  Forall (fun v => length v = length target /\ Forall (within (p2 500)) v) pool ->
  exists idx, (if near then knn_euc target pool k else kfn_euc target pool k) = Ok idx /\
    NoDup idx /\ length idx = Nat.min (Z.to_nat k) (length pool) /\ (forall i, In i idx -> i < length pool)%nat /\
    forall i j v w, In i idx -> ~ In j idx -> nth_error pool i = Some v -> nth_error pool j = Some w ->
      let n := inject_Z (Z.of_nat (length target)) in let e := ((2 * n + 1) * ulp)%Q in
      let far := if near then apart (combine target v) else apart (combine target w) in
      let close := if near then apart (combine target w) else apart (combine target v) in
      ((1 - e) * far <= (1 + e) * close + 2 * n * p2 (-535))%Q.
Proof. exact euclidean_search. Qed.
Print Assumptions C90_euclidean.

Example C90_euclidean_case : let target := fv [0; 0]%Z in let pool := [fv [5; 1]%Z; fv [0; 3]%Z; fv [1; 1]%Z] in
  Forall (within (p2 500)) target /\ Forall (fun v => length v = length target /\ Forall (within (p2 500)) v) pool /\
  knn_euc target pool 2 = Ok [2; 1]%nat /\ kfn_euc target pool 1 = Ok [0%nat].
Proof.
  cbv zeta. split; [repeat constructor; discriminate|]. split; [repeat constructor; vm_compute; discriminate|]. split; vm_compute; reflexivity.
Qed.

Theorem C90_cosine : forall (near : bool) (target : vec f64) (pool : list (vec f64)) k, (0 <= k)%Z -> moderate target ->
  Forall (fun v => length v = length target /\ moderate v) pool ->
  exists idx, (if near then knn_cos target pool k else kfn_cos target pool k) = Ok idx /\
    NoDup idx /\ length idx = Nat.min (Z.to_nat k) (length pool) /\ (forall i, In i idx -> i < length pool)%nat /\
    forall i j v w, In i idx -> ~ In j idx -> nth_error pool i = Some v -> nth_error pool j = Some w ->
      let cosine x := (inner target x / (size target * size x))%R in
      let worse := if near then cosine w else cosine v in let better := if near then cosine v else cosine w in
      (worse <= better + 2 * (4 * IZR (Z.of_nat (length target)) + 16) * Q2R ulp)%R.
Proof. exact cosine_search. Qed.
Print Assumptions C90_cosine.

Example C90_cosine_case : let target := fv [1; 2]%Z in let pool := [fv [5; 1]%Z; fv [1; 3]%Z; fv [-1; -1]%Z] in
  moderate target /\ Forall (fun v => length v = length target /\ moderate v) pool /\
  knn_cos target pool 2 = Ok [1; 0]%nat /\ kfn_cos target pool 1 = Ok [2%nat].
Proof.
  assert (M : forall x y, within (p2 450) (fz x) -> within (p2 450) (fz y) -> (p2 (-200) <= Qabs (val (fz x)))%Q -> moderate (fv [x; y])).
  { intros x y Hx Hy H. split; [discriminate|]. split; [repeat constructor; try apply Hx; apply Hy|]. exists (fz x). split; [left; reflexivity|exact H]. }
  cbv zeta. split; [apply M; [split; [reflexivity|]|split; [reflexivity|]|]; vm_compute; discriminate|].
  split; [repeat apply Forall_cons; try apply Forall_nil; (split; [reflexivity|]); (apply M; [split; [reflexivity|]|split; [reflexivity|]|]; vm_compute; discriminate)|].
  split; vm_compute; reflexivity.
Qed.

(* ---- C91 ---- *)
(* A similarity above 1, one that depends on the order, and a vector that is less similar to the target than the target but is preferred. *)
Theorem C91_cosine_refuted :
  (exists a : vec f64, moderate a /\ exists c, cosine_similarity a a = Some c /\ (1 < val c)%Q) /\
  (exists a b : vec f64, moderate a /\ moderate b /\ cosine_similarity a b <> cosine_similarity b a) /\
  (exists a b : vec f64, moderate a /\ moderate b /\ length a = length b /\ knn_cos a [a; b] 1 = Ok [1%nat] /\
     (inner a b / (size a * size b) < inner a a / (size a * size a))%R).
Proof. exact cosine_refuted. Qed.
Print Assumptions C91_cosine_refuted.

(* Different vectors at distance 0, finite vectors at distance infinity, a nearest vector that is not, and one that is not found. *)
Theorem C91_distance_refuted :
  (exists a b : vec f64, forallb is_fin (a ++ b) = true /\ (0 < apart (combine a b))%Q /\ euclidean_distance a b = Some f0) /\
  (exists a b : vec f64, forallb is_fin (a ++ b) = true /\ euclidean_distance a b = Some (S754_infinity false)) /\
  (exists a b c : vec f64, forallb is_fin (a ++ b ++ c) = true /\ (apart (combine a b) < apart (combine a c))%Q /\
     knn_euc a [b; c] 1 = Ok [1%nat]) /\
  (exists a b : vec f64, forallb is_fin (a ++ b) = true /\ length a = length b /\ knn_euc a [b] 1 = Ok []).
Proof. exact distance_refuted. Qed.
Print Assumptions C91_distance_refuted.
