(* Property C59, what holds of ties: see Props01.v for what does not. *)
From Verif Require Import Base Num MathUtils Knn Env SearchSpec MathSpec NumFacts KnnProofs KnnTies.
From Coq Require Import Sorted.
Local Open Scope nat_scope.

(* ---- C59 ---- *)
(* Whatever the order of the pool, the answer has the same length and, place by place, equally
   good scores. *)
Theorem C59_scores_of_any_order : forall dist ascending target pool pool' k, (0 <= k)%Z -> Permutation pool pool' ->
  exists idx idx', knn_brute (N := f64) dist ascending target pool k = Ok idx /\
    knn_brute dist ascending target pool' k = Ok idx' /\
    Forall2 (fun i j => exists s s', rankable dist ascending target pool i s /\ rankable dist ascending target pool' j s' /\
      better ascending s s' = false /\ better ascending s' s = false) idx idx'.
Proof. exact (knn_scores f64_ord). Qed.
Print Assumptions C59_scores_of_any_order.

(* Without ties the same vectors are found in the same order. *)
Theorem C59_no_ties : forall dist ascending target pool pool' k, (0 <= k)%Z -> Permutation pool pool' ->
  (forall i j s s', rankable dist ascending target pool i s -> rankable dist ascending target pool j s' -> i <> j ->
     better ascending s s' = true \/ better ascending s' s = true) ->
  exists idx idx', knn_brute (N := f64) dist ascending target pool k = Ok idx /\
    knn_brute dist ascending target pool' k = Ok idx' /\
    map (nth_error pool) idx = map (nth_error pool') idx'.
Proof. exact (knn_no_ties f64_ord). Qed.
Print Assumptions C59_no_ties.

(* A pool that comes best first is answered in pool order, ties included: the first K rankable
   positions. *)
Theorem C59_best_first_pool : forall dist ascending target pool k, (0 <= k)%Z ->
  (forall i j s s', i < j -> rankable dist ascending target pool i s -> rankable dist ascending target pool j s' ->
     better ascending s' s = false) ->
  exists idx, knn_brute (N := f64) dist ascending target pool k = Ok idx /\ StronglySorted lt idx /\
    (forall i j s, rankable dist ascending target pool i s -> In j idx -> i < j -> In i idx).
Proof. exact knn_in_order. Qed.
Print Assumptions C59_best_first_pool.

(* Three vectors, two of them equally far off.  The order of the pool decides which is named,
   not how far it is. *)
Example C59_case :
  knn_brute (N := f64) euclidean_distance false (fv [0]%Z) [fv [5]; fv [-5]; fv [7]]%Z 2 = Ok [2; 1] /\
  knn_brute (N := f64) euclidean_distance false (fv [0]%Z) [fv [7]; fv [5]; fv [-5]]%Z 2 = Ok [0; 1].
Proof. vm_compute. auto. Qed.

(* The second of these pools comes best first. *)
Example C59_case_sorted : forall i j s s', i < j ->
  rankable (N := f64) euclidean_distance false (fv [0]%Z) [fv [7]; fv [5]; fv [-5]]%Z i s ->
  rankable euclidean_distance false (fv [0]%Z) [fv [7]; fv [5]; fv [-5]]%Z j s' -> better false s' s = false.
Proof.
  intros i j s s' Hl (v & Hv & Hd & _) (v' & Hv' & Hd' & _).
  destruct i as [|[|[|i]]], j as [|[|[|j]]]; try lia; cbn in Hv, Hv';
    try (destruct i; discriminate Hv); try (destruct j; discriminate Hv');
    injection Hv as <-; injection Hv' as <-; vm_compute in Hd, Hd';
    injection Hd as <-; injection Hd' as <-; vm_compute; reflexivity.
Qed.

(* A pool without ties. *)
Example C59_case_no_ties : forall i j s s',
  rankable (N := f64) euclidean_distance false (fv [0]%Z) [fv [7]; fv [5]]%Z i s ->
  rankable euclidean_distance false (fv [0]%Z) [fv [7]; fv [5]]%Z j s' -> i <> j ->
  better false s s' = true \/ better false s' s = true.
Proof.
  intros i j s s' (v & Hv & Hd & _) (v' & Hv' & Hd' & _) Hn.
  destruct i as [|[|i]], j as [|[|j]]; try lia; cbn in Hv, Hv';
    try (destruct i; discriminate Hv); try (destruct j; discriminate Hv');
    injection Hv as <-; injection Hv' as <-; vm_compute in Hd, Hd';
    injection Hd as <-; injection Hd' as <-; vm_compute; auto.
Qed.
