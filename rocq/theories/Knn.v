(* Model of pkg/searchutils/knn.go. *)
From Verif Require Import Base Num MathUtils.

Section Knn.
Context {N : Num}.

(* pkg/searchutils/knn.go:17-27 resultItem. *)
Record result_item := RItem {
  ri_index : nat;
  ri_score : F N;
  ri_set : bool
}.

(* pkg/searchutils/knn.go:35-46 bubble: one pass over items, both ifs kept. *)
Fixpoint bubble (ins : result_item) (items : list result_item) (ascending : bool)
  : list result_item :=
  match items with
  | [] => []
  | it :: rest =>
      let '(ins1, it1) :=
        if (fltb (ri_score it) (ri_score ins) || negb (ri_set it)) && negb ascending
        then (it, ins) else (ins, it) in
      let '(ins2, it2) :=
        if (fltb (ri_score ins1) (ri_score it1) || negb (ri_set it1)) && ascending
        then (it1, ins1) else (ins1, it1) in
      it2 :: bubble ins2 rest ascending
  end.

(* pkg/searchutils/knn.go:49-57 resItems2Indexes. *)
Definition res_items_2_indexes (items : list result_item) : list nat :=
  map ri_index (filter ri_set items).

(* pkg/searchutils/knn.go:93-96, the worst score. *)
Definition worst (ascending : bool) : F N :=
  if ascending then fmaxv else fmul fmaxv (fsub f0 f1).

(* pkg/searchutils/knn.go:101-123, the main loop; the pool is the sequence of vectors
   the generator yields. *)
Fixpoint knn_loop (dist : vec N -> vec N -> option (F N)) (target : vec N)
  (ascending : bool) (similarity : F N) (i : nat) (pool : list (vec N))
  (res : list result_item) : list result_item :=
  match pool with
  | [] => res
  | v :: pool' =>
      let res' :=
        match dist target v with
        | None => res
        | Some score =>
            let slot := RItem i score true in
            let res1 := if ascending && fltb score similarity then bubble slot res true else res in
            if negb ascending && fltb similarity score then bubble slot res1 false else res1
        end in
      knn_loop dist target ascending similarity (S i) pool' res'
  end.

(* pkg/searchutils/knn.go:88-125 KNNBrute.  make([]resultItem, K) panics for K < 0.
   Simplification: the generator is run to exhaustion first (exhaust in MathUtils.v) and
   the resulting pool is searched; KNNBrute interleaves the two, which is equivalent because
   it always exhausts the generator and the search itself has no side effects.
   (In bubble the swapped-out insertee is a local of this call and is discarded.) *)
Definition knn_brute (dist : vec N -> vec N -> option (F N)) (ascending : bool)
  (target : vec N) (pool : list (vec N)) (k : Z) : outcome (list nat) :=
  if (k <? 0)%Z then Panic
  else
    let sim := worst ascending in
    let res0 := repeat (RItem 0 sim false) (Z.to_nat k) in
    Ok (res_items_2_indexes (knn_loop dist target ascending sim 0 pool res0)).

(* pkg/searchutils/knn.go:130-138 KNNCos. *)
Definition knn_cos := knn_brute cosine_similarity false.
(* pkg/searchutils/knn.go:141-149 KFNCos. *)
Definition kfn_cos := knn_brute cosine_similarity true.
(* pkg/searchutils/knn.go:154-162 KNNEuc. *)
Definition knn_euc := knn_brute euclidean_distance true.
(* pkg/searchutils/knn.go:165-173 KFNEuc. *)
Definition kfn_euc := knn_brute euclidean_distance false.

End Knn.
Arguments result_item N : clear implicits.
