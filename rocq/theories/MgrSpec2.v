(* More specification vocabulary for managers: which data goes where. *)
From Verif Require Import Base Num MathUtils Env Centroid CManager History DataSpec MgrSpec.
Local Open Scope nat_scope.

Section MgrSpec2.
Context {N : Num} (E : Env N).
Notation DP := (DataPoint N).
Notation Cen := (Centroid N).

(* Several lists examined one after the other, see [live_from]. *)
Fixpoint live_lists (t : nat) (ls : list (list DP)) : list (list DP) :=
  match ls with
  | [] => []
  | l :: r => live_from E t l :: live_lists (t + length l) r
  end.

Definition holds_data (l : list DP) : bool := match l with [] => false | _ :: _ => true end.

(* The search finds every vector of a pool of vectors of one dimension. *)
Definition finds_all : Prop := forall v pool, Forall (fun w => length w = length v) pool -> ranks_all (e_knn E) v pool.

(* The centroid that takes d: the receiver that the search finds for d's vector, if it finds
   one; otherwise the centroid it came from. *)
Definition taker (recv : list nat) (self : nat) (pool : list Cen) (d : DP) : nat :=
  match e_knn E (dp_vec d) (map c_vec (pick recv pool)) 1%Z with
  | Ok (i :: _) => nth i recv self
  | _ => self
  end.

(* The datapoints ds are handed out one after the other, each is appended to its taker. *)
Inductive handed (recv : list nat) (self : nat) : list Cen -> list DP -> list Cen -> Prop :=
| handed_nil pool : handed recv self pool [] pool
| handed_cons pool d ds c c' pool' :
    nth_error pool (taker recv self pool d) = Some c -> c_dps c' = c_dps c ++ [d] ->
    handed recv self (list_set pool (taker recv self pool d) c') ds pool' ->
    handed recv self pool (d :: ds) pool'.

(* Each listed centroid in turn hands out the given number of its worst-fitting datapoints. *)
Inductive spread (recv : list nat) : list (nat * nat) -> list Cen -> list Cen -> Prop :=
| spread_nil pool : spread recv [] pool pool
| spread_cons i p ps pool c idx c1 pool1 pool2 :
    nth_error pool i = Some c -> e_kfn E (c_vec c) (map dp_vec (c_dps c)) (Z.of_nat p) = Ok idx ->
    c_dps c1 = without idx (c_dps c) ->
    handed recv i (list_set pool i c1) (pick idx (c_dps c)) pool1 ->
    spread recv ps pool1 pool2 -> spread recv ((i, p) :: ps) pool pool2.

(* The shares given as a list with one number for each centroid, in any order and without
   the zeros. *)
Definition same_shares (ps : list (nat * nat)) (full : list nat) : Prop :=
  NoDup (map fst ps) /\ forall i p, In (i, p) ps <-> nth_error full i = Some p /\ p <> 0.

(* y is what x has become by taking in the data of others, as long as it fitted p. *)
Inductive absorbed (p : Cen -> bool) (x : Cen) : Cen -> Prop :=
| ab_none : absorbed p x x
| ab_more y z ds : absorbed p x y -> p y = true -> c_dps z = c_dps y ++ ds -> absorbed p x z.

(* A lookup of k datapoints near v goes through the listed centroids (their data: ls), of each it
   takes those that the search finds best among the unexpired, until it has k.  [gone]: whether
   they are removed. *)
Inductive Collected (v : vec N) (gone : bool)
  : list nat -> nat -> nat -> list (list DP) -> list DP -> list (list DP) -> Prop :=
| co_enough idx t ls : Collected v gone idx 0 t ls [] ls
| co_end k t ls : Collected v gone [] k t ls [] ls
| co_next i idx k t ls l js rest ls' :
    0 < k -> nth_error ls i = Some l ->
    e_knn E v (map dp_vec (live_from E t l)) (Z.of_nat k) = Ok js ->
    Collected v gone idx (k - length js) (t + length l)
      (list_set ls i (if gone then without js (live_from E t l) else live_from E t l)) rest ls' ->
    Collected v gone (i :: idx) k t ls (pick js (live_from E t l) ++ rest) ls'.

End MgrSpec2.
