(* Model of pkg/kmeans/centroid/centroid.go.
   Methods that mutate the receiver return the new centroid. *)
From Verif Require Import Base Num MathUtils Env.

Section Centroid.
Context {N : Num} (E : Env N).

Notation DP := (DataPoint N).

(* centroid.go:21-26 Centroid.  The two search functions are fields of the Go struct; in
   the model they are e_knn/e_kfn of the environment, shared by all centroids
   (cmanager.go:104-119 copies the manager's functions into every centroid it creates;
   cmd/service configures one pair for the whole node). *)
Record Centroid := MkC {
  c_vec : vec N;
  c_dps : list DP
}.

(* centroid.go:59-74 NewCentroid (for non-nil search functions); capacity not modelled. *)
Definition new_centroid (init : vec N) : Centroid := MkC init [].

(* centroid.go:80-87 addDataPoint. *)
Definition add_dp_raw (c : Centroid) (d : DP) : Centroid :=
  let v1 := vec_mul_scalar (c_vec c) (fofnat (length (c_dps c))) in
  let v2 := or_nil (vec_add v1 (dp_vec d)) in
  let v3 := vec_div_scalar v2 (fadd (fofnat (length (c_dps c))) f1) in
  MkC v3 (c_dps c ++ [d]).

(* centroid.go:91-97 AddDataPoint. *)
Definition c_add (c : Centroid) (d : DP) : M (bool * Centroid) :=
  if negb (length (dp_vec d) =? length (c_vec c)) then ret (false, c)
  else
    do e <- expired E d;
    if e then ret (false, c) else ret (true, add_dp_raw c d).

(* centroid.go:102-112 rmDataPoint.  An index outside the slice panics (either at the
   indexing on line 105 or at the reslicing on line 111). *)
Definition rm_dp (c : Centroid) (i : nat) : M Centroid :=
  do d <- index (c_dps c) i;
  let v :=
    if 1 <? length (c_dps c) then
      let v1 := vec_mul_scalar (c_vec c) (fofnat (length (c_dps c))) in
      let v2 := or_nil (vec_sub v1 (dp_vec d)) in
      vec_div_scalar v2 (fofnat (length (c_dps c) - 1))
    else c_vec c in
  ret (MkC v (remove_at i (c_dps c))).

(* centroid.go:120-122, skipping expired datapoints at position i. *)
Fixpoint skip_expired (fuel : nat) (c : Centroid) (i : nat) : M Centroid :=
  if i <? length (c_dps c) then
    do d <- index (c_dps c) i;
    do e <- expired E d;
    if e then
      match fuel with
      | O => out_of_fuel
      | S fuel' => do c' <- rm_dp c i; skip_expired fuel' c' i
      end
    else ret c
  else ret c.

(* centroid.go:116-129 dataPointVecGenerator: the generator's state is the centroid and i. *)
Definition dp_vec_gen : Gen (Centroid * nat) := fun s =>
  let '(c, i) := s in
  do c' <- skip_expired (length (c_dps c)) c i;
  match nth_error (c_dps c') i with
  | None => ret (None, (c', i))
  | Some d => ret (Some (dp_vec d), (c', S i))
  end.

(* A search over dataPointVecGenerator (see the comment at knn_brute in Knn.v). *)
Definition search_dps (s : search N) (target : vec N) (c : Centroid) (k : Z)
  : M (list nat * Centroid) :=
  do ' (vs, (c', _)) <- exhaust (S (length (c_dps c))) dp_vec_gen (c, 0);
  do idx <- lift (s target vs k);
  ret (idx, c').

(* centroid.go:135-140, the loop of DrainUnordered; n is the number still wanted. *)
Fixpoint drain_unordered_loop (fuel : nat) (c : Centroid) (n : nat) (res : list DP)
  : M (list DP * Centroid) :=
  match c_dps c, n with
  | d :: _, S n' =>
      match fuel with
      | O => out_of_fuel
      | S fuel' =>
          do e <- expired E d;
          do c' <- rm_dp c 0;
          if e then drain_unordered_loop fuel' c' n res
          else drain_unordered_loop fuel' c' n' (res ++ [d])
      end
  | _, _ => ret (res, c)
  end.

(* centroid.go:133-142 DrainUnordered; make(.., 0, n) panics for n < 0. *)
Definition c_drain_unordered (c : Centroid) (n : Z) : M (list DP * Centroid) :=
  if (n <? 0)%Z then panic
  else drain_unordered_loop (length (c_dps c)) c (Z.to_nat n) [].

(* Read the datapoints at the given positions (centroid.go:154-156 and 249-251). *)
Fixpoint index_all {A : Type} (l : list A) (idx : list nat) : M (list A) :=
  match idx with
  | [] => ret []
  | i :: r => do x <- index l i; do xs <- index_all l r; ret (x :: xs)
  end.

(* Remove the datapoints at the given positions, in the given order
   (centroid.go:160-162 and 258-260). *)
Fixpoint rm_all (c : Centroid) (idx : list nat) : M Centroid :=
  match idx with
  | [] => ret c
  | i :: r => do c' <- rm_dp c i; rm_all c' r
  end.

(* centroid.go:150-164 DrainOrdered. *)
Definition c_drain_ordered (c : Centroid) (n : Z) : M (list DP * Centroid) :=
  if (n <? 0)%Z then panic
  else
    do ' (idx, c1) <- search_dps (e_kfn E) (c_vec c) c n;
    do res <- index_all (c_dps c1) idx;
    do c2 <- rm_all c1 (rev (sort_ints idx));
    ret (res, c2).

(* centroid.go:169-178 Expire. *)
Fixpoint expire_loop (fuel : nat) (c : Centroid) (i : nat) : M Centroid :=
  if i <? length (c_dps c) then
    match fuel with
    | O => out_of_fuel
    | S fuel' =>
        do d <- index (c_dps c) i;
        do e <- expired E d;
        if e then do c' <- rm_dp c i; expire_loop fuel' c' i
        else expire_loop fuel' c (S i)
    end
  else ret c.
Definition c_expire (c : Centroid) : M Centroid := expire_loop (length (c_dps c)) c 0.

(* centroid.go:181 LenDP. *)
Definition c_len (c : Centroid) : nat := length (c_dps c).

(* centroid.go:184-194 MemTrim. *)
Fixpoint mem_trim_loop (fuel : nat) (c : Centroid) (dps : list DP) : M (list DP * Centroid) :=
  match c_dps c with
  | [] => ret (dps, c)
  | _ :: _ =>
      match fuel with
      | O => out_of_fuel
      | S fuel' =>
          do ' (r, c') <- c_drain_unordered c 1;
          mem_trim_loop fuel' c' (dps ++ r)
      end
  end.
Definition c_mem_trim (c : Centroid) : M Centroid :=
  do ' (dps, c') <- mem_trim_loop (length (c_dps c)) c [];
  ret (MkC (c_vec c') dps).

(* centroid.go:201-207 MoveVector. *)
Definition c_move_vector (c : Centroid) : M (bool * Centroid) :=
  do ' ((v, ok), (c', _)) <- vec_mean (S (length (c_dps c))) dp_vec_gen (c, 0);
  ret (ok, if ok then MkC v (c_dps c') else c').

(* centroid.go:245-263 KNNLookup. *)
Definition c_knn_lookup (c : Centroid) (v : vec N) (k : Z) (drain : bool)
  : M (list DP * Centroid) :=
  if (k <? 0)%Z then panic
  else
    do ' (idx, c1) <- search_dps (e_knn E) v c k;
    do res <- index_all (c_dps c1) idx;
    if drain then
      do c2 <- rm_all c1 (rev (sort_ints idx));
      ret (res, c2)
    else ret (res, c1).

(* Receivers are positions in a pool of centroids which also contains the distributing
   centroid; this models receivers that alias it (centroid.go:218-219). *)
Fixpoint recv_vecs (pool : list Centroid) (recv : list nat) : M (list (vec N)) :=
  match recv with
  | [] => ret []
  | r :: rs => do c <- index pool r; do vs <- recv_vecs pool rs; ret (c_vec c :: vs)
  end.

(* centroid.go:235, putting a datapoint back into self. *)
Definition put_back (pool : list Centroid) (self : nat) (d : DP) : M (list Centroid) :=
  do c <- index pool self;
  do ' (_, c') <- c_add c d;
  ret (list_set pool self c').

(* centroid.go:230-237, the distribution loop. *)
Fixpoint distribute_loop (pool : list Centroid) (self : nat) (recv : list nat) (data : list DP)
  : M (list Centroid) :=
  match data with
  | [] => ret pool
  | d :: data' =>
      do vs <- recv_vecs pool recv;
      do idx <- lift (e_knn E (dp_vec d) vs 1%Z);
      do pool' <-
        match idx with
        | [] => put_back pool self d
        | i :: _ =>
            do r <- index recv i;
            do c <- index pool r;
            do ' (ok, c') <- c_add c d;
            if ok then ret (list_set pool r c') else put_back pool self d
        end;
      distribute_loop pool' self recv data'
  end.

(* centroid.go:214-238 DistributeDataPoints.  Receivers that are not centroids (a
   CentroidManager also implements the interface, but no code passes one) are not
   modelled. *)
Definition c_distribute (pool : list Centroid) (self : nat) (n : Z) (recv : list nat)
  : M (list Centroid) :=
  match recv with
  | [] => ret pool
  | _ :: _ =>
      do c <- index pool self;
      do ' (data, c') <- c_drain_ordered c n;
      distribute_loop (list_set pool self c') self recv data
  end.

End Centroid.
Arguments Centroid N : clear implicits.
Arguments MkC {N}.
