(* Model of pkg/kmeans/centroid/centroid.go with slices and pointers (Memory.v) in place of the
   lists and values of Centroid.v.  A centroid is its pointer; a returned slice is a variable. *)
From Verif Require Import Base Num MathUtils Env Memory.

Section MemCentroid.
Context {N : Num} (E : Env N).
Notation DP := (DataPoint N).

(* centroid.go:59-74 NewCentroid, and the & of cmanager.go:117; for a capacity that is not
   negative. *)
Definition new_centroid_m (init : vec N) (cap : nat) : prog N nat :=
  run x <- data (New cap); new_obj init x.

(* centroid.go:181 LenDP. *)
Definition len_m (p : nat) : prog N nat := run o <- get_obj p; data (Len (snd o)).

(* centroid.go:77 Vec. *)
Definition vec_m (p : nat) : prog N (vec N) := run o <- get_obj p; Done (fst o).

(* centroid.go:80-87 addDataPoint. *)
Definition add_raw_m (p : nat) (d : DP) : prog N unit :=
  run o <- get_obj p;
  run n <- data (Len (snd o));
  let v1 := vec_mul_scalar (fst o) (fofnat n) in
  let v2 := or_nil (vec_add v1 (dp_vec d)) in
  let v3 := vec_div_scalar v2 (fadd (fofnat n) f1) in
  run _ <- set_obj p v3;
  data (App (snd o) [d]).

(* centroid.go:91-97 AddDataPoint. *)
Definition add_m (p : nat) (d : DP) : prog N bool :=
  run v <- vec_m p;
  if negb (length (dp_vec d) =? length v) then Done false
  else
    run e <- eff (expired E d);
    if e then Done false
    else run _ <- add_raw_m p d; Done true.

(* centroid.go:102-112 rmDataPoint. *)
Definition rm_m (p i : nat) : prog N unit :=
  run o <- get_obj p;
  run n <- data (Len (snd o));
  run _ <-
    (if 1 <? n then
       run d <- data (Get (snd o) i);
       let v1 := vec_mul_scalar (fst o) (fofnat n) in
       let v2 := or_nil (vec_sub v1 (dp_vec d)) in
       set_obj p (vec_div_scalar v2 (fofnat (n - 1)))
     else Done tt);
  data (Del (snd o) i).

(* c.DataPoints[i] *)
Definition dp_m (p i : nat) : prog N DP := run o <- get_obj p; data (Get (snd o) i).

(* centroid.go:120-122. *)
Fixpoint skip_m (fuel : nat) (p i : nat) : prog N unit :=
  run n <- len_m p;
  if i <? n then
    run d <- dp_m p i;
    run e <- eff (expired E d);
    if e then
      match fuel with
      | O => eff out_of_fuel
      | S fuel' => run _ <- rm_m p i; skip_m fuel' p i
      end
    else Done tt
  else Done tt.

(* centroid.go:118-128, one call of the generator that dataPointVecGenerator returns; i is the
   variable that it captures. *)
Definition gen_m (p i : nat) : prog N (option (vec N) * nat) :=
  run n <- len_m p;
  run _ <- skip_m n p i;
  run n <- len_m p;
  if n <=? i then Done (None, i)
  else run d <- dp_m p i; Done (Some (dp_vec d), S i).

(* pkg/searchutils/knn.go:102-107 on this generator. *)
Fixpoint exhaust_m (fuel : nat) (p i : nat) : prog N (list (vec N)) :=
  match fuel with
  | O => eff out_of_fuel
  | S fuel' =>
      run r <- gen_m p i;
      match fst r with
      | None => Done []
      | Some v => run vs <- exhaust_m fuel' p (snd r); Done (v :: vs)
      end
  end.
Definition search_m (s : search N) (target : vec N) (p : nat) (k : Z) : prog N (list nat) :=
  run n <- len_m p;
  run vs <- exhaust_m (S n) p 0;
  eff (lift (s target vs k)).

(* centroid.go:135-140. *)
Fixpoint drain_loop_m (fuel : nat) (p y n : nat) : prog N unit :=
  run l <- len_m p;
  run r <- data (Len y);
  if negb (l =? 0) && (r <? n) then
    match fuel with
    | O => eff out_of_fuel
    | S fuel' =>
        run d <- dp_m p 0;
        run e <- eff (expired E d);
        run _ <- (if e then Done tt else run d <- dp_m p 0; data (App y [d]));
        run _ <- rm_m p 0;
        drain_loop_m fuel' p y n
    end
  else Done tt.

(* centroid.go:133-142 DrainUnordered. *)
Definition drain_unordered_m (p : nat) (n : Z) : prog N nat :=
  if (n <? 0)%Z then eff panic
  else
    run y <- data (New (Z.to_nat n));
    run l <- len_m p;
    run _ <- drain_loop_m l p y (Z.to_nat n);
    Done y.

(* centroid.go:154-156 and 249-251. *)
Fixpoint collect_m (p y : nat) (idx : list nat) : prog N unit :=
  match idx with
  | [] => Done tt
  | i :: r =>
      run d <- dp_m p i;
      run _ <- data (App y [d]);
      collect_m p y r
  end.

(* centroid.go:160-162 and 258-260. *)
Fixpoint rm_all_m (p : nat) (idx : list nat) : prog N unit :=
  match idx with
  | [] => Done tt
  | i :: r => run _ <- rm_m p i; rm_all_m p r
  end.

(* centroid.go:150-164 DrainOrdered. *)
Definition drain_ordered_m (p : nat) (n : Z) : prog N nat :=
  if (n <? 0)%Z then eff panic
  else
    run y <- data (New (Z.to_nat n));
    run v <- vec_m p;
    run idx <- search_m (e_kfn E) v p n;
    run _ <- collect_m p y idx;
    run _ <- rm_all_m p (rev (sort_ints idx));
    Done y.

(* centroid.go:169-178 Expire. *)
Fixpoint expire_loop_m (fuel : nat) (p i : nat) : prog N unit :=
  run n <- len_m p;
  if i <? n then
    match fuel with
    | O => eff out_of_fuel
    | S fuel' =>
        run d <- dp_m p i;
        run e <- eff (expired E d);
        if e then run _ <- rm_m p i; expire_loop_m fuel' p i
        else expire_loop_m fuel' p (S i)
    end
  else Done tt.
Definition expire_m (p : nat) : prog N unit := run n <- len_m p; expire_loop_m n p 0.

(* centroid.go:184-194 MemTrim. *)
Fixpoint trim_loop_m (fuel : nat) (p y : nat) : prog N unit :=
  run n <- len_m p;
  if 0 <? n then
    match fuel with
    | O => eff out_of_fuel
    | S fuel' =>
        run z <- drain_unordered_m p 1;
        run ds <- data (All z);
        run _ <- data (App y ds);
        trim_loop_m fuel' p y
    end
  else Done tt.
Definition mem_trim_m (p : nat) : prog N unit :=
  run y <- data (New 0);
  run n <- len_m p;
  run _ <- trim_loop_m n p y;
  run o <- get_obj p;
  data (Move (snd o) y).

(* pkg/mathutils/vectools.go:4-33 VecMean on the generator of centroid.go:116-129. *)
Fixpoint mean_loop_m (fuel : nat) (p i : nat) (res : vec N) (n : F N) : prog N (vec N * F N * bool) :=
  match fuel with
  | O => eff out_of_fuel
  | S fuel' =>
      run r <- gen_m p i;
      match fst r with
      | None => Done (res, n, true)
      | Some v =>
          if length v =? length res then mean_loop_m fuel' p (snd r) (zipw fadd res v) (fadd n f1)
          else Done (res, n, false)
      end
  end.
Definition mean_m (fuel : nat) (p : nat) : prog N (vec N * bool) :=
  run r <- gen_m p 0;
  match fst r with
  | None => Done ([], false)
  | Some v =>
      run ' (res, n, ok) <- mean_loop_m fuel p (snd r) v f1;
      if ok then Done (map (fun x => fdiv x n) res, true) else Done (res, false)
  end.

(* centroid.go:201-207 MoveVector. *)
Definition move_vector_m (p : nat) : prog N bool :=
  run n <- len_m p;
  run ' (v, ok) <- mean_m (S n) p;
  if ok then run _ <- set_obj p v; Done true else Done false.

(* centroid.go:245-263 KNNLookup. *)
Definition knn_lookup_m (p : nat) (v : vec N) (k : Z) (drain : bool) : prog N nat :=
  if (k <? 0)%Z then eff panic
  else
    run y <- data (New (Z.to_nat k));
    run idx <- search_m (e_knn E) v p k;
    run _ <- collect_m p y idx;
    run _ <- (if drain then rm_all_m p (rev (sort_ints idx)) else Done tt);
    Done y.

(* centroid.go:222-228, the vectors of the receivers. *)
Fixpoint vecs_m (ps : list nat) : prog N (list (vec N)) :=
  match ps with
  | [] => Done []
  | p :: r => run v <- vec_m p; run vs <- vecs_m r; Done (v :: vs)
  end.

(* centroid.go:230-237; j counts the elements of data (the variable y) that are left. *)
Fixpoint distribute_loop_m (p : nat) (recv : list nat) (y i j : nat) : prog N unit :=
  match j with
  | O => Done tt
  | S j' =>
      run d <- data (Get y i);
      run vs <- vecs_m recv;
      run idx <- eff (lift (e_knn E (dp_vec d) vs 1%Z));
      run ok <-
        match idx with
        | [] => Done false
        | r :: _ => run q <- eff (index recv r); add_m q d
        end;
      run _ <- (if ok then Done tt else run _ <- add_m p d; Done tt);
      distribute_loop_m p recv y (S i) j'
  end.

(* centroid.go:214-238 DistributeDataPoints; nobody writes to the slice of receivers. *)
Definition distribute_m (p : nat) (n : Z) (recv : list nat) : prog N unit :=
  match recv with
  | [] => Done tt
  | _ :: _ =>
      run y <- drain_ordered_m p n;
      run l <- data (Len y);
      distribute_loop_m p recv y 0 l
  end.
End MemCentroid.
