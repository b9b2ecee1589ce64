(* Slices as Go has them: backing arrays with a capacity, append in place, sharing.  The models
   of Centroid.v and CManager.v have lists instead; here is what is needed to compare the two.
   Simplifications: every slice of the modelled code begins where its array begins, so a slice
   is an array and a length, and its capacity is the length of the array; vectors are values,
   because no code writes to a []float64 after handing it out (pkg/mathutils/vectools.go
   allocates the result of every operation; centroid.go:70-72, cmanager.go:98-100, 105-106 and
   210-211 copy). *)
From Verif Require Import Base Num MathUtils Env.

Section Memory.
Context {A : Type} (zero : A).

Record slice := MkSlice { sl_arr : nat; sl_len : nat }.

(* The arrays, and the slice variables: fields of structs, and locals. *)
Record mem := MkMem { m_arrs : list (list A); m_vars : list slice }.

(* What the modelled code does with slices. *)
Inductive op : Type -> Type :=
| New (cap : nat) : op nat                (* x := make([]T, 0, cap) *)
| Len (v : nat) : op nat                  (* len(x) *)
| Get (v i : nat) : op A                  (* x[i] *)
| All (v : nat) : op (list A)             (* the elements of x, as the last argument of append *)
| App (v : nat) (xs : list A) : op unit   (* x = append(x, xs...) *)
| Del (v i : nat) : op unit               (* x = append(x[:i], x[i+1:]...) *)
| Move (v w : nat) : op unit.             (* x = y, at the end of the scope of y *)

(* Writing xs into an array from position i on. *)
Definition overwrite (a : list A) (i : nat) (xs : list A) : list A :=
  firstn i a ++ xs ++ skipn (i + length xs) a.

(* x = append(s, xs...): in place if the array is large enough, else in a new array with some
   room to spare (any amount, which may depend on the old capacity and on the new length). *)
Definition append_to (room : nat -> nat -> nat) (m : mem) (v : nat) (s : slice) (a xs : list A) : mem :=
  let n := sl_len s + length xs in
  if n <=? length a then
    MkMem (list_set (m_arrs m) (sl_arr s) (overwrite a (sl_len s) xs)) (list_set (m_vars m) v (MkSlice (sl_arr s) n))
  else
    MkMem (m_arrs m ++ [firstn (sl_len s) a ++ xs ++ repeat zero (room (length a) n)])
          (list_set (m_vars m) v (MkSlice (length (m_arrs m)) n)).

Definition exec_op (room : nat -> nat -> nat) {B : Type} (o : op B) (m : mem) : M (B * mem) :=
  match o in op B return M (B * mem) with
  | New cap =>
      ret (length (m_vars m),
           MkMem (m_arrs m ++ [repeat zero cap]) (m_vars m ++ [MkSlice (length (m_arrs m)) 0]))
  | Len v => do s <- index (m_vars m) v; ret (sl_len s, m)
  | Get v i =>
      do s <- index (m_vars m) v;
      do a <- index (m_arrs m) (sl_arr s);
      if i <? sl_len s then do x <- index a i; ret (x, m) else panic
  | All v =>
      do s <- index (m_vars m) v;
      do a <- index (m_arrs m) (sl_arr s);
      ret (firstn (sl_len s) a, m)
  | App v xs =>
      do s <- index (m_vars m) v;
      do a <- index (m_arrs m) (sl_arr s);
      ret (tt, append_to room m v s a xs)
  | Del v i =>
      do s <- index (m_vars m) v;
      do a <- index (m_arrs m) (sl_arr s);
      if i <? sl_len s then ret (tt, append_to room m v (MkSlice (sl_arr s) i) a (skipn (S i) (firstn (sl_len s) a)))
      else panic
  | Move v w =>
      do s <- index (m_vars m) w;
      do _ <- index (m_vars m) v;
      ret (tt, MkMem (m_arrs m ++ [[]]) (list_set (list_set (m_vars m) v s) w (MkSlice (length (m_arrs m)) 0)))
  end.

(* The same with a list for each variable: nothing is shared. *)
Definition list_op {B : Type} (o : op B) (l : list (list A)) : M (B * list (list A)) :=
  match o in op B return M (B * list (list A)) with
  | New cap => ret (length l, l ++ [[]])
  | Len v => do x <- index l v; ret (length x, l)
  | Get v i => do x <- index l v; do y <- index x i; ret (y, l)
  | All v => do x <- index l v; ret (x, l)
  | App v xs => do x <- index l v; ret (tt, list_set l v (x ++ xs))
  | Del v i => do x <- index l v; if i <? length x then ret (tt, list_set l v (remove_at i x)) else panic
  | Move v w => do y <- index l w; do _ <- index l v; ret (tt, list_set (list_set l v y) w [])
  end.

(* What a variable shows. *)
Definition shown (m : mem) (s : slice) : list A := firstn (sl_len s) (nth (sl_arr s) (m_arrs m) []).
Definition contents (m : mem) : list (list A) := map (shown m) (m_vars m).

(* No two variables share an array. *)
Definition unshared (m : mem) : Prop :=
  NoDup (map sl_arr (m_vars m)) /\
  Forall (fun s => exists a, nth_error (m_arrs m) (sl_arr s) = Some a /\ sl_len s <= length a) (m_vars m).
End Memory.
Arguments mem : clear implicits.
Arguments op : clear implicits.
Arguments New {A}.
Arguments Len {A}.
Arguments Get {A}.
Arguments All {A}.
Arguments App {A}.
Arguments Del {A}.
Arguments Move {A}.

Section Programs.
Context {N : Num}.
Notation DP := (DataPoint N).

(* The zero value of a DataPoint, the nil pointer. *)
Definition zero_dp : DP := MkDP [] [] 0%Z false.

(* Slices of datapoints, slices of pointers to centroids, and the centroids: the vector, and
   the variable that is the field DataPoints. *)
Record heap := MkHeap { h_data : mem DP; h_ptrs : mem nat; h_objs : list (vec N * nat) }.
Record lheap := MkLHeap { l_data : list (list DP); l_ptrs : list (list nat); l_objs : list (vec N * nat) }.

(* Code that works on the heap. *)
Inductive prog (R : Type) : Type :=
| Done (r : R)
| Eff (X : Type) (m : M X) (k : X -> prog R)               (* no slice involved *)
| Data (X : Type) (o : op DP X) (k : X -> prog R)
| Ptrs (X : Type) (o : op nat X) (k : X -> prog R)
| NewObj (v : vec N) (x : nat) (k : nat -> prog R)         (* &Centroid{vec: v, DataPoints: x} *)
| GetObj (p : nat) (k : vec N * nat -> prog R)             (* the fields of *p *)
| SetVec (p : nat) (v : vec N) (k : prog R).               (* p.vec = v *)
Arguments Done {R} r.
Arguments Eff {R X} m k.
Arguments Data {R X} o k.
Arguments Ptrs {R X} o k.
Arguments NewObj {R} v x k.
Arguments GetObj {R} p k.
Arguments SetVec {R} p v k.

Fixpoint mbind {R S : Type} (p : prog R) (f : R -> prog S) : prog S :=
  match p with
  | Done r => f r
  | Eff m k => Eff m (fun x => mbind (k x) f)
  | Data o k => Data o (fun x => mbind (k x) f)
  | Ptrs o k => Ptrs o (fun x => mbind (k x) f)
  | NewObj v x k => NewObj v x (fun p => mbind (k p) f)
  | GetObj p k => GetObj p (fun o => mbind (k o) f)
  | SetVec p v k => SetVec p v (mbind k f)
  end.

Fixpoint run_heap (room : nat -> nat -> nat) {R : Type} (p : prog R) (h : heap) : M (R * heap) :=
  match p with
  | Done r => ret (r, h)
  | Eff m k => do x <- m; run_heap room (k x) h
  | Data o k => do ' (x, d) <- exec_op zero_dp room o (h_data h); run_heap room (k x) (MkHeap d (h_ptrs h) (h_objs h))
  | Ptrs o k => do ' (x, d) <- exec_op 0 room o (h_ptrs h); run_heap room (k x) (MkHeap (h_data h) d (h_objs h))
  | NewObj v x k => run_heap room (k (length (h_objs h))) (MkHeap (h_data h) (h_ptrs h) (h_objs h ++ [(v, x)]))
  | GetObj p k => do o <- index (h_objs h) p; run_heap room (k o) h
  | SetVec p v k =>
      do o <- index (h_objs h) p;
      run_heap room k (MkHeap (h_data h) (h_ptrs h) (list_set (h_objs h) p (v, snd o)))
  end.

Fixpoint run_lists {R : Type} (p : prog R) (h : lheap) : M (R * lheap) :=
  match p with
  | Done r => ret (r, h)
  | Eff m k => do x <- m; run_lists (k x) h
  | Data o k => do ' (x, d) <- list_op o (l_data h); run_lists (k x) (MkLHeap d (l_ptrs h) (l_objs h))
  | Ptrs o k => do ' (x, d) <- list_op o (l_ptrs h); run_lists (k x) (MkLHeap (l_data h) d (l_objs h))
  | NewObj v x k => run_lists (k (length (l_objs h))) (MkLHeap (l_data h) (l_ptrs h) (l_objs h ++ [(v, x)]))
  | GetObj p k => do o <- index (l_objs h) p; run_lists (k o) h
  | SetVec p v k =>
      do o <- index (l_objs h) p;
      run_lists k (MkLHeap (l_data h) (l_ptrs h) (list_set (l_objs h) p (v, snd o)))
  end.

(* The lists that a heap shows. *)
Definition lists_of (h : heap) : lheap := MkLHeap (contents (h_data h)) (contents (h_ptrs h)) (h_objs h).
Definition heap_ok (h : heap) : Prop := unshared (h_data h) /\ unshared (h_ptrs h).
End Programs.
Arguments heap N : clear implicits.
Arguments lheap N : clear implicits.
Arguments prog N R : clear implicits.
Arguments Done {N R} r.
Arguments Eff {N R X} m k.
Arguments Data {N R X} o k.
Arguments Ptrs {N R X} o k.
Arguments NewObj {N R} v x k.
Arguments GetObj {N R} p k.
Arguments SetVec {N R} p v k.

Notation "'run' x <- p ; k" := (mbind p (fun x => k))
  (at level 200, x name, p at level 100, k at level 200, right associativity).
Notation "'run' ' x <- p ; k" := (mbind p (fun x => k))
  (at level 200, x strict pattern, p at level 100, k at level 200, right associativity).

(* One operation as a program. *)
Section Steps.
Context {N : Num}.
Definition eff {X : Type} (m : M X) : prog N X := Eff m Done.
Definition data {X : Type} (o : op (DataPoint N) X) : prog N X := Data o Done.
Definition ptrs {X : Type} (o : op nat X) : prog N X := Ptrs o Done.
Definition new_obj (v : vec N) (x : nat) : prog N nat := NewObj v x Done.
Definition get_obj (p : nat) : prog N (vec N * nat) := GetObj p Done.
Definition set_obj (p : nat) (v : vec N) : prog N unit := SetVec p v (Done tt).
End Steps.
