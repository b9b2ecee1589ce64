(* What sequences of calls answer with lists and values, and how to read the memory after them. *)
From Verif Require Import Base Num MathUtils Env Centroid CManager History Memory MemCentroid MemManager.

Section MemSpec.
Context {N : Num} (E : Env N).
Notation DP := (DataPoint N).
Notation Cen := (Centroid N).

(* What a method of the list model answers. *)
Inductive answer := ANone | ABool (b : bool) | ADps (l : list DP) | ACens (o : option (list Cen)).

Definition answer_of (m : CM N) (o : cmop N) : M (answer * CM N) :=
  match o with
  | OAdd d => do ' (b, m') <- cm_add E m d; ret (ABool b, m')
  | ODrainUnordered n => do ' (ds, m') <- cm_drain_unordered E m n; ret (ADps ds, m')
  | ODrainOrdered n => do ' (ds, m') <- cm_drain_ordered E m n; ret (ADps ds, m')
  | OExpire => do m' <- cm_expire E m; ret (ANone, m')
  | OMemTrim => do m' <- cm_mem_trim E m; ret (ANone, m')
  | OMoveVector => do ' (b, m') <- cm_move_vector E m; ret (ABool b, m')
  | ODistributeInternal n => do m' <- cm_distribute_internal E m n; ret (ANone, m')
  | OKnnLookup v k drain => do ' (ds, m') <- cm_knn_lookup E m v k drain; ret (ADps ds, m')
  | ONearest v n drain => do ' (o, m') <- cm_nearest E m v n drain; ret (ACens o, m')
  | OSplit p => do m' <- cm_split E m p; ret (ANone, m')
  | OMerge p => do m' <- cm_merge E m p; ret (ANone, m')
  | OAttach cs =>
      do m' <- ret (if forallb (dim_ok (length (cm_vec m))) cs
                    then MkCM (cm_vec m) (cm_cs m ++ cs) (cm_thresh m) else m);
      ret (ANone, m')
  end.

Fixpoint answers (m : CM N) (ops : list (cmop N)) : M (list answer * CM N) :=
  match ops with
  | [] => ret ([], m)
  | o :: r =>
      do ' (a, m1) <- answer_of m o;
      do ' (l, m2) <- answers m1 r;
      ret (a :: l, m2)
  end.

(* ---- reading the memory ---- *)
Definition read_var {A} (m : mem A) (x : nat) : option (list A) := option_map (shown m) (nth_error (m_vars m) x).

Definition read_cen (h : heap N) (p : nat) : option Cen :=
  match nth_error (h_objs h) p with
  | Some (v, x) => match read_var (h_data h) x with Some l => Some (MkC v l) | None => None end
  | None => None
  end.
Fixpoint read_cens (h : heap N) (ps : list nat) : option (list Cen) :=
  match ps with
  | [] => Some []
  | p :: r =>
      match read_cen h p, read_cens h r with
      | Some c, Some cs => Some (c :: cs)
      | _, _ => None
      end
  end.
(* A slice of pointers to centroids. *)
Definition read_ptrs (h : heap N) (u : nat) : option (list Cen) :=
  match read_var (h_ptrs h) u with Some ps => read_cens h ps | None => None end.
Definition read_mgr (h : heap N) (g : mgr N) : option (CM N) :=
  match read_ptrs h (g_cs g) with Some cs => Some (MkCM (g_vec g) cs (g_thresh g)) | None => None end.

(* The memory shows the answer a in what a call has returned. *)
Definition tells (h : heap N) (x : handle) (a : answer) : Prop :=
  match x, a with
  | HNone, ANone => True
  | HBool b, ABool b' => b = b'
  | HDps y, ADps l => read_var (h_data h) y = Some l
  | HCens None, ACens None => True
  | HCens (Some u), ACens (Some cs) => read_ptrs h u = Some cs
  | _, _ => False
  end.

(* Pointers that stay in the manager. *)
Definition shares (o : cmop N) : bool :=
  match o with ONearest _ _ drain => negb drain | _ => false end.

(* Every answer, read after the last call, is the one of its call; except that pointers which
   stay in the manager are only read if their call is the last one. *)
Fixpoint tells_all (h : heap N) (ops : list (cmop N)) (xs : list handle) (l : list answer) : Prop :=
  match ops, xs, l with
  | [], [], [] => True
  | o :: ops', x :: xs', a :: l' => (shares o = false \/ ops' = [] -> tells h x a) /\ tells_all h ops' xs' l'
  | _, _, _ => False
  end.

(* The same outcome at the same time, with results related by R. *)
Definition Agree {X Y} (R : X -> Y -> Prop) (x : outcome (X * nat)) (y : outcome (Y * nat)) : Prop :=
  match x, y with
  | Ok (a, t), Ok (b, u) => t = u /\ R a b
  | Panic, Panic => True
  | OutOfFuel, OutOfFuel => True
  | _, _ => False
  end.

(* The capacities of the slices: of datapoints in the centroids of the manager, and of pointers
   in the manager; each with the length. *)
Definition room_of {A} (m : mem A) (x : nat) : option (nat * nat) :=
  match nth_error (m_vars m) x with
  | Some s => match nth_error (m_arrs m) (sl_arr s) with Some a => Some (sl_len s, length a) | None => None end
  | None => None
  end.
Definition rooms (h : heap N) (g : mgr N) : list (option (nat * nat)) :=
  match read_var (h_ptrs h) (g_cs g) with
  | Some ps => map (fun p => match nth_error (h_objs h) p with Some o => room_of (h_data h) (snd o) | None => None end) ps
  | None => []
  end.

(* What Go's append (runtime/slice.go, growslice) makes of small slices: twice the capacity, or
   what is needed if that is more. *)
Definition doubling (cap n : nat) : nat := 2 * cap - n.

(* A new manager, then the calls. *)
Definition life (init : vec N) (thresh : Z) (cap : nat) (ops : list (cmop N)) : prog N (list handle * mgr N) :=
  run g <- new_mgr_m init thresh cap; calls_m E g ops.
Definition empty_heap : heap N := MkHeap (MkMem [] []) (MkMem [] []) [].
End MemSpec.
