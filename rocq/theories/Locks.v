(* The mutexes of pkg/kmeans/rpc/rpc.go:102-115 (CManagerSlot), 121-124 and 156-182
   (CManagerTable), one instruction at a time: between Lock and Unlock a goroutine reads what
   the mutex protects, computes, and writes the result back, while the others go on.  The
   processes of Server.v do all this in one action. *)
From Verif Require Import Base Num MathUtils Env Centroid CManager Proc Server.

Section Locks.
Context {N : Num}.

(* What a goroutine does next. *)
Inductive iproc (R : Type) : Type :=
| IRet (r : R)
| ILock (l : lock) (k : iproc R)
| IUnlock (l : lock) (k : iproc R)
| IDo (A : Type) (f : World N -> M (A * World N)) (k : A -> iproc R)
| IFork (q : iproc unit) (k : iproc R).
Arguments IRet {R} r.
Arguments ILock {R} l k.
Arguments IUnlock {R} l k.
Arguments IDo {R A} f k.
Arguments IFork {R} q k.

Fixpoint ibind {R S : Type} (p : iproc R) (f : R -> iproc S) : iproc S :=
  match p with
  | IRet r => f r
  | ILock l k => ILock l (ibind k f)
  | IUnlock l k => IUnlock l (ibind k f)
  | IDo g k => IDo g (fun x => ibind (k x) f)
  | IFork q k => IFork q (ibind k f)
  end.

(* Reading: a copy of the world at that moment, which may be out of date when it is used. *)
Definition load (w : World N) : M (World N * World N) := ret (w, w).

(* New slots (server.go:60, 373: &CManagerSlot{..}), those that w1 has and w0 does not, are
   allocated at once; nobody knows them yet. *)
Definition new_slots (w0 w1 : World N) (a : str) : list (str * CM N) :=
  match assoc a (w_nodes w0), assoc a (w_nodes w1) with
  | Some n0, Some n1 => skipn (length (nd_heap n0)) (nd_heap n1)
  | _, _ => []
  end.
Definition alloc (w0 w1 w : World N) : World N :=
  MkWorld (map (fun e => (fst e, MkNode (nd_heap (snd e) ++ new_slots w0 w1 (fst e)) (nd_tbl (snd e)) (nd_thresh (snd e))))
             (w_nodes w)) (w_dropped w).

(* Computing, from what was read: the result and the world as the goroutine wants it. *)
Definition comp {A : Type} (f : World N -> M (A * World N)) (w0 w : World N) : M ((A * World N) * World N) :=
  do r <- f w0; ret (r, alloc w0 (snd r) w).

(* Writing back what the mutex protects: the map of a table, the manager of a slot.  The ghost
   w_dropped is not kept here. *)
Definition put (l : lock) (w1 w : World N) : World N :=
  match l with
  | LTable a =>
      match assoc a (w_nodes w1), assoc a (w_nodes w) with
      | Some n1, Some n => set_node w a (MkNode (nd_heap n) (nd_tbl n1) (nd_thresh n))
      | _, _ => w
      end
  | LSlot a p =>
      match assoc a (w_nodes w1), assoc a (w_nodes w) with
      | Some n1, Some n =>
          match nth_error (nd_heap n1) p with
          | Some s => set_node w a (MkNode (list_set (nd_heap n) p s) (nd_tbl n) (nd_thresh n))
          | None => w
          end
      | _, _ => w
      end
  end.
Definition store (l : lock) (w1 w : World N) : M (unit * World N) := ret (tt, put l w1 w).

(* The instructions of a process.  An action without a mutex writes nothing. *)
Fixpoint lower {R : Type} (p : proc' N R) : iproc R :=
  match p with
  | Ret r => IRet r
  | Act (Some l) f k =>
      ILock l (IDo load (fun w0 => IDo (comp f w0) (fun r => IDo (store l (snd r)) (fun _ => IUnlock l (lower (k (fst r)))))))
  | Act None f k => IDo load (fun w0 => IDo (comp f w0) (fun r => lower (k (fst r))))
  | Fork q k => IFork (lower q) (lower k)
  end.

Definition lock_eqb (l l' : lock) : bool :=
  match l, l' with
  | LTable a, LTable b => str_eqb a b
  | LSlot a p, LSlot b q => str_eqb a b && (p =? q)
  | _, _ => false
  end.
Definition mem (l : lock) (ls : list lock) : bool := existsb (lock_eqb l) ls.
Fixpoint release (l : lock) (ls : list lock) : list lock :=
  match ls with
  | [] => []
  | x :: r => if lock_eqb l x then r else x :: release l r
  end.

(* The mutex of a slot is part of the slot. *)
Definition has_mutex (w : World N) (l : lock) : bool :=
  match l with
  | LTable _ => true
  | LSlot a p => match assoc a (w_nodes w) with Some nd => p <? length (nd_heap nd) | None => false end
  end.

(* The state: the goroutines, each with the mutexes it has locked and not unlocked (a ghost, a
   Go mutex does not know its owner), the locked mutexes, the world. *)
Definition istate (R : Type) : Type := list (list lock * iproc R) * list lock * World N.

(* One instruction of goroutine i.  Lock waits while the mutex is locked and panics if there
   is none (a nil slot); Unlock of a mutex that is not locked is a fatal error. *)
Definition istep {R : Type} (dflt : R) (s : istate R) (i : nat) : M (istate R) :=
  let '(th, held, w) := s in
  match nth_error th i with
  | None | Some (_, IRet _) => ret s
  | Some (own, ILock l k) =>
      if negb (has_mutex w l) then panic
      else if mem l held then ret s
      else ret (list_set th i (l :: own, k), l :: held, w)
  | Some (own, IUnlock l k) =>
      if mem l held then ret (list_set th i (release l own, k), release l held, w) else panic
  | Some (own, IDo f k) => do ' (x, w') <- f w; ret (list_set th i (own, k x), held, w')
  | Some (own, IFork q k) => ret (list_set th i (own, k) ++ [([], ibind q (fun _ => IRet dflt))], held, w)
  end.
Fixpoint irun {R : Type} (dflt : R) (sched : list nat) (s : istate R) : M (istate R) :=
  match sched with
  | [] => ret s
  | i :: r => do s' <- istep dflt s i; irun dflt r s'
  end.

(* The start: nothing is locked. *)
Definition istart {R : Type} (th : list (proc' N R)) (w : World N) : istate R :=
  (map (fun p => ([], lower p)) th, [], w).

End Locks.
Arguments iproc N R : clear implicits.
Arguments IRet {N R} r.
Arguments ILock {N R} l k.
Arguments IUnlock {N R} l k.
Arguments IDo {N R A} f k.
Arguments IFork {N R} q k.
Arguments istate N R : clear implicits.
