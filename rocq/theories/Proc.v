(* Concurrent code as data: a process is a sequence of atomic actions on a shared world.
   No file of /repo is modelled here; this is the meta-level in which the server, client
   and core packages are written (see DESIGN.md section 1).  An action is what the Go code
   does while it holds one mutex (or a single goroutine-local computation). *)
From Verif Require Import Base.

Section Proc.
Context {W L : Type}.     (* shared world, lock names *)

Inductive proc (R : Type) : Type :=
| Ret (r : R)
| Act (A : Type) (l : option L) (f : W -> M (A * W)) (k : A -> proc R)
| Fork (p : proc unit) (k : proc R).              (* go p *)

Arguments Ret {R} r.
Arguments Act {R A} l f k.
Arguments Fork {R} p k.

Fixpoint pbind {R S : Type} (p : proc R) (f : R -> proc S) : proc S :=
  match p with
  | Ret r => f r
  | Act l a k => Act l a (fun x => pbind (k x) f)
  | Fork q k => Fork q (pbind k f)
  end.

(* A goroutine-local computation. *)
Definition local {A : Type} (m : M A) : proc A :=
  Act None (fun w => do a <- m; ret (a, w)) Ret.

(* Running a process alone, with nothing else going on; a goroutine it starts runs to
   completion before it continues. *)
Fixpoint exec {R : Type} (p : proc R) (w : W) : M (R * W) :=
  match p with
  | Ret r => ret (r, w)
  | Act _ f k => do ' (a, w') <- f w; exec (k a) w'
  | Fork q k => do ' (_, w') <- exec q w; exec k w'
  end.

(* Running a pool of processes in any order.  A configuration is the world and the
   processes; goroutines started on the way join the end of the pool (their result is
   [dflt]).  [sched] lists the positions of the processes that make the successive steps. *)
Definition step1 {R : Type} (dflt : R) (th : list (proc R)) (i : nat) (w : W)
  : M (list (proc R) * W) :=
  match nth_error th i with
  | None | Some (Ret _) => ret (th, w)            (* nothing to do *)
  | Some (Act _ f k) => do ' (a, w') <- f w; ret (list_set th i (k a), w')
  | Some (Fork q k) => ret (list_set th i k ++ [pbind q (fun _ => Ret dflt)], w)
  end.
Fixpoint interleave {R : Type} (dflt : R) (sched : list nat) (th : list (proc R)) (w : W)
  : M (list (proc R) * W) :=
  match sched with
  | [] => ret (th, w)
  | i :: s => do ' (th', w') <- step1 dflt th i w; interleave dflt s th' w'
  end.

End Proc.
Arguments proc W L R : clear implicits.
Arguments Ret {W L R} r.
Arguments Act {W L R A} l f k.
Arguments Fork {W L R} p k.

Notation "'call' x <- p ; k" := (pbind p (fun x => k))
  (at level 200, x name, p at level 100, k at level 200, right associativity).
Notation "'call' ' x <- p ; k" := (pbind p (fun x => k))
  (at level 200, x strict pattern, p at level 100, k at level 200, right associativity).
