(* Specification vocabulary for goroutines and mutexes. *)
From Verif Require Import Base Num MathUtils Env Centroid CManager Proc Server Locks.

Section LockSpec.
Context {N : Num} {R : Type}.
Notation istate := (istate N R).

Definition threads (s : istate) : list (list lock * iproc N R) := fst (fst s).
Definition locked (s : istate) : list lock := snd (fst s).
Definition world_of (s : istate) : World N := snd s.

(* Goroutine i has locked l and not unlocked it. *)
Definition holds (s : istate) (i : nat) (l : lock) : Prop :=
  exists own ip, nth_error (threads s) i = Some (own, ip) /\ In l own.
(* It is at a Lock of a mutex that is locked. *)
Definition waits (s : istate) (i : nat) (l : lock) : Prop :=
  exists own k, nth_error (threads s) i = Some (own, ILock l k) /\ In l (locked s).
Definition ended (s : istate) (i : nat) : Prop :=
  match nth_error (threads s) i with Some (_, IRet _) | None => True | _ => False end.
Definition all_ended (s : istate) (rs : list R) : Prop := map snd (threads s) = map (fun r => IRet r) rs.

(* A goroutine has at most one mutex and none while it waits; no two have the same; the locked
   mutexes are those that someone has. *)
Definition one_each (s : istate) : Prop :=
  (forall i l l', holds s i l -> holds s i l' -> l = l') /\
  (forall i l l', waits s i l -> ~ holds s i l') /\
  (forall i j l, holds s i l -> holds s j l -> i = j) /\
  (forall l, In l (locked s) <-> exists i, holds s i l).

(* Whoever waits, waits for one that has the mutex and neither waits nor has ended; hence, if
   nobody can go on, all have ended. *)
Definition no_deadlock (s : istate) : Prop :=
  (forall i l, waits s i l -> exists j, holds s j l /\ ~ ended s j /\ forall l', ~ waits s j l') /\
  ((forall i, ended s i \/ exists l, waits s i l) -> locked s = [] /\ forall i, ended s i).

(* The same instructions without Lock and Unlock. *)
Fixpoint unlocked {R' : Type} (p : iproc N R') : iproc N R' :=
  match p with
  | IRet r => IRet r
  | ILock _ k | IUnlock _ k => unlocked k
  | IDo f k => IDo f (fun x => unlocked (k x))
  | IFork q k => IFork (unlocked q) (unlocked k)
  end.
Definition no_locks (s : istate) : istate := (map (fun e => (fst e, unlocked (snd e))) (threads s), locked s, world_of s).
End LockSpec.
