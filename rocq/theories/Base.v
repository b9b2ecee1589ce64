(* Outcomes, the effect monad and list helpers shared by all models.
   No file of /repo is modelled here; this is the meta-level the models are
   written in (see DESIGN.md section 1). *)
From Coq Require Export List Arith ZArith Lia Bool Permutation.
Export ListNotations.

(* Result of running Go code: a value, a Go run-time panic (index out of range,
   negative make, integer division by zero), or a loop of the model that ran out of
   fuel (= the model does not know whether the Go loop terminates). *)
Inductive outcome (A : Type) : Type :=
| Ok (a : A)
| Panic
| OutOfFuel.
Arguments Ok {A} a.
Arguments Panic {A}.
Arguments OutOfFuel {A}.

(* The nat is a tick: it indexes the readings of the environment (clock, map order,
   network fate, random numbers); every reading uses a fresh tick. *)
Definition M (A : Type) : Type := nat -> outcome (A * nat).

Definition ret {A : Type} (a : A) : M A := fun t => Ok (a, t).
Definition bind {A B : Type} (m : M A) (f : A -> M B) : M B :=
  fun t => match m t with
           | Ok (a, t') => f a t'
           | Panic => Panic
           | OutOfFuel => OutOfFuel
           end.
Definition panic {A : Type} : M A := fun _ => Panic.
Definition out_of_fuel {A : Type} : M A := fun _ => OutOfFuel.
Definition tick : M nat := fun t => Ok (t, S t).
Definition lift {A : Type} (o : outcome A) : M A :=
  fun t => match o with
           | Ok a => Ok (a, t)
           | Panic => Panic
           | OutOfFuel => OutOfFuel
           end.

Notation "'do' x <- m ; k" := (bind m (fun x => k))
  (at level 200, x name, m at level 100, k at level 200, right associativity).
Notation "'do' ' p <- m ; k" := (bind m (fun p => k))
  (at level 200, p strict pattern, m at level 100, k at level 200, right associativity).

(* Go slice indexing l[i]: panics when out of range. *)
Definition index {A : Type} (l : list A) (i : nat) : M A :=
  match nth_error l i with
  | Some x => ret x
  | None => panic
  end.

(* l[i] = x on a slice whose length is known to exceed i. *)
Fixpoint list_set {A : Type} (l : list A) (i : nat) (x : A) : list A :=
  match l, i with
  | [], _ => []
  | _ :: r, O => x :: r
  | y :: r, S i' => y :: list_set r i' x
  end.

(* append(l[:i], l[i+1:]...) *)
Definition remove_at {A : Type} (i : nat) (l : list A) : list A :=
  firstn i l ++ skipn (S i) l.

(* sort.Ints, modelled by insertion sort (any sorting function gives the same
   result on integers). *)
Fixpoint insert_nat (x : nat) (l : list nat) : list nat :=
  match l with
  | [] => [x]
  | y :: r => if x <=? y then x :: l else y :: insert_nat x r
  end.
Fixpoint sort_ints (l : list nat) : list nat :=
  match l with
  | [] => []
  | x :: r => insert_nat x (sort_ints r)
  end.

(* Reordering of a list by a list of positions. *)
Definition pick {A : Type} (idx : list nat) (l : list A) : list A :=
  flat_map (fun i => match nth_error l i with Some x => [x] | None => [] end) idx.
