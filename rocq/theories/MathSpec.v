(* Textbook definitions the vector code is compared with. *)
From Verif Require Import Base Num MathUtils.

Section MathSpec.
Context {N : Num}.

(* The Euclidean distance: the root of the sum of the squared differences. *)
Definition true_euclid (a b : vec N) : F N :=
  fsqrt (fold_right (fun p s => fadd (fmul (fsub (fst p) (snd p)) (fsub (fst p) (snd p))) s)
                    f0 (combine a b)).

(* A list that contains exactly the positions with property P, each once. *)
Definition enumerates (P : nat -> Prop) (l : list nat) : Prop :=
  NoDup l /\ forall i, In i l <-> P i.

End MathSpec.

(* The binary64 number nearest to an integer, and vectors of them. *)
Definition fz (z : Z) : F f64 := f64_of_Z z.
Definition fv (l : list Z) : vec f64 := map fz l.
Arguments fz _%Z_scope.
