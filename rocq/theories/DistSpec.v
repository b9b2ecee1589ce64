(* Exact distances between vectors of binary64 numbers. *)
From Coq Require Import List ZArith QArith Qabs SpecFloat Reals Qreals.
From Verif Require Import Base Num FloatSpec.

(* The sum of the absolute differences. *)
Definition apart (l : list (spec_float * spec_float)) : Q :=
  fold_right (fun p s => Qabs (val (fst p) - val (snd p)) + s)%Q 0%Q l.

(* The vector of the real numbers that the coordinates stand for, the inner product and the length. *)
Definition real (x : spec_float) : R := Q2R (val x).
Definition inner (a b : list spec_float) : R :=
  fold_right (fun p s => (real (fst p) * real (snd p) + s)%R) 0%R (combine a b).
Definition size (a : list spec_float) : R := sqrt (inner a a).

(* A vector of moderate numbers, one of which is not too small. *)
Definition moderate (a : list spec_float) : Prop :=
  (Z.of_nat (length a) <= 2 ^ 20)%Z /\ Forall (within (p2 450)) a /\ exists x, In x a /\ (p2 (-200) <= Qabs (val x))%Q.
