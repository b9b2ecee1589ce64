(* What it is for a vector of binary64 numbers to be the mean of some vectors, up to rounding. *)
From Coq Require Import List ZArith QArith Qabs SpecFloat.
From Verif Require Import Base Num MathUtils FloatSpec.
Local Open Scope Q_scope.

Notation count vs := (inject_Z (Z.of_nat (length vs))).
(* Every coordinate is finite, and away from the mean by at most (n + 3) half-ulps of B. *)
Definition mean_of_float (B : Q) (dim : nat) (vs : list (vec f64)) (v : vec f64) : Prop :=
  length v = dim /\
  forall j, (j < dim)%nat ->
    is_fin (nth j v (S754_zero false)) = true /\
    Qabs (val (nth j v (S754_zero false)) - total j vs / count vs) <= (count vs + 3) * (ulp * B).
(* Vectors of one dimension, all of whose coordinates are within B; there are at most 2^24 of them. *)
Definition boxed (B : Q) (dim : nat) (vs : list (vec f64)) : Prop :=
  (Z.of_nat (length vs) <= 2 ^ 24)%Z /\ Forall (fun v : vec f64 => length v = dim /\ Forall (within B) v) vs.
