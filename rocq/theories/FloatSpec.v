(* The rational number that a binary64 value stands for. *)
From Coq Require Import List ZArith QArith Qabs SpecFloat.
From Verif Require Import Base Num.

Definition p2 (e : Z) : Q := Qpower 2 e.
Definition signed (s : bool) (x : Q) : Q := if s then - x else x.

(* The value of a finite number; NaN and the infinities have none. *)
Definition val (x : spec_float) : Q :=
  match x with S754_finite s m e => signed s (inject_Z (Zpos m) * p2 e) | _ => 0 end.
Definition is_fin (x : spec_float) : bool :=
  match x with S754_finite _ m e => bounded prec64 emax64 m e | S754_zero _ => true | _ => false end.

(* Half of the distance between 1 and the next larger number, and half of the smallest number. *)
Definition ulp : Q := p2 (-53).
Definition tiny : Q := p2 (-1075).

(* A finite number of absolute value at most B, and the sum of the coordinates j. *)
Definition within (B : Q) (x : spec_float) : Prop := is_fin x = true /\ (Qabs (val x) <= B)%Q.
Definition total (j : nat) (vs : list (list spec_float)) : Q :=
  fold_right (fun v s => val (nth j v (S754_zero false)) + s)%Q 0%Q vs.
