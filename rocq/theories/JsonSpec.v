(* What JSON can express: the numbers that are numbers, and times of four-digit years. *)
From Coq Require Import ZArith SpecFloat.
From Verif Require Import Base Num Env Core.

(* A binary64 number in the format of SpecFloat. *)
Definition is_f64 (x : spec_float) : Prop := valid_binary prec64 emax64 x = true.
Definition a_number (x : spec_float) : Prop := match x with S754_nan | S754_infinity _ => False | _ => True end.

(* Leap years before year y, days before year y, and the first nanosecond of year y relative to
   1970, in the Gregorian calendar. *)
Definition leaps (y : Z) : Z := ((y + 3) / 4 - (y + 99) / 100 + (y + 399) / 400)%Z.
Definition days (y : Z) : Z := (365 * y + leaps y)%Z.
Definition year_begin (y : Z) : Z := ((days y - days 1970) * 86400 * 1000000000)%Z.

Definition Expressible (x : wire f64) : Prop :=
  Forall a_number (wi_vec x) /\ (year_begin 0 <= wi_expires x < year_begin 10000)%Z.
