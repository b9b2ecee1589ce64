(* The numbers that the texts of RFC 8259 stand for, and the binary64 number that a number is
   rounded to. *)
From Coq Require Import QArith Qabs SpecFloat.
From Verif Require Import Base Num Env Server Routes JsonSpec FloatSpec JsonText TextSpec.
From Coq.Init Require Import Byte.
From Coq Require Import Strings.Byte Strings.String.
Local Open Scope string_scope.
Local Open Scope list_scope.

Inductive Exponent : str -> Z -> Prop :=
| no_exponent : Exponent [] 0
| plus_exponent e g s v : In e [text "e"; text "E"] -> In g [[]; text "+"] -> Digits s -> Decimal s v -> Exponent (e ++ g ++ s) v
| minus_exponent e s v : In e [text "e"; text "E"] -> Digits s -> Decimal s v -> Exponent (e ++ text "-" ++ s) (- v).
(* A minus sign or not, and the absolute value. *)
Inductive Stands : str -> bool -> Q -> Prop :=
| stands_for g neg i f ds e m x : In (g, neg) [([], false); (text "-", true)] -> Int i -> In (f, ds) [([], []); (text "." ++ ds, ds)] ->
    Frac f -> Decimal (i ++ ds) m -> Exponent e x ->
    Stands (g ++ i ++ f ++ e) neg (inject_Z m * Qpower 10 (x - Z.of_nat (List.length ds))).

(* No binary64 number is closer to x; if one is as close, the last bit of z is 0. *)
Definition even (z : F f64) : bool := match z with S754_finite _ m _ => Z.even (Z.pos m) | _ => true end.
Definition closest (z : F f64) (x : Q) : Prop :=
  is_fin z = true /\ forall z' : F f64, is_fin z' = true ->
    (Qabs (val z - x) <= Qabs (val z' - x))%Q /\ ((Qabs (val z - x) == Qabs (val z' - x))%Q -> (val z' == val z)%Q \/ even z = true).
(* The largest number plus half of the distance between it and the one before. *)
Definition limit : Q := inject_Z (2 ^ 54 - 1) * p2 970.
Definition negative (z : F f64) : bool := match z with S754_zero s | S754_finite s _ _ => s | _ => false end.

(* Whole numbers without a fraction or an exponent. *)
Inductive Whole : str -> bool -> Z -> Prop :=
| whole g neg i m : In (g, neg) [([], false); (text "-", true)] -> Int i -> Decimal i m -> Whole (g ++ i) neg (if neg then - m else m).
