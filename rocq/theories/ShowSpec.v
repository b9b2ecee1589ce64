(* How numbers are to be written: RFC 8259 allows more than encoding/json writes. *)
From Coq Require Import QArith Qabs.
From Verif Require Import Base Num Env Server Routes FloatSpec JsonText TextSpec TextNumSpec.
From Coq.Init Require Import Byte.
From Coq Require Import Strings.Byte Strings.String.
Local Open Scope string_scope.
Local Open Scope list_scope.

(* The digits after the point do not end with 0. *)
Definition Tail (f : str) : Prop := f = [] \/ exists ds c, f = text "." ++ ds ++ [c] /\ Forall Digit ds /\ In c (text "123456789").
(* Without or with an exponent. *)
Inductive Neat : bool -> str -> Prop :=
| neat_plain g i f : In g [[]; text "-"] -> Int i -> Tail f -> Neat false (g ++ i ++ f)
| neat_exponent g c f e a s : In g [[]; text "-"] -> In c (text "123456789") -> Tail f -> In e [text "e+"; text "e-"] ->
    In a (text "123456789") -> Forall Digit s -> Neat true (g ++ [c] ++ f ++ e ++ a :: s).
