(* Model of how numbers are written in answers: core/api/handler.go:131 (json.Marshal of the
   vectors of conv.go:10), as encoding/json encode.go floatEncoder and strconv ftoa.go of Go 1.16
   do it.  Simplification: strconv first tries faster ways of finding the same digits; only
   bigFtoa is modelled, without the short cut of roundShortest for digits that cannot be fewer. *)
From Coq Require Import SpecFloat.
From Verif Require Import Base Num Env Server Routes JsonText.
From Coq.Init Require Import Byte.
From Coq Require Import Strings.Byte Strings.String.
Local Open Scope list_scope.
Local Open Scope Z_scope.

(* The digits of a whole number that is not negative. *)
Fixpoint show_nat (fuel : nat) (n : Z) : str :=
  match fuel with
  | O => [digit n]
  | S k => if n <? 10 then [digit n] else show_nat k (n / 10) ++ [digit (n mod 10)]
  end.
Definition show_int (n : Z) : str := show_nat (Z.to_nat (Z.log2 n)) n.

(* ftoa.go bigFtoa, decimal.go Assign and Shift: m * 2^e as d * 10^k. *)
Definition exact_decimal (m : positive) (e : Z) : Z * Z :=
  if 0 <=? e then (Z.pos m * 2 ^ e, 0) else (Z.pos m * 5 ^ (- e), e).

(* decimal.go Round: d without its last j digits, rounded to the nearest and to even. *)
Definition round_digits (d j : Z) : Z :=
  let q := d / 10 ^ j in
  match 2 * (d mod 10 ^ j) ?= 10 ^ j with
  | Lt => q
  | Gt => q + 1
  | Eq => if Z.even q then q else q + 1
  end.

(* ftoa.go roundShortest: the least number of digits that are enough.  [left]: how many are cut off;
   the digits that are left, rounded down or up, have to stand for a number that is read as z. *)
Definition reads_as (z : F f64) (d k : Z) : bool :=
  match round_decimal false d k, z with
  | S754_finite _ m e, S754_finite _ m' e' => Pos.eqb m m' && (e =? e')
  | _, _ => false
  end.
Fixpoint shorten (z : F f64) (d k : Z) (left : nat) : Z * Z :=
  match left with
  | O => (d, k)
  | S l =>
      let j := Z.of_nat left in
      let q := d / 10 ^ j in
      match reads_as z q (k + j), reads_as z (q + 1) (k + j) with
      | true, true => (round_digits d j, k + j)
      | true, false => (q, k + j)
      | false, true => (q + 1, k + j)
      | false, false => shorten z d k l
      end
  end.
Definition shortest (m : positive) (e : Z) : Z * Z :=
  let '(d, k) := exact_decimal m e in
  shorten (S754_finite false m e) d k (List.length (show_int d)).

(* ftoa.go fmtF and fmtE with the precision of the shortest form: d * 10^k. *)
Definition zeros (n : Z) : str := repeat x30 (Z.to_nat n).
Definition fmt_f (d k : Z) : str :=
  let ds := show_int d in
  let dp := Z.of_nat (List.length ds) + k in
  if 0 <? dp then
    if 0 <=? k then ds ++ zeros k else firstn (Z.to_nat dp) ds ++ x2e :: skipn (Z.to_nat dp) ds
  else x30 :: x2e :: zeros (- dp) ++ ds.
Definition fmt_e (d k : Z) : str :=
  let ds := show_int d in
  let x := Z.of_nat (List.length ds) + k - 1 in
  firstn 1 ds ++ (match skipn 1 ds with [] => [] | r => x2e :: r end) ++
  x65 :: (if x <? 0 then x2d else x2b) :: (if Z.abs x <? 10 then x30 :: show_int (Z.abs x) else show_int (Z.abs x)).
(* encode.go: e-09 is written as e-9. *)
Definition tidy (s : str) : str :=
  match rev s with
  | a :: b :: c :: d :: r => if Byte.eqb d x65 && Byte.eqb c x2d && Byte.eqb b x30 then rev (a :: c :: d :: r) else s
  | _ => s
  end.

(* encode.go floatEncoder.  json.Marshal fails for infinities and NaN. *)
Definition show_f64 (z : F f64) : str :=
  match z with
  | S754_zero s => (if s then [x2d] else []) ++ [x30]
  | S754_finite s m e =>
      let abs := S754_finite false m e in
      let '(d, k) := shortest m e in
      (if s then [x2d] else []) ++
      (if SFltb abs (round_decimal false 1 (-6)) || SFleb (round_decimal false 1 21) abs then tidy (fmt_e d k) else fmt_f d k)
  | _ => []
  end.
