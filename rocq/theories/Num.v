(* Number systems used for vector coordinates and scores.  The Go code uses
   float64 everywhere; the models are written over an arbitrary Num so that the same
   definitions can be read at IEEE binary64 (f64) and at exact numbers. *)
From Verif Require Import Base.
From Coq Require Import SpecFloat QArith Qcanon.

Record Num := MkNum {
  F : Type;
  fadd : F -> F -> F;
  fsub : F -> F -> F;
  fmul : F -> F -> F;
  fdiv : F -> F -> F;
  fsqrt : F -> F;
  fofnat : nat -> F;          (* float64(n) for n >= 0 *)
  fmaxv : F;                  (* math.MaxFloat64 *)
  fltb : F -> F -> bool;      (* a < b *)
  feqb : F -> F -> bool       (* a == b *)
}.
Arguments fadd {n}.
Arguments fsub {n}.
Arguments fmul {n}.
Arguments fdiv {n}.
Arguments fsqrt {n}.
Arguments fofnat {n}.
Arguments fmaxv {n}.
Arguments fltb {n}.
Arguments feqb {n}.

Definition f0 {N : Num} : F N := fofnat 0.
Definition f1 {N : Num} : F N := fofnat 1.

(* IEEE 754 binary64 with round-to-nearest-even, as executable specification
   (Coq.Floats.SpecFloat).  NaN payloads are not represented; Go code cannot observe
   them here.  Fused multiply-add, which Go permits on some architectures, is not
   modelled. *)
Definition prec64 : Z := 53%Z.
Definition emax64 : Z := 1024%Z.
Definition f64_of_Z (z : Z) : spec_float := binary_normalize prec64 emax64 z 0 false.
Definition f64 : Num := MkNum spec_float
  (SFadd prec64 emax64) (SFsub prec64 emax64) (SFmul prec64 emax64)
  (SFdiv prec64 emax64) (SFsqrt prec64 emax64)
  (fun n => f64_of_Z (Z.of_nat n))
  (SFmax_float prec64 emax64)
  SFltb SFeqb.

(* Exact rationals.  There is no rational square root; fsqrt is the identity here and
   no theorem stated for exact arithmetic uses it.  fmaxv is the value of
   math.MaxFloat64, i.e. (2^53-1)*2^971. *)
Definition Qc_ltb (a b : Qc) : bool := match Qccompare a b with Lt => true | _ => false end.
Definition Qc_eqb (a b : Qc) : bool := match Qccompare a b with Eq => true | _ => false end.
Definition qc : Num := MkNum Qc
  Qcplus Qcminus Qcmult Qcdiv (fun x => x)
  (fun n => Q2Qc (inject_Z (Z.of_nat n)))
  (Q2Qc (inject_Z ((2 ^ 53 - 1) * 2 ^ 971)%Z))
  Qc_ltb Qc_eqb.

(* What "exact arithmetic" means: a field of characteristic 0. *)
Record ExactNum (N : Num) : Prop := {
  ex_addC : forall a b : F N, fadd a b = fadd b a;
  ex_addA : forall a b c : F N, fadd a (fadd b c) = fadd (fadd a b) c;
  ex_add0 : forall a : F N, fadd f0 a = a;
  ex_mulC : forall a b : F N, fmul a b = fmul b a;
  ex_mulA : forall a b c : F N, fmul a (fmul b c) = fmul (fmul a b) c;
  ex_mul1 : forall a : F N, fmul f1 a = a;
  ex_distr : forall a b c : F N, fmul (fadd a b) c = fadd (fmul a c) (fmul b c);
  ex_sub : forall a b c : F N, fsub a b = c <-> a = fadd c b;
  ex_div : forall a b c : F N, b <> f0 -> (fdiv a b = c <-> a = fmul c b);
  ex_ofnatS : forall n, @fofnat N (S n) = fadd (fofnat n) f1;
  ex_char0 : forall n, @fofnat N (S n) <> f0
}.
