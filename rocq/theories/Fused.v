(* CosineSimilarity as Go compiles it for architectures with a fused multiply-add.
   The Go specification lets an implementation compute x*y + z with a single rounding; the
   compiler does so on arm64, ppc64, riscv64 and s390x (and on amd64 with GOAMD64=v3) at the two sums of products below.  On the
   others it does not, which is MathUtils.v. *)
From Coq Require Import ZArith SpecFloat.
From Verif Require Import Base Num MathUtils.

(* x*y + z rounded once, to nearest even: the instruction that the compiler emits. *)
Definition fma (x y z : F f64) : F f64 :=
  match x, y with
  | S754_finite s m e, S754_finite t n f =>
      match z with
      | S754_zero _ => SFmul prec64 emax64 x y
      | S754_finite w k g =>
          let e0 := Z.min (e + f) g in
          binary_normalize prec64 emax64
            (cond_Zopp (xorb s t) (Zpos (fst (shl_align (m * n) (e + f) e0))) + cond_Zopp w (Zpos (fst (shl_align k g e0))))%Z e0 false
      | _ => z
      end
  | _, _ => SFadd prec64 emax64 (SFmul prec64 emax64 x y) z
  end.

(* One step r += a * b, fused or not. *)
Definition mul_add (fused : bool) (r a b : F f64) : F f64 :=
  if fused then fma a b r else fadd r (fmul a b).

(* The loops pkg/mathutils/distance.go:30-32 and 47-49; whether a step is fused may depend
   on its number (loops are unrolled). *)
Fixpoint products (fused : nat -> bool) (i : nat) (l : list (F f64 * F f64)) (r : F f64) : F f64 :=
  match l with
  | [] => r
  | p :: l' => products fused (S i) l' (mul_add (fused i) r (fst p) (snd p))
  end.
Definition dot_f (fused : nat -> bool) (a b : vec f64) : F f64 := products fused 0 (combine a b) f0.

(* pkg/mathutils/distance.go:28-34 norm. *)
Definition norm_f (fused : nat -> bool) (a : vec f64) : F f64 := fsqrt (dot_f fused a a).

(* pkg/mathutils/distance.go:38-51 CosineSimilarity; fn and fd are for norm and for the dot product. *)
Definition cosine_f (fn fd : nat -> bool) (a b : vec f64) : option (F f64) :=
  if length a =? length b then
    let norm1 := norm_f fn a in
    let norm2 := norm_f fn b in
    if feqb norm1 f0 && feqb norm2 f0 then Some f0
    else Some (fdiv (fdiv (dot_f fd a b) norm1) norm2)
  else None.
