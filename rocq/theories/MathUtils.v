(* Model of pkg/mathutils/distance.go and pkg/mathutils/vectools.go.
   A []float64 is a list; a nil slice and an empty slice are both []. *)
From Verif Require Import Base Num.

Section MathUtils.
Context {N : Num}.

Definition vec : Type := list (F N).

(* Element-wise combination, the body of the index loops below. *)
Definition zipw (f : F N -> F N -> F N) (a b : vec) : vec :=
  map (fun p => f (fst p) (snd p)) (combine a b).

(* pkg/mathutils/distance.go:16-25 EuclideanDistance; None models the error. *)
Definition euclidean_distance (v1 v2 : vec) : option (F N) :=
  if length v1 =? length v2 then
    Some (fold_left (fun r p => fadd r (fsqrt (fmul (fsub (fst p) (snd p)) (fsub (fst p) (snd p)))))
                    (combine v1 v2) f0)
  else None.

(* pkg/mathutils/distance.go:28-34 norm. *)
Definition norm (v : vec) : F N :=
  fsqrt (fold_left (fun x a => fadd x (fmul a a)) v f0).

(* pkg/mathutils/distance.go:46-49, the dot product loop inside CosineSimilarity. *)
Definition dot (v1 v2 : vec) : F N :=
  fold_left (fun r p => fadd r (fmul (fst p) (snd p))) (combine v1 v2) f0.

(* pkg/mathutils/distance.go:38-51 CosineSimilarity; None models the error. *)
Definition cosine_similarity (v1 v2 : vec) : option (F N) :=
  if length v1 =? length v2 then
    let norm1 := norm v1 in
    let norm2 := norm v2 in
    if feqb norm1 f0 && feqb norm2 f0 then Some f0
    else Some (fdiv (fdiv (dot v1 v2) norm1) norm2)
  else None.

(* pkg/mathutils/vectools.go:45-55 VecEq. *)
Definition vec_eq (v1 v2 : vec) : bool :=
  (length v1 =? length v2) && forallb (fun p => feqb (fst p) (snd p)) (combine v1 v2).

(* pkg/mathutils/vectools.go:58-65 VecIn. *)
Definition vec_in (v : vec) (vs : list vec) : bool := existsb (vec_eq v) vs.

(* pkg/mathutils/vectools.go:69-75 VecDivScalar. *)
Definition vec_div_scalar (v : vec) (s : F N) : vec := map (fun x => fdiv x s) v.

(* pkg/mathutils/vectools.go:78-84 VecMulScalar. *)
Definition vec_mul_scalar (v : vec) (s : F N) : vec := map (fun x => fmul x s) v.

(* pkg/mathutils/vectools.go:87-96 VecAdd; None models the returned (nil, false). *)
Definition vec_add (a b : vec) : option vec :=
  if length a =? length b then Some (zipw fadd a b) else None.

(* pkg/mathutils/vectools.go:99-108 VecSub; None models the returned (nil, false). *)
Definition vec_sub (a b : vec) : option vec :=
  if length a =? length b then Some (zipw fsub a b) else None.

(* The idiom "c.vec, _ = mathutils.VecAdd(..)" used by callers: nil on failure. *)
Definition or_nil (o : option vec) : vec := match o with Some v => v | None => [] end.

(* Generators "func() ([]float64, bool)": a state, a step returning the next vector or
   None for (_, false). *)
Definition Gen (S : Type) : Type := S -> M (option vec * S).

(* A generator over a plain list, as used by centroidVecGenerator
   (pkg/kmeans/centroidmanager/cmanager.go:159-168) and intoVecGenerator
   (pkg/kmeans/rpc/serverutils.go:24-33, core/nodes/vecs.go:17-26). *)
Definition list_gen : Gen (list vec) := fun s =>
  match s with
  | [] => ret (None, [])
  | v :: r => ret (Some v, r)
  end.

(* pkg/mathutils/vectools.go:14-26, the loop of VecMean. *)
Fixpoint vec_mean_loop {S : Type} (fuel : nat) (g : Gen S) (s : S) (res : vec) (n : F N)
  : M ((vec * F N * bool) * S) :=
  match fuel with
  | O => out_of_fuel
  | Datatypes.S fuel' =>
      do ' (o, s') <- g s;
      match o with
      | None => ret ((res, n, true), s')
      | Some v =>
          if length v =? length res
          then vec_mean_loop fuel' g s' (zipw fadd res v) (fadd n f1)
          else ret ((res, n, false), s')
      end
  end.

(* pkg/mathutils/vectools.go:4-33 VecMean.  [fuel] must exceed the number of vectors
   the generator can still produce. *)
Definition vec_mean {S : Type} (fuel : nat) (g : Gen S) (s : S) : M ((vec * bool) * S) :=
  do ' (o, s1) <- g s;
  match o with
  | None => ret (([], false), s1)
  | Some v =>
      do ' ((res, n, ok), s2) <- vec_mean_loop fuel g s1 v f1;
      if ok then ret ((map (fun x => fdiv x n) res, true), s2)
      else ret ((res, false), s2)
  end.

(* Run a generator until it signals the end, collecting the vectors: this is how the
   search functions of pkg/searchutils/knn.go:102-107 consume it. *)
Fixpoint exhaust {S : Type} (fuel : nat) (g : Gen S) (s : S) : M (list vec * S) :=
  match fuel with
  | O => out_of_fuel
  | Datatypes.S fuel' =>
      do ' (o, s') <- g s;
      match o with
      | None => ret ([], s')
      | Some v =>
          do ' (vs, s'') <- exhaust fuel' g s';
          ret (v :: vs, s'')
      end
  end.

End MathUtils.
Arguments vec N : clear implicits.
