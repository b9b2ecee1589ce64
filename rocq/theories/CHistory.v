(* Operations of a single centroid as data: the vocabulary in which "after any sequence of
   operations" is stated.  Each step calls one exported method of Centroid
   (pkg/kmeans/centroid/centroid.go) and records what went in, what was taken out and what
   was handed to the caller. *)
From Verif Require Import Base Num MathUtils Env Centroid.

Section CHistory.
Context {N : Num} (E : Env N).
Notation DP := (DataPoint N).
Notation Cen := (Centroid N).

Inductive cenop :=
| CAdd (d : DP)                                    (* AddDataPoint *)
| CDrainUnordered (n : Z)
| CDrainOrdered (n : Z)
| CExpire
| CMemTrim
| CMoveVector
| CKnnLookup (v : vec N) (k : Z) (drain : bool).

(* The counts that make() needs to be non-negative. *)
Definition ccounts_ok (o : cenop) : Prop :=
  match o with
  | CDrainUnordered n | CDrainOrdered n | CKnnLookup _ n _ => (0 <= n)%Z
  | _ => True
  end.

Record cres := MkRes {
  r_in : list DP;        (* accepted *)
  r_out : list DP;       (* handed out and no longer stored *)
  r_ret : list DP;       (* handed out *)
  r_cen : Cen            (* the centroid afterwards *)
}.

Definition cstep (c : Cen) (o : cenop) : M cres :=
  match o with
  | CAdd d => do ' (ok, c') <- c_add E c d; ret (MkRes (if ok then [d] else []) [] [] c')
  | CDrainUnordered n => do ' (ds, c') <- c_drain_unordered E c n; ret (MkRes [] ds ds c')
  | CDrainOrdered n => do ' (ds, c') <- c_drain_ordered E c n; ret (MkRes [] ds ds c')
  | CExpire => do c' <- c_expire E c; ret (MkRes [] [] [] c')
  | CMemTrim => do c' <- c_mem_trim E c; ret (MkRes [] [] [] c')
  | CMoveVector => do ' (_, c') <- c_move_vector E c; ret (MkRes [] [] [] c')
  | CKnnLookup v k drain =>
      do ' (ds, c') <- c_knn_lookup E c v k drain;
      ret (MkRes [] (if drain then ds else []) ds c')
  end.

Fixpoint crun (c : Cen) (ops : list cenop) : M cres :=
  match ops with
  | [] => ret (MkRes [] [] [] c)
  | o :: r =>
      do r1 <- cstep c o;
      do r2 <- crun (r_cen r1) r;
      ret (MkRes (r_in r1 ++ r_in r2) (r_out r1 ++ r_out r2) (r_ret r1 ++ r_ret r2) (r_cen r2))
  end.

End CHistory.
Arguments cenop N : clear implicits.
Arguments cres N : clear implicits.
