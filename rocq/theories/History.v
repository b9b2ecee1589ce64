(* Histories of manager operations: the vocabulary in which "after any sequence of
   operations" is stated.  Each step calls one exported method of CentroidManager
   (pkg/kmeans/centroidmanager/cmanager.go) and records which datapoints went in and out. *)
From Verif Require Import Base Num MathUtils Env Centroid CManager.

Section History.
Context {N : Num} (E : Env N).
Notation DP := (DataPoint N).
Notation Cen := (Centroid N).

Definition all_dps (cs : list Cen) : list DP := concat (map c_dps cs).

Inductive cmop :=
| OAdd (d : DP)                                    (* AddDataPoint *)
| ODrainUnordered (n : Z)
| ODrainOrdered (n : Z)
| OExpire
| OMemTrim
| OMoveVector
| ODistributeInternal (n : Z)                      (* DistributeDataPointsInternal *)
| OKnnLookup (v : vec N) (k : Z) (drain : bool)
| ONearest (v : vec N) (n : Z) (drain : bool)      (* NearestCentroids *)
| OSplit (p : Cen -> bool)
| OMerge (p : Cen -> bool)
| OAttach (cs : list Cen).                         (* server.go:383, see step *)

(* The counts that make() needs to be non-negative. *)
Definition counts_ok (o : cmop) : Prop :=
  match o with
  | ODrainUnordered n | ODrainOrdered n | OKnnLookup _ n _ | ONearest _ n _ => (0 <= n)%Z
  | _ => True
  end.

(* Every vector of the centroid has dimension n. *)
Definition dim_ok (n : nat) (c : Cen) : bool :=
  (length (c_vec c) =? n) && forallb (fun d => length (dp_vec d) =? n) (c_dps c).

(* One operation: (datapoints accepted, datapoints handed out and removed, new manager).
   OAttach models pkg/kmeans/rpc/server.go:383, which appends stolen centroids directly to
   the public slice; the code only ever attaches the result of a search for the manager's own
   vector, i.e. centroids of its dimension, so an attach of anything else is a no-op here. *)
Definition step (m : CM N) (o : cmop) : M (list DP * list DP * CM N) :=
  match o with
  | OAdd d => do ' (ok, m') <- cm_add E m d; ret (if ok then [d] else [], [], m')
  | ODrainUnordered n => do ' (ds, m') <- cm_drain_unordered E m n; ret ([], ds, m')
  | ODrainOrdered n => do ' (ds, m') <- cm_drain_ordered E m n; ret ([], ds, m')
  | OExpire => do m' <- cm_expire E m; ret ([], [], m')
  | OMemTrim => do m' <- cm_mem_trim E m; ret ([], [], m')
  | OMoveVector => do ' (_, m') <- cm_move_vector E m; ret ([], [], m')
  | ODistributeInternal n => do m' <- cm_distribute_internal E m n; ret ([], [], m')
  | OKnnLookup v k drain =>
      do ' (ds, m') <- cm_knn_lookup E m v k drain; ret ([], if drain then ds else [], m')
  | ONearest v n drain =>
      do ' (o, m') <- cm_nearest E m v n drain;
      ret ([], match o with Some cs => if drain then all_dps cs else [] | None => [] end, m')
  | OSplit p => do m' <- cm_split E m p; ret ([], [], m')
  | OMerge p => do m' <- cm_merge E m p; ret ([], [], m')
  | OAttach cs =>
      if forallb (dim_ok (length (cm_vec m))) cs
      then ret (all_dps cs, [], MkCM (cm_vec m) (cm_cs m ++ cs) (cm_thresh m))
      else ret ([], [], m)
  end.

(* A whole history, accumulating what went in and out. *)
Fixpoint run (m : CM N) (ops : list cmop) : M (list DP * list DP * CM N) :=
  match ops with
  | [] => ret ([], [], m)
  | o :: r =>
      do ' (i1, o1, m1) <- step m o;
      do ' (i2, o2, m2) <- run m1 r;
      ret (i1 ++ i2, o1 ++ o2, m2)
  end.

End History.
Arguments cmop N : clear implicits.
