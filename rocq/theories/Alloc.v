(* Go's make with a count from outside.  runtime/slice.go makeslice (Go 1.16, amd64) panics not
   only if the count is negative, but also if the slice would have more than 2^48 bytes.  Here a
   count that is too large is turned into a negative one, which panics at the same place of the
   models.  Simplification: a machine that has less memory than 2^48 bytes can die of smaller
   counts. *)
From Verif Require Import Base Num MathUtils Env Centroid CManager Proc Server Core EventLoop CoreSpec.

Section Alloc.
Context {N : Num}.

Definition max_alloc : Z := 2 ^ 48.
(* common/common.go:6-11 DataPoint: two slices, a time and a bool; searchutils/knn.go:17-27
   resultItem: an int, a float64 and a bool. *)
Definition dp_size : Z := 80.
Definition item_size : Z := 24.
Definition made (size n : Z) : Z := if (max_alloc <? size * n)%Z then (-1)%Z else n.

(* The counts of a request that reach a make before anything else does: cmanager.go:280, 303,
   425 and server.go:156, 198 make datapoints, cmanager.go:471 reaches knn.go:89. *)
Definition made_req (q : req N) : req N :=
  match q with
  | QDrainUnordered ns n => QDrainUnordered ns (made dp_size n)
  | QDrainOrdered ns n => QDrainOrdered ns (made dp_size n)
  | QDistributeFast ns n addrs => QDistributeFast ns (made dp_size n) addrs
  | QDistributeAccurate ns n addrs => QDistributeAccurate ns (made dp_size n) addrs
  | QKnnLookup ns v k drain => QKnnLookup ns v (made dp_size k) drain
  | QNearest ns v n drain => QNearest ns v (made item_size n) drain
  | _ => q
  end.
(* core/dps/getdps.go:20 and the batch sizes of an event loop, which it sends in requests. *)
Definition made_job (j : job N) : job N :=
  match j with
  | JReq a q => JReq a (made_req q)
  | JPut _ _ => j
  | JQuery addrs (Some (MkQuery ns acc v n drain)) => JQuery addrs (Some (MkQuery ns acc v (made dp_size n) drain))
  | JQuery _ None => j
  | JLoop (MkEl a r sk fn an inn s1 s2 m1 m2 lo fu) stop n => JLoop (MkEl a r sk (made dp_size fn) (made dp_size an) inn s1 s2 m1 m2 lo fu) stop n
  end.
Definition serve_made (E : Env N) (a : str) (q : req N) : proc' N (ans N) := serve E a (made_req q).
Definition run_made (E : Env N) (j : job N) : proc' N (done N) := run_job E (made_job j).

End Alloc.
