(* Specification vocabulary: what a job hands out as data. *)
From Verif Require Import Base Num MathUtils Env Centroid CManager DataSpec MgrSpec Proc Server ServerSpec Core EventLoop CoreSpec OriginSpec.

Section ExpirySpec.
Context {N : Num}.

(* As [shown], but without the answers to NearestCentroids, which are whole centroids. *)
Definition handed (d : done N) : list (str * DataPoint N) :=
  match d with
  | DReq _ (ACens _) => []
  | _ => shown d
  end.
End ExpirySpec.
