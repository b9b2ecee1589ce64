(* Specification vocabulary for pools of centroids and managers. *)
From Verif Require Import Base Num MathUtils Env Centroid CManager History DataSpec.

Section MgrSpec.
Context {N : Num}.

(* All datapoints of a pool of centroids. *)
Definition stored (pool : list (Centroid N)) : list (DataPoint N) := concat (map c_dps pool).

(* The manager, its centroids and all their datapoints have dimension n. *)
Definition DimOk (n : nat) (m : CM N) : Prop :=
  length (cm_vec m) = n /\
  Forall (fun c => length (c_vec c) = n /\ Forall (fun d => length (dp_vec d) = n) (c_dps c)) (cm_cs m).

(* The search never leaves anything of this pool out. *)
Definition ranks_all (s : search N) (v : vec N) (pool : list (vec N)) : Prop :=
  forall k idx, (0 <= k)%Z -> s v pool k = Ok idx -> length idx = min (Z.to_nat k) (length pool).

(* From a fresh manager (vector v, split threshold T) the operations ops lead to a manager
   whose vector is the mean of its centroids' vectors, and one more operation o to one where
   it is not. *)
Definition breaks_mean (E : Env N) (v : vec N) (T : Z) (ops : list (cmop N)) (o : cmop N) : Prop :=
  exists i1 o1 m1 t1 i2 o2 m2 t2,
    run E (new_cm v T) ops 0 = Ok ((i1, o1, m1), t1) /\
    cm_cs m1 <> [] /\ cm_vec m1 = mean_of (length v) (map c_vec (cm_cs m1)) /\
    step E m1 o t1 = Ok ((i2, o2, m2), t2) /\
    cm_cs m2 <> [] /\ cm_vec m2 <> mean_of (length v) (map c_vec (cm_cs m2)).

End MgrSpec.
