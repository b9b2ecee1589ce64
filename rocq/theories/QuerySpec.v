(* Specification vocabulary: what a query can find. *)
From Verif Require Import Base Num MathUtils SearchSpec Env Centroid CManager DataSpec MgrSpec Proc Server ServerSpec Core EventLoop CoreSpec.

Section QuerySpec.
Context {N : Num} (E : Env N).

(* A manager where a search for v overlooks nothing: nothing expires, every centroid has
   datapoints, and every vector in it can be ranked. *)
Definition in_sight (v : vec N) (m : CM N) : Prop :=
  never_expired E (stored (cm_cs m)) /\ ranks_all (e_knn E) v (map c_vec (cm_cs m)) /\
  Forall (fun c => c_dps c <> [] /\ ranks_all (e_knn E) v (map dp_vec (c_dps c))) (cm_cs m).

(* The node a answers with a vector that can be ranked by its cosine similarity to v. *)
Definition ranked_node (w : World N) (accurate : bool) (ns : str) (v : vec N) (a : str) : Prop :=
  exists u s, (if accurate then accurate_vec E w ns v a u else fast_vec w ns a u) /\
    cosine_similarity v u = Some s /\ better false s (sentinel false) = true.

(* The datapoints of a namespace on the given nodes. *)
Definition data_on (w : World N) (addrs : list str) (ns : str) : list (DataPoint N) :=
  concat (map (fun a => data_at w a ns) addrs).

(* A query that overlooks nothing: enough datapoints are asked for, on every node that has the
   namespace everything is in sight, and the data can be sent. *)
Definition sees_all (w : World N) (addrs : list str) (o : query_opts N) : Prop :=
  (Z.of_nat (length (data_on w addrs (qo_ns o))) <= qo_n o)%Z /\
  (forall a m, In a addrs -> manager w a (qo_ns o) = Some m ->
     ranked_node w (qo_accurate o) (qo_ns o) (qo_vec o) a /\ in_sight (qo_vec o) m) /\
  (forall a, Forall carries (data_at w a (qo_ns o))).

(* Each node would take the datapoint d: it does not know the namespace, has no centroid in it,
   or finds one for d. *)
Definition takers (w : World N) (addrs : list str) (ns : str) (d : DataPoint N) : Prop :=
  forall a m, In a addrs -> manager w a ns = Some m ->
    cm_cs m = [] \/ exists i idx, e_knn E (dp_vec d) (map c_vec (cm_cs m)) 1%Z = Ok (i :: idx).

End QuerySpec.
