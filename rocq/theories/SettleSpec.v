(* Specification vocabulary: the sizes of a namespace on the nodes, and their mean. *)
From Verif Require Import Base Num MathUtils Env Centroid CManager DataSpec MgrSpec Proc Server ServerSpec EventLoop.

Section SettleSpec.
Context {N : Num}.

Definition size_at (w : World N) (b ns : str) : Z := Z.of_nat (length (data_at w b ns)).
(* The addresses that have the namespace. *)
Definition having (w : World N) (addrs : list str) (ns : str) : list str :=
  filter (fun b => match manager w b ns with Some _ => true | None => false end) addrs.
Definition mean_size (w : World N) (addrs : list str) (ns : str) : Z :=
  (fold_right Z.add 0 (map (fun b => size_at w b ns) (having w addrs ns)) / Z.of_nat (length (having w addrs ns)))%Z.
(* No centroid of the namespace on these nodes has more than s datapoints. *)
Definition centroids_up_to (w : World N) (addrs : list str) (ns : str) (s : Z) : Prop :=
  forall b cen, In b addrs -> In cen (centroids_at w b ns) -> (Z.of_nat (length (c_dps cen)) <= s)%Z.
(* The search for v finds one of these centroids, or none of them. *)
Definition sees (E : Env N) (v : vec N) (cs : list (Centroid N)) : Prop := exists i idx, e_knn E v (map c_vec cs) 1%Z = Ok (i :: idx).
Definition blind (E : Env N) (v : vec N) (cs : list (Centroid N)) : Prop := e_knn E v (map c_vec cs) 1%Z = Ok [].
(* b has no empty centroid, and the vector that a searches with finds one. *)
Definition offers (E : Env N) (w : World N) (a b ns : str) : Prop := forall mr, manager w b ns = Some mr ->
  Forall (fun c => c_dps c <> []) (cm_cs mr) /\
  sees E (match manager w a ns with Some m => cm_vec m | None => cm_vec mr end) (cm_cs mr).
End SettleSpec.
