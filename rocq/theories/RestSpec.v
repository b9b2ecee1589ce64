(* Specification vocabulary: the centroids of a namespace as groups of datapoints, and the
   imbalance of the nodes. *)
From Verif Require Import Base Num MathUtils Env Centroid CManager DataSpec MgrSpec Proc Server ServerSpec EventLoop SettleSpec.

Section RestSpec.
Context {N : Num}.

(* The datapoints of the centroids, one list per centroid. *)
Definition groups (w : World N) (b ns : str) : list (list (DataPoint N)) := map c_dps (centroids_at w b ns).
Definition all_groups (w : World N) (addrs : list str) (ns : str) : list (list (DataPoint N)) :=
  concat (map (fun b => groups w b ns) addrs).

(* The sum of the distances of the sizes to the mean. *)
Definition imbalance (w : World N) (addrs : list str) (ns : str) : Z :=
  let mean := mean_size w addrs ns in
  fold_right Z.add 0%Z (map (fun b => Z.abs (size_at w b ns - mean)) addrs).

(* The number of datapoints that came to nodes that had fewer before. *)
Definition moved (w w' : World N) (addrs : list str) (ns : str) : Z :=
  fold_right Z.add 0%Z (map (fun b => Z.max 0 (size_at w' b ns - size_at w b ns)) addrs).

(* The load balancing tasks of these event loops, one after the other, with any time between;
   ws are the states after them. *)
Inductive turns (E : Env N) : list el_cfg -> World N -> nat -> list (World N) -> Prop :=
| turns_none w t : turns E [] w t []
| turns_next c cs w t w1 t1 t2 ws : exec (task_body E c TBalance) w t = Ok ((tt, w1), t1) -> t1 <= t2 -> turns E cs w1 t2 ws ->
    turns E (c :: cs) w t (w1 :: ws).

(* All that was moved. *)
Fixpoint moved_in (w : World N) (ws : list (World N)) (addrs : list str) (ns : str) : Z :=
  match ws with
  | [] => 0
  | w1 :: ws' => (moved w w1 addrs ns + moved_in w1 ws' addrs ns)%Z
  end.
(* The runs that changed a size. *)
Fixpoint changes (w : World N) (ws : list (World N)) (addrs : list str) (ns : str) : nat :=
  match ws with
  | [] => 0
  | w1 :: ws' => (if forallb (fun b => (size_at w1 b ns =? size_at w b ns)%Z) addrs then 0 else 1) + changes w1 ws' addrs ns
  end.

(* A state in order in which nothing expires, every node has the namespace, and no centroid of it has
   more datapoints than the margin.  [fuel] bounds the loops of the steals in the model. *)
Definition ready (E : Env N) (dim : str -> nat) (fuel : nat) (addrs : list str) (ns : str) (w : World N) : Prop :=
  WorldOk w /\ DimsOk (fun ns n => n = dim ns) w /\ (forall b ns, never_expired E (data_at w b ns)) /\
  (forall b ns, length (centroids_at w b ns) < fuel) /\ (forall ns, length (all_groups w addrs ns) < fuel) /\
  (forall b, In b addrs -> manager w b ns <> None) /\ centroids_up_to w addrs ns (margin_of (mean_size w addrs ns)).
(* The event loops of nodes that know each other. *)
Definition peers (fuel : nat) (addrs : list str) (cs : list el_cfg) : Prop :=
  Forall (fun c => el_remote c = addrs /\ In (el_local c) addrs /\ el_fuel c = fuel) cs.

(* Node a is short of data by the rule of the task, and b has enough for it. *)
Definition could_pull (w : World N) (addrs : list str) (ns : str) (a b : str) : Prop :=
  let mean := mean_size w addrs ns in let margin := margin_of mean in let here := size_at w a ns in
  let want := ((mean - here) / (3 * Z.of_nat (length addrs)))%Z in
  b <> a /\ (here <= mean - margin)%Z /\ (0 < want)%Z /\ (mean + margin + want <= size_at w b ns)%Z.
Definition balanced (w : World N) (addrs : list str) (ns : str) : Prop :=
  forall a b, In a addrs -> In b addrs -> ~ could_pull w addrs ns a b.
End RestSpec.
