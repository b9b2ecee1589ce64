(* Concrete lives of a manager in memory. *)
From Verif Require Import Base Num MathUtils Env NumFacts Centroid CManager History Memory MemCentroid MemManager MemSpec MathSpec TestEnv.

(* Threshold 4, capacity 2: the fourth datapoint splits the only centroid. *)
Definition four : list (cmop f64) := map (fun l => OAdd (dp l)) [[1;1]; [9;9]; [1;2]; [9;8]]%Z.
Definition lived (E : Env f64) (ops : list (cmop f64)) :=
  run_heap doubling (life E (fv [0;0]%Z) 4 2 ops) empty_heap 0.
Definition meant (E : Env f64) (ops : list (cmop f64)) := answers E (new_cm (fv [0;0]%Z) 4) ops 0.

(* The kinds of answer, with the number of datapoints in them, as the memory shows them. *)
Definition size_of (h : heap f64) (x : handle) : list nat :=
  match x with
  | HNone => []
  | HBool b => if b then [1] else [0]
  | HDps y => match read_var (h_data h) y with Some l => [length l] | None => [] end
  | HCens None => []
  | HCens (Some u) => match read_ptrs h u with Some cs => map (fun c => length (c_dps c)) cs | None => [] end
  end.
Definition size_meant (a : @answer f64) : list nat :=
  match a with
  | ANone => []
  | ABool b => if b then [1] else [0]
  | ADps l => [length l]
  | ACens None => []
  | ACens (Some cs) => map (fun c => length (c_dps c)) cs
  end.
Definition life_sizes (E : Env f64) (ops : list (cmop f64)) : option (list (list nat) * list nat) :=
  match lived E ops with
  | Ok (((xs, g), h), _) =>
      Some (map (size_of h) xs, match read_mgr h g with Some m => map (fun c => length (c_dps c)) (cm_cs m) | None => [] end)
  | _ => None
  end.
Definition meant_sizes (E : Env f64) (ops : list (cmop f64)) : option (list (list nat)) :=
  match meant E ops with Ok ((l, _), _) => Some (map size_meant l) | _ => None end.
Definition life_rooms (E : Env f64) (ops : list (cmop f64)) : option (list (option (nat * nat)) * option (nat * nat)) :=
  match lived E ops with
  | Ok (((_, g), h), _) => Some (rooms h g, room_of (h_ptrs h) (g_cs g))
  | _ => None
  end.

(* Capacity 64. *)
Definition three : list (cmop f64) := map (fun l => OAdd (dp l)) [[1;1]; [1;2]; [1;3]]%Z.
Definition life_rooms64 (E : Env f64) (ops : list (cmop f64)) : option (list (option (nat * nat)) * option (nat * nat)) :=
  match run_heap doubling (life E (fv [0;0]%Z) 4 64 ops) empty_heap 0 with
  | Ok (((_, g), h), _) => Some (rooms h g, room_of (h_ptrs h) (g_cs g))
  | _ => None
  end.

(* From sizes to the refutation. *)
Lemma tells_sizes (h : heap f64) x a : tells h x a -> size_of h x = size_meant a.
Proof.
  destruct x as [|b|y|[u|]], a as [|b'|l|[cs|]]; cbn; try tauto.
  - intros ->. reflexivity.
  - intros ->. reflexivity.
  - intros ->. reflexivity.
Qed.

Lemma changed E ops i s s' :
  match life_sizes E ops with Some (l, _) => nth_error l i = Some s | None => False end ->
  match meant_sizes E ops with Some l => nth_error l i = Some s' | None => False end -> s <> s' ->
  exists xs g h u l m u', lived E ops = Ok (((xs, g), h), u) /\ meant E ops = Ok ((l, m), u') /\
    exists x a, nth_error xs i = Some x /\ nth_error l i = Some a /\ ~ tells h x a.
Proof.
  unfold life_sizes, meant_sizes. destruct (lived E ops) as [[[[xs g] h] u]| |]; try contradiction.
  intros H1. destruct (meant E ops) as [[[l m] u']| |]; try contradiction. intros H2 Hs. rewrite nth_error_map in H1, H2.
  exists xs, g, h, u, l, m, u'. split; [reflexivity|split; [reflexivity|]].
  destruct (nth_error xs i) as [x|], (nth_error l i) as [a|]; try discriminate. exists x, a. split; [reflexivity|split; [reflexivity|]].
  intros Ht. apply tells_sizes in Ht. cbn in *. congruence.
Qed.

(* Ten calls, of every kind that answers with a slice. *)
Definition ten : list (cmop f64) :=
  four ++ [OKnnLookup (fv [1;1]%Z) 2 false; ONearest (fv [9;9]%Z) 1 true; OAdd (dp [3;3]%Z); ODrainUnordered 2;
           OMerge (fun _ => true); ONearest (fv [1;1]%Z) 1 false].

(* A call that answers with a pointer to the only centroid, and one that changes the centroid. *)
Definition late : list (cmop f64) := [OAdd (dp [1;1]%Z); ONearest (fv [1;1]%Z) 1 false; OAdd (dp [3;3]%Z)].

(* Three datapoints in one centroid, or two in one of two centroids, and MemTrim. *)
Definition trim3 : list (cmop f64) := map (fun l => OAdd (dp l)) [[1;1]; [1;2]; [1;3]]%Z ++ [OMemTrim].
Definition trim2 : list (cmop f64) := four ++ [OKnnLookup (fv [1;1]%Z) 2 true; OMemTrim].
Lemma roomy E ops r : life_rooms E ops = Some r -> exists xs g h u, lived E ops = Ok (((xs, g), h), u) /\ rooms h g = fst r /\
  room_of (h_ptrs h) (g_cs g) = snd r.
Proof.
  unfold life_rooms. destruct (lived E ops) as [[[[xs g] h] u]| |]; try discriminate. intros [= <-].
  exists xs, g, h, u. auto.
Qed.
