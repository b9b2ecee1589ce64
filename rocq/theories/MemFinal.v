(* The statements of Props12.v. *)
From Verif Require Import Base Num MathUtils Env MathSpec Centroid CManager History Memory MemProofs MemCentroid MemManager MemSpec MemTop TestEnv MemCase.

Theorem same_manager : forall (N : Num) (E : Env N) room init thresh cap ops t,
  Agree (fun x y => read_mgr (snd x) (snd (fst x)) = Some (snd y))
    (run_heap room (life E init thresh cap ops) empty_heap t) (History.run E (new_cm init thresh) ops t).
Proof.
  intros N E room init thresh cap ops t. pose proof (memory_ok E room init thresh cap ops t) as H1.
  pose proof (answers_run E ops (new_cm init thresh) t) as H2.
  destruct (run_heap room (life E init thresh cap ops) empty_heap t) as [[[[xs g] h] u]| |],
    (answers E (new_cm init thresh) ops t) as [[[l m] u']| |], (History.run E (new_cm init thresh) ops t) as [[s u'']| |];
    cbn in *; try contradiction; auto.
  destruct H1 as (-> & H1 & _), H2 as (-> & ->). auto.
Qed.

Theorem answers_change : exists (E : Env f64) room init thresh cap ops t xs g h u l m u',
  run_heap room (life E init thresh cap ops) empty_heap t = Ok (((xs, g), h), u) /\
  answers E (new_cm init thresh) ops t = Ok ((l, m), u') /\
  exists i x a, nth_error xs i = Some x /\ nth_error l i = Some a /\ ~ tells h x a.
Proof.
  assert (H1 : match life_sizes eucE late with Some (l, _) => nth_error l 1 = Some [2] | None => False end) by (vm_compute; reflexivity).
  assert (H2 : match meant_sizes eucE late with Some l => nth_error l 1 = Some [1] | None => False end) by (vm_compute; reflexivity).
  destruct (changed eucE late 1 [2] [1] H1 H2 ltac:(discriminate)) as (xs & g & h & u & l & m & u' & Hl & Hm & x & a & H).
  exists eucE, doubling, (fv [0;0]%Z), 4%Z, 2, late, 0, xs, g, h, u, l, m, u'. split; [exact Hl|split; [exact Hm|]].
  exists 1, x, a. exact H.
Qed.

Theorem trim_roomy : exists (E : Env f64) init thresh cap ops t xs g h u n k,
  run_heap doubling (life E init thresh cap (ops ++ [OMemTrim])) empty_heap t = Ok (((xs, g), h), u) /\
  In (Some (n, k)) (rooms h g) /\ n <> k.
Proof.
  assert (H : life_rooms eucE trim3 = Some ([Some (3, 4)], Some (1, 1))) by (vm_compute; reflexivity).
  destruct (roomy _ _ _ H) as (xs & g & h & u & Hl & Hr & _).
  exists eucE, (fv [0;0]%Z), 4%Z, 2, (map (fun l => OAdd (dp l)) [[1;1]; [1;2]; [1;3]]%Z), 0, xs, g, h, u, 3, 4.
  split; [exact Hl|]. rewrite Hr. simpl. auto.
Qed.
Theorem trim_roomy_mgr : exists (E : Env f64) init thresh cap ops t xs g h u n k,
  run_heap doubling (life E init thresh cap (ops ++ [OMemTrim])) empty_heap t = Ok (((xs, g), h), u) /\
  room_of (h_ptrs h) (g_cs g) = Some (n, k) /\ n <> k.
Proof.
  assert (H : life_rooms eucE trim2 = Some ([Some (2, 2)], Some (1, 2))) by (vm_compute; reflexivity).
  destruct (roomy _ _ _ H) as (xs & g & h & u & Hl & _ & Hr).
  exists eucE, (fv [0;0]%Z), 4%Z, 2, (four ++ [OKnnLookup (fv [1;1]%Z) 2 true]), 0, xs, g, h, u, 1, 2.
  split; [exact Hl|]. rewrite Hr. auto.
Qed.
