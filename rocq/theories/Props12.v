(* Properties C83-C85: slices and pointers. *)
From Verif Require Import Base Num MathUtils Env MathSpec Centroid CManager History Memory MemCentroid MemManager MemSpec
  MemTop TestEnv MemCase MemFinal MemRoom.
Local Open Scope nat_scope.

(* ---- C83 ---- *)
Theorem C83_memory : forall (N : Num) (E : Env N) room init thresh cap ops t,
  Agree (fun x y => read_mgr (snd x) (snd (fst x)) = Some (snd y) /\ tells_all (snd x) ops (fst (fst x)) (fst y))
    (run_heap room (life E init thresh cap ops) empty_heap t) (answers E (new_cm init thresh) ops t).
Proof. exact @memory_ok. Qed.
Print Assumptions C83_memory.

(* The manager in memory is the one that the theorems about histories speak of. *)
Theorem C83_histories : forall (N : Num) (E : Env N) room init thresh cap ops t,
  Agree (fun x y => read_mgr (snd x) (snd (fst x)) = Some (snd y))
    (run_heap room (life E init thresh cap ops) empty_heap t) (History.run E (new_cm init thresh) ops t).
Proof. exact @same_manager. Qed.
Print Assumptions C83_histories.

(* Ten calls; the fourth splits a centroid, the fifth and eighth answer with datapoints, the
   sixth and tenth with pointers.  The sizes of the answers, read from memory at the end. *)
Example C83_case : life_sizes eucE ten = Some ([[1]; [1]; [1]; [1]; [2]; [2]; [1]; [2]; []; [1]], [1]) /\
  meant_sizes eucE ten = Some [[1]; [1]; [1]; [1]; [2]; [2]; [1]; [2]; []; [1]].
Proof. vm_compute. auto. Qed.

(* ---- C84 ---- *)
(* False: NearestCentroids without drain answers with pointers to centroids that the next call
   changes; the server encodes the answer after the mutex is released. *)
Theorem C84_answers_stay_refuted : exists (E : Env f64) room init thresh cap ops t xs g h u l m u',
  run_heap room (life E init thresh cap ops) empty_heap t = Ok (((xs, g), h), u) /\
  answers E (new_cm init thresh) ops t = Ok ((l, m), u') /\
  exists i x a, nth_error xs i = Some x /\ nth_error l i = Some a /\ ~ tells h x a.
Proof. exact answers_change. Qed.
Print Assumptions C84_answers_stay_refuted.

(* The answer with one datapoint shows two after the next call. *)
Example C84_case : life_sizes eucE late = Some ([[1]; [2]; [1]], [2]) /\ meant_sizes eucE late = Some [[1]; [1]; [1]].
Proof. vm_compute. auto. Qed.

(* ---- C85 ---- *)
(* False: MemTrim does not leave slices whose capacity is their length. *)
Theorem C85_trim_exact_refuted : exists (E : Env f64) init thresh cap ops t xs g h u n k,
  run_heap doubling (life E init thresh cap (ops ++ [OMemTrim])) empty_heap t = Ok (((xs, g), h), u) /\
  In (Some (n, k)) (rooms h g) /\ n <> k.
Proof. exact trim_roomy. Qed.
Print Assumptions C85_trim_exact_refuted.

Theorem C85_trim_exact_mgr_refuted : exists (E : Env f64) init thresh cap ops t xs g h u n k,
  run_heap doubling (life E init thresh cap (ops ++ [OMemTrim])) empty_heap t = Ok (((xs, g), h), u) /\
  room_of (h_ptrs h) (g_cs g) = Some (n, k) /\ n <> k.
Proof. exact trim_roomy_mgr. Qed.
Print Assumptions C85_trim_exact_mgr_refuted.

(* What it does leave: room for the centroids there were, and per centroid at most K + 1 places
   for each datapoint, if append spares at most K places per element. *)
Theorem C85_trim_bound : forall (N : Num) (E : Env N) room K, (forall c n, c < n -> room c n <= K * n) ->
  forall init thresh cap ops t xs g h u,
  run_heap room (life E init thresh cap (ops ++ [OMemTrim])) empty_heap t = Ok (((xs, g), h), u) ->
  exists l m u', answers E (new_cm init thresh) ops t = Ok ((l, m), u') /\
    (exists n, room_of (h_ptrs h) (g_cs g) = Some (n, length (cm_cs m))) /\
    Forall (fun r => exists n k, r = Some (n, k) /\ k <= (K + 1) * n) (rooms h g).
Proof. exact @trim_bound. Qed.
Print Assumptions C85_trim_bound.

(* Doubling spares at most one place per element; before MemTrim the centroid has 64 places for
   the three datapoints. *)
Example C85_bound_case : (forall c n, c < n -> doubling c n <= 1 * n) /\
  life_rooms64 eucE four = Some ([Some (2, 64); Some (2, 64)], Some (2, 64)) /\
  life_rooms64 eucE three = Some ([Some (3, 64)], Some (1, 64)) /\
  life_rooms64 eucE (three ++ [OMemTrim]) = Some ([Some (3, 4)], Some (1, 1)).
Proof. split; [unfold doubling; intros; lia|vm_compute; auto]. Qed.

(* Lengths and capacities: three datapoints with room for four; one centroid with room for two. *)
Example C85_case : life_rooms eucE trim3 = Some ([Some (3, 4)], Some (1, 1)) /\
  life_rooms eucE trim2 = Some ([Some (2, 2)], Some (1, 2)).
Proof. vm_compute. auto. Qed.
