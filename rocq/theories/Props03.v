(* Properties C21-C36 and C60: the centroid manager. *)
From Verif Require Import Base Num MathUtils Knn Env Centroid CManager History SearchSpec DataSpec MgrSpec Wp NumFacts
  Exact MathSpec TestEnv Props03Lemmas.
Local Open Scope nat_scope.

(* Managers for the examples. *)
Definition two : CM f64 :=
  MkCM (fv [5]%Z) [MkC (fv [2]%Z) [dp [1]%Z; dp [3]%Z]; MkC (fv [8]%Z) [dp [8]%Z]] 3.
Example two_ok : DimOk 1 two.
Proof. repeat constructor. Qed.
Definition four : CM f64 :=
  MkCM (fv [6]%Z) [MkC (fv [2]%Z) [dp [1]%Z; dp [3]%Z; dp [2]%Z; dp [2]%Z]; MkC (fv [8]%Z) [dp [8]%Z];
                   MkC (fv [8]%Z) []] 0.
Example four_ok : DimOk 1 four /\ never_expired eucE (stored (cm_cs four)).
Proof.
  split; [repeat constructor|]. intros k d H. cbn [four cm_cs stored map concat c_dps app In] in H.
  repeat (destruct H as [<-|H]; [reflexivity|]). destruct H.
Qed.

(* ---- C21 ---- *)
Theorem C21_add_stores_once : forall (N : Num) (E : Env N), EnvOk E -> forall n m d t, DimOk n m ->
  wp (cm_add E m d) t (fun r t' =>
    (fst r = false -> snd r = m) /\
    (fst r = true -> conserves E t t' (stored (cm_cs m) ++ [d]) (stored (cm_cs (snd r))) /\
                     seen_live E t t' d)).
Proof. exact @cm_add_stores. Qed.
Print Assumptions C21_add_stores_once.

Theorem C21_add_accepts_iff : forall (N : Num) (E : Env N), EnvOk E -> forall n m d t, DimOk n m ->
  wp (cm_add E m d) t (fun r _ =>
    (fst r = true <-> expired_at (e_now E t) d = false /\
       (cm_cs m = [] \/ expired_at (e_now E (S t)) d = false /\
          exists i idx, e_knn E (dp_vec d) (map c_vec (cm_cs m)) 1%Z = Ok (i :: idx)))).
Proof. exact @cm_add_accepts. Qed.
Print Assumptions C21_add_accepts_iff.

(* Where it goes: to the nearest centroid, which is split in two (the older half of the
   threshold moving to a new last centroid) when it reaches the threshold. *)
Theorem C21_add_goes_to_nearest : forall (N : Num) (E : Env N), EnvOk E -> forall n m d t,
  DimOk n m -> cm_cs m <> [] ->
  wp (cm_add E m d) t (fun r t' => fst r = true ->
    exists i idx c, e_knn E (dp_vec d) (map c_vec (cm_cs m)) 1%Z = Ok (i :: idx) /\
      nth_error (cm_cs m) i = Some c /\
      exists c' extra, cm_cs (snd r) = list_set (cm_cs m) i c' ++ extra /\
        (extra = [] /\ c_dps c' = c_dps c ++ [d] /\
           (Z.of_nat (S (length (c_dps c))) < cm_thresh m \/ cm_thresh m <= 1)%Z \/
         exists fresh, extra = [fresh] /\ (2 <= cm_thresh m <= Z.of_nat (S (length (c_dps c))))%Z /\
           conserves E t t' (c_dps c ++ [d]) (c_dps c' ++ c_dps fresh) /\
           (never_expired E (c_dps c ++ [d]) ->
              c_dps fresh = firstn (Z.to_nat (cm_thresh m / 2)) (c_dps c ++ [d]) /\
              c_dps c' = skipn (Z.to_nat (cm_thresh m / 2)) (c_dps c ++ [d])))).
Proof. exact @cm_add_where. Qed.
Print Assumptions C21_add_goes_to_nearest.

Example C21_case :
  wp (cm_add eucE two (dp [7]%Z)) 0 (fun r _ => fst r = true /\
    map showc (cm_cs (snd r)) =
      map showc [MkC (fv [2]%Z) [dp [1]%Z; dp [3]%Z]; add_dp_raw (MkC (fv [8]%Z) [dp [8]%Z]) (dp [7]%Z)]) /\
  wp (cm_add eucE two (dp [2]%Z)) 0 (fun r _ => fst r = true /\
    map (fun c => shows (c_dps c)) (cm_cs (snd r)) =
      map shows [[dp [3]%Z; dp [2]%Z]; [dp [8]%Z]; [dp [1]%Z]]) /\
  wp (cm_add eucE two (dp [2;2]%Z)) 0 (fun r _ => fst r = false).
Proof. vm_compute. auto. Qed.

(* ---- C22 ---- *)
Theorem C22_drain_even : forall (N : Num) (E : Env N), EnvOk E -> forall n m k t,
  (1 <= k)%Z -> DimOk n m -> never_expired E (stored (cm_cs m)) ->
  wp (cm_drain_unordered E m k) t (fun r _ =>
    exists ps, EvenPortions (map (fun c => length (c_dps c)) (cm_cs m)) (Z.to_nat k) ps /\
      length (cm_cs (snd r)) = length (cm_cs m) /\
      forall i c p, nth_error (cm_cs m) i = Some c -> nth_error ps i = Some p ->
        exists c', nth_error (cm_cs (snd r)) i = Some c' /\ c_dps c' = skipn p (c_dps c)).
Proof. exact @cm_drain_even. Qed.
Print Assumptions C22_drain_even.

Example C22_case :
  wp (cm_drain_unordered eucE four 4) 0 (fun r _ =>
    map (fun c => shows (c_dps c)) (cm_cs (snd r)) = map shows [[dp [2]%Z]; []; []] /\
    shows (fst r) = shows [dp [1]%Z; dp [3]%Z; dp [2]%Z; dp [8]%Z]).
Proof. vm_compute. auto. Qed.

(* ---- C23 ---- *)
Theorem C23_drain_at_most : forall (N : Num) (E : Env N), EnvOk E -> forall n m k t,
  (1 <= k)%Z -> DimOk n m ->
  wp (cm_drain_unordered E m k) t (fun r t' => (Z.of_nat (length (fst r)) <= k)%Z /\
     conserves E t t' (stored (cm_cs m)) (stored (cm_cs (snd r)) ++ fst r) /\
     Forall (seen_live E t t') (fst r)) /\
  wp (cm_drain_ordered E m k) t (fun r t' => (Z.of_nat (length (fst r)) <= k)%Z /\
     conserves E t t' (stored (cm_cs m)) (stored (cm_cs (snd r)) ++ fst r) /\
     Forall (seen_live E t t') (fst r)).
Proof. exact @cm_drain_bound. Qed.
Print Assumptions C23_drain_at_most.

Theorem C23_drain_exactly : forall (N : Num) (E : Env N), EnvOk E -> forall n m k t,
  (1 <= k)%Z -> DimOk n m -> never_expired E (stored (cm_cs m)) ->
  wp (cm_drain_unordered E m k) t (fun r t' =>
    length (fst r) = min (Z.to_nat k) (length (stored (cm_cs m)))).
Proof. exact @cm_drain_exact. Qed.
Print Assumptions C23_drain_exactly.

(* Draining 0 datapoints drains one. *)
Theorem C23_drain_zero_refuted : exists ops i o m t r t',
  Forall counts_ok ops /\ run eucE (new_cm (fv [0]%Z) 0) ops 0 = Ok ((i, o, m), t) /\
  cm_drain_unordered eucE m 0 t = Ok (r, t') /\ length (fst r) = 1.
Proof. exact drain_zero_refuted. Qed.
Print Assumptions C23_drain_zero_refuted.

Example C23_case : DimOk 1 four /\ never_expired eucE (stored (cm_cs four)) /\
  wp (cm_drain_unordered eucE four 100) 0 (fun r _ => length (fst r) = 5) /\
  wp (cm_drain_ordered eucE four 2) 0 (fun r _ => shows (fst r) = shows [dp [1]%Z; dp [8]%Z]).
Proof. split; [exact (proj1 four_ok)|]. split; [exact (proj2 four_ok)|]. vm_compute. auto. Qed.

(* ---- C24, C25, C26: any history ---- *)
Theorem C24_dimension_consistent : forall (N : Num) (E : Env N), EnvOk E -> forall v T ops t,
  Forall counts_ok ops ->
  wp (run E (new_cm v T) ops) t (fun r _ => exists n, DimOk n (snd r)).
Proof. exact @history_dims. Qed.
Print Assumptions C24_dimension_consistent.

Theorem C25_history_conserves : forall (N : Num) (E : Env N), EnvOk E -> forall v T ops t,
  Forall counts_ok ops ->
  wp (run E (new_cm v T) ops) t (fun r t' => let '(accepted, removed, m) := r in
    conserves E t t' accepted (stored (cm_cs m) ++ removed)).
Proof. exact @history_conserves. Qed.
Print Assumptions C25_history_conserves.

Theorem C26_history_runs : forall (N : Num) (E : Env N), EnvOk E -> forall v T ops t,
  Forall counts_ok ops -> exists r t', run E (new_cm v T) ops t = Ok (r, t').
Proof. exact @history_runs. Qed.
Print Assumptions C26_history_runs.

Theorem C26_negative_counts_panic : forall (N : Num) (E : Env N) m n v drain t, (n < 0)%Z ->
  cm_drain_unordered E m n t = Panic /\ cm_drain_ordered E m n t = Panic /\
  cm_knn_lookup E m v n drain t = Panic.
Proof. exact @negative_drain_panics. Qed.
Print Assumptions C26_negative_counts_panic.

Definition c25_ops : list (cmop f64) :=
  [OAdd (dp [1]%Z); OAdd (dpx [5]%Z 3); OAdd (dp [9]%Z); OAdd (dp [2;2]%Z); OAdd (dp [2]%Z);
   OKnnLookup (fv [0]%Z) 1 true; OSplit (fun _ => true); OAttach [MkC (fv [4]%Z) [dp [4]%Z]];
   ONearest (fv [5]%Z) 1 true; ODistributeInternal 2; OMerge (fun c => length (c_dps c) <? 2);
   OMemTrim; OMoveVector; ODrainOrdered 0; OExpire].
Example C25_case : EnvOk clockE /\ Forall counts_ok c25_ops /\
  wp (run clockE (new_cm (fv [0]%Z) 3) c25_ops) 0 (fun r _ => let '(i, o, m) := r in
    shows i = shows [dp [1]%Z; dpx [5]%Z 3; dp [9]%Z; dp [2]%Z; dp [4]%Z] /\
    shows o = shows [dp [1]%Z; dp [4]%Z; dp [9]%Z] /\
    map (fun c => shows (c_dps c)) (cm_cs m) = [shows [dp [2]%Z]]).
Proof.
  split; [exact clockE_ok|]. split; [|vm_compute; auto].
  unfold c25_ops. repeat constructor; cbn [counts_ok]; lia.
Qed.

(* ---- C27 ---- *)
(* Full statement: after every history the manager's vector is the mean of its centroids'
   vectors.  Each of these operations breaks it. *)
Theorem C27_automatic_split_refuted : exists T ops d, breaks_mean ratE (qv [0]%Z) T ops (OAdd d).
Proof. exact auto_split_refuted. Qed.
Print Assumptions C27_automatic_split_refuted.
Theorem C27_split_refuted : exists T ops p, breaks_mean ratE (qv [0]%Z) T ops (OSplit p).
Proof. exact split_refuted. Qed.
Print Assumptions C27_split_refuted.
Theorem C27_mem_trim_refuted : exists T ops, breaks_mean ratE (qv [0]%Z) T ops OMemTrim.
Proof. exact trim_refuted. Qed.
Print Assumptions C27_mem_trim_refuted.
Theorem C27_merge_refuted : exists T ops p, breaks_mean ratE (qv [0]%Z) T ops (OMerge p).
Proof. exact merge_refuted. Qed.
Print Assumptions C27_merge_refuted.

(* Without them (threshold at most 1: no automatic splits) it holds, in exact arithmetic. *)
Theorem C27_vector_is_mean_partial : forall (N : Num) (E : Env N), EnvOk E -> ExactNum N -> forall v T ops t,
  (T <= 1)%Z -> Forall counts_ok ops ->
  Forall (fun o => match o with OMemTrim | OSplit _ | OMerge _ | OAttach _ => False | _ => True end) ops ->
  wp (run E (new_cm v T) ops) t (fun r _ => cm_cs (snd r) <> [] ->
    cm_vec (snd r) = mean_of (length (cm_vec (snd r))) (map c_vec (cm_cs (snd r)))).
Proof. exact @history_vec. Qed.
Print Assumptions C27_vector_is_mean_partial.

(* MoveVector restores it from any state. *)
Theorem C27_move_vector_restores : forall (N : Num) (E : Env N), ExactNum N -> forall n m t, DimOk n m ->
  wp (cm_move_vector E m) t (fun r _ => (fst r = true <-> cm_cs m <> []) /\
    (cm_cs m <> [] -> cm_vec (snd r) = mean_of n (map c_vec (cm_cs (snd r)))) /\
    stored (cm_cs (snd r)) = live_from E t (stored (cm_cs m))).
Proof. exact @move_vector_restores. Qed.
Print Assumptions C27_move_vector_restores.

Example C27_case :
  wp (run ratE (new_cm (qv [0]%Z) 0) [OAdd (dq [1]%Z); OAdd (dq [5]%Z); ODrainUnordered 1; OAdd (dq [6]%Z)]) 0
    (fun r _ => map Qcanon.this (cm_vec (snd r)) = [QArith_base.Qmake 11 2] /\ length (cm_cs (snd r)) = 1).
Proof. vm_compute. auto. Qed.

(* ---- C28 ---- *)
(* After the last centroid is drained the vector is NaN, and no cosine search for any vector
   finds it. *)
Theorem C28_last_centroid_refuted : exists ops i o m t r t',
  Forall counts_ok ops /\ run cosE (new_cm (fv [1]%Z) 0) ops 0 = Ok ((i, o, m), t) /\
  cm_nearest cosE m (fv [1]%Z) 1 true t = Ok (r, t') /\ cm_cs (snd r) = [] /\
  forallb is_nan (cm_vec (snd r)) = true /\ length (cm_vec (snd r)) = 1 /\
  forall target k, knn_cos target [cm_vec (snd r)] (Z.pos k) = Ok [].
Proof. exact nearest_nan_refuted. Qed.
Print Assumptions C28_last_centroid_refuted.

Theorem C28_vector_after_nearest_partial : forall (N : Num) (E : Env N), EnvOk E -> ExactNum N ->
  forall n m v k drain t, (0 <= k)%Z -> DimOk n m ->
  (cm_cs m <> [] -> cm_vec m = mean_of n (map c_vec (cm_cs m))) ->
  wp (cm_nearest E m v k drain) t (fun r _ => cm_cs (snd r) <> [] ->
    cm_vec (snd r) = mean_of n (map c_vec (cm_cs (snd r)))).
Proof. exact @nearest_vec. Qed.
Print Assumptions C28_vector_after_nearest_partial.

Example C28_case :
  wp (cm_nearest eucE two (fv [9]%Z) 1 true) 0 (fun r _ => cm_vec (snd r) = fv [2]%Z).
Proof. vm_compute. auto. Qed.

(* ---- C29 ---- *)
Theorem C29_nearest_centroids : forall (N : Num) (E : Env N), EnvOk E -> forall n m v k drain t,
  (0 <= k)%Z -> DimOk n m ->
  wp (cm_nearest E m v k drain) t (fun r _ =>
    exists idx, e_knn E v (map c_vec (cm_cs m)) k = Ok idx /\ NoDup idx /\ (Z.of_nat (length idx) <= k)%Z /\
      match fst r with
      | None => idx = [] /\ snd r = m
      | Some cs => idx <> [] /\ cs = pick idx (cm_cs m) /\
          (drain = false -> snd r = m) /\
          (drain = true -> cm_cs (snd r) = without idx (cm_cs m) /\
             Permutation (cm_cs m) (cm_cs (snd r) ++ cs))
      end).
Proof. exact @nearest_exact. Qed.
Print Assumptions C29_nearest_centroids.

Theorem C29_nearest_centroids_best : forall (E : Env f64), EnvOk E -> forall dist asc n m v k drain t,
  e_knn E = knn_brute dist asc -> (0 <= k)%Z -> DimOk n m ->
  wp (cm_nearest E m v k drain) t (fun r _ =>
    exists idx, BestK dist asc v (map c_vec (cm_cs m)) (Z.to_nat k) idx /\
      match fst r with
      | None => idx = [] /\ snd r = m
      | Some cs => idx <> [] /\ cs = pick idx (cm_cs m) /\
          (drain = false -> snd r = m) /\ (drain = true -> cm_cs (snd r) = without idx (cm_cs m))
      end).
Proof. exact nearest_best. Qed.
Print Assumptions C29_nearest_centroids_best.

Example C29_case : e_knn eucE = knn_brute euclidean_distance true /\
  wp (cm_nearest eucE two (fv [9]%Z) 1 true) 0 (fun r _ =>
    option_map (map showc) (fst r) = Some (map showc [MkC (fv [8]%Z) [dp [8]%Z]]) /\
    map showc (cm_cs (snd r)) = map showc [MkC (fv [2]%Z) [dp [1]%Z; dp [3]%Z]]).
Proof. split; [reflexivity|]. vm_compute. auto. Qed.

(* ---- C30 ---- *)
Theorem C30_lookup : forall (N : Num) (E : Env N), EnvOk E -> forall n m v k drain t,
  (0 <= k)%Z -> DimOk n m ->
  wp (cm_knn_lookup E m v k drain) t (fun r t' =>
    (Z.of_nat (length (fst r)) <= k)%Z /\ Forall (seen_live E t t') (fst r) /\
    (drain = true -> conserves E t t' (stored (cm_cs m)) (stored (cm_cs (snd r)) ++ fst r)) /\
    (drain = false -> conserves E t t' (stored (cm_cs m)) (stored (cm_cs (snd r))) /\
       exists rest, Permutation (stored (cm_cs (snd r))) (fst r ++ rest))).
Proof. exact @lookup_exact. Qed.
Print Assumptions C30_lookup.

Example C30_case :
  wp (cm_knn_lookup eucE two (fv [3]%Z) 2 true) 0 (fun r _ =>
    shows (fst r) = shows [dp [3]%Z; dp [1]%Z] /\ shows (stored (cm_cs (snd r))) = shows [dp [8]%Z]) /\
  wp (cm_knn_lookup eucE two (fv [9]%Z) 2 false) 0 (fun r _ =>
    shows (fst r) = shows [dp [8]%Z; dp [3]%Z] /\
    shows (stored (cm_cs (snd r))) = shows [dp [1]%Z; dp [3]%Z; dp [8]%Z]).
Proof. vm_compute. auto. Qed.

(* ---- C31 ---- *)
Theorem C31_lookup_finds_refuted : exists ops i o m t r t',
  Forall counts_ok ops /\ run eucE (new_cm (fv [0]%Z) 2) ops 0 = Ok ((i, o, m), t) /\
  cm_knn_lookup eucE m (fv [0]%Z) 1 false t = Ok (r, t') /\ fst r = [] /\
  exists d, In d (stored (cm_cs m)) /\ length (dp_vec d) = 1 /\
            forall k, expired_at (e_now eucE k) d = false.
Proof. exact lookup_misses_refuted. Qed.
Print Assumptions C31_lookup_finds_refuted.

Theorem C31_lookup_finds_partial : forall (N : Num) (E : Env N), EnvOk E -> forall n m v k drain t,
  (0 <= k)%Z -> DimOk n m -> never_expired E (stored (cm_cs m)) ->
  ranks_all (e_knn E) v (map c_vec (cm_cs m)) ->
  Forall (fun c => c_dps c <> [] /\ ranks_all (e_knn E) v (map dp_vec (c_dps c))) (cm_cs m) ->
  wp (cm_knn_lookup E m v k drain) t (fun r _ =>
    length (fst r) = min (Z.to_nat k) (length (stored (cm_cs m)))).
Proof. exact @lookup_count. Qed.
Print Assumptions C31_lookup_finds_partial.

Theorem C31_lookup_finds_linear_partial : forall (E : Env f64), EnvOk E -> forall dist asc n m v k drain t,
  e_knn E = knn_brute dist asc -> (0 <= k)%Z -> DimOk n m -> never_expired E (stored (cm_cs m)) ->
  all_rankable dist asc v (map c_vec (cm_cs m)) ->
  Forall (fun c => c_dps c <> [] /\ all_rankable dist asc v (map dp_vec (c_dps c))) (cm_cs m) ->
  wp (cm_knn_lookup E m v k drain) t (fun r _ =>
    length (fst r) = min (Z.to_nat k) (length (stored (cm_cs m)))).
Proof. exact lookup_count_linear. Qed.
Print Assumptions C31_lookup_finds_linear_partial.

Example C31_hypotheses : let v := fv [9]%Z in
  never_expired eucE (stored (cm_cs two)) /\
  all_rankable euclidean_distance true v (map c_vec (cm_cs two)) /\
  Forall (fun c => c_dps c <> [] /\ all_rankable euclidean_distance true v (map dp_vec (c_dps c))) (cm_cs two).
Proof.
  cbv zeta. split.
  { intros k d H. cbn [two cm_cs stored map concat c_dps app In] in H.
    repeat (destruct H as [<-|H]; [reflexivity|]). destruct H. }
  split; [apply all_rankable_check; vm_compute; reflexivity|].
  repeat constructor; try discriminate; apply all_rankable_check; vm_compute; reflexivity.
Qed.
Example C31_case :
  wp (cm_knn_lookup eucE two (fv [9]%Z) 3 false) 0 (fun r _ => length (fst r) = 3).
Proof. vm_compute. auto. Qed.

(* ---- C32 ---- *)
Theorem C32_centroids_stay_small : forall (N : Num) (E : Env N), EnvOk E -> forall v T ds t, (2 <= T)%Z ->
  wp (run E (new_cm v T) (map OAdd ds)) t (fun r _ =>
    Forall (fun c => (Z.of_nat (length (c_dps c)) < T)%Z) (cm_cs (snd r))).
Proof. exact @adds_small. Qed.
Print Assumptions C32_centroids_stay_small.

Theorem C32_no_threshold_no_split : forall (N : Num) (E : Env N), EnvOk E -> forall n m d t,
  (cm_thresh m <= 1)%Z -> DimOk n m -> cm_cs m <> [] ->
  wp (cm_add E m d) t (fun r _ => length (cm_cs (snd r)) = length (cm_cs m)).
Proof. exact @add_never_splits. Qed.
Print Assumptions C32_no_threshold_no_split.

Example C32_case :
  wp (run eucE (new_cm (fv [0]%Z) 3) (map OAdd [dp [1]%Z; dp [2]%Z; dp [3]%Z; dp [4]%Z; dp [5]%Z])) 0 (fun r _ =>
    map (fun c => length (c_dps c)) (cm_cs (snd r)) = [2; 1; 1; 1]) /\
  wp (cm_add eucE four (dp [3]%Z)) 0 (fun r _ => length (cm_cs (snd r)) = 3).
Proof. vm_compute. auto. Qed.

(* ---- C33 ---- *)
Theorem C33_split : forall (N : Num) (E : Env N) n m p t, DimOk n m ->
  wp (cm_split E m p) t (fun m' t' => conserves E t t' (stored (cm_cs m)) (stored (cm_cs m')) /\
    exists cs' new, cm_cs m' = cs' ++ new /\
      Forall2 (fun c c' => p c && (2 <=? length (c_dps c)) = false -> c' = c) (cm_cs m) cs' /\
      length new = length (filter (fun c => p c && (2 <=? length (c_dps c))) (cm_cs m)) /\
      (never_expired E (stored (cm_cs m)) ->
         Forall2 (fun c c' => p c && (2 <=? length (c_dps c)) = true ->
             length (c_dps c') = length (c_dps c) - length (c_dps c) / 2) (cm_cs m) cs' /\
         map (fun c => length (c_dps c)) new =
           map (fun c => length (c_dps c) / 2) (filter (fun c => p c && (2 <=? length (c_dps c))) (cm_cs m)))).
Proof. exact @split_exact. Qed.
Print Assumptions C33_split.

Example C33_case :
  wp (cm_split eucE four (fun _ => true)) 0 (fun m' _ =>
    map (fun c => length (c_dps c)) (cm_cs m') = [2; 1; 0; 2]).
Proof. vm_compute. auto. Qed.

(* ---- C34 ---- *)
Theorem C34_merge_conserves : forall (N : Num) (E : Env N), EnvOk E -> forall n m p t, DimOk n m ->
  wp (cm_merge E m p) t (fun m' t' => conserves E t t' (stored (cm_cs m)) (stored (cm_cs m')) /\
    exists cs1 del, length cs1 = length (cm_cs m) /\ cm_cs m' = without del cs1 /\
      (forall j c, In j del -> nth_error cs1 j = Some c -> c_dps c = [])).
Proof. exact @merge_exact. Qed.
Print Assumptions C34_merge_conserves.

Example C34_case :
  wp (cm_merge eucE four (fun c => length (c_dps c) <? 1)) 0 (fun m' _ =>
    map (fun c => shows (c_dps c)) (cm_cs m') =
      map shows [[dp [1]%Z; dp [3]%Z; dp [2]%Z; dp [2]%Z]; [dp [8]%Z]]).
Proof. vm_compute. auto. Qed.

(* ---- C35 ---- *)
Theorem C35_merge_all : forall (N : Num) (E : Env N), EnvOk E -> forall n m c0 rest t,
  DimOk n m -> cm_cs m = c0 :: rest ->
  (forall idx, e_knn E (c_vec c0) (map c_vec (cm_cs m)) (Z.of_nat (length (cm_cs m))) = Ok idx ->
     length idx = length (cm_cs m)) ->
  wp (cm_merge E m (fun _ => true)) t (fun m' t' =>
    exists c, cm_cs m' = [c] /\ conserves E t t' (stored (cm_cs m)) (c_dps c)).
Proof. exact @merge_all. Qed.
Print Assumptions C35_merge_all.

Example C35_case :
  (forall idx, e_knn eucE (fv [2]%Z) (map c_vec (cm_cs four)) 3%Z = Ok idx -> length idx = 3) /\
  wp (cm_merge eucE four (fun _ => true)) 0 (fun m' _ => map (fun c => length (c_dps c)) (cm_cs m') = [5]).
Proof.
  split; [|vm_compute; auto].
  assert (H : e_knn eucE (fv [2]%Z) (map c_vec (cm_cs four)) 3%Z = Ok [0; 1; 2]) by (vm_compute; reflexivity).
  intros idx. rewrite H. intros [= <-]. reflexivity.
Qed.

(* ---- C36 (managers; see Props04 for servers) ---- *)
Theorem C36_len_dp : forall (N : Num) (m : CM N), cm_len_dp m = length (stored (cm_cs m)).
Proof. exact @len_dp. Qed.
Print Assumptions C36_len_dp.

(* ---- C60 ---- *)
Theorem C60_centroid_vectors_are_means : forall (N : Num) (E : Env N), EnvOk E -> ExactNum N -> forall v T ops t,
  Forall counts_ok ops ->
  Forall (fun o => match o with
    | OMemTrim => False
    | OAttach cs => Forall (fun c => c_dps c <> [] ->
                      c_vec c = mean_of (length (c_vec c)) (map dp_vec (c_dps c))) cs
    | _ => True end) ops ->
  wp (run E (new_cm v T) ops) t (fun r _ =>
    Forall (fun c => c_dps c <> [] -> c_vec c = mean_of (length (c_vec c)) (map dp_vec (c_dps c)))
           (cm_cs (snd r))).
Proof. exact @history_means. Qed.
Print Assumptions C60_centroid_vectors_are_means.

Example C60_case :
  wp (run ratE (new_cm (qv [0]%Z) 3)
        [OAdd (dq [1]%Z); OAdd (dq [5]%Z); OAdd (dq [9]%Z); OKnnLookup (qv [9]%Z) 1 true;
         ODistributeInternal 2; OMerge (fun _ => true)]) 0
    (fun r _ => map (fun c : Centroid qc => map Qcanon.this (c_vec c)) (cm_cs (snd r)) = [[QArith_base.Qmake 3 1]]).
Proof. vm_compute. auto. Qed.
