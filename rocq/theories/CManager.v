(* Model of pkg/kmeans/centroidmanager/cmanager.go.
   Methods that mutate the receiver return the new manager. *)
From Verif Require Import Base Num MathUtils Env Centroid.

Section CManager.
Context {N : Num} (E : Env N).

Notation DP := (DataPoint N).
Notation Cen := (Centroid N).

(* cmanager.go:27-50 CentroidManager; initCap (slice capacity) is not modelled, the search
   functions are in the environment. *)
Record CM := MkCM {
  cm_vec : vec N;
  cm_cs : list Cen;
  cm_thresh : Z               (* centroidDPThreshold *)
}.

(* cmanager.go:85-102 NewCentroidManager (for non-nil search functions). *)
Definition new_cm (init : vec N) (thresh : Z) : CM := MkCM init [] thresh.

(* cmanager.go:135-147, one pass of the inner loop of centroidDataPointPortions.
   [lens] are the centroids' LenDP, [ps] the portions so far (0 = absent map key).
   The flag says whether line 145 returned. *)
Fixpoint portions_pass (lens ps : list nat) (assigned : nat) (n : Z)
  : list nat * nat * bool :=
  match lens, ps with
  | l :: lens', v :: ps' =>
      let '(v', assigned') := if v + 1 <=? l then (v + 1, assigned + 1) else (v, assigned) in
      if (n <=? Z.of_nat assigned')%Z then (v' :: ps', assigned', true)
      else
        let '(r, a, done) := portions_pass lens' ps' assigned' n in
        (v' :: r, a, done)
  | _, _ => (ps, assigned, false)
  end.

(* cmanager.go:132-152, the outer loop. *)
Fixpoint portions_loop (fuel : nat) (lens ps : list nat) (assigned : nat) (n : Z)
  : outcome (list nat) :=
  let '(ps', assigned', done) := portions_pass lens ps assigned n in
  if done then Ok ps'
  else if assigned =? assigned' then Ok ps'
  else
    match fuel with
    | O => OutOfFuel
    | S fuel' => portions_loop fuel' lens ps' assigned' n
    end.

(* The key/value pairs of the map: the positions with a non-zero portion. *)
Definition portions_entries (ps : list nat) : list (nat * nat) :=
  filter (fun p => negb (snd p =? 0)) (combine (seq 0 (length ps)) ps).

(* cmanager.go:331-337 LenDP. *)
Definition cm_len_dp (m : CM) : nat := fold_left (fun r c => r + c_len c) (cm_cs m) 0.

(* cmanager.go:128-155 centroidDataPointPortions, together with the range over the
   returned map (lines 281, 304, 397), whose order is arbitrary. *)
Definition cm_portions (m : CM) (n : Z) : M (list (nat * nat)) :=
  do ps <- lift (portions_loop (cm_len_dp m) (map (fun c => c_len c) (cm_cs m))
                   (repeat 0 (length (cm_cs m))) 0 n);
  any_order E (portions_entries ps).

(* cmanager.go:159-168 centroidVecGenerator. *)
Definition cm_vecs (m : CM) : list (vec N) := map c_vec (cm_cs m).

(* cmanager.go:184-186, filling the new centroid in splitCentroid. *)
Fixpoint add_all (c : Cen) (ds : list DP) : M Cen :=
  match ds with
  | [] => ret c
  | d :: r => do ' (_, c') <- c_add E c d; add_all c' r
  end.

(* cmanager.go:173-188 splitCentroid: returns the changed old centroid and the new one;
   None models (nil, false). *)
Definition split_centroid (m : CM) (i : nat) (trim : Z) : M (option (Cen * Cen)) :=
  if (trim <=? 0)%Z then ret None
  else
    match nth_error (cm_cs m) i with
    | None => ret None
    | Some old =>
        let fresh := new_centroid (c_vec old) in
        do ' (ds, old') <- c_drain_unordered E old trim;
        do fresh' <- add_all fresh ds;
        ret (Some (old', fresh'))
    end.

(* cmanager.go:209-219 prepVecUpdate, both stages: [old] was captured before the change,
   [new] is the vector after it; cm.Centroids has the same length at both moments. *)
Definition vec_update (v : vec N) (len : nat) (old new : vec N) : vec N :=
  let l := fofnat len in
  let v1 := vec_mul_scalar v l in
  let v2 := or_nil (vec_sub v1 old) in
  let v3 := or_nil (vec_add v2 new) in
  vec_div_scalar v3 l.

Definition set_centroid (m : CM) (i : nat) (c : Cen) : CM :=
  MkCM (cm_vec m) (list_set (cm_cs m) i c) (cm_thresh m).
Definition set_vec (m : CM) (v : vec N) : CM := MkCM v (cm_cs m) (cm_thresh m).

(* Replace centroid i by c and run the prepared update. *)
Definition update_centroid (m : CM) (i : nat) (old new : Cen) : CM :=
  MkCM (vec_update (cm_vec m) (length (cm_cs m)) (c_vec old) (c_vec new))
       (list_set (cm_cs m) i new) (cm_thresh m).

(* cmanager.go:234-272 AddDataPoint. *)
Definition cm_add (m : CM) (d : DP) : M (bool * CM) :=
  do e <- expired E d;
  if e then ret (false, m)
  else
    match cm_cs m with
    | [] =>
        do ' (_, c) <- c_add E (new_centroid (dp_vec d)) d;
        ret (true, MkCM (c_vec c) [c] (cm_thresh m))
    | _ :: _ =>
        do idx <- lift (e_knn E (dp_vec d) (cm_vecs m) 1%Z);
        match idx with
        | [] => ret (false, m)
        | i :: _ =>
            do c <- index (cm_cs m) i;
            do ' (ok, c') <- c_add E c d;
            if negb ok then ret (false, m)
            else
              let m1 := update_centroid m i c c' in
              if (cm_thresh m <=? Z.of_nat (c_len c'))%Z then
                do o <- split_centroid m1 i (Z.quot (cm_thresh m) 2);
                match o with
                | None => ret (true, m1)
                | Some (old', fresh) =>
                    let m2 := set_centroid m1 i old' in
                    ret (true, MkCM (cm_vec m2) (cm_cs m2 ++ [fresh]) (cm_thresh m2))
                end
              else ret (true, m1)
        end
    end.

(* cmanager.go:281-289 and 304-311: drain every centroid of the map by its portion. *)
Fixpoint drain_portions (drain : Cen -> Z -> M (list DP * Cen)) (m : CM)
  (ps : list (nat * nat)) (res : list DP) : M (list DP * CM) :=
  match ps with
  | [] => ret (res, m)
  | (i, p) :: ps' =>
      do c <- index (cm_cs m) i;
      do ' (r, c') <- drain c (Z.of_nat p);
      drain_portions drain (update_centroid m i c c') ps' (res ++ r)
  end.

(* cmanager.go:279-291 DrainUnordered. *)
Definition cm_drain_unordered (m : CM) (n : Z) : M (list DP * CM) :=
  if (n <? 0)%Z then panic
  else do ps <- cm_portions m n; drain_portions (c_drain_unordered E) m ps [].

(* cmanager.go:302-313 DrainOrdered. *)
Definition cm_drain_ordered (m : CM) (n : Z) : M (list DP * CM) :=
  if (n <? 0)%Z then panic
  else do ps <- cm_portions m n; drain_portions (c_drain_ordered E) m ps [].

(* cmanager.go:318-326 Expire; i runs over the positions of cm.Centroids. *)
Fixpoint cm_expire_loop (m : CM) (is : list nat) : M CM :=
  match is with
  | [] => ret m
  | i :: r =>
      do c <- index (cm_cs m) i;
      do c' <- c_expire E c;
      cm_expire_loop (update_centroid m i c c') r
  end.
Definition cm_expire (m : CM) : M CM := cm_expire_loop m (seq 0 (length (cm_cs m))).

(* cmanager.go:344-366 MemTrim: [kept] is the new slice built by the loop. *)
Fixpoint cm_mem_trim_loop (m : CM) (is : list nat) (kept : list Cen) : M (CM * list Cen) :=
  match is with
  | [] => ret (m, kept)
  | i :: r =>
      do c <- index (cm_cs m) i;
      do c' <- c_mem_trim E c;
      let m1 := update_centroid m i c c' in
      let kept' := if negb (c_len c' =? 0) then kept ++ [c'] else kept in
      let n := length (cm_cs m1) in
      let m2 :=
        if (c_len c' =? 1) && (1 <? n) then
          set_vec m1
            (vec_div_scalar
               (or_nil (vec_sub (vec_mul_scalar (cm_vec m1) (fofnat n)) (c_vec c')))
               (fofnat (n - 1)))
        else m1 in
      cm_mem_trim_loop m2 r kept'
  end.
Definition cm_mem_trim (m : CM) : M CM :=
  do ' (m', kept) <- cm_mem_trim_loop m (seq 0 (length (cm_cs m))) [];
  ret (MkCM (cm_vec m') kept (cm_thresh m')).

(* cmanager.go:372-382 MoveVector. *)
Fixpoint move_all (cs : list Cen) : M (list Cen) :=
  match cs with
  | [] => ret []
  | c :: r => do ' (_, c') <- c_move_vector E c; do r' <- move_all r; ret (c' :: r')
  end.
Definition cm_move_vector (m : CM) : M (bool * CM) :=
  do cs <- move_all (cm_cs m);
  do ' ((v, ok), _) <- vec_mean (S (length cs)) list_gen (map c_vec cs);
  ret (ok, MkCM (if ok then v else cm_vec m) cs (cm_thresh m)).

(* cmanager.go:397-399, distribution over a pool that holds the manager's centroids
   followed by external receivers. *)
Fixpoint cm_distribute_loop (pool : list Cen) (ps : list (nat * nat)) (recv : list nat)
  : M (list Cen) :=
  match ps with
  | [] => ret pool
  | (i, p) :: ps' =>
      do pool' <- c_distribute E pool i (Z.of_nat p) recv;
      cm_distribute_loop pool' ps' recv
  end.

(* cmanager.go:392-404 DistributeDataPoints; [ext] are centroids outside the manager,
   [recv] the receivers as positions in (cm.Centroids ++ ext).  The manager's centroids are
   the first ones of the pool afterwards. *)
Definition cm_distribute (m : CM) (ext : list Cen) (n : Z) (recv : list nat)
  : M (CM * list Cen) :=
  match recv with
  | [] => ret (m, ext)
  | _ :: _ =>
      do ps <- cm_portions m n;
      do pool <- cm_distribute_loop (cm_cs m ++ ext) ps recv;
      let k := length (cm_cs m) in
      do ' (_, m') <- cm_move_vector (MkCM (cm_vec m) (firstn k pool) (cm_thresh m));
      ret (m', skipn k pool)
  end.

(* cmanager.go:409-415 DistributeDataPointsInternal. *)
Definition cm_distribute_internal (m : CM) (n : Z) : M CM :=
  do ' (m', _) <- cm_distribute m [] n (seq 0 (length (cm_cs m)));
  ret m'.

(* cmanager.go:436-452, the inner loop of KNNLookup. *)
Fixpoint lookup_take (c : Cen) (ds res : list DP) (k : nat) (drain : bool)
  : M (list DP * Cen) :=
  match ds with
  | [] => ret (res, c)
  | d :: r =>
      if length res <? k then lookup_take c r (res ++ [d]) k drain
      else if drain then
        do ' (_, c') <- c_add E c d;
        lookup_take c' r res k drain
      else lookup_take c r res k drain     (* break leaves only the switch *)
  end.

(* cmanager.go:428-455, the outer loop of KNNLookup. *)
Fixpoint lookup_loop (m : CM) (idx : list nat) (v : vec N) (k : nat) (drain : bool)
  (res : list DP) : M (list DP * CM) :=
  match idx with
  | [] => ret (res, m)
  | i :: idx' =>
      if k <=? length res then ret (res, m)
      else
        do c <- index (cm_cs m) i;
        do ' (ds, c1) <- c_knn_lookup E c v (Z.of_nat (k - length res)) drain;
        do ' (res', c2) <- lookup_take c1 ds res k drain;
        lookup_loop (update_centroid m i c c2) idx' v k drain res'
  end.

(* cmanager.go:424-457 KNNLookup. *)
Definition cm_knn_lookup (m : CM) (v : vec N) (k : Z) (drain : bool) : M (list DP * CM) :=
  if (k <? 0)%Z then panic
  else
    do idx <- lift (e_knn E v (cm_vecs m) k);
    lookup_loop m idx v (Z.to_nat k) drain [].

(* Deleting centroid j with the vector adjustment of cmanager.go:483-490 and 574-582. *)
Definition delete_centroid (m : CM) (j : nat) : M CM :=
  do c <- index (cm_cs m) j;
  let n := length (cm_cs m) in
  let v :=
    if 0 <? n then
      vec_div_scalar (or_nil (vec_sub (vec_mul_scalar (cm_vec m) (fofnat n)) (c_vec c)))
                     (fofnat (n - 1))
    else cm_vec m in
  ret (MkCM v (remove_at j (cm_cs m)) (cm_thresh m)).

Fixpoint delete_all (m : CM) (js : list nat) : M CM :=
  match js with
  | [] => ret m
  | j :: r => do m' <- delete_centroid m j; delete_all m' r
  end.

(* cmanager.go:468-494 NearestCentroids; None models (nil, false).  The Go code returns
   pointers; when drain=false they stay shared with the manager. *)
Definition cm_nearest (m : CM) (v : vec N) (n : Z) (drain : bool)
  : M (option (list Cen) * CM) :=
  do idx <- lift (e_knn E v (cm_vecs m) n);
  match idx with
  | [] => ret (None, m)
  | _ :: _ =>
      do cs <- index_all (cm_cs m) idx;
      if drain then
        do m' <- delete_all m (rev (sort_ints idx));
        ret (Some cs, m')
      else ret (Some cs, m)
  end.

(* cmanager.go:504-513, the loop of SplitCentroids (is = positions still to visit). *)
Fixpoint split_loop (m : CM) (p : Cen -> bool) (is : list nat) (fresh : list Cen)
  : M (CM * list Cen) :=
  match is with
  | [] => ret (m, fresh)
  | i :: r =>
      do c <- index (cm_cs m) i;
      if negb (p c) then split_loop m p r fresh
      else
        do o <- split_centroid m i (Z.of_nat (c_len c / 2));
        match o with
        | None => split_loop m p r fresh
        | Some (old', new) => split_loop (set_centroid m i old') p r (fresh ++ [new])
        end
  end.

(* cmanager.go:501-515 SplitCentroids; the predicate is assumed pure. *)
Definition cm_split (m : CM) (p : Cen -> bool) : M CM :=
  do ' (m', fresh) <- split_loop m p (seq 0 (length (cm_cs m))) [];
  ret (MkCM (cm_vec m') (cm_cs m' ++ fresh) (cm_thresh m')).

(* cmanager.go:549-563, merging the centroids named by [idx] into candidate i;
   [marks] is delMarks as a list of booleans. *)
Fixpoint merge_inner (cs : list Cen) (marks : list bool) (i : nat) (p : Cen -> bool)
  (idx : list nat) : M (list Cen * list bool) :=
  match idx with
  | [] => ret (cs, marks)
  | j :: idx' =>
      do mj <- index marks j;
      if (j =? i) || mj then merge_inner cs marks i p idx'
      else
        let marks' := list_set marks j true in
        do other <- index cs j;
        do ' (ds, other') <- c_drain_unordered E other (Z.of_nat (c_len other));
        let cs1 := list_set cs j other' in
        do cand <- index cs1 i;
        do cand' <- add_all cand ds;
        let cs2 := list_set cs1 i cand' in
        if p cand' then merge_inner cs2 marks' i p idx'
        else ret (cs2, marks')
  end.

(* cmanager.go:536-566, the loop over the candidates. *)
Fixpoint merge_outer (m : CM) (marks : list bool) (p : Cen -> bool) (is : list nat)
  : M (CM * list bool) :=
  match is with
  | [] => ret (m, marks)
  | i :: r =>
      do cand <- index (cm_cs m) i;
      do mi <- index marks i;
      if negb (p cand) || mi then merge_outer m marks p r
      else
        do idx <- lift (e_knn E (c_vec cand) (cm_vecs m) (Z.of_nat (length (cm_cs m))));
        do ' (cs', marks') <- merge_inner (cm_cs m) marks i p idx;
        do cand' <- index cs' i;
        let v := vec_update (cm_vec m) (length cs') (c_vec cand) (c_vec cand') in
        merge_outer (MkCM v cs' (cm_thresh m)) marks' p r
  end.

(* cmanager.go:570-584: the marked positions, from the last to the first. *)
Definition marked (marks : list bool) : list nat :=
  filter (fun i => nth i marks false) (rev (seq 0 (length marks))).

(* cmanager.go:532-585 MergeCentroids; the predicate is assumed pure. *)
Definition cm_merge (m : CM) (p : Cen -> bool) : M CM :=
  do ' (m', marks) <- merge_outer m (repeat false (length (cm_cs m))) p
                        (seq 0 (length (cm_cs m)));
  delete_all m' (marked marks).

End CManager.
Arguments CM N : clear implicits.
Arguments MkCM {N}.
