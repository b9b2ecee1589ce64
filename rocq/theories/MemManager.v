(* Model of pkg/kmeans/centroidmanager/cmanager.go with slices and pointers (Memory.v) in place
   of the lists and values of CManager.v.  A slice of datapoints or of pointers that a method
   returns is a variable: what it shows may depend on when one looks. *)
From Verif Require Import Base Num MathUtils Env Centroid CManager History Memory MemCentroid.

Section MemManager.
Context {N : Num} (E : Env N).
Notation DP := (DataPoint N).
Notation Cen := (Centroid N).

(* cmanager.go:27-50 CentroidManager; the field Centroids is a variable. *)
Record mgr := MkMgr { g_vec : vec N; g_cs : nat; g_thresh : Z; g_cap : nat }.
Definition with_vec (g : mgr) (v : vec N) : mgr := MkMgr v (g_cs g) (g_thresh g) (g_cap g).

(* cmanager.go:85-102 NewCentroidManager. *)
Definition new_mgr_m (init : vec N) (thresh : Z) (cap : nat) : prog N mgr :=
  run u <- ptrs (New cap); Done (MkMgr init u thresh cap).

(* The vector and the datapoints of a centroid, for the predicates of SplitCentroids and
   MergeCentroids. *)
Definition read_m (p : nat) : prog N Cen :=
  run o <- get_obj p; run l <- data (All (snd o)); Done (MkC (fst o) l).

(* cmanager.go:135-139, the lengths that the loop reads; nothing changes meanwhile. *)
Fixpoint lens_m (ps : list nat) : prog N (list nat) :=
  match ps with
  | [] => Done []
  | p :: r => run l <- len_m p; run ls <- lens_m r; Done (l :: ls)
  end.

(* cmanager.go:128-155 centroidDataPointPortions, and the order of the range over the map. *)
Definition portions_m (g : mgr) (n : Z) : prog N (list (nat * nat)) :=
  run ps <- ptrs (All (g_cs g));
  run ls <- lens_m ps;
  run pt <- eff (lift (portions_loop (fold_left Nat.add ls 0) ls (repeat 0 (length ls)) 0 n));
  eff (any_order E (portions_entries pt)).

(* A search over cmanager.go:159-168 centroidVecGenerator. *)
Definition near_m (g : mgr) (v : vec N) (k : Z) : prog N (list nat) :=
  run ps <- ptrs (All (g_cs g));
  run vs <- vecs_m ps;
  eff (lift (e_knn E v vs k)).

(* for i := range dps { q.AddDataPoint(dps[i]) }; j counts what is left of dps, the variable y. *)
Fixpoint add_slice_m (q y i j : nat) : prog N unit :=
  match j with
  | O => Done tt
  | S j' =>
      run d <- data (Get y i);
      run _ <- add_m E q d;
      add_slice_m q y (S i) j'
  end.

(* cmanager.go:173-188 splitCentroid. *)
Definition split_centroid_m (g : mgr) (i : nat) (trim : Z) : prog N (option nat) :=
  run n <- ptrs (Len (g_cs g));
  if (n <=? i) || (trim <=? 0)%Z then Done None
  else
    run p <- ptrs (Get (g_cs g) i);
    run v <- vec_m p;
    run q <- new_centroid_m v (g_cap g);
    run y <- drain_unordered_m E p trim;
    run l <- data (Len y);
    run _ <- add_slice_m q y 0 l;
    Done (Some q).

(* cmanager.go:212-218, for a change of centroid p; old is the copy of lines 210-211. *)
Definition update_m (g : mgr) (old : vec N) (p : nat) : prog N mgr :=
  run v <- vec_m p;
  run n <- ptrs (Len (g_cs g));
  Done (with_vec g (vec_update (g_vec g) n old v)).

(* cmanager.go:234-272 AddDataPoint. *)
Definition mgr_add_m (g : mgr) (d : DP) : prog N (bool * mgr) :=
  run e <- eff (expired E d);
  if e then Done (false, g)
  else
    run n <- ptrs (Len (g_cs g));
    if n =? 0 then
      run p <- new_centroid_m (dp_vec d) (g_cap g);
      run _ <- add_m E p d;
      run _ <- ptrs (App (g_cs g) [p]);
      run v <- vec_m p;
      Done (true, with_vec g v)
    else
      run idx <- near_m g (dp_vec d) 1;
      match idx with
      | [] => Done (false, g)
      | i :: _ =>
          run p <- ptrs (Get (g_cs g) i);
          run old <- vec_m p;
          run ok <- add_m E p d;
          if negb ok then Done (false, g)
          else
            run g1 <- update_m g old p;
            run l <- len_m p;
            if (g_thresh g <=? Z.of_nat l)%Z then
              run o <- split_centroid_m g1 i (Z.quot (g_thresh g) 2);
              match o with
              | None => Done (true, g1)
              | Some q => run _ <- ptrs (App (g_cs g) [q]); Done (true, g1)
              end
            else Done (true, g1)
      end.

(* cmanager.go:281-289 and 304-311; res is the variable y. *)
Fixpoint drain_portions_m (drain : nat -> Z -> prog N nat) (g : mgr) (pt : list (nat * nat)) (y : nat) : prog N mgr :=
  match pt with
  | [] => Done g
  | (i, k) :: pt' =>
      run p <- ptrs (Get (g_cs g) i);
      run old <- vec_m p;
      run z <- drain p (Z.of_nat k);
      run ds <- data (All z);
      run _ <- data (App y ds);
      run g1 <- update_m g old p;
      drain_portions_m drain g1 pt' y
  end.

(* cmanager.go:279-291 DrainUnordered and 302-313 DrainOrdered. *)
Definition mgr_drain_m (drain : nat -> Z -> prog N nat) (g : mgr) (n : Z) : prog N (nat * mgr) :=
  if (n <? 0)%Z then eff panic
  else
    run y <- data (New (Z.to_nat n));
    run pt <- portions_m g n;
    run g1 <- drain_portions_m drain g pt y;
    Done (y, g1).

(* cmanager.go:318-326 Expire. *)
Fixpoint expire_all_m (g : mgr) (ps : list nat) : prog N mgr :=
  match ps with
  | [] => Done g
  | p :: r =>
      run old <- vec_m p;
      run _ <- expire_m E p;
      run g1 <- update_m g old p;
      expire_all_m g1 r
  end.
Definition mgr_expire_m (g : mgr) : prog N mgr := run ps <- ptrs (All (g_cs g)); expire_all_m g ps.

(* cmanager.go:344-366 MemTrim; centroids is the variable u. *)
Fixpoint trim_all_m (g : mgr) (ps : list nat) (u : nat) : prog N mgr :=
  match ps with
  | [] => Done g
  | p :: r =>
      run old <- vec_m p;
      run _ <- mem_trim_m E p;
      run g1 <- update_m g old p;
      run l <- len_m p;
      run _ <- (if negb (l =? 0) then ptrs (App u [p]) else Done tt);
      run n <- ptrs (Len (g_cs g));
      run v <- vec_m p;
      let g2 :=
        if (l =? 1) && (1 <? n) then
          with_vec g1 (vec_div_scalar (or_nil (vec_sub (vec_mul_scalar (g_vec g1) (fofnat n)) v)) (fofnat (n - 1)))
        else g1 in
      trim_all_m g2 r u
  end.
Definition mgr_trim_m (g : mgr) : prog N mgr :=
  run n <- ptrs (Len (g_cs g));
  run u <- ptrs (New n);
  run ps <- ptrs (All (g_cs g));
  run g1 <- trim_all_m g ps u;
  run _ <- ptrs (Move (g_cs g) u);
  Done g1.

(* cmanager.go:372-382 MoveVector. *)
Fixpoint move_all_m (ps : list nat) : prog N unit :=
  match ps with
  | [] => Done tt
  | p :: r => run _ <- move_vector_m E p; move_all_m r
  end.
Definition mgr_move_m (g : mgr) : prog N (bool * mgr) :=
  run ps <- ptrs (All (g_cs g));
  run _ <- move_all_m ps;
  run vs <- vecs_m ps;
  run ' ((v, ok), _) <- eff (vec_mean (S (length vs)) list_gen vs);
  Done (ok, if ok then with_vec g v else g).

(* cmanager.go:397-399. *)
Fixpoint distribute_all_m (g : mgr) (pt : list (nat * nat)) (recv : list nat) : prog N unit :=
  match pt with
  | [] => Done tt
  | (i, k) :: pt' =>
      run p <- ptrs (Get (g_cs g) i);
      run _ <- distribute_m E p (Z.of_nat k) recv;
      distribute_all_m g pt' recv
  end.

(* cmanager.go:392-404 DistributeDataPoints to its own centroids, 409-415
   DistributeDataPointsInternal. *)
Definition mgr_distribute_m (g : mgr) (n : Z) : prog N mgr :=
  run recv <- ptrs (All (g_cs g));
  match recv with
  | [] => Done g
  | _ :: _ =>
      run pt <- portions_m g n;
      run _ <- distribute_all_m g pt recv;
      run ' (_, g1) <- mgr_move_m g;
      Done g1
  end.

(* cmanager.go:436-452: z is what the centroid returned (i elements seen, j left), y is res. *)
Fixpoint lookup_take_m (p z i j y k : nat) (drain : bool) : prog N unit :=
  match j with
  | O => Done tt
  | S j' =>
      run d <- data (Get z i);
      run r <- data (Len y);
      run _ <-
        (if r <? k then data (App y [d])
         else if drain then run _ <- add_m E p d; Done tt
         else Done tt);
      lookup_take_m p z (S i) j' y k drain
  end.

(* cmanager.go:428-455. *)
Fixpoint lookup_all_m (g : mgr) (idx : list nat) (v : vec N) (k : nat) (drain : bool) (y : nat) : prog N mgr :=
  match idx with
  | [] => Done g
  | i :: idx' =>
      run r <- data (Len y);
      if k <=? r then Done g
      else
        run p <- ptrs (Get (g_cs g) i);
        run old <- vec_m p;
        run z <- knn_lookup_m E p v (Z.of_nat (k - r)) drain;
        run l <- data (Len z);
        run _ <- lookup_take_m p z 0 l y k drain;
        run g1 <- update_m g old p;
        lookup_all_m g1 idx' v k drain y
  end.

(* cmanager.go:424-457 KNNLookup. *)
Definition mgr_lookup_m (g : mgr) (v : vec N) (k : Z) (drain : bool) : prog N (nat * mgr) :=
  if (k <? 0)%Z then eff panic
  else
    run y <- data (New (Z.to_nat k));
    run idx <- near_m g v k;
    run g1 <- lookup_all_m g idx v (Z.to_nat k) drain y;
    Done (y, g1).

(* cmanager.go:483-490 and 574-582. *)
Definition delete_m (g : mgr) (j : nat) : prog N mgr :=
  run n <- ptrs (Len (g_cs g));
  run g1 <-
    (if 0 <? n then
       run p <- ptrs (Get (g_cs g) j);
       run v <- vec_m p;
       Done (with_vec g (vec_div_scalar (or_nil (vec_sub (vec_mul_scalar (g_vec g) (fofnat n)) v)) (fofnat (n - 1))))
     else Done g);
  run _ <- ptrs (Del (g_cs g) j);
  Done g1.
Fixpoint delete_all_m (g : mgr) (js : list nat) : prog N mgr :=
  match js with
  | [] => Done g
  | j :: r => run g1 <- delete_m g j; delete_all_m g1 r
  end.

(* cmanager.go:476-478. *)
Fixpoint pick_m (g : mgr) (u : nat) (idx : list nat) : prog N unit :=
  match idx with
  | [] => Done tt
  | i :: r =>
      run p <- ptrs (Get (g_cs g) i);
      run _ <- ptrs (App u [p]);
      pick_m g u r
  end.

(* cmanager.go:468-494 NearestCentroids; a negative n does not get to line 475, because the
   search of line 471 has panicked. *)
Definition mgr_nearest_m (g : mgr) (v : vec N) (n : Z) (drain : bool) : prog N (option nat * mgr) :=
  run idx <- near_m g v n;
  match idx with
  | [] => Done (None, g)
  | _ :: _ =>
      run u <- ptrs (New (Z.to_nat n));
      run _ <- pick_m g u idx;
      run g1 <- (if drain then delete_all_m g (rev (sort_ints idx)) else Done g);
      Done (Some u, g1)
  end.

(* cmanager.go:504-513; newCentroids is the variable u. *)
Fixpoint split_all_m (g : mgr) (c : Cen -> bool) (i : nat) (ps : list nat) (u : nat) : prog N unit :=
  match ps with
  | [] => Done tt
  | p :: r =>
      run x <- read_m p;
      run _ <-
        (if negb (c x) then Done tt
         else
           run l <- len_m p;
           run o <- split_centroid_m g i (Z.of_nat (l / 2));
           match o with
           | None => Done tt
           | Some q => ptrs (App u [q])
           end);
      split_all_m g c (S i) r u
  end.

(* cmanager.go:501-515 SplitCentroids. *)
Definition mgr_split_m (g : mgr) (c : Cen -> bool) : prog N unit :=
  run u <- ptrs (New 10);
  run ps <- ptrs (All (g_cs g));
  run _ <- split_all_m g c 0 ps u;
  run qs <- ptrs (All u);
  ptrs (App (g_cs g) qs).

(* cmanager.go:549-563: merging into the candidate p, at position i. *)
Fixpoint merge_inner_m (g : mgr) (marks : list bool) (i p : nat) (c : Cen -> bool) (idx : list nat) : prog N (list bool) :=
  match idx with
  | [] => Done marks
  | j :: idx' =>
      run mj <- eff (index marks j);
      if (j =? i) || mj then merge_inner_m g marks i p c idx'
      else
        let marks' := list_set marks j true in
        run q <- ptrs (Get (g_cs g) j);
        run l <- len_m q;
        run y <- drain_unordered_m E q (Z.of_nat l);
        run l <- data (Len y);
        run _ <- add_slice_m p y 0 l;
        run x <- read_m p;
        if c x then merge_inner_m g marks' i p c idx' else Done marks'
  end.

(* cmanager.go:536-566. *)
Fixpoint merge_outer_m (g : mgr) (marks : list bool) (c : Cen -> bool) (is : list nat) : prog N (mgr * list bool) :=
  match is with
  | [] => Done (g, marks)
  | i :: r =>
      run p <- ptrs (Get (g_cs g) i);
      run x <- read_m p;
      run mi <- eff (index marks i);
      if negb (c x) || mi then merge_outer_m g marks c r
      else
        run old <- vec_m p;
        run n <- ptrs (Len (g_cs g));
        run idx <- near_m g old (Z.of_nat n);
        run marks' <- merge_inner_m g marks i p c idx;
        run g1 <- update_m g old p;
        merge_outer_m g1 marks' c r
  end.

(* cmanager.go:532-585 MergeCentroids. *)
Definition mgr_merge_m (g : mgr) (c : Cen -> bool) : prog N mgr :=
  run n <- ptrs (Len (g_cs g));
  run ' (g1, marks) <- merge_outer_m g (repeat false n) c (seq 0 n);
  delete_all_m g1 (marked marks).

(* pkg/kmeans/rpc/client.go:182-199 and server.go:383: centroids built from what another node
   sent, appended to the public slice (see History.v). *)
Fixpoint alloc_m (g : mgr) (cs : list Cen) : prog N (list nat) :=
  match cs with
  | [] => Done []
  | c :: r =>
      run x <- data (New (g_cap g));
      run p <- new_obj (c_vec c) x;
      run _ <- data (App x (c_dps c));
      run ps <- alloc_m g r;
      Done (p :: ps)
  end.
Definition mgr_attach_m (g : mgr) (cs : list Cen) : prog N unit :=
  if forallb (dim_ok (length (g_vec g))) cs then
    run ps <- alloc_m g cs; ptrs (App (g_cs g) ps)
  else Done tt.

(* What a call returns: nothing, a boolean, a slice of datapoints, a slice of pointers or nil. *)
Inductive handle := HNone | HBool (b : bool) | HDps (y : nat) | HCens (o : option nat).

(* One call of an exported method. *)
Definition step_m (g : mgr) (o : cmop N) : prog N (handle * mgr) :=
  match o with
  | OAdd d => run ' (b, g') <- mgr_add_m g d; Done (HBool b, g')
  | ODrainUnordered n => run ' (y, g') <- mgr_drain_m (drain_unordered_m E) g n; Done (HDps y, g')
  | ODrainOrdered n => run ' (y, g') <- mgr_drain_m (drain_ordered_m E) g n; Done (HDps y, g')
  | OExpire => run g' <- mgr_expire_m g; Done (HNone, g')
  | OMemTrim => run g' <- mgr_trim_m g; Done (HNone, g')
  | OMoveVector => run ' (b, g') <- mgr_move_m g; Done (HBool b, g')
  | ODistributeInternal n => run g' <- mgr_distribute_m g n; Done (HNone, g')
  | OKnnLookup v k drain => run ' (y, g') <- mgr_lookup_m g v k drain; Done (HDps y, g')
  | ONearest v n drain => run ' (u, g') <- mgr_nearest_m g v n drain; Done (HCens u, g')
  | OSplit p => run _ <- mgr_split_m g p; Done (HNone, g)
  | OMerge p => run g' <- mgr_merge_m g p; Done (HNone, g')
  | OAttach cs => run _ <- mgr_attach_m g cs; Done (HNone, g)
  end.

(* Any sequence of calls, keeping what they returned. *)
Fixpoint calls_m (g : mgr) (ops : list (cmop N)) : prog N (list handle * mgr) :=
  match ops with
  | [] => Done ([], g)
  | o :: r =>
      run ' (x, g1) <- step_m g o;
      run ' (xs, g2) <- calls_m g1 r;
      Done (x :: xs, g2)
  end.
End MemManager.
Arguments mgr N : clear implicits.
