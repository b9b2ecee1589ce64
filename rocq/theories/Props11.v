(* Properties C79-C82: the calls of the client library, what a lookup collects, and what a query
   finds. *)
From Verif Require Import Base Num MathUtils Knn SearchSpec Env Centroid CManager DataSpec MgrSpec Wp NumFacts MathSpec
  TestEnv Proc Owns Server ServerSpec ServerFacts TestWorld Core EventLoop CoreSpec MgrSpec2 LookupProofs ClientSpec ClientProofs
  QuerySpec QueryProofs Props03Lemmas LockCase LinearCase QueryCase.
From Coq Require Import Permutation.
Local Open Scope nat_scope.

(* ---- C79 ---- *)
Theorem C79_calls : forall (N : Num) (E : Env N) a b ns (d : DataPoint N) n v drain addrs lo hi fuel,
  Calls E (c_namespaces E a) a QNamespaces to_names [] /\
  Calls E (c_vec_of E a ns) a (QVec ns) to_vec None /\
  Calls E (c_add_dp E a ns d) a (QAdd ns d) to_bool false /\
  Calls E (c_drain_u E a ns n) a (QDrainUnordered ns n) to_dps [] /\
  Calls E (c_drain_o E a ns n) a (QDrainOrdered ns n) to_dps [] /\
  Calls E (c_expire_of E a ns) a (QExpire ns) to_unit tt /\
  Calls E (c_len_dp E a ns) a (QLenDP ns) to_nat 0 /\
  Calls E (c_mem_trim_of E a ns) a (QMemTrim ns) to_unit tt /\
  Calls E (c_move_vector_of E a ns) a (QMoveVector ns) to_bool false /\
  Calls E (c_distribute_fast E a ns addrs n) a (QDistributeFast ns n addrs) to_unit tt /\
  Calls E (c_distribute_accurate E a ns addrs n) a (QDistributeAccurate ns n addrs) to_unit tt /\
  Calls E (c_distribute_internal E a ns n) a (QDistributeInternal ns n) to_unit tt /\
  ((0 <= n)%Z -> Calls E (c_lookup E a ns v n drain) a (QKnnLookup ns v n drain) to_dps []) /\
  Calls E (c_nearest_vec E a ns v) a (QNearestVec ns v) to_vec None /\
  Calls E (c_split E a ns lo hi) a (QSplit ns lo hi) to_unit tt /\
  Calls E (c_merge E a ns lo hi) a (QMerge ns lo hi) to_unit tt /\
  Calls E (c_steal E fuel a b ns n) a (QSteal fuel b ns n) to_steal (0, false) /\
  Calls E (c_meta E a) a QMeta to_meta [].
Proof. exact @calls. Qed.
Print Assumptions C79_calls.

(* The lookup of a negative number ends in a panic of the caller, before any request. *)
Theorem C79_negative_lookup : forall (N : Num) (E : Env N) a ns v n drain (w : World N) t, (n < 0)%Z ->
  exec (c_lookup E a ns v n drain) w t = Panic.
Proof. exact @negative_lookup. Qed.
Print Assumptions C79_negative_lookup.

(* Of three datapoints two are drained: delivered, with the request lost, with the answer lost. *)
Example C79_case : counted_call Delivered = Ok (2, 1) /\ counted_call ReqLost = Ok (0, 3) /\ counted_call RespLost = Ok (0, 1).
Proof. vm_compute. auto. Qed.

(* ---- C80 ---- *)
Theorem C80_lookup : forall (N : Num) (E : Env N), EnvOk E -> forall n (m : CM N) v k drain t,
  (0 <= k)%Z -> DimOk n m ->
  wp (cm_knn_lookup E m v k drain) t (fun r _ => exists idx, e_knn E v (map c_vec (cm_cs m)) k = Ok idx /\
    Collected E v drain idx (Z.to_nat k) t (map c_dps (cm_cs m)) (fst r) (map c_dps (cm_cs (snd r)))).
Proof. exact @lookup_collects. Qed.
Print Assumptions C80_lookup.

(* Two centroids with three datapoints each; four are taken: all of the second centroid, the
   best one of the first. *)
Example C80_case : mgr_dim 2 (the_cm threes) = true /\
  map (fun c => vecs (c_dps c)) (cm_cs (the_cm threes)) =
    [[fv [8;1]; fv [1;9]; fv [1;5]]; [fv [9;1]; fv [1;7]; fv [7;1]]]%Z /\
  wp (cm_knn_lookup cosE (the_cm threes) (fv [8;1]%Z) 4 true) 0 (fun r _ =>
    vecs (fst r) = map fv [[9;1]; [7;1]; [1;7]; [8;1]]%Z /\ map (fun c => length (c_dps c)) (cm_cs (snd r)) = [2; 0]).
Proof. vm_compute. auto. Qed.

(* ---- C81 ---- *)
Theorem C81_query_all : forall (N : Num) (E : Env N), EnvOk E -> NumOrd N -> forall D addrs (o : query_opts N) (w : World N) t,
  all_delivered E -> WorldOk w -> DimsOk D w -> NoDup addrs -> sees_all E w addrs o ->
  wp (exec (query_http E addrs (Some o)) w) t (fun r _ => exists found,
    fst (fst r) = Http 200 (Some (of_dps found)) /\ Permutation found (data_on w addrs (qo_ns o))).
Proof. exact @query_all. Qed.
Print Assumptions C81_query_all.

Theorem C81_put_then_query : forall (N : Num) (E : Env N), EnvOk E -> NumOrd N -> forall D addrs (o : put_opts N) (w : World N) t,
  all_delivered E -> WorldOk w -> DimsOk D w -> NoDup addrs ->
  D (po_ns o) (length (wi_vec (po_dp o))) -> (exists a, In a addrs /\ node_at w a <> None) ->
  never_expired E [to_dp (po_dp o)] -> takers E w addrs (po_ns o) (to_dp (po_dp o)) ->
  wp (exec (put_http E addrs (Some o)) w) t (fun r t1 => fst r = Http 200 None /\
    forall o', qo_ns o' = po_ns o -> sees_all E (snd r) addrs o' ->
      wp (exec (query_http E addrs (Some o')) (snd r)) t1 (fun r' _ => exists found,
        fst (fst r') = Http 200 (Some found) /\ In (po_dp o) found)).
Proof. exact @put_then_query. Qed.
Print Assumptions C81_put_then_query.

(* Two nodes with three and two datapoints, and an address where there is none. *)
Example C81_case : WorldOk five /\ DimsOk (dims_are dim2) five /\ NoDup everywhere /\
  sees_all cosE five everywhere (wanted 5 true) /\
  wp (exec (query_http cosE everywhere (Some (wanted 5 true))) five) 0 (fun r _ =>
    body (fst (fst r)) = Some (map fv [[1;7]; [1;9]; [7;2]; [8;1]; [9;1]]%Z)).
Proof.
  splits; [apply world_check; vm_compute; reflexivity|apply dims_check; vm_compute; reflexivity|
    apply distinct_nodup; vm_compute; reflexivity|apply sees_check; vm_compute; reflexivity|vm_compute; reflexivity].
Qed.

(* A datapoint is put, then everything is queried. *)
Example C81_put_case : takers cosE five everywhere ns2 (to_dp (po_dp newcomer)) /\ never_expired cosE [to_dp (po_dp newcomer)] /\
  dims_are dim2 (po_ns newcomer) (length (wi_vec (po_dp newcomer))) /\
  wp (exec (put_http cosE everywhere (Some newcomer)) five) 0 (fun r _ => status (fst r) = Some 200%Z) /\
  sees_all cosE joined everywhere (wanted 6 false) /\
  wp (exec (query_http cosE everywhere (Some (wanted 6 false))) joined) 0 (fun r _ =>
    body (fst (fst r)) = Some (map fv [[1;7]; [1;9]; [4;4]; [7;2]; [8;1]; [9;1]]%Z)).
Proof.
  splits; [apply takers_check; vm_compute; reflexivity|apply lasting_ok; vm_compute; reflexivity|reflexivity|
    vm_compute; reflexivity|apply sees_check; vm_compute; reflexivity|vm_compute; reflexivity].
Qed.

(* ---- C82 ---- *)
(* A query for n datapoints returns the n whose vectors are nearest to the query vector: it looks
   into the nearest centroid first, and what it finds there is not always nearest. *)
Theorem C82_nearest_refuted : exists (E : Env f64) (w : World f64) a (o : query_opts f64) (d d' : DataPoint f64) s s',
  EnvOk E /\ all_delivered E /\ WorldOk w /\ DimsOk (dims_are dim2) w /\ qo_n o = 1%Z /\
  In d (data_on w [a] (qo_ns o)) /\
  wp (exec (query_http E [a] (Some o)) w) 0 (fun r _ => body (fst (fst r)) = Some [dp_vec d']) /\
  cosine_similarity (qo_vec o) (dp_vec d) = Some s /\ cosine_similarity (qo_vec o) (dp_vec d') = Some s' /\
  better false s s' = true.
Proof. exact not_nearest. Qed.
Print Assumptions C82_nearest_refuted.

(* What holds: when the node has one centroid. *)
Theorem C82_one_centroid_partial : forall (N : Num) (E : Env N), EnvOk E -> NumOrd N -> forall D dist asc a (m : CM N) c (o : query_opts N) (w : World N) t,
  e_knn E = knn_brute dist asc -> all_delivered E -> WorldOk w -> DimsOk D w -> (0 <= qo_n o)%Z ->
  manager w a (qo_ns o) = Some m -> cm_cs m = [c] -> never_expired E (c_dps c) ->
  ranked_node E w (qo_accurate o) (qo_ns o) (qo_vec o) a ->
  all_rankable dist asc (qo_vec o) [c_vec c] ->
  (forall a, Forall carries (data_at w a (qo_ns o))) ->
  wp (exec (query_http E [a] (Some o)) w) t (fun r _ => exists idx,
    BestK dist asc (qo_vec o) (map dp_vec (c_dps c)) (Z.to_nat (qo_n o)) idx /\
    fst (fst r) = Http 200 (Some (of_dps (pick idx (c_dps c))))).
Proof. exact @query_one_centroid. Qed.
Print Assumptions C82_one_centroid_partial.

(* Two of three datapoints; and the hypotheses of the theorem. *)
Example C82_case : WorldOk single /\ DimsOk (dims_are dim2) single /\
  manager single nA ns2 = Some (the_cm single) /\ cm_cs (the_cm single) = [the_c single] /\
  sees_all cosE single [nA] (wanted 3 false) /\
  all_rankable cosine_similarity false (fv [3;4]%Z) [c_vec (the_c single)] /\
  wp (exec (query_http cosE [nA] (Some (wanted 2 false))) single) 0 (fun r _ =>
    body (fst (fst r)) = Some (map fv [[3;5]; [1;9]]%Z)).
Proof.
  splits; [apply world_check; vm_compute; reflexivity|apply dims_check; vm_compute; reflexivity|
    apply single_check; vm_compute; reflexivity|apply single_check; vm_compute; reflexivity|
    apply sees_check; vm_compute; reflexivity|apply all_rankable_check; vm_compute; reflexivity|vm_compute; reflexivity].
Qed.
