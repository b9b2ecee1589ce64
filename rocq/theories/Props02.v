(* Properties C09-C20: a single centroid. *)
From Coq Require Import QArith Qabs SpecFloat.
From Verif Require Import Base Num MathUtils Knn Env Centroid CHistory SearchSpec DataSpec Wp NumFacts Exact
  MathSpec TestEnv Props02Lemmas FloatSpec FloatMean.
Local Open Scope nat_scope.

(* ---- C09 ---- *)
Theorem C09_add_accepts_iff : forall (N : Num) (E : Env N) c d t,
  wp (c_add E c d) t (fun r t' =>
    (fst r = true <-> length (dp_vec d) = length (c_vec c) /\ expired_at (e_now E t) d = false) /\
    (fst r = true -> c_dps (snd r) = c_dps c ++ [d]) /\
    (fst r = false -> snd r = c)).
Proof. exact @c_add_iff. Qed.
Print Assumptions C09_add_accepts_iff.

Definition c09_c : Centroid f64 := MkC (fv [1;2]%Z) [dp [1;2]%Z].
Example C09_case :
  wp (c_add clockE c09_c (dp [3;4]%Z)) 5 (fun r _ => fst r = true /\
    showc (snd r) = showc (MkC (fv [2;3]%Z) [dp [1;2]%Z; dp [3;4]%Z])) /\
  wp (c_add clockE c09_c (dpx [3;4]%Z 4)) 5 (fun r _ => fst r = false /\ showc (snd r) = showc c09_c) /\
  wp (c_add clockE c09_c (dp [3]%Z)) 5 (fun r _ => fst r = false /\ showc (snd r) = showc c09_c).
Proof. vm_compute. auto. Qed.

(* ---- C10 ---- *)
Theorem C10_operation_conserves : forall (N : Num) (E : Env N), EnvOk E -> forall c o t,
  dims c -> ccounts_ok o ->
  wp (cstep E c o) t (fun r t' => dims (r_cen r) /\ length (c_vec (r_cen r)) = length (c_vec c) /\
    conserves E t t' (c_dps c ++ r_in r) (c_dps (r_cen r) ++ r_out r)).
Proof. exact @centroid_conserves. Qed.
Print Assumptions C10_operation_conserves.

Theorem C10_history_conserves : forall (N : Num) (E : Env N), EnvOk E -> forall v ops t,
  Forall ccounts_ok ops ->
  wp (crun E (new_centroid v) ops) t (fun r t' =>
    dims (r_cen r) /\ conserves E t t' (r_in r) (c_dps (r_cen r) ++ r_out r)).
Proof. exact @centroid_history_conserves. Qed.
Print Assumptions C10_history_conserves.

Definition c10_ops : list (cenop f64) :=
  [CAdd (dp [1]%Z); CAdd (dpx [5]%Z 3); CAdd (dp [9]%Z); CAdd (dp [2;2]%Z);
   CKnnLookup (fv [0]%Z) 1 true; CMemTrim; CMoveVector; CDrainOrdered 0; CExpire].
Example C10_case : EnvOk clockE /\ Forall ccounts_ok c10_ops /\
  wp (crun clockE (new_centroid (fv [0]%Z)) c10_ops) 0 (fun r _ =>
    shows (r_in r) = shows [dp [1]%Z; dpx [5]%Z 3; dp [9]%Z] /\ shows (r_out r) = shows [dp [1]%Z] /\
    shows (c_dps (r_cen r)) = shows [dp [9]%Z]).
Proof.
  split; [exact clockE_ok|]. split; [|vm_compute; auto].
  unfold c10_ops. repeat constructor; cbn [ccounts_ok]; lia.
Qed.

(* ---- C11 ---- *)
Theorem C11_returned_unexpired : forall (N : Num) (E : Env N), EnvOk E -> forall c o t,
  dims c -> ccounts_ok o ->
  wp (cstep E c o) t (fun r t' => Forall (seen_live E t t') (r_ret r)).
Proof. exact @centroid_returns_live. Qed.
Print Assumptions C11_returned_unexpired.

Theorem C11_history_returned_unexpired : forall (N : Num) (E : Env N), EnvOk E -> forall v ops t,
  Forall ccounts_ok ops ->
  wp (crun E (new_centroid v) ops) t (fun r t' => Forall (seen_live E t t') (r_ret r)).
Proof. exact @centroid_history_returns_live. Qed.
Print Assumptions C11_history_returned_unexpired.

Example C11_case :
  wp (cstep clockE (MkC (fv [2]%Z) [dpx [1]%Z 3; dp [3]%Z]) (CDrainUnordered 2)) 7 (fun r _ =>
    shows (r_ret r) = shows [dp [3]%Z]) /\
  wp (cstep clockE (MkC (fv [2]%Z) [dpx [1]%Z 3; dp [3]%Z]) (CDrainUnordered 2)) 2 (fun r _ =>
    shows (r_ret r) = shows [dpx [1]%Z 3; dp [3]%Z]).
Proof. vm_compute. auto. Qed.

(* ---- C12 ---- *)
(* In exact arithmetic. CMemTrim is the exception, see C13. *)
Theorem C12_vector_is_mean : forall (N : Num) (E : Env N), EnvOk E -> ExactNum N -> forall v ops t,
  Forall ccounts_ok ops -> ~ In CMemTrim ops ->
  wp (crun E (new_centroid v) ops) t (fun r _ =>
    c_dps (r_cen r) <> [] ->
    c_vec (r_cen r) = mean_of (length v) (map dp_vec (c_dps (r_cen r)))).
Proof. exact @centroid_mean. Qed.
Print Assumptions C12_vector_is_mean.

Definition c12_ops : list (cenop qc) :=
  [CAdd (dq [1]%Z); CAdd (dq [5]%Z); CAdd (dq [9]%Z); CDrainUnordered 1; CMoveVector].
Example C12_case : EnvOk ratE /\ ExactNum qc /\ Forall ccounts_ok c12_ops /\ ~ In CMemTrim c12_ops /\
  wp (crun ratE (new_centroid (qv [0]%Z)) c12_ops) 0 (fun r _ =>
    map Qcanon.this (c_vec (r_cen r)) = map Qcanon.this (qv [7]%Z) /\ length (c_dps (r_cen r)) = 2).
Proof.
  split; [exact ratE_ok|]. split; [exact qc_exact|]. split; [|split].
  - unfold c12_ops. repeat constructor; cbn [ccounts_ok]; lia.
  - unfold c12_ops. intros H. repeat (destruct H as [H|H]; [discriminate H|]). destruct H.
  - vm_compute. auto.
Qed.

(* ---- C13 ---- *)
(* Full statement: memory trimming leaves the vector the mean of the stored datapoints. *)
Theorem C13_mem_trim_mean_refuted : exists (c c' : Centroid qc) t',
  dims c /\ c_vec c = mean_of 1 (map dp_vec (c_dps c)) /\
  c_mem_trim ratE c 0 = Ok (c', t') /\ c_dps c' = c_dps c /\
  c_vec c' <> mean_of 1 (map dp_vec (c_dps c')).
Proof. exact mem_trim_refuted. Qed.
Print Assumptions C13_mem_trim_mean_refuted.

(* What holds: the stored data are the survivors of expiry, and the vector becomes that of
   the datapoint stored last, expired or not. *)
Theorem C13_mem_trim_vector_partial : forall (N : Num) (E : Env N), ExactNum N -> forall c l d t,
  dims c -> c_dps c = l ++ [d] ->
  c_vec c = mean_of (length (c_vec c)) (map dp_vec (c_dps c)) ->
  wp (c_mem_trim E c) t (fun c' t' => c_vec c' = dp_vec d /\ c_dps c' = live_from E t (c_dps c)).
Proof. exact @mem_trim_vec. Qed.
Print Assumptions C13_mem_trim_vector_partial.

Theorem C13_mem_trim_data_partial : forall (N : Num) (E : Env N) c t, dims c ->
  wp (c_mem_trim E c) t (fun c' t' =>
    c_dps c' = live_from E t (c_dps c) /\ length (c_vec c') = length (c_vec c)).
Proof. exact @mem_trim_data. Qed.
Print Assumptions C13_mem_trim_data_partial.

Example C13_case :
  wp (c_mem_trim clockE (MkC (fv [4]%Z) [dp [1]%Z; dpx [4]%Z 3; dp [7]%Z])) 4 (fun c' _ =>
    showc c' = showc (MkC (fv [7]%Z) [dp [1]%Z; dp [7]%Z])).
Proof. vm_compute. reflexivity. Qed.

(* ---- C14 ---- *)
Theorem C14_move_vector_repairs : forall (N : Num) (E : Env N) n, ExactNum N -> forall c t,
  Forall (fun d => length (dp_vec d) = n) (c_dps c) ->
  wp (c_move_vector E c) t (fun r t' =>
    let l := live_from E t (c_dps c) in
    c_dps (snd r) = l /\
    (l <> [] -> fst r = true /\ c_vec (snd r) = mean_of n (map dp_vec l)) /\
    (l = [] -> fst r = false)).
Proof. exact @move_vector_repairs. Qed.
Print Assumptions C14_move_vector_repairs.

Example C14_case :
  wp (c_move_vector clockE (MkC [] [dp [1;1]%Z; dpx [4;4]%Z 3; dp [7;3]%Z])) 4 (fun r _ =>
    fst r = true /\ showc (snd r) = showc (MkC (fv [4;2]%Z) [dp [1;1]%Z; dp [7;3]%Z])).
Proof. vm_compute. auto. Qed.

(* ---- C15 ---- *)
(* Full statement: C12 for IEEE binary64, up to rounding.  With finite datapoints, all of
   them finite in the end and with a finite mean, the vector can stay infinite. *)
Theorem C15_ieee_mean_refuted : exists (ops : list (cenop f64)) r t',
  Forall ccounts_ok ops /\ ~ In CMemTrim ops /\
  crun cosE (new_centroid (fv [0]%Z)) ops 0 = Ok (r, t') /\
  c_dps (r_cen r) <> [] /\
  Forall (fun d : DataPoint f64 => forallb is_finite (dp_vec d) = true) (r_in r) /\
  forallb is_finite (mean_of 1 (map dp_vec (c_dps (r_cen r)))) = true /\
  forallb is_finite (c_vec (r_cen r)) = false.
Proof. exact ieee_mean_refuted. Qed.
Print Assumptions C15_ieee_mean_refuted.

(* What holds: with coordinates of absolute value at most B, where B is at most 2^990, and
   with up to 2^24 accepted datapoints, the vector stays finite, and its distance from the
   exact mean has a bound that depends on the numbers of accepted and stored datapoints. *)
Theorem C15_ieee_mean_partial : forall (E : Env f64), EnvOk E -> forall (B : Q) (v : vec f64) (ops : list (cenop f64)) t,
  (p2 (-1022) <= B)%Q -> (B <= p2 990)%Q ->
  Forall (fun x => is_fin x = true) v ->
  Forall ccounts_ok ops -> ~ In CMemTrim ops ->
  (forall d, In (CAdd d) ops -> Forall (within B) (dp_vec d)) ->
  wp (crun E (new_centroid v) ops) t (fun r _ =>
    let a := inject_Z (Z.of_nat (length (r_in r))) in
    let n := inject_Z (Z.of_nat (length (c_dps (r_cen r)))) in
    (Z.of_nat (length (r_in r)) <= 2 ^ 24)%Z -> c_dps (r_cen r) <> [] ->
    forall j, j < length v ->
      let x := nth j (c_vec (r_cen r)) (S754_zero false) in
      is_fin x = true /\
      (Qabs (val x - total j (map dp_vec (c_dps (r_cen r))) / n) <= 22 * a * a / n * ulp * B)%Q).
Proof. exact ieee_mean. Qed.
Print Assumptions C15_ieee_mean_partial.

(* A tenth, two tenths and three tenths; then the first one is removed. *)
Definition tenths (k : Z) : DataPoint f64 := MkDP [@fdiv f64 (f64_of_Z k) (f64_of_Z 10)] [] 0 false.
Definition c15_ops : list (cenop f64) := [CAdd (tenths 1); CAdd (tenths 2); CAdd (tenths 3); CDrainUnordered 1].
Definition c15_off (x : spec_float) : Q := (val x - total 0 (map dp_vec [tenths 2; tenths 3]) / 2)%Q.
Example C15_case : EnvOk cosE /\ (p2 (-1022) <= 1)%Q /\ (1 <= p2 990)%Q /\ Forall ccounts_ok c15_ops /\ ~ In CMemTrim c15_ops /\
  (forall d, In (CAdd d) c15_ops -> Forall (within 1) (dp_vec d)) /\
  wp (crun cosE (new_centroid (fv [0]%Z)) c15_ops) 0 (fun r _ =>
    length (r_in r) = 3 /\ shows (c_dps (r_cen r)) = shows [tenths 2; tenths 3] /\
    Qeq_bool (c15_off (nth 0 (c_vec (r_cen r)) (S754_zero false))) 0 = false /\
    Qle_bool (Qabs (c15_off (nth 0 (c_vec (r_cen r)) (S754_zero false)))) (22 * 3 * 3 / 2 * ulp) = true).
Proof.
  split; [exact cosE_ok|]. split; [vm_compute; discriminate|]. split; [vm_compute; discriminate|].
  split; [unfold c15_ops; repeat constructor; cbn [ccounts_ok]; lia|]. split; [|split].
  - unfold c15_ops. intros H. repeat (destruct H as [H|H]; [discriminate H|]). destruct H.
  - intros d H. unfold c15_ops in H. cbn [In] in H. destruct H as [H|[H|[H|[H|[]]]]]; [| | |discriminate];
      injection H as <-; repeat constructor; vm_compute; discriminate.
  - vm_compute. auto.
Qed.

(* ---- C16 ---- *)
Theorem C16_drain_unordered : forall (N : Num) (E : Env N) c n t, (0 <= n)%Z ->
  wp (c_drain_unordered E c n) t (fun r t' =>
    exists pre, c_dps c = pre ++ c_dps (snd r) /\ fst r = live_from E t pre /\
      t' = t + length pre /\ (Z.of_nat (length (fst r)) <= n)%Z /\
      ((Z.of_nat (length (fst r)) < n)%Z -> c_dps (snd r) = [])).
Proof. exact @drain_unordered_prefix. Qed.
Print Assumptions C16_drain_unordered.

Theorem C16_negative_counts_panic : forall (N : Num) (E : Env N) c n v drain t, (n < 0)%Z ->
  c_drain_unordered E c n t = Panic /\ c_drain_ordered E c n t = Panic /\
  c_knn_lookup E c v n drain t = Panic.
Proof. exact @negative_counts_panic. Qed.
Print Assumptions C16_negative_counts_panic.

Example C16_case :
  wp (c_drain_unordered clockE (MkC (fv [4]%Z) [dpx [4]%Z 3; dp [1]%Z; dp [7]%Z]) 1) 4 (fun r t' =>
    shows (fst r) = shows [dp [1]%Z] /\ showc (snd r) = showc (MkC (fv [7]%Z) [dp [7]%Z]) /\ t' = 6).
Proof. vm_compute. auto. Qed.

(* ---- C17 ---- *)
(* With any search function ... *)
Theorem C17_drain_ordered : forall (N : Num) (E : Env N), EnvOk E -> forall c n t, (0 <= n)%Z ->
  wp (c_drain_ordered E c n) t (fun r t' =>
    let l := live_from E t (c_dps c) in
    exists idx, e_kfn E (c_vec c) (map dp_vec l) n = Ok idx /\
      fst r = pick idx l /\ c_dps (snd r) = without idx l /\
      Permutation l (c_dps (snd r) ++ fst r)).
Proof. exact @drain_ordered_exact. Qed.
Print Assumptions C17_drain_ordered.

(* ... and with the linear search of package searchutils. *)
Theorem C17_drain_ordered_worst : forall (E : Env f64), EnvOk E -> forall dist asc c n t,
  e_kfn E = knn_brute dist asc -> (0 <= n)%Z ->
  wp (c_drain_ordered E c n) t (fun r t' =>
    let l := live_from E t (c_dps c) in
    exists idx, BestK dist asc (c_vec c) (map dp_vec l) (Z.to_nat n) idx /\
      fst r = pick idx l /\ c_dps (snd r) = without idx l).
Proof. exact drain_ordered_worst. Qed.
Print Assumptions C17_drain_ordered_worst.

Example C17_case : e_kfn clockE = knn_brute euclidean_distance false /\
  wp (c_drain_ordered clockE (MkC (fv [4]%Z) [dp [3]%Z; dp [9]%Z; dpx [4]%Z 3; dp [0]%Z]) 2) 4 (fun r t' =>
    shows (fst r) = shows [dp [9]%Z; dp [0]%Z] /\ shows (c_dps (snd r)) = shows [dp [3]%Z]).
Proof. split; [reflexivity|]. vm_compute. auto. Qed.

(* ---- C18 ---- *)
Theorem C18_knn_lookup : forall (N : Num) (E : Env N), EnvOk E -> forall c v k drain t, (0 <= k)%Z ->
  wp (c_knn_lookup E c v k drain) t (fun r t' =>
    let l := live_from E t (c_dps c) in
    exists idx, e_knn E v (map dp_vec l) k = Ok idx /\
      fst r = pick idx l /\ c_dps (snd r) = (if drain then without idx l else l) /\
      Permutation l (without idx l ++ fst r)).
Proof. exact @knn_lookup_exact. Qed.
Print Assumptions C18_knn_lookup.

Theorem C18_knn_lookup_best : forall (E : Env f64), EnvOk E -> forall dist asc c v k drain t,
  e_knn E = knn_brute dist asc -> (0 <= k)%Z ->
  wp (c_knn_lookup E c v k drain) t (fun r t' =>
    let l := live_from E t (c_dps c) in
    exists idx, BestK dist asc v (map dp_vec l) (Z.to_nat k) idx /\
      fst r = pick idx l /\ c_dps (snd r) = (if drain then without idx l else l)).
Proof. exact knn_lookup_best. Qed.
Print Assumptions C18_knn_lookup_best.

Example C18_case : e_knn clockE = knn_brute euclidean_distance true /\
  wp (c_knn_lookup clockE (MkC (fv [4]%Z) [dp [3]%Z; dp [9]%Z; dpx [4]%Z 3; dp [0]%Z]) (fv [8]%Z) 2 true) 4
    (fun r t' => shows (fst r) = shows [dp [9]%Z; dp [3]%Z] /\ shows (c_dps (snd r)) = shows [dp [0]%Z]) /\
  wp (c_knn_lookup clockE (MkC (fv [4]%Z) [dp [3]%Z; dp [9]%Z; dpx [4]%Z 3; dp [0]%Z]) (fv [8]%Z) 2 false) 4
    (fun r t' => shows (fst r) = shows [dp [9]%Z; dp [3]%Z] /\ shows (c_dps (snd r)) = shows [dp [3]%Z; dp [9]%Z; dp [0]%Z]).
Proof. split; [reflexivity|]. vm_compute. auto. Qed.

(* ---- C19 ---- *)
Theorem C19_expire : forall (N : Num) (E : Env N) c t,
  wp (c_expire E c) t (fun c' t' => c_dps c' = live_from E t (c_dps c) /\ t' = t + length (c_dps c)).
Proof. exact @expire_exact. Qed.
Print Assumptions C19_expire.

Example C19_case :
  wp (c_expire clockE (MkC (fv [4]%Z) [dpx [3]%Z 1; dpx [9]%Z 2; dp [4]%Z; dpx [0]%Z 9])) 4 (fun c' _ =>
    shows (c_dps c') = shows [dp [4]%Z; dpx [0]%Z 9]).
Proof. vm_compute. auto. Qed.

(* ---- C20 ---- *)
(* pool: all centroids taking part; self: position of the distributing one; recv: positions
   of the receivers (self may be among them). *)
Theorem C20_distribute_conserves : forall (N : Num) (E : Env N), EnvOk E -> forall pool self n recv t,
  Forall dims pool -> self < length pool -> (0 <= n)%Z -> Forall (fun r => r < length pool) recv ->
  wp (c_distribute E pool self n recv) t (fun pool' t' =>
    conserves E t t' (concat (map c_dps pool)) (concat (map c_dps pool')) /\
    Forall dims pool' /\ length pool' = length pool /\
    (forall j, j <> self -> ~ In j recv -> nth_error pool' j = nth_error pool j) /\
    (recv = [] -> pool' = pool)).
Proof. exact @distribute_conserves. Qed.
Print Assumptions C20_distribute_conserves.

Definition c20_pool : list (Centroid f64) :=
  [MkC (fv [5]%Z) [dp [1]%Z; dp [9]%Z; dp [5]%Z]; MkC (fv [10]%Z) []; MkC (fv [7;7]%Z) []].
Example C20_case : Forall dims c20_pool /\
  wp (c_distribute eucE c20_pool 0 2 [1; 0; 2]) 0 (fun pool' _ =>
    map (fun c => shows (c_dps c)) pool' = [shows [dp [5]%Z; dp [1]%Z]; shows [dp [9]%Z]; []]).
Proof. split; [repeat constructor|]. vm_compute. auto. Qed.
