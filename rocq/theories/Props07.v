(* Properties C19 (expiry) and C61-C65: what the operations of a manager do to each of its
   centroids. *)
From Verif Require Import Base Num MathUtils Knn Env Centroid CManager History SearchSpec DataSpec MgrSpec MgrSpec2 Wp NumFacts
  Exact MathSpec TestEnv CMProofs2 CMProofs4 CMProofs5 Props03 Props07Lemmas.
Local Open Scope nat_scope.

(* ---- C19 (when a datapoint counts as expired) ---- *)
Theorem C19_when : forall (N : Num) now (d : DataPoint N),
  expired_at now d = true <-> dp_expire_enabled d = true /\ (dp_expires d < now)%Z.
Proof. exact @expires_when. Qed.
Print Assumptions C19_when.

Example C19_when_case : expired_at 5 (dpx [1]%Z 4) = true /\ expired_at 4 (dpx [1]%Z 4) = false /\ expired_at 5 (dp [1]%Z) = false.
Proof. vm_compute. auto. Qed.

(* ---- C61 ---- *)
Theorem C61_drain_ordered : forall (N : Num) (E : Env N), EnvOk E -> forall n m k t,
  (1 <= k)%Z -> DimOk n m -> never_expired E (stored (cm_cs m)) ->
  wp (cm_drain_ordered E m k) t (fun r _ =>
    exists ps, EvenPortions (map (fun c => length (c_dps c)) (cm_cs m)) (Z.to_nat k) ps /\
      length (cm_cs (snd r)) = length (cm_cs m) /\ Permutation (stored (cm_cs m)) (stored (cm_cs (snd r)) ++ fst r) /\
      forall i c p, nth_error (cm_cs m) i = Some c -> nth_error ps i = Some p ->
        exists c', nth_error (cm_cs (snd r)) i = Some c' /\ (p = 0 -> c' = c) /\
          (0 < p -> exists idx, e_kfn E (c_vec c) (map dp_vec (c_dps c)) (Z.of_nat p) = Ok idx /\
                                c_dps c' = without idx (c_dps c))).
Proof. exact @cm_drain_ordered_even. Qed.
Print Assumptions C61_drain_ordered.

Theorem C61_drain_ordered_worst : forall (E : Env f64), EnvOk E -> forall dist asc n m k t,
  e_kfn E = knn_brute dist asc -> (1 <= k)%Z -> DimOk n m -> never_expired E (stored (cm_cs m)) ->
  wp (cm_drain_ordered E m k) t (fun r _ =>
    exists ps, EvenPortions (map (fun c => length (c_dps c)) (cm_cs m)) (Z.to_nat k) ps /\
      forall i c p, nth_error (cm_cs m) i = Some c -> nth_error ps i = Some p ->
        exists c' idx, nth_error (cm_cs (snd r)) i = Some c' /\
          BestK dist asc (c_vec c) (map dp_vec (c_dps c)) p idx /\ c_dps c' = without idx (c_dps c)).
Proof. exact ordered_even_worst. Qed.
Print Assumptions C61_drain_ordered_worst.

(* The manager [four] of C22: of [1;3;2;2] around 2, 1 and 3 go. *)
Example C61_case : e_kfn eucE = knn_brute euclidean_distance false /\ DimOk 1 four /\ never_expired eucE (stored (cm_cs four)) /\
  wp (cm_drain_ordered eucE four 3) 0 (fun r _ =>
    map (fun c => shows (c_dps c)) (cm_cs (snd r)) = map shows [[dp [2]%Z; dp [2]%Z]; []; []] /\
    shows (fst r) = shows [dp [1]%Z; dp [3]%Z; dp [8]%Z]).
Proof. split; [reflexivity|]. split; [apply four_ok|]. split; [apply four_ok|]. vm_compute. auto. Qed.

(* ---- C62 ---- *)
Theorem C62_expire : forall (N : Num) (E : Env N) n m t, DimOk n m ->
  wp (cm_expire E m) t (fun m' _ => map c_dps (cm_cs m') = live_lists E t (map c_dps (cm_cs m))).
Proof. exact @cm_expire_lists. Qed.
Print Assumptions C62_expire.

Definition aging : CM f64 :=
  MkCM (fv [4]%Z) [MkC (fv [2]%Z) [dp [1]%Z; dpx [3]%Z 2]; MkC (fv [8]%Z) [dpx [8]%Z 1]; MkC (fv [6]%Z) [dpx [6]%Z 50]] 0.
Example C62_case : DimOk 1 aging /\
  wp (cm_expire clockE aging) 4 (fun m' _ =>
    map (fun c => shows (c_dps c)) (cm_cs m') = map shows [[dp [1]%Z]; []; [dpx [6]%Z 50]]).
Proof. split; [repeat constructor|]. vm_compute. auto. Qed.

(* ---- C63 ---- *)
Theorem C63_mem_trim : forall (N : Num) (E : Env N) n m t, DimOk n m ->
  wp (cm_mem_trim E m) t (fun m' _ =>
    map c_dps (cm_cs m') = filter holds_data (live_lists E t (map c_dps (cm_cs m)))).
Proof. exact @cm_mem_trim_lists. Qed.
Print Assumptions C63_mem_trim.

Example C63_case : DimOk 1 aging /\
  wp (cm_mem_trim clockE aging) 4 (fun m' _ =>
    map (fun c => shows (c_dps c)) (cm_cs m') = map shows [[dp [1]%Z]; [dpx [6]%Z 50]]).
Proof. split; [repeat constructor|]. vm_compute. auto. Qed.

(* ---- C64 ---- *)
Theorem C64_redistribute : forall (N : Num) (E : Env N), EnvOk E -> forall n m k t,
  (1 <= k)%Z -> DimOk n m -> cm_cs m <> [] -> never_expired E (stored (cm_cs m)) ->
  wp (cm_distribute_internal E m k) t (fun m' _ => exists full ps pool,
    EvenPortions (map (fun c => length (c_dps c)) (cm_cs m)) (Z.to_nat k) full /\ same_shares ps full /\
    spread E (seq 0 (length (cm_cs m))) ps (cm_cs m) pool /\ map c_dps (cm_cs m') = map c_dps pool).
Proof. exact @distribute_internal_spreads. Qed.
Print Assumptions C64_redistribute.

(* 9 sits in the centroid of 1 and 2 and goes to the one around 8. *)
Definition misplaced : CM f64 :=
  MkCM (fv [6]%Z) [MkC (fv [4]%Z) [dp [1]%Z; dp [9]%Z; dp [2]%Z]; MkC (fv [8]%Z) [dp [8]%Z; dp [8]%Z]] 0.
Example C64_case : DimOk 1 misplaced /\ never_expired eucE (stored (cm_cs misplaced)) /\
  wp (cm_distribute_internal eucE misplaced 2) 0 (fun m' _ =>
    map (fun c => shows (c_dps c)) (cm_cs m') = map shows [[dp [1]%Z; dp [2]%Z]; [dp [8]%Z; dp [8]%Z; dp [9]%Z]]).
Proof.
  split; [repeat constructor|]. split; [|vm_compute; auto].
  intros k d H. cbn [misplaced cm_cs stored map concat c_dps app In] in H.
  repeat (destruct H as [<-|H]; [reflexivity|]). destruct H.
Qed.

(* ---- C65 ---- *)
Theorem C65_merge : forall (N : Num) (E : Env N), EnvOk E -> forall p n m t, DimOk n m ->
  wp (cm_merge E m p) t (fun m' _ => exists cs1 del, cm_cs m' = without del cs1 /\ length cs1 = length (cm_cs m) /\
    (forall j c1, ~ In j del -> nth_error cs1 j = Some c1 -> exists c, nth_error (cm_cs m) j = Some c /\ absorbed p c c1) /\
    (finds_all E -> length (cm_cs m') <= 1 \/ Forall (fun c => p c = false) (cm_cs m'))).
Proof. exact @cm_merge_absorbs. Qed.
Print Assumptions C65_merge.

Theorem C65_merge_none : forall (N : Num) (E : Env N) m p t, Forall (fun c => p c = false) (cm_cs m) ->
  wp (cm_merge E m p) t (fun m' _ => m' = m).
Proof. exact @merge_none. Qed.
Print Assumptions C65_merge_none.

(* Centroids with at most two datapoints are to be merged.  With a distance search the first
   takes in the second, the third the fourth, the last the third; with one that returns the
   positions in order the first takes in the second, the third takes both, the last all that. *)
Definition bits : CM f64 :=
  MkCM (fv [5]%Z) [MkC (fv [2]%Z) [dp [2]%Z]; MkC (fv [3]%Z) [dp [3]%Z; dp [3]%Z]; MkC (fv [7]%Z) [dp [7]%Z];
                   MkC (fv [8]%Z) [dp [8]%Z; dp [8]%Z; dp [8]%Z]; MkC (fv [9]%Z) [dp [9]%Z]] 0.
Definition small (c : Centroid f64) : bool := length (c_dps c) <=? 2.
Example C65_case : DimOk 1 bits /\ finds_all firstE /\
  wp (cm_merge eucE bits small) 0 (fun m' _ => map (fun c => shows (c_dps c)) (cm_cs m') =
    map shows [[dp [2]%Z; dp [3]%Z; dp [3]%Z]; [dp [9]%Z; dp [7]%Z; dp [8]%Z; dp [8]%Z; dp [8]%Z]]) /\
  wp (cm_merge firstE bits small) 0 (fun m' _ => map (fun c => shows (c_dps c)) (cm_cs m') =
    map shows [[dp [8]%Z; dp [8]%Z; dp [8]%Z]; [dp [9]%Z; dp [7]%Z; dp [2]%Z; dp [3]%Z; dp [3]%Z]]) /\
  Forall (fun c => (fun c => length (c_dps c) <? 1) c = false) (cm_cs bits).
Proof.
  split; [repeat constructor|]. split; [exact firstE_finds_all|]. split; [vm_compute; auto|].
  split; [vm_compute; auto|repeat constructor].
Qed.
