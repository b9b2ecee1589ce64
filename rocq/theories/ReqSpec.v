(* What each request to one manager does, in the vocabulary of DataSpec.v, MgrSpec.v and
   MgrSpec2.v: the answer x and the manager m' that becomes of m. *)
From Verif Require Import Base Num MathUtils Knn Env Centroid CManager History SearchSpec DataSpec MgrSpec MgrSpec2
  Exact Proc Server ServerSpec.
Local Open Scope nat_scope.

Section ReqSpec.
Context {N : Num} (E : Env N).
Notation DP := (DataPoint N).
Notation Cen := (Centroid N).

Definition sizes (m : CM N) : list nat := map (fun c => length (c_dps c)) (cm_cs m).
(* More than lo and fewer than hi datapoints. *)
Definition between (lo hi : Z) (c : Cen) : bool :=
  (lo <? Z.of_nat (length (c_dps c)))%Z && (Z.of_nat (length (c_dps c)) <? hi)%Z.

Definition Effect (n : nat) (t t' : nat) (m : CM N) (q : req N) (x : ans N) (m' : CM N) : Prop :=
  match q with
  | QVec _ => x = AVec (Some (cm_vec m)) /\ m' = m
  | QLenDP _ => x = ANat (length (stored (cm_cs m))) /\ m' = m
  | QAdd _ d => x = ABool true /\
      (m' = m \/ conserves E t t' (stored (cm_cs m) ++ [d]) (stored (cm_cs m')) /\ seen_live E t t' d) /\
      (never_expired E [d] -> finds_some E n -> length (dp_vec d) = n -> conserves E t t' (stored (cm_cs m) ++ [d]) (stored (cm_cs m'))) /\
      (cm_cs m <> [] -> m' = m \/ exists i idx c c' new, e_knn E (dp_vec d) (map c_vec (cm_cs m)) 1%Z = Ok (i :: idx) /\
         nth_error (cm_cs m) i = Some c /\ cm_cs m' = list_set (cm_cs m) i c' ++ new /\
         (new = [] /\ c_dps c' = c_dps c ++ [d] \/
          exists c2, new = [c2] /\ conserves E t t' (c_dps c ++ [d]) (c_dps c' ++ c_dps c2)))
  | QDrainUnordered _ k => exists ds, x = ADPs ds /\
      conserves E t t' (stored (cm_cs m)) (stored (cm_cs m') ++ ds) /\ Forall (seen_live E t t') ds /\
      ((1 <= k)%Z -> (Z.of_nat (length ds) <= k)%Z) /\
      ((1 <= k)%Z -> never_expired E (stored (cm_cs m)) ->
         length ds = min (Z.to_nat k) (length (stored (cm_cs m))) /\
         exists ps, EvenPortions (sizes m) (Z.to_nat k) ps /\ length (cm_cs m') = length (cm_cs m) /\
           forall i c p, nth_error (cm_cs m) i = Some c -> nth_error ps i = Some p ->
             exists c', nth_error (cm_cs m') i = Some c' /\ c_dps c' = skipn p (c_dps c))
  | QDrainOrdered _ k => exists ds, x = ADPs ds /\
      conserves E t t' (stored (cm_cs m)) (stored (cm_cs m') ++ ds) /\ Forall (seen_live E t t') ds /\
      ((1 <= k)%Z -> (Z.of_nat (length ds) <= k)%Z) /\
      ((1 <= k)%Z -> never_expired E (stored (cm_cs m)) ->
         exists ps, EvenPortions (sizes m) (Z.to_nat k) ps /\ length (cm_cs m') = length (cm_cs m) /\
           forall i c p, nth_error (cm_cs m) i = Some c -> nth_error ps i = Some p ->
             exists c', nth_error (cm_cs m') i = Some c' /\ (p = 0 -> c' = c) /\
               (0 < p -> exists idx, e_kfn E (c_vec c) (map dp_vec (c_dps c)) (Z.of_nat p) = Ok idx /\
                                     c_dps c' = without idx (c_dps c)))
  | QExpire _ => x = AOk /\ map c_dps (cm_cs m') = live_lists E t (map c_dps (cm_cs m))
  | QMemTrim _ => x = AOk /\ map c_dps (cm_cs m') = filter holds_data (live_lists E t (map c_dps (cm_cs m)))
  | QMoveVector _ => exists b, x = ABool b /\ (b = true <-> cm_cs m <> []) /\
      stored (cm_cs m') = live_from E t (stored (cm_cs m)) /\
      (ExactNum N -> cm_cs m <> [] -> cm_vec m' = mean_of n (map c_vec (cm_cs m')))
  | QDistributeInternal _ k => x = AOk /\ conserves E t t' (stored (cm_cs m)) (stored (cm_cs m')) /\
      ((1 <= k)%Z -> cm_cs m <> [] -> never_expired E (stored (cm_cs m)) -> exists full ps pool,
         EvenPortions (sizes m) (Z.to_nat k) full /\ same_shares ps full /\
         spread E (seq 0 (length (cm_cs m))) ps (cm_cs m) pool /\ map c_dps (cm_cs m') = map c_dps pool)
  | QKnnLookup _ v k drain => exists ds, x = ADPs ds /\ (Z.of_nat (length ds) <= k)%Z /\ Forall (seen_live E t t') ds /\
      (drain = true -> conserves E t t' (stored (cm_cs m)) (stored (cm_cs m') ++ ds)) /\
      (drain = false -> conserves E t t' (stored (cm_cs m)) (stored (cm_cs m')) /\
         exists rest, Permutation (stored (cm_cs m')) (ds ++ rest)) /\
      (never_expired E (stored (cm_cs m)) -> ranks_all (e_knn E) v (map c_vec (cm_cs m)) ->
       Forall (fun c => c_dps c <> [] /\ ranks_all (e_knn E) v (map dp_vec (c_dps c))) (cm_cs m) ->
       length ds = min (Z.to_nat k) (length (stored (cm_cs m)))) /\
      (exists idx, e_knn E v (map c_vec (cm_cs m)) k = Ok idx /\
         Collected E v drain idx (Z.to_nat k) t (map c_dps (cm_cs m)) ds (map c_dps (cm_cs m')))
  | QNearest _ v k drain => exists idx, e_knn E v (map c_vec (cm_cs m)) k = Ok idx /\ x = ACens (pick idx (cm_cs m)) /\
      (drain = false -> m' = m) /\ (drain = true -> cm_cs m' = without idx (cm_cs m))
  | QNearestVec _ v => exists idx, e_knn E v (map c_vec (cm_cs m)) 1%Z = Ok idx /\
      x = AVec (option_map c_vec (hd_error (pick idx (cm_cs m)))) /\ m' = m
  | QSplit _ lo hi => x = AOk /\ conserves E t t' (stored (cm_cs m)) (stored (cm_cs m')) /\
      exists cs' new, cm_cs m' = cs' ++ new /\
        Forall2 (fun c c' => between lo hi c && (2 <=? length (c_dps c)) = false -> c' = c) (cm_cs m) cs' /\
        length new = length (filter (fun c => between lo hi c && (2 <=? length (c_dps c))) (cm_cs m)) /\
        (never_expired E (stored (cm_cs m)) ->
           Forall2 (fun c c' => between lo hi c && (2 <=? length (c_dps c)) = true ->
               length (c_dps c') = length (c_dps c) - length (c_dps c) / 2) (cm_cs m) cs' /\
           map (fun c => length (c_dps c)) new =
             map (fun c => length (c_dps c) / 2) (filter (fun c => between lo hi c && (2 <=? length (c_dps c))) (cm_cs m)))
  | QMerge _ lo hi => x = AOk /\ conserves E t t' (stored (cm_cs m)) (stored (cm_cs m')) /\
      (Forall (fun c => between lo hi c = false) (cm_cs m) -> m' = m) /\
      exists cs1 del, cm_cs m' = without del cs1 /\ length cs1 = length (cm_cs m) /\
        (forall j c1, ~ In j del -> nth_error cs1 j = Some c1 ->
           exists c, nth_error (cm_cs m) j = Some c /\ absorbed (between lo hi) c c1) /\
        (finds_all E -> length (cm_cs m') <= 1 \/ Forall (fun c => between lo hi c = false) (cm_cs m'))
  | QNamespaces | QMeta | QDistributeFast _ _ _ | QDistributeAccurate _ _ _ | QSteal _ _ _ _ => True
  end.

(* The requests that Effect is about. *)
Definition on_manager (q : req N) : Prop :=
  match q with
  | QNamespaces | QMeta | QDistributeFast _ _ _ | QDistributeAccurate _ _ _ | QSteal _ _ _ _ => False
  | _ => True
  end.
End ReqSpec.
