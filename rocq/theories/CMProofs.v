From Verif Require Import Base Num MathUtils Env Centroid CManager MgrSpec DataSpec DataFacts Wp Exact
  CentroidProofs DistributeProofs PortionsProofs.

(* ---- VecMean over a plain list ---- *)
Section ListMean.
Context {N : Num}.
Lemma vec_mean_loop_list : forall (vs : list (vec N)) fuel (res : vec N) k t,
  length vs < fuel ->
  wp (vec_mean_loop fuel list_gen vs res k) t (fun r t' => t' = t /\
    let '((res', k', ok), _) := r in
    ok = forallb (fun v => length v =? length res) vs /\
    (ok = true -> res' = fold_left (zipw fadd) vs res /\ k' = fold_left (fun k _ => fadd k f1) vs k)).
Proof.
  induction vs as [|v vs IH]; intros fuel res k t Hf; (destruct fuel as [|fuel]; [simpl in Hf; lia|]);
    cbn [vec_mean_loop list_gen]; apply wp_bind, wp_ret.
  - apply wp_ret. cbn. auto.
  - cbn [forallb]. destruct (Nat.eqb_spec (length v) (length res)) as [He|He].
    + eapply wp_mono; [apply (IH fuel (zipw fadd res v)); simpl in Hf; lia|].
      intros [[[res' k'] ok] s] t' (-> & H1 & H2). split; auto.
      rewrite zipw_length in H1. replace (Init.Nat.min (length res) (length v)) with (length res) in H1 by lia.
      cbn [andb fold_left]. auto.
    + apply wp_ret. split; auto. split; auto. discriminate.
Qed.

Lemma vec_mean_list (vs : list (vec N)) t :
  wp (vec_mean (S (length vs)) list_gen vs) t (fun r t' => t' = t /\
    match vs with
    | [] => fst r = ([], false)
    | v :: rest =>
        snd (fst r) = forallb (fun w => length w =? length v) rest /\
        (snd (fst r) = true ->
          fst (fst r) = map (fun x => fdiv x (fold_left (fun k _ => fadd k f1) rest f1))
                            (fold_left (zipw fadd) rest v))
    end).
Proof.
  unfold vec_mean. apply wp_bind. destruct vs as [|v rest]; cbn [list_gen]; apply wp_ret.
  - apply wp_ret. auto.
  - apply wp_bind. eapply wp_mono; [apply vec_mean_loop_list; simpl; lia|].
    intros [[[res' k'] ok] s] t' (-> & H1 & H2). destruct ok; apply wp_ret; split; auto; cbn [fst snd].
    + split; auto. intros _. destruct H2 as [-> ->]; auto.
    + split; auto. discriminate.
Qed.

Lemma fold_zipw_length n (vs : list (vec N)) : forall v : vec N,
  length v = n -> Forall (fun w => length w = n) vs -> length (fold_left (zipw fadd) vs v) = n.
Proof.
  induction vs as [|w vs IH]; intros v Hv Hf; cbn [fold_left]; auto.
  inversion Hf as [|? ? Hw Hvs]; subst. apply IH; auto. rewrite zipw_length. lia.
Qed.
End ListMean.

Section CMProofs.
Context {N : Num} (E : Env N) (HE : EnvOk E).
Notation DP := (DataPoint N).
Notation Cen := (Centroid N).
Context (P : nat -> Cen -> Prop).
Context (PA : forall n, AddClosed (P n)) (PR : forall n, RmClosed (P n)).
Context (PW : forall n c, P n c -> cwf n c).
Context (PN : forall n v, length v = n -> P n (new_centroid v)).

Definition cmP (n : nat) (m : CM N) : Prop :=
  length (cm_vec m) = n /\ Forall (P n) (cm_cs m).

(* A property of the manager's vector that replacing one centroid keeps. *)
Context (V : nat -> CM N -> Prop).
Context (VU : forall n m i c c', cmP n m -> V n m -> nth_error (cm_cs m) i = Some c ->
                length (c_vec c') = n -> V n (update_centroid m i c c')).

Notation ms m := (stored (cm_cs m)).

Lemma vec_update_length (v : vec N) len old new n :
  length v = n -> length old = n -> length new = n -> length (vec_update v len old new) = n.
Proof.
  intros. unfold vec_update. rewrite div_length. apply add_length; auto.
  apply sub_length; auto. rewrite mul_length; auto.
Qed.

Lemma update_centroid_P n m i c c' :
  cmP n m -> nth_error (cm_cs m) i = Some c -> P n c' -> cmP n (update_centroid m i c c').
Proof.
  intros [H1 H2] Hn Hc'. split; cbn [update_centroid cm_vec cm_cs].
  - apply vec_update_length; auto.
    + apply PW. exact (Forall_nth_error _ _ _ _ H2 Hn).
    + apply PW; auto.
  - apply Forall_list_set; auto.
Qed.

Lemma cs_length_P n m i c : cmP n m -> nth_error (cm_cs m) i = Some c -> P n c.
Proof. intros [_ H] Hn. exact (Forall_nth_error _ _ _ _ H Hn). Qed.

Lemma wp_knn m tgt k t (Q : list nat -> nat -> Prop) :
  (0 <= k)%Z ->
  (forall idx, e_knn E tgt (cm_vecs m) k = Ok idx -> NoDup idx -> (Z.of_nat (length idx) <= k)%Z ->
     Forall (fun i => i < length (cm_cs m)) idx ->
     (forall i c, In i idx -> nth_error (cm_cs m) i = Some c -> length (c_vec c) = length tgt) ->
     Q idx t) ->
  wp (lift (e_knn E tgt (cm_vecs m) k)) t Q.
Proof.
  intros Hk HQ. destruct HE as (_ & HS & _).
  destruct (HS tgt (cm_vecs m) k Hk) as (idx & He & Hnd & Hl & Hin).
  eapply wp_lift; [exact He|]. apply HQ; auto.
  - apply Forall_forall. intros i Hi. destruct (Hin i Hi) as (v & Hv & _).
    apply nth_error_len in Hv. unfold cm_vecs in Hv. rewrite map_length in Hv. auto.
  - intros i c Hi Hc. destruct (Hin i Hi) as (v & Hv & Hlv). unfold cm_vecs in Hv.
    rewrite (map_nth_error c_vec i (cm_cs m) Hc) in Hv. congruence.
Qed.

(* ---- add_all and splitCentroid ---- *)
Lemma add_all_spec n : forall ds c t,
  P n c -> Forall (fun d => length (dp_vec d) = n) ds ->
  wp (add_all E c ds) t (fun c' t' => t' = t + length ds /\ P n c' /\
    c_dps c' = c_dps c ++ live_from E t ds).
Proof.
  induction ds as [|d ds IH]; intros c t Hc Hd; cbn [add_all].
  - apply wp_ret. cbn [live_from length]. rewrite app_nil_r. auto.
  - inversion Hd as [|? ? Hd0 Hd']; subst. apply wp_bind.
    eapply wp_mono; [apply (c_add_cons E (length (dp_vec d)) c d t (P (length (dp_vec d)))); auto|].
    { intros c0 H0; apply PW; auto. }
    intros [ok c1] t1 (-> & HP1 & Hcase & _). cbn [fst snd] in *.
    eapply wp_mono; [apply (IH c1 (S t) HP1 Hd')|].
    cbn beta. intros c2 t2 (-> & HP2 & H2). split; [simpl; lia|]. split; auto.
    rewrite H2. cbn [live_from]. destruct Hcase as [(_ & -> & Hx)|(_ & -> & Hx)].
    + rewrite Hx. cbn [c_dps add_dp_raw]. rewrite <- app_assoc. reflexivity.
    + rewrite Hx. reflexivity.
Qed.

Lemma split_centroid_spec n m i trim t :
  cmP n m ->
  wp (split_centroid E m i trim) t (fun r t' => t <= t' /\
    match r with
    | None => (trim <= 0)%Z \/ nth_error (cm_cs m) i = None
    | Some (old', fresh) => (0 < trim)%Z /\
        exists c ds, nth_error (cm_cs m) i = Some c /\ P n old' /\ P n fresh /\
          exists t1, t <= t1 /\ t1 <= t' /\ t' = t1 + length ds /\
            drained_prefix E t t1 (c_dps c) (Z.to_nat trim) ds (c_dps old') /\
            c_dps fresh = live_from E t1 ds
    end).
Proof.
  intros Hm. unfold split_centroid. destruct (Z.leb_spec trim 0) as [Ht|Ht].
  { apply wp_ret. auto. }
  destruct (nth_error (cm_cs m) i) as [c|] eqn:Hc; [|apply wp_ret; auto].
  pose proof (cs_length_P _ _ _ _ Hm Hc) as HPc.
  apply wp_bind. eapply wp_mono; [apply (c_drain_unordered_spec E (P n) (RmClosed_0 _ (PR n)) c trim t); auto; lia|].
  intros [ds old'] t1 (HPo & Hdr). cbn [fst snd] in *.
  assert (Hds : Forall (fun d => length (dp_vec d) = n) ds).
  { destruct (drained_prefix_conserves _ _ _ _ _ _ _ Hdr) as [_ Hcons].
    destruct (PW _ _ HPc) as [_ Hf].
    pose proof (conserves_Forall _ _ _ _ _ _ Hcons Hf) as H. apply Forall_app in H; tauto. }
  apply wp_bind. eapply wp_mono; [apply (add_all_spec n ds (new_centroid (c_vec c)) t1)|]; auto.
  { apply PN. apply PW; auto. }
  cbn beta. intros fresh t2 (-> & HPf & Hdf). apply wp_ret.
  destruct (drained_prefix_conserves _ _ _ _ _ _ _ Hdr) as [Hle _].
  split; [lia|]. split; [lia|]. exists c, ds. repeat split; auto.
  exists t1. repeat split; auto; lia.
Qed.

(* The two halves of a split hold what the old centroid held. *)
Lemma split_conserves t t1 t' l k ds post fresh :
  t <= t1 -> t' = t1 + length ds ->
  drained_prefix E t t1 l k ds post -> fresh = live_from E t1 ds ->
  conserves E t t' l (post ++ fresh).
Proof.
  intros H1 -> Hdr ->. destruct (drained_prefix_conserves _ _ _ _ _ _ _ Hdr) as [_ Hc].
  eapply conserves_seq; [exact H1| |exact Hc|]; [lia|].
  apply conserves_frame_l, conserves_live.
Qed.

(* ---- AddDataPoint ---- *)
Lemma cm_add_spec n m d t :
  cmP n m -> (cm_cs m <> [] -> V n m) ->
  wp (cm_add E m d) t (fun r t' => t <= t' /\ cm_thresh (snd r) = cm_thresh m /\
    (fst r = false -> snd r = m) /\
    (exists n', cmP n' (snd r) /\ (cm_cs m <> [] -> n' = n) /\ (fst r = true -> n' = length (dp_vec d))) /\
    (fst r = true -> conserves E t t' (ms m ++ [d]) (ms (snd r)) /\ seen_live E t t' d) /\
    (fst r = true -> cm_cs m = [] -> exists c, cm_cs (snd r) = [c] /\ cm_vec (snd r) = c_vec c) /\
    (fst r = true -> cm_cs m <> [] ->
       exists i idx c, e_knn E (dp_vec d) (cm_vecs m) 1%Z = Ok (i :: idx) /\
         nth_error (cm_cs m) i = Some c /\ length (c_vec c) = length (dp_vec d) /\
         ((cm_thresh m <= Z.of_nat (S (c_len c)) /\ 2 <= cm_thresh m)%Z /\
            length (cm_cs (snd r)) = S (length (cm_cs m)) \/
          ((Z.of_nat (S (c_len c)) < cm_thresh m \/ cm_thresh m <= 1)%Z /\
            V n (snd r) /\
            cm_cs (snd r) = list_set (cm_cs m) i (add_dp_raw c d))))).
Proof.
  intros Hm HV. unfold cm_add. apply wp_bind, wp_expired.
  destruct (expired_at (e_now E t) d) eqn:Hx.
  { apply wp_ret. cbn [fst snd]. split; [lia|]. split; auto. split; auto. split.
    - exists n. repeat split; auto; try apply Hm; try discriminate.
    - repeat split; discriminate. }
  assert (Hseen : forall t', S t <= t' -> seen_live E t t' d) by (intros t' Ht'; exists t; split; auto; lia).
  destruct (cm_cs m) as [|c0 cs0] eqn:Hcs.
  - (* no centroids *)
    apply wp_bind.
    eapply wp_mono; [apply (c_add_cons E (length (dp_vec d)) (new_centroid (dp_vec d)) d (S t) (P (length (dp_vec d)))); auto|].
    { intros c1 H1; apply PW; auto. }
    intros [ok c] t1 (-> & HPc & _ & Hcons). cbn [fst snd] in *. apply wp_ret. cbn [fst snd cm_cs cm_vec cm_thresh].
    split; [lia|]. split; auto. split; [discriminate|]. split.
    { exists (length (dp_vec d)). split; [|split; [congruence|auto]]. split; cbn [cm_vec cm_cs].
      - apply PW; auto.
      - constructor; auto. }
    split.
    { intros _. split; [|apply Hseen; lia]. unfold stored; cbn [map concat]. rewrite app_nil_r.
      eapply conserves_widen; [| |exact Hcons]; lia. }
    split; [intros _ _; exists c; auto|congruence].
  - apply wp_bind. apply wp_knn; [lia|]. rewrite Hcs. intros idx He Hnd Hl Hf Hlen.
    destruct idx as [|i idx].
    { apply wp_ret. cbn [fst snd]. split; [lia|]. split; auto. split; auto. split.
      - exists n. repeat split; auto; try apply Hm; try discriminate.
      - repeat split; discriminate. }
    rewrite <- Hcs in Hf, Hlen |- *. inversion Hf as [|? ? Hi Hf']; subst.
    destruct (nth_error_lt _ i Hi) as (c & Hc).
    pose proof (cs_length_P _ _ _ _ Hm Hc) as HPc.
    apply wp_bind. eapply wp_index; [exact Hc|]. apply wp_bind.
    assert (Hld : length (dp_vec d) = n).
    { rewrite <- (Hlen i c) by (simpl; auto). apply PW; auto. }
    eapply wp_mono; [apply (c_add_cons E n c d (S t) (P n)); auto|].
    { intros c1 H1; apply PW; auto. }
    intros [ok c'] t1 (-> & HPc' & Hcase & Hcons). cbn [fst snd] in *.
    destruct ok; cbn [negb].
    2:{ apply wp_ret. cbn [fst snd]. split; [lia|]. split; auto. split; auto. split.
        - exists n. repeat split; auto; try apply Hm; try discriminate.
        - repeat split; discriminate. }
    destruct Hcase as [(_ & -> & Hx2)|(Habs & _)]; [|discriminate].
    set (m1 := update_centroid m i c (add_dp_raw c d)).
    assert (Hm1 : cmP n m1) by (apply update_centroid_P; auto).
    assert (HV1 : V n m1).
    { apply VU; auto; [apply HV; discriminate|]. apply PW; auto. }
    assert (Hcons1 : conserves E t (S (S t)) (ms m ++ [d]) (ms m1)).
    { eapply conserves_widen; [| |eapply stored_set; [exact Hc|exact Hcons]]; lia. }
    assert (Hlen' : c_len (add_dp_raw c d) = S (c_len c)).
    { unfold c_len, add_dp_raw; cbn [c_dps]. rewrite app_length. simpl; lia. }
    rewrite Hlen'.
    assert (Hnosplit : (Z.of_nat (S (c_len c)) < cm_thresh m \/ cm_thresh m <= 1)%Z ->
      let r := (true, m1) in
      S (S t) <= S (S t) ->
      t <= S (S t) /\ cm_thresh (snd r) = cm_thresh m /\
      (fst r = false -> snd r = m) /\
      (exists n', cmP n' (snd r) /\ (cm_cs m <> [] -> n' = n) /\ (fst r = true -> n' = length (dp_vec d))) /\
      (fst r = true -> conserves E t (S (S t)) (ms m ++ [d]) (ms (snd r)) /\ seen_live E t (S (S t)) d) /\
      (fst r = true -> cm_cs m = [] -> exists c, cm_cs (snd r) = [c] /\ cm_vec (snd r) = c_vec c) /\
      (fst r = true -> cm_cs m <> [] ->
       exists i idx c, e_knn E (dp_vec d) (cm_vecs m) 1%Z = Ok (i :: idx) /\
         nth_error (cm_cs m) i = Some c /\ length (c_vec c) = length (dp_vec d) /\
         ((cm_thresh m <= Z.of_nat (S (c_len c)) /\ 2 <= cm_thresh m)%Z /\
            length (cm_cs (snd r)) = S (length (cm_cs m)) \/
          ((Z.of_nat (S (c_len c)) < cm_thresh m \/ cm_thresh m <= 1)%Z /\
            V n (snd r) /\
            cm_cs (snd r) = list_set (cm_cs m) i (add_dp_raw c d))))).
    { intros Hno r _. unfold r; cbn [fst snd]. split; [lia|]. split; auto. split; [discriminate|]. split.
      { exists n. repeat split; auto; apply Hm1. }
      split; [intros _; split; auto; apply Hseen; lia|]. split; [rewrite Hcs; discriminate|].
      intros _ _. exists i, idx, c. repeat split; auto. apply (Hlen i c); simpl; auto. }
    destruct (Z.leb_spec (cm_thresh m) (Z.of_nat (S (c_len c)))) as [Hth|Hth].
    2:{ apply wp_ret. apply Hnosplit; auto. }
    apply wp_bind.
    eapply wp_mono; [apply (split_centroid_spec n m1 i (cm_thresh m ÷ 2) (S (S t)) Hm1)|].
    intros o t2 (Ht2 & Ho). destruct o as [[old' fresh]|].
    + destruct Ho as (Htrim & c1 & ds & Hc1 & HPo & HPf & t3 & Ht3 & Ht3' & Ht2' & Hdr & Hfresh).
      assert (Hth2 : (2 <= cm_thresh m)%Z).
      { destruct (Z.le_gt_cases 2 (cm_thresh m)); auto. exfalso.
        clear - Htrim H. Z.to_euclidean_division_equations. lia. }
      apply wp_ret. cbn [fst snd cm_cs cm_vec cm_thresh set_centroid].
      split; [lia|]. split; auto. split; [discriminate|]. split.
      { exists n. repeat split; auto; cbn [cm_vec cm_cs]; try apply Hm1.
        apply Forall_app; split; auto. apply Forall_list_set; auto. apply Hm1. }
      split.
      { intros _. split; [|apply Hseen; lia].
        rewrite stored_app. unfold stored at 3; cbn [map concat]. rewrite app_nil_r.
        eapply conserves_seq with (t' := S (S t)); [lia|exact Ht2|exact Hcons1|].
        eapply stored_set_out; [exact Hc1|].
        eapply split_conserves; eauto. }
      split; [rewrite Hcs; discriminate|]. intros _ _.
      exists i, idx, c. repeat split; auto; [apply (Hlen i c); simpl; auto|].
      left. repeat split; auto. rewrite app_length, list_set_length.
      cbn [m1 update_centroid cm_cs]. unfold m1, update_centroid; cbn [cm_cs]. rewrite list_set_length. simpl; lia.
    + destruct Ho as [Ho|Ho].
      * assert (Hno : (Z.of_nat (S (c_len c)) < cm_thresh m \/ cm_thresh m <= 1)%Z).
        { right. destruct (Z.le_gt_cases (cm_thresh m) 1); auto. exfalso.
          assert (1 <= cm_thresh m ÷ 2)%Z; [|lia].
          apply Z.quot_le_lower_bound; lia. }
        assert (Hm2 := Hnosplit Hno (le_n _)). cbn [fst snd] in Hm2.
        apply wp_ret. cbn [fst snd].
        destruct Hm2 as (A1 & A2 & A3 & A4 & A5 & A6 & A7).
        split; [lia|]. split; auto. split; auto. split; auto. split; [|split; auto].
        intros _. destruct (A5 eq_refl) as [B1 B2]. split; [|apply Hseen; lia].
        eapply conserves_widen; [| |exact B1]; lia.
      * exfalso. unfold m1, update_centroid in Ho; cbn [cm_cs] in Ho.
        rewrite list_set_same in Ho by auto. discriminate.
Qed.

(* ---- portions ---- *)
Lemma stored_length_sum (cs : list Cen) : length (stored cs) = sum (map (fun c => c_len c) cs).
Proof.
  induction cs as [|c cs IH]; auto. rewrite stored_cons, app_length. cbn [map]. rewrite sum_cons, IH.
  reflexivity.
Qed.
Lemma fold_len (cs : list Cen) : forall a, fold_left (fun r c => r + c_len c) cs a = a + sum (map (fun c => c_len c) cs).
Proof.
  induction cs as [|c cs IH]; intros a; cbn [fold_left map]; [simpl; lia|].
  rewrite IH, sum_cons. lia.
Qed.
Lemma cm_len_dp_stored (m : CM N) : cm_len_dp m = length (ms m).
Proof. unfold cm_len_dp. rewrite fold_len, stored_length_sum. reflexivity. Qed.

Definition portions_for (m : CM N) (ps : list (nat * nat)) : Prop :=
  NoDup (map fst ps) /\
  Forall (fun ip => exists c, nth_error (cm_cs m) (fst ip) = Some c /\ snd ip <= c_len c) ps.

Lemma entries_for (m : CM N) full ps :
  length full = length (cm_cs m) ->
  (forall i p l, nth_error full i = Some p -> nth_error (map (fun c => c_len c) (cm_cs m)) i = Some l -> p <= l) ->
  Permutation ps (portions_entries full) -> portions_for m ps /\ sum (map snd ps) = sum full.
Proof.
  intros Hl Hb Hp. destruct (portions_entries_spec full) as (H1 & H2 & H3). split; [split|].
  - eapply Permutation_NoDup; [|exact H1]. apply Permutation_map, Permutation_sym; auto.
  - eapply Permutation_Forall; [apply Permutation_sym; exact Hp|]. apply Forall_forall.
    intros [i p] Hin. cbn [fst snd]. apply H3 in Hin. destruct Hin as [Hn _].
    destruct (nth_error_lt (cm_cs m) i) as (c & Hc).
    { rewrite <- Hl. eapply nth_error_len; eauto. }
    exists c. split; auto. eapply Hb; eauto. apply (map_nth_error (fun c => c_len c)); auto.
  - rewrite <- H2. apply sum_perm, Permutation_map; auto.
Qed.

Lemma cm_portions_spec (m : CM N) n t :
  wp (cm_portions E m n) t (fun ps t' => t' = S t /\ portions_for m ps /\
    ((1 <= n)%Z -> exists full, EvenPortions (map (fun c => c_len c) (cm_cs m)) (Z.to_nat n) full /\
        Permutation ps (portions_entries full)) /\
    (sum (map snd ps) <= Z.to_nat (Z.max 1 n))).
Proof.
  unfold cm_portions. set (lens := map (fun c => c_len c) (cm_cs m)).
  replace (length (cm_cs m)) with (length lens) by (unfold lens; apply map_length).
  destruct (Z.le_gt_cases 1 n) as [Hn|Hn].
  - destruct (portions_loop_spec n Hn (cm_len_dp m) 0 lens) as (full & He & HEP).
    + rewrite sum_level_0. lia.
    + rewrite sum_level_0, cm_len_dp_stored, stored_length_sum. fold lens. lia.
    + rewrite sum_level_0, level_0 in He. apply wp_bind. eapply wp_lift; [exact He|].
      apply wp_any_order; auto. intros ps Hp. split; auto.
      destruct (entries_for m full ps) as [Hpf Hs]; auto.
      * rewrite (ep_length _ _ _ HEP). unfold lens. apply map_length.
      * apply HEP.
      * split; auto. split; [intros _; exists full; auto|]. rewrite Hs, (ep_total _ _ _ HEP). lia.
  - destruct (portions_loop_nonpos n (cm_len_dp m) lens) as (full & He & Hl & Hb & Hs); [lia|].
    apply wp_bind. eapply wp_lift; [exact He|].
    apply wp_any_order; auto. intros ps Hp. split; auto.
    destruct (entries_for m full ps) as [Hpf Hs']; auto.
    + rewrite Hl. unfold lens. apply map_length.
    + split; auto. split; [lia|]. rewrite Hs'. lia.
Qed.

(* ---- drains ---- *)
Definition drain_ok (drain : Cen -> Z -> M (list DP * Cen)) : Prop :=
  forall n c p t, P n c ->
    wp (drain c (Z.of_nat p)) t (fun r t' => t <= t' /\ P n (snd r) /\
      conserves E t t' (c_dps c) (c_dps (snd r) ++ fst r) /\ length (fst r) <= p /\
      Forall (seen_live E t t') (fst r)).

Lemma c_drain_unordered_ok : drain_ok (c_drain_unordered E).
Proof.
  intros n c p t Hc.
  eapply wp_mono; [apply (c_drain_unordered_spec E (P n) (RmClosed_0 _ (PR n)) c _ t); auto; lia|].
  cbn beta. intros [r c'] t' (H1 & H2). cbn [fst snd] in *.
  destruct (drained_prefix_conserves _ _ _ _ _ _ _ H2) as [Hle Hcons].
  pose proof (drained_prefix_live _ _ _ _ _ _ _ H2).
  destruct H2 as (pre & _ & _ & _ & Hl & _). rewrite Nat2Z.id in Hl. auto.
Qed.
Lemma c_drain_ordered_ok : drain_ok (c_drain_ordered E).
Proof.
  intros n c p t Hc.
  eapply wp_mono; [apply (c_drain_ordered_spec E (P n) (PR n) c _ t); auto; lia|].
  cbn beta. intros [r c'] t' (H1 & -> & idx & _ & Hnd & Hl & Hf & Hr & Hd). cbn [fst snd] in *.
  subst r. rewrite Hd. split; [lia|]. split; auto. split; [apply picked_conserves; auto|]. split.
  - rewrite pick_length by auto. lia.
  - apply picked_live.
Qed.

Lemma drain_portions_spec drain (HD : drain_ok drain) : forall ps n m res t,
  cmP n m -> V n m -> Forall (fun ip => fst ip < length (cm_cs m)) ps ->
  wp (drain_portions drain m ps res) t (fun r t' => t <= t' /\ cmP n (snd r) /\ V n (snd r) /\
    cm_thresh (snd r) = cm_thresh m /\ length (cm_cs (snd r)) = length (cm_cs m) /\
    exists out, fst r = res ++ out /\
      conserves E t t' (ms m) (ms (snd r) ++ out) /\
      length out <= sum (map snd ps) /\ Forall (seen_live E t t') out).
Proof.
  induction ps as [|[i p] ps IH]; intros n m res t Hm HV Hf; cbn [drain_portions].
  - apply wp_ret. cbn [fst snd]. repeat split; auto; try apply Hm.
    exists []. rewrite !app_nil_r. repeat split; auto; try (simpl; lia). apply conserves_refl.
  - inversion Hf as [|? ? Hi Hf']; subst. cbn [fst] in Hi.
    destruct (nth_error_lt _ i Hi) as (c & Hc). apply wp_bind. eapply wp_index; [exact Hc|].
    apply wp_bind. eapply wp_mono; [apply (HD n c p t); eapply cs_length_P; eauto|].
    intros [r c'] t1 (Ht1 & HPc' & Hcons & Hlen & Hlive). cbn [fst snd] in *.
    eapply wp_mono; [apply (IH n (update_centroid m i c c') (res ++ r) t1)|].
    + apply update_centroid_P; auto.
    + apply VU; auto. apply PW; auto.
    + cbn [update_centroid cm_cs]. rewrite list_set_length. auto.
    + cbn beta. intros [res2 m2] t2 (Ht2 & Hm2 & HV2 & Hth & Hl2 & out & Hout & Hc2 & Hlen2 & Hlive2).
      cbn [fst snd] in *. split; [lia|]. split; auto. split; auto. split; auto.
      split. { rewrite Hl2. cbn [update_centroid cm_cs]. apply list_set_length. }
      exists (r ++ out). split; [rewrite Hout, app_assoc; auto|]. split.
      * pose proof (stored_set_out E (cm_cs m) i c c' t t1 r Hc Hcons) as H1.
        eapply conserves_seq; [exact Ht1|exact Ht2|exact H1|].
        eapply conserves_proper; [apply Permutation_refl| |apply (conserves_frame E _ _ _ _ r Hc2)]. perm.
      * split. { rewrite app_length. cbn [map snd]. rewrite sum_cons. lia. }
        apply Forall_app; split.
        -- eapply Forall_impl; [|exact Hlive]. intros x; apply seen_live_widen; lia.
        -- eapply Forall_impl; [|exact Hlive2]. intros x; apply seen_live_widen; lia.
Qed.

Lemma portions_for_range (m : CM N) ps : portions_for m ps -> Forall (fun ip => fst ip < length (cm_cs m)) ps.
Proof.
  intros [_ H]. eapply Forall_impl; [|exact H]. intros ip (c & Hc & _). eapply nth_error_len; eauto.
Qed.

Lemma cm_drain_spec drain (HD : drain_ok drain) n m k t :
  cmP n m -> V n m ->
  wp (do ps <- cm_portions E m k; drain_portions drain m ps []) t
    (fun r t' => t <= t' /\ cmP n (snd r) /\ V n (snd r) /\
      cm_thresh (snd r) = cm_thresh m /\ length (cm_cs (snd r)) = length (cm_cs m) /\
      conserves E t t' (ms m) (ms (snd r) ++ fst r) /\
      length (fst r) <= Z.to_nat (Z.max 1 k) /\ Forall (seen_live E t t') (fst r)).
Proof.
  intros Hm HV. apply wp_bind. eapply wp_mono; [apply cm_portions_spec|].
  intros ps t1 (-> & Hpf & _ & Hs).
  eapply wp_mono; [apply (drain_portions_spec drain HD ps n m [] (S t)); auto|].
  { apply portions_for_range; auto. }
  cbn beta. intros [res m'] t2 (Ht & Hm' & HV' & Hth & Hl & out & Hout & Hcons & Hlen & Hlive).
  cbn [fst snd app] in *. subst out. repeat split; auto; try lia; try apply Hm'.
  - eapply conserves_widen; [| |exact Hcons]; lia.
  - eapply Forall_impl; [|exact Hlive]. intros x; apply seen_live_widen; lia.
Qed.

Lemma cm_drain_unordered_spec n m k t :
  (0 <= k)%Z -> cmP n m -> V n m ->
  wp (cm_drain_unordered E m k) t
    (fun r t' => t <= t' /\ cmP n (snd r) /\ V n (snd r) /\
      cm_thresh (snd r) = cm_thresh m /\ length (cm_cs (snd r)) = length (cm_cs m) /\
      conserves E t t' (ms m) (ms (snd r) ++ fst r) /\
      length (fst r) <= Z.to_nat (Z.max 1 k) /\ Forall (seen_live E t t') (fst r)).
Proof.
  intros Hk Hm HV. unfold cm_drain_unordered.
  replace (k <? 0)%Z with false by (symmetry; apply Z.ltb_ge; auto).
  apply cm_drain_spec; auto. apply c_drain_unordered_ok.
Qed.
Lemma cm_drain_ordered_spec n m k t :
  (0 <= k)%Z -> cmP n m -> V n m ->
  wp (cm_drain_ordered E m k) t
    (fun r t' => t <= t' /\ cmP n (snd r) /\ V n (snd r) /\
      cm_thresh (snd r) = cm_thresh m /\ length (cm_cs (snd r)) = length (cm_cs m) /\
      conserves E t t' (ms m) (ms (snd r) ++ fst r) /\
      length (fst r) <= Z.to_nat (Z.max 1 k) /\ Forall (seen_live E t t') (fst r)).
Proof.
  intros Hk Hm HV. unfold cm_drain_ordered.
  replace (k <? 0)%Z with false by (symmetry; apply Z.ltb_ge; auto).
  apply cm_drain_spec; auto. apply c_drain_ordered_ok.
Qed.

(* Exact count when nothing expires. *)

Lemma drain_portions_exact : forall ps n m res t,
  cmP n m -> portions_for m ps -> never_expired E (ms m) ->
  wp (drain_portions (c_drain_unordered E) m ps res) t (fun r t' =>
    length (fst r) = length res + sum (map snd ps)).
Proof.
  induction ps as [|[i p] ps IH]; intros n m res t Hm Hpf Hne; cbn [drain_portions].
  - apply wp_ret. simpl. lia.
  - destruct Hpf as [Hnd Hf]. inversion Hf as [|? ? (c & Hc & Hp) Hf']; subst. cbn [fst snd] in *.
    inversion Hnd as [|? ? Hni Hnd']; subst.
    pose proof (cs_length_P _ _ _ _ Hm Hc) as HPc.
    apply wp_bind. eapply wp_index; [exact Hc|]. apply wp_bind.
    eapply wp_mono; [apply (c_drain_unordered_spec E (P n) (RmClosed_0 _ (PR n)) c _ t); auto; lia|].
    intros [r c'] t1 (HPc' & Hdr). cbn [fst snd] in *. rewrite Nat2Z.id in Hdr.
    assert (Hinc : forall x, In x (c_dps c) -> In x (ms m)).
    { intros x Hx. unfold stored. apply in_concat. exists (c_dps c). split; auto.
      apply in_map. eapply nth_error_In; eauto. }
    destruct (drained_prefix_conserves _ _ _ _ _ _ _ Hdr) as [_ Hcons].
    assert (Hr : length r = p).
    { destruct Hdr as (pre & Hl & Hrr & _ & Hle & Hlt & _).
      rewrite (live_from_all E t pre) in Hrr.
      - destruct (Nat.eq_dec (length r) p); auto. assert (Hpost : c_dps c' = []) by (apply Hlt; lia).
        rewrite Hpost, app_nil_r in Hl. unfold c_len in Hp. rewrite Hl in Hp. subst r. lia.
      - intros k d _ Hd. apply Hne, Hinc. rewrite Hl. apply in_or_app; auto. }
    eapply wp_mono; [apply (IH n (update_centroid m i c c') (res ++ r) t1)|].
    + apply update_centroid_P; auto.
    + split; auto. cbn [update_centroid cm_cs]. rewrite Forall_forall in *. intros [j q] Hin.
      destruct (Hf' _ Hin) as (cj & Hcj & Hq). exists cj. cbn [fst snd] in *. split; auto.
      rewrite list_set_other; auto. intros <-. apply Hni. apply in_map_iff. exists (i, q); auto.
    + intros k d Hd. apply Hne. cbn [update_centroid cm_cs] in Hd.
      pose proof (stored_set_out E (cm_cs m) i c c' t t1 r Hc Hcons) as H1.
      eapply conserves_in; [exact H1|]. apply in_or_app; auto.
    + cbn beta. intros [res2 m2] t2 H2. cbn [fst] in *. rewrite H2, app_length. cbn [map snd].
      rewrite sum_cons. lia.
Qed.

Lemma cm_drain_unordered_exact n m k t :
  (1 <= k)%Z -> cmP n m -> never_expired E (ms m) ->
  wp (cm_drain_unordered E m k) t (fun r t' =>
    length (fst r) = min (Z.to_nat k) (length (ms m))).
Proof.
  intros Hk Hm Hne. unfold cm_drain_unordered.
  replace (k <? 0)%Z with false by (symmetry; apply Z.ltb_ge; lia).
  apply wp_bind. eapply wp_mono; [apply cm_portions_spec|].
  intros ps t1 (-> & Hpf & Hfull & _). destruct (Hfull Hk) as (full & HEP & Hp).
  eapply wp_mono; [apply (drain_portions_exact ps n m [] (S t)); auto|].
  cbn beta. intros r t2 ->. cbn [length plus].
  destruct (portions_entries_spec full) as (_ & H2 & _).
  rewrite (sum_perm _ _ (Permutation_map snd Hp)), H2, (ep_total _ _ _ HEP), stored_length_sum. auto.
Qed.

(* ---- Expire ---- *)
Lemma nth_mid {A} (a b : list A) x : nth_error (a ++ x :: b) (length a) = Some x.
Proof. rewrite nth_error_app2, Nat.sub_diag by lia. reflexivity. Qed.
Lemma set_mid {A} (a b : list A) x y : list_set (a ++ x :: b) (length a) y = a ++ y :: b.
Proof. induction a as [|z a IH]; simpl; f_equal; auto. Qed.

Lemma cm_expire_loop_spec : forall todo done n m t,
  cmP n m -> V n m -> cm_cs m = done ++ todo ->
  wp (cm_expire_loop E m (seq (length done) (length todo))) t (fun m' t' =>
    t' = t + length (stored todo) /\ cmP n m' /\ V n m' /\ cm_thresh m' = cm_thresh m /\
    exists todo', cm_cs m' = done ++ todo' /\ length todo' = length todo /\
      stored todo' = live_from E t (stored todo)).
Proof.
  induction todo as [|c todo IH]; intros done n m t Hm HV Hcs; cbn [length seq cm_expire_loop].
  - apply wp_ret. cbn. split; [lia|]. split; auto. split; auto. split; auto. exists []. auto.
  - assert (Hc : nth_error (cm_cs m) (length done) = Some c) by (rewrite Hcs; apply nth_mid).
    pose proof (cs_length_P _ _ _ _ Hm Hc) as HPc.
    apply wp_bind. eapply wp_index; [exact Hc|]. apply wp_bind.
    eapply wp_mono; [apply (c_expire_spec E (P n) (PR n) c t HPc)|].
    cbn beta. intros c' t1 (HPc' & Hd & ->).
    replace (S (length done)) with (length (done ++ [c'])) by (rewrite app_length; simpl; lia).
    eapply wp_mono; [apply (IH (done ++ [c']) n (update_centroid m (length done) c c'))|].
    + apply update_centroid_P; auto.
    + apply VU; auto. apply PW; auto.
    + cbn [update_centroid cm_cs]. rewrite Hcs, set_mid, <- app_assoc. reflexivity.
    + cbn beta. intros m' t' (-> & Hm' & HV' & Hth & todo' & Hcs' & Hl & Hst).
      rewrite stored_cons, app_length. split; [lia|]. split; auto. split; auto. split; auto.
      exists (c' :: todo'). split; [rewrite Hcs', <- app_assoc; auto|]. split; [simpl; auto|].
      rewrite stored_cons, live_from_app, Hd, Hst. reflexivity.
Qed.

Lemma cm_expire_spec n m t :
  cmP n m -> V n m ->
  wp (cm_expire E m) t (fun m' t' =>
    t' = t + length (ms m) /\ cmP n m' /\ V n m' /\ cm_thresh m' = cm_thresh m /\
    length (cm_cs m') = length (cm_cs m) /\ ms m' = live_from E t (ms m)).
Proof.
  intros Hm HV. unfold cm_expire.
  eapply wp_mono; [apply (cm_expire_loop_spec (cm_cs m) [] n m t Hm HV eq_refl)|].
  cbn beta. intros m' t' (-> & Hm' & HV' & Hth & todo' & Hcs & Hl & Hst). cbn [app] in Hcs.
  rewrite Hcs. repeat split; auto; apply Hm'.
Qed.

(* ---- MoveVector ---- *)
Context (PM : forall n c t, P n c -> wp (c_move_vector E c) t (fun r t' =>
   P n (snd r) /\ c_dps (snd r) = live_from E t (c_dps c) /\ t' = t + length (c_dps c))).

Lemma move_all_spec n : forall cs t, Forall (P n) cs ->
  wp (move_all E cs) t (fun cs' t' => t' = t + length (stored cs) /\ Forall (P n) cs' /\
    length cs' = length cs /\ stored cs' = live_from E t (stored cs)).
Proof.
  induction cs as [|c cs IH]; intros t Hf; cbn [move_all].
  - apply wp_ret. cbn. split; [lia|]. repeat split; auto.
  - inversion Hf as [|? ? Hc Hf']; subst. apply wp_bind. eapply wp_mono; [apply (PM n c t Hc)|].
    intros [ok c'] t1 (HPc & Hd & ->). cbn [snd] in *. apply wp_bind.
    eapply wp_mono; [apply (IH _ Hf')|]. cbn beta. intros cs' t2 (-> & Hf2 & Hl & Hst). apply wp_ret.
    rewrite !stored_cons, app_length, live_from_app, Hd, Hst. repeat split; simpl; auto. lia.
Qed.

Lemma cm_move_vector_spec n m t :
  cmP n m ->
  wp (cm_move_vector E m) t (fun r t' => t' = t + length (ms m) /\
    let m' := snd r in
    cmP n m' /\ cm_thresh m' = cm_thresh m /\ length (cm_cs m') = length (cm_cs m) /\
    ms m' = live_from E t (ms m) /\ (fst r = true <-> cm_cs m <> []) /\
    match map c_vec (cm_cs m') with
    | [] => True
    | v :: rest => cm_vec m' = map (fun x => fdiv x (fold_left (fun k _ => fadd k f1) rest f1))
                            (fold_left (zipw fadd) rest v)
    end).
Proof.
  intros [Hv Hf]. unfold cm_move_vector. apply wp_bind.
  eapply wp_mono; [apply (move_all_spec n (cm_cs m) t Hf)|].
  cbn beta. intros cs t1 (-> & Hfc & Hl & Hst). apply wp_bind.
  replace (length cs) with (length (map c_vec cs)) by apply map_length.
  eapply wp_mono; [apply vec_mean_list|].
  intros [[v ok] s] t2 (-> & Hmv). cbn [fst snd] in Hmv. apply wp_ret. cbn [fst snd cm_thresh cm_cs cm_vec].
  assert (Hlens : Forall (fun w => length w = n) (map c_vec cs)).
  { apply Forall_forall. intros w Hw. apply in_map_iff in Hw. destruct Hw as (c & <- & Hc).
    rewrite Forall_forall in Hfc. apply PW; auto. }
  split; auto. destruct (map c_vec cs) as [|v0 rest] eqn:Hmap.
  - inversion Hmv; subst v ok. assert (cs = []) by (destruct cs; auto; discriminate). subst cs.
    assert (Hnil : cm_cs m = []) by (apply length_zero_iff_nil; auto).
    repeat split; auto; try (intros; congruence).
  - destruct Hmv as [Hok Hval]. apply Forall_cons_iff in Hlens. destruct Hlens as [Hv0 Hrest].
    assert (Hokt : ok = true).
    { rewrite Hok. apply forallb_forall. intros w Hw. rewrite Forall_forall in Hrest.
      apply Nat.eqb_eq. rewrite Hv0. apply Hrest; auto. }
    rewrite Hokt in *. specialize (Hval eq_refl). repeat split; auto.
    + cbn [cm_vec]. rewrite Hval, map_length. apply fold_zipw_length; auto.
    + intros _ Hnil. destruct cs; [discriminate|]. rewrite Hnil in Hl. discriminate.
Qed.

(* ---- DistributeDataPoints ---- *)
Lemma cm_distribute_loop_spec dims : forall ps pool recv t,
  Forall2 P dims pool -> Forall (fun ip => fst ip < length pool) ps ->
  Forall (fun r => r < length pool) recv ->
  wp (cm_distribute_loop E pool ps recv) t (fun pool' t' => t <= t' /\
    Forall2 P dims pool' /\ frame (map fst ps ++ recv) pool pool' /\
    conserves E t t' (stored pool) (stored pool')).
Proof.
  induction ps as [|[i p] ps IH]; intros pool recv t HF Hps Hr; cbn [cm_distribute_loop].
  - apply wp_ret. split; auto. split; auto. split; [apply frame_refl|apply conserves_refl].
  - inversion Hps as [|? ? Hi Hps']; subst. cbn [fst] in Hi. apply wp_bind.
    eapply wp_mono; [apply (c_distribute_spec E HE P PA PR PW dims pool i (Z.of_nat p) recv t HF Hi); auto; lia|].
    cbn beta. intros pool1 t1 (Ht1 & HF1 & Hfr1 & _ & Hc1).
    destruct Hfr1 as [Hl1 Hfr1].
    eapply wp_mono; [apply (IH pool1 recv t1 HF1); rewrite Hl1; auto|].
    cbn beta. intros pool2 t2 (Ht2 & HF2 & Hfr2 & Hc2). split; [lia|]. split; auto. split.
    + eapply frame_trans; [|eapply frame_mono; [|exact Hfr2]].
      * split; auto. intros j Hj. apply Hfr1. cbn [map fst app] in Hj. simpl in *. rewrite in_app_iff in Hj. tauto.
      * intros j Hj. simpl; auto.
    + eapply conserves_seq; eauto.
Qed.

Lemma Forall2_app_repeat n (cs : list Cen) dims ext :
  Forall (P n) cs -> Forall2 P dims ext -> Forall2 P (repeat n (length cs) ++ dims) (cs ++ ext).
Proof. induction 1; simpl; auto. Qed.
Lemma Forall2_split n (cs ext pool : list Cen) dims :
  Forall2 P (repeat n (length cs) ++ dims) pool ->
  Forall (P n) (firstn (length cs) pool) /\ Forall2 P dims (skipn (length cs) pool) /\
  length (firstn (length cs) pool) = length cs.
Proof.
  revert pool. induction cs as [|c cs IH]; intros pool H; cbn [length repeat app] in H.
  - simpl. repeat split; auto.
  - inversion H as [|? c' ? pool' Hc' H']; subst. cbn [length firstn skipn].
    destruct (IH pool' H') as (? & ? & ?). repeat split; simpl; auto.
Qed.

Lemma cm_distribute_spec n m dims ext k recv t :
  cmP n m -> Forall2 P dims ext ->
  Forall (fun r => r < length (cm_cs m) + length ext) recv ->
  wp (cm_distribute E m ext k recv) t (fun r t' => t <= t' /\
    cmP n (fst r) /\ Forall2 P dims (snd r) /\ cm_thresh (fst r) = cm_thresh m /\
    length (cm_cs (fst r)) = length (cm_cs m) /\
    (recv = [] -> r = (m, ext)) /\
    (recv <> [] -> match map c_vec (cm_cs (fst r)) with
     | [] => True
     | v :: rest => cm_vec (fst r) = map (fun x => fdiv x (fold_left (fun k _ => fadd k f1) rest f1))
                            (fold_left (zipw fadd) rest v)
     end) /\
    conserves E t t' (ms m ++ stored ext) (ms (fst r) ++ stored (snd r))).
Proof.
  intros Hm HF Hr. unfold cm_distribute. destruct recv as [|r0 recv0].
  { apply wp_ret. cbn [fst snd]. repeat split; auto; try apply Hm; try congruence. apply conserves_refl. }
  set (recv := r0 :: recv0) in *. apply wp_bind. eapply wp_mono; [apply cm_portions_spec|].
  intros ps t1 (-> & Hpf & _). apply wp_bind.
  eapply wp_mono; [apply (cm_distribute_loop_spec (repeat n (length (cm_cs m)) ++ dims) ps (cm_cs m ++ ext) recv (S t))|].
  - apply Forall2_app_repeat; auto. apply Hm.
  - rewrite app_length. eapply Forall_impl; [|apply (portions_for_range m ps Hpf)]. simpl; intros; lia.
  - rewrite app_length; auto.
  - cbn beta. intros pool t2 (Ht2 & HF2 & _ & Hc2).
    destruct (Forall2_split n (cm_cs m) ext pool dims HF2) as (Hf1 & Hf2 & Hl).
    apply wp_bind.
    eapply wp_mono; [apply (cm_move_vector_spec n (MkCM (cm_vec m) (firstn (length (cm_cs m)) pool) (cm_thresh m)) t2)|].
    { split; auto. apply Hm. }
    intros [ok m'] t3 (-> & Hm' & Hth & Hlm & Hst & _ & Hvec). cbn [fst snd cm_cs cm_thresh] in *.
    apply wp_ret. cbn [fst snd]. split; [lia|]. split; auto. split; auto. split; auto.
    split; [congruence|]. split; [discriminate|]. split; auto.
    rewrite Hst. rewrite stored_app in Hc2.
    eapply conserves_seq with (t' := t2); [lia| |eapply conserves_widen; [| |exact Hc2]; lia|]; [lia|].
    replace (stored pool) with (stored (firstn (length (cm_cs m)) pool) ++ stored (skipn (length (cm_cs m)) pool))
      by (rewrite <- stored_app, firstn_skipn; auto).
    apply conserves_frame. apply conserves_live.
Qed.

Lemma cm_distribute_internal_spec n m k t :
  cmP n m ->
  wp (cm_distribute_internal E m k) t (fun m' t' => t <= t' /\
    cmP n m' /\ cm_thresh m' = cm_thresh m /\ length (cm_cs m') = length (cm_cs m) /\
    (cm_cs m <> [] -> match map c_vec (cm_cs m') with
     | [] => True
     | v :: rest => cm_vec m' = map (fun x => fdiv x (fold_left (fun k _ => fadd k f1) rest f1))
                            (fold_left (zipw fadd) rest v)
     end) /\
    conserves E t t' (ms m) (ms m')).
Proof.
  intros Hm. unfold cm_distribute_internal. apply wp_bind.
  eapply wp_mono; [apply (cm_distribute_spec n m [] [] k (seq 0 (length (cm_cs m))) t Hm); auto|].
  { apply Forall_forall. intros i Hi. apply in_seq in Hi. simpl; lia. }
  intros [m' ext'] t' (Ht & Hm' & HF & Hth & Hl & _ & Hvec & Hc). cbn [fst snd] in *. apply wp_ret.
  inversion HF; subst. unfold stored at 2 4 in Hc. cbn [map concat] in Hc. rewrite !app_nil_r in Hc.
  repeat split; auto; try apply Hm'. intros Hne. apply Hvec. destruct (cm_cs m); [congruence|discriminate].
Qed.
End CMProofs.
