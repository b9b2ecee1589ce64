From Verif Require Import Base Num MathUtils Env Centroid CManager MgrSpec DataSpec DataFacts Wp Exact
  CentroidProofs DistributeProofs PortionsProofs CMProofs.

Ltac splits := repeat match goal with |- _ /\ _ => split end.

Section CMProofs2.
Context {N : Num} (E : Env N) (HE : EnvOk E).
Notation DP := (DataPoint N).
Notation Cen := (Centroid N).
Context (P : nat -> Cen -> Prop).
Context (PA : forall n, AddClosed (P n)) (PR : forall n, RmClosed (P n)).
Context (PW : forall n c, P n c -> cwf n c).
Context (PN : forall n v, length v = n -> P n (new_centroid v)).
Context (V : nat -> CM N -> Prop).
Context (VU : forall n m i c c', cmP P n m -> V n m -> nth_error (cm_cs m) i = Some c ->
                length (c_vec c') = n -> V n (update_centroid m i c c')).
Notation ms m := (stored (cm_cs m)).

(* ---- MemTrim ---- *)
Context (PT : forall n c t, P n c -> wp (c_mem_trim E c) t (fun c' t' =>
   P n c' /\ c_dps c' = live_from E t (c_dps c) /\ t' = t + length (c_dps c))).

Lemma cm_mem_trim_loop_spec : forall todo done n m kept t,
  cmP P n m -> cm_cs m = done ++ todo -> Forall (P n) kept ->
  wp (cm_mem_trim_loop E m (seq (length done) (length todo)) kept) t (fun r t' =>
    let '(m', kept') := r in
    t' = t + length (stored todo) /\ cmP P n m' /\ cm_thresh m' = cm_thresh m /\
    Forall (P n) kept' /\
    exists new, kept' = kept ++ new /\ Forall (fun c => c_dps c <> []) new /\
      stored new = live_from E t (stored todo)).
Proof.
  induction todo as [|c todo IH]; intros done n m kept t Hm Hcs Hk; cbn [length seq cm_mem_trim_loop].
  - apply wp_ret. cbn. split; [lia|]. splits; auto; try apply Hm. exists []. rewrite app_nil_r; auto.
  - assert (Hc : nth_error (cm_cs m) (length done) = Some c) by (rewrite Hcs; apply nth_mid).
    pose proof (cs_length_P P _ _ _ _ Hm Hc) as HPc.
    apply wp_bind. eapply wp_index; [exact Hc|]. apply wp_bind.
    eapply wp_mono; [apply (PT n c t HPc)|].
    cbn beta. intros c' t1 (HPc' & Hd & ->). cbv zeta.
    set (m1 := update_centroid m (length done) c c').
    assert (Hm1 : cmP P n m1) by (apply (update_centroid_P P PW); auto).
    match goal with |- wp (cm_mem_trim_loop _ ?m2 _ ?k2) _ _ => set (m2' := m2); set (k2' := k2) end.
    assert (Hm2 : cmP P n m2').
    { unfold m2'. destruct ((c_len c' =? 1) && (1 <? length (cm_cs m1))); auto.
      split; [|apply Hm1]. cbn [set_vec cm_vec]. rewrite div_length. apply sub_length; auto.
      - rewrite mul_length. apply Hm1.
      - apply PW; auto. }
    assert (Hcs2 : cm_cs m2' = (done ++ [c']) ++ todo).
    { transitivity (cm_cs m1).
      - unfold m2'. destruct ((c_len c' =? 1) && (1 <? length (cm_cs m1))); auto.
      - unfold m1; cbn [update_centroid cm_cs]. rewrite Hcs, set_mid, <- app_assoc. reflexivity. }
    assert (Hth2 : cm_thresh m2' = cm_thresh m).
    { unfold m2'. destruct ((c_len c' =? 1) && (1 <? length (cm_cs m1))); auto. }
    assert (Hk2 : Forall (P n) k2' /\ exists one, k2' = kept ++ one /\ Forall (fun c => c_dps c <> []) one /\
              stored one = c_dps c').
    { unfold k2', c_len. destruct (Nat.eqb_spec (length (c_dps c')) 0) as [H0|H0]; cbn [negb].
      - split; auto. exists []. rewrite app_nil_r. splits; auto.
        apply length_zero_iff_nil in H0. rewrite H0; auto.
      - split; [apply Forall_app; auto|]. exists [c']. splits; auto.
        + constructor; auto. intros H1. apply H0. rewrite H1; auto.
        + unfold stored; cbn. apply app_nil_r. }
    destruct Hk2 as (Hfk & one & Hone & Hne & Hso).
    replace (S (length done)) with (length (done ++ [c'])) by (rewrite app_length; simpl; lia).
    eapply wp_mono; [apply (IH (done ++ [c']) n m2' k2' _ Hm2 Hcs2 Hfk)|].
    intros [m3 k3] t3 (-> & Hm3 & Hth3 & Hfk3 & new & Hnew & Hne2 & Hst).
    rewrite stored_cons, app_length. split; [lia|]. split; auto. split; [congruence|]. split; auto.
    exists (one ++ new). split; [rewrite Hnew, Hone, app_assoc; auto|]. split; [apply Forall_app; auto|].
    rewrite stored_app, live_from_app, Hso, Hd, Hst. reflexivity.
Qed.

Lemma cm_mem_trim_spec n m t :
  cmP P n m ->
  wp (cm_mem_trim E m) t (fun m' t' => t' = t + length (ms m) /\ cmP P n m' /\
    cm_thresh m' = cm_thresh m /\ Forall (fun c => c_dps c <> []) (cm_cs m') /\
    ms m' = live_from E t (ms m)).
Proof.
  intros Hm. unfold cm_mem_trim. apply wp_bind.
  eapply wp_mono; [apply (cm_mem_trim_loop_spec (cm_cs m) [] n m [] t Hm eq_refl); auto|].
  intros [m' kept] t' (-> & Hm' & Hth & Hfk & new & Hnew & Hne & Hst). cbn [app] in Hnew. subst new.
  apply wp_ret. cbn [cm_cs cm_thresh]. splits; auto. split; auto. apply Hm'.
Qed.

(* ---- KNNLookup ---- *)
Lemma lookup_take_all drain : forall ds c res k t,
  length res + length ds <= k ->
  wp (lookup_take E c ds res k drain) t (fun r t' => t' = t /\ r = (res ++ ds, c)).
Proof.
  induction ds as [|d ds IH]; intros c res k t Hl; cbn [lookup_take].
  - apply wp_ret. rewrite app_nil_r; auto.
  - replace (length res <? k) with true by (symmetry; apply Nat.ltb_lt; simpl in Hl; lia).
    eapply wp_mono; [apply (IH c (res ++ [d]) k t)|].
    + rewrite app_length. simpl in *; lia.
    + cbn beta. intros r t' [-> ->]. rewrite <- app_assoc. auto.
Qed.

(* what one visited centroid contributes *)
Lemma lookup_loop_spec v k drain : forall idx n m res t,
  cmP P n m -> V n m -> length res <= k -> NoDup idx -> Forall (fun i => i < length (cm_cs m)) idx ->
  wp (lookup_loop E m idx v k drain res) t (fun r t' => t <= t' /\ cmP P n (snd r) /\ V n (snd r) /\
    cm_thresh (snd r) = cm_thresh m /\ frame idx (cm_cs m) (cm_cs (snd r)) /\
    exists out, fst r = res ++ out /\ length (fst r) <= k /\
      Forall (seen_live E t t') out /\
      (drain = true -> conserves E t t' (ms m) (ms (snd r) ++ out)) /\
      (drain = false -> conserves E t t' (ms m) (ms (snd r)) /\
         exists rest, Permutation (stored (pick idx (cm_cs (snd r)))) (out ++ rest))).
Proof.
  induction idx as [|i idx IH]; intros n m res t Hm HV Hk Hnd Hf; cbn [lookup_loop].
  - apply wp_ret. cbn [fst snd]. split; auto. split; auto. split; auto. split; auto.
    split; [apply frame_refl|]. exists []. rewrite !app_nil_r. split; auto. split; auto. split; auto.
    split; [intros _; apply conserves_refl|]. intros _. split; [apply conserves_refl|]. exists []. auto.
  - inversion Hf as [|? ? Hi Hf']; subst. inversion Hnd as [|? ? Hni Hnd']; subst.
    destruct (Nat.leb_spec k (length res)) as [Hle|Hlt].
    + apply wp_ret. cbn [fst snd]. split; auto. split; auto. split; auto. split; auto.
      split; [apply frame_refl|]. exists []. rewrite !app_nil_r. split; auto. split; auto. split; auto.
      split; [intros _; apply conserves_refl|]. intros _. split; [apply conserves_refl|].
      exists (stored (pick (i :: idx) (cm_cs m))). auto.
    + destruct (nth_error_lt _ i Hi) as (c & Hc).
      pose proof (cs_length_P P _ _ _ _ Hm Hc) as HPc.
      apply wp_bind. eapply wp_index; [exact Hc|]. apply wp_bind.
      eapply wp_mono; [apply (c_knn_lookup_spec E (P n) (PR n) c v _ drain t HE); auto; lia|].
      intros [ds c1] t1 (HPc1 & -> & js & He & Hjn & Hjl & Hjf & Hds & Hd1). cbn [fst snd] in *.
      assert (Hdl : length ds <= k - length res) by (subst ds; rewrite pick_length by auto; lia).
      apply wp_bind. eapply wp_mono; [apply lookup_take_all; lia|].
      intros [res' c2] t2 [-> Heq]. inversion Heq; subst res' c2. clear Heq.
      set (t1 := t + length (c_dps c)).
      eapply wp_mono; [apply (IH n (update_centroid m i c c1) (res ++ ds) t1)|].
      * apply (update_centroid_P P PW); auto.
      * apply VU; auto. apply PW; auto.
      * rewrite app_length. lia.
      * auto.
      * cbn [update_centroid cm_cs]. rewrite list_set_length. auto.
      * cbn beta. intros [res2 m2] t2 (Ht2 & Hm2 & HV2 & Hth & Hfr & out & Hout & Hlen & Hlive & Hdr & Hnd2).
        cbn [fst snd update_centroid cm_cs cm_thresh] in *. unfold t1 in *.
        split; [lia|]. split; auto. split; auto. split; auto.
        destruct Hfr as [Hfl Hfr]. rewrite list_set_length in Hfl. split.
        { split; auto. intros j Hj. rewrite Hfr by (intros H; apply Hj; simpl; auto).
          apply list_set_other. intros ->; apply Hj; simpl; auto. }
        exists (ds ++ out). split; [rewrite Hout, app_assoc; auto|]. split; auto. split.
        { apply Forall_app; split.
          - eapply Forall_impl; [|subst ds; apply picked_live]. intros x; apply seen_live_widen; lia.
          - eapply Forall_impl; [|exact Hlive]. intros x; apply seen_live_widen; lia. }
        split.
        -- intros ->. specialize (Hdr eq_refl).
           assert (Hc1 : conserves E t (t + length (c_dps c)) (c_dps c) (c_dps c1 ++ ds)).
           { rewrite Hd1. subst ds. apply picked_conserves; auto. }
           pose proof (stored_set_out E _ _ _ _ _ _ _ Hc Hc1) as H1.
           eapply conserves_seq; [| exact Ht2|exact H1|]; [lia|].
           eapply conserves_proper; [apply Permutation_refl| |apply (conserves_frame E _ _ _ _ ds Hdr)]. perm.
        -- intros ->. destruct (Hnd2 eq_refl) as [Hc2 (rest & Hrest)]. split.
           ++ assert (Hc1 : conserves E t (t + length (c_dps c)) (c_dps c) (c_dps c1 ++ [])).
              { rewrite Hd1, app_nil_r. apply conserves_live. }
              pose proof (stored_set_out E _ _ _ _ _ _ _ Hc Hc1) as H1. rewrite app_nil_r in H1.
              eapply conserves_seq; [| exact Ht2|exact H1|exact Hc2]; lia.
           ++ assert (Hi2 : nth_error (cm_cs m2) i = Some c1).
              { rewrite Hfr by auto. apply list_set_same; auto. }
              rewrite (pick_cons i idx _ c1 Hi2), stored_cons.
              assert (Hsub : exists rest1, Permutation (c_dps c1) (ds ++ rest1)).
              { exists (without js (live_from E t (c_dps c))). rewrite Hd1. subst ds. apply pick_without; auto. }
              destruct Hsub as (rest1 & Hr1). exists (rest1 ++ rest). rewrite Hr1, Hrest. perm.
Qed.

Lemma stored_perm (a b : list Cen) : Permutation a b -> Permutation (stored a) (stored b).
Proof.
  induction 1 as [|x l l' H IH|x y l|l1 l2 l3 H1 IH1 H2 IH2]; rewrite ?stored_cons; auto.
  - rewrite IH; auto.
  - perm.
  - etransitivity; eauto.
Qed.

Lemma cm_knn_lookup_spec n m v k drain t :
  (0 <= k)%Z -> cmP P n m -> V n m ->
  wp (cm_knn_lookup E m v k drain) t (fun r t' => t <= t' /\ cmP P n (snd r) /\ V n (snd r) /\
    cm_thresh (snd r) = cm_thresh m /\ length (cm_cs (snd r)) = length (cm_cs m) /\
    length (fst r) <= Z.to_nat k /\ Forall (seen_live E t t') (fst r) /\
    (drain = true -> conserves E t t' (ms m) (ms (snd r) ++ fst r)) /\
    (drain = false -> conserves E t t' (ms m) (ms (snd r)) /\
       exists rest, Permutation (ms (snd r)) (fst r ++ rest))).
Proof.
  intros Hk Hm HV. unfold cm_knn_lookup.
  replace (k <? 0)%Z with false by (symmetry; apply Z.ltb_ge; auto).
  apply wp_bind. apply (wp_knn E HE); auto. intros idx He Hnd Hl Hf _.
  eapply wp_mono; [apply (lookup_loop_spec v (Z.to_nat k) drain idx n m [] t); auto; simpl; lia|].
  cbn beta. intros [res m'] t' (Ht & Hm' & HV' & Hth & [Hfl Hfr] & out & Hout & Hlen & Hlive & H1 & H2).
  cbn [fst snd app] in *. subst out. split; auto. split; auto. split; auto. split; auto. split; auto.
  split; auto. split; auto. split; auto. intros Hdf. destruct (H2 Hdf) as [Hcv (rest & Hr)]. split; auto.
  { exists (rest ++ stored (without idx (cm_cs m'))).
    assert (Hpw : Permutation (cm_cs m') (pick idx (cm_cs m') ++ without idx (cm_cs m'))).
    { apply pick_without; auto. rewrite Hfl; auto. }
    rewrite (stored_perm _ _ Hpw), stored_app, Hr. perm. }
Qed.

(* ---- deleting centroids ---- *)
Lemma delete_all_desc : forall js n m t,
  desc js -> Forall (fun i => i < length (cm_cs m)) js -> cmP P n m ->
  wp (delete_all m js) t (fun m' t' => t' = t /\ cmP P n m' /\ cm_thresh m' = cm_thresh m /\
    cm_cs m' = without js (cm_cs m)).
Proof.
  induction js as [|j js IH]; intros n m t Hd Hf Hm; cbn [delete_all].
  - apply wp_ret. splits; auto; try apply Hm. unfold without. rewrite without_from_none; auto.
  - inversion Hd as [|? ? Hlt Hd']; subst. inversion Hf as [|? ? Hj Hf']; subst.
    destruct (nth_error_lt _ j Hj) as (c & Hc). apply wp_bind.
    unfold delete_centroid. apply wp_bind. eapply wp_index; [exact Hc|]. apply wp_ret. cbv zeta.
    eapply wp_mono; [apply (IH n)|]; auto.
    + cbn [cm_cs]. rewrite remove_at_length by auto. eapply Forall_impl; [|exact Hlt]. simpl; intros; lia.
    + split; cbn [cm_vec cm_cs].
      * destruct (0 <? length (cm_cs m)); [|apply Hm]. rewrite div_length.
        apply sub_length; [rewrite mul_length; apply Hm|].
        apply PW. eapply cs_length_P; eauto.
      * apply Forall_remove_at. apply Hm.
    + cbn beta. intros m' t' (-> & Hm' & Hth & Hcs). cbn [cm_cs cm_thresh] in *. splits; auto; try apply Hm'.
      rewrite Hcs. symmetry. eapply without_step; eauto.
Qed.

Lemma cm_nearest_spec n m v k drain t :
  (0 <= k)%Z -> cmP P n m ->
  wp (cm_nearest E m v k drain) t (fun r t' => t' = t /\ cmP P n (snd r) /\
    cm_thresh (snd r) = cm_thresh m /\
    exists idx, e_knn E v (cm_vecs m) k = Ok idx /\ NoDup idx /\
      Forall (fun i => i < length (cm_cs m)) idx /\ length idx <= Z.to_nat k /\
      match fst r with
      | None => idx = [] /\ snd r = m
      | Some cs => idx <> [] /\ cs = pick idx (cm_cs m) /\
          (drain = false -> snd r = m) /\
          (drain = true -> cm_cs (snd r) = without idx (cm_cs m) /\
             Permutation (cm_cs m) (cm_cs (snd r) ++ cs))
      end).
Proof.
  intros Hk Hm. unfold cm_nearest. apply wp_bind. apply (wp_knn E HE); auto.
  intros idx He Hnd Hl Hf _. destruct idx as [|i idx'].
  - apply wp_ret. cbn [fst snd]. splits; auto; try apply Hm. exists []. splits; auto. simpl; lia.
  - set (idx := i :: idx') in *. apply wp_bind. apply index_all_spec; auto. destruct drain.
    + apply wp_bind. eapply wp_mono; [apply (delete_all_desc (rev (sort_ints idx)) n m t)|]; auto.
      * apply desc_rev_sort; auto.
      * eapply Permutation_Forall; [apply Permutation_sym, rev_sort_perm|auto].
      * cbn beta. intros m' t' (-> & Hm' & Hth & Hcs). apply wp_ret. cbn [fst snd].
        assert (Hw : cm_cs m' = without idx (cm_cs m)).
        { rewrite Hcs. apply without_perm_idx, rev_sort_perm. }
        splits; auto; try apply Hm'. exists idx. splits; auto; try lia; try discriminate.
        intros _. split; auto. rewrite Hw. rewrite (pick_without idx (cm_cs m) Hnd Hf) at 1. apply Permutation_app_comm.
    + apply wp_ret. cbn [fst snd]. splits; auto; try apply Hm.
      exists idx. splits; auto; try lia; discriminate.
Qed.

(* ---- SplitCentroids ---- *)
Lemma split_loop_spec p : forall todo done n m fresh t,
  cmP P n m -> cm_cs m = done ++ todo -> Forall (P n) fresh ->
  wp (split_loop E m p (seq (length done) (length todo)) fresh) t (fun r t' =>
    let '(m', fresh') := r in
    t <= t' /\ cmP P n m' /\ cm_thresh m' = cm_thresh m /\ cm_vec m' = cm_vec m /\
    Forall (P n) fresh' /\
    exists todo' new, cm_cs m' = done ++ todo' /\ fresh' = fresh ++ new /\
      Forall2 (fun c c' => p c && (2 <=? c_len c) = false -> c' = c) todo todo' /\
      length new = length (filter (fun c => p c && (2 <=? c_len c)) todo) /\
      conserves E t t' (stored todo) (stored (todo' ++ new)) /\
      (never_expired E (stored todo) ->
         Forall2 (fun c c' => p c && (2 <=? c_len c) = true -> c_len c' = c_len c - c_len c / 2) todo todo' /\
         map (fun c => c_len c) new =
           map (fun c => c_len c / 2) (filter (fun c => p c && (2 <=? c_len c)) todo))).
Proof.
  induction todo as [|c todo IH]; intros done n m fresh t Hm Hcs Hfr; cbn [length seq split_loop].
  - apply wp_ret. split; auto. splits; auto; try apply Hm. exists [], []. rewrite !app_nil_r.
    splits; auto; try apply conserves_refl.
    rewrite Hcs, app_nil_r; auto.
  - assert (Hc : nth_error (cm_cs m) (length done) = Some c) by (rewrite Hcs; apply nth_mid).
    pose proof (cs_length_P P _ _ _ _ Hm Hc) as HPc.
    apply wp_bind. eapply wp_index; [exact Hc|].
    (* one step: either nothing happens or the centroid is split *)
    assert (Hskip : forall t1, t <= t1 -> p c && (2 <=? c_len c) = false ->
      wp (split_loop E m p (seq (S (length done)) (length todo)) fresh) t1 (fun r t' =>
    let '(m', fresh') := r in
    t <= t' /\ cmP P n m' /\ cm_thresh m' = cm_thresh m /\ cm_vec m' = cm_vec m /\
    Forall (P n) fresh' /\
    exists todo' new, cm_cs m' = done ++ todo' /\ fresh' = fresh ++ new /\
      Forall2 (fun c c' => p c && (2 <=? c_len c) = false -> c' = c) (c :: todo) todo' /\
      length new = length (filter (fun c => p c && (2 <=? c_len c)) (c :: todo)) /\
      conserves E t t' (stored (c :: todo)) (stored (todo' ++ new)) /\
      (never_expired E (stored (c :: todo)) ->
         Forall2 (fun c c' => p c && (2 <=? c_len c) = true -> c_len c' = c_len c - c_len c / 2) (c :: todo) todo' /\
         map (fun c => c_len c) new =
           map (fun c => c_len c / 2) (filter (fun c => p c && (2 <=? c_len c)) (c :: todo))))).
    { intros t1 Ht1 Hno.
      replace (S (length done)) with (length (done ++ [c])) by (rewrite app_length; simpl; lia).
      eapply wp_mono; [apply (IH (done ++ [c]) n m fresh t1 Hm)|]; auto.
      { rewrite Hcs, <- app_assoc; auto. }
      intros [m' fresh'] t' (Ht' & Hm' & Hth & Hv & Hfr' & todo' & new & Hcs' & Hnew & HF & Hln & Hcons & Hex).
      split; [lia|]. splits; auto; try apply Hm'.
      exists (c :: todo'), new. cbn [filter]. rewrite Hno.
      split; [rewrite Hcs', <- app_assoc; auto|]. split; auto. split; [constructor; auto|]. split; auto. split.
      - cbn [app]. rewrite !stored_cons. apply conserves_frame_l.
        eapply conserves_widen; [| |exact Hcons]; lia.
      - intros Hne. destruct Hex as [H1 H2].
        + intros k d Hd. apply Hne. rewrite stored_cons. apply in_or_app; auto.
        + split; auto. constructor; auto. congruence. }
    destruct (p c) eqn:Hp; cbn [negb].
    2:{ apply Hskip; auto. }
    apply wp_bind.
    eapply wp_mono; [apply (split_centroid_spec E P PA PR PW PN n m (length done) (Z.of_nat (c_len c / 2)) t Hm)|].
    intros o t1 (Ht1 & Ho).
    assert (Hdiv : 0 < c_len c / 2 <-> 2 <= c_len c).
    { split; intros H.
      - destruct (Nat.le_gt_cases 2 (c_len c)); auto. rewrite Nat.div_small in H by lia. lia.
      - apply Nat.div_str_pos. lia. }
    destruct o as [[old' new1]|].
    + destruct Ho as (Htrim & c1 & ds & Hc1 & HPo & HPf & t2 & Ht2 & Ht2' & Ht1' & Hdr & Hdf).
      assert (c1 = c) by congruence. subst c1. clear Hc1. rewrite Nat2Z.id in Hdr.
      assert (Hbig : 2 <= c_len c) by (apply Hdiv; lia).
      assert (Hsel : p c && (2 <=? c_len c) = true).
      { rewrite Hp. cbn [andb]. apply Nat.leb_le; auto. }
      replace (S (length done)) with (length (done ++ [old'])) by (rewrite app_length; simpl; lia).
      eapply wp_mono; [apply (IH (done ++ [old']) n (set_centroid m (length done) old') (fresh ++ [new1]) t1)|].
      * split; cbn [set_centroid cm_vec cm_cs]; [apply Hm|]. apply Forall_list_set; auto. apply Hm.
      * cbn [set_centroid cm_cs]. rewrite Hcs, set_mid, <- app_assoc. reflexivity.
      * apply Forall_app; auto.
      * intros [m' fresh'] t' (Ht' & Hm' & Hth & Hv & Hfr' & todo' & new & Hcs' & Hnew & HF & Hln & Hcons & Hex).
        cbn [set_centroid cm_vec cm_thresh] in *.
        split; [lia|]. splits; auto; try apply Hm'.
        exists (old' :: todo'), (new1 :: new). cbn [filter]. rewrite Hsel.
        split; [rewrite Hcs', <- app_assoc; auto|].
        split; [rewrite Hnew, <- app_assoc; auto|]. split; [constructor; auto; congruence|].
        split; [simpl; auto|]. split.
        -- eapply conserves_proper with (a := c_dps c ++ stored todo)
             (b := (c_dps old' ++ c_dps new1) ++ stored (todo' ++ new)).
           ++ rewrite stored_cons. apply Permutation_refl.
           ++ cbn [app]. rewrite stored_cons, !stored_app, stored_cons. perm.
           ++ apply conserves_app.
              ** eapply conserves_widen with (t := t) (t' := t1); [lia|lia|].
                 eapply split_conserves; eauto.
              ** eapply conserves_widen; [| |exact Hcons]; lia.
        -- intros Hne. destruct Hex as [H1 H2].
           ++ intros k d Hd. apply Hne. rewrite stored_cons. apply in_or_app; auto.
           ++ assert (Hnc : forall k d, In d (c_dps c) -> expired_at (e_now E k) d = false).
              { intros k d Hd. apply Hne. rewrite stored_cons. apply in_or_app; auto. }
              destruct Hdr as (pre & Hl & Hds & _ & Hle & Hlt & _).
              rewrite (live_from_all E t pre) in Hds.
              2:{ intros k d _ Hd. apply Hnc. rewrite Hl. apply in_or_app; auto. }
              assert (Hlds : length ds = c_len c / 2).
              { destruct (Nat.eq_dec (length ds) (c_len c / 2)); auto.
                assert (Hpost : c_dps old' = []) by (apply Hlt; lia).
                rewrite Hpost, app_nil_r in Hl. unfold c_len in *. subst ds. rewrite Hl in *.
                pose proof (Nat.div_lt (length pre) 2). lia. }
              split; [constructor; auto|].
              ** intros _. unfold c_len in *. rewrite Hl. rewrite Hl in Hlds. rewrite app_length in *.
                 subst ds. lia.
              ** cbn [map]. f_equal; auto. unfold c_len at 1. rewrite Hdf, (live_from_all E t2 ds); auto.
                 intros k d _ Hd. apply Hnc. rewrite Hl. apply in_or_app; left. subst ds; auto.
    + apply Hskip; auto. destruct Ho as [Ho|Ho]; [|congruence].
      apply Nat.leb_gt. lia.
Qed.

Lemma cm_split_spec n m p t :
  cmP P n m ->
  wp (cm_split E m p) t (fun m' t' => t <= t' /\ cmP P n m' /\ cm_thresh m' = cm_thresh m /\
    cm_vec m' = cm_vec m /\ conserves E t t' (ms m) (ms m') /\
    exists cs' new, cm_cs m' = cs' ++ new /\
      Forall2 (fun c c' => p c && (2 <=? c_len c) = false -> c' = c) (cm_cs m) cs' /\
      length new = length (filter (fun c => p c && (2 <=? c_len c)) (cm_cs m)) /\
      (never_expired E (ms m) ->
         Forall2 (fun c c' => p c && (2 <=? c_len c) = true -> c_len c' = c_len c - c_len c / 2) (cm_cs m) cs' /\
         map (fun c => c_len c) new =
           map (fun c => c_len c / 2) (filter (fun c => p c && (2 <=? c_len c)) (cm_cs m)))).
Proof.
  intros Hm. unfold cm_split. apply wp_bind.
  eapply wp_mono; [apply (split_loop_spec p (cm_cs m) [] n m [] t Hm eq_refl); auto|].
  intros [m' fresh] t' (Ht & Hm' & Hth & Hv & Hfr & cs' & new & Hcs & Hnew & H1 & H2 & H3 & H4).
  cbn [app] in *. subst new. apply wp_ret. cbn [cm_cs cm_thresh cm_vec].
  rewrite Hcs. splits; auto.
  - split; cbn [cm_vec cm_cs]; [apply Hm'|]. rewrite <- Hcs. apply Forall_app; split; auto. apply Hm'.
  - exists cs', fresh. splits; auto.
Qed.

(* ---- MergeCentroids ---- *)
Definition marks_ok (cs : list Cen) (marks : list bool) : Prop :=
  length marks = length cs /\
  forall j c, nth_error marks j = Some true -> nth_error cs j = Some c -> c_dps c = [].

Lemma drained_prefix_full t t' l ds post :
  drained_prefix E t t' l (length l) ds post -> post = [].
Proof.
  intros (pre & Hl & Hds & _ & Hle & Hlt & _).
  destruct (Nat.eq_dec (length ds) (length l)) as [He|He]; [|apply Hlt; lia].
  pose proof (live_from_length E t pre) as H. rewrite <- Hds, He, Hl, app_length in H.
  apply length_zero_iff_nil. lia.
Qed.

Lemma stored_set2 (cs : list Cen) i c c' : nth_error cs i = Some c ->
  exists rest, Permutation (stored cs) (c_dps c ++ rest) /\
               Permutation (stored (list_set cs i c')) (c_dps c' ++ rest).
Proof. intros H. apply concat_set_perm; auto. Qed.

(* marks only grow *)
Definition marks_le (a b : list bool) : Prop :=
  length b = length a /\ forall j, nth_error a j = Some true -> nth_error b j = Some true.
Lemma marks_le_refl a : marks_le a a.
Proof. split; auto. Qed.
Lemma marks_le_trans a b c : marks_le a b -> marks_le b c -> marks_le a c.
Proof. intros [H1 H2] [H3 H4]. split; [congruence|auto]. Qed.
Lemma marks_le_set a j : j < length a -> marks_le a (list_set a j true).
Proof.
  intros H. split; [apply list_set_length|]. intros k Hk.
  destruct (Nat.eq_dec j k) as [<-|Hn]; [apply list_set_same; auto|rewrite list_set_other; auto].
Qed.

Lemma merge_inner_spec p i : forall idx n cs marks t,
  Forall (P n) cs -> marks_ok cs marks -> i < length cs -> nth_error marks i = Some false ->
  Forall (fun j => j < length cs) idx ->
  wp (merge_inner E cs marks i p idx) t (fun r t' => let '(cs', marks') := r in t <= t' /\
    Forall (P n) cs' /\ length cs' = length cs /\ marks_ok cs' marks' /\ marks_le marks marks' /\
    nth_error marks' i = Some false /\
    conserves E t t' (stored cs) (stored cs') /\
    ((forall c, p c = true) -> forall j, In j idx -> j <> i -> nth_error marks' j = Some true)).
Proof.
  induction idx as [|j idx IH]; intros n cs marks t HF Hmk Hi Hmi Hf; cbn [merge_inner].
  - apply wp_ret. split; auto. split; auto. split; auto. split; auto. split; [apply marks_le_refl|].
    split; auto. split; [apply conserves_refl|]. simpl; contradiction.
  - inversion Hf as [|? ? Hj Hf']; subst. destruct Hmk as [Hml Hmk].
    assert (Hjm : j < length marks) by lia.
    destruct (nth_error_lt marks j Hjm) as (mj & Hmj).
    apply wp_bind. eapply wp_index; [exact Hmj|].
    destruct ((j =? i) || mj) eqn:Hskip.
    + eapply wp_mono; [apply (IH n cs marks t); auto; split; auto|].
      intros [cs' marks'] t' (H1 & H2 & H3 & H4 & H5 & H6 & H7 & H8). splits; auto; try apply H4; try apply H5.
      intros Hp k [<-|Hk] Hne; [|apply H8; auto].
      apply orb_true_iff in Hskip. destruct Hskip as [Hs|Hs]; [apply Nat.eqb_eq in Hs; congruence|].
      subst mj. apply H5; auto.
    + apply orb_false_iff in Hskip. destruct Hskip as [Hji Hmf]. apply Nat.eqb_neq in Hji. subst mj.
      destruct (nth_error_lt cs j Hj) as (other & Ho). cbv zeta.
      apply wp_bind. eapply wp_index; [exact Ho|].
      pose proof (Forall_nth_error _ _ _ _ HF Ho) as HPo.
      apply wp_bind.
      eapply wp_mono; [apply (c_drain_unordered_spec E (P n) (RmClosed_0 _ (PR n)) other _ t); auto; lia|].
      intros [ds other'] t1 (HPo' & Hdr). cbn [fst snd] in *. rewrite Nat2Z.id in Hdr.
      pose proof (drained_prefix_full _ _ _ _ _ Hdr) as Hempty.
      destruct (drained_prefix_conserves _ _ _ _ _ _ _ Hdr) as [Ht1 Hc1].
      assert (Hds : Forall (fun d => length (dp_vec d) = n) ds).
      { destruct (PW _ _ HPo) as [_ Hfo].
        pose proof (conserves_Forall _ _ _ _ _ _ Hc1 Hfo) as H. apply Forall_app in H; tauto. }
      set (cs1 := list_set cs j other').
      assert (HF1 : Forall (P n) cs1) by (apply Forall_list_set; auto).
      assert (Hl1 : length cs1 = length cs) by apply list_set_length.
      destruct (nth_error_lt cs1 i ltac:(lia)) as (cand & Hcand).
      apply wp_bind. eapply wp_index; [exact Hcand|].
      apply wp_bind. eapply wp_mono; [apply (add_all_spec E P PA PW n ds cand t1)|]; auto.
      { exact (Forall_nth_error _ _ _ _ HF1 Hcand). }
      cbn beta. intros cand' t2 (-> & HPc' & Hdc').
      set (cs2 := list_set cs1 i cand'). set (marks' := list_set marks j true).
      assert (HF2 : Forall (P n) cs2) by (apply Forall_list_set; auto).
      assert (Hl2 : length cs2 = length cs) by (unfold cs2; rewrite list_set_length; auto).
      assert (Hmk2 : marks_ok cs2 marks').
      { split; [unfold marks'; rewrite list_set_length; lia|]. intros k c Hk Hc.
        unfold marks' in Hk. unfold cs2, cs1 in Hc.
        destruct (Nat.eq_dec i k) as [<-|Hik].
        - rewrite list_set_other in Hk by auto. congruence.
        - rewrite list_set_other in Hc by auto. destruct (Nat.eq_dec j k) as [<-|Hjk].
          + rewrite list_set_same in Hc by auto. injection Hc as <-. auto.
          + rewrite list_set_other in Hc by auto. rewrite list_set_other in Hk by auto. eapply Hmk; eauto. }
      assert (Hle : marks_le marks marks') by (apply marks_le_set; auto).
      assert (Hmi' : nth_error marks' i = Some false) by (unfold marks'; rewrite list_set_other; auto).
      assert (Hcons : conserves E t (t1 + length ds) (stored cs) (stored cs2)).
      { assert (HcA : conserves E t t1 (c_dps other) (c_dps other' ++ ds)) by exact Hc1.
        pose proof (stored_set_out E cs j other other' t t1 ds Ho HcA) as HA. fold cs1 in HA.
        assert (HcB : conserves E t1 (t1 + length ds) (c_dps cand ++ ds) (c_dps cand')).
        { rewrite Hdc'. apply conserves_frame_l, conserves_live. }
        pose proof (stored_set E cs1 i cand cand' _ _ ds Hcand HcB) as HB.
        eapply conserves_seq; [exact Ht1| |exact HA|exact HB]. lia. }
      destruct (p cand') eqn:Hpc.
      * eapply wp_mono; [apply (IH n cs2 marks' (t1 + length ds) HF2 Hmk2)|]; auto.
        { lia. }
        { rewrite Hl2; auto. }
        intros [cs3 marks3] t3 (H1 & H2 & H3 & H4 & H5 & H6 & H7 & H8).
        split; [lia|]. split; auto. split; [lia|]. split; auto. split; [eapply marks_le_trans; eauto|].
        split; auto. split; [eapply conserves_seq; [| |exact Hcons|exact H7]; lia|].
        intros Hp k [<-|Hk] Hne; [|apply H8; auto]. apply H5. apply list_set_same; auto.
      * apply wp_ret. split; [lia|]. split; auto. split; auto. split; auto. split; auto. split; auto.
        split; auto. intros Hp. rewrite Hp in Hpc. discriminate.
Qed.

Lemma merge_outer_spec p : forall is n m marks t,
  cmP P n m -> marks_ok (cm_cs m) marks -> Forall (fun i => i < length (cm_cs m)) is ->
  wp (merge_outer E m marks p is) t (fun r t' => let '(m', marks') := r in t <= t' /\
    cmP P n m' /\ cm_thresh m' = cm_thresh m /\ length (cm_cs m') = length (cm_cs m) /\
    marks_ok (cm_cs m') marks' /\ marks_le marks marks' /\
    conserves E t t' (ms m) (ms m')).
Proof.
  induction is as [|i is IH]; intros n m marks t Hm Hmk Hf; cbn [merge_outer].
  - apply wp_ret. splits; auto; try apply Hm; try apply Hmk. apply marks_le_refl. apply conserves_refl.
  - inversion Hf as [|? ? Hi Hf']; subst. destruct Hmk as [Hml Hmk].
    destruct (nth_error_lt _ i Hi) as (cand & Hcand).
    destruct (nth_error_lt marks i ltac:(lia)) as (mi & Hmi).
    apply wp_bind. eapply wp_index; [exact Hcand|]. apply wp_bind. eapply wp_index; [exact Hmi|].
    destruct (negb (p cand) || mi) eqn:Hskip.
    { apply IH; auto. split; auto. }
    apply orb_false_iff in Hskip. destruct Hskip as [_ ->].
    apply wp_bind. apply (wp_knn E HE); [lia|]. intros idx He Hnd Hl Hfi _.
    apply wp_bind. eapply wp_mono; [apply (merge_inner_spec p i idx n (cm_cs m) marks t); auto|].
    { apply Hm. } { split; auto. }
    intros [cs' marks'] t1 (Ht1 & HF1 & Hl1 & Hmk1 & Hle1 & Hmi1 & Hc1 & _).
    destruct (nth_error_lt cs' i ltac:(lia)) as (cand' & Hcand').
    apply wp_bind. eapply wp_index; [exact Hcand'|]. cbv zeta.
    eapply wp_mono; [apply (IH n (MkCM (vec_update (cm_vec m) (length cs') (c_vec cand) (c_vec cand')) cs' (cm_thresh m)) marks' t1)|].
    + split; cbn [cm_vec cm_cs]; auto. apply vec_update_length; [apply Hm| |]; apply PW.
      * eapply cs_length_P; eauto.
      * exact (Forall_nth_error _ _ _ _ HF1 Hcand').
    + auto.
    + cbn [cm_cs]. rewrite Hl1. auto.
    + intros [m' marks2] t2 (Ht2 & Hm' & Hth & Hl2 & Hmk2 & Hle2 & Hc2). cbn [cm_cs cm_thresh] in *.
      split; [lia|]. split; auto. split; auto. split; [congruence|]. split; auto.
      split; [eapply marks_le_trans; eauto|]. eapply conserves_seq; [exact Ht1|exact Ht2|exact Hc1|exact Hc2].
Qed.

Lemma desc_rev_seq : forall k s, desc (rev (seq s k)).
Proof.
  induction k as [|k IH]; intros s; cbn [seq rev]; [constructor|].
  apply desc_app; auto.
  - repeat constructor.
  - intros a b Ha [<-|[]]. apply in_rev, in_seq in Ha. lia.
Qed.
Lemma desc_filter f l : desc l -> desc (filter f l).
Proof.
  induction 1 as [|x l Hf Hd IH]; cbn [filter]; [constructor|]. destruct (f x); auto.
  constructor; auto. rewrite Forall_forall in *. intros y Hy. apply filter_In in Hy. apply Hf; tauto.
Qed.
Lemma in_marked marks j : In j (marked marks) <-> nth_error marks j = Some true.
Proof.
  unfold marked. rewrite filter_In, <- in_rev, in_seq. split.
  - intros [[_ Hj] Hn]. destruct (nth_error_lt marks j Hj) as (b & Hb).
    rewrite (nth_error_nth _ _ _ Hb) in Hn. congruence.
  - intros Hn. split; [split; [lia|]; apply nth_error_len in Hn; auto|]. apply (nth_error_nth marks j false Hn).
Qed.

Lemma stored_pick_empty (cs : list Cen) idx :
  (forall j c, In j idx -> nth_error cs j = Some c -> c_dps c = []) -> stored (pick idx cs) = [].
Proof.
  induction idx as [|j idx IH]; intros H; auto.
  unfold pick; cbn [flat_map]. fold (pick idx cs). destruct (nth_error cs j) as [c|] eqn:Hc.
  - cbn [app]. rewrite stored_cons, (H j c), IH; simpl; auto. intros; apply (H j0 c0); simpl; auto.
  - cbn [app]. apply IH. intros; apply (H j0 c); simpl; auto.
Qed.

Lemma NoDup_desc l : desc l -> NoDup l.
Proof.
  induction 1 as [|x l Hf Hd IH]; constructor; auto. intros Hin. rewrite Forall_forall in Hf.
  specialize (Hf _ Hin). lia.
Qed.

Lemma cm_merge_spec n m p t :
  cmP P n m ->
  wp (cm_merge E m p) t (fun m' t' => t <= t' /\ cmP P n m' /\ cm_thresh m' = cm_thresh m /\
    conserves E t t' (ms m) (ms m') /\
    exists m1 del, length (cm_cs m1) = length (cm_cs m) /\ cm_cs m' = without del (cm_cs m1) /\
      (forall j c, In j del -> nth_error (cm_cs m1) j = Some c -> c_dps c = [])).
Proof.
  intros Hm. unfold cm_merge. apply wp_bind.
  eapply wp_mono; [apply (merge_outer_spec p (seq 0 (length (cm_cs m))) n m (repeat false (length (cm_cs m))) t Hm)|].
  - split; [apply repeat_length|]. intros j c Hj. apply nth_error_In, repeat_spec in Hj. discriminate.
  - apply Forall_forall. intros i Hi. apply in_seq in Hi. lia.
  - intros [m1 marks] t1 (Ht1 & Hm1 & Hth & Hl & [Hml Hmk] & _ & Hc1).
    assert (Hd : desc (marked marks)) by (apply desc_filter, desc_rev_seq).
    assert (Hrange : Forall (fun i => i < length (cm_cs m1)) (marked marks)).
    { apply Forall_forall. intros j Hj. apply in_marked, nth_error_len in Hj. lia. }
    eapply wp_mono; [apply (delete_all_desc (marked marks) n m1 t1 Hd Hrange Hm1)|].
    cbn beta. intros m' t' (-> & Hm' & Hth' & Hcs). split; auto. split; auto. split; [congruence|].
    assert (Hemp : forall j c, In j (marked marks) -> nth_error (cm_cs m1) j = Some c -> c_dps c = []).
    { intros j c Hj Hc. apply in_marked in Hj. eauto. }
    split.
    + eapply conserves_trans; [exact Hc1|]. apply conserves_perm.
      rewrite (stored_perm _ _ (pick_without (marked marks) (cm_cs m1) (NoDup_desc _ Hd) Hrange)).
      rewrite stored_app, (stored_pick_empty _ _ Hemp), Hcs. auto.
    + exists m1, (marked marks). auto.
Qed.
End CMProofs2.
