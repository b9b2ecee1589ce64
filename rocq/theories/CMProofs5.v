From Verif Require Import Base Num MathUtils Env Centroid CManager MgrSpec MgrSpec2 DataSpec DataFacts Wp Exact
  CentroidProofs DistributeProofs PortionsProofs CMProofs CMProofs2 CMProofs3 Props03Lemmas CMProofs4.
Local Open Scope nat_scope.

(* ---- merging ---- *)
Section Merge.
Context {N : Num} (E : Env N) (HE : EnvOk E).
Notation DP := (DataPoint N).
Notation Cen := (Centroid N).
Notation ms m := (stored (cm_cs m)).
Notation cmW := (cmP (N := N) cwf).
Context (p : Cen -> bool).

Lemma absorbed_trans x y z : absorbed p x y -> absorbed p y z -> absorbed p x z.
Proof. intros H. induction 1; auto. eapply ab_more; eauto. Qed.

Lemma merge_inner_absorbs i : forall idx n cs marks cand t,
  Forall (cwf n) cs -> marks_ok cs marks -> nth_error marks i = Some false ->
  Forall (fun j => j < length cs) idx -> nth_error cs i = Some cand -> p cand = true ->
  wp (merge_inner E cs marks i p idx) t (fun r _ => let '(cs', marks') := r in
    (forall k, k <> i -> nth_error marks' k = Some false -> nth_error cs' k = nth_error cs k) /\
    exists cand', nth_error cs' i = Some cand' /\ absorbed p cand cand' /\
      (p cand' = false \/ forall j, In j idx -> j <> i -> nth_error marks' j = Some true)).
Proof.
  induction idx as [|j idx IH]; intros n cs marks cand t HF Hmk Hmi Hf Hcand Hp; cbn [merge_inner].
  - apply wp_ret. split; auto. exists cand. splits; auto; [constructor|]. right. intros j [].
  - inversion Hf as [|? ? Hj Hf']; subst. destruct Hmk as [Hml Hmk].
    assert (Hjm : j < length marks) by lia.
    destruct (nth_error_lt marks j Hjm) as (mj & Hmj).
    apply wp_bind. eapply wp_index; [exact Hmj|].
    destruct ((j =? i) || mj) eqn:Hskip.
    + eapply wp_mono; [apply (wp_conj _ _ _ _ (merge_inner_spec E cwf cwf_add cwf_rm cwf_id p i idx n cs marks t HF (conj Hml Hmk)
        (nth_error_len _ _ _ Hcand) Hmi Hf') (IH n cs marks cand t HF (conj Hml Hmk) Hmi Hf' Hcand Hp))|].
      intros [cs' marks'] t' ((_ & _ & _ & _ & [_ Hle] & _) & H1 & cand' & H2 & H3 & H4). split; auto.
      exists cand'. splits; auto. destruct H4 as [H4|H4]; auto. right. intros k [<-|Hk] Hne; [|apply H4; auto].
      apply orb_true_iff in Hskip. destruct Hskip as [Hs|Hs]; [apply Nat.eqb_eq in Hs; congruence|].
      subst mj. apply Hle; auto.
    + apply orb_false_iff in Hskip. destruct Hskip as [Hji Hmf]. apply Nat.eqb_neq in Hji. subst mj.
      destruct (nth_error_lt cs j Hj) as (other & Ho). cbv zeta.
      apply wp_bind. eapply wp_index; [exact Ho|].
      pose proof (Forall_nth_error _ _ _ _ HF Ho) as HPo.
      apply wp_bind.
      eapply wp_mono; [apply (c_drain_unordered_spec E (cwf n) (RmClosed_0 _ (cwf_rm n)) other _ t); auto; lia|].
      intros [ds other'] t1 (HPo' & Hdr). cbn [fst snd] in *. rewrite Nat2Z.id in Hdr.
      pose proof (drained_prefix_full E _ _ _ _ _ Hdr) as Hempty.
      destruct (drained_prefix_conserves _ _ _ _ _ _ _ Hdr) as [Ht1 Hc1].
      assert (Hds : Forall (fun d => length (dp_vec d) = n) ds).
      { destruct HPo as [_ Hfo].
        pose proof (conserves_Forall _ _ _ _ _ _ Hc1 Hfo) as H. apply Forall_app in H; tauto. }
      set (cs1 := list_set cs j other').
      assert (HF1 : Forall (cwf n) cs1) by (apply Forall_list_set; auto).
      assert (Hcand1 : nth_error cs1 i = Some cand) by (unfold cs1; rewrite list_set_other; auto).
      apply wp_bind. eapply wp_index; [exact Hcand1|].
      apply wp_bind. eapply wp_mono; [apply (add_all_spec E cwf cwf_add cwf_id n ds cand t1)|]; auto.
      { exact (Forall_nth_error _ _ _ _ HF1 Hcand1). }
      cbn beta. intros cand' t2 (-> & HPc' & Hdc').
      set (cs2 := list_set cs1 i cand'). set (marks' := list_set marks j true).
      assert (Hil : i < length cs) by (eapply nth_error_len; eauto).
      assert (HF2 : Forall (cwf n) cs2) by (apply Forall_list_set; auto).
      assert (Hl2 : length cs2 = length cs) by (unfold cs2, cs1; rewrite !list_set_length; auto).
      assert (Hcand2 : nth_error cs2 i = Some cand').
      { unfold cs2. apply list_set_same. unfold cs1. rewrite list_set_length. auto. }
      assert (Hmk2 : marks_ok cs2 marks').
      { split; [unfold marks'; rewrite list_set_length; lia|]. intros k c Hk Hc.
        unfold marks' in Hk. unfold cs2, cs1 in Hc.
        destruct (Nat.eq_dec i k) as [<-|Hik].
        - rewrite list_set_other in Hk by auto. congruence.
        - rewrite list_set_other in Hc by auto. destruct (Nat.eq_dec j k) as [<-|Hjk].
          + rewrite list_set_same in Hc by auto. injection Hc as <-. auto.
          + rewrite list_set_other in Hc by auto. rewrite list_set_other in Hk by auto. eapply Hmk; eauto. }
      assert (Hmi' : nth_error marks' i = Some false) by (unfold marks'; rewrite list_set_other; auto).
      assert (Habs : absorbed p cand cand') by (eapply ab_more; [apply ab_none|auto|exact Hdc']).
      assert (Hsame : forall k, k <> i -> k <> j -> nth_error cs2 k = nth_error cs k).
      { intros k Hki Hkj. unfold cs2, cs1. rewrite !list_set_other; auto. }
      assert (Hjt : nth_error marks' j = Some true) by (apply list_set_same; auto).
      destruct (p cand') eqn:Hpc.
      * assert (Hf2 : Forall (fun j => j < length cs2) idx) by (rewrite Hl2; auto).
        eapply wp_mono; [apply (wp_conj _ _ _ _ (merge_inner_spec E cwf cwf_add cwf_rm cwf_id p i idx n cs2 marks' (t1 + length ds)
          HF2 Hmk2 ltac:(lia) Hmi' Hf2) (IH n cs2 marks' cand' (t1 + length ds) HF2 Hmk2 Hmi' Hf2 Hcand2 Hpc))|].
        intros [cs3 marks3] t3 ((_ & _ & _ & _ & [_ Hle] & _) & H1 & cand3 & H2 & H3 & H4). split.
        { intros k Hki Hk. rewrite H1 by auto. apply Hsame; auto. intros ->. rewrite (Hle _ Hjt) in Hk. discriminate. }
        exists cand3. splits; auto; [eapply absorbed_trans; eauto|]. destruct H4 as [H4|H4]; auto. right.
        intros k [<-|Hk] Hne; auto.
      * apply wp_ret. split.
        { intros k Hki Hk. apply Hsame; auto. intros ->. congruence. }
        exists cand'. splits; auto.
Qed.

(* The positions below [i] have been visited. *)
Definition merging (cs0 : list Cen) (i : nat) (cs : list Cen) (marks : list bool) : Prop :=
  forall k c, nth_error marks k = Some false -> nth_error cs k = Some c ->
    exists c0, nth_error cs0 k = Some c0 /\ absorbed p c0 c /\ (i <= k -> c = c0).
Definition settled (i : nat) (cs : list Cen) (marks : list bool) : Prop :=
  (exists k, forall j, j < length cs -> j <> k -> nth_error marks j = Some true) \/
  (forall k c, k < i -> nth_error marks k = Some false -> nth_error cs k = Some c -> p c = false).

Lemma idx_all (L : nat) idx : NoDup idx -> length idx = L -> Forall (fun i => i < L) idx -> forall j, j < L -> In j idx.
Proof.
  intros Hnd Hl Hf j Hj. apply (NoDup_length_incl Hnd (l' := seq 0 L)).
  - rewrite seq_length. lia.
  - intros k Hk. apply in_seq. rewrite Forall_forall in Hf. specialize (Hf k Hk). lia.
  - apply in_seq. lia.
Qed.

Lemma merge_outer_absorbs cs0 : forall l i n m marks t,
  cmW n m -> marks_ok (cm_cs m) marks -> i + l = length (cm_cs m) -> merging cs0 i (cm_cs m) marks ->
  (finds_all E -> settled i (cm_cs m) marks) ->
  wp (merge_outer E m marks p (seq i l)) t (fun r _ => let '(m', marks') := r in
    merging cs0 (i + l) (cm_cs m') marks' /\ (finds_all E -> settled (i + l) (cm_cs m') marks')).
Proof.
  induction l as [|l IH]; intros i n m marks t Hm Hmk Hl Hmg Hst; cbn [seq merge_outer].
  - apply wp_ret. rewrite Nat.add_0_r. auto.
  - assert (Hi : i < length (cm_cs m)) by lia.
    assert (Hml := proj1 Hmk). destruct (nth_error_lt _ i Hi) as (cand & Hcand).
    destruct (nth_error_lt marks i ltac:(lia)) as (mi & Hmi).
    apply wp_bind. eapply wp_index; [exact Hcand|]. apply wp_bind. eapply wp_index; [exact Hmi|].
    replace (i + S l) with (S i + l) by lia.
    destruct (negb (p cand) || mi) eqn:Hskip.
    { apply (IH (S i) n); auto; [lia| |].
      - intros k c Hk Hc. destruct (Hmg k c Hk Hc) as (c0 & H1 & H2 & H3). exists c0. splits; auto. intros; apply H3; lia.
      - intros HA. destruct (Hst HA) as [H|H]; [left; auto|right]. intros k c Hk Hmk' Hc.
        destruct (Nat.eq_dec k i) as [->|]; [|apply (H k); auto; lia].
        assert (mi = false) by congruence. subst mi. rewrite orb_false_r in Hskip. apply negb_true_iff in Hskip. congruence. }
    apply orb_false_iff in Hskip. destruct Hskip as [Hp ->]. apply negb_false_iff in Hp.
    apply wp_bind. apply (wp_knn E HE); [lia|]. intros idx He Hnd Hlen Hfi _.
    assert (Hin : nth_error marks i = Some false) by auto.
    apply wp_bind. eapply wp_mono; [apply (wp_conj _ _ _ _ (merge_inner_spec E cwf cwf_add cwf_rm cwf_id p i idx n (cm_cs m) marks t
       (proj2 Hm) Hmk Hi Hmi Hfi) (merge_inner_absorbs i idx n (cm_cs m) marks cand t (proj2 Hm) Hmk Hmi Hfi Hcand Hp))|].
    intros [cs' marks'] t1 ((Ht1 & HF1 & Hl1 & Hmk1 & [Hle0 Hle] & Hmi1 & Hc1 & _) & H1 & cand' & Hcand' & Habs & Hstop).
    apply wp_bind. eapply wp_index; [exact Hcand'|]. cbv zeta.
    assert (Hfalse : forall k, nth_error marks' k = Some false -> nth_error marks k = Some false).
    { intros k Hk. destruct (nth_error_lt marks k) as (b & Hb); [apply nth_error_len in Hk; lia|].
      destruct b; auto. rewrite (Hle _ Hb) in Hk. discriminate. }
    apply (IH (S i) n).
    + split; cbn [cm_vec cm_cs]; auto. apply vec_update_length; [apply Hm| |].
      * destruct (cs_length_P cwf _ _ _ _ Hm Hcand); auto.
      * destruct (Forall_nth_error _ _ _ _ HF1 Hcand'); auto.
    + auto.
    + cbn [cm_cs]. lia.
    + cbn [cm_cs]. intros k c Hk Hc. destruct (Nat.eq_dec k i) as [->|Hki].
      * rewrite Hcand' in Hc. injection Hc as <-. destruct (Hmg i cand Hmi Hcand) as (c0 & H2 & H3 & H4). exists c0.
        splits; auto; [eapply absorbed_trans; eauto|]. intros; lia.
      * rewrite H1 in Hc by auto. destruct (Hmg k c (Hfalse k Hk) Hc) as (c0 & H2 & H3 & H4). exists c0. splits; auto.
        intros; apply H4; lia.
    + cbn [cm_cs]. intros HA.
      assert (Hall : forall j, j < length (cm_cs m) -> In j idx).
      { apply idx_all; auto. rewrite (HA (c_vec cand) (cm_vecs m)) with (k := Z.of_nat (length (cm_cs m))) (idx := idx); auto; try lia.
        - unfold cm_vecs. rewrite map_length. lia.
        - apply Forall_forall. intros w Hw. apply in_map_iff in Hw. destruct Hw as (c & <- & Hc).
          destruct Hm as [_ Hm]. rewrite Forall_forall in Hm. transitivity n; [apply Hm; auto|].
          symmetry. apply Hm. eapply nth_error_In; eauto. }
      destruct Hstop as [Hstop|Hstop].
      * destruct (Hst HA) as [(k & H)|H].
        -- left. exists k. intros j Hj Hjk. apply Hle. apply H; auto. lia.
        -- right. intros k c Hk Hmk' Hc. destruct (Nat.eq_dec k i) as [->|Hki]; [congruence|].
           rewrite H1 in Hc by auto. apply (H k); auto. lia.
      * left. exists i. intros j Hj Hji. apply Hstop; auto. apply Hall. lia.
Qed.

Lemma cm_merge_absorbs n m t : DimOk n m ->
  wp (cm_merge E m p) t (fun m' _ => exists cs1 del, cm_cs m' = without del cs1 /\ length cs1 = length (cm_cs m) /\
    (forall j c1, ~ In j del -> nth_error cs1 j = Some c1 -> exists c, nth_error (cm_cs m) j = Some c /\ absorbed p c c1) /\
    (finds_all E -> length (cm_cs m') <= 1 \/ Forall (fun c => p c = false) (cm_cs m'))).
Proof.
  intros Hm. unfold cm_merge. apply wp_bind. set (mk0 := repeat false (length (cm_cs m))).
  assert (Hmk : marks_ok (cm_cs m) mk0).
  { split; [apply repeat_length|]. intros j c Hj. apply nth_error_In, repeat_spec in Hj. discriminate. }
  assert (Hrng : Forall (fun i => i < length (cm_cs m)) (seq 0 (length (cm_cs m)))).
  { apply Forall_forall. intros i Hi. apply in_seq in Hi. lia. }
  eapply wp_mono; [apply (wp_conj _ _ _ _
    (merge_outer_spec E HE cwf cwf_add cwf_rm cwf_id p (seq 0 (length (cm_cs m))) n m mk0 t Hm Hmk Hrng)
    (merge_outer_absorbs (cm_cs m) (length (cm_cs m)) 0 n m mk0 t Hm Hmk eq_refl ltac:(intros k c _ Hc; exists c; splits; auto; constructor)
      ltac:(intros _; right; intros; lia)))|].
  intros [m1 marks] t1 ((_ & Hm1 & _ & Hl & [Hml _] & _ & _) & Hmg & Hst). cbn [plus] in *.
  assert (Hd : desc (marked marks)) by (apply desc_filter, desc_rev_seq).
  assert (Hrange : Forall (fun i => i < length (cm_cs m1)) (marked marks)).
  { apply Forall_forall. intros j Hj. apply in_marked, nth_error_len in Hj. lia. }
  assert (Hunm : forall j c, ~ In j (marked marks) -> nth_error (cm_cs m1) j = Some c -> nth_error marks j = Some false).
  { intros j c Hj Hc. destruct (nth_error_lt marks j) as (b & Hb); [apply nth_error_len in Hc; lia|].
    destruct b; auto. exfalso. apply Hj, in_marked. auto. }
  eapply wp_mono; [apply (delete_all_desc cwf cwf_id (marked marks) n m1 t1 Hd Hrange Hm1)|].
  cbn beta. intros m' t' (_ & _ & _ & Hcs). exists (cm_cs m1), (marked marks). splits; auto.
  - intros j c1 Hj Hc1. destruct (Hmg j c1 (Hunm j c1 Hj Hc1) Hc1) as (c & H1 & H2 & _). eauto.
  - intros HA. rewrite Hcs. destruct (Hst HA) as [(k & H)|H].
    + left. apply (without_one _ k). intros j Hj Hjk. apply in_marked. auto.
    + right. apply Forall_forall. intros c Hc. apply in_without_pos in Hc. destruct Hc as (j & Hj & Hc).
      apply (H j); auto; [|eapply Hunm; eauto]. apply nth_error_len in Hc. lia.
Qed.

(* Nobody fits: nothing happens. *)
Lemma merge_outer_none : forall is (m : CM N) marks t, length marks = length (cm_cs m) ->
  Forall (fun i => i < length (cm_cs m)) is -> Forall (fun c => p c = false) (cm_cs m) ->
  wp (merge_outer E m marks p is) t (fun r t' => r = (m, marks) /\ t' = t).
Proof.
  induction is as [|i is IH]; intros m marks t Hl Hf Hp; cbn [merge_outer]; [apply wp_ret; auto|].
  inversion Hf as [|? ? Hi Hf']; subst. destruct (nth_error_lt _ i Hi) as (c & Hc).
  destruct (nth_error_lt marks i ltac:(lia)) as (b & Hb).
  apply wp_bind. eapply wp_index; [exact Hc|]. apply wp_bind. eapply wp_index; [exact Hb|].
  rewrite (Forall_nth_error _ _ _ _ Hp Hc). cbn [negb orb]. apply IH; auto.
Qed.
Lemma cm_merge_none m t : Forall (fun c => p c = false) (cm_cs m) ->
  wp (cm_merge E m p) t (fun m' t' => m' = m /\ t' = t).
Proof.
  intros Hp. unfold cm_merge. apply wp_bind. eapply wp_mono; [apply merge_outer_none; auto|].
  - apply repeat_length.
  - apply Forall_forall. intros i Hi. apply in_seq in Hi. lia.
  - cbn beta. intros r t' [-> ->]. 
    assert (H : marked (repeat false (length (cm_cs m))) = []).
    { destruct (marked (repeat false (length (cm_cs m)))) as [|j l] eqn:Hk; auto. exfalso.
      assert (Hj : In j (marked (repeat false (length (cm_cs m))))) by (rewrite Hk; left; auto).
      apply in_marked, nth_error_In, repeat_spec in Hj. discriminate. }
    rewrite H. apply wp_ret. auto.
Qed.
End Merge.
