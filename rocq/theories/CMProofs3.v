(* Instances of the generic manager lemmas, and the manager properties that need them. *)
From Verif Require Import Base Num MathUtils Env Centroid CManager MgrSpec DataSpec DataFacts Wp Exact
  CentroidProofs DistributeProofs PortionsProofs CMProofs CMProofs2 History.

Section Instances.
Context {N : Num} (E : Env N).
Notation DP := (DataPoint N).
Notation Cen := (Centroid N).

(* ---- dimension only ---- *)
Lemma cwf_id n (c : Cen) : cwf n c -> cwf n c. Proof. auto. Qed.

Lemma cwf_mem_trim n (c : Cen) t : cwf n c -> wp (c_mem_trim E c) t (fun c' t' =>
   cwf n c' /\ c_dps c' = live_from E t (c_dps c) /\ t' = t + length (c_dps c)).
Proof.
  intros Hc. eapply wp_mono; [apply (c_mem_trim_spec E (cwf n) (RmClosed_0 _ (cwf_rm n)) c t Hc)|].
  cbn beta. intros c' t' ((v & Hv & Hcv) & Hd & ->). splits; auto. split.
  - rewrite Hcv. apply Hv.
  - rewrite Hd. apply live_from_Forall. apply Hc.
Qed.

Lemma cwf_move n (c : Cen) t : cwf n c -> wp (c_move_vector E c) t (fun r t' =>
   cwf n (snd r) /\ c_dps (snd r) = live_from E t (c_dps c) /\ t' = t + length (c_dps c)).
Proof.
  intros Hc. eapply wp_mono; [apply (c_move_vector_spec E n (cwf n) (cwf_rm n) (fun c H => proj2 H) c t Hc)|].
  intros [ok c'] t' (Hd & -> & Hm). cbn [snd]. splits; auto.
  assert (Hlf : Forall (fun d => length (dp_vec d) = n) (live_from E t (c_dps c)))
    by (apply live_from_Forall; apply Hc).
  destruct (live_from E t (c_dps c)) as [|d l] eqn:Hl; cbn [map] in Hm.
  - apply Hm.
  - destruct Hm as (_ & _ & Hv). split; [|rewrite Hd; auto].
    inversion Hlf as [|? ? Hd0 Hl0]; subst. rewrite Hv, map_length. apply fold_zipw_length; auto.
    apply Forall_forall. intros w Hw. apply in_map_iff in Hw. destruct Hw as (x & <- & Hx).
    rewrite Forall_forall in Hl0; auto.
Qed.

(* ---- exact means ---- *)
Lemma cmean_cwf n (c : Cen) : cmean n c -> cwf n c.
Proof. intros H; apply H. Qed.

Lemma cmean_move (HX : ExactNum N) n (c : Cen) t : cmean n c -> wp (c_move_vector E c) t (fun r t' =>
   cmean n (snd r) /\ c_dps (snd r) = live_from E t (c_dps c) /\ t' = t + length (c_dps c)).
Proof.
  intros [Hc _]. eapply wp_mono; [apply (c_move_vector_exact E n HX c t Hc)|].
  cbn beta. intros [ok c'] t' (Hd & -> & Hw & Hm & _). cbn [snd fst] in *. splits; auto. split; auto.
  intros Hne. rewrite Hd in *. apply Hm; auto.
Qed.

(* The manager's vector is the mean of the centroids' vectors. *)
Definition vmean (n : nat) (m : CM N) : Prop :=
  cm_cs m <> [] -> cm_vec m = mean_of n (cm_vecs m).

Lemma map_list_set {A B} (f : A -> B) i x (l : list A) : map f (list_set l i x) = list_set (map f l) i (f x).
Proof. revert i; induction l as [|y l IH]; intros [|i]; simpl; f_equal; auto. Qed.

Lemma vmean_update (HX : ExactNum N) (P : nat -> Cen -> Prop) (PW : forall n c, P n c -> cwf n c)
  n m i c c' : cmP P n m -> vmean n m -> nth_error (cm_cs m) i = Some c ->
  length (c_vec c') = n -> vmean n (update_centroid m i c c').
Proof.
  intros Hm HV Hc Hl _. cbn [update_centroid cm_vec cm_cs cm_vecs]. unfold cm_vecs; cbn [update_centroid cm_cs].
  rewrite map_list_set. unfold vec_update. rewrite <- (map_length c_vec (cm_cs m)).
  apply (mean_replace HX); auto.
  - apply Hm.
  - apply PW. eapply cs_length_P; eauto.
  - apply map_nth_error; auto.
  - apply HV. intros H0. rewrite H0 in Hc. destruct i; discriminate.
Qed.

Lemma vmean_delete (HX : ExactNum N) (P : nat -> Cen -> Prop) (PW : forall n c, P n c -> cwf n c)
  n m j t : cmP P n m -> vmean n m -> j < length (cm_cs m) ->
  wp (delete_centroid m j) t (fun m' t' => t' = t /\ cmP P n m' /\ vmean n m' /\
     cm_cs m' = remove_at j (cm_cs m)).
Proof.
  intros Hm HV Hj. destruct (nth_error_lt _ j Hj) as (c & Hc).
  unfold delete_centroid. apply wp_bind. eapply wp_index; [exact Hc|]. apply wp_ret.
  replace (0 <? length (cm_cs m)) with true by (symmetry; apply Nat.ltb_lt; lia).
  pose proof (PW _ _ (cs_length_P P _ _ _ _ Hm Hc)) as Hw. splits; auto.
  - split; cbn [cm_vec cm_cs].
    + rewrite div_length. apply sub_length; [rewrite mul_length; apply Hm|apply Hw].
    + apply Forall_remove_at. apply Hm.
  - intros Hne. cbn [cm_vec cm_cs] in *. unfold cm_vecs; cbn [cm_cs]. rewrite map_remove_at.
    rewrite <- (map_length c_vec (cm_cs m)).
    assert (H1 : 1 < length (cm_cs m)).
    { destruct (Nat.le_gt_cases (length (cm_cs m)) 1); auto. exfalso. apply Hne.
      apply length_zero_iff_nil. rewrite remove_at_length by auto. lia. }
    apply (mean_sub HX); auto.
    + apply Hm.
    + apply Hw.
    + apply map_nth_error; auto.
    + rewrite map_length; auto.
    + apply HV. intros H0. rewrite H0 in H1. simpl in H1. lia.
Qed.

Lemma vmean_delete_all (HX : ExactNum N) (P : nat -> Cen -> Prop) (PW : forall n c, P n c -> cwf n c)
  n : forall js m t, desc js -> Forall (fun i => i < length (cm_cs m)) js ->
  cmP P n m -> vmean n m ->
  wp (delete_all m js) t (fun m' _ => vmean n m').
Proof.
  induction js as [|j js IH]; intros m t Hd Hf Hm HV; cbn [delete_all].
  - apply wp_ret; auto.
  - inversion Hd as [|? ? Hlt Hd']; subst. inversion Hf as [|? ? Hj Hf']; subst.
    apply wp_bind. eapply wp_mono; [apply (vmean_delete HX P PW n m j t Hm HV Hj)|].
    cbn beta. intros m' t' (-> & Hm' & HV' & Hcs). apply IH; auto.
    rewrite Hcs, remove_at_length by auto. eapply Forall_impl; [|exact Hlt]. simpl; intros; lia.
Qed.

Lemma vmean_nearest (HE : EnvOk E) (HX : ExactNum N) (P : nat -> Cen -> Prop)
  (PW : forall n c, P n c -> cwf n c) n m v k drain t :
  (0 <= k)%Z -> cmP P n m -> vmean n m ->
  wp (cm_nearest E m v k drain) t (fun r _ => vmean n (snd r)).
Proof.
  intros Hk Hm HV. unfold cm_nearest. apply wp_bind. apply (wp_knn E HE); auto.
  intros idx He Hnd Hl Hf _. destruct idx as [|i idx'].
  - apply wp_ret. auto.
  - set (idx := i :: idx') in *. apply wp_bind. apply index_all_spec; auto. destruct drain.
    + apply wp_bind. eapply wp_mono; [apply (vmean_delete_all HX P PW n (rev (sort_ints idx)) m t)|]; auto.
      * apply desc_rev_sort; auto.
      * eapply Permutation_Forall; [apply Permutation_sym, rev_sort_perm|auto].
    + apply wp_ret; auto.
Qed.

(* The value computed by VecMean is the mean. *)
Lemma vmean_of_fold (HX : ExactNum N) n (m : CM N) (P : nat -> Cen -> Prop)
  (PW : forall n c, P n c -> cwf n c) :
  cmP P n m ->
  match map c_vec (cm_cs m) with
  | [] => True
  | v :: rest => cm_vec m = map (fun x => fdiv x (fold_left (fun k _ => fadd k f1) rest f1))
                            (fold_left (zipw fadd) rest v)
  end -> vmean n m.
Proof.
  intros [_ Hf] H Hne. unfold cm_vecs.
  assert (Hlens : Forall (fun w => length w = n) (map c_vec (cm_cs m))).
  { apply Forall_forall. intros w Hw. apply in_map_iff in Hw. destruct Hw as (c & <- & Hc).
    rewrite Forall_forall in Hf. apply PW; auto. }
  destruct (map c_vec (cm_cs m)) as [|v rest] eqn:Hm.
  - destruct (cm_cs m); [congruence|discriminate].
  - rewrite H. apply Forall_cons_iff in Hlens. apply (mean_fold HX); tauto.
Qed.
End Instances.

(* ---- C13: what MemTrim leaves behind ---- *)
Section TrimVec.
Context {N : Num} (E : Env N) (HX : ExactNum N).
Notation DP := (DataPoint N).
Notation Cen := (Centroid N).

Definition trimming (n : nat) (l0 : list DP) (dl : DP) (c : Cen) : Prop :=
  cmean n c /\ (exists pre, l0 ++ [dl] = pre ++ c_dps c) /\
  (c_dps c = [] -> c_vec c = dp_vec dl).

Lemma trimming_rm n l0 dl : Rm0Closed (trimming n l0 dl).
Proof.
  intros c d r (Hm & (pre & Hp) & Hl) He. split; [|split].
  - apply (cmean_rm n HX); auto. rewrite He; auto.
  - exists (pre ++ [d]). cbn [rm_pure c_dps]. rewrite He. unfold remove_at; cbn [firstn skipn app].
    rewrite <- app_assoc. cbn [app]. rewrite Hp, He. reflexivity.
  - cbn [rm_pure c_dps c_vec]. rewrite He. unfold remove_at; cbn [firstn skipn app]. intros ->.
    cbn [length]. replace (1 <? 1) with false by reflexivity.
    rewrite He in Hp. apply app_inj_tail in Hp. destruct Hp as [_ <-].
    destruct Hm as [[Hv Hf] Hm]. rewrite Hm by (rewrite He; discriminate). rewrite He. cbn [map].
    apply (mean_singleton HX). rewrite He in Hf. inversion Hf; auto.
Qed.

Lemma c_mem_trim_vec n l0 dl (c : Cen) t :
  cmean n c -> c_dps c = l0 ++ [dl] ->
  wp (c_mem_trim E c) t (fun c' t' => c_vec c' = dp_vec dl /\ c_dps c' = live_from E t (c_dps c)).
Proof.
  intros Hc Hd. eapply wp_mono; [apply (c_mem_trim_spec E _ (trimming_rm n l0 dl) c t)|].
  - split; auto. split; [exists []; auto|]. intros H0. rewrite H0 in Hd. symmetry in Hd.
    apply app_eq_nil in Hd. destruct Hd; discriminate.
  - cbn beta. intros c' t' ((v & (_ & _ & Hv) & Hcv) & Hdd & _). split; auto. rewrite Hcv. apply Hv. auto.
Qed.
End TrimVec.

(* ---- C31 ---- *)
Section LookupCount.
Context {N : Num} (E : Env N) (HE : EnvOk E).
Notation DP := (DataPoint N).
Notation Cen := (Centroid N).
Notation ms m := (stored (cm_cs m)).

Lemma lookup_loop_count v k drain : forall idx n m res t,
  cmP cwf n m -> length res <= k -> NoDup idx -> Forall (fun i => i < length (cm_cs m)) idx ->
  never_expired E (ms m) ->
  (forall i c, In i idx -> nth_error (cm_cs m) i = Some c -> ranks_all (e_knn E) v (map dp_vec (c_dps c))) ->
  wp (lookup_loop E m idx v k drain res) t (fun r _ =>
    length (fst r) = min k (length res + length (stored (pick idx (cm_cs m))))).
Proof.
  induction idx as [|i idx IH]; intros n m res t Hm Hk Hnd Hf Hne Hr; cbn [lookup_loop].
  - apply wp_ret. cbn [fst pick flat_map]. unfold stored; cbn [map concat length]. lia.
  - inversion Hf as [|? ? Hi Hf']; subst. inversion Hnd as [|? ? Hni Hnd']; subst.
    destruct (nth_error_lt _ i Hi) as (c & Hc).
    rewrite (pick_cons i idx _ c Hc), stored_cons, app_length.
    destruct (Nat.leb_spec k (length res)) as [Hle|Hlt].
    + apply wp_ret. cbn [fst]. lia.
    + pose proof (cs_length_P cwf _ _ _ _ Hm Hc) as HPc.
      apply wp_bind. eapply wp_index; [exact Hc|]. apply wp_bind.
      eapply wp_mono; [apply (c_knn_lookup_spec E (cwf n) (cwf_rm n) c v _ drain t HE); auto; lia|].
      intros [ds c1] t1 (HPc1 & -> & js & He & Hjn & Hjl & Hjf & Hds & Hd1). cbn [fst snd] in *.
      assert (Hcin : forall x, In x (c_dps c) -> In x (ms m)).
      { intros x Hx. unfold stored. apply in_concat. exists (c_dps c). split; auto.
        apply in_map. eapply nth_error_In; eauto. }
      rewrite (live_from_all E t (c_dps c)) in * by (intros; apply Hne; auto).
      assert (Hdl : length ds = min (k - length res) (length (c_dps c))).
      { subst ds. rewrite pick_length by auto.
        rewrite (Hr i c (or_introl eq_refl) Hc _ _ (Nat2Z.is_nonneg _) He), map_length. lia. }
      apply wp_bind. eapply wp_mono; [apply lookup_take_all; lia|].
      intros [res' c2] t2 [-> Heq]. inversion Heq; subst res' c2. clear Heq.
      eapply wp_mono; [apply (IH n (update_centroid m i c c1) (res ++ ds))|].
      * apply (update_centroid_P cwf cwf_id); auto.
      * rewrite app_length. lia.
      * auto.
      * cbn [update_centroid cm_cs]. rewrite list_set_length. auto.
      * intros q x Hx. apply Hne. cbn [update_centroid cm_cs] in Hx.
        destruct (stored_set2 (cm_cs m) i c c1 Hc) as (rest & H1 & H2).
        eapply Permutation_in; [apply Permutation_sym; exact H1|].
        eapply Permutation_in in Hx; [|exact H2]. apply in_app_iff in Hx. apply in_or_app.
        destruct Hx as [Hx|Hx]; auto. left. rewrite Hd1 in Hx. destruct drain; auto.
        eapply Permutation_in; [apply Permutation_sym; apply (pick_without js (c_dps c) Hjn Hjf)|].
        apply in_or_app; auto.
      * intros j cj Hj Hcj. cbn [update_centroid cm_cs] in Hcj.
        rewrite list_set_other in Hcj by (intros ->; auto). apply (Hr j cj); simpl; auto.
      * cbn beta. intros r t2 ->. rewrite app_length, Hdl.
        replace (pick idx (cm_cs (update_centroid m i c c1))) with (pick idx (cm_cs m)); [lia|].
        cbn [update_centroid cm_cs]. unfold pick. clear - Hni. induction idx as [|j idx IHi]; auto.
        cbn [flat_map]. rewrite list_set_other by (intros ->; apply Hni; simpl; auto).
        f_equal. apply IHi. intros H; apply Hni; simpl; auto.
Qed.

Lemma nonempty_count (cs : list Cen) : Forall (fun c => c_dps c <> []) cs -> length cs <= length (stored cs).
Proof.
  induction 1 as [|c cs Hc Hf IH]; [simpl; lia|]. rewrite stored_cons, app_length. simpl.
  destruct (c_dps c); [congruence|]. simpl. lia.
Qed.

Lemma cm_knn_lookup_count n m v k drain t :
  (0 <= k)%Z -> cmP cwf n m -> never_expired E (ms m) ->
  ranks_all (e_knn E) v (cm_vecs m) ->
  Forall (fun c => c_dps c <> [] /\ ranks_all (e_knn E) v (map dp_vec (c_dps c))) (cm_cs m) ->
  wp (cm_knn_lookup E m v k drain) t (fun r _ => length (fst r) = min (Z.to_nat k) (length (ms m))).
Proof.
  intros Hk Hm Hne Hrv Hrc. unfold cm_knn_lookup.
  replace (k <? 0)%Z with false by (symmetry; apply Z.ltb_ge; auto).
  apply wp_bind. apply (wp_knn E HE); auto. intros idx He Hnd Hl Hf _.
  eapply wp_mono; [apply (lookup_loop_count v (Z.to_nat k) drain idx n m [] t); auto; try (simpl; lia)|].
  - intros i c _ Hc. apply (Forall_nth_error _ _ _ _ Hrc Hc).
  - cbn beta. intros r t' ->. cbn [length plus].
    pose proof (Hrv k idx Hk He) as Hil. unfold cm_vecs in Hil. rewrite map_length in Hil.
    assert (Hpw : Permutation (cm_cs m) (pick idx (cm_cs m) ++ without idx (cm_cs m))).
    { apply pick_without; auto. }
    pose proof (Permutation_length (stored_perm _ _ Hpw)) as Hsl. rewrite stored_app, app_length in Hsl.
    assert (Hpn : length (pick idx (cm_cs m)) <= length (stored (pick idx (cm_cs m)))).
    { apply nonempty_count. apply Forall_forall. intros c Hc. apply in_pick in Hc.
      destruct Hc as (i & _ & Hi). apply (Forall_nth_error _ _ _ _ Hrc Hi). }
    rewrite pick_length in Hpn by auto.
    destruct (Nat.le_gt_cases (Z.to_nat k) (length (cm_cs m))) as [H1|H1]; [lia|].
    assert (Hw0 : without idx (cm_cs m) = []).
    { apply length_zero_iff_nil. rewrite without_length by auto. lia. }
    rewrite Hw0 in Hsl. unfold stored at 3 in Hsl. simpl in Hsl. lia.
Qed.
End LookupCount.

(* ---- C32 ---- *)
Section AutoSplit.
Context {N : Num} (E : Env N) (HE : EnvOk E).
Notation DP := (DataPoint N).
Notation Cen := (Centroid N).

Definition small (T : Z) (c : Cen) : Prop := (Z.of_nat (length (c_dps c)) < T)%Z.

Lemma list_set_twice {A} (l : list A) i x y : list_set (list_set l i x) i y = list_set l i y.
Proof. revert i; induction l as [|z l IH]; intros [|i]; simpl; f_equal; auto. Qed.

Lemma cm_add_small m d t n :
  cmP cwf n m -> (2 <= cm_thresh m)%Z -> Forall (small (cm_thresh m)) (cm_cs m) ->
  wp (cm_add E m d) t (fun r _ => Forall (small (cm_thresh m)) (cm_cs (snd r))).
Proof.
  intros Hm HT Hs. unfold cm_add. apply wp_bind, wp_expired.
  destruct (expired_at (e_now E t) d). { apply wp_ret; auto. }
  destruct (cm_cs m) as [|c0 cs0] eqn:Hcs.
  - apply wp_bind. eapply wp_mono; [apply c_add_spec|].
    intros r t' (_ & Hr). destruct r as [ok c]. apply wp_ret. cbn [snd cm_cs]. constructor; auto.
    unfold small. destruct Hr as [(_ & _ & _ & Hr)|[(_ & _ & _ & Hr)|(_ & _ & Hr)]]; inversion Hr; subst; cbn; lia.
  - apply wp_bind. apply (wp_knn E HE); [lia|]. rewrite Hcs. intros idx He Hnd Hl Hf Hlen.
    destruct idx as [|i idx]. { apply wp_ret; cbn [snd]; rewrite Hcs; auto. }
    rewrite <- Hcs in *. inversion Hf as [|? ? Hi Hf']; subst.
    destruct (nth_error_lt _ i Hi) as (c & Hc). apply wp_bind. eapply wp_index; [exact Hc|].
    apply wp_bind. eapply wp_mono; [apply c_add_spec|]. intros [ok c'] t1 (_ & Hr).
    pose proof (Forall_nth_error _ _ _ _ Hs Hc) as Hsc. unfold small in Hsc.
    destruct ok; cbn [negb]; [|apply wp_ret; auto].
    assert (Hc' : c' = add_dp_raw c d /\ length (dp_vec d) = length (c_vec c)).
    { destruct Hr as [(H1 & _ & _ & Hr)|[(_ & _ & _ & Hr)|(_ & _ & Hr)]]; inversion Hr; auto. }
    destruct Hc' as [-> Hdl].
    assert (Hlen' : c_len (add_dp_raw c d) = S (length (c_dps c))).
    { unfold c_len, add_dp_raw; cbn [c_dps]. rewrite app_length. simpl; lia. }
    rewrite Hlen'. destruct (Z.leb_spec (cm_thresh m) (Z.of_nat (S (length (c_dps c))))) as [Hth|Hth].
    2:{ apply wp_ret. cbn [snd update_centroid cm_cs]. apply Forall_list_set; auto.
        unfold small. fold (c_len (add_dp_raw c d)). rewrite Hlen'. lia. }
    apply wp_bind.
    assert (Hm1 : cmP cwf n (update_centroid m i c (add_dp_raw c d))).
    { apply (update_centroid_P cwf cwf_id); auto. apply cwf_add; auto. eapply cs_length_P; eauto. }
    eapply wp_mono; [apply (split_centroid_spec E cwf cwf_add cwf_rm cwf_id cwf_new n _ i (Z.quot (cm_thresh m) 2) t1 Hm1)|].
    intros o t2 (_ & Ho).
    assert (Hq : (1 <= Z.quot (cm_thresh m) 2 < cm_thresh m)%Z).
    { clear - HT. Z.to_euclidean_division_equations. lia. }
    destruct o as [[old' fresh]|]; [|destruct Ho as [Ho|Ho]; [lia|]].
    + destruct Ho as (Htrim & c1 & ds & Hc1 & _ & _ & t3 & _ & _ & _ & Hdr & Hfresh).
      cbn [update_centroid cm_cs] in Hc1. rewrite list_set_same in Hc1 by auto. injection Hc1 as <-.
      destruct Hdr as (pre & Hpre & Hds & _ & Hle & Hlt & _).
      apply wp_ret. cbn [snd cm_cs set_centroid update_centroid]. apply Forall_app; split.
      * rewrite list_set_twice. apply Forall_list_set; auto. unfold small.
        assert (Hpl : length (c_dps (add_dp_raw c d)) = length pre + length (c_dps old'))
          by (rewrite Hpre, app_length; auto).
        unfold c_len in Hlen'. rewrite Hlen' in Hpl.
        destruct (Nat.eq_dec (length ds) (Z.to_nat (cm_thresh m ÷ 2))) as [He2|He2].
        -- pose proof (live_from_length E t1 pre) as Hlp. rewrite <- Hds in Hlp. lia.
        -- rewrite Hlt by lia. simpl. lia.
      * constructor; auto. unfold small. rewrite Hfresh.
        pose proof (live_from_length E t3 ds). lia.
    + cbn [update_centroid cm_cs] in Ho. rewrite list_set_same in Ho by auto. discriminate.
Qed.
End AutoSplit.

(* ---- C35 ---- *)
Section MergeAll.
Context {N : Num} (E : Env N) (HE : EnvOk E).
Notation DP := (DataPoint N).
Notation Cen := (Centroid N).
Notation ms m := (stored (cm_cs m)).

Lemma merge_outer_skip p : forall is (m : CM N) marks t,
  Forall (fun i => i < length (cm_cs m) /\ nth_error marks i = Some true) is ->
  wp (merge_outer E m marks p is) t (fun r t' => r = (m, marks) /\ t' = t).
Proof.
  induction is as [|i is IH]; intros m marks t Hf; cbn [merge_outer].
  - apply wp_ret; auto.
  - inversion Hf as [|? ? [Hi Hm] Hf']; subst. destruct (nth_error_lt _ i Hi) as (c & Hc).
    apply wp_bind. eapply wp_index; [exact Hc|]. apply wp_bind. eapply wp_index; [exact Hm|].
    rewrite orb_true_r. apply IH; auto.
Qed.

Lemma merge_all_spec n m c0 rest t :
  cmP cwf n m -> cm_cs m = c0 :: rest ->
  (forall idx, e_knn E (c_vec c0) (cm_vecs m) (Z.of_nat (length (cm_cs m))) = Ok idx ->
     length idx = length (cm_cs m)) ->
  wp (cm_merge E m (fun _ => true)) t (fun m' t' => t <= t' /\
    exists c, cm_cs m' = [c] /\ conserves E t t' (ms m) (c_dps c)).
Proof.
  intros Hm Hcs Hrank.
  assert (Hlen : wp (cm_merge E m (fun _ => true)) t (fun m' _ => length (cm_cs m') = 1)).
  2:{ eapply wp_mono; [exact (wp_conj _ _ _ _ (cm_merge_spec E HE cwf cwf_add cwf_rm cwf_id n m (fun _ => true) t Hm) Hlen)|].
      cbn beta. intros m' t' ((Ht & _ & _ & Hc & _) & Hl). split; auto.
      destruct (cm_cs m') as [|c [|]] eqn:Hcs'; try discriminate. exists c. split; auto.
      unfold stored at 2 in Hc. cbn [map concat] in Hc. rewrite app_nil_r in Hc. auto. }
  unfold cm_merge. apply wp_bind. set (L := length (cm_cs m)) in *.
  assert (HL : L = S (length rest)) by (unfold L; rewrite Hcs; auto).
  rewrite HL at 1 2. cbn [seq merge_outer].
  assert (Hc0 : nth_error (cm_cs m) 0 = Some c0) by (rewrite Hcs; auto).
  apply wp_bind. eapply wp_index; [exact Hc0|].
  apply wp_bind. eapply wp_index; [cbn [repeat nth_error]; reflexivity|]. cbn [negb orb].
  apply wp_bind. apply (wp_knn E HE); [lia|]. intros idx He Hnd Hl Hf _.
  assert (Hil : length idx = L) by (apply Hrank; auto).
  assert (Hall : forall j, j < L -> In j idx).
  { intros j Hj. apply (NoDup_length_incl Hnd (l' := seq 0 L)).
    - rewrite seq_length. lia.
    - intros k Hk. apply in_seq. rewrite Forall_forall in Hf. specialize (Hf k Hk). fold L in Hf. lia.
    - apply in_seq. lia. }
  apply wp_bind.
  eapply wp_mono; [apply (merge_inner_spec E cwf cwf_add cwf_rm cwf_id (fun _ => true) 0 idx n (cm_cs m) (repeat false (S (length rest))) t); auto|].
  { apply Hm. }
  { split; [rewrite repeat_length; auto|]. intros j c Hj. apply nth_error_In, repeat_spec in Hj. discriminate. }
  { fold L; lia. }
  intros [cs' marks'] t1 (_ & HF1 & Hl1 & [Hml Hmk] & [Hle _] & Hm0 & _ & Hmarks).
  fold L in Hl1. specialize (Hmarks (fun _ => eq_refl)).
  destruct (nth_error_lt cs' 0 ltac:(lia)) as (cand' & Hcand').
  apply wp_bind. eapply wp_index; [exact Hcand'|]. cbv zeta.
  set (m1 := MkCM _ cs' _).
  assert (Hm1 : cmP cwf n m1).
  { split; cbn [m1 cm_vec cm_cs]; auto. unfold m1; cbn [cm_vec]. apply vec_update_length; [apply Hm| |]; apply cwf_id.
    - eapply cs_length_P; eauto.
    - exact (Forall_nth_error _ _ _ _ HF1 Hcand'). }
  eapply wp_mono; [apply merge_outer_skip|].
  { apply Forall_forall. intros i Hi. apply in_seq in Hi. unfold m1; cbn [cm_cs]. split; [lia|].
    apply Hmarks; [|lia]. apply Hall. lia. }
  cbn beta. intros r t2 [-> ->].
  assert (Hd : desc (marked marks')) by (apply desc_filter, desc_rev_seq).
  assert (Hin : forall j, In j (marked marks') <-> In j (seq 1 (length rest))).
  { intros j. rewrite in_marked, in_seq. split.
    - intros Hj. destruct (Nat.eq_dec j 0) as [->|]; [congruence|]. apply nth_error_len in Hj. lia.
    - intros Hj. apply Hmarks; [|lia]. apply Hall. lia. }
  assert (Hrange : Forall (fun i => i < length (cm_cs m1)) (marked marks')).
  { apply Forall_forall. intros j Hj. apply Hin, in_seq in Hj. unfold m1; cbn [cm_cs]. lia. }
  eapply wp_mono; [apply (delete_all_desc cwf cwf_id (marked marks') n m1 t1 Hd Hrange Hm1)|].
  cbn beta. intros m' t' (_ & _ & _ & ->).
  rewrite without_length; auto; [|apply NoDup_desc; auto].
  rewrite (Permutation_length (NoDup_Permutation (NoDup_desc _ Hd) (seq_NoDup (length rest) 1) Hin)), seq_length.
  unfold m1; cbn [cm_cs]. lia.
Qed.
End MergeAll.
