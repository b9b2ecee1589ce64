(* What the server needs to know about the managers in its slots, for two kinds of slots:
   those whose vectors all have one dimension, and those where every centroid has its own. *)
From Verif Require Import Base Num MathUtils Knn Env Centroid CManager History DataSpec MgrSpec Wp DataFacts NumFacts KnnProofs
  CentroidProofs DistributeProofs PortionsProofs CMProofs CMProofs2 CMProofs3 HistoryProofs MixProofs Proc Owns Server ServerSpec ServerFacts.

Section Slots.
Context {N : Num} (E : Env N).
Notation DP := (DataPoint N).
Notation Cen := (Centroid N).
Notation ms m := (stored (cm_cs m)).
Context (D : str -> nat -> Prop) (NoDrop : Prop).

(* A centroid of one of the dimensions of its namespace. *)
Definition cen_ok ns (c : Cen) : Prop := exists n, D ns n /\ cwf n c.

(* A kind of slot: a predicate that every operation keeps, with what each operation does to
   the data; centroids may be stolen in the namespaces that [kind_steal] allows. *)
Record SlotKind := MkKind {
  kind_ok :> str -> CM N -> Prop;
  kind_steal : str -> Prop;
  kind_dim : forall ns m, kind_ok ns m -> exists n, D ns n;
  kind_new : forall ns (v : vec N) th, D ns (length v) -> kind_ok ns (new_cm v th);
  kind_vec : forall ns m th, kind_ok ns m -> kind_ok ns (new_cm (cm_vec m) th);
  kind_attach : forall ns m cs, kind_steal ns -> kind_ok ns m -> Forall (cen_ok ns) cs ->
    kind_ok ns (MkCM (cm_vec m) (cm_cs m ++ cs) (cm_thresh m));
  kind_add : forall ns (m : CM N) d t, kind_ok ns m -> D ns (length (dp_vec d)) ->
    wp (cm_add E m d) t (fun r t' => t <= t' /\ kind_ok ns (snd r) /\
      (NoDrop -> Forall (seen_expired E t t') (unless d (fst r))) /\
      conserves E t t' (ms m ++ [d]) (ms (snd r) ++ unless d (fst r)));
  kind_drain_u : forall ns (m : CM N) k t, (0 <= k)%Z -> kind_ok ns m ->
    wp (cm_drain_unordered E m k) t (fun r t' => t <= t' /\ kind_ok ns (snd r) /\ True /\
      conserves E t t' (ms m) (ms (snd r) ++ fst r));
  kind_drain_o : forall ns (m : CM N) k t, (0 <= k)%Z -> kind_ok ns m ->
    wp (cm_drain_ordered E m k) t (fun r t' => t <= t' /\ kind_ok ns (snd r) /\
      Forall (fun d => D ns (length (dp_vec d))) (fst r) /\
      conserves E t t' (ms m) (ms (snd r) ++ fst r));
  kind_expire : forall ns (m : CM N) t, kind_ok ns m ->
    wp (cm_expire E m) t (fun m' t' => t <= t' /\ kind_ok ns m' /\ conserves E t t' (ms m) (ms m'));
  kind_mem_trim : forall ns (m : CM N) t, kind_ok ns m ->
    wp (cm_mem_trim E m) t (fun m' t' => t <= t' /\ kind_ok ns m' /\ conserves E t t' (ms m) (ms m'));
  kind_move : forall ns (m : CM N) t, kind_ok ns m ->
    wp (cm_move_vector E m) t (fun r t' => t <= t' /\ kind_ok ns (snd r) /\ conserves E t t' (ms m) (ms (snd r)));
  kind_internal : forall ns (m : CM N) k t, kind_ok ns m ->
    wp (cm_distribute_internal E m k) t (fun m' t' => t <= t' /\ kind_ok ns m' /\ conserves E t t' (ms m) (ms m'));
  kind_knn : forall ns (m : CM N) v k (drain : bool) t, (0 <= k)%Z -> kind_ok ns m ->
    wp (cm_knn_lookup E m v k drain) t (fun r t' => t <= t' /\ kind_ok ns (snd r) /\ True /\
      conserves E t t' (ms m) (ms (snd r) ++ if drain then fst r else []));
  kind_nearest : forall ns (m : CM N) v k (drain : bool) t, (0 <= k)%Z -> kind_ok ns m ->
    wp (cm_nearest E m v k drain) t (fun r t' => t <= t' /\ kind_ok ns (snd r) /\
      (let cs := match fst r with Some cs => cs | None => [] end in
       length cs <= Z.to_nat k /\ Forall (cen_ok ns) cs /\
       conserves E t t' (ms m) (ms (snd r) ++ if drain then stored cs else [])));
  kind_split : forall ns (m : CM N) p t, kind_ok ns m ->
    wp (cm_split E m p) t (fun m' t' => t <= t' /\ kind_ok ns m' /\ conserves E t t' (ms m) (ms m'));
  kind_merge : forall ns (m : CM N) p t, kind_ok ns m ->
    wp (cm_merge E m p) t (fun m' t' => t <= t' /\ kind_ok ns m' /\ conserves E t t' (ms m) (ms m'))
}.
End Slots.
Arguments kind_ok {N E D NoDrop}.
Arguments kind_steal {N E D NoDrop}.
Arguments kind_dim {N E D NoDrop}.
Arguments kind_new {N E D NoDrop}.
Arguments kind_vec {N E D NoDrop}.
Arguments kind_attach {N E D NoDrop}.
Arguments kind_add {N E D NoDrop}.
Arguments kind_drain_u {N E D NoDrop}.
Arguments kind_drain_o {N E D NoDrop}.
Arguments kind_expire {N E D NoDrop}.
Arguments kind_mem_trim {N E D NoDrop}.
Arguments kind_move {N E D NoDrop}.
Arguments kind_internal {N E D NoDrop}.
Arguments kind_knn {N E D NoDrop}.
Arguments kind_nearest {N E D NoDrop}.
Arguments kind_split {N E D NoDrop}.
Arguments kind_merge {N E D NoDrop}.

(* ---- one dimension per slot ---- *)
Section OneDim.
Context {N : Num} (E : Env N) (HE : EnvOk E).
Notation DP := (DataPoint N).
Notation Cen := (Centroid N).
Notation ms m := (stored (cm_cs m)).
Context (D : str -> nat -> Prop) (NoDrop : Prop).
Context (HD : NoDrop -> (forall ns n n', D ns n -> D ns n' -> n = n') /\
                        (forall ns n, D ns n -> finds_some E n)).
Notation trivV := (fun (_ : nat) (_ : CM N) => True).
Lemma trivU : forall n (m : CM N) i (c c' : Cen), cmP cwf n m -> trivV n m -> nth_error (cm_cs m) i = Some c ->
  length (c_vec c') = n -> trivV n (update_centroid m i c c').
Proof. intros; exact I. Qed.

Lemma slot_add ns (m : CM N) d t : SlotOk D ns m -> D ns (length (dp_vec d)) ->
  wp (cm_add E m d) t (fun r t' => t <= t' /\ SlotOk D ns (snd r) /\
    (NoDrop -> Forall (seen_expired E t t') (unless d (fst r))) /\
    conserves E t t' (ms m ++ [d]) (ms (snd r) ++ unless d (fst r))).
Proof.
  intros (n & Hn & Hm) Hd.
  assert (HR : NoDrop -> wp (cm_add E m d) t (fun r t' => fst r = false -> seen_expired E t t' d)).
  { intros Hnd. destruct (HD Hnd) as (Hf & Hs). unfold cm_add. apply wp_bind, wp_expired.
    destruct (expired_at (e_now E t) d) eqn:Hx.
    { apply wp_ret. intros _. exists t. auto. }
    destruct (cm_cs m) as [|c0 cs0] eqn:Hcs.
    - apply wp_bind. eapply wp_mono; [apply c_add_spec|]. intros [ok c] t1 _. apply wp_ret. discriminate.
    - rewrite <- Hcs. assert (Hne : cm_cs m <> []) by congruence. clear Hcs. apply wp_bind. apply (wp_knn E HE); [lia|]. intros idx He Hnd' Hl Hfi Hlen.
      destruct (Hs ns n Hn (dp_vec d) (cm_vecs m)) as (i' & idx' & He').
      + eapply Hf; eauto.
      + unfold cm_vecs. destruct (cm_cs m); [congruence|discriminate].
      + unfold cm_vecs. apply Forall_map. destruct Hm as (_ & Hm). eapply Forall_impl; [|exact Hm]. cbn. tauto.
      + rewrite He in He'. injection He' as ->. inversion Hfi as [|? ? Hi Hf']; subst. destruct (nth_error_lt _ i' Hi) as (c & Hc).
        apply wp_bind. eapply wp_index; [exact Hc|]. apply wp_bind.
        eapply wp_mono; [apply c_add_spec|]. intros [ok c'] t1 (_ & H).
        assert (Hlc : length (c_vec c) = length (dp_vec d)) by (apply (Hlen i' c); simpl; auto).
        destruct H as [(_ & -> & Hx2 & [= -> ->])|[(_ & -> & Hx2 & [= -> ->])|(Hb & _)]]; [| |congruence]; cbn [negb].
        * set (m1 := update_centroid m i' c (add_dp_raw c d)).
          destruct (Z.leb_spec (cm_thresh m) (Z.of_nat (c_len (add_dp_raw c d)))); [|apply wp_ret; discriminate].
          apply wp_bind. pose proof (cs_length_P cwf _ _ _ _ Hm Hc) as HPc.
          eapply wp_mono; [apply (split_centroid_spec E cwf cwf_add cwf_rm cwf_id cwf_new n m1 i')|].
          -- apply (update_centroid_P cwf cwf_id); auto. apply cwf_add; auto.
          -- intros [[o f]|] t2 _; apply wp_ret; discriminate.
        * apply wp_ret. intros _. exists (S t). split; auto. }
  pose proof (cm_add_spec E HE cwf cwf_add cwf_rm cwf_id cwf_new trivV trivU n m d t Hm (fun _ => I)) as H.
  unfold wp in *. destruct (cm_add E m d t) as [[[ok m'] t']| |]; auto; try contradiction. cbn [fst snd] in *.
  destruct H as (Ht & _ & Hf & (n' & Hm' & H1 & H2) & Hc & _). splits; auto.
  - destruct ok; [|rewrite Hf by auto; exists n; auto]. exists n'. split; auto. rewrite H2 by auto; auto.
  - intros Hnd. destruct ok; cbn [unless]; auto.
  - destruct ok; cbn [unless]; [rewrite app_nil_r; apply Hc; auto|]. rewrite Hf by auto. apply conserves_refl.
Qed.

Lemma slot_drain_u ns (m : CM N) k t : (0 <= k)%Z -> SlotOk D ns m ->
  wp (cm_drain_unordered E m k) t (fun r t' => t <= t' /\ SlotOk D ns (snd r) /\ True /\
    conserves E t t' (ms m) (ms (snd r) ++ fst r)).
Proof.
  intros Hk (n & Hn & Hm). eapply wp_mono; [apply (cm_drain_unordered_spec E HE cwf cwf_rm cwf_id trivV trivU n m k t Hk Hm I)|].
  intros r t' (Ht & Hm' & _ & _ & _ & Hc & _). splits; auto. exists n; auto.
Qed.
Lemma slot_drain_o ns (m : CM N) k t : (0 <= k)%Z -> SlotOk D ns m ->
  wp (cm_drain_ordered E m k) t (fun r t' => t <= t' /\ SlotOk D ns (snd r) /\
    Forall (fun d => D ns (length (dp_vec d))) (fst r) /\
    conserves E t t' (ms m) (ms (snd r) ++ fst r)).
Proof.
  intros Hk (n & Hn & Hm). eapply wp_mono; [apply (cm_drain_ordered_spec E HE cwf cwf_rm cwf_id trivV trivU n m k t Hk Hm I)|].
  intros r t' (Ht & Hm' & _ & _ & _ & Hc & _). splits; auto. { exists n; auto. }
  assert (HA : Forall (fun d => D ns (length (dp_vec d))) (ms m)).
  { unfold stored. rewrite Forall_forall. intros d Hd. apply in_concat in Hd. destruct Hd as (l & Hl & Hd).
    apply in_map_iff in Hl. destruct Hl as (c & <- & Hc'). destruct Hm as (_ & Hm). rewrite Forall_forall in Hm.
    destruct (Hm _ Hc') as (_ & H). rewrite Forall_forall in H. rewrite (H d Hd). auto. }
  apply (conserves_Forall E _ _ _ _ _ Hc) in HA. apply Forall_app in HA. apply HA.
Qed.
Lemma slot_expire ns (m : CM N) t : SlotOk D ns m ->
  wp (cm_expire E m) t (fun m' t' => t <= t' /\ SlotOk D ns m' /\ conserves E t t' (ms m) (ms m')).
Proof.
  intros (n & Hn & Hm). eapply wp_mono; [apply (cm_expire_spec E cwf cwf_rm cwf_id trivV trivU n m t Hm I)|].
  cbn beta. intros m' t' (-> & Hm' & _ & _ & _ & ->). splits; [lia|exists n; auto|apply conserves_live].
Qed.
Lemma slot_mem_trim ns (m : CM N) t : SlotOk D ns m ->
  wp (cm_mem_trim E m) t (fun m' t' => t <= t' /\ SlotOk D ns m' /\ conserves E t t' (ms m) (ms m')).
Proof.
  intros (n & Hn & Hm). eapply wp_mono; [apply (cm_mem_trim_spec E cwf cwf_id (cwf_mem_trim E) n m t Hm)|].
  cbn beta. intros m' t' (-> & Hm' & _ & _ & ->). splits; [lia|exists n; auto|apply conserves_live].
Qed.
Lemma slot_move ns (m : CM N) t : SlotOk D ns m ->
  wp (cm_move_vector E m) t (fun r t' => t <= t' /\ SlotOk D ns (snd r) /\ conserves E t t' (ms m) (ms (snd r))).
Proof.
  intros (n & Hn & Hm). eapply wp_mono; [apply (cm_move_vector_spec E cwf cwf_id (cwf_move E) n m t Hm)|].
  cbn beta. intros r t' (-> & Hm' & _ & _ & -> & _). splits; [lia|exists n; auto|apply conserves_live].
Qed.
Lemma slot_internal ns (m : CM N) k t : SlotOk D ns m ->
  wp (cm_distribute_internal E m k) t (fun m' t' => t <= t' /\ SlotOk D ns m' /\ conserves E t t' (ms m) (ms m')).
Proof.
  intros (n & Hn & Hm). eapply wp_mono; [apply (cm_distribute_internal_spec E HE cwf cwf_add cwf_rm cwf_id (cwf_move E) n m k t Hm)|].
  cbn beta. intros r t' (Ht & Hm' & _ & _ & _ & Hc). splits; auto. exists n; auto.
Qed.
Lemma slot_knn ns (m : CM N) v k (drain : bool) t : (0 <= k)%Z -> SlotOk D ns m ->
  wp (cm_knn_lookup E m v k drain) t (fun r t' => t <= t' /\ SlotOk D ns (snd r) /\ True /\
    conserves E t t' (ms m) (ms (snd r) ++ if drain then fst r else [])).
Proof.
  intros Hk (n & Hn & Hm). eapply wp_mono; [apply (cm_knn_lookup_spec E HE cwf cwf_rm cwf_id trivV trivU n m v k drain t Hk Hm I)|].
  intros r t' (Ht & Hm' & _ & _ & _ & _ & _ & H1 & H2). splits; auto. { exists n; auto. }
  destruct drain; auto. rewrite app_nil_r. apply H2; auto.
Qed.
Lemma pick_in {A} (idx : list nat) (l : list A) x : In x (pick idx l) -> In x l.
Proof.
  unfold pick. rewrite in_flat_map. intros (i & _ & H). destruct (nth_error l i) eqn:Hi; [|destruct H].
  destruct H as [->|[]]. eapply nth_error_In; eauto.
Qed.
Lemma pick_le {A} (idx : list nat) (l : list A) : length (pick idx l) <= length idx.
Proof.
  unfold pick. induction idx as [|i idx IH]; cbn [flat_map length]; auto. rewrite app_length.
  destruct (nth_error l i); cbn [length]; lia.
Qed.
Lemma slot_nearest ns (m : CM N) v k (drain : bool) t : (0 <= k)%Z -> SlotOk D ns m ->
  wp (cm_nearest E m v k drain) t (fun r t' => t <= t' /\ SlotOk D ns (snd r) /\
    (let cs := match fst r with Some cs => cs | None => [] end in
     length cs <= Z.to_nat k /\ Forall (cen_ok D ns) cs /\
     conserves E t t' (ms m) (ms (snd r) ++ if drain then stored cs else []))).
Proof.
  intros Hk (n & Hn & Hm). eapply wp_mono; [apply (cm_nearest_spec E HE cwf cwf_id n m v k drain t Hk Hm)|].
  intros r t' (-> & Hm' & _ & idx & _ & _ & _ & Hl & Ho). split; auto. split; [exists n; auto|].
  destruct (fst r) as [cs|]; cbn zeta.
  - destruct Ho as (_ & -> & H1 & H2). splits.
    + pose proof (pick_le idx (cm_cs m)). lia.
    + rewrite Forall_forall. intros c Hc. apply pick_in in Hc. exists n. split; auto.
      destruct Hm as (_ & Hm). rewrite Forall_forall in Hm. apply Hm; auto.
    + apply conserves_perm. destruct drain.
      * destruct (H2 eq_refl) as (_ & Hp). rewrite <- stored_app. apply stored_perm; auto.
      * rewrite (H1 eq_refl), app_nil_r. auto.
  - destruct Ho as (-> & ->). split; [cbn [length]; lia|]. split; auto.
    replace (if drain then stored [] else []) with (@nil DP) by (destruct drain; auto).
    rewrite app_nil_r. apply conserves_refl.
Qed.
Lemma slot_split ns (m : CM N) p t : SlotOk D ns m ->
  wp (cm_split E m p) t (fun m' t' => t <= t' /\ SlotOk D ns m' /\ conserves E t t' (ms m) (ms m')).
Proof.
  intros (n & Hn & Hm). eapply wp_mono; [apply (cm_split_spec E cwf cwf_add cwf_rm cwf_id cwf_new n m p t Hm)|].
  cbn beta. intros r t' (Ht & Hm' & _ & _ & Hc & _). splits; auto. exists n; auto.
Qed.
Lemma slot_merge ns (m : CM N) p t : SlotOk D ns m ->
  wp (cm_merge E m p) t (fun m' t' => t <= t' /\ SlotOk D ns m' /\ conserves E t t' (ms m) (ms m')).
Proof.
  intros (n & Hn & Hm). eapply wp_mono; [apply (cm_merge_spec E HE cwf cwf_add cwf_rm cwf_id n m p t Hm)|].
  cbn beta. intros r t' (Ht & Hm' & _ & Hc & _). splits; auto. exists n; auto.
Qed.
Lemma slot_new ns (v : vec N) th : D ns (length v) -> SlotOk D ns (new_cm v th).
Proof. intros H. exists (length v). split; auto. split; cbn; auto. Qed.

Lemma slot_attach ns (m : CM N) cs : (forall n n', D ns n -> D ns n' -> n = n') -> SlotOk D ns m -> Forall (cen_ok D ns) cs ->
  SlotOk D ns (MkCM (cm_vec m) (cm_cs m ++ cs) (cm_thresh m)).
Proof.
  intros Hf (n & Hdn & Hv & Hm) Hc. exists n. split; auto. split; auto. cbn [cm_cs]. apply Forall_app. split; auto.
  eapply Forall_impl; [|exact Hc]. intros c' (n' & Hdn' & Hc'). rewrite (Hf n n' Hdn Hdn'). exact Hc'.
Qed.
Lemma slot_vec ns (m : CM N) th : SlotOk D ns m -> SlotOk D ns (new_cm (cm_vec m) th).
Proof. intros (n & Hn & Hv & _). apply slot_new. rewrite Hv. auto. Qed.
Lemma slot_dim ns (m : CM N) : SlotOk D ns m -> exists n, D ns n.
Proof. intros (n & Hn & _). eauto. Qed.

Definition strict : SlotKind E D NoDrop :=
  MkKind E D NoDrop (SlotOk D) (fun ns => forall n n', D ns n -> D ns n' -> n = n')
    slot_dim slot_new slot_vec slot_attach slot_add slot_drain_u slot_drain_o slot_expire slot_mem_trim
    slot_move slot_internal slot_knn slot_nearest slot_split slot_merge.
End OneDim.

(* ---- one dimension per centroid ---- *)
Section OwnDim.
Context {N : Num} (E : Env N) (HE : EnvOk E).
Notation ms m := (stored (cm_cs m)).
Context (D : str -> nat -> Prop) (NoDrop : Prop).
Context (HD : NoDrop -> (forall ns n n', D ns n -> D ns n' -> n = n') /\
                        (forall ns n, D ns n -> finds_some E n)).

Lemma own_add ns (m : CM N) d t : CensOk D ns m -> D ns (length (dp_vec d)) ->
  wp (cm_add E m d) t (fun r t' => t <= t' /\ CensOk D ns (snd r) /\
    (NoDrop -> Forall (seen_expired E t t') (unless d (fst r))) /\
    conserves E t t' (ms m ++ [d]) (ms (snd r) ++ unless d (fst r))).
Proof.
  intros (Hn & Hm) Hd. eapply wp_mono; [apply (mix_add E HE (D ns) m d t Hm Hd)|].
  intros [ok m'] t' (H1 & H2 & H3 & H4 & H5). cbn [fst snd] in *. splits; auto.
  - split; auto.
  - intros Hnd. destruct ok; cbn [unless]; [constructor|]. constructor; [|constructor].
    destruct (H5 eq_refl) as [H|(Hne & He)]; auto. exfalso. destruct (HD Hnd) as (Hf & Hs).
    destruct (Hs ns _ Hd (dp_vec d) (cm_vecs m)) as (i & idx & He'); auto; [| |congruence].
    + unfold cm_vecs. destruct (cm_cs m); [congruence|discriminate].
    + unfold cm_vecs. apply Forall_map. eapply Forall_impl; [|exact Hm].
      intros c (n & Hn' & Hv & _). rewrite Hv. eapply Hf; eauto.
  - destruct ok; cbn [unless]; [rewrite app_nil_r; auto|]. rewrite H3 by auto. apply conserves_refl.
Qed.

Lemma own_drain_o ns (m : CM N) k t : (0 <= k)%Z -> CensOk D ns m ->
  wp (cm_drain_ordered E m k) t (fun r t' => t <= t' /\ CensOk D ns (snd r) /\
    Forall (fun d => D ns (length (dp_vec d))) (fst r) /\
    conserves E t t' (ms m) (ms (snd r) ++ fst r)).
Proof.
  intros Hk (Hn & Hm). eapply wp_mono; [apply (mix_drain_ordered E HE (D ns) m k t Hk Hm)|].
  intros r t' (H1 & H2 & H3). splits; auto; [split; auto|].
  pose proof (conserves_Forall E _ _ _ _ _ H3 (mixed_data (D ns) m Hm)) as HA. apply Forall_app in HA. apply HA.
Qed.

Lemma own_nearest ns (m : CM N) v k (drain : bool) t : (0 <= k)%Z -> CensOk D ns m ->
  wp (cm_nearest E m v k drain) t (fun r t' => t <= t' /\ CensOk D ns (snd r) /\
    (let cs := match fst r with Some cs => cs | None => [] end in
     length cs <= Z.to_nat k /\ Forall (cen_ok D ns) cs /\
     conserves E t t' (ms m) (ms (snd r) ++ if drain then stored cs else []))).
Proof.
  intros Hk (Hn & Hm). eapply wp_mono; [apply (mix_nearest E HE (D ns) m v k drain t Hk Hm)|].
  cbv zeta. intros r t' (-> & H2 & H3 & H4 & H5). splits; auto; [split; auto|].
  apply conserves_perm. apply stored_perm in H5. rewrite H5, stored_app. destruct drain; auto.
Qed.

Lemma own_unit {A} (f : M A) (g : A -> CM N) ns (m : CM N) t : (exists n, D ns n) ->
  wp f t (fun r t' => t <= t' /\ mixed (D ns) (g r) /\ conserves E t t' (ms m) (ms (g r))) ->
  wp f t (fun r t' => t <= t' /\ CensOk D ns (g r) /\ conserves E t t' (ms m) (ms (g r))).
Proof. intros Hn H. eapply wp_mono; [exact H|]. intros r t' (H1 & H2 & H3). splits; auto. split; auto. Qed.

Definition loose : SlotKind E D NoDrop.
Proof.
  refine (MkKind E D NoDrop (CensOk D) (fun _ => True) _ _ _ _ own_add _ own_drain_o _ _ _ _ _ own_nearest _ _).
  - intros ns m H. apply H.
  - intros ns v th H. split; [eauto|constructor].
  - intros ns m th H. split; [apply H|constructor].
  - intros ns m cs _ (H1 & H2) H. split; auto. cbn [cm_cs]. apply Forall_app. auto.
  - intros ns m k t Hk (Hn & Hm). eapply wp_mono; [apply (mix_drain_unordered E HE (D ns) m k t Hk Hm)|].
    intros r t' (H1 & H2 & H3). splits; auto. split; auto.
  - intros ns m t (Hn & Hm). apply (own_unit _ (fun m => m)); auto. apply mix_expire; auto.
  - intros ns m t (Hn & Hm). apply (own_unit _ (fun m => m)); auto. apply mix_mem_trim; auto.
  - intros ns m t (Hn & Hm). apply (own_unit _ snd); auto. apply mix_move_vector; auto.
  - intros ns m k t (Hn & Hm). apply (own_unit _ (fun m => m)); auto. apply mix_distribute_internal; auto.
  - intros ns m v k drain t Hk (Hn & Hm). eapply wp_mono; [apply (mix_knn_lookup E HE (D ns) m v k drain t Hk Hm)|].
    intros r t' (H1 & H2 & H3). splits; auto. split; auto.
  - intros ns m p t (Hn & Hm). apply (own_unit _ (fun m => m)); auto. apply mix_split; auto.
  - intros ns m p t (Hn & Hm). apply (own_unit _ (fun m => m)); auto. apply mix_merge; auto.
Defined.
End OwnDim.
