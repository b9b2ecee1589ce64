(* The manager's operations when its centroids need not share one dimension: each centroid
   has one of its own, among those that D allows, and its datapoints have that one too. *)
From Verif Require Import Base Num MathUtils Env Centroid CManager MgrSpec DataSpec DataFacts Wp Exact
  CentroidProofs DistributeProofs PortionsProofs CMProofs CMProofs2 CMProofs3.

Section MixProofs.
Context {N : Num} (E : Env N) (HE : EnvOk E).
Notation DP := (DataPoint N).
Notation Cen := (Centroid N).
Notation ms m := (stored (cm_cs m)).
Context (D : nat -> Prop).

Definition own_dim (c : Cen) : Prop := exists n, D n /\ cwf n c.
Definition mixed (m : CM N) : Prop := Forall own_dim (cm_cs m).

Lemma own_rm : RmClosed own_dim.
Proof. intros c i d (n & Hn & Hc) Hi. exists n. split; auto. apply cwf_rm; auto. Qed.

Lemma mixed_nth m i c : mixed m -> nth_error (cm_cs m) i = Some c -> own_dim c.
Proof. intros H Hn. exact (Forall_nth_error _ _ _ _ H Hn). Qed.
Lemma mixed_set m i c c' : mixed m -> own_dim c' -> mixed (update_centroid m i c c').
Proof. intros H Hc. unfold mixed; cbn [update_centroid cm_cs]. apply Forall_list_set; auto. Qed.

Lemma own_dims (cs : list Cen) : Forall own_dim cs <-> exists dims, Forall D dims /\ Forall2 cwf dims cs.
Proof.
  split.
  - induction 1 as [|c cs (n & Hn & Hc) H (dims & H1 & H2)]; [exists []; auto|]. exists (n :: dims). auto.
  - intros (dims & H1 & H2). induction H2 as [|n c dims cs Hc H2 IH]; auto. inversion H1; subst.
    constructor; auto. exists n. auto.
Qed.

(* The datapoints' dimensions are allowed ones. *)
Lemma mixed_data m : mixed m -> Forall (fun d => D (length (dp_vec d))) (ms m).
Proof.
  intros H. apply Forall_forall. intros d Hd. apply in_concat in Hd. destruct Hd as (l & Hl & Hd).
  apply in_map_iff in Hl. destruct Hl as (c & <- & Hc). unfold mixed in H. rewrite Forall_forall in H.
  destruct (H _ Hc) as (n & Hn & _ & Hf). rewrite Forall_forall in Hf. rewrite (Hf d Hd). auto.
Qed.

Lemma c_add_own c d t : own_dim c -> length (dp_vec d) = length (c_vec c) ->
  wp (c_add E c d) t (fun r t' => t' = S t /\ own_dim (snd r) /\
    (fst r = true /\ snd r = add_dp_raw c d /\ expired_at (e_now E t) d = false \/
     fst r = false /\ snd r = c /\ expired_at (e_now E t) d = true) /\
    conserves E t t' (c_dps c ++ [d]) (c_dps (snd r))).
Proof.
  intros (n & Hn & Hc) Hl. pose proof (proj1 Hc) as Hv.
  eapply wp_mono; [apply (c_add_cons E n c d t (cwf n) (cwf_add n) Hc (fun c H => proj1 H)); congruence|].
  cbn beta. intros r t' (H1 & H2 & H3 & H4). splits; auto. exists n; auto.
Qed.

Lemma split_own m i trim t : mixed m ->
  wp (split_centroid E m i trim) t (fun r t' => t <= t' /\
    match r with
    | None => True
    | Some (old', fresh) => own_dim old' /\ own_dim fresh /\
        exists c, nth_error (cm_cs m) i = Some c /\ conserves E t t' (c_dps c) (c_dps old' ++ c_dps fresh)
    end).
Proof.
  intros Hm. unfold split_centroid. destruct (Z.leb_spec trim 0) as [Ht|Ht].
  { apply wp_ret. auto. }
  destruct (nth_error (cm_cs m) i) as [c|] eqn:Hc; [|apply wp_ret; auto].
  destruct (mixed_nth _ _ _ Hm Hc) as (n & Hn & HPc).
  apply wp_bind. eapply wp_mono; [apply (c_drain_unordered_spec E (cwf n) (RmClosed_0 _ (cwf_rm n)) c trim t); auto; lia|].
  intros [ds old'] t1 (HPo & Hdr). cbn [fst snd] in *.
  destruct (drained_prefix_conserves _ _ _ _ _ _ _ Hdr) as [Hle Hcons].
  assert (Hds : Forall (fun d => length (dp_vec d) = n) ds).
  { pose proof (conserves_Forall _ _ _ _ _ _ Hcons (proj2 HPc)) as H. apply Forall_app in H; tauto. }
  apply wp_bind. eapply wp_mono; [apply (add_all_spec E cwf cwf_add cwf_id n ds (new_centroid (c_vec c)) t1)|]; auto.
  { apply cwf_new. apply HPc. }
  cbn beta. intros fresh t2 (-> & HPf & Hdf). apply wp_ret. split; [lia|].
  splits; [exists n; auto|exists n; auto|]. exists c. split; auto.
  eapply split_conserves; [exact Hle|reflexivity|exact Hdr|exact Hdf].
Qed.

(* ---- AddDataPoint ---- *)
Lemma mix_add m d t : mixed m -> D (length (dp_vec d)) ->
  wp (cm_add E m d) t (fun r t' => t <= t' /\ mixed (snd r) /\ (fst r = false -> snd r = m) /\
    (fst r = true -> conserves E t t' (ms m ++ [d]) (ms (snd r))) /\
    (fst r = false -> seen_expired E t t' d \/ cm_cs m <> [] /\ e_knn E (dp_vec d) (cm_vecs m) 1%Z = Ok [])).
Proof.
  intros Hm Hd. unfold cm_add. apply wp_bind, wp_expired.
  destruct (expired_at (e_now E t) d) eqn:Hx.
  { apply wp_ret. cbn [fst snd]. splits; auto; [discriminate|]. intros _. left. exists t. split; auto; lia. }
  destruct (cm_cs m) as [|c0 cs0] eqn:Hcs.
  - apply wp_bind. eapply wp_mono; [apply (c_add_own (new_centroid (dp_vec d)) d (S t))|].
    { exists (length (dp_vec d)). split; auto. apply cwf_new; auto. } { auto. }
    intros [ok c] t1 (-> & HPc & _ & Hcons). cbn [fst snd] in *. apply wp_ret. cbn [fst snd cm_cs].
    splits; [lia| |discriminate| |discriminate].
    + constructor; auto.
    + intros _. unfold stored; cbn [map concat]. rewrite app_nil_r.
      eapply conserves_widen; [| |exact Hcons]; lia.
  - apply wp_bind. apply (wp_knn E HE); [lia|]. rewrite Hcs. intros idx He Hnd Hl Hf Hlen.
    destruct idx as [|i idx].
    { apply wp_ret. cbn [fst snd]. splits; auto; [discriminate|]. intros _. right. split; [discriminate|]. exact He. }
    rewrite <- Hcs in Hf, Hlen |- *. inversion Hf as [|? ? Hi Hf']; subst.
    destruct (nth_error_lt _ i Hi) as (c & Hc). pose proof (mixed_nth _ _ _ Hm Hc) as HPc.
    apply wp_bind. eapply wp_index; [exact Hc|]. apply wp_bind.
    eapply wp_mono; [apply (c_add_own c d (S t) HPc)|].
    { symmetry. apply (Hlen i c); [left; auto|auto]. }
    intros [ok c'] t1 (-> & HPc' & Hcase & Hcons). cbn [fst snd] in *.
    destruct Hcase as [(-> & -> & Hx2)|(-> & -> & Hx2)]; cbn [negb].
    2:{ apply wp_ret. cbn [fst snd]. splits; auto; [discriminate|]. intros _. left. exists (S t). split; auto; lia. }
    set (m1 := update_centroid m i c (add_dp_raw c d)).
    assert (Hm1 : mixed m1) by (apply mixed_set; auto).
    assert (Hcons1 : conserves E t (S (S t)) (ms m ++ [d]) (ms m1)).
    { eapply conserves_widen; [| |eapply stored_set; [exact Hc|exact Hcons]]; lia. }
    destruct (Z.leb_spec (cm_thresh m) (Z.of_nat (c_len (add_dp_raw c d)))) as [Hth|Hth].
    2:{ apply wp_ret. cbn [fst snd]. splits; auto; try lia; discriminate. }
    apply wp_bind. eapply wp_mono; [apply (split_own m1 i (cm_thresh m ÷ 2) (S (S t)) Hm1)|].
    intros o t2 (Ht2 & Ho). destruct o as [[old' fresh]|].
    + destruct Ho as (Ho & Hfr & c1 & Hc1 & Hsp). apply wp_ret. cbn [fst snd].
      splits; [lia| |discriminate| |discriminate].
      * unfold mixed; cbn [cm_cs set_centroid]. apply Forall_app. split; [apply Forall_list_set; auto|auto].
      * intros _. cbn [cm_cs set_centroid]. rewrite stored_app. unfold stored at 3; cbn [map concat]. rewrite app_nil_r.
        eapply conserves_seq with (t' := S (S t)); [lia|exact Ht2|exact Hcons1|].
        eapply stored_set_out; [exact Hc1|exact Hsp].
    + apply wp_ret. cbn [fst snd]. splits; auto; try lia; try discriminate.
      intros _. eapply conserves_widen; [| |exact Hcons1]; lia.
Qed.

(* ---- drains ---- *)
Lemma mix_drain_portions drain (HD : drain_ok E cwf drain) : forall ps m res t,
  mixed m -> Forall (fun ip => fst ip < length (cm_cs m)) ps ->
  wp (drain_portions drain m ps res) t (fun r t' => t <= t' /\ mixed (snd r) /\
    exists out, fst r = res ++ out /\ conserves E t t' (ms m) (ms (snd r) ++ out)).
Proof.
  induction ps as [|[i p] ps IH]; intros m res t Hm Hf; cbn [drain_portions].
  - apply wp_ret. cbn [fst snd]. splits; auto. exists []. rewrite !app_nil_r. split; auto. apply conserves_refl.
  - inversion Hf as [|? ? Hi Hf']; subst. cbn [fst] in Hi.
    destruct (nth_error_lt _ i Hi) as (c & Hc). destruct (mixed_nth _ _ _ Hm Hc) as (n & Hn & HPc).
    apply wp_bind. eapply wp_index; [exact Hc|].
    apply wp_bind. eapply wp_mono; [apply (HD n c p t HPc)|].
    intros [r c'] t1 (Ht1 & HPc' & Hcons & _). cbn [fst snd] in *.
    eapply wp_mono; [apply (IH (update_centroid m i c c') (res ++ r) t1)|].
    + apply mixed_set; auto. exists n; auto.
    + cbn [update_centroid cm_cs]. rewrite list_set_length. auto.
    + cbn beta. intros [res2 m2] t2 (Ht2 & Hm2 & out & Hout & Hc2). cbn [fst snd] in *. splits; [lia|auto|].
      exists (r ++ out). split; [rewrite Hout, app_assoc; auto|].
      pose proof (stored_set_out E (cm_cs m) i c c' t t1 r Hc Hcons) as H1.
      eapply conserves_seq; [exact Ht1|exact Ht2|exact H1|].
      eapply conserves_proper; [apply Permutation_refl| |apply (conserves_frame E _ _ _ _ r Hc2)]. perm.
Qed.
Lemma mix_drain drain (HD : drain_ok E cwf drain) m k t : mixed m ->
  wp (do ps <- cm_portions E m k; drain_portions drain m ps []) t (fun r t' => t <= t' /\ mixed (snd r) /\
    conserves E t t' (ms m) (ms (snd r) ++ fst r)).
Proof.
  intros Hm. apply wp_bind. eapply wp_mono; [apply (cm_portions_spec E HE)|].
  intros ps t1 (-> & Hpf & _).
  eapply wp_mono; [apply (mix_drain_portions drain HD ps m [] (S t) Hm)|].
  { apply portions_for_range; auto. }
  cbn beta. intros [res m'] t2 (Ht & Hm' & out & Hout & Hcons). cbn [fst snd app] in *. subst out.
  splits; [lia|auto|]. eapply conserves_widen; [| |exact Hcons]; lia.
Qed.
Lemma mix_drain_unordered m k t : (0 <= k)%Z -> mixed m ->
  wp (cm_drain_unordered E m k) t (fun r t' => t <= t' /\ mixed (snd r) /\
    conserves E t t' (ms m) (ms (snd r) ++ fst r)).
Proof.
  intros Hk Hm. unfold cm_drain_unordered.
  replace (k <? 0)%Z with false by (symmetry; apply Z.ltb_ge; auto).
  apply mix_drain; auto. apply (c_drain_unordered_ok E cwf cwf_rm).
Qed.
Lemma mix_drain_ordered m k t : (0 <= k)%Z -> mixed m ->
  wp (cm_drain_ordered E m k) t (fun r t' => t <= t' /\ mixed (snd r) /\
    conserves E t t' (ms m) (ms (snd r) ++ fst r)).
Proof.
  intros Hk Hm. unfold cm_drain_ordered.
  replace (k <? 0)%Z with false by (symmetry; apply Z.ltb_ge; auto).
  apply mix_drain; auto. apply (c_drain_ordered_ok E HE cwf cwf_rm).
Qed.

(* ---- Expire ---- *)
Lemma mix_expire_loop : forall todo done m t,
  mixed m -> cm_cs m = done ++ todo ->
  wp (cm_expire_loop E m (seq (length done) (length todo))) t (fun m' t' =>
    t' = t + length (stored todo) /\ mixed m' /\
    exists todo', cm_cs m' = done ++ todo' /\ stored todo' = live_from E t (stored todo)).
Proof.
  induction todo as [|c todo IH]; intros done m t Hm Hcs; cbn [length seq cm_expire_loop].
  - apply wp_ret. cbn. splits; [lia|auto|]. exists []. auto.
  - assert (Hc : nth_error (cm_cs m) (length done) = Some c) by (rewrite Hcs; apply nth_mid).
    pose proof (mixed_nth _ _ _ Hm Hc) as HPc.
    apply wp_bind. eapply wp_index; [exact Hc|]. apply wp_bind.
    eapply wp_mono; [apply (c_expire_spec E own_dim own_rm c t HPc)|].
    cbn beta. intros c' t1 (HPc' & Hd & ->).
    replace (S (length done)) with (length (done ++ [c'])) by (rewrite app_length; simpl; lia).
    eapply wp_mono; [apply (IH (done ++ [c']) (update_centroid m (length done) c c'))|].
    + apply mixed_set; auto.
    + cbn [update_centroid cm_cs]. rewrite Hcs, set_mid, <- app_assoc. reflexivity.
    + cbn beta. intros m' t' (-> & Hm' & todo' & Hcs' & Hst).
      rewrite stored_cons, app_length. splits; [lia|auto|].
      exists (c' :: todo'). split; [rewrite Hcs', <- app_assoc; auto|].
      rewrite stored_cons, live_from_app, Hd, Hst. reflexivity.
Qed.
Lemma mix_expire m t : mixed m ->
  wp (cm_expire E m) t (fun m' t' => t <= t' /\ mixed m' /\ conserves E t t' (ms m) (ms m')).
Proof.
  intros Hm. unfold cm_expire. eapply wp_mono; [apply (mix_expire_loop (cm_cs m) [] m t Hm eq_refl)|].
  cbn beta. intros m' t' (-> & Hm' & todo' & Hcs & Hst). cbn [app] in Hcs.
  rewrite Hcs, Hst. splits; [lia|auto|apply conserves_live].
Qed.

(* ---- MemTrim ---- *)
Lemma own_mem_trim c t : own_dim c -> wp (c_mem_trim E c) t (fun c' t' =>
   own_dim c' /\ c_dps c' = live_from E t (c_dps c) /\ t' = t + length (c_dps c)).
Proof.
  intros (n & Hn & Hc). eapply wp_mono; [apply (cwf_mem_trim E n c t Hc)|].
  cbn beta. intros c' t' (H1 & H2 & H3). splits; auto. exists n; auto.
Qed.
Lemma mix_mem_trim_loop : forall todo done m kept t,
  cm_cs m = done ++ todo -> Forall own_dim todo -> Forall own_dim kept ->
  wp (cm_mem_trim_loop E m (seq (length done) (length todo)) kept) t (fun r t' =>
    t' = t + length (stored todo) /\ Forall own_dim (snd r) /\
    stored (snd r) = stored kept ++ live_from E t (stored todo)).
Proof.
  induction todo as [|c todo IH]; intros done m kept t Hcs Ht Hk; cbn [length seq cm_mem_trim_loop].
  - apply wp_ret. cbn. rewrite app_nil_r. splits; auto; lia.
  - assert (Hc : nth_error (cm_cs m) (length done) = Some c) by (rewrite Hcs; apply nth_mid).
    inversion Ht as [|? ? HPc Ht']; subst.
    apply wp_bind. eapply wp_index; [exact Hc|]. apply wp_bind.
    eapply wp_mono; [apply (own_mem_trim c t HPc)|].
    cbn beta. intros c' t1 (HPc' & Hd & ->). cbv zeta.
    set (m1 := update_centroid m (length done) c c').
    match goal with |- wp (cm_mem_trim_loop _ ?m2 _ ?k2) _ _ => set (m2' := m2); set (k2' := k2) end.
    assert (Hcs2 : cm_cs m2' = (done ++ [c']) ++ todo).
    { transitivity (cm_cs m1).
      - unfold m2'. destruct ((c_len c' =? 1) && (1 <? length (cm_cs m1))); auto.
      - unfold m1; cbn [update_centroid cm_cs]. rewrite Hcs, set_mid, <- app_assoc. reflexivity. }
    assert (Hk2 : Forall own_dim k2' /\ stored k2' = stored kept ++ c_dps c').
    { unfold k2', c_len. destruct (Nat.eqb_spec (length (c_dps c')) 0) as [H0|H0]; cbn [negb].
      - split; auto. apply length_zero_iff_nil in H0. rewrite H0, app_nil_r; auto.
      - split; [apply Forall_app; auto|]. rewrite stored_app. unfold stored at 2; cbn. rewrite app_nil_r. auto. }
    destruct Hk2 as (Hfk & Hsk).
    replace (S (length done)) with (length (done ++ [c'])) by (rewrite app_length; simpl; lia).
    eapply wp_mono; [apply (IH (done ++ [c']) m2' k2' _ Hcs2 Ht' Hfk)|].
    intros [m3 k3] t3 (-> & Hk3 & Hst). cbn [snd] in *.
    rewrite stored_cons, app_length. splits; [lia|auto|].
    rewrite Hst, Hsk, live_from_app, Hd, app_assoc. reflexivity.
Qed.
Lemma mix_mem_trim m t : mixed m ->
  wp (cm_mem_trim E m) t (fun m' t' => t <= t' /\ mixed m' /\ conserves E t t' (ms m) (ms m')).
Proof.
  intros Hm. unfold cm_mem_trim. apply wp_bind.
  eapply wp_mono; [apply (mix_mem_trim_loop (cm_cs m) [] m [] t eq_refl); auto|].
  intros [m' kept] t' (-> & Hk & Hst). cbn [snd] in *. apply wp_ret. cbn [cm_cs]. unfold mixed; cbn [cm_cs].
  rewrite Hst. splits; [lia|auto|apply conserves_live].
Qed.

(* ---- MoveVector ---- *)
Lemma own_move c t : own_dim c -> wp (c_move_vector E c) t (fun r t' =>
   own_dim (snd r) /\ c_dps (snd r) = live_from E t (c_dps c) /\ t' = t + length (c_dps c)).
Proof.
  intros (n & Hn & Hc). eapply wp_mono; [apply (cwf_move E n c t Hc)|].
  cbn beta. intros c' t' (H1 & H2 & H3). splits; auto. exists n; auto.
Qed.
Lemma mix_move_vector m t : mixed m ->
  wp (cm_move_vector E m) t (fun r t' => t <= t' /\ mixed (snd r) /\ conserves E t t' (ms m) (ms (snd r))).
Proof.
  intros Hm. unfold cm_move_vector. apply wp_bind.
  eapply wp_mono; [apply (move_all_spec E (fun _ => own_dim) (fun _ => own_move) 0 (cm_cs m) t Hm)|].
  cbn beta. intros cs t1 (-> & Hfc & Hl & Hst). apply wp_bind.
  replace (length cs) with (length (map c_vec cs)) by apply map_length.
  eapply wp_mono; [apply vec_mean_list|].
  intros [[v ok] s] t2 (-> & _). apply wp_ret. cbn [snd cm_cs]. unfold mixed; cbn [cm_cs].
  rewrite Hst. splits; [lia|auto|apply conserves_live].
Qed.

(* ---- DistributeDataPointsInternal ---- *)
Lemma mix_distribute_internal m k t : mixed m ->
  wp (cm_distribute_internal E m k) t (fun m' t' => t <= t' /\ mixed m' /\ conserves E t t' (ms m) (ms m')).
Proof.
  intros Hm. unfold cm_distribute_internal, cm_distribute.
  destruct (seq 0 (length (cm_cs m))) as [|r0 recv0] eqn:Hrecv.
  { apply wp_bind, wp_ret. apply wp_ret. splits; auto. apply conserves_refl. }
  set (recv := r0 :: recv0) in *.
  assert (Hr : Forall (fun r => r < length (cm_cs m ++ [])) recv).
  { rewrite app_nil_r, <- Hrecv. apply Forall_forall. intros i Hi. apply in_seq in Hi. lia. }
  clearbody recv. clear Hrecv r0 recv0.
  destruct (proj1 (own_dims _) Hm) as (dims & Hdims & HF).
  apply wp_bind, wp_bind. eapply wp_mono; [apply (cm_portions_spec E HE)|].
  intros ps t1 (-> & Hpf & _). apply wp_bind.
  eapply wp_mono; [apply (cm_distribute_loop_spec E HE cwf cwf_add cwf_rm cwf_id dims ps (cm_cs m ++ []) recv (S t))|].
  - rewrite app_nil_r. auto.
  - rewrite app_nil_r. apply (portions_for_range m ps Hpf).
  - exact Hr.
  - cbn beta. rewrite app_nil_r. intros pool t2 (Ht2 & HF2 & (Hl & _) & Hc2).
    rewrite firstn_all2 by lia.
    apply wp_bind. eapply wp_mono; [apply mix_move_vector|].
    { apply own_dims. cbn [cm_cs]. exists dims. auto. }
    intros [ok m'] t3 (Ht3 & Hm' & Hc3). cbn [snd cm_cs] in *. apply wp_ret. apply wp_ret.
    splits; [lia|auto|]. eapply conserves_seq; [| |eapply conserves_widen; [| |exact Hc2]|exact Hc3]; lia.
Qed.

(* ---- KNNLookup ---- *)
Lemma mix_lookup_loop v k (drain : bool) : forall idx m res t,
  mixed m -> length res <= k -> Forall (fun i => i < length (cm_cs m)) idx ->
  wp (lookup_loop E m idx v k drain res) t (fun r t' => t <= t' /\ mixed (snd r) /\
    exists out, fst r = res ++ out /\
      conserves E t t' (ms m) (ms (snd r) ++ if drain then out else [])).
Proof.
  induction idx as [|i idx IH]; intros m res t Hm Hk Hf; cbn [lookup_loop].
  - apply wp_ret. cbn [fst snd]. splits; auto. exists []. rewrite app_nil_r. split; auto.
    destruct drain; rewrite app_nil_r; apply conserves_refl.
  - inversion Hf as [|? ? Hi Hf']; subst.
    destruct (Nat.leb_spec k (length res)) as [Hle|Hlt].
    { apply wp_ret. cbn [fst snd]. splits; auto. exists []. rewrite app_nil_r. split; auto.
      destruct drain; rewrite app_nil_r; apply conserves_refl. }
    destruct (nth_error_lt _ i Hi) as (c & Hc). pose proof (mixed_nth _ _ _ Hm Hc) as HPc.
    apply wp_bind. eapply wp_index; [exact Hc|]. apply wp_bind.
    eapply wp_mono; [apply (c_knn_lookup_spec E own_dim own_rm c v _ drain t HE); auto; lia|].
    intros [ds c1] t1 (HPc1 & -> & js & He & Hjn & Hjl & Hjf & Hds & Hd1). cbn [fst snd] in *.
    assert (Hdl : length ds <= k - length res) by (subst ds; rewrite pick_length by auto; lia).
    apply wp_bind. eapply wp_mono; [apply lookup_take_all; lia|].
    intros [res' c2] t2 [-> Heq]. inversion Heq; subst res' c2. clear Heq.
    eapply wp_mono; [apply (IH (update_centroid m i c c1) (res ++ ds) (t + length (c_dps c)))|].
    + apply mixed_set; auto.
    + rewrite app_length. lia.
    + cbn [update_centroid cm_cs]. rewrite list_set_length. auto.
    + cbn beta. intros [res2 m2] t2 (Ht2 & Hm2 & out & Hout & Hc2).
      cbn [fst snd update_centroid cm_cs] in *. splits; [lia|auto|].
      exists (ds ++ out). split; [rewrite Hout, app_assoc; auto|].
      assert (Hc1 : conserves E t (t + length (c_dps c)) (c_dps c) (c_dps c1 ++ if drain then ds else [])).
      { rewrite Hd1. destruct drain; [subst ds; apply picked_conserves; auto|]. rewrite app_nil_r. apply conserves_live. }
      pose proof (stored_set_out E _ _ _ _ _ _ _ Hc Hc1) as H1.
      eapply conserves_seq; [| exact Ht2|exact H1|]; [lia|].
      eapply conserves_proper; [apply Permutation_refl| |apply (conserves_frame E _ _ _ _ (if drain then ds else []) Hc2)].
      destruct drain; perm.
Qed.
Lemma mix_knn_lookup m v k (drain : bool) t : (0 <= k)%Z -> mixed m ->
  wp (cm_knn_lookup E m v k drain) t (fun r t' => t <= t' /\ mixed (snd r) /\
    conserves E t t' (ms m) (ms (snd r) ++ if drain then fst r else [])).
Proof.
  intros Hk Hm. unfold cm_knn_lookup.
  replace (k <? 0)%Z with false by (symmetry; apply Z.ltb_ge; auto).
  apply wp_bind. apply (wp_knn E HE); auto. intros idx He Hnd Hl Hf _.
  eapply wp_mono; [apply (mix_lookup_loop v (Z.to_nat k) drain idx m [] t); auto; simpl; lia|].
  cbn beta. intros [res m'] t' (Ht & Hm' & out & Hout & Hc). cbn [fst snd app] in *. subst out. auto.
Qed.

(* ---- deleting centroids ---- *)
Lemma mix_delete_all : forall js m t,
  desc js -> Forall (fun i => i < length (cm_cs m)) js -> mixed m ->
  wp (delete_all m js) t (fun m' t' => t' = t /\ mixed m' /\ cm_cs m' = without js (cm_cs m)).
Proof.
  induction js as [|j js IH]; intros m t Hd Hf Hm; cbn [delete_all].
  - apply wp_ret. splits; auto. unfold without. rewrite without_from_none; auto.
  - inversion Hd as [|? ? Hlt Hd']; subst. inversion Hf as [|? ? Hj Hf']; subst.
    destruct (nth_error_lt _ j Hj) as (c & Hc). apply wp_bind.
    unfold delete_centroid. apply wp_bind. eapply wp_index; [exact Hc|]. apply wp_ret. cbv zeta.
    eapply wp_mono; [apply IH|]; auto.
    + cbn [cm_cs]. rewrite remove_at_length by auto. eapply Forall_impl; [|exact Hlt]. simpl; intros; lia.
    + unfold mixed; cbn [cm_cs]. apply Forall_remove_at. exact Hm.
    + cbn beta. intros m' t' (-> & Hm' & Hcs). cbn [cm_cs] in *. splits; auto.
      rewrite Hcs. symmetry. eapply without_step; eauto.
Qed.

Lemma mix_nearest m v k (drain : bool) t : (0 <= k)%Z -> mixed m ->
  wp (cm_nearest E m v k drain) t (fun r t' => t' = t /\ mixed (snd r) /\
    (let cs := match fst r with Some cs => cs | None => [] end in
     length cs <= Z.to_nat k /\ Forall own_dim cs /\
     Permutation (cm_cs m) (cm_cs (snd r) ++ if drain then cs else []))).
Proof.
  intros Hk Hm. unfold cm_nearest. apply wp_bind. apply (wp_knn E HE); auto.
  intros idx He Hnd Hl Hf _. destruct idx as [|i idx'].
  - apply wp_ret. cbn [fst snd length]. cbv zeta. splits; auto; try lia.
    replace (if drain then [] else []) with (@nil Cen) by (destruct drain; auto). rewrite app_nil_r. auto.
  - set (idx := i :: idx') in *. apply wp_bind. apply index_all_spec; auto.
    assert (Hp : length (pick idx (cm_cs m)) <= Z.to_nat k) by (rewrite pick_length by auto; lia).
    assert (HFp : Forall own_dim (pick idx (cm_cs m))).
    { apply Forall_forall. intros c Hc. apply in_pick in Hc. destruct Hc as (j & _ & Hj). eapply mixed_nth; eauto. }
    destruct drain.
    + apply wp_bind. eapply wp_mono; [apply (mix_delete_all (rev (sort_ints idx)) m t)|]; auto.
      * apply desc_rev_sort; auto.
      * eapply Permutation_Forall; [apply Permutation_sym, rev_sort_perm|auto].
      * cbn beta. intros m' t' (-> & Hm' & Hcs). apply wp_ret. cbn [fst snd]. cbv zeta. splits; auto.
        assert (Hw : cm_cs m' = without idx (cm_cs m)).
        { rewrite Hcs. apply without_perm_idx, rev_sort_perm. }
        rewrite Hw. rewrite (pick_without idx (cm_cs m) Hnd Hf) at 1. apply Permutation_app_comm.
    + apply wp_ret. cbn [fst snd]. cbv zeta. splits; auto. rewrite app_nil_r. auto.
Qed.

(* ---- SplitCentroids ---- *)
Lemma mix_split_loop p : forall todo done m fresh t,
  mixed m -> cm_cs m = done ++ todo -> Forall own_dim fresh ->
  wp (split_loop E m p (seq (length done) (length todo)) fresh) t (fun r t' =>
    t <= t' /\ mixed (fst r) /\ Forall own_dim (snd r) /\
    conserves E t t' (ms m ++ stored fresh) (ms (fst r) ++ stored (snd r))).
Proof.
  induction todo as [|c todo IH]; intros done m fresh t Hm Hcs Hfr; cbn [length seq split_loop].
  - apply wp_ret. cbn [fst snd]. splits; auto. apply conserves_refl.
  - assert (Hc : nth_error (cm_cs m) (length done) = Some c) by (rewrite Hcs; apply nth_mid).
    apply wp_bind. eapply wp_index; [exact Hc|].
    assert (Hskip : forall t1, t <= t1 ->
      wp (split_loop E m p (seq (S (length done)) (length todo)) fresh) t1 (fun r t' =>
        t <= t' /\ mixed (fst r) /\ Forall own_dim (snd r) /\
        conserves E t t' (ms m ++ stored fresh) (ms (fst r) ++ stored (snd r)))).
    { intros t1 Ht1. replace (S (length done)) with (length (done ++ [c])) by (rewrite app_length; simpl; lia).
      eapply wp_mono; [apply (IH (done ++ [c]) m fresh t1 Hm)|]; auto.
      { rewrite Hcs, <- app_assoc; auto. }
      cbn beta. intros r t' (H1 & H2 & H3 & H4). splits; auto; [lia|]. eapply conserves_widen; [| |exact H4]; lia. }
    destruct (p c) eqn:Hp; cbn [negb]; [|apply Hskip; auto].
    apply wp_bind. eapply wp_mono; [apply (split_own m (length done) (Z.of_nat (c_len c / 2)) t Hm)|].
    intros o t1 (Ht1 & Ho). destruct o as [[old' new1]|]; [|apply Hskip; auto].
    destruct Ho as (HPo & HPf & c1 & Hc1 & Hsp).
    replace (S (length done)) with (length (done ++ [old'])) by (rewrite app_length; simpl; lia).
    eapply wp_mono; [apply (IH (done ++ [old']) (set_centroid m (length done) old') (fresh ++ [new1]) t1)|].
    + unfold mixed; cbn [set_centroid cm_cs]. apply Forall_list_set; auto.
    + cbn [set_centroid cm_cs]. rewrite Hcs, set_mid, <- app_assoc. reflexivity.
    + apply Forall_app; auto.
    + cbn beta. intros r t' (H1 & H2 & H3 & H4). splits; auto; [lia|].
      pose proof (stored_set_out E _ _ _ _ _ _ _ Hc1 Hsp) as H5.
      eapply conserves_seq; [exact Ht1|exact H1|apply (conserves_frame E _ _ _ _ (stored fresh) H5)|].
      eapply conserves_proper; [|apply Permutation_refl|exact H4].
      cbn [set_centroid cm_cs]. rewrite stored_app. unfold stored at 3; cbn [map concat]. rewrite app_nil_r. perm.
Qed.
Lemma mix_split m p t : mixed m ->
  wp (cm_split E m p) t (fun m' t' => t <= t' /\ mixed m' /\ conserves E t t' (ms m) (ms m')).
Proof.
  intros Hm. unfold cm_split. apply wp_bind.
  eapply wp_mono; [apply (mix_split_loop p (cm_cs m) [] m [] t Hm eq_refl); auto|].
  intros [m' fresh] t' (Ht & Hm' & Hfr & Hc). cbn [fst snd] in *. apply wp_ret. unfold mixed; cbn [cm_cs].
  unfold stored at 2 in Hc. cbn [map concat] in Hc. rewrite app_nil_r in Hc. rewrite stored_app.
  splits; auto. apply Forall_app. auto.
Qed.

(* ---- MergeCentroids ---- *)
Lemma mix_merge_inner p i n : forall idx dims (cs : list Cen) marks t,
  Forall2 cwf dims cs -> marks_ok cs marks -> nth_error dims i = Some n -> nth_error marks i = Some false ->
  Forall (fun j => nth_error dims j = Some n) idx ->
  wp (merge_inner E cs marks i p idx) t (fun r t' => let '(cs', marks') := r in t <= t' /\
    Forall2 cwf dims cs' /\ marks_ok cs' marks' /\ conserves E t t' (stored cs) (stored cs')).
Proof.
  induction idx as [|j idx IH]; intros dims cs marks t HF Hmk Hi Hmi Hf; cbn [merge_inner].
  - apply wp_ret. splits; auto. apply conserves_refl.
  - inversion Hf as [|? ? Hj Hf']; subst. destruct Hmk as [Hml Hmk]. pose proof (Forall2_len _ _ _ HF) as Hlen.
    assert (Hjl : j < length cs) by (rewrite <- Hlen; eapply nth_error_len; eauto).
    assert (Hil : i < length cs) by (rewrite <- Hlen; eapply nth_error_len; eauto).
    destruct (nth_error_lt marks j ltac:(lia)) as (mj & Hmj).
    apply wp_bind. eapply wp_index; [exact Hmj|].
    destruct ((j =? i) || mj) eqn:Hskip; [apply IH; auto; split; auto|].
    apply orb_false_iff in Hskip. destruct Hskip as [Hji Hmf]. apply Nat.eqb_neq in Hji. subst mj.
    destruct (nth_error_lt cs j Hjl) as (other & Ho). cbv zeta.
    apply wp_bind. eapply wp_index; [exact Ho|].
    destruct (Forall2_nth _ _ _ _ _ HF Ho) as (n' & Hn' & HPo). rewrite Hj in Hn'. injection Hn' as <-.
    apply wp_bind.
    eapply wp_mono; [apply (c_drain_unordered_spec E (cwf n) (RmClosed_0 _ (cwf_rm n)) other _ t); auto; lia|].
    intros [ds other'] t1 (HPo' & Hdr). cbn [fst snd] in *. rewrite Nat2Z.id in Hdr.
    pose proof (drained_prefix_full _ _ _ _ _ _ Hdr) as Hempty.
    destruct (drained_prefix_conserves _ _ _ _ _ _ _ Hdr) as [Ht1 Hc1].
    assert (Hds : Forall (fun d => length (dp_vec d) = n) ds).
    { pose proof (conserves_Forall _ _ _ _ _ _ Hc1 (proj2 HPo)) as H. apply Forall_app in H; tauto. }
    set (cs1 := list_set cs j other').
    assert (HF1 : Forall2 cwf dims cs1) by (eapply Forall2_set; eauto).
    assert (Hl1 : length cs1 = length cs) by apply list_set_length.
    destruct (nth_error_lt cs1 i ltac:(lia)) as (cand & Hcand).
    destruct (Forall2_nth _ _ _ _ _ HF1 Hcand) as (n' & Hn' & HPc). rewrite Hi in Hn'. injection Hn' as <-.
    apply wp_bind. eapply wp_index; [exact Hcand|].
    apply wp_bind. eapply wp_mono; [apply (add_all_spec E cwf cwf_add cwf_id n ds cand t1)|]; auto.
    cbn beta. intros cand' t2 (-> & HPc' & Hdc').
    set (cs2 := list_set cs1 i cand'). set (marks' := list_set marks j true).
    assert (HF2 : Forall2 cwf dims cs2) by (eapply Forall2_set; eauto).
    assert (Hmk2 : marks_ok cs2 marks').
    { split; [unfold marks', cs2; rewrite !list_set_length; lia|]. intros k c Hk Hc.
      unfold marks' in Hk. unfold cs2, cs1 in Hc.
      destruct (Nat.eq_dec i k) as [<-|Hik].
      - rewrite list_set_other in Hk by auto. congruence.
      - rewrite list_set_other in Hc by auto. destruct (Nat.eq_dec j k) as [<-|Hjk].
        + rewrite list_set_same in Hc by auto. injection Hc as <-. auto.
        + rewrite list_set_other in Hc by auto. rewrite list_set_other in Hk by auto. eapply Hmk; eauto. }
    assert (Hmi' : nth_error marks' i = Some false) by (unfold marks'; rewrite list_set_other; auto).
    assert (Hcons : conserves E t (t1 + length ds) (stored cs) (stored cs2)).
    { pose proof (stored_set_out E cs j other other' t t1 ds Ho Hc1) as HA. fold cs1 in HA.
      assert (HcB : conserves E t1 (t1 + length ds) (c_dps cand ++ ds) (c_dps cand')).
      { rewrite Hdc'. apply conserves_frame_l, conserves_live. }
      pose proof (stored_set E cs1 i cand cand' _ _ ds Hcand HcB) as HB.
      eapply conserves_seq; [exact Ht1| |exact HA|exact HB]. lia. }
    destruct (p cand') eqn:Hpc.
    + eapply wp_mono; [apply (IH dims cs2 marks' (t1 + length ds) HF2 Hmk2); auto|].
      intros [cs3 marks3] t3 (H1 & H2 & H3 & H4). splits; auto; [lia|].
      eapply conserves_seq; [| |exact Hcons|exact H4]; lia.
    + apply wp_ret. splits; auto. lia.
Qed.

Lemma mix_merge_outer p dims : forall is m marks t,
  Forall2 cwf dims (cm_cs m) -> marks_ok (cm_cs m) marks -> Forall (fun i => i < length dims) is ->
  wp (merge_outer E m marks p is) t (fun r t' => let '(m', marks') := r in t <= t' /\
    Forall2 cwf dims (cm_cs m') /\ marks_ok (cm_cs m') marks' /\ conserves E t t' (ms m) (ms m')).
Proof.
  induction is as [|i is IH]; intros m marks t HF Hmk Hf; cbn [merge_outer].
  - apply wp_ret. splits; auto. apply conserves_refl.
  - inversion Hf as [|? ? Hi Hf']; subst. pose proof (Forall2_len _ _ _ HF) as Hlen.
    destruct (nth_error_lt (cm_cs m) i ltac:(lia)) as (cand & Hcand).
    destruct (nth_error_lt marks i ltac:(destruct Hmk; lia)) as (mi & Hmi).
    apply wp_bind. eapply wp_index; [exact Hcand|]. apply wp_bind. eapply wp_index; [exact Hmi|].
    destruct (negb (p cand) || mi) eqn:Hskip; [apply IH; auto|].
    apply orb_false_iff in Hskip. destruct Hskip as [_ ->].
    destruct (Forall2_nth _ _ _ _ _ HF Hcand) as (n & Hn & HPc).
    apply wp_bind. apply (wp_knn E HE); [lia|]. intros idx He Hnd Hl Hfi Hdim.
    apply wp_bind. eapply wp_mono; [apply (mix_merge_inner p i n idx dims (cm_cs m) marks t); auto|].
    { rewrite Forall_forall in *. intros j Hj. destruct (nth_error_lt (cm_cs m) j (Hfi j Hj)) as (c & Hc).
      destruct (Forall2_nth _ _ _ _ _ HF Hc) as (n' & Hn' & HPc'). rewrite Hn'. f_equal.
      rewrite <- (proj1 HPc), <- (proj1 HPc'). eauto. }
    intros [cs' marks'] t1 (Ht1 & HF1 & Hmk1 & Hc1). pose proof (Forall2_len _ _ _ HF1) as Hlen1.
    destruct (nth_error_lt cs' i ltac:(lia)) as (cand' & Hcand').
    apply wp_bind. eapply wp_index; [exact Hcand'|]. cbv zeta.
    eapply wp_mono; [apply IH; cbn [cm_cs]; auto|].
    intros [m' marks2] t2 (Ht2 & HF2 & Hmk2 & Hc2). cbn [cm_cs] in *. splits; auto; [lia|].
    eapply conserves_seq; [exact Ht1|exact Ht2|exact Hc1|exact Hc2].
Qed.

Lemma mix_merge m p t : mixed m ->
  wp (cm_merge E m p) t (fun m' t' => t <= t' /\ mixed m' /\ conserves E t t' (ms m) (ms m')).
Proof.
  intros Hm. destruct (proj1 (own_dims _) Hm) as (dims & Hdims & HF). pose proof (Forall2_len _ _ _ HF) as Hlen.
  unfold cm_merge. apply wp_bind.
  eapply wp_mono; [apply (mix_merge_outer p dims (seq 0 (length (cm_cs m))) m (repeat false (length (cm_cs m))) t HF)|].
  - split; [apply repeat_length|]. intros j c Hj. apply nth_error_In, repeat_spec in Hj. discriminate.
  - apply Forall_forall. intros i Hi. apply in_seq in Hi. lia.
  - intros [m1 marks] t1 (Ht1 & HF1 & [Hml Hmk] & Hc1).
    assert (Hm1 : mixed m1) by (apply own_dims; exists dims; auto).
    assert (Hd : desc (marked marks)) by (apply desc_filter, desc_rev_seq).
    assert (Hrange : Forall (fun i => i < length (cm_cs m1)) (marked marks)).
    { apply Forall_forall. intros j Hj. apply in_marked, nth_error_len in Hj. lia. }
    eapply wp_mono; [apply (mix_delete_all (marked marks) m1 t1 Hd Hrange Hm1)|].
    cbn beta. intros m' t' (-> & Hm' & Hcs). splits; auto.
    assert (Hemp : forall j c, In j (marked marks) -> nth_error (cm_cs m1) j = Some c -> c_dps c = []).
    { intros j c Hj Hc. apply in_marked in Hj. eauto. }
    eapply conserves_trans; [exact Hc1|]. apply conserves_perm.
    rewrite (stored_perm _ _ (pick_without (marked marks) (cm_cs m1) (NoDup_desc _ Hd) Hrange)).
    rewrite stored_app, (stored_pick_empty _ _ Hemp), Hcs. auto.
Qed.
End MixProofs.
