(* Proofs of the statements collected in Props03.v. *)
From Verif Require Import Base Num MathUtils Knn Env Centroid CManager MgrSpec History DataSpec DataFacts Wp NumFacts
  Exact SearchSpec KnnProofs CentroidProofs DistributeProofs PortionsProofs CMProofs CMProofs2 CMProofs3
  HistoryProofs MathSpec TestEnv.
From Coq Require Import QArith Qcanon SpecFloat.
Local Open Scope nat_scope.

Section Manager.
Context {N : Num} (E : Env N) (HE : EnvOk E).
Notation DP := (DataPoint N).
Notation Cen := (Centroid N).
Notation ms m := (stored (cm_cs m)).
Notation cmW := (cmP (N := N) cwf).
Notation trivV := (fun (_ : nat) (_ : CM N) => True).
Lemma trivU : forall n (m : CM N) i (c c' : Cen), cmW n m -> trivV n m -> nth_error (cm_cs m) i = Some c ->
  length (c_vec c') = n -> trivV n (update_centroid m i c c').
Proof. intros; exact I. Qed.

Lemma never_expired_live t (l : list DP) : never_expired E l -> live_from E t l = l.
Proof. intros H. apply live_from_all. intros k d _ Hd. apply H; auto. Qed.

Lemma firstn_In {A} k (l : list A) x : In x (firstn k l) -> In x l.
Proof. intros H. rewrite <- (firstn_skipn k l). apply in_or_app; auto. Qed.

Lemma drained_prefix_exact t t' (l : list DP) k res post :
  never_expired E l -> drained_prefix E t t' l k res post -> res = firstn k l /\ post = skipn k l.
Proof.
  intros Hne (pre & Hl & Hr & _ & Hle & Hlt & _). rewrite never_expired_live in Hr.
  2:{ intros j d Hd. apply Hne. rewrite Hl. apply in_or_app; auto. }
  subst res. destruct (Nat.eq_dec (length pre) k) as [Hk|Hk].
  - subst l. rewrite <- Hk, firstn_app, skipn_app, Nat.sub_diag, firstn_all, skipn_all. cbn [firstn skipn].
    rewrite app_nil_r. auto.
  - assert (Hp : post = []) by (apply Hlt; lia). rewrite Hp, app_nil_r in *. subst l.
    rewrite firstn_all2, skipn_all2 by lia. auto.
Qed.

(* C21 *)
Lemma cm_add_accepts n m d t : DimOk n m ->
  wp (cm_add E m d) t (fun r _ =>
    (fst r = true <-> expired_at (e_now E t) d = false /\
       (cm_cs m = [] \/ expired_at (e_now E (S t)) d = false /\
          exists i idx, e_knn E (dp_vec d) (map c_vec (cm_cs m)) 1%Z = Ok (i :: idx)))).
Proof.
  intros Hm. unfold cm_add. apply wp_bind, wp_expired.
  destruct (expired_at (e_now E t) d) eqn:Hx.
  { apply wp_ret. cbn [fst]. split; [discriminate|]. intros [H _]; discriminate. }
  destruct (cm_cs m) as [|c0 cs0] eqn:Hcs.
  - apply wp_bind. eapply wp_mono; [apply c_add_spec|]. intros [ok c] t1 _. apply wp_ret. cbn [fst]. tauto.
  - rewrite <- Hcs. apply wp_bind. apply (wp_knn E HE); [lia|]. intros idx He Hnd Hl Hf Hlen.
    unfold cm_vecs in He. rewrite He. destruct idx as [|i idx].
    { apply wp_ret. cbn [fst]. split; [discriminate|]. intros [_ [H|(_ & i & idx & H)]]; [congruence|discriminate]. }
    inversion Hf as [|? ? Hi Hf']; subst. destruct (nth_error_lt _ i Hi) as (c & Hc).
    apply wp_bind. eapply wp_index; [exact Hc|]. apply wp_bind.
    eapply wp_mono; [apply c_add_spec|]. intros [ok c'] t1 (_ & H).
    assert (Hlc : length (c_vec c) = length (dp_vec d)) by (apply (Hlen i c); simpl; auto).
    destruct H as [(_ & -> & Hx2 & [= -> ->])|[(_ & -> & Hx2 & [= -> ->])|(Hb & _)]]; [| |congruence]; cbn [negb].
    + assert (HR : true = true <-> false = false /\ (cm_cs m = [] \/ expired_at (e_now E (S t)) d = false /\
        exists i0 idx0, Ok (i :: idx) = Ok (i0 :: idx0))) by (split; auto; intros _; split; auto; right; split; eauto).
      set (m1 := update_centroid m i c (add_dp_raw c d)).
      destruct (Z.leb_spec (cm_thresh m) (Z.of_nat (c_len (add_dp_raw c d)))); [|apply wp_ret; exact HR].
      apply wp_bind. pose proof (cs_length_P cwf _ _ _ _ Hm Hc) as HPc.
      eapply wp_mono; [apply (split_centroid_spec E cwf cwf_add cwf_rm cwf_id cwf_new n m1 i)|].
      * apply (update_centroid_P cwf cwf_id); auto. apply cwf_add; auto.
      * intros [[o f]|] t2 _; apply wp_ret; exact HR.
    + apply wp_ret. cbn [fst]. split; [discriminate|]. intros [_ [H|(H & _)]]; congruence.
Qed.

Lemma cm_add_stores n m d t : DimOk n m ->
  wp (cm_add E m d) t (fun r t' =>
    (fst r = false -> snd r = m) /\
    (fst r = true -> conserves E t t' (ms m ++ [d]) (ms (snd r)) /\ seen_live E t t' d)).
Proof.
  intros Hm. eapply wp_mono; [apply (cm_add_spec E HE cwf cwf_add cwf_rm cwf_id cwf_new trivV trivU n m d t Hm); auto|].
  intros r t' (_ & _ & H1 & _ & H2 & _). auto.
Qed.

Lemma cm_add_where n m d t : DimOk n m -> cm_cs m <> [] ->
  wp (cm_add E m d) t (fun r t' => fst r = true ->
    exists i idx c, e_knn E (dp_vec d) (map c_vec (cm_cs m)) 1%Z = Ok (i :: idx) /\
      nth_error (cm_cs m) i = Some c /\
      exists c' extra, cm_cs (snd r) = list_set (cm_cs m) i c' ++ extra /\
        (extra = [] /\ c_dps c' = c_dps c ++ [d] /\
           (Z.of_nat (S (length (c_dps c))) < cm_thresh m \/ cm_thresh m <= 1)%Z \/
         exists fresh, extra = [fresh] /\ (2 <= cm_thresh m <= Z.of_nat (S (length (c_dps c))))%Z /\
           conserves E t t' (c_dps c ++ [d]) (c_dps c' ++ c_dps fresh) /\
           (never_expired E (c_dps c ++ [d]) ->
              c_dps fresh = firstn (Z.to_nat (cm_thresh m / 2)) (c_dps c ++ [d]) /\
              c_dps c' = skipn (Z.to_nat (cm_thresh m / 2)) (c_dps c ++ [d])))).
Proof.
  intros Hm Hn. unfold cm_add. apply wp_bind, wp_expired.
  destruct (expired_at (e_now E t) d) eqn:Hx; [apply wp_ret; cbn [fst]; discriminate|].
  destruct (cm_cs m) as [|c0 cs0] eqn:Hcs; [congruence|]. rewrite <- Hcs in *. clear Hn.
  apply wp_bind. apply (wp_knn E HE); [lia|]. intros idx He Hnd Hl Hf Hlen.
  unfold cm_vecs in He. rewrite He. destruct idx as [|i idx]; [apply wp_ret; cbn [fst]; discriminate|].
  inversion Hf as [|? ? Hi Hf']; subst. destruct (nth_error_lt _ i Hi) as (c & Hc).
  pose proof (cs_length_P cwf _ _ _ _ Hm Hc) as HPc.
  assert (Hlc : length (dp_vec d) = n) by (rewrite <- (Hlen i c) by (simpl; auto); apply HPc).
  apply wp_bind. eapply wp_index; [exact Hc|]. apply wp_bind.
  eapply wp_mono; [apply (c_add_cons E n c d (S t) (cwf n)); auto|].
  { apply cwf_add. } { intros c1 H1; apply H1. }
  intros [ok c'] t1 (-> & HPc' & Hcase & Hcons). cbn [fst snd] in *.
  destruct ok; cbn [negb]; [|apply wp_ret; cbn [fst]; discriminate].
  destruct Hcase as [(_ & -> & Hx2)|(Habs & _)]; [|discriminate].
  assert (Hlen' : c_len (add_dp_raw c d) = S (length (c_dps c))).
  { unfold c_len, add_dp_raw; cbn [c_dps]. rewrite app_length. simpl; lia. }
  rewrite Hlen'. set (m1 := update_centroid m i c (add_dp_raw c d)).
  assert (Hm1 : cmW n m1) by (apply (update_centroid_P cwf cwf_id); auto).
  assert (Hno : forall t2, (Z.of_nat (S (length (c_dps c))) < cm_thresh m \/ cm_thresh m <= 1)%Z ->
    wp (ret (true, m1)) t2 (fun r t' => fst r = true ->
    exists i0 idx0 c1, Ok (i :: idx) = Ok (i0 :: idx0) /\
      nth_error (cm_cs m) i0 = Some c1 /\
      exists c' extra, cm_cs (snd r) = list_set (cm_cs m) i0 c' ++ extra /\
        (extra = [] /\ c_dps c' = c_dps c1 ++ [d] /\
           (Z.of_nat (S (length (c_dps c1))) < cm_thresh m \/ cm_thresh m <= 1)%Z \/
         exists fresh, extra = [fresh] /\ (2 <= cm_thresh m <= Z.of_nat (S (length (c_dps c1))))%Z /\
           conserves E t t' (c_dps c1 ++ [d]) (c_dps c' ++ c_dps fresh) /\
           (never_expired E (c_dps c1 ++ [d]) ->
              c_dps fresh = firstn (Z.to_nat (cm_thresh m / 2)) (c_dps c1 ++ [d]) /\
              c_dps c' = skipn (Z.to_nat (cm_thresh m / 2)) (c_dps c1 ++ [d]))))).
  { intros t2 H2. apply wp_ret. intros _. exists i, idx, c. splits; auto. exists (add_dp_raw c d), [].
    rewrite app_nil_r. split; auto. }
  destruct (Z.leb_spec (cm_thresh m) (Z.of_nat (S (length (c_dps c))))) as [Hth|Hth]; [|apply Hno; auto].
  apply wp_bind.
  eapply wp_mono; [apply (split_centroid_spec E cwf cwf_add cwf_rm cwf_id cwf_new n m1 i (cm_thresh m ÷ 2) (S (S t)) Hm1)|].
  intros o t2 (Ht2 & Ho). destruct o as [[old' fresh]|].
  - destruct Ho as (Htrim & c1 & ds & Hc1 & HPo & HPf & t3 & Ht3 & Ht3' & Ht2' & Hdr & Hfresh).
    assert (Hth2 : (2 <= cm_thresh m)%Z).
    { destruct (Z.le_gt_cases 2 (cm_thresh m)); auto. exfalso.
      clear - Htrim H. Z.to_euclidean_division_equations. lia. }
    unfold m1 in Hc1. cbn [update_centroid cm_cs] in Hc1. rewrite list_set_same in Hc1 by auto. injection Hc1 as <-.
    assert (Hq : (cm_thresh m ÷ 2 = cm_thresh m / 2)%Z) by (apply Z.quot_div_nonneg; lia).
    apply wp_ret. intros _. cbn [snd cm_cs set_centroid]. exists i, idx, c. splits; auto.
    exists old', [fresh]. unfold m1. cbn [update_centroid cm_cs]. rewrite list_set_twice. split; auto.
    right. exists fresh. splits; auto.
    + eapply conserves_widen; [| |eapply (split_conserves E (S (S t))); eauto]; lia.
    + intros Hne. rewrite Hq in Hdr. destruct (drained_prefix_exact _ _ _ _ _ _ Hne Hdr) as [H1 H2].
      split; [|exact H2]. rewrite Hfresh, <- H1. apply never_expired_live. intros k x Hx'. apply Hne.
      rewrite H1 in Hx'. cbn [add_dp_raw c_dps] in Hx'. eapply firstn_In; eauto.
  - assert (H1 : (cm_thresh m <= 1)%Z).
    { destruct Ho as [Ho|Ho].
      - destruct (Z.le_gt_cases (cm_thresh m) 1); auto. exfalso.
        assert (1 <= cm_thresh m ÷ 2)%Z; [|lia]. apply Z.quot_le_lower_bound; lia.
      - exfalso. unfold m1, update_centroid in Ho; cbn [cm_cs] in Ho. rewrite list_set_same in Ho by auto. discriminate. }
    apply Hno; auto.
Qed.

(* C22 *)
Lemma drain_portions_each : forall ps n m res t,
  cmW n m -> portions_for m ps -> never_expired E (ms m) ->
  wp (drain_portions (c_drain_unordered E) m ps res) t (fun r t' =>
    length (cm_cs (snd r)) = length (cm_cs m) /\
    forall i c, nth_error (cm_cs m) i = Some c -> exists c', nth_error (cm_cs (snd r)) i = Some c' /\
      (forall p, In (i, p) ps -> c_dps c' = skipn p (c_dps c)) /\ (~ In i (map fst ps) -> c' = c)).
Proof.
  induction ps as [|[i p] ps IH]; intros n m res t Hm Hpf Hne; cbn [drain_portions].
  - apply wp_ret. split; auto. intros i c Hc. exists c. splits; auto. intros p [].
  - destruct Hpf as [Hnd Hf]. inversion Hf as [|? ? (c & Hc & Hp) Hf']; subst. cbn [fst snd] in *.
    inversion Hnd as [|? ? Hni Hnd']; subst.
    pose proof (cs_length_P cwf _ _ _ _ Hm Hc) as HPc.
    apply wp_bind. eapply wp_index; [exact Hc|]. apply wp_bind.
    eapply wp_mono; [apply (c_drain_unordered_spec E (cwf n) (RmClosed_0 _ (cwf_rm n)) c _ t); auto; lia|].
    intros [r c'] t1 (HPc' & Hdr). cbn [fst snd] in *. rewrite Nat2Z.id in Hdr.
    assert (Hinc : never_expired E (c_dps c)).
    { intros k x Hx. apply Hne. unfold stored. apply in_concat. exists (c_dps c). split; auto.
      apply in_map. eapply nth_error_In; eauto. }
    destruct (drained_prefix_conserves _ _ _ _ _ _ _ Hdr) as [_ Hcons].
    destruct (drained_prefix_exact _ _ _ _ _ _ Hinc Hdr) as [_ Hskip].
    eapply wp_mono; [apply (IH n (update_centroid m i c c') (res ++ r) t1)|].
    + apply (update_centroid_P cwf cwf_id); auto.
    + split; auto. cbn [update_centroid cm_cs]. rewrite Forall_forall in *. intros [j q] Hin.
      destruct (Hf' _ Hin) as (cj & Hcj & Hq). exists cj. cbn [fst snd] in *. split; auto.
      rewrite list_set_other; auto. intros <-. apply Hni. apply in_map_iff. exists (i, q); auto.
    + intros k d Hd. apply Hne. cbn [update_centroid cm_cs] in Hd.
      pose proof (stored_set_out E (cm_cs m) i c c' t t1 r Hc Hcons) as H1.
      eapply conserves_in; [exact H1|]. apply in_or_app; auto.
    + cbn beta. intros [res2 m2] t2 [H1 H2]. cbn [snd update_centroid cm_cs map fst] in *.
      rewrite list_set_length in H1. split; auto. intros j cj Hj.
      destruct (Nat.eq_dec i j) as [<-|Hij].
      * rewrite Hj in Hc. injection Hc as ->.
        destruct (H2 i c') as (c'' & H3 & H4 & H5).
        { apply list_set_same. eapply nth_error_len; eauto. }
        exists c''. splits; auto.
        -- rewrite (H5 Hni). intros q [Hq|Hq]; [injection Hq as <-; auto|].
           exfalso. apply Hni. apply in_map_iff. exists (i, q); auto.
        -- intros Hn. exfalso. apply Hn. left; auto.
      * destruct (H2 j cj) as (c'' & H3 & H4 & H5).
        { rewrite list_set_other; auto. }
        exists c''. splits; auto.
        -- intros q [Hq|Hq]; [congruence|auto].
        -- intros Hn. apply H5. intros Hin. apply Hn. right; auto.
Qed.

Lemma cm_drain_even n m k t : (1 <= k)%Z -> DimOk n m -> never_expired E (ms m) ->
  wp (cm_drain_unordered E m k) t (fun r _ =>
    exists ps, EvenPortions (map (fun c => length (c_dps c)) (cm_cs m)) (Z.to_nat k) ps /\
      length (cm_cs (snd r)) = length (cm_cs m) /\
      forall i c p, nth_error (cm_cs m) i = Some c -> nth_error ps i = Some p ->
        exists c', nth_error (cm_cs (snd r)) i = Some c' /\ c_dps c' = skipn p (c_dps c)).
Proof.
  intros Hk Hm Hne. unfold cm_drain_unordered.
  replace (k <? 0)%Z with false by (symmetry; apply Z.ltb_ge; lia).
  apply wp_bind. eapply wp_mono; [apply (cm_portions_spec E HE)|].
  intros ps t1 (-> & Hpf & Hfull & _). destruct (Hfull Hk) as (full & HEP & Hp).
  eapply wp_mono; [apply (drain_portions_each ps n m [] (S t)); auto|].
  intros r t2 [H1 H2]. exists full. splits; auto. intros i c p Hc Hfp.
  destruct (H2 i c Hc) as (c' & H3 & H4 & H5). exists c'. split; auto.
  destruct (portions_entries_spec full) as (_ & _ & Hin).
  destruct (Nat.eq_dec p 0) as [->|Hp0].
  - rewrite H5; auto. intros Hi. apply in_map_iff in Hi. destruct Hi as ([j q] & Hj & Hq). cbn [fst] in Hj. subst j.
    apply (Permutation_in _ Hp) in Hq. apply Hin in Hq. destruct Hq; congruence.
  - apply H4. apply (Permutation_in _ (Permutation_sym Hp)). apply Hin. auto.
Qed.

(* C23 *)
Lemma cm_drain_bound n m k t : (1 <= k)%Z -> DimOk n m ->
  wp (cm_drain_unordered E m k) t (fun r t' => (Z.of_nat (length (fst r)) <= k)%Z /\
     conserves E t t' (ms m) (ms (snd r) ++ fst r) /\ Forall (seen_live E t t') (fst r)) /\
  wp (cm_drain_ordered E m k) t (fun r t' => (Z.of_nat (length (fst r)) <= k)%Z /\
     conserves E t t' (ms m) (ms (snd r) ++ fst r) /\ Forall (seen_live E t t') (fst r)).
Proof.
  intros Hk Hm. split.
  - eapply wp_mono; [apply (cm_drain_unordered_spec E HE cwf cwf_rm cwf_id trivV trivU n m k t); auto; lia|].
    intros r t' (_ & _ & _ & _ & _ & H1 & H2 & H3). splits; auto. lia.
  - eapply wp_mono; [apply (cm_drain_ordered_spec E HE cwf cwf_rm cwf_id trivV trivU n m k t); auto; lia|].
    intros r t' (_ & _ & _ & _ & _ & H1 & H2 & H3). splits; auto. lia.
Qed.
Lemma cm_drain_exact n m k t : (1 <= k)%Z -> DimOk n m -> never_expired E (ms m) ->
  wp (cm_drain_unordered E m k) t (fun r t' => length (fst r) = min (Z.to_nat k) (length (ms m))).
Proof. intros Hk Hm Hne. apply (cm_drain_unordered_exact E HE cwf cwf_rm cwf_id n); auto. Qed.

(* C24, C25, C26 *)
Lemma new_ok v T : DimOk (N := N) (length v) (new_cm v T).
Proof. split; [auto|constructor]. Qed.
Lemma history_dims v T ops t : Forall counts_ok ops ->
  wp (run E (new_cm v T) ops) t (fun r _ => exists n, DimOk n (snd r)).
Proof.
  intros Hc. eapply wp_mono; [apply (run_cwf E HE ops (length v) (new_cm v T) t (new_ok v T) Hc)|].
  intros [[i o] m'] t' (_ & H & _). auto.
Qed.
Lemma history_conserves v T ops t : Forall counts_ok ops ->
  wp (run E (new_cm v T) ops) t (fun r t' => let '(accepted, removed, m) := r in
    conserves E t t' accepted (ms m ++ removed)).
Proof.
  intros Hc. eapply wp_mono; [apply (run_cwf E HE ops (length v) (new_cm v T) t (new_ok v T) Hc)|].
  intros [[i o] m'] t' (_ & _ & _ & H). auto.
Qed.
Lemma history_runs v T ops t : Forall counts_ok ops ->
  exists r t', run E (new_cm v T) ops t = Ok (r, t').
Proof.
  intros Hc. destruct (wp_elim _ _ _ (history_dims v T ops t Hc)) as (r & t' & H & _). eauto.
Qed.
Lemma negative_drain_panics m n v drain t : (n < 0)%Z ->
  cm_drain_unordered E m n t = Panic /\ cm_drain_ordered E m n t = Panic /\ cm_knn_lookup E m v n drain t = Panic.
Proof.
  intros H. unfold cm_drain_unordered, cm_drain_ordered, cm_knn_lookup.
  assert ((n <? 0)%Z = true) as -> by lia. auto.
Qed.

(* C27 *)
Lemma history_vec (HX : ExactNum N) v T ops t : (T <= 1)%Z -> Forall counts_ok ops ->
  Forall (fun o => match o with OMemTrim | OSplit _ | OMerge _ | OAttach _ => False | _ => True end) ops ->
  wp (run E (new_cm v T) ops) t (fun r _ => cm_cs (snd r) <> [] ->
    cm_vec (snd r) = mean_of (length (cm_vec (snd r))) (map c_vec (cm_cs (snd r)))).
Proof.
  intros HT Hc Hk. eapply wp_mono; [apply (run_vmean E HE HX ops (new_cm v T) t)|]; auto.
  - exists (length v). split; [apply new_ok|]. intros H. contradiction H. reflexivity.
  - intros r t' (n & [Hn _] & H) Hne. rewrite Hn. apply H; auto.
Qed.
Lemma move_vector_restores (HX : ExactNum N) n m t : DimOk n m ->
  wp (cm_move_vector E m) t (fun r _ => (fst r = true <-> cm_cs m <> []) /\
    (cm_cs m <> [] -> cm_vec (snd r) = mean_of n (map c_vec (cm_cs (snd r)))) /\
    ms (snd r) = live_from E t (ms m)).
Proof.
  intros Hm. eapply wp_mono; [apply (cm_move_vector_spec E cwf cwf_id (cwf_move E) n m t Hm)|].
  intros r t' (_ & H1 & _ & Hl & H2 & H3 & H4). splits; auto. intros Hne.
  pose proof (vmean_of_fold HX n (snd r) cwf cwf_id H1 H4) as H5. apply H5.
  intros He. rewrite He in Hl. destruct (cm_cs m); [congruence|discriminate].
Qed.

(* C28 *)
Lemma nearest_vec (HX : ExactNum N) n m v k drain t : (0 <= k)%Z -> DimOk n m ->
  (cm_cs m <> [] -> cm_vec m = mean_of n (map c_vec (cm_cs m))) ->
  wp (cm_nearest E m v k drain) t (fun r _ => cm_cs (snd r) <> [] ->
    cm_vec (snd r) = mean_of n (map c_vec (cm_cs (snd r)))).
Proof. intros Hk Hm HV. apply (vmean_nearest E HE HX cwf cwf_id n m v k drain t Hk Hm HV). Qed.

(* C29 *)
Lemma nearest_exact n m v k drain t : (0 <= k)%Z -> DimOk n m ->
  wp (cm_nearest E m v k drain) t (fun r _ =>
    exists idx, e_knn E v (map c_vec (cm_cs m)) k = Ok idx /\ NoDup idx /\ (Z.of_nat (length idx) <= k)%Z /\
      match fst r with
      | None => idx = [] /\ snd r = m
      | Some cs => idx <> [] /\ cs = pick idx (cm_cs m) /\
          (drain = false -> snd r = m) /\
          (drain = true -> cm_cs (snd r) = without idx (cm_cs m) /\
             Permutation (cm_cs m) (cm_cs (snd r) ++ cs))
      end).
Proof.
  intros Hk Hm. eapply wp_mono; [apply (cm_nearest_spec E HE cwf cwf_id n m v k drain t Hk Hm)|].
  intros r t' (_ & _ & _ & idx & H1 & H2 & _ & H3 & H4). exists idx. splits; auto. lia.
Qed.

(* C30 *)
Lemma lookup_exact n m v k drain t : (0 <= k)%Z -> DimOk n m ->
  wp (cm_knn_lookup E m v k drain) t (fun r t' =>
    (Z.of_nat (length (fst r)) <= k)%Z /\ Forall (seen_live E t t') (fst r) /\
    (drain = true -> conserves E t t' (ms m) (ms (snd r) ++ fst r)) /\
    (drain = false -> conserves E t t' (ms m) (ms (snd r)) /\
       exists rest, Permutation (ms (snd r)) (fst r ++ rest))).
Proof.
  intros Hk Hm. eapply wp_mono; [apply (cm_knn_lookup_spec E HE cwf cwf_rm cwf_id trivV trivU n m v k drain t Hk Hm I)|].
  intros r t' (_ & _ & _ & _ & _ & H1 & H2 & H3 & H4). splits; auto. lia.
Qed.

(* C31 *)
Lemma lookup_count n m v k drain t : (0 <= k)%Z -> DimOk n m -> never_expired E (ms m) ->
  ranks_all (e_knn E) v (map c_vec (cm_cs m)) ->
  Forall (fun c => c_dps c <> [] /\ ranks_all (e_knn E) v (map dp_vec (c_dps c))) (cm_cs m) ->
  wp (cm_knn_lookup E m v k drain) t (fun r _ => length (fst r) = min (Z.to_nat k) (length (ms m))).
Proof. apply (cm_knn_lookup_count E HE). Qed.

(* (see the end of the file for the linear searches) *)
(* C32 *)
Lemma adds_small v T ds t : (2 <= T)%Z ->
  wp (run E (new_cm v T) (map OAdd ds)) t (fun r _ =>
    Forall (fun c => (Z.of_nat (length (c_dps c)) < T)%Z) (cm_cs (snd r))).
Proof. intros HT. apply (run_small E HE ds (length v) (new_cm v T) t (new_ok v T) HT). constructor. Qed.
Lemma add_never_splits n m d t : (cm_thresh m <= 1)%Z -> DimOk n m -> cm_cs m <> [] ->
  wp (cm_add E m d) t (fun r _ => length (cm_cs (snd r)) = length (cm_cs m)).
Proof.
  intros HT Hm Hne.
  pose proof (wp_conj _ _ _ _ (cm_add_where n m d t Hm Hne) (cm_add_stores n m d t Hm)) as H.
  eapply wp_mono; [exact H|]. intros [ok m'] t' (H1 & H2 & _). cbn [fst snd] in *. destruct ok; [|rewrite H2; auto].
  destruct (H1 eq_refl) as (i & idx & c & _ & _ & c' & ex & -> & [(-> & _)|(f & _ & Hf & _)]); [|lia].
  rewrite app_nil_r, list_set_length. auto.
Qed.

(* C33 *)
Lemma split_exact n m p t : DimOk n m ->
  wp (cm_split E m p) t (fun m' t' => conserves E t t' (ms m) (ms m') /\
    exists cs' new, cm_cs m' = cs' ++ new /\
      Forall2 (fun c c' => p c && (2 <=? length (c_dps c)) = false -> c' = c) (cm_cs m) cs' /\
      length new = length (filter (fun c => p c && (2 <=? length (c_dps c))) (cm_cs m)) /\
      (never_expired E (ms m) ->
         Forall2 (fun c c' => p c && (2 <=? length (c_dps c)) = true ->
             length (c_dps c') = length (c_dps c) - length (c_dps c) / 2) (cm_cs m) cs' /\
         map (fun c => length (c_dps c)) new =
           map (fun c => length (c_dps c) / 2) (filter (fun c => p c && (2 <=? length (c_dps c))) (cm_cs m)))).
Proof.
  intros Hm. eapply wp_mono; [apply (cm_split_spec E cwf cwf_add cwf_rm cwf_id cwf_new n m p t Hm)|].
  intros m' t' (_ & _ & _ & _ & H1 & H2). auto.
Qed.

(* C34 *)
Lemma merge_exact n m p t : DimOk n m ->
  wp (cm_merge E m p) t (fun m' t' => conserves E t t' (ms m) (ms m') /\
    exists cs1 del, length cs1 = length (cm_cs m) /\ cm_cs m' = without del cs1 /\
      (forall j c, In j del -> nth_error cs1 j = Some c -> c_dps c = [])).
Proof.
  intros Hm. eapply wp_mono; [apply (cm_merge_spec E HE cwf cwf_add cwf_rm cwf_id n m p t Hm)|].
  intros m' t' (_ & _ & _ & H1 & m1 & del & H2 & H3 & H4). split; auto. exists (cm_cs m1), del. auto.
Qed.

(* C35 *)
Lemma merge_all n m c0 rest t : DimOk n m -> cm_cs m = c0 :: rest ->
  (forall idx, e_knn E (c_vec c0) (map c_vec (cm_cs m)) (Z.of_nat (length (cm_cs m))) = Ok idx ->
     length idx = length (cm_cs m)) ->
  wp (cm_merge E m (fun _ => true)) t (fun m' t' =>
    exists c, cm_cs m' = [c] /\ conserves E t t' (ms m) (c_dps c)).
Proof.
  intros Hm H0 H1. eapply wp_mono; [apply (merge_all_spec E HE n m c0 rest t Hm H0 H1)|].
  intros m' t' [_ H]. auto.
Qed.

(* C36 *)
Lemma len_dp (m : CM N) : cm_len_dp m = length (ms m).
Proof. apply cm_len_dp_stored. Qed.

(* C60 *)
Lemma history_means (HX : ExactNum N) v T ops t : Forall counts_ok ops ->
  Forall (fun o => match o with
    | OMemTrim => False
    | OAttach cs => Forall (fun c => c_dps c <> [] ->
                      c_vec c = mean_of (length (c_vec c)) (map dp_vec (c_dps c))) cs
    | _ => True end) ops ->
  wp (run E (new_cm v T) ops) t (fun r _ =>
    Forall (fun c => c_dps c <> [] -> c_vec c = mean_of (length (c_vec c)) (map dp_vec (c_dps c)))
           (cm_cs (snd r))).
Proof.
  intros Hc Hk.
  eapply wp_mono; [apply (run_cmean E HE HX ops (length v) (new_cm v T) t)|]; auto.
  - split; auto. constructor.
  - intros [[i o] m'] t' (_ & (n & _ & H) & _). cbn [snd]. eapply Forall_impl; [|exact H].
    intros c [[Hl _] H1] Hne. rewrite Hl. auto.
Qed.
End Manager.

(* C29 with the linear search *)
Lemma nearest_best (E : Env f64) (HE : EnvOk E) dist asc n m v k drain t :
  e_knn E = knn_brute dist asc -> (0 <= k)%Z -> DimOk n m ->
  wp (cm_nearest E m v k drain) t (fun r _ =>
    exists idx, BestK dist asc v (map c_vec (cm_cs m)) (Z.to_nat k) idx /\
      match fst r with
      | None => idx = [] /\ snd r = m
      | Some cs => idx <> [] /\ cs = pick idx (cm_cs m) /\
          (drain = false -> snd r = m) /\ (drain = true -> cm_cs (snd r) = without idx (cm_cs m))
      end).
Proof.
  intros Hs Hk Hm. eapply wp_mono; [apply (nearest_exact E HE n m v k drain t Hk Hm)|].
  intros r t' (idx & H1 & _ & _ & H2). rewrite Hs in H1.
  destruct (knn_brute_bestk f64_ord dist asc v (map c_vec (cm_cs m)) k Hk) as (idx' & H4 & H5).
  rewrite H4 in H1. injection H1 as ->. exists idx. split; auto.
  destruct (fst r); [|exact H2]. destruct H2 as (A & B & C & D). splits; auto. intros HD. apply D; auto.
Qed.

(* ---- witnesses ---- *)
(* Two rational vectors differ when some coordinates do. *)
Definition qdiff (a b : vec qc) : bool :=
  existsb (fun p => negb (Qeq_bool (this (fst p)) (this (snd p)))) (combine a b).
Lemma qdiff_neq a b : qdiff a b = true -> a <> b.
Proof.
  intros H <-. unfold qdiff in H. apply existsb_exists in H. destruct H as ((x & y) & Hin & Hn).
  assert (Hxy : forall l : vec qc, In (x, y) (combine l l) -> x = y).
  { clear. induction l as [|z l IH]; cbn [combine In]; [contradiction|]. intros [H|H]; auto. congruence. }
  apply Hxy in Hin. subst y. cbn [fst snd] in Hn. rewrite Qeq_bool_refl in Hn. discriminate.
Qed.
Definition qsame (a b : vec qc) : bool :=
  (length a =? length b) && negb (qdiff a b).
Lemma qsame_eq a b : qsame a b = true -> a = b.
Proof.
  unfold qsame. intros H. apply andb_true_iff in H. destruct H as [H1 H2]. apply Nat.eqb_eq in H1.
  revert b H1 H2. induction a as [|x a IH]; intros [|y b] H1 H2; try discriminate; auto.
  unfold qdiff in H2. cbn [combine existsb fst snd] in H2.
  rewrite negb_orb in H2. apply andb_true_iff in H2. destruct H2 as [H2 H3].
  f_equal; [|apply IH; auto]. apply Qc_is_canon. apply Qeq_bool_eq. rewrite negb_involutive in H2. auto.
Qed.

Lemma breaks_mean_check T ops o :
  wp (do ' (_, _, m1) <- run ratE (new_cm (qv [0]%Z) T) ops; do ' (_, _, m2) <- step ratE m1 o; ret (m1, m2)) 0
    (fun r _ => let '(m1, m2) := r in
       negb (length (cm_cs m1) =? 0) && qsame (cm_vec m1) (mean_of 1 (map c_vec (cm_cs m1))) &&
       negb (length (cm_cs m2) =? 0) && qdiff (cm_vec m2) (mean_of 1 (map c_vec (cm_cs m2))) = true) ->
  breaks_mean ratE (qv [0]%Z) T ops o.
Proof.
  unfold wp, bind, breaks_mean, ret. intros H.
  destruct (run ratE (new_cm (qv [0]%Z) T) ops 0) as [[[[i1 o1] m1] t1]| |]; [|contradiction|contradiction].
  destruct (step ratE m1 o t1) as [[[[i2 o2] m2] t2]| |] eqn:Hs; [|contradiction|contradiction].
  apply andb_true_iff in H. destruct H as [H H4]. apply andb_true_iff in H. destruct H as [H H3].
  apply andb_true_iff in H. destruct H as [H1 H2].
  exists i1, o1, m1, t1, i2, o2, m2, t2. splits; auto.
  - intros He. rewrite He in H1. discriminate.
  - apply qsame_eq; auto.
  - intros He. rewrite He in H3. discriminate.
  - apply qdiff_neq; auto.
Qed.

Lemma auto_split_refuted : exists T ops d, breaks_mean ratE (qv [0]%Z) T ops (OAdd d).
Proof.
  exists 3%Z, [OAdd (dq [0]%Z); OAdd (dq [3]%Z)], (dq [9]%Z).
  apply breaks_mean_check. vm_compute. reflexivity.
Qed.
Lemma split_refuted : exists T ops p, breaks_mean ratE (qv [0]%Z) T ops (OSplit p).
Proof.
  exists 0%Z, [OAdd (dq [0]%Z); OAdd (dq [3]%Z); OAdd (dq [9]%Z)], (fun _ => true).
  apply breaks_mean_check. vm_compute. reflexivity.
Qed.
Lemma trim_refuted : exists T ops, breaks_mean ratE (qv [0]%Z) T ops OMemTrim.
Proof.
  exists 3%Z, [OAdd (dq [0]%Z); OAdd (dq [10]%Z); OAdd (dq [12]%Z); OMoveVector].
  apply breaks_mean_check. vm_compute. reflexivity.
Qed.
Lemma merge_refuted : exists T ops p, breaks_mean ratE (qv [0]%Z) T ops (OMerge p).
Proof.
  exists 4%Z, [OAdd (dq [0]%Z); OAdd (dq [3]%Z); OAdd (dq [9]%Z); OAdd (dq [10]%Z); OMoveVector], (fun _ => true).
  apply breaks_mean_check. vm_compute. reflexivity.
Qed.

(* C23 *)
Lemma drain_zero_refuted : exists ops i o m t r t',
  Forall counts_ok ops /\ run eucE (new_cm (fv [0]%Z) 0) ops 0 = Ok ((i, o, m), t) /\
  cm_drain_unordered eucE m 0 t = Ok (r, t') /\ length (fst r) = 1.
Proof.
  exists [OAdd (dp [1]%Z)].
  assert (H : wp (do ' (_, _, m) <- run eucE (new_cm (fv [0]%Z) 0) [OAdd (dp [1]%Z)]; cm_drain_unordered eucE m 0) 0
    (fun r _ => length (fst r) = 1)) by (vm_compute; reflexivity).
  unfold wp, bind in H.
  destruct (run eucE (new_cm (fv [0]%Z) 0) [OAdd (dp [1]%Z)] 0) as [[[[i o] m] t]| |]; [|contradiction|contradiction].
  destruct (cm_drain_unordered eucE m 0 t) as [[r t']| |] eqn:Hd; [|contradiction|contradiction].
  exists i, o, m, t, r, t'. splits; auto. repeat constructor.
Qed.

(* C28 *)
Definition is_nan (x : F f64) : bool := match x with S754_nan => true | _ => false end.
Lemma filter_unset (k : nat) (s : F f64) : filter ri_set (repeat (RItem 0 s false) k) = [].
Proof. induction k; auto. Qed.
Lemma nan_never_found (target v : vec f64) k : v = [S754_nan] -> knn_cos target [v] (Z.pos k) = Ok [].
Proof.
  intros Hv.
  assert (H : cosine_similarity target v = None \/
              cosine_similarity target v = Some (S754_nan : F f64)).
  { assert (Hn : norm v = (S754_nan : F f64)) by (rewrite Hv; vm_compute; reflexivity).
    assert (Hlv : length v = 1) by (rewrite Hv; reflexivity).
    unfold cosine_similarity. rewrite Hn, Hlv. destruct target as [|x [|y target]]; auto. right. cbn [length Nat.eqb].
    assert (Hd : forall a : F f64, fdiv a (S754_nan : F f64) = (S754_nan : F f64)).
    { intros a. destruct a as [s|s| |s m e]; reflexivity. }
    rewrite Hd. rewrite andb_comm. reflexivity. }
  unfold knn_cos, knn_brute. cbn [Z.ltb Z.compare].
  cbn [knn_loop]. unfold res_items_2_indexes.
  destruct H as [-> | ->].
  - rewrite filter_unset. reflexivity.
  - cbn [negb andb].
    assert (Hl : forall a : F f64, fltb a (S754_nan : F f64) = false).
    { intros a. destruct a as [s|s| |s m e]; reflexivity. }
    rewrite Hl. rewrite filter_unset. reflexivity.
Qed.
Lemma nearest_nan_refuted : exists ops i o m t r t',
  Forall counts_ok ops /\ run cosE (new_cm (fv [1]%Z) 0) ops 0 = Ok ((i, o, m), t) /\
  cm_nearest cosE m (fv [1]%Z) 1 true t = Ok (r, t') /\ cm_cs (snd r) = [] /\
  forallb is_nan (cm_vec (snd r)) = true /\ length (cm_vec (snd r)) = 1 /\
  forall target k, knn_cos target [cm_vec (snd r)] (Z.pos k) = Ok [].
Proof.
  exists [OAdd (dp [1]%Z)].
  assert (H : wp (do ' (_, _, m) <- run cosE (new_cm (fv [1]%Z) 0) [OAdd (dp [1]%Z)]; cm_nearest cosE m (fv [1]%Z) 1 true) 0
    (fun r _ => length (cm_cs (snd r)) = 0 /\ cm_vec (snd r) = [S754_nan])) by (vm_compute; auto).
  unfold wp, bind in H.
  destruct (run cosE (new_cm (fv [1]%Z) 0) [OAdd (dp [1]%Z)] 0) as [[[[i o] m] t]| |]; [|contradiction|contradiction].
  destruct (cm_nearest cosE m (fv [1]%Z) 1 true t) as [[r t']| |] eqn:Hd; [|contradiction|contradiction].
  destruct H as [H1 H2].
  exists i, o, m, t, r, t'. splits; auto.
  - repeat constructor.
  - destruct (cm_cs (snd r)); auto; discriminate.
  - rewrite H2. reflexivity.
  - rewrite H2. reflexivity.
  - intros target k. apply nan_never_found. exact H2.
Qed.

(* C31 *)
Lemma lookup_misses_refuted : exists ops i o m t r t',
  Forall counts_ok ops /\ run eucE (new_cm (fv [0]%Z) 2) ops 0 = Ok ((i, o, m), t) /\
  cm_knn_lookup eucE m (fv [0]%Z) 1 false t = Ok (r, t') /\ fst r = [] /\
  exists d, In d (stored (cm_cs m)) /\ length (dp_vec d) = 1 /\ forall k, expired_at (e_now eucE k) d = false.
Proof.
  set (ops := [OAdd (dp [0]%Z); OAdd (dp [10]%Z); OKnnLookup (fv [0]%Z) 1 true]).
  exists ops.
  assert (H : wp (do ' (_, _, m) <- run eucE (new_cm (fv [0]%Z) 2) ops;
                  do r <- cm_knn_lookup eucE m (fv [0]%Z) 1 false; ret (m, r)) 0
    (fun mr _ => length (fst (snd mr)) = 0 /\
       map (fun d => (length (dp_vec d), dp_expire_enabled d)) (stored (cm_cs (fst mr))) = [(1, false)])) by (vm_compute; auto).
  unfold wp, bind, ret in H.
  destruct (run eucE (new_cm (fv [0]%Z) 2) ops 0) as [[[[i o] m] t]| |]; [|contradiction|contradiction].
  destruct (cm_knn_lookup eucE m (fv [0]%Z) 1 false t) as [[r t']| |] eqn:Hd; [|contradiction|contradiction].
  cbn [fst snd] in H. destruct H as [H1 H2].
  exists i, o, m, t, r, t'. splits; auto.
  - unfold ops. repeat constructor; cbn [counts_ok]; lia.
  - destruct (fst r); auto; discriminate.
  - destruct (stored (cm_cs m)) as [|d l]; [discriminate|]. cbn [map] in H2. injection H2 as H2 H3 _.
    exists d. splits; auto; [left; auto|]. intros k. unfold expired_at. rewrite H3. reflexivity.
Qed.

(* C31, for the linear searches *)
Lemma bestk_length {N : Num} (dist : vec N -> vec N -> option (F N)) asc v pool k idx :
  BestK dist asc v pool k idx -> all_rankable dist asc v pool -> length idx = min k (length pool).
Proof.
  intros [Hn Hr Ha Hall _ _] Hrk.
  assert (Hle : length idx <= length pool).
  { rewrite <- (seq_length (length pool) 0). apply NoDup_incl_length; auto.
    intros i Hi. apply in_seq. destruct (Hr i Hi) as (s & w & Hw & _).
    assert (i < length pool) by (apply nth_error_Some; congruence). lia. }
  destruct (Nat.eq_dec (length idx) k); [lia|].
  assert (Hge : length pool <= length idx); [|lia].
  rewrite <- (seq_length (length pool) 0) at 1. apply NoDup_incl_length; [apply seq_NoDup|].
  intros j Hj. apply in_seq in Hj. destruct (Hrk j) as (s & Hs); [lia|]. apply (Hall ltac:(lia) j s Hs).
Qed.
Lemma lookup_count_linear (E : Env f64) (HE : EnvOk E) dist asc n m v k drain t :
  e_knn E = knn_brute dist asc -> (0 <= k)%Z -> DimOk n m -> never_expired E (stored (cm_cs m)) ->
  all_rankable dist asc v (map c_vec (cm_cs m)) ->
  Forall (fun c => c_dps c <> [] /\ all_rankable dist asc v (map dp_vec (c_dps c))) (cm_cs m) ->
  wp (cm_knn_lookup E m v k drain) t (fun r _ =>
    length (fst r) = min (Z.to_nat k) (length (stored (cm_cs m)))).
Proof.
  intros He Hk Hm Hnv H1 H2.
  assert (HR : forall pool, all_rankable dist asc v pool -> ranks_all (e_knn E) v pool).
  { intros pool Hp k' idx Hk' Hi. rewrite He in Hi.
    destruct (knn_brute_bestk (N := f64) f64_ord dist asc v pool k' Hk') as (idx' & Hi' & Hb).
    rewrite Hi in Hi'. injection Hi' as ->. apply (bestk_length _ _ _ _ _ _ Hb Hp). }
  apply (lookup_count E HE n m v k drain t); auto.
  revert H2. apply Forall_impl. intros c (Hc & Hr). auto.
Qed.

Lemma all_rankable_check {N : Num} (dist : vec N -> vec N -> option (F N)) asc v pool :
  forallb (fun w => match dist v w with Some s => better asc s (sentinel asc) | None => false end) pool = true ->
  all_rankable dist asc v pool.
Proof.
  intros H i Hi. destruct (nth_error pool i) as [w|] eqn:Hw; [|apply nth_error_None in Hw; lia].
  pose proof (proj1 (forallb_forall _ _) H w (nth_error_In _ _ Hw)) as Hb. cbv beta in Hb.
  destruct (dist v w) as [s|] eqn:Hs; [|discriminate]. exists s, w. auto.
Qed.
