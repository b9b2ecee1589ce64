(* The HTTP interface running alone. *)
From Verif Require Import Base Num MathUtils Knn SearchSpec Env Centroid CManager DataSpec MgrSpec Wp DataFacts NumFacts
  KnnProofs CentroidProofs CMProofs CMProofs2 CMProofs3 HistoryProofs Proc Owns Server ServerSpec ServerFacts ServerProofs ClusterProofs
  SeqProofs SeqProofs2 StealProofs Alone Core EventLoop CoreSpec CoreProofs SystemProofs.

Section CoreSeq.
Context {N : Num} (E : Env N) (HE : EnvOk E) (HO : NumOrd N).
Notation DP := (DataPoint N).
Notation World := (World N).

(* ---- ranking ---- *)
Definition fetches (w : World) (f : str -> proc' N (option (vec N))) (answers : str -> vec N -> Prop) : Prop :=
  forall a t, wp (exec (f a) w) t (fun r t' => t <= t' /\ snd r = w /\
    match fst r with Some u => answers a u | None => all_delivered E -> forall u, ~ answers a u end).

Lemma fetch_each_spec w f answers : fetches w f answers -> forall addrs t,
  wp (exec (fetch_each f addrs) w) t (fun r t' => t <= t' /\ snd r = w /\ exists rest,
    Permutation (map fst (fst r) ++ rest) addrs /\ Forall (fun e => answers (fst e) (snd e)) (fst r) /\
    (all_delivered E -> Forall (fun a => forall u, ~ answers a u) rest)).
Proof.
  intros Hf. induction addrs as [|a r IH]; intros t; cbn [fetch_each].
  - apply wp_exec_ret. cbn [fst snd]. split; auto. split; auto. exists []. auto.
  - apply wp_exec_bind. eapply wp_mono; [apply Hf|]. intros [o w1] t1 (Ht1 & Hw & Ho). cbn [fst snd] in *. subst w1.
    apply wp_exec_bind. eapply wp_mono; [apply IH|]. intros [l w1] t2 (Ht2 & Hw & rest & H1 & H2 & H3). cbn [fst snd] in *. subst w1.
    apply wp_exec_ret. cbn [fst snd]. split; [lia|]. split; auto. destruct o as [u|].
    + exists rest. cbn [map fst app]. splits; auto.
    + exists (a :: rest). splits; auto. rewrite <- Permutation_middle. auto.
Qed.

Lemma fetch_vecs_spec w f answers addrs t : fetches w f answers ->
  wp (exec (fetch_vecs E f addrs) w) t (fun r t' => t <= t' /\ snd r = w /\ exists rest,
    Permutation (map fst (fst r) ++ rest) addrs /\ Forall (fun e => answers (fst e) (snd e)) (fst r) /\
    (all_delivered E -> Forall (fun a => forall u, ~ answers a u) rest)).
Proof.
  intros Hf. unfold fetch_vecs. apply wp_exec_bind, wp_exec_local, wp_any_order; auto. intros order Ho. cbn [fst snd].
  apply wp_exec_bind. eapply wp_mono; [apply (fetch_each_spec w f answers Hf)|]. intros [l w1] t1 (Ht1 & Hw & rest & H1 & H2 & H3).
  cbn [fst snd] in *. subst w1. apply wp_exec_local, wp_any_order; auto. intros l' Hl. cbn [fst snd]. split; [lia|]. split; auto.
  exists rest. splits; auto.
  - rewrite (Permutation_map fst Hl), H1. auto.
  - rewrite Hl. auto.
Qed.

Lemma pick_Forall2 {A} (l : list A) : forall idx, Forall (fun i => i < length l) idx ->
  Forall2 (fun i x => nth_error l i = Some x) idx (pick idx l).
Proof.
  induction idx as [|i idx IH]; intros H; inversion H as [|? ? Hi H']; subst; [constructor|].
  destruct (nth_error_lt _ _ Hi) as (x & Hx). unfold pick in *. cbn [flat_map]. rewrite Hx. cbn [app]. constructor; auto.
Qed.

Lemma best_fit_spec w f answers dist asc addrs v t : fetches w f answers ->
  wp (exec (best_fit (knn_brute dist asc) v (fetch_vecs E f addrs)) w) t (fun r t' => t <= t' /\ snd r = w /\
    Ranked E dist asc answers addrs v (fst r)).
Proof.
  intros Hf. unfold best_fit. apply wp_exec_bind. eapply wp_mono; [apply fetch_vecs_spec; eauto|].
  intros [rsl w1] t1 (Ht1 & Hw & rest & H1 & H2 & H3). cbn [fst snd] in *. subst w1.
  destruct (knn_brute_bestk HO dist asc v (map snd rsl) (Z.of_nat (length rsl))) as (idx & He & HB); [lia|].
  rewrite Nat2Z.id in HB. apply wp_exec_bind, wp_exec_local. eapply wp_lift; [exact He|]. cbn [fst snd].
  apply wp_exec_local. assert (Hi : Forall (fun i => i < length (map fst rsl)) idx).
  { apply Forall_forall. intros i Hi. destruct (bk_rankable _ _ _ _ _ _ HB i Hi) as (s & u & Hu & _).
    rewrite map_length, <- (map_length snd). apply nth_error_Some. congruence. }
  apply index_all_spec; auto. cbn [fst snd]. split; [lia|]. split; auto. exists rsl, rest, idx. splits; auto. apply pick_Forall2; auto.
Qed.

Lemma fetches_fast w ns : WorldOk w -> fetches w (fun a => c_vec_of E a ns) (fast_vec w ns).
Proof.
  intros Hw a t. unfold c_vec_of, wp. rewrite exec_bind, exec_rpc. unfold h_vec, access. rewrite !exec_access_g by auto.
  unfold ret. destruct (node_at w a) as [nd|] eqn:Ha.
  - destruct (e_fate E t) eqn:Hf.
    + destruct (manager w a ns) as [m|] eqn:Hm; cbn [exec join ret fst snd].
      * rewrite put_same by auto. destruct (cm_vec m) eqn:Hv; cbn [fst snd]; (split; [lia|]); split; auto.
        -- intros _ u (m' & Hm' & -> & Hne). congruence.
        -- exists m. splits; auto; congruence.
      * split; [lia|]. split; auto. intros _ u (m' & Hm' & _). congruence.
    + cbn [exec join ret fst snd]. split; [lia|]. split; auto. intros Hd. rewrite Hd in Hf. discriminate.
    + destruct (manager w a ns) as [m|] eqn:Hm; cbn [exec join ret fst snd].
      * rewrite put_same by auto. split; [lia|]. split; auto. intros Hd. rewrite Hd in Hf. discriminate.
      * split; [lia|]. split; auto. intros Hd. rewrite Hd in Hf. discriminate.
  - cbn [exec join ret fst snd]. split; [lia|]. split; auto. intros _ u (m' & Hm' & _). unfold manager in Hm'. rewrite Ha in Hm'. discriminate.
Qed.

Lemma cm_nearest_one (m : CM N) v t : exists idx cs, e_knn E v (map c_vec (cm_cs m)) 1%Z = Ok idx /\
  cm_nearest E m v 1%Z false t = Ok ((match idx with [] => None | _ :: _ => Some cs end, m), t) /\
  match idx with [] => True | i :: _ => exists c cs', cs = c :: cs' /\ nth_error (cm_cs m) i = Some c end.
Proof.
  assert (H : wp (do x <- lift (e_knn E v (map c_vec (cm_cs m)) 1%Z); ret x) t
    (fun idx t' => e_knn E v (map c_vec (cm_cs m)) 1%Z = Ok idx /\ t' = t /\ Forall (fun i => i < length (cm_cs m)) idx)).
  { apply wp_bind. apply (wp_knn E HE m v 1 t); [lia|]. intros idx He _ _ Hf _. apply wp_ret. auto. }
  unfold wp, bind, lift, ret in H. unfold cm_nearest. unfold bind, lift. fold (cm_vecs m) in *.
  change (map c_vec (cm_cs m)) with (cm_vecs m) in *.
  destruct (e_knn E v (cm_vecs m) 1%Z) as [idx| |] eqn:He; try contradiction. destruct H as (_ & _ & Hf).
  exists idx, (pick idx (cm_cs m)). split; auto. destruct idx as [|i idx]; [split; auto|].
  pose proof (index_all_spec (cm_cs m) (i :: idx) t (fun l t' => l = pick (i :: idx) (cm_cs m) /\ t' = t) Hf (conj eq_refl eq_refl)) as Hp.
  unfold wp in Hp. destruct (index_all (cm_cs m) (i :: idx) t) as [[cs t']| |]; try contradiction. destruct Hp as (-> & ->).
  split; auto. inversion Hf as [|? ? Hi _]; subst. destruct (nth_error_lt _ _ Hi) as (c & Hc).
  exists c, (pick idx (cm_cs m)). split; auto. unfold pick. cbn [flat_map]. rewrite Hc. auto.
Qed.

Lemma fetches_accurate w ns v : WorldOk w -> fetches w (fun a => c_nearest_vec E a ns v) (accurate_vec E w ns v).
Proof.
  intros Hw a t. unfold c_nearest_vec, wp. rewrite exec_bind, exec_rpc. unfold h_nearest_vec, access. rewrite !exec_access_g by auto.
  destruct (node_at w a) as [nd|] eqn:Ha.
  - destruct (manager w a ns) as [m|] eqn:Hm.
    + unfold bind. destruct (cm_nearest_one m v (S t)) as (idx & cs & He & Hc & Hi). rewrite Hc. unfold ret.
      rewrite put_same by auto.
      destruct (e_fate E t) eqn:Hf; cbn [exec join ret fst snd].
      * split; [lia|]. split; auto. destruct idx as [|i idx].
        -- intros _ u (m' & i & idx & c & Hm' & He' & _). congruence.
        -- destruct Hi as (c & cs' & -> & Hi). destruct (c_vec c) as [|x u] eqn:Hcv.
           ++ intros _ u' (m' & i' & idx' & c' & Hm' & He' & Hi' & -> & Hne). assert (m' = m) by congruence. subst m'.
              rewrite He in He'. injection He' as <- _. congruence.
           ++ exists m, i, idx, c. splits; auto; congruence.
      * split; [lia|]. split; auto. intros Hd. rewrite Hd in Hf. discriminate.
      * split; [lia|]. split; auto. intros Hd. rewrite Hd in Hf. discriminate.
    + destruct (e_fate E t) eqn:Hf; cbn [exec join ret fst snd]; (split; [lia|]); split; auto; intros Hd; try (rewrite Hd in Hf; discriminate).
      intros u (m' & i & idx & c & Hm' & _). congruence.
  - cbn [exec join ret fst snd]. split; [lia|]. split; auto. intros _ u (m' & i & idx & c & Hm' & _). unfold manager in Hm'. rewrite Ha in Hm'. discriminate.
Qed.

Lemma best_fit_fast_spec (w : World) dist asc addrs ns v t : WorldOk w ->
  wp (exec (best_fit_fast E (knn_brute dist asc) addrs ns v) w) t (fun r t' => t <= t' /\ snd r = w /\
    Ranked E dist asc (fast_vec w ns) addrs v (fst r)).
Proof. intros Hw. apply best_fit_spec, fetches_fast; auto. Qed.
Lemma best_fit_accurate_spec (w : World) dist asc addrs ns v t : WorldOk w ->
  wp (exec (best_fit_accurate E (knn_brute dist asc) addrs ns v) w) t (fun r t' => t <= t' /\ snd r = w /\
    Ranked E dist asc (accurate_vec E w ns v) addrs v (fst r)).
Proof. intros Hw. apply best_fit_spec, fetches_accurate; auto. Qed.

Lemma ranked_incl dist asc answers addrs v l : Ranked E dist asc answers addrs v l -> incl l addrs.
Proof.
  intros (resp & rest & idx & H1 & _ & _ & _ & H2). intros b Hb. apply (Permutation_in _ H1), in_app_iff. left.
  clear - H2 Hb. induction H2 as [|i a idx l Hi H2 IH]; [destruct Hb|]. destruct Hb as [<-|Hb]; auto. eapply nth_error_In; eauto.
Qed.
Lemma ranked_nodup dist asc answers addrs v l : Ranked E dist asc answers addrs v l -> NoDup addrs -> NoDup l.
Proof.
  intros (resp & rest & idx & H1 & _ & _ & HB & H2) Hnd.
  assert (Hn : NoDup (map fst resp)).
  { apply Permutation_sym in H1. apply (Permutation_NoDup H1) in Hnd. clear - Hnd.
    induction (map fst resp) as [|x l IH]; [constructor|]. cbn [app] in Hnd. inversion Hnd as [|? ? K1 K2]; subst. constructor; auto.
    intros Hx. apply K1. apply in_app_iff; auto. }
  pose proof (bk_nodup _ _ _ _ _ _ HB) as Hi. clear - Hn Hi H2.
  induction H2 as [|i a idx l Ha H2 IH]; [constructor|]. inversion Hi as [|? ? Hi1 Hi2]; subst. constructor; auto.
  intros Hin. apply Hi1. clear - Hn Ha Hin H2. induction H2 as [|j b idx l Hb H2 IH]; [destruct Hin|].
  destruct Hin as [->|Hin]; [left|right; auto]. apply (proj1 (NoDup_nth_error (map fst resp)) Hn); [|congruence].
  apply nth_error_Some. congruence.
Qed.

(* ---- putting ---- *)
Section Dims.
Context (D : str -> nat -> Prop).

Lemma not_reached_exec {A} a (h : proc' N A) (w : World) t : answers_arrive E -> ~ reached E w a t ->
  exec (rpc E a h) w t = Ok ((None, w), S t).
Proof.
  intros Ha Hr. rewrite exec_rpc. destruct (node_at w a) eqn:Hn; auto. destruct (e_fate E t) eqn:Hf; auto.
  - exfalso. apply Hr. split; congruence.
  - exfalso. apply (Ha t). auto.
Qed.
Lemma reached_exec {A} a (h : proc' N A) (w : World) t : reached E w a t ->
  exec (rpc E a h) w t = match exec h w (S t) with
                         | Ok ((x, w'), t') => Ok ((Some x, w'), t')
                         | Panic => Panic | OutOfFuel => OutOfFuel end.
Proof.
  intros (Hn & Hf). rewrite exec_rpc. destruct (node_at w a); [|congruence]. rewrite Hf. auto.
Qed.
Lemma reached_dec (w : World) a t : {reached E w a t} + {~ reached E w a t}.
Proof.
  unfold reached. destruct (node_at w a); [|right; tauto].
  destruct (e_fate E t); [left; split; [discriminate|auto]|right; intros (_ & H); discriminate..].
Qed.

Lemma h_add_alone a ns d (w : World) t : WorldOk w -> DimsOk D w -> D ns (length (dp_vec d)) -> node_at w a <> None ->
  exists w' t', exec (h_add E a ns d) w t = Ok ((true, w'), t') /\ exec (serve E a (QAdd ns d)) w t = Ok ((ABool true, w'), t').
Proof.
  intros Hw Hd Hns Hn. pose proof (alone_safe E HE HO D a (QAdd ns d) w t Hw Hd Hn I Hns) as H.
  cbn [serve] in *. rewrite exec_bind in H |- *.
  assert (Ht : forall b w' t', exec (h_add E a ns d) w t = Ok ((b, w'), t') -> b = true).
  { unfold h_add. intros b w' t' He. rewrite exec_bind in He.
    destruct (exec (access_g a ns (fun m => cm_add E m d) (unless d)) w t) as [[[[o|] w1] t1]| |]; try discriminate.
    - cbn [exec] in He. unfold ret in He. inversion He. auto.
    - rewrite exec_bind in He. destruct (exec (factory a (dp_vec d)) w1 t1) as [[[m w2] t2]| |]; try discriminate.
      rewrite exec_bind in He. destruct (exec (first_add E ns m d) w2 t2) as [[[m' w3] t3]| |]; try discriminate.
      rewrite exec_bind in He. destruct (exec (add_slot a ns m') w3 t3) as [[[u w4] t4]| |]; try discriminate. cbn [exec] in He. unfold ret in He. inversion He. auto. }
  destruct (exec (h_add E a ns d) w t) as [[[b w'] t']| |]; [|contradiction|contradiction].
  rewrite (Ht b w' t' eq_refl). cbn [exec]. exists w', t'. auto.
Qed.

Lemma put_dp_spec ns d (w : World) : WorldOk w -> DimsOk D w -> D ns (length (dp_vec d)) -> answers_arrive E -> forall addrs t,
  wp (exec (put_dp E addrs ns d) w) t (fun r t' =>
    (fst r = true /\ added_once E addrs ns d w t (snd r) t') \/
    (fst r = false /\ snd r = w /\ t' = t + length addrs /\ forall i b, nth_error addrs i = Some b -> ~ reached E w b (t + i))).
Proof.
  intros Hw Hd Hns Ha. induction addrs as [|a r IH]; intros t; cbn [put_dp].
  - apply wp_exec_ret. right. cbn [fst snd length]. splits; auto. intros [|i] b H; discriminate.
  - apply wp_exec_bind. unfold c_add_dp. apply wp_exec_bind. destruct (reached_dec w a t) as [Hr|Hr].
    + unfold wp at 1. rewrite reached_exec by auto. destruct (h_add_alone a ns d w (S t) Hw Hd Hns (proj1 Hr)) as (w' & t' & -> & Hs).
      cbn [fst snd]. apply wp_exec_ret. cbn [fst snd]. apply wp_exec_ret. cbn [fst snd]. left. split; auto.
      exists [], a, r. cbn [app length]. rewrite Nat.add_0_r. splits; auto. intros [|i] b H; discriminate.
    + unfold wp at 1. rewrite not_reached_exec by auto. cbn [fst snd]. apply wp_exec_ret. cbn [fst snd].
      eapply wp_mono; [apply IH|]. intros [ok w'] t' [(-> & pre & b & post & H1 & H2 & H3 & H4)|(-> & H1 & H2 & H3)]; cbn [fst snd] in *.
      * left. split; auto. exists (a :: pre), b, post. cbn [app length]. rewrite H1.
        replace (t + S (length pre)) with (S t + length pre) by lia. splits; auto.
        intros [|i] b' Hi; cbn [nth_error] in Hi; [injection Hi as <-; rewrite Nat.add_0_r; auto|].
        replace (t + S i) with (S t + i) by lia. auto.
      * right. splits; auto; [cbn [length]; lia|]. intros [|i] b' Hi; cbn [nth_error] in Hi; [injection Hi as <-; rewrite Nat.add_0_r; auto|].
        replace (t + S i) with (S t + i) by lia. auto.
Qed.

(* ---- querying ---- *)
Lemma lookup_alone a ns v k drain (w : World) t : WorldOk w -> DimsOk D w -> (0 <= k)%Z ->
  exists x w' t', t <= t' /\ WorldOk w' /\ DimsOk D w' /\
    exec (serve E a (QKnnLookup ns v k drain)) w t = Ok ((x, w'), t') /\
    exec (h_knn_lookup E a ns v k drain) w t = Ok ((match x with ADPs ds => Some ds | _ => None end, w'), t') /\
    length (found_in x) <= Z.to_nat k /\ Forall (seen_live E t t') (found_in x) /\
    incl (found_in x) (data_at w a ns) /\ (forall b, incl (data_at w' b ns) (data_at w b ns)) /\
    (forall b, node_at w' b <> None <-> node_at w b <> None).
Proof.
  intros Hw Hd Hk.
  assert (Hsafe : node_at w a <> None -> match exec (serve E a (QKnnLookup ns v k drain)) w t with
    | Ok ((_, w'), _) => WorldOk w' /\ DimsOk D w' | _ => True end).
  { intros Hn. pose proof (alone_safe E HE HO D a (QKnnLookup ns v k drain) w t Hw Hd Hn Hk I) as H.
    destruct (exec (serve E a (QKnnLookup ns v k drain)) w t) as [[[x w'] t']| |]; auto. }
  revert Hsafe. cbn [serve]. unfold reply. rewrite exec_bind. unfold h_knn_lookup, access. rewrite exec_access_g by auto.
  unfold data_at, centroids_at. destruct (manager w a ns) as [m|] eqn:Hm.
  - destruct (manager_slot _ _ _ _ Hw Hm) as (nd & p & Ha & Hp & Hn).
    assert (Hso : SlotOk D ns m) by (eapply Hd; [apply assoc_in; exact Ha|eapply nth_error_In; eauto]).
    destruct Hso as (n & Hdn & Hmd).
    pose proof (cm_knn_lookup_spec E HE cwf cwf_rm cwf_id (fun _ _ => True) (fun _ _ _ _ _ _ _ _ _ => I) n m v k drain t Hk Hmd I) as H.
    unfold wp in H. destruct (cm_knn_lookup E m v k drain t) as [[[ds m'] t']| |]; try contradiction. cbn [fst snd] in H.
    destruct H as (K1 & K2 & _ & K3 & K4 & K5 & K6 & K7 & K8).
    intros Hsafe. specialize (Hsafe ltac:(congruence)). cbn [exec] in Hsafe. unfold ret in Hsafe. destruct Hsafe as (Hw1 & Hd1).
    exists (ADPs ds), (put_mgr w a ns m' []), t'. cbn [exec found_in]. unfold ret.
    assert (Hcons : forall l, conserves E t t' (stored (cm_cs m)) l -> incl l (stored (cm_cs m))).
    { intros l (lost & Hp' & _) d Hin. apply (Permutation_in _ (Permutation_sym Hp')), in_app_iff. auto. }
    assert (HS : incl ds (stored (cm_cs m)) /\ incl (stored (cm_cs m')) (stored (cm_cs m))).
    { destruct drain.
      - specialize (Hcons _ (K7 eq_refl)). split; intros d Hi; apply Hcons, in_app_iff; auto.
      - destruct (K8 eq_refl) as (L1 & rest & L2). specialize (Hcons _ L1). split; auto. intros d Hi. apply Hcons.
        apply (Permutation_in _ (Permutation_sym L2)), in_app_iff. auto. }
    splits; auto.
    + apply HS.
    + intros b. rewrite put_mgr_get by (auto; congruence).
      destruct (str_eqb b a) eqn:Eb; cbn [andb]; [|apply incl_refl]. rewrite str_eqb_refl. apply str_eqb_eq in Eb. subst b.
      rewrite Hm. apply HS.
    + intros b. pose proof (put_mgr_node w a ns m' [] b) as Hb. destruct (node_at w b), (node_at (put_mgr w a ns m' []) b);
        cbn [option_map] in Hb; try discriminate; split; congruence.
  - intros _. exists ANsErr, w, t. cbn [exec found_in]. unfold ret. splits; auto; try (intros b; apply incl_refl); try reflexivity; try (cbn [length]; lia).
Qed.

Definition shrinks (ns : str) (w w' : World) : Prop :=
  (forall b, incl (data_at w' b ns) (data_at w b ns)) /\ (forall b, node_at w' b <> None <-> node_at w b <> None).
Lemma shrinks_refl ns w : shrinks ns w w.
Proof. split; intros b; [apply incl_refl|reflexivity]. Qed.
Lemma shrinks_trans ns w1 w2 w3 : shrinks ns w1 w2 -> shrinks ns w2 w3 -> shrinks ns w1 w3.
Proof.
  intros (H1 & H2) (H3 & H4). split; intros b; [eapply incl_tran; eauto|]. rewrite H4. apply H2.
Qed.

Lemma ask_spec a ns v k drain (w : World) t : WorldOk w -> DimsOk D w -> (0 <= k)%Z -> answers_arrive E ->
  wp (exec (c_lookup E a ns v k drain) w) t (fun r t' => t <= t' /\ asks E ns v drain a k w t (fst r) (snd r) t' /\
    WorldOk (snd r) /\ DimsOk D (snd r) /\ length (fst r) <= Z.to_nat k /\ Forall (seen_live E t t') (fst r) /\
    incl (fst r) (data_at w a ns) /\ shrinks ns w (snd r)).
Proof.
  intros Hw Hd Hk Ha. unfold c_lookup. destruct (Z.ltb_spec k 0); [lia|]. apply wp_exec_bind.
  destruct (reached_dec w a t) as [Hr|Hr]; unfold wp at 1.
  - rewrite reached_exec by auto.
    destruct (lookup_alone a ns v k drain w (S t) Hw Hd Hk) as (x & w' & t' & H1 & H2 & H3 & H4 & H5 & H6 & H7 & H8 & H9 & H10).
    rewrite H5. cbn [fst snd]. apply wp_exec_ret. cbn [fst snd].
    assert (Hx : match join (Some (match x with ADPs ds => Some ds | _ => None end)) with Some l => l | None => [] end = found_in x)
      by (destruct x; auto).
    rewrite Hx. splits; auto; [lia|left; split; eauto| |split; auto].
    eapply Forall_impl; [|exact H7]. intros d. apply seen_live_widen; lia.
  - rewrite not_reached_exec by auto. cbn [fst snd]. apply wp_exec_ret. cbn [fst snd join]. splits; auto; try lia.
    + right. auto.
    + cbn [length]. lia.
    + intros d [].
    + apply shrinks_refl.
Qed.

Lemma get_loop_spec ns v n drain : answers_arrive E -> forall addrs res (w : World) t, WorldOk w -> DimsOk D w ->
  (Z.of_nat (length res) <= n)%Z ->
  wp (exec (get_loop E addrs ns v n drain res) w) t (fun r t' => t <= t' /\ exists ds, fst r = res ++ ds /\
    gathers E ns v drain addrs (n - Z.of_nat (length res)) w t ds (snd r) t' /\
    WorldOk (snd r) /\ DimsOk D (snd r) /\ (Z.of_nat (length (res ++ ds)) <= n)%Z /\ Forall (seen_live E t t') ds /\
    Forall (fun d => exists a, In a addrs /\ In d (data_at w a ns)) ds /\ shrinks ns w (snd r)).
Proof.
  intros Ha. induction addrs as [|a r IH]; intros res w t Hw Hd Hl; cbn [get_loop].
  - apply wp_exec_ret. cbn [fst snd]. split; auto. exists []. rewrite app_nil_r. splits; auto; [constructor|apply shrinks_refl].
  - apply wp_exec_bind. eapply wp_mono; [apply ask_spec; auto; lia|]. intros [ds w1] t1 (H0 & H1 & H2 & H3 & H4 & H5 & H6 & H7).
    cbn [fst snd] in *. cbv zeta.
    assert (Hlen : (Z.of_nat (length (res ++ ds)) <= n)%Z) by (rewrite app_length; lia).
    assert (Hin : Forall (fun d => exists a', In a' (a :: r) /\ In d (data_at w a' ns)) ds).
    { apply Forall_forall. intros d Hi. exists a. split; [left; auto|]. auto. }
    destruct (Z.leb_spec n (Z.of_nat (length (res ++ ds)))) as [Hn|Hn].
    + apply wp_exec_ret. cbn [fst snd]. split; auto. exists ds. splits; auto. apply g_enough; auto. rewrite app_length in Hn. lia.
    + eapply wp_mono; [apply IH; auto|]. intros [out w'] t' (K0 & ds' & -> & K2 & K3 & K4 & K5 & K6 & K7 & K8). cbn [fst snd] in *.
      split; [lia|]. exists (ds ++ ds'). rewrite app_assoc. splits; auto.
      * eapply g_more; eauto; [rewrite app_length in Hn; lia|].
        replace (n - Z.of_nat (length res) - Z.of_nat (length ds))%Z with (n - Z.of_nat (length (res ++ ds)))%Z
          by (rewrite app_length; lia). auto.
      * apply Forall_app. split; [eapply Forall_impl; [|exact H5]|eapply Forall_impl; [|exact K6]];
          intros d; apply seen_live_widen; lia.
      * apply Forall_app. split; auto. eapply Forall_impl; [|exact K7]. intros d (a' & Ha' & Hd'). exists a'.
        split; [right; auto|]. apply H7; auto.
      * eapply shrinks_trans; eauto.
Qed.

Lemma get_dps_spec addrs ns v n drain (w : World) t : answers_arrive E -> WorldOk w -> DimsOk D w -> (0 <= n)%Z ->
  wp (exec (get_dps E addrs ns v n drain) w) t (fun r t' => t <= t' /\
    gathers E ns v drain addrs n w t (fst r) (snd r) t' /\
    WorldOk (snd r) /\ DimsOk D (snd r) /\ (Z.of_nat (length (fst r)) <= n)%Z /\ Forall (seen_live E t t') (fst r) /\
    Forall (fun d => exists a, In a addrs /\ In d (data_at w a ns)) (fst r) /\ shrinks ns w (snd r)).
Proof.
  intros Ha Hw Hd Hn. unfold get_dps. destruct (Z.ltb_spec n 0); [lia|].
  eapply wp_mono; [apply get_loop_spec; auto|]. intros [out w'] t' (H1 & ds & -> & H2 & H3). cbn [fst snd app length] in *.
  rewrite Z.sub_0_r in H2. splits; auto; apply H3.
Qed.

(* What the cluster loses by a draining query is what the query found. *)
Lemma lookup_undropped a ns v k drain (w : World) t x w' t' : WorldOk w ->
  exec (serve E a (QKnnLookup ns v k drain)) w t = Ok ((x, w'), t') -> w_dropped w' = w_dropped w.
Proof.
  intros Hw. cbn [serve]. unfold reply. rewrite exec_bind. unfold h_knn_lookup, access. rewrite exec_access_g by auto.
  destruct (manager w a ns) as [m|] eqn:Hm.
  - destruct (cm_knn_lookup E m v k drain t) as [[[ds m'] t1]| |]; try discriminate. cbn [exec]. unfold ret. intros H.
    inversion H; subst. rewrite put_mgr_dropped by (auto; congruence). apply app_nil_r.
  - cbn [exec]. unfold ret. intros H. inversion H; auto.
Qed.

Lemma asks_conserves ns v drain a k (w : World) t ds w' t' : answers_arrive E -> WorldOk w -> DimsOk D w -> (0 <= k)%Z ->
  asks E ns v drain a k w t ds w' t' ->
  t <= t' /\ WorldOk w' /\ DimsOk D w' /\ length ds <= Z.to_nat k /\
  keeps E t t' (all_data w) (all_data w' ++ tag ns (if drain then ds else [])).
Proof.
  intros Ha Hw Hd Hk [(Hr & x & He & ->)|(_ & -> & -> & ->)].
  - destruct (lookup_alone a ns v k drain w (S t) Hw Hd Hk) as (x' & w1 & t1 & H1 & H2 & H3 & H4 & _ & H6 & _).
    rewrite He in H4. inversion H4; subst x' w1 t1. splits; auto; try lia.
    pose proof (alone_conserves E HE HO D a (QKnnLookup ns v k drain) w (S t) Hw Hd (proj1 Hr) Hk I Ha (fun H => match H with end)) as H.
    unfold wp in H. rewrite He in H. destruct H as (dr & K1 & K2 & _). cbn [fst snd] in *.
    rewrite (lookup_undropped _ _ _ _ _ _ _ _ _ _ Hw He) in K1.
    assert (dr = []) by (apply (f_equal (@length _)) in K1; rewrite app_length in K1; destruct dr; auto; cbn [length] in K1; lia).
    subst dr. destruct K2 as (lost & L1 & L2). exists lost. split.
    + cbn [req_tin req_in req_ns] in L1. unfold req_tin, ans_tout in L1. cbn [req_ns req_in ans_out] in L1.
      change (tag ns []) with (@nil (str * DP)) in L1.
      rewrite !app_nil_r in L1. rewrite L1. apply Permutation_app_tail, Permutation_app_head.
      destruct x, drain; reflexivity.
    + eapply Forall_impl; [|exact L2]. intros e (j & J1 & J2). exists j. split; auto; lia.
  - splits; auto; [cbn [length]; lia|]. apply keeps_perm. destruct drain; rewrite app_nil_r; auto.
Qed.

Lemma tag_app ns (a b : list DP) : tag ns (a ++ b) = tag ns a ++ tag ns b.
Proof. apply map_app. Qed.

Lemma gathers_conserves ns v drain addrs k (w : World) t ds w' t' : answers_arrive E ->
  gathers E ns v drain addrs k w t ds w' t' -> WorldOk w -> DimsOk D w -> (0 <= k)%Z ->
  t <= t' /\ WorldOk w' /\ DimsOk D w' /\
  keeps E t t' (all_data w) (all_data w' ++ tag ns (if drain then ds else [])).
Proof.
  intros Ha H. induction H as [k w t|a r k w t ds w' t' H1 H2|a r k w t ds w1 t1 ds' w' t' H1 H2 _ IH]; intros Hw Hd Hk.
  - splits; auto. apply keeps_perm. destruct drain; rewrite app_nil_r; auto.
  - apply asks_conserves in H1; auto. destruct H1 as (K1 & K2 & K3 & _ & K4). auto.
  - apply asks_conserves in H1; auto. destruct H1 as (K1 & K2 & K3 & K5 & K4).
    destruct (IH K2 K3 ltac:(lia)) as (L1 & L2 & L3 & L4). splits; auto; [lia|].
    eapply (keeps_seq E t t1 t'); [exact K1|exact L1|exact K4|].
    eapply keeps_proper; [reflexivity| |apply keeps_frame; exact L4].
    destruct drain; [rewrite tag_app|]; perm.
Qed.

(* ---- the HTTP interface ---- *)
Lemma ranking_spec (accurate : bool) addrs ns v (w : World) t : WorldOk w ->
  wp (exec (if accurate then best_fit_accurate E knn_cos addrs ns v else best_fit_fast E knn_cos addrs ns v) w) t
    (fun r t' => t <= t' /\ snd r = w /\ nodes_ranked E w accurate addrs ns v (fst r)).
Proof. intros Hw. destruct accurate; [apply best_fit_accurate_spec|apply best_fit_fast_spec]; auto. Qed.

Lemma put_http_spec addrs (o : put_opts N) (w : World) t : answers_arrive E -> WorldOk w -> DimsOk D w ->
  D (po_ns o) (length (wi_vec (po_dp o))) ->
  wp (exec (put_http E addrs (Some o)) w) t (fun r t' => exists code, fst r = Http code None /\
    put_effect E w (po_accurate o) addrs (po_ns o) (to_dp (po_dp o)) code (snd r) t').
Proof.
  intros Ha Hw Hd Hns. cbn [put_http]. cbv zeta. set (d := to_dp (po_dp o)). change (wi_vec (po_dp o)) with (dp_vec d) in Hns.
  apply wp_exec_bind.
  assert (Hp : forall Q, wp (exec (call l <- (if po_accurate o then best_fit_accurate E knn_cos addrs (po_ns o) (dp_vec d)
      else best_fit_fast E knn_cos addrs (po_ns o) (dp_vec d)); put_dp E l (po_ns o) d) w) t Q ->
    wp (exec (if po_accurate o then put_accurate E knn_cos addrs (po_ns o) d else put_fast E knn_cos addrs (po_ns o) d) w) t Q)
    by (intros Q; destruct (po_accurate o); auto).
  apply Hp. apply wp_exec_bind. eapply wp_mono; [apply ranking_spec; auto|]. intros [l w1] t1 (Ht1 & Hw1 & Hl). cbn [fst snd] in *. subst w1.
  eapply wp_mono; [apply put_dp_spec; auto|]. intros [ok1 w1] t2 [(-> & H)|(-> & Hw1 & _ & H)]; cbn [fst snd] in *.
  - apply wp_exec_bind, wp_exec_ret. cbn [fst snd]. apply wp_exec_ret. cbn [fst snd]. exists 200%Z. split; auto.
    exists l, t1. auto.
  - subst w1. apply wp_exec_bind. unfold put_rand. apply wp_exec_bind, wp_exec_local. eapply wp_mono; [apply shuffle_spec|].
    intros l' t3 (_ & Hl'). cbn [fst snd]. eapply wp_mono; [apply put_dp_spec; auto|].
    intros [ok' w1] t4 [(-> & K)|(-> & Hw1 & _ & K)]; cbn [fst snd] in *; apply wp_exec_ret; cbn [fst snd].
    + exists 200%Z. split; auto. exists l, t1. split; auto. right. split; auto. exists l', t3. auto.
    + exists 500%Z. split; auto. exists l, t1. split; auto. right. split; auto. exists l', t3. auto.
Qed.

Lemma query_http_spec addrs (o : query_opts N) (w : World) t : answers_arrive E -> WorldOk w -> DimsOk D w -> (0 <= qo_n o)%Z ->
  wp (exec (query_http E addrs (Some o)) w) t (fun r t' =>
    let found := snd (fst r) in let w' := snd r in
    fst (fst r) = Http 200 (marshal (of_dps found)) /\
    (exists l t1, nodes_ranked E w (qo_accurate o) addrs (qo_ns o) (qo_vec o) l /\
       gathers E (qo_ns o) (qo_vec o) (qo_drain o) l (qo_n o) w t1 found w' t' /\ t <= t1 /\ t1 <= t' /\
       Forall (seen_live E t1 t') found) /\
    (Z.of_nat (length found) <= qo_n o)%Z /\
    Forall (fun d => exists a, In a addrs /\ In d (data_at w a (qo_ns o))) found /\ WorldOk w' /\ DimsOk D w').
Proof.
  intros Ha Hw Hd Hn. cbn [query_http]. apply wp_exec_bind. eapply wp_mono; [apply ranking_spec; auto|].
  intros [l w1] t1 (Ht1 & Hw1 & Hl). cbn [fst snd] in *. subst w1. destruct (Z.ltb_spec (qo_n o) 0); [lia|].
  apply wp_exec_bind. eapply wp_mono; [apply get_dps_spec; auto|].
  intros [ds w'] t2 (H0 & H1 & H2 & H3 & H4 & H5 & H6 & H7). cbn [fst snd] in *. apply wp_exec_ret. cbn [fst snd]. cbv zeta. splits; auto.
  - exists l, t1. auto.
  - assert (Hi : incl l addrs) by (destruct (qo_accurate o); eapply ranked_incl; eauto).
    eapply Forall_impl; [|exact H6]. intros d (a & Ha' & Hd'). eauto.
Qed.
End Dims.
End CoreSeq.
