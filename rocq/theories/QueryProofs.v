(* A query that asks for enough finds everything, in particular what has been put. *)
From Verif Require Import Base Num MathUtils Knn SearchSpec Env Centroid CManager DataSpec MgrSpec MgrSpec2 Wp DataFacts NumFacts
  KnnProofs MathSpec Proc Owns Server ServerSpec ServerFacts ServerProofs ClusterProofs
  SeqProofs SeqProofs2 StealProofs Alone Core EventLoop CoreSpec CoreProofs SystemProofs CoreSeq Props03Lemmas Props04Lemmas Props05Lemmas
  ReqSpec ReqProofs QuerySpec.
Local Open Scope nat_scope.

Section QueryProofs.
Context {N : Num} (E : Env N) (HE : EnvOk E) (HO : NumOrd N) (D : str -> nat -> Prop).
Notation DP := (DataPoint N).
Notation World := (World N).

Lemma manager_dim (w : World) a ns m : WorldOk w -> DimsOk D w -> manager w a ns = Some m -> exists n, DimOk n m.
Proof.
  intros Hw Hd Hm. destruct (manager_slot _ _ _ _ Hw Hm) as (nd & p & Ha & Hp & Hn).
  destruct (Hd a nd ns m) as (n & _ & Hmd); [apply assoc_in; exact Ha|eapply nth_error_In; eauto|]. eauto.
Qed.

Lemma app_all {A} (l a b : list A) : Permutation l (a ++ b) -> length a = length l -> b = [].
Proof. intros H Hl. apply Permutation_length in H. rewrite app_length in H. destruct b; auto. cbn [length] in H. lia. Qed.

(* One node that is asked for at least as much as it has. *)
Lemma asks_all ns v drain a k (w : World) t ds w' t' : WorldOk w -> DimsOk D w ->
  reached E w a t -> (Z.of_nat (length (data_at w a ns)) <= k)%Z ->
  (forall m, manager w a ns = Some m -> in_sight E v m) ->
  asks E ns v drain a k w t ds w' t' ->
  Permutation ds (data_at w a ns) /\ (forall b, b <> a -> manager w' b ns = manager w b ns).
Proof.
  intros Hw Hd Hr Hk Hs [(_ & x & He & ->)|(Hr' & _)]; [|contradiction].
  assert (Hk0 : (0 <= k)%Z) by lia. unfold data_at, centroids_at in *.
  destruct (manager w a ns) as [m|] eqn:Hm.
  - destruct (manager_dim w a ns m Hw Hd Hm) as (n & Hn). destruct (Hs m eq_refl) as (S1 & S2 & S3).
    pose proof (effect_of E HE (QKnnLookup ns v k drain) a ns n w m (S t) eq_refl I Hk0 Hw Hm Hn) as H.
    unfold wp in H. rewrite He in H. destruct H as (m' & _ & Hf & Ho). cbn [fst snd] in *.
    cbn [Effect] in Hf. destruct Hf as (ds & -> & _ & _ & H1 & H2 & H3 & _). cbn [found_in].
    specialize (H3 S1 S2 S3). rewrite Nat.min_r in H3 by lia. split.
    + destruct drain.
      * destruct (H1 eq_refl) as (lost & HP & _). rewrite <- app_assoc in HP.
        assert (HP' : Permutation (stored (cm_cs m)) (ds ++ (stored (cm_cs m') ++ lost))).
        { rewrite HP. perm. }
        pose proof (app_all _ _ _ HP' H3) as Hz. rewrite Hz, app_nil_r in HP'. symmetry; auto.
      * destruct (H2 eq_refl) as ((lost & HP & _) & rest & HR).
        assert (HP' : Permutation (stored (cm_cs m)) (ds ++ (rest ++ lost))).
        { rewrite HP, HR. perm. }
        pose proof (app_all _ _ _ HP' H3) as Hz. rewrite Hz, app_nil_r in HP'. symmetry; auto.
    + intros b Hb. apply Ho. congruence.
  - rewrite (unknown_namespace E a (QKnnLookup ns v k drain) ns w (S t)) in He; auto.
    inversion He; subst. cbn [found_in]. split; auto.
Qed.

Lemma gathers_all ns v drain l k (w : World) t found w' t' : all_delivered E ->
  gathers E ns v drain l k w t found w' t' -> WorldOk w -> DimsOk D w -> NoDup l ->
  Forall (fun a => node_at w a <> None) l ->
  (Z.of_nat (length (data_on w l ns)) <= k)%Z ->
  (forall a m, In a l -> manager w a ns = Some m -> in_sight E v m) ->
  Permutation found (data_on w l ns).
Proof.
  intros Hdel H. induction H as [k w t|a r k w t ds w' t' H1 H2|a r k w t ds w1 t1 ds' w' t' H1 H2 _ IH];
    intros Hw Hd Hnd Hn Hk Hs; unfold data_on in *; cbn [map concat] in *.
  - auto.
  - rewrite app_length in Hk. inversion Hn as [|? ? Hna Hnr]; subst.
    destruct (asks_all ns v drain a k w t ds w' t' Hw Hd (conj Hna (Hdel t)) ltac:(lia) (fun m => Hs a m (or_introl eq_refl)) H1) as (HP & _).
    pose proof (Permutation_length HP) as Hl.
    assert (Hz : concat (map (fun a0 => data_at w a0 ns) r) = []) by (apply length_zero_iff_nil; lia).
    rewrite Hz, app_nil_r. auto.
  - rewrite app_length in Hk. inversion Hn as [|? ? Hna Hnr]; subst. inversion Hnd as [|? ? Hni Hnd']; subst.
    destruct (asks_all ns v drain a k w t ds w1 t1 Hw Hd (conj Hna (Hdel t)) ltac:(lia) (fun m => Hs a m (or_introl eq_refl)) H1) as (HP & Ho).
    pose proof (Permutation_length HP) as Hl.
    assert (Heq : map (fun b => data_at w1 b ns) r = map (fun b => data_at w b ns) r).
    { apply map_ext_in. intros b Hb. unfold data_at, centroids_at. rewrite Ho; auto. intros ->; auto. }
    destruct H1 as [(Hr1 & x & He & Hx)|(Hr' & _)]; [|destruct Hr'; split; auto].
    destruct (lookup_alone E HE HO D a ns v k drain w (S t) Hw Hd ltac:(lia)) as (x' & w1' & t1' & K1 & K2 & K3 & K4 & _ & _ & _ & _ & _ & K5).
    rewrite He in K4. inversion K4; subst x' w1' t1'. clear K4.
    rewrite Heq in IH. apply Permutation_app; auto. apply IH; auto.
    + eapply Forall_impl; [|exact Hnr]. intros b Hb. apply K5. auto.
    + lia.
    + intros b m Hb Hm. apply (Hs b m); [right; auto|]. rewrite <- Ho; auto. intros ->; auto.
Qed.

Lemma data_on_incl (w : World) ns l addrs : NoDup l -> NoDup addrs -> incl l addrs ->
  (forall a, In a addrs -> ~ In a l -> data_at w a ns = []) -> Permutation (data_on w l ns) (data_on w addrs ns).
Proof.
  intros Hl Ha Hi Hz. revert addrs Ha Hi Hz. induction Hl as [|a l Hni Hl IH]; intros addrs Ha Hi Hz.
  - clear Ha Hi. unfold data_on. induction addrs as [|b addrs IH]; cbn [map concat]; auto.
    rewrite (Hz b) by (simpl; auto). apply IH. intros a Ha. apply Hz. right; auto.
  - destruct (in_split a addrs (Hi a (or_introl eq_refl))) as (l1 & l2 & ->).
    unfold data_on. rewrite map_app, concat_app. cbn [map concat]. rewrite Permutation_app_swap_app.
    apply Permutation_app_head. rewrite <- concat_app, <- map_app. apply NoDup_remove in Ha. destruct Ha as (Ha1 & Ha2). apply IH; auto.
    + intros b Hb. assert (K : In b (l1 ++ a :: l2)) by (apply Hi; right; auto). apply in_app_iff in K. apply in_app_iff.
      destruct K as [K|[->|K]]; auto. contradiction.
    + intros b Hb Hn. apply Hz.
      * apply in_app_iff in Hb. apply in_app_iff. cbn [In]. tauto.
      * intros [->|K]; auto.
Qed.

Theorem query_all addrs (o : query_opts N) (w : World) t : all_delivered E -> WorldOk w -> DimsOk D w -> NoDup addrs ->
  sees_all E w addrs o ->
  wp (exec (query_http E addrs (Some o)) w) t (fun r _ => exists found,
    fst (fst r) = Http 200 (Some (of_dps found)) /\ Permutation found (data_on w addrs (qo_ns o))).
Proof.
  intros Hdel Hw Hd Hnd (Hk & Hs & Hc).
  eapply wp_mono; [apply (query_answer E HE HO D addrs o w t (all_arrive E Hdel) Hw Hd ltac:(lia) Hc)|].
  intros [[h ds] w'] t' (found & H1 & (l & t1 & H2 & _ & H3) & _ & _). cbn [fst snd] in *. exists found. split; auto.
  assert (Hli : incl l addrs) by (apply (nodes_ranked_incl E _ _ _ _ _ _ H2)).
  assert (Hln : NoDup l). { unfold nodes_ranked in H2. destruct (qo_accurate o); eapply ranked_nodup; eauto. }
  assert (HP : Permutation (data_on w l (qo_ns o)) (data_on w addrs (qo_ns o))).
  { apply data_on_incl; auto. intros a Ha Hn. unfold data_at, centroids_at.
    destruct (manager w a (qo_ns o)) as [m|] eqn:Hm; auto. exfalso. apply Hn.
    destruct (Hs a m Ha Hm) as ((u & s & Hu & Hsc & Hb) & _). unfold nodes_ranked in H2.
    destruct (qo_accurate o); eapply (ranked_all E); try exact H2; eauto.
    - intros b x y (m1 & i1 & j1 & c1 & A1 & A2 & A3 & A4 & _) (m2 & i2 & j2 & c2 & B1 & B2 & B3 & B4 & _). congruence.
    - intros b x y (m1 & A1 & A2 & _) (m2 & B1 & B2 & _). congruence. }
  rewrite <- HP. eapply gathers_all; eauto.
  - apply Forall_forall. intros a Ha. eapply (nodes_ranked_node E); eauto.
  - rewrite (Permutation_length HP). auto.
  - intros a m Ha Hm. apply (Hs a m (Hli a Ha) Hm).
Qed.

(* What has been put. *)
Lemma added_stored a ns d (w : World) t w' t' addrs : WorldOk w -> DimsOk D w -> node_at w a <> None -> In a addrs ->
  never_expired E [d] -> takers E w addrs ns d ->
  exec (serve E a (QAdd ns d)) w t = Ok ((ABool true, w'), t') -> In d (data_at w' a ns).
Proof.
  intros Hw Hd Hn Ha Hv Ht He. assert (Hx : forall k, expired_at (e_now E k) d = false) by (intros k; apply Hv; left; auto).
  destruct (manager w a ns) as [m|] eqn:Hm.
  - destruct (manager_dim w a ns m Hw Hd Hm) as (n & Hdn).
    pose proof (add_known_spec E HE n a ns d w m t Hw Hm Hdn) as H. unfold wp in H. rewrite He in H.
    destruct H as (_ & _ & H & _). cbn [fst snd] in *.
    destruct H as (lost & HP & Hl). { split; auto. destruct (Ht a m Ha Hm) as [->|Hi]; auto. }
    assert (Hin : In d (data_at w a ns ++ [d])) by (apply in_app_iff; right; left; auto).
    apply (Permutation_in _ HP) in Hin. apply in_app_iff in Hin. destruct Hin as [Hin|Hin]; auto.
    rewrite Forall_forall in Hl. destruct (Hl d Hin) as (j & _ & Hj). rewrite Hx in Hj. discriminate.
  - pose proof (add_unknown_spec E a ns d w t Hw Hn Hm) as H. unfold wp in H. rewrite He in H.
    destruct H as (_ & _ & m & _ & _ & _ & H). cbn [fst snd] in *. rewrite H by auto. left; auto.
Qed.

Theorem put_then_query addrs (o : put_opts N) (w : World) t : all_delivered E -> WorldOk w -> DimsOk D w -> NoDup addrs ->
  D (po_ns o) (length (wi_vec (po_dp o))) -> (exists a, In a addrs /\ node_at w a <> None) ->
  never_expired E [to_dp (po_dp o)] -> takers E w addrs (po_ns o) (to_dp (po_dp o)) ->
  wp (exec (put_http E addrs (Some o)) w) t (fun r t1 => fst r = Http 200 None /\
    forall o', qo_ns o' = po_ns o -> sees_all E (snd r) addrs o' ->
      wp (exec (query_http E addrs (Some o')) (snd r)) t1 (fun r' _ => exists found,
        fst (fst r') = Http 200 (Some found) /\ In (po_dp o) found)).
Proof.
  intros Hdel Hw Hd Hnd Hns Hex Hv Ht.
  eapply wp_mono; [apply (put_reachable E HE HO D addrs o w t Hdel Hw Hd Hns Hex)|].
  intros [h w1] t1 (H1 & l & t2 & a & H2 & H3 & H4). cbn [fst snd] in *. split; auto. intros o' Ho' Hs.
  assert (Ha : In a addrs /\ node_at w a <> None).
  { destruct l as [|b l]; auto. subst b. split; [apply (nodes_ranked_incl E _ _ _ _ _ _ H2); left; auto|].
    eapply (nodes_ranked_node E); [exact H2|left; auto]. }
  destruct Ha as (Ha & Hna).
  assert (Hst : In (to_dp (po_dp o)) (data_at w1 a (po_ns o))) by (eapply added_stored; eauto).
  pose proof (alone_safe E HE HO D a (QAdd (po_ns o) (to_dp (po_dp o))) w t2 Hw Hd Hna I Hns) as Hsafe.
  rewrite H4 in Hsafe. destruct Hsafe as (Hw1 & Hd1).
  eapply wp_mono; [apply (query_all addrs o' w1 t1 Hdel Hw1 Hd1 Hnd Hs)|].
  intros [[h' ds] w2] t3 (found & K1 & K2). cbn [fst snd] in *. exists (of_dps found). split; auto.
  replace (po_dp o) with (of_dp (to_dp (po_dp o))) by (destruct (po_dp o); reflexivity).
  apply in_map. apply (Permutation_in _ (Permutation_sym K2)). unfold data_on. apply in_concat.
  exists (data_at w1 a (qo_ns o')). rewrite Ho'. split; auto. apply in_map_iff. exists a. auto.
Qed.
End QueryProofs.

(* ---- one node, one centroid ---- *)
Section OneCentroid.
Context {N : Num} (E : Env N) (HE : EnvOk E) (HO : NumOrd N) (D : str -> nat -> Prop).

Theorem query_one_centroid dist asc a m c (o : query_opts N) (w : World N) t : e_knn E = knn_brute dist asc ->
  all_delivered E -> WorldOk w -> DimsOk D w -> (0 <= qo_n o)%Z ->
  manager w a (qo_ns o) = Some m -> cm_cs m = [c] -> never_expired E (c_dps c) ->
  ranked_node E w (qo_accurate o) (qo_ns o) (qo_vec o) a ->
  all_rankable dist asc (qo_vec o) [c_vec c] ->
  (forall a, Forall carries (data_at w a (qo_ns o))) ->
  wp (exec (query_http E [a] (Some o)) w) t (fun r _ => exists idx,
    BestK dist asc (qo_vec o) (map dp_vec (c_dps c)) (Z.to_nat (qo_n o)) idx /\
    fst (fst r) = Http 200 (Some (of_dps (pick idx (c_dps c))))).
Proof.
  intros He Hdel Hw Hd Hk Hm Hc Hv (u & s & Hu & Hs & Hb) Hr Hca.
  eapply wp_mono; [apply (query_answer E HE HO D [a] o w t (all_arrive E Hdel) Hw Hd Hk Hca)|].
  intros [[h ds] w'] t' (found & H1 & (l & t1 & H2 & _ & H3) & _ & _). cbn [fst snd] in *.
  assert (Hl : l = [a]).
  { assert (Hln : NoDup l). { unfold nodes_ranked in H2. destruct (qo_accurate o); eapply ranked_nodup; eauto; repeat constructor; auto. }
    pose proof (nodes_ranked_incl E _ _ _ _ _ _ H2) as Hli.
    assert (Ha : In a l).
    { unfold nodes_ranked in H2. destruct (qo_accurate o); eapply (ranked_all E); try exact H2; eauto; try (left; auto).
      - intros b x y (m1 & i1 & j1 & c1 & A1 & A2 & A3 & A4 & _) (m2 & i2 & j2 & c2 & B1 & B2 & B3 & B4 & _). congruence.
      - intros b x y (m1 & A1 & A2 & _) (m2 & B1 & B2 & _). congruence. }
    destruct l as [|b [|b' l]]; [destruct Ha|destruct (Hli b (or_introl eq_refl)) as [<-|[]]; auto|].
    destruct (Hli b (or_introl eq_refl)) as [<-|[]]. destruct (Hli b' (or_intror (or_introl eq_refl))) as [<-|[]].
    inversion Hln as [|? ? Hni _]; subst. destruct Hni. left; auto. }
  subst l.
  assert (Hn : node_at w a <> None) by (unfold manager in Hm; destruct (node_at w a); congruence).
  destruct (manager_dim D w a _ m Hw Hd Hm) as (n & Hdn).
  assert (HA : exists ds w1 t2, asks E (qo_ns o) (qo_vec o) (qo_drain o) a (qo_n o) w t1 ds w1 t2 /\ found = ds).
  { inversion H3 as [|? ? ? ? ? ? ? ? Hq Hle|? ? ? ? ? ds1 w1 t2 ds2 ? ? Hq Hlt Hg]; subst; eauto.
    inversion Hg; subst. exists ds1. rewrite app_nil_r. eauto. }
  destruct HA as (ds1 & w1 & t2 & [(_ & x & Hx & ->)|(Hnr & _)] & ->); [|destruct Hnr; split; auto].
  pose proof (effect_of E HE (QKnnLookup (qo_ns o) (qo_vec o) (qo_n o) (qo_drain o)) a (qo_ns o) n w m (S t1) eq_refl I Hk Hw Hm Hdn) as H.
  unfold wp in H. rewrite Hx in H. destruct H as (m' & _ & Hf & _). cbn [fst snd] in *.
  cbn [Effect] in Hf. destruct Hf as (ds2 & -> & _ & _ & _ & _ & _ & idx & Hi & Hcol). cbn [found_in] in *.
  rewrite Hc in Hi, Hcol. cbn [map] in Hi, Hcol.
  rewrite He in Hi. destruct (knn_brute_bestk HO dist asc (qo_vec o) [c_vec c] (qo_n o) Hk) as (idx' & Hi' & HB).
  rewrite Hi in Hi'. injection Hi' as <-.
  destruct (knn_brute_bestk HO dist asc (qo_vec o) (map dp_vec (c_dps c)) (qo_n o) Hk) as (js & Hj & HBj).
  exists js. split; auto. rewrite H1. repeat f_equal.
  pose proof (bestk_length _ _ _ _ _ _ HB Hr) as Hil. cbn [length] in Hil.
  destruct (Z.eq_dec (qo_n o) 0) as [Hz|Hz].
  - pose proof (bk_at_most _ _ _ _ _ _ HBj) as Hl0. rewrite Hz in Hl0. destruct js; [|cbn [length Z.to_nat] in Hl0; lia].
    rewrite Hz in Hcol. inversion Hcol; subst; auto. lia.
  - rewrite Nat.min_r in Hil by lia. destruct idx as [|i [|? ?]]; try discriminate.
    assert (Hi0 : i = 0).
    { destruct (bk_rankable _ _ _ _ _ _ HB i (or_introl eq_refl)) as (s' & x & Hx' & _). destruct i as [|[|i]]; auto; discriminate. }
    subst i. inversion Hcol as [| |? ? ? ? ? l js' rest ? Hpos Hl' Hjs Hrest]; subst; [lia|].
    cbn [nth_error] in Hl'. injection Hl' as <-.
    rewrite (live_from_all E _ (c_dps c)) in * by (intros; apply Hv; auto).
    rewrite He, Z2Nat.id, Hj in Hjs by lia. injection Hjs as <-.
    inversion Hrest; subst; apply app_nil_r.
Qed.
End OneCentroid.
