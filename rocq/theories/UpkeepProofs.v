(* What the upkeep tasks of the event loop do to the managers of the local node. *)
From Verif Require Import Base Num MathUtils Env Centroid CManager DataSpec MgrSpec MgrSpec2 Wp NumFacts Proc Server ServerSpec Owns ServerFacts SeqProofs
  SeqProofs3 Alone ReqSpec ReqProofs QueryProofs EventLoop CoreSpec LoopSpec TaskSpec TaskProofs ExpiryMgr ExpiryTime UpkeepSpec.
From Coq Require Import Permutation.

Section Upkeep.
Context {N : Num} (E : Env N) (HE : EnvOk E) (HO : NumOrd N).
Notation World := (World N).

Lemma exec_later {R} (p : proc' N R) : later p -> forall w, grows (exec p w).
Proof.
  induction p as [R r|R A o g k IH|R q IHq k IHk]; cbn [later exec]; intros H w.
  - apply grows_ret.
  - destruct H as (H1 & H2). apply grows_bind; auto. intros (x & w'). auto.
  - destruct H as (H1 & H2). apply grows_bind; auto. intros (x & w'). auto.
Qed.

Lemma mgr_node (w : World) a ns m : manager w a ns = Some m -> node_at w a <> None.
Proof. unfold manager. destruct (node_at w a); [discriminate|discriminate]. Qed.

Lemma mgr_dim D (w : World) a ns m : WorldOk w -> DimsOk D w -> manager w a ns = Some m -> DimOk (length (cm_vec m)) m.
Proof. intros H1 H2 H3. destruct (manager_dim D w a ns m H1 H2 H3) as (n & K1 & K2). rewrite K1. split; auto. Qed.

Lemma tended_wider t t' s s' q m m' : s <= t -> t' <= s' -> Tended E t t' q m m' -> Tended E s s' q m m'.
Proof. intros H1 H2 (x & t1 & t2 & K1 & K2 & K3). exists x, t1, t2. splits; auto; lia. Qed.

(* One request, served alone. *)
Lemma tended_one D a ns q (w : World) m t : req_ns q = Some ns -> on_manager q -> req_counts q -> req_dims D q -> ~ is_steal q ->
  WorldOk w -> DimsOk D w -> manager w a ns = Some m ->
  exists x w' t', exec (serve E a q) w t = Ok ((x, w'), t') /\ t <= t' /\ WorldOk w' /\ DimsOk D w' /\ others w w' a ns /\
    exists m', manager w' a ns = Some m' /\ Tended E t t' q m m'.
Proof.
  intros H1 H2 H3 H4 Hst Hw HD Hm.
  pose proof (effect_of E HE q a ns _ w m t H1 H2 H3 Hw Hm (mgr_dim D w a ns m Hw HD Hm)) as He.
  pose proof (alone_safe E HE HO D a q w t Hw HD (mgr_node _ _ _ _ Hm) H3 H4) as Hs. unfold wp in He.
  destruct (exec (serve E a q) w t) as [[[x w'] t']| |] eqn:Hx; [|contradiction|contradiction].
  pose proof (exec_later (serve E a q) (later_serve E a q) w t _ _ Hx) as Ht.
  destruct He as (m' & K1 & K2 & K3). destruct Hs as (S1 & S2). cbn [fst snd] in *.
  exists x, w', t'. splits; auto. exists m'. split; auto. exists x, t, t'. splits; auto.
Qed.

Lemma tended_each D a (f : str -> req N) :
  (forall ns, req_ns (f ns) = Some ns /\ on_manager (f ns) /\ req_counts (f ns) /\ req_dims D (f ns) /\ ~ is_steal (f ns)) ->
  forall nss (w : World) t, NoDup nss -> WorldOk w -> DimsOk D w -> (forall ns, In ns nss -> manager w a ns <> None) ->
  exists xs w' t', Made E (map (fun ns => (a, f ns)) nss) w t xs w' t' /\ t <= t' /\ WorldOk w' /\ DimsOk D w' /\
    (forall b ns, ~ (b = a /\ In ns nss) -> manager w' b ns = manager w b ns) /\
    forall ns m, In ns nss -> manager w a ns = Some m -> exists m', manager w' a ns = Some m' /\
      (m' = m \/ Tended E t t' (f ns) m m') /\ (all_delivered E -> Tended E t t' (f ns) m m').
Proof.
  intros Hf. induction nss as [|ns nss IH]; intros w t Hnd Hw HD Hin.
  - exists [], w, t. splits; auto; try constructor. intros ? ? [].
  - inversion Hnd as [|? ? Hnot Hnd']; subst. destruct (Hf ns) as (F1 & F2 & F3 & F4 & F5).
    destruct (manager w a ns) as [m|] eqn:Hm; [|exfalso; apply (Hin ns); [left; auto|exact Hm]].
    assert (Hne : node_at w a <> None) by (eapply mgr_node; eauto).
    assert (Hft : e_fate E t = ReqLost \/ e_fate E t <> ReqLost) by (destruct (e_fate E t); auto; right; discriminate); destruct Hft as [Hlost|Hserved].
    + (* lost *)
      destruct (IH w (S t) Hnd' Hw HD) as (xs & w' & t' & M & Ht & Hw' & HD' & Ho & Hall); [intros; apply Hin; right; auto|].
      exists (None :: xs), w', t'. splits; auto; [cbn [map]; eapply Made_lost; eauto|lia| |].
      * intros b ns' Hn. apply Ho. intros (-> & Hi). apply Hn. split; auto. right; auto.
      * intros ns' m0 [<-|Hi] Hm0.
        -- exists m. rewrite Ho by (intros (_ & Hi); auto). assert (m0 = m) by congruence. subst m0. splits; auto.
           intros Had. specialize (Had t). congruence.
        -- destruct (Hall ns' m0 Hi Hm0) as (m' & K1 & K2 & K3). exists m'. splits; auto.
           ++ destruct K2 as [K2|K2]; [left; auto|right; eapply tended_wider; [| |exact K2]; lia].
           ++ intros Had. eapply tended_wider; [| |exact (K3 Had)]; lia.
    + destruct (tended_one D a ns (f ns) w m (S t) F1 F2 F3 F4 F5 Hw HD Hm) as (x & w1 & t1 & Hx & Ht1 & Hw1 & HD1 & Ho1 & m1 & Hm1 & HT1).
      destruct (IH w1 t1 Hnd' Hw1 HD1) as (xs & w' & t' & M & Ht & Hw' & HD' & Ho & Hall).
      { intros ns' Hi. rewrite Ho1 by congruence. apply Hin. right; auto. }
      assert (HM : exists o, Made E (map (fun ns => (a, f ns)) (ns :: nss)) w t (o :: xs) w' t').
      { cbn [map]. destruct (e_fate E t) eqn:Hft; [exists (Some x); eapply Made_answered; eauto|congruence|exists None; eapply Made_hidden; eauto]. }
      destruct HM as (o & HM). exists (o :: xs), w', t'. splits; auto; [lia| |].
      * intros b ns' Hn. rewrite Ho by (intros (-> & Hi); apply Hn; split; auto; right; auto). apply Ho1.
        intros Heq. inversion Heq; subst. apply Hn. split; auto. left; auto.
      * intros ns' m0 [<-|Hi] Hm0.
        -- assert (m0 = m) by congruence. subst m0. exists m1. rewrite Ho by (intros (_ & Hi); auto).
           assert (HT : Tended E t t' (f ns) m m1) by (eapply tended_wider; [| |exact HT1]; lia). splits; auto.
        -- destruct (Hall ns' m0 Hi) as (m' & K1 & K2 & K3); [rewrite Ho1; congruence|]. exists m'. splits; auto.
           ++ destruct K2 as [K2|K2]; [left; auto|right; eapply tended_wider; [| |exact K2]; lia].
           ++ intros Had. eapply tended_wider; [| |exact (K3 Had)]; lia.
Qed.

Lemma upkeep_fits D c k (f : str -> req N) : (forall ns, upkeep c k ns = Some (f ns)) ->
  forall ns, req_ns (f ns) = Some ns /\ on_manager (f ns) /\ req_counts (f ns) /\ req_dims D (f ns) /\ ~ is_steal (f ns).
Proof.
  intros Hf ns. specialize (Hf ns). destruct k; cbn [upkeep] in Hf; inversion Hf as [Hq]; cbn; splits; auto.
Qed.

Theorem upkeep_tends D c k f (w : World) t : (forall ns, upkeep c k ns = Some (f ns)) ->
  WorldOk w -> DimsOk D w -> node_at w (el_local c) <> None ->
  exists w' t', exec (task_body E c k) w t = Ok ((tt, w'), t') /\ t <= t' /\ WorldOk w' /\ DimsOk D w' /\
    (forall b ns, b <> el_local c \/ manager w b ns = None -> manager w' b ns = manager w b ns) /\
    forall ns m, manager w (el_local c) ns = Some m -> exists m', manager w' (el_local c) ns = Some m' /\
      (m' = m \/ Tended E t t' (f ns) m m') /\ (all_delivered E -> Tended E t t' (f ns) m m').
Proof.
  intros Hf Hw HD Hne. set (a := el_local c) in *.
  assert (HN : exists o t1, Made E [(a, QNamespaces)] w t [o] w t1 /\ t <= t1 /\ (o = None /\ e_fate E t <> Delivered \/
    NoDup (listed o) /\ forall ns, In ns (listed o) <-> manager w a ns <> None)).
  { pose proof (names_spec E HE a w (S t) Hw) as Hs. unfold wp in Hs.
    destruct (exec (serve E a QNamespaces) w (S t)) as [[[x w1] t1]| |] eqn:Hx; [|destruct Hs|destruct Hs].
    pose proof (exec_later _ (later_serve E a QNamespaces) w (S t) _ _ Hx) as Ht. cbn [fst snd] in Hs. destruct Hs as (-> & l & -> & Hl1 & Hl2).
    destruct (e_fate E t) eqn:Hft.
    - exists (Some (ANames l)), t1. split; [eapply Made_answered; eauto; constructor|]. split; [lia|right; split; auto].
    - exists None, (S t). split; [eapply Made_lost; auto; constructor|]. split; [lia|left; split; [auto|discriminate]].
    - exists None, t1. split; [eapply Made_hidden; eauto; constructor|]. split; [lia|left; split; [auto|discriminate]]. }
  destruct HN as (o & t1 & HM & Ht1 & HN).
  assert (HL : NoDup (listed o) /\ (forall ns, In ns (listed o) -> manager w a ns <> None) /\
    (forall ns, manager w a ns <> None -> In ns (listed o) \/ e_fate E t <> Delivered)).
  { destruct HN as [(-> & Hd)|(H1 & H2)]; [split; [constructor|]; split; [intros ns []|auto]|].
    splits; auto; [intros ns H; apply H2; exact H|intros ns H; left; apply H2; exact H]. }
  destruct HL as (L1 & L2 & L3).
  destruct (tended_each D a f (upkeep_fits D c k f Hf) (listed o) w t1 L1 Hw HD L2) as (xs & w' & t' & HM2 & Ht & Hw' & HD' & Ho & Hall).
  exists w', t'. split; [apply (upkeep_made E c k f w t w' t' Hf); exists o, w, t1, xs; auto|]. splits; auto; [lia| |].
  - intros b ns Hb. apply Ho. intros (-> & Hi). destruct Hb as [Hb|Hb]; [auto|]. apply (L2 ns Hi). exact Hb.
  - intros ns m Hm. destruct (in_dec str_dec ns (listed o)) as [Hi|Hi].
    + destruct (Hall ns m Hi Hm) as (m' & K1 & K2 & K3). exists m'. splits; auto.
      * destruct K2 as [K2|K2]; [left; auto|right; eapply tended_wider; [| |exact K2]; lia].
      * intros Had. eapply tended_wider; [| |exact (K3 Had)]; lia.
    + exists m. split; [rewrite Ho; [exact Hm|intros (_ & K); auto]|]. split; [left; auto|]. intros Had. exfalso.
      destruct (L3 ns) as [K|K]; [congruence|auto|]. apply K. apply Had.
Qed.

(* ---- expiry and trimming ---- *)
Lemma live_concat ls : forall t, concat (live_lists E t ls) = live_from E t (concat ls).
Proof.
  induction ls as [|l ls IH]; intros t; cbn [live_lists concat]; auto. rewrite IH. clear IH. revert t.
  induction l as [|d l IHl]; intros t; cbn [live_from app length].
  - rewrite Nat.add_0_r. reflexivity.
  - replace (t + S (length l)) with (S t + length l) by lia. destruct (expired_at (e_now E t) d); cbn [app]; rewrite IHl; reflexivity.
Qed.
Lemma concat_holding {A} (ls : list (list A)) : concat (filter (fun l => match l with [] => false | _ :: _ => true end) ls) = concat ls.
Proof. induction ls as [|[|x l] ls IH]; cbn [filter concat]; auto. cbn [app]. rewrite IH. reflexivity. Qed.

Theorem expire_clears D c (w : World) t : all_delivered E -> WorldOk w -> DimsOk D w -> node_at w (el_local c) <> None ->
  exists w' t', exec (task_body E c TExpire) w t = Ok ((tt, w'), t') /\
    (forall b ns, b <> el_local c -> manager w' b ns = manager w b ns) /\
    forall ns, exists t1, t <= t1 /\ data_at w' (el_local c) ns = live_from E t1 (data_at w (el_local c) ns).
Proof.
  intros Had Hw HD Hne. destruct (upkeep_tends D c TExpire (fun ns => QExpire ns) w t (fun _ => eq_refl) Hw HD Hne)
    as (w' & t' & Hx & Ht & _ & _ & Ho & Hall). exists w', t'. splits; auto. intros ns. unfold data_at, centroids_at.
  destruct (manager w (el_local c) ns) as [m|] eqn:Hm.
  - destruct (Hall ns m Hm) as (m' & -> & _ & HT). destruct (HT Had) as (x & t1 & t2 & K1 & K2 & _ & K3). exists t1. split; [lia|].
    unfold stored. rewrite K3. apply live_concat.
  - rewrite Ho by auto. rewrite Hm. exists t. split; auto.
Qed.

Theorem trim_clears D c (w : World) t : all_delivered E -> WorldOk w -> DimsOk D w -> node_at w (el_local c) <> None ->
  exists w' t', exec (task_body E c TMemTrim) w t = Ok ((tt, w'), t') /\
    (forall b ns, b <> el_local c -> manager w' b ns = manager w b ns) /\
    forall ns, (forall cen, In cen (centroids_at w' (el_local c) ns) -> c_dps cen <> []) /\
      exists t1, t <= t1 /\ data_at w' (el_local c) ns = live_from E t1 (data_at w (el_local c) ns).
Proof.
  intros Had Hw HD Hne. destruct (upkeep_tends D c TMemTrim (fun ns => QMemTrim ns) w t (fun _ => eq_refl) Hw HD Hne)
    as (w' & t' & Hx & Ht & _ & _ & Ho & Hall). exists w', t'. splits; auto. intros ns. unfold data_at, centroids_at.
  destruct (manager w (el_local c) ns) as [m|] eqn:Hm.
  - destruct (Hall ns m Hm) as (m' & -> & _ & HT). destruct (HT Had) as (x & t1 & t2 & K1 & K2 & _ & K3). split.
    + intros cen Hc He. assert (Hi : In (c_dps cen) (map c_dps (cm_cs m'))) by (apply in_map; exact Hc).
      rewrite K3 in Hi. apply filter_In in Hi. destruct Hi as (_ & Hi). rewrite He in Hi. discriminate Hi.
    + exists t1. split; [lia|]. unfold stored. rewrite K3. rewrite <- live_concat. apply concat_holding.
  - rewrite Ho by auto. rewrite Hm. split; [intros cen []|]. exists t. split; auto.
Qed.

Theorem merge_clears D c (w : World) t : all_delivered E -> finds_all E -> WorldOk w -> DimsOk D w -> node_at w (el_local c) <> None ->
  exists w' t', exec (task_body E c TMerge) w t = Ok ((tt, w'), t') /\
    (forall b ns, b <> el_local c -> manager w' b ns = manager w b ns) /\
    forall ns, length (centroids_at w' (el_local c) ns) <= 1 \/
      forall cen, In cen (centroids_at w' (el_local c) ns) ->
        (Z.of_nat (length (c_dps cen)) <= el_merge_min c)%Z \/ (el_merge_max c <= Z.of_nat (length (c_dps cen)))%Z.
Proof.
  intros Had Hfa Hw HD Hne.
  destruct (upkeep_tends D c TMerge (fun ns => QMerge ns (el_merge_min c) (el_merge_max c)) w t (fun _ => eq_refl) Hw HD Hne)
    as (w' & t' & Hx & Ht & _ & _ & Ho & Hall). exists w', t'. splits; auto. intros ns. unfold centroids_at.
  destruct (manager w (el_local c) ns) as [m|] eqn:Hm.
  - destruct (Hall ns m Hm) as (m' & -> & _ & HT). destruct (HT Had) as (x & t1 & t2 & K1 & K2 & _ & _ & _ & cs1 & del & _ & _ & _ & K3).
    destruct (K3 Hfa) as [K|K]; [left; exact K|right]. intros cen Hc. rewrite Forall_forall in K. specialize (K cen Hc).
    unfold between in K. apply andb_false_iff in K. destruct K as [K|K]; apply Z.ltb_ge in K; auto.
  - rewrite Ho by auto. rewrite Hm. left. cbn. lia.
Qed.
End Upkeep.
