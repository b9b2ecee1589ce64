(* Pools of requests, in any interleaving. *)
From Verif Require Import Base Num MathUtils Knn Env Centroid CManager DataSpec MgrSpec Wp DataFacts NumFacts
  Proc Owns Server ServerSpec ServerFacts Slots ServerProofs.

Section Cluster.
Context {N : Num} (E : Env N) (HE : EnvOk E) (HO : NumOrd N).
Notation DP := (DataPoint N).
Notation World := (World N).
Notation ext := (ServerFacts.ext (N := N) True).

Lemma pool_run (D : str -> nat -> Prop) (Known Mine : str -> str -> Prop) (NoDrop Tidy Fuel : Prop)
  (HD : NoDrop -> (forall ns n n', D ns n -> D ns n' -> n = n') /\ (forall ns n, D ns n -> finds_some E n))
  reqs sched (w : World) t :
  winv (SlotOk D) Known Mine Tidy w ->
  Forall (fun aq => is_node w (fst aq) /\ req_counts (snd aq) /\ req_dims D (snd aq) /\ (NoDrop -> req_addrs (snd aq)) /\
            (is_steal (snd aq) -> Fuel) /\
            forall b n, In (b, n) (req_places (fst aq) (snd aq)) -> Mine b n) reqs ->
  match interleave idle sched (map (request E) reqs) w t with
  | Ok ((th, w'), t') => exists hs, winv (SlotOk D) Known Mine Tidy w' /\ ext w w' /\
      G E Known Mine NoDrop t t' w (brought reqs) w' (concat hs) /\
      Forall2 (fun p h => forall q x, p = Ret (q, x) -> answers_arrive E -> h = ans_tout q x) th hs /\
      (~ Fuel -> exists sched2 rs w2 t2, interleave idle sched2 th w' t' = Ok ((map (fun r => Ret r) rs, w2), t2))
  | Panic => False
  | OutOfFuel => Fuel
  end.
Proof.
  intros HI HR.
  set (Q := fun (r : req N * ans N) (h : list (str * DP)) (_ : World) => answers_arrive E -> h = ans_tout (fst r) (snd r)).
  pose proof (owns_interleave (L := lock) (winv (SlotOk D) Known Mine Tidy) ext (G E Known Mine NoDrop) ext_refl ext_trans
    (G_refl E Known Mine NoDrop) (G_trans E Known Mine NoDrop) (G_frame E Known Mine NoDrop)
    (G_perm E Known Mine NoDrop) (J E) Fuel Q idle) as H.
  pose proof (pool_completes (R := req N * ans N) (L := lock) (winv (SlotOk D) Known Mine Tidy) ext (G E Known Mine NoDrop) ext_refl ext_trans
    (J E) Fuel) as HC.
  specialize (H (fun _ _ _ _ _ x => x)).
  assert (HJ : forall h (w : World), J E h -> Q idle h w) by (intros h w0 Hj; exact Hj).
  specialize (H HJ sched (map (request E) reqs) (map (fun aq => req_tin (snd aq)) reqs) w t HI).
  assert (HP : pool_owns (L := lock) (winv (SlotOk D) Known Mine Tidy) ext (G E Known Mine NoDrop) (J E) Fuel Q
                 (map (request E) reqs) (map (fun aq => req_tin (snd aq)) reqs) w).
  { clear H. induction HR as [|[a q] reqs (H1 & H2 & H3 & H4 & H5 & H6) HR IH]; [constructor|]. cbn [map]. constructor; auto.
    cbn [fst snd] in *. assert (Hfit : req_fits D q) by (destruct q; exact I || exact H3).
    assert (Hst : forall b c ns l, q = QSteal b c ns l -> kind_steal (strict E HE D NoDrop HD) ns) by (intros b c ns l ->; exact H3).
    eapply raw_bind; [apply (owns_serve E HE HO D Known Mine NoDrop Tidy Fuel True (strict E HE D NoDrop HD)); auto|].
    intros x h w' _ ->. intros _. auto. }
  specialize (H HP). destruct (interleave idle sched (map (request E) reqs) w t) as [[[th w'] t']| |]; auto.
  destruct H as (hs & H1 & H2 & H3 & H4). exists hs. splits; auto.
  - clear - H4. induction H4 as [|p h th hs H H4 IH]; constructor; auto.
    intros q x -> Ha. exact (H Ha).
  - intros HF. eapply (HC HF Q); [exact (fun _ _ _ _ _ x => x)|exact H1|exact H4].
Qed.

(* ---- worlds in order ---- *)
Definition slots_are (SP : str -> CM N -> Prop) (w : World) : Prop :=
  forall a nd ns m, In (a, nd) (w_nodes w) -> In (ns, m) (nd_heap nd) -> SP ns m.
Lemma WorldOk_winv (SP : str -> CM N -> Prop) (Known Mine : str -> str -> Prop) (Tidy : Prop) (w : World) :
  WorldOk w -> slots_are SP w -> (forall a ns, Known a ns -> node_at w a <> None -> ptr w a ns <> None) ->
  (Tidy -> NoOrphans w /\ forall a ns, ptr w a ns <> None -> Known a ns) ->
  winv SP Known Mine Tidy w.
Proof.
  intros (H1 & H2) H3 H4 H5. split; auto. intros a nd Ha. pose proof (assoc_in _ _ _ Ha) as Hi.
  destruct (H2 _ _ Hi) as (K1 & K2). unfold NInv. splits; auto.
  - intros ns p Hp. apply K2, assoc_in; auto.
  - intros p ns m Hp. eapply H3; [exact Hi|]. eapply nth_error_In; eauto.
  - intros ns Hk. specialize (H4 a ns Hk). rewrite Ha in H4. unfold ptr in H4. rewrite Ha in H4. apply H4; discriminate.
  - intros Ht p ns m Hp. destruct (H5 Ht) as (HN & HK). pose proof (HN a nd p ns m Hi Hp) as Hq. split; auto.
    left. apply HK. unfold ptr. rewrite Ha, Hq. discriminate.
Qed.
Lemma winv_WorldOk (SP : str -> CM N -> Prop) (Known Mine : str -> str -> Prop) (Tidy : Prop) (w : World) :
  winv SP Known Mine Tidy w -> WorldOk w /\ slots_are SP w.
Proof.
  intros (H1 & H2). splits.
  - split; auto. intros a nd Ha. destruct (H2 a nd (in_assoc _ _ _ H1 Ha)) as (K1 & K2 & _). split; auto.
    intros ns p Hp. apply K2, in_assoc; auto.
  - intros a nd ns m Ha Hm. destruct (H2 a nd (in_assoc _ _ _ H1 Ha)) as (K1 & K2 & K3 & _).
    apply In_nth_error in Hm. destruct Hm as (p & Hp). eauto.
Qed.

Lemma node_visible_all (nd : Node N) : NodeOk nd ->
  (forall p ns m, nth_error (nd_heap nd) p = Some (ns, m) -> assoc ns (nd_tbl nd) = Some p) -> Permutation (node_visible nd) (node_data nd).
Proof.
  intros (K1 & K2) H3.
  unfold node_visible, node_data.
  (* the table lists every slot once *)
  assert (HP : Permutation (map snd (nd_tbl nd)) (seq 0 (length (nd_heap nd)))).
  { apply NoDup_Permutation.
    - assert (Hinj : forall ns ns' p, In (ns, p) (nd_tbl nd) -> In (ns', p) (nd_tbl nd) -> ns = ns').
      { intros ns ns' p Hp Hp'. destruct (K2 _ _ Hp) as (m & Hm). destruct (K2 _ _ Hp') as (m' & Hm'). congruence. }
      clear - K1 Hinj. induction (nd_tbl nd) as [|[ns p] tb IH]; cbn [map snd]; [constructor|].
      cbn [map fst] in K1. inversion K1 as [|? ? Hn K1']; subst. constructor.
      + intros Hi. apply in_map_iff in Hi. destruct Hi as ([ns' p'] & Hp & Hi). cbn [snd] in Hp. subst p'.
        apply Hn. rewrite (Hinj ns ns' p); [apply in_map_iff; exists (ns', p); auto|left; auto|right; auto].
      + apply IH; auto. intros ns1 ns2 p1 Hi1 Hi2. eapply Hinj; right; eauto.
    - apply seq_NoDup.
    - intros p. rewrite in_map_iff, in_seq. split.
      + intros ([ns p'] & Hp & Hi). cbn [snd] in Hp. subst p'. destruct (K2 _ _ Hi) as (m & Hm).
        split; [lia|]. apply nth_error_Some. congruence.
      + intros (_ & Hp). cbn [plus] in Hp. destruct (nth_error (nd_heap nd) p) as [[ns m]|] eqn:Hm.
        * exists (ns, p). split; auto. apply assoc_in. eapply H3; exact Hm.
        * apply nth_error_None in Hm. lia. }
  assert (HA : map (fun e : str * nat => match nth_error (nd_heap nd) (snd e) with
                      | Some (_, m) => tag (fst e) (stored (cm_cs m)) | None => [] end) (nd_tbl nd) =
               map (fun p => match nth_error (nd_heap nd) p with
                      | Some (ns, m) => tag ns (stored (cm_cs m)) | None => [] end) (map snd (nd_tbl nd))).
  { rewrite map_map. apply map_ext_in. intros [ns p] Hi. cbn [fst snd]. destruct (K2 _ _ Hi) as (m & ->). auto. }
  rewrite HA. rewrite <- !flat_map_concat_map.
  assert (HB : flat_map (fun s : str * CM N => tag (fst s) (stored (cm_cs (snd s)))) (nd_heap nd) =
               flat_map (fun p => match nth_error (nd_heap nd) p with
                      | Some (ns, m) => tag ns (stored (cm_cs m)) | None => [] end) (seq 0 (length (nd_heap nd)))).
  { clear. rewrite !flat_map_concat_map. f_equal. generalize (nd_heap nd). intros l.
    induction l as [|[ns m] l IH]; auto. cbn [length seq map nth_error fst snd]. rewrite IH, <- seq_shift, map_map. auto. }
  rewrite HB. apply Permutation_flat_map. exact HP.
Qed.
Lemma visible_all (w : World) : WorldOk w -> NoOrphans w -> Permutation (visible w) (all_data w).
Proof.
  intros (H1 & H2) H3. unfold visible, all_data.
  assert (H : forall l, incl l (w_nodes w) -> Permutation (concat (map (fun e => node_visible (snd e)) l))
                                               (concat (map (fun e => node_data (snd e)) l))).
  { induction l as [|[a nd] l IH]; intros Hl; cbn [map concat snd]; auto.
    apply Permutation_app; [|apply IH; intros x Hx; apply Hl; right; auto].
    assert (Ha : In (a, nd) (w_nodes w)) by (apply Hl; left; auto).
    apply node_visible_all; [apply (H2 _ _ Ha)|]. intros p ns m Hp. eapply H3; eauto. }
  apply H. apply incl_refl.
Qed.

Definition has (w : World) (a ns : str) : Prop := ptr w a ns <> None.

(* Any pool of requests, at any moment and at the end. *)
Lemma pool_safe D (w : World) reqs sched t : WorldOk w -> DimsOk D w -> Requests D w reqs ->
  match interleave idle sched (map (request E) reqs) w t with
  | Ok ((_, w'), _) => WorldOk w' /\ DimsOk D w'
  | Panic => False
  | OutOfFuel => Exists (fun aq => is_steal (snd aq)) reqs
  end.
Proof.
  intros H1 H2 H3.
  pose proof (pool_run D (fun _ _ => False) (fun _ _ => True) False False (Exists (fun aq => is_steal (snd aq)) reqs)
    (fun x => match x with end) reqs sched w t) as H.
  assert (HI : winv (SlotOk D) (fun _ _ => False) (fun _ _ => True) False w) by (apply WorldOk_winv; tauto).
  specialize (H HI). assert (HR : Forall (fun aq => is_node w (fst aq) /\ req_counts (snd aq) /\ req_dims D (snd aq) /\
    (False -> req_addrs (snd aq)) /\ (is_steal (snd aq) -> Exists (fun aq => is_steal (snd aq)) reqs) /\
    forall b n, In (b, n) (req_places (fst aq) (snd aq)) -> True) reqs).
  { apply Forall_forall. intros aq Hin. pose proof (proj1 (Forall_forall _ _) H3 aq Hin) as (K1 & K2 & K3).
    splits; auto; try tauto. intros Hs. apply Exists_exists. eauto. }
  specialize (H HR). destruct (interleave idle sched (map (request E) reqs) w t) as [[[th w'] t']| |]; auto.
  destruct H as (hs & H & _). eapply winv_WorldOk; eauto.
Qed.

(* From any reachable moment some schedule finishes everything. *)
Lemma pool_finishes D (w : World) reqs sched t : WorldOk w -> DimsOk D w -> Requests D w reqs ->
  Forall (fun aq => ~ is_steal (snd aq)) reqs ->
  match interleave idle sched (map (request E) reqs) w t with
  | Ok ((th, w'), t') => exists sched2 rs w2 t2, interleave idle sched2 th w' t' = Ok ((map (fun r => Ret r) rs, w2), t2)
  | _ => False
  end.
Proof.
  intros H1 H2 H3 H4.
  pose proof (pool_run D (fun _ _ => False) (fun _ _ => True) False False False
    (fun x => match x with end) reqs sched w t) as H.
  assert (HI : winv (SlotOk D) (fun _ _ => False) (fun _ _ => True) False w) by (apply WorldOk_winv; tauto).
  specialize (H HI). assert (HR : Forall (fun aq => is_node w (fst aq) /\ req_counts (snd aq) /\ req_dims D (snd aq) /\
    (False -> req_addrs (snd aq)) /\ (is_steal (snd aq) -> False) /\
    forall b n, In (b, n) (req_places (fst aq) (snd aq)) -> True) reqs).
  { apply Forall_forall. intros aq Hin. pose proof (proj1 (Forall_forall _ _) H3 aq Hin) as (K1 & K2 & K3).
    rewrite Forall_forall in H4. splits; auto; try tauto. apply H4; auto. }
  specialize (H HR). destruct (interleave idle sched (map (request E) reqs) w t) as [[[th w'] t']| |]; auto.
  destruct H as (hs & _ & _ & _ & _ & H). apply H; auto.
Qed.

Lemma pool_isolated D (w : World) reqs sched t th w' t' a ns : WorldOk w -> DimsOk D w -> Requests D w reqs ->
  Forall (fun aq => ~ In (a, ns) (req_places (fst aq) (snd aq))) reqs ->
  interleave idle sched (map (request E) reqs) w t = Ok ((th, w'), t') ->
  manager w' a ns = manager w a ns.
Proof.
  intros H1 H2 H3 H4 Hr.
  pose (Mine := fun b n => exists aq, In aq reqs /\ In (b, n) (req_places (fst aq) (snd aq))).
  pose proof (pool_run D (fun _ _ => False) Mine False False True (fun x => match x with end) reqs sched w t) as H.
  assert (HI : winv (SlotOk D) (fun _ _ => False) Mine False w) by (apply WorldOk_winv; tauto).
  specialize (H HI). assert (HR : Forall (fun aq => is_node w (fst aq) /\ req_counts (snd aq) /\ req_dims D (snd aq) /\
    (False -> req_addrs (snd aq)) /\ (is_steal (snd aq) -> True) /\ forall b n, In (b, n) (req_places (fst aq) (snd aq)) -> Mine b n) reqs).
  { apply Forall_forall. intros aq Hin. pose proof (proj1 (Forall_forall _ _) H3 aq Hin) as (K1 & K2 & K3).
    splits; auto; try tauto. intros b n Hb. exists aq. auto. }
  specialize (H HR). rewrite Hr in H. destruct H as (hs & _ & _ & (_ & HG & _) & _). apply HG.
  intros (aq & Hin & Hb). rewrite Forall_forall in H4. eapply H4; eauto.
Qed.

Lemma finished_hands rs hs : answers_arrive E ->
  Forall2 (fun (p : proc' N (req N * ans N)) h => forall q x, p = Ret (q, x) -> answers_arrive E -> h = ans_tout q x)
    (map (fun r => Ret r) rs) hs -> concat hs = answered rs.
Proof.
  intros Ha. revert hs. induction rs as [|[q x] rs IH]; intros hs H; inversion H as [|? h ? hs' Hh H']; subst; auto.
  unfold answered. cbn [concat map fst snd]. rewrite (Hh q x eq_refl Ha). f_equal. apply IH; auto.
Qed.

Lemma pool_conserves D (w : World) reqs sched t rs w' t' : WorldOk w -> DimsOk D w -> Requests D w reqs ->
  answers_arrive E ->
  interleave idle sched (map (request E) reqs) w t = Ok ((map (fun r => Ret r) rs, w'), t') ->
  exists dropped, w_dropped w' = w_dropped w ++ dropped /\
    keeps E t t' (all_data w ++ brought reqs) (all_data w' ++ answered rs ++ dropped) /\
    (nothing_refused E D reqs -> Forall (fun e => seen_expired E t t' (snd e)) dropped).
Proof.
  intros H1 H2 H3 Ha Hr.
  pose proof (pool_run D (fun _ _ => False) (fun _ _ => True) (nothing_refused E D reqs) False True
    (fun x => conj (proj1 x) (proj1 (proj2 x))) reqs sched w t) as H.
  assert (HI : winv (SlotOk D) (fun _ _ => False) (fun _ _ => True) False w) by (apply WorldOk_winv; tauto).
  specialize (H HI). assert (HR : Forall (fun aq => is_node w (fst aq) /\ req_counts (snd aq) /\ req_dims D (snd aq) /\
    (nothing_refused E D reqs -> req_addrs (snd aq)) /\ (is_steal (snd aq) -> True) /\ forall b n, In (b, n) (req_places (fst aq) (snd aq)) -> True) reqs).
  { apply Forall_forall. intros aq Hin. pose proof (proj1 (Forall_forall _ _) H3 aq Hin) as (K1 & K2 & K3).
    splits; auto. intros (_ & _ & Hx). rewrite Forall_forall in Hx. auto. }
  specialize (H HR). rewrite Hr in H. destruct H as (hs & _ & _ & (_ & _ & _ & x & HG & Hn & Hk) & HF & _).
  exists x. rewrite <- (finished_hands rs hs Ha HF). splits; auto.
Qed.

(* When every place that is worked on exists from the start, nothing is lost from sight. *)
Lemma pool_visible D (w : World) reqs sched t rs w' t' : WorldOk w -> NoOrphans w -> DimsOk D w -> Requests D w reqs ->
  Forall (fun aq => forall b n, In (b, n) (req_places (fst aq) (snd aq)) -> node_at w b <> None -> manager w b n <> None) reqs ->
  answers_arrive E ->
  interleave idle sched (map (request E) reqs) w t = Ok ((map (fun r => Ret r) rs, w'), t') ->
  exists dropped, w_dropped w' = w_dropped w ++ dropped /\
    keeps E t t' (visible w ++ brought reqs) (visible w' ++ answered rs ++ dropped) /\
    (nothing_refused E D reqs -> Forall (fun e => seen_expired E t t' (snd e)) dropped).
Proof.
  intros H1 H0 H2 H3 H4 Ha Hr.
  pose (Mine := fun b n => exists aq, In aq reqs /\ In (b, n) (req_places (fst aq) (snd aq))).
  pose proof (pool_run D (fun a ns => ptr w a ns <> None) Mine (nothing_refused E D reqs) True True
    (fun x => conj (proj1 x) (proj1 (proj2 x))) reqs sched w t) as H.
  assert (HI : winv (SlotOk D) (fun a ns => ptr w a ns <> None) Mine True w) by (apply WorldOk_winv; auto).
  specialize (H HI). assert (HR : Forall (fun aq => is_node w (fst aq) /\ req_counts (snd aq) /\ req_dims D (snd aq) /\
    (nothing_refused E D reqs -> req_addrs (snd aq)) /\ (is_steal (snd aq) -> True) /\ forall b n, In (b, n) (req_places (fst aq) (snd aq)) -> Mine b n) reqs).
  { apply Forall_forall. intros aq Hin. pose proof (proj1 (Forall_forall _ _) H3 aq Hin) as (K1 & K2 & K3).
    splits; auto.
    - intros (_ & _ & Hx). rewrite Forall_forall in Hx. auto.
    - intros b n Hb. exists aq. auto. }
  specialize (H HR). rewrite Hr in H. destruct H as (hs & HI' & HX & (_ & _ & _ & x & HG & Hn & Hk) & HF & _).
  destruct (winv_WorldOk _ _ _ _ _ HI') as (W1 & W2).
  assert (HNO : NoOrphans w').
  { intros a nd p ns m Hin Hp. destruct HI' as (I1 & I2). pose proof (in_assoc _ _ _ I1 Hin) as Ha'.
    destruct (I2 _ _ Ha') as (_ & _ & _ & _ & I5). destruct (I5 I _ _ _ Hp) as (K1 & K2). apply K1.
    destruct K2 as [K2|(aq & Hq & Hb)]; auto. rewrite Forall_forall in H4.
    assert (Hm : manager w a ns <> None).
    { apply (H4 aq Hq a ns Hb). intros Hn'. destruct HX as (HX1 & _).
      apply assoc_none in Hn'. apply Hn'. rewrite <- HX1. apply in_map_iff. exists (a, nd). auto. }
    unfold manager in Hm. unfold ptr. destruct (node_at w a) as [nd0|]; [|contradiction]. destruct (assoc ns (nd_tbl nd0)); congruence. }
  exists x. rewrite <- (finished_hands rs hs Ha HF). splits; auto.
  eapply keeps_proper; [| |apply (Hk Ha)].
  - rewrite (visible_all w); auto.
  - rewrite (visible_all w'); auto.
Qed.

End Cluster.
