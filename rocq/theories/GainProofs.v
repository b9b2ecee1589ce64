(* When one run of the load balancing task brings something to the local node, and when it cannot. *)
From Verif Require Import Base Num MathUtils Knn Env Centroid CManager DataSpec MgrSpec Wp DataFacts NumFacts
  Proc Owns Server ServerSpec ServerFacts SeqProofs SeqProofs2 SeqProofs3 StealProofs Alone Uniform SystemProofs EventLoop CoreSpec LoopSpec LoopProofs2 TaskSpec TaskProofs
  Props03Lemmas UpkeepProofs SettleSpec SettleSteal SettleProofs GainSteal.
From Coq Require Import Permutation.

Section Gain.
Context {N : Num} (E : Env N) (HE : EnvOk E) (HO : NumOrd N) (Had : all_delivered E) (dim : str -> nat).
Notation World := (World N).
Notation calm := (calm E dim).

Notation offers := (offers E).

Lemma pull_gains c only mean margin ns : (0 <= margin)%Z -> 0 < dim ns -> forall todo here l, Pulled c only mean margin todo here l ->
  forall (w : World) t ys w' t', NoDup (map fst todo) -> calm w -> node_at w (el_local c) <> None ->
  (forall b z, In (b, z) todo -> b <> el_local c -> z = size_at w b ns /\ length (centroids_at w b ns) < el_fuel c) ->
  here = size_at w (el_local c) ns ->
  Made E (map (fun e => (el_local c, QSteal (el_fuel c) (asked_of e) ns (snd (fst e)))) l) w t ys w' t' -> map snd l = map came ys ->
  (forall b, In b (map fst todo) -> b <> el_local c -> manager w b ns <> None) ->
  (forall b z, In (b, z) todo -> ~ passed c only mean margin here b z -> offers w (el_local c) b ns) ->
  (exists b z, In (b, z) todo /\ ~ passed c only mean margin here b z) -> (here < size_at w' (el_local c) ns)%Z.
Proof.
  intros Hmar Hdim todo here l HP. induction HP as [here|other size r here l Hpass HP IH|other size r here n l Hpass HP IH];
    intros w t ys w' t' Hnd Hc Hna Hz Hh HM Hy Hhas Hoff (b0 & z0 & Hb0 & Hp0).
  - destruct Hb0.
  - cbn [map fst] in Hnd. apply NoDup_cons_iff in Hnd. destruct Hnd as (Hnot & Hnd).
    apply (IH w t ys w' t' Hnd Hc); auto.
    + intros b z Hb. apply Hz. right. exact Hb.
    + intros b Hb. apply Hhas. right. exact Hb.
    + intros b z Hb. apply Hoff. right. exact Hb.
    + exists b0, z0. split; auto. destruct Hb0 as [He|Hb0]; auto. injection He as -> ->. contradiction.
  - pose proof Hnd as Hnd0. cbn [map fst] in Hnd. apply NoDup_cons_iff in Hnd. destruct Hnd as (Hnot & Hnd).
    assert (Hne : other <> el_local c) by (intros He; apply Hpass; left; exact He).
    assert (Hle : (here <= mean - margin)%Z) by (apply Z.nlt_ge; intros He; apply Hpass; right; left; exact He).
    assert (Hw0 : want_of c mean here <> 0%Z) by (intros He; apply Hpass; right; right; left; exact He).
    destruct (want_pos c mean here margin Hmar Hle Hw0) as (Hpos & Hthird).
    destruct (Hz other size (or_introl eq_refl) Hne) as (Hsz & Hfu).
    destruct (manager w other ns) as [mr|] eqn:Hmr; [|exfalso; apply (Hhas other (or_introl eq_refl) Hne Hmr)].
    destruct (Hoff other size (or_introl eq_refl) Hpass mr Hmr) as (Ho1 & Ho2).
    cbn [map] in HM. apply made_inv in HM. destruct HM as (o & ys' & w1 & t1 & -> & HM1 & HM2). cbn [map snd] in Hy.
    injection Hy as Hn Hy. unfold asked_of in HM1. cbn [fst snd] in HM1.
    assert (Hstep : calm w1 /\ (forall b ns2, (b, ns2) <> (el_local c, ns) -> (b, ns2) <> (other, ns) -> manager w1 b ns2 = manager w b ns2) /\
      size_at w1 (el_local c) ns = (here + Z.of_nat n)%Z /\ 0 < n).
    { inversion HM1 as [|? ? ? ? ? ? ? ? Hlost HM'|? ? ? ? ? ? ? ? ? ? ? Hna' Hft Hx HM'|? ? ? ? ? ? ? ? ? ? ? Hna' Hft Hx HM']; subst.
      - destruct Hlost as [Hlost|Hlost]; [contradiction|]. rewrite (Had t) in Hlost. discriminate Hlost.
      - rewrite (Had t) in Hft. discriminate Hft.
      - apply made_nil in HM'. destruct HM' as (_ & -> & ->).
        assert (Hg : 0 < came (Some x)).
        { apply (steal_gains E HE (dim ns) (el_fuel c) (el_local c) other ns (want_of c mean (size_at w (el_local c) ns)) w (S t) mr x w2 t2); auto.
          - apply Hc.
          - intros b m _ Hm. destruct (inv_slot _ w b ns m (conj (proj1 Hc) (proj1 (proj2 Hc))) Hm) as (k & -> & Hd). exact Hd.
          - apply Hc. }
        destruct (steal_step E HE HO Had dim _ _ _ _ _ _ _ _ _ _ Hc (not_eq_sym Hne) Hna Hpos Hfu Hx) as (total & ok & -> & J1 & J2 & J3 & J4 & J5).
        cbn [came] in *. splits; auto; try lia. }
    clear HM1. destruct Hstep as (J1 & J2 & J3 & J5).
    destruct (pull_run E HE HO Had dim c only mean margin ns Hmar r _ l HP w1 t1 ys' w' t' Hnd J1) as (_ & _ & _ & K4 & _); auto.
    { intros b z Hb Hbl. destruct (Hz b z (or_intror Hb) Hbl) as (Z1 & Z2).
      assert (He : manager w1 b ns = manager w b ns).
      { apply J2; [congruence|]. intros He. injection He as ->. apply (in_map fst) in Hb. exact (Hnot Hb). }
      rewrite (size_eq w w1 b ns He). split; auto. unfold centroids_at in *. rewrite He. exact Z2. }
    lia.
Qed.

Lemma steals_nodes (c : el_cfg) ns : forall (l : list asked) (w : World) t ys w' t', WorldOk w -> DimsOk (fun ns n => n = dim ns) w ->
  Made E (map (fun e => (el_local c, QSteal (el_fuel c) (asked_of e) ns (snd (fst e)))) l) w t ys w' t' ->
  forall b, node_at w b <> None -> node_at w' b <> None.
Proof.
  induction l as [|e l IH]; intros w t ys w' t' Hw HD HM b Hb; cbn [map] in HM.
  - apply made_nil in HM. destruct HM as (_ & -> & _). exact Hb.
  - apply made_inv in HM. destruct HM as (o & ys' & w1 & t1 & -> & HM1 & HM2).
    assert (Hstep : WorldOk w1 /\ DimsOk (fun ns n => n = dim ns) w1 /\ node_at w1 b <> None).
    { inversion HM1 as [|? ? ? ? ? ? ? ? Hlost HM'|? ? ? ? ? ? ? ? ? ? ? Hna' Hft Hx HM'|? ? ? ? ? ? ? ? ? ? ? Hna' Hft Hx HM']; subst.
      - apply made_nil in HM'. destruct HM' as (_ & -> & _). auto.
      - rewrite (Had t) in Hft. discriminate Hft.
      - apply made_nil in HM'. destruct HM' as (_ & -> & ->).
        pose proof (job_alone E HE HO (fun ns n => n = dim ns) w (JReq (el_local c) (QSteal (el_fuel c) (asked_of e) ns (snd (fst e)))) (S t) Hw HD) as Hj.
        cbn [run_job] in Hj. rewrite exec_bind in Hj. rewrite Hx in Hj. cbn [exec] in Hj. unfold ret in Hj.
        destruct Hj as (_ & J1 & J2 & (J3 & _) & _).
        + cbn [job_ok req_counts req_dims]. splits; auto. intros; congruence.
        + splits; auto. specialize (J3 b). destruct (node_at w b); [|contradiction]. destruct (node_at w2 b); [discriminate|discriminate J3]. }
    destruct Hstep as (S1 & S2 & S3). eapply IH; [| |exact HM2|]; auto.
Qed.

(* ---- one namespace among those of the task ---- *)
(* The stealing for the other namespaces leaves this one alone. *)
Lemma balanced_one c who (w0 : World) ns0 (P : World -> Prop) : NoDup (el_remote c) -> In (el_local c) (el_remote c) ->
  (forall ns, who ns = having w0 (el_remote c) ns) -> (forall b ns, length (centroids_at w0 b ns) < el_fuel c) ->
  (forall w w' : World, (forall b, manager w' b ns0 = manager w b ns0) -> P w -> P w') ->
  (forall w t order todo l ys w' t', calm w -> (forall b, node_at w0 b <> None -> node_at w b <> None) ->
     (forall b, manager w b ns0 = manager w0 b ns0) -> Permutation order (having w0 (el_remote c) ns0) ->
     (forall b z, In (b, z) todo <-> In b order /\ z = size_at w0 b ns0) -> NoDup (map fst todo) ->
     let mean := mean_size w0 (el_remote c) ns0 in
     Pulled c (length order =? 1) mean (margin_of mean) todo (size_at w0 (el_local c) ns0) l ->
     Made E (map (fun e => (el_local c, QSteal (el_fuel c) (asked_of e) ns0 (snd (fst e)))) l) w t ys w' t' -> map snd l = map came ys -> P w') ->
  forall nss w t w' t', Balanced E c who nss w t w' t' -> NoDup nss -> calm w -> (forall b, node_at w0 b <> None -> node_at w b <> None) ->
  (forall ns, In ns nss -> forall b, manager w b ns = manager w0 b ns) ->
  (In ns0 nss -> P w') /\ (~ In ns0 nss -> forall b, manager w' b ns0 = manager w b ns0).
Proof.
  intros Hnd Hloc Hwho Hfuel HPs Hown nss w t w' t' HB.
  induction HB as [w t|ns r w t order xs w1 t1 mean todo l ys w2 t2 w' t' Hord HM1 Hmean Htodo HP HM2 Hl HB IH]; intros Hns Hc Hnode Hsame.
  - split; [intros []|auto].
  - apply NoDup_cons_iff in Hns. destruct Hns as (Hnot & Hns).
    assert (Hcur : forall b, manager w b ns = manager w0 b ns) by (apply Hsame; left; auto).
    destruct (len_made E Had ns w (proj1 Hc) _ _ _ _ _ HM1) as (-> & Hxs). clear HM1. rewrite Hxs in *.
    assert (Hwh : who ns = having w (el_remote c) ns) by (rewrite Hwho; symmetry; apply having_eq; exact Hcur).
    assert (Hss : forall b, size_at w b ns = size_at w0 b ns) by (intros b; apply size_eq; auto).
    assert (Hmz : mean = mean_size w0 (el_remote c) ns).
    { subst mean. unfold mean_size, sum_of. rewrite <- Hwho, (Permutation_length Hord). f_equal.
      apply (Permutation_map (fun b => size_at w b ns)) in Hord. rewrite (map_ext _ _ Hss (who ns)) in Hord.
      clear -Hord. induction Hord; cbn [fold_right] in *; lia. }
    assert (Hcomb : combine order (map (fun b => size_at w b ns) order) = map (fun b => (b, size_at w b ns)) order).
    { clear. induction order as [|b order IHo]; cbn [map combine]; auto. rewrite IHo. reflexivity. }
    rewrite Hcomb in *.
    assert (Hndo : NoDup order) by (apply (Permutation_NoDup (Permutation_sym Hord)); rewrite Hwh; apply NoDup_filter; exact Hnd).
    assert (Hkp : Permutation (map fst todo) order).
    { apply (Permutation_map fst) in Htodo. rewrite map_map, map_id in Htodo. exact Htodo. }
    assert (Hndt : NoDup (map fst todo)) by (apply (Permutation_NoDup (Permutation_sym Hkp)); exact Hndo).
    assert (Hin : forall b z, In (b, z) todo <-> In b order /\ z = size_at w0 b ns).
    { intros b z. split.
      - intros Hb. apply (Permutation_in _ Htodo) in Hb. apply in_map_iff in Hb. destruct Hb as (b' & Hb & Hi). injection Hb as <- <-. auto.
      - intros (Hb & ->). apply (Permutation_in _ (Permutation_sym Htodo)). rewrite <- Hss. apply (in_map (fun b => (b, size_at w b ns))). exact Hb. }
    assert (Hhere : here_of todo (el_local c) = size_at w0 (el_local c) ns).
    { rewrite here_assoc. destruct (assoc (el_local c) todo) as [z|] eqn:Ha; [apply assoc_in in Ha; apply (proj1 (Hin _ _) Ha)|].
      destruct (manager w0 (el_local c) ns) as [m|] eqn:Hm; [|unfold size_at, data_at, centroids_at; rewrite Hm; reflexivity].
      exfalso. assert (Hi : In (el_local c) order).
      { apply (Permutation_in _ (Permutation_sym Hord)). rewrite Hwho. apply having_in. split; auto. congruence. }
      apply (assoc_none (el_local c) todo) in Ha; auto. apply Ha. apply (Permutation_in _ (Permutation_sym Hkp)). exact Hi. }
    rewrite Hhere in HP.
    assert (Hmar : (0 <= margin_of mean)%Z) by (apply margin_nonneg; rewrite Hmz; apply mean_nonneg).
    assert (Hz : forall b z, In (b, z) todo -> b <> el_local c -> z = size_at w b ns /\ length (centroids_at w b ns) < el_fuel c).
    { intros b z Hb _. rewrite Hss. split; [apply (proj1 (Hin b z) Hb)|]. unfold centroids_at. rewrite Hcur. apply Hfuel. }
    destruct (pull_run E HE HO Had dim c _ _ _ ns Hmar _ _ _ HP w _ _ _ _ Hndt Hc Hz (eq_sym (Hss _)) HM2 Hl) as (K1 & K2 & _).
    assert (Hnode2 : forall b, node_at w b <> None -> node_at w2 b <> None) by (apply (steals_nodes c ns l w _ _ _ _ (proj1 Hc) (proj1 (proj2 Hc)) HM2)).
    destruct IH as (I1 & I2); auto.
    { intros ns' Hi b. rewrite K2 by (intros ->; auto). apply Hsame. right. exact Hi. }
    split.
    + intros [->|Hi]; [|apply I1; exact Hi]. apply (HPs w2); [apply I2; exact Hnot|].
      rewrite Hmz in HP. apply (Hown w (S (S t1)) order todo l ys w2 t2 Hc Hnode Hcur); auto. rewrite <- Hwho. exact Hord.
    + intros Hi b. rewrite I2 by (intros Hi'; apply Hi; right; exact Hi'). apply K2. intros ->. apply Hi. left. reflexivity.
Qed.
Lemma balance_one c (w : World) ns (P : World -> Prop) t w' t' : NoDup (el_remote c) -> In (el_local c) (el_remote c) -> calm w ->
  (forall b ns, length (centroids_at w b ns) < el_fuel c) ->
  (forall w1 w2 : World, (forall b, manager w2 b ns = manager w1 b ns) -> P w1 -> P w2) ->
  (forall w1 t order todo l ys w2 t', calm w1 -> (forall b, node_at w b <> None -> node_at w1 b <> None) ->
     (forall b, manager w1 b ns = manager w b ns) -> Permutation order (having w (el_remote c) ns) ->
     (forall b z, In (b, z) todo <-> In b order /\ z = size_at w b ns) -> NoDup (map fst todo) ->
     let mean := mean_size w (el_remote c) ns in
     Pulled c (length order =? 1) mean (margin_of mean) todo (size_at w (el_local c) ns) l ->
     Made E (map (fun e => (el_local c, QSteal (el_fuel c) (asked_of e) ns (snd (fst e)))) l) w1 t ys w2 t' -> map snd l = map came ys -> P w2) ->
  exec (task_body E c TBalance) w t = Ok ((tt, w'), t') ->
  (having w (el_remote c) ns <> [] -> P w') /\ (having w (el_remote c) ns = [] -> forall b, manager w' b ns = manager w b ns).
Proof.
  intros Hnd Hloc Hc Hf HPs Hown Hx. destruct (balance_made E HE c w t w' t' (proj1 Hc) Hnd Hx) as (os & t1 & nss & H1 & H2 & H3 & H4).
  pose proof (names_made E HE Had w (proj1 Hc) _ _ _ _ _ H1) as Hwho.
  destruct (balanced_one c _ w ns P Hnd Hloc Hwho Hf HPs Hown nss w _ _ _ H4 H2 Hc) as (K1 & K2); auto.
  specialize (H3 ns). rewrite Hwho in H3. split.
  - intros Hh. apply K1. apply H3. exact Hh.
  - intros Hh. apply K2. intros Hi. apply H3 in Hi. contradiction.
Qed.

(* The local node gains if there is another one that it can pull from. *)
Theorem balance_gains c (w : World) t w' t' ns : NoDup (el_remote c) -> In (el_local c) (el_remote c) -> calm w ->
  (forall b ns, length (centroids_at w b ns) < el_fuel c) -> node_at w (el_local c) <> None -> 0 < dim ns ->
  exec (task_body E c TBalance) w t = Ok ((tt, w'), t') ->
  let mean := mean_size w (el_remote c) ns in let margin := margin_of mean in let here := size_at w (el_local c) ns in
  (here <= mean - margin)%Z -> (3 * Z.of_nat (length (el_remote c)) <= mean - here)%Z ->
  (forall b, In b (el_remote c) -> b <> el_local c -> offers w (el_local c) b ns) ->
  (exists b, In b (el_remote c) /\ b <> el_local c /\ manager w b ns <> None /\
     (having w (el_remote c) ns = [b] \/ (mean + margin + (mean - here) / (3 * Z.of_nat (length (el_remote c))) <= size_at w b ns)%Z)) ->
  (here < size_at w' (el_local c) ns)%Z.
Proof.
  intros Hnd Hloc Hc Hf Hna Hdim Hx mean margin here Hle Hwant Hoff (b & Hb1 & Hb2 & Hb3 & Hb4).
  assert (Hin : In b (having w (el_remote c) ns)) by (apply having_in; auto).
  destruct (balance_one c w ns (fun w2 => (here < size_at w2 (el_local c) ns)%Z) t w' t') as (K & _); auto.
  - intros w1 w2 He. rewrite (size_eq w1 w2); auto.
  - intros w1 t0 order todo l ys w2 t2 Hc1 Hn1 Hm1 Hord Htodo Hndt mean0 HP HM Hl.
    assert (Hss : forall b, size_at w1 b ns = size_at w b ns) by (intros b0; apply size_eq; auto).
    assert (Hor : forall b, In b order <-> In b (el_remote c) /\ manager w b ns <> None).
    { intros b0. rewrite <- having_in. split; apply Permutation_in; [exact Hord|apply Permutation_sym; exact Hord]. }
    apply (pull_gains c _ _ _ ns (margin_nonneg _ (mean_nonneg w (el_remote c) ns)) Hdim todo here l HP w1 t0 ys w2 t2 Hndt Hc1); auto.
    + intros b0 z Hb0 _. apply Htodo in Hb0. destruct Hb0 as (_ & ->). rewrite Hss. split; auto. unfold centroids_at. rewrite Hm1. apply Hf.
    + unfold here. rewrite Hss. reflexivity.
    + intros b0 Hb0 _. apply in_map_iff in Hb0. destruct Hb0 as ([b1 z] & <- & Hb0). apply Htodo in Hb0. rewrite Hm1. apply (proj1 (Hor b1)), Hb0.
    + intros b0 z Hb0 Hp. apply Htodo in Hb0. destruct Hb0 as (Hb0 & _). apply Hor in Hb0.
      assert (Hne : b0 <> el_local c) by (intros He; apply Hp; left; exact He).
      intros mr Hmr. rewrite Hm1 in *. apply (Hoff b0 (proj1 Hb0) Hne mr Hmr).
    + exists b, (size_at w b ns). split; [apply Htodo; split; auto; apply Hor; auto|].
      assert (Hw : (0 < want_of c mean here)%Z).
      { unfold want_of. apply Z.div_str_pos. split; [|exact Hwant]. assert (0 < length (el_remote c)) by (destruct (el_remote c); [destruct Hloc|cbn [length]; lia]). lia. }
      change (~ passed c (length order =? 1) mean margin here b (size_at w b ns)). clearbody margin mean here. intros [H|[H|[H|(H1 & H2)]]]; [contradiction|lia|lia|].
      destruct Hb4 as [Hb4|Hb4].
      * apply Nat.eqb_neq in H1. apply H1. rewrite (Permutation_length Hord), Hb4. reflexivity.
      * unfold want_of in H2. lia.
  - apply K. intros He. rewrite He in Hin. destruct Hin.
Qed.

(* A node without centroids whose vector the search cannot use gets nothing. *)
Theorem balance_blind c (w : World) t w' t' ns m : NoDup (el_remote c) -> In (el_local c) (el_remote c) -> calm w ->
  (forall b ns, length (centroids_at w b ns) < el_fuel c) -> manager w (el_local c) ns = Some m -> cm_cs m = [] ->
  (forall b mr, manager w b ns = Some mr -> blind E (cm_vec m) (cm_cs mr)) ->
  exec (task_body E c TBalance) w t = Ok ((tt, w'), t') -> forall b, manager w' b ns = manager w b ns.
Proof.
  intros Hnd Hloc Hc Hf Hm He Hbl Hx.
  destruct (balance_one c w ns (fun w2 => forall b, manager w2 b ns = manager w b ns) t w' t') as (K1 & K2); auto.
  - intros w1 w2 H1 H2 b. rewrite H1. apply H2.
  - intros w1 t0 order todo l ys w2 t2 Hc1 _ Hm1 _ _ _ mean0 _ HM _.
    assert (Hw2 : w2 = w1).
    { assert (Hw1 : WorldOk w1) by apply Hc1. clear -Hm Hm1 HM Hbl He Hw1 Had. revert t0 ys HM. induction l as [|e l IH]; intros t0 ys HM; cbn [map] in HM.
      - apply made_nil in HM. apply HM.
      - apply made_inv in HM. destruct HM as (o & ys' & w3 & t3 & -> & HM1 & HM2).
        assert (Hstep : w3 = w1).
        { inversion HM1 as [|? ? ? ? ? ? ? ? Hlost HM'|? ? ? ? ? ? ? ? ? ? ? Hna' Hft Hx HM'|? ? ? ? ? ? ? ? ? ? ? Hna' Hft Hx HM']; subst.
          - apply made_nil in HM'. apply HM'.
          - rewrite (Had t0) in Hft. discriminate Hft.
          - apply made_nil in HM'. destruct HM' as (_ & -> & ->).
            eapply (steal_blind E _ _ _ _ _ w1 (S t0) m); [exact Hw1|rewrite Hm1; exact Hm|exact He| |exact Hx].
            intros mr Hmr. rewrite Hm1 in Hmr. apply (Hbl _ _ Hmr). }
        subst w3. apply (IH _ _ HM2). }
    subst w2. exact Hm1.
  - destruct (having w (el_remote c) ns) eqn:Hh; [apply K2; reflexivity|apply K1; discriminate].
Qed.
End Gain.
