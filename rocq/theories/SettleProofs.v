(* What one run of the load balancing task does to the sizes of the nodes. *)
From Verif Require Import Base Num MathUtils Knn Env Centroid CManager DataSpec MgrSpec Wp DataFacts NumFacts
  Proc Owns Server ServerSpec ServerFacts SeqProofs SeqProofs2 SeqProofs3 StealProofs Alone Uniform EventLoop CoreSpec LoopSpec LoopProofs2 TaskSpec TaskProofs
  Props03Lemmas UpkeepProofs SettleSpec SettleSteal.
From Coq Require Import Permutation.

Section Settle.
Context {N : Num} (E : Env N) (HE : EnvOk E) (HO : NumOrd N) (Had : all_delivered E) (dim : str -> nat).
Notation World := (World N).
Notation D := (fun ns n => n = dim ns).

(* A world in order in which nothing expires. *)
Definition calm (w : World) : Prop := WorldOk w /\ DimsOk D w /\ forall b ns, never_expired E (data_at w b ns).

Lemma never_app (l m : list (DataPoint N)) : never_expired E (l ++ m) <-> never_expired E l /\ never_expired E m.
Proof.
  unfold never_expired. split.
  - intros H. split; intros k d Hd; apply H; apply in_or_app; auto.
  - intros (H1 & H2) k d Hd. apply in_app_or in Hd. destruct Hd; auto.
Qed.

Lemma data_eq (w w' : World) b ns : manager w' b ns = manager w b ns -> data_at w' b ns = data_at w b ns.
Proof. unfold data_at, centroids_at. intros ->. reflexivity. Qed.
Lemma size_eq (w w' : World) b ns : manager w' b ns = manager w b ns -> size_at w' b ns = size_at w b ns.
Proof. intros H. unfold size_at. rewrite (data_eq _ _ _ _ H). reflexivity. Qed.

Lemma steal_step fuel a from ns limit (w : World) t x w' t' : calm w -> a <> from -> node_at w a <> None -> (0 < limit)%Z ->
  length (centroids_at w from ns) < fuel -> exec (serve E a (QSteal fuel from ns limit)) w t = Ok ((x, w'), t') ->
  exists total ok, x = ASteal total ok /\ calm w' /\
    (forall b ns2, (b, ns2) <> (a, ns) -> (b, ns2) <> (from, ns) -> manager w' b ns2 = manager w b ns2) /\
    size_at w' a ns = (size_at w a ns + Z.of_nat total)%Z /\ size_at w' from ns = (size_at w from ns - Z.of_nat total)%Z /\
    forall s, Forall (fun c => length (c_dps c) <= s) (centroids_at w from ns) -> (Z.of_nat total < limit + Z.of_nat s)%Z.
Proof.
  intros (Hw & HD & Hn) Hne Hna Hlim Hf Hx.
  assert (Hdim : forall b m, b = a \/ b = from -> manager w b ns = Some m -> DimOk (dim ns) m).
  { intros b m _ Hm. destruct (inv_slot D w b ns m (conj Hw HD) Hm) as (n & -> & Hd). exact Hd. }
  pose proof (steal_spec E HE (dim ns) fuel a from ns limit w t Hw Hne Hna Hdim Hf) as Hs. unfold wp in Hs. rewrite Hx in Hs.
  destruct Hs as (parts & total & ok & k & S1 & S2 & S3 & S4 & S5 & S6 & S7 & S8). cbn [fst snd] in *.
  pose proof (uniform_alone E HE HO D a (QSteal fuel from ns limit) w t Hw HD Hna I) as Hu.
  rewrite Hx in Hu. destruct Hu as (Hw' & HD'); [exact I|].
  destruct S7 as ((lost & Hp & Hl) & _); [intros j; rewrite (Had j); discriminate|].
  assert (Hlost : lost = []).
  { destruct lost as [|d lost]; auto. exfalso. inversion Hl as [|? ? (j & Hj & He) _]; subst.
    rewrite (Hn from ns j d) in He; [discriminate He|]. apply (Permutation_in _ (Permutation_sym Hp)). apply in_or_app. right. left. reflexivity. }
  subst lost. rewrite app_nil_r in Hp.
  assert (Hnf : never_expired E (data_at w' from ns ++ concat parts)).
  { intros j d Hd. apply (Hn from ns). apply (Permutation_in _ (Permutation_sym Hp)). exact Hd. }
  apply never_app in Hnf. destruct Hnf as (Hn1 & Hn2).
  rewrite never_expired_live in S5 by (apply never_app; split; auto).
  exists total, ok. splits; auto.
  - unfold calm. splits; auto. intros b ns2. destruct (str_dec ns2 ns) as [->|Hns].
    + destruct (str_dec b a) as [->|Ha]; [rewrite S5; apply never_app; split; auto|].
      destruct (str_dec b from) as [->|Hb]; [exact Hn1|]. rewrite (data_eq w w'); [apply Hn|]. apply S6; congruence.
    + rewrite (data_eq w w'); [apply Hn|]. apply S6; congruence.
  - unfold size_at. rewrite S5, app_length. lia.
  - unfold size_at. apply Permutation_length in Hp. rewrite app_length in Hp. lia.
  - intros s Hsm. pose proof (steal_bound E HE s (dim ns) fuel a from ns limit w t Hw Hne Hna Hdim Hsm Hlim) as Hb. unfold wf in Hb. rewrite Hx in Hb.
    cbn [fst] in Hb. apply (Hb total ok S1).
Qed.

Lemma want_pos c mean here margin : (0 <= margin)%Z -> (here <= mean - margin)%Z -> want_of c mean here <> 0%Z ->
  (0 < want_of c mean here)%Z /\ (3 * want_of c mean here <= mean - here)%Z.
Proof.
  intros Hm Hh Hw. unfold want_of in *. set (n := Z.of_nat (length (el_remote c))) in *. assert (Hn : (0 <= n)%Z) by (unfold n; lia).
  destruct (Z.eq_dec n 0) as [Hz|Hz]; [rewrite Hz in Hw; cbn in Hw; rewrite Zdiv_0_r in Hw; congruence|].
  pose proof (Z.div_pos (mean - here) (3 * n) ltac:(lia) ltac:(lia)). pose proof (Z.mul_div_le (mean - here) (3 * n) ltac:(lia)). nia.
Qed.

Lemma pull_run c only mean margin ns : (0 <= margin)%Z -> forall todo here l, Pulled c only mean margin todo here l ->
  forall (w : World) t ys w' t', NoDup (map fst todo) -> calm w ->
  (forall b z, In (b, z) todo -> b <> el_local c -> z = size_at w b ns /\ length (centroids_at w b ns) < el_fuel c) ->
  here = size_at w (el_local c) ns ->
  Made E (map (fun e => (el_local c, QSteal (el_fuel c) (asked_of e) ns (snd (fst e)))) l) w t ys w' t' -> map snd l = map came ys ->
  calm w' /\ (forall b ns2, ns2 <> ns -> manager w' b ns2 = manager w b ns2) /\
  (forall b, b <> el_local c -> ~ In b (map fst todo) -> manager w' b ns = manager w b ns) /\
  (here <= size_at w' (el_local c) ns)%Z /\
  (forall b, b <> el_local c -> (size_at w' b ns <= size_at w b ns)%Z) /\
  forall s, (forall b, b <> el_local c -> In b (map fst todo) -> Forall (fun c => length (c_dps c) <= s) (centroids_at w b ns)) ->
    (size_at w' (el_local c) ns = here \/ (3 * size_at w' (el_local c) ns < 3 * mean - 2 * margin + 3 * Z.of_nat s)%Z) /\
    forall b, b <> el_local c -> size_at w' b ns = size_at w b ns \/ (only = false -> (mean + margin - Z.of_nat s < size_at w' b ns)%Z).
Proof.
  intros Hmar todo here l HP. induction HP as [here|other size r here l Hpass HP IH|other size r here n l Hpass HP IH];
    intros w t ys w' t' Hnd Hc Hz Hh HM Hy.
  - cbn [map] in HM. apply made_nil in HM. destruct HM as (_ & -> & _). splits; auto; lia.
  - cbn [map fst] in Hnd. apply NoDup_cons_iff in Hnd. destruct Hnd as (Hnot & Hnd).
    destruct (IH w t ys w' t' Hnd Hc) as (K1 & K2 & K3 & K4 & K5 & K6); auto.
    { intros b z Hb. apply Hz. right. exact Hb. }
    splits; auto.
    + intros b Hb Hi. apply K3; auto. intros Hi'. apply Hi. right. exact Hi'.
    + intros s Hs. apply K6. intros b Hb Hi. apply Hs; auto. right. exact Hi.
  - cbn [map fst] in Hnd. apply NoDup_cons_iff in Hnd. destruct Hnd as (Hnot & Hnd).
    assert (Hne : other <> el_local c) by (intros He; apply Hpass; left; exact He).
    assert (Hle : (here <= mean - margin)%Z) by (apply Z.nlt_ge; intros He; apply Hpass; right; left; exact He).
    assert (Hw0 : want_of c mean here <> 0%Z) by (intros He; apply Hpass; right; right; left; exact He).
    destruct (want_pos c mean here margin Hmar Hle Hw0) as (Hpos & Hthird).
    destruct (Hz other size (or_introl eq_refl) Hne) as (Hsz & Hfu).
    cbn [map] in HM. apply made_inv in HM. destruct HM as (o & ys' & w1 & t1 & -> & HM1 & HM2). cbn [map snd] in Hy.
    injection Hy as Hn Hy. unfold asked_of in HM1. cbn [fst snd] in HM1.
    assert (Hstep : calm w1 /\ (forall b ns2, (b, ns2) <> (el_local c, ns) -> (b, ns2) <> (other, ns) -> manager w1 b ns2 = manager w b ns2) /\
      size_at w1 (el_local c) ns = (here + Z.of_nat n)%Z /\ size_at w1 other ns = (size - Z.of_nat n)%Z /\
      forall s, Forall (fun c => length (c_dps c) <= s) (centroids_at w other ns) -> (Z.of_nat n < want_of c mean here + Z.of_nat s)%Z).
    { inversion HM1 as [|? ? ? ? ? ? ? ? Hlost HM'|? ? ? ? ? ? ? ? ? ? ? Hna Hft Hx HM'|? ? ? ? ? ? ? ? ? ? ? Hna Hft Hx HM']; subst.
      - apply made_nil in HM'. destruct HM' as (_ & -> & _). cbn [came]. splits; auto; try lia.
      - rewrite (Had t) in Hft. discriminate Hft.
      - apply made_nil in HM'. destruct HM' as (_ & -> & ->).
        destruct (steal_step _ _ _ _ _ _ _ _ _ _ Hc (not_eq_sym Hne) Hna Hpos Hfu Hx) as (total & ok & -> & J1 & J2 & J3 & J4 & J5).
        cbn [came]. splits; auto; try lia. }
    clear HM1. destruct Hstep as (J1 & J2 & J3 & J4 & J5).
    assert (Hr1 : forall b, b <> el_local c -> In b (map fst r) -> manager w1 b ns = manager w b ns).
    { intros b Hb Hi. apply J2; [congruence|]. intros He. injection He as ->. exact (Hnot Hi). }
    destruct (IH w1 t1 ys' w' t' Hnd J1) as (K1 & K2 & K3 & K4 & K5 & K6); auto.
    { intros b z Hb Hbl. destruct (Hz b z (or_intror Hb) Hbl) as (Z1 & Z2).
      assert (He : manager w1 b ns = manager w b ns) by (apply Hr1; auto; apply (in_map fst) in Hb; exact Hb).
      rewrite (size_eq w w1 b ns He). split; auto. unfold centroids_at in *. rewrite He. exact Z2. }
    assert (Hoth : manager w' other ns = manager w1 other ns) by (apply K3; auto).
    splits; auto.
    + intros b ns2 Hn2. rewrite K2 by auto. apply J2; congruence.
    + intros b Hb Hi. rewrite K3 by (auto; intros Hi'; apply Hi; right; exact Hi'). apply J2; [congruence|].
      intros He. injection He as ->. apply Hi. left. reflexivity.
    + lia.
    + intros b Hb. specialize (K5 b Hb). destruct (str_dec b other) as [->|Hbo]; [lia|].
      rewrite (size_eq w w1 b ns) in K5 by (apply J2; congruence). exact K5.
    + intros s Hs. assert (Hn' : (Z.of_nat n < want_of c mean here + Z.of_nat s)%Z).
      { apply J5. apply Hs; auto. left. reflexivity. }
      destruct (K6 s) as (L1 & L2).
      { intros b Hb Hi. unfold centroids_at. rewrite Hr1 by auto. apply Hs; auto. right. exact Hi. }
      split.
      * right. destruct L1 as [L1|L1]; [|exact L1]. rewrite L1. lia.
      * intros b Hb. destruct (str_dec b other) as [->|Hbo].
        -- right. intros Hoc. rewrite (size_eq w1 w' other ns Hoth), J4.
           assert (Hq : (mean + margin <= size - want_of c mean here)%Z).
           { apply Z.nlt_ge. intros He. apply Hpass. right. right. right. split; auto. }
           lia.
        -- destruct (L2 b Hb) as [L|L]; [left|right; exact L]. rewrite L. apply size_eq. apply J2; congruence.
Qed.

(* ---- the questions that precede the stealing ---- *)
Lemma len_made ns (w : World) : WorldOk w -> forall order t xs w1 t1, Made E (map (fun a => (a, QLenDP ns)) order) w t xs w1 t1 ->
  w1 = w /\ map size_of xs = map (fun b => size_at w b ns) order.
Proof.
  intros Hw. induction order as [|a order IH]; intros t xs w1 t1 HM; cbn [map] in HM.
  - apply made_nil in HM. destruct HM as (-> & -> & _). auto.
  - apply made_inv in HM. destruct HM as (o & ys & w2 & t2 & -> & HM1 & HM2).
    assert (Hstep : w2 = w /\ size_of o = size_at w a ns).
    { inversion HM1 as [|? ? ? ? ? ? ? ? Hlost HM'|? ? ? ? ? ? ? ? ? ? ? Hna Hft Hx HM'|? ? ? ? ? ? ? ? ? ? ? Hna Hft Hx HM']; subst.
      - apply made_nil in HM'. destruct HM' as (_ & -> & _). split; auto. destruct Hlost as [Hlost|Hlost]; [|rewrite (Had t) in Hlost; discriminate].
        unfold size_at, data_at, centroids_at, manager. rewrite Hlost. reflexivity.
      - rewrite (Had t) in Hft. discriminate Hft.
      - apply made_nil in HM'. destruct HM' as (_ & -> & ->). destruct (manager w a ns) as [m|] eqn:Hm.
        + rewrite (len_dp_spec E a ns w m (S t) Hw Hm) in Hx. inversion Hx; subst. split; auto.
          unfold size_at, data_at, centroids_at. rewrite Hm. reflexivity.
        + cbn [serve] in Hx. unfold reply in Hx. rewrite exec_bind in Hx. unfold h_len_dp, access in Hx. rewrite exec_access_g in Hx by auto.
          rewrite Hm in Hx. cbn [exec] in Hx. unfold ret in Hx. inversion Hx; subst. split; auto.
          unfold size_at, data_at, centroids_at. rewrite Hm. reflexivity. }
    destruct Hstep as (-> & Ho). destruct (IH _ _ _ _ HM2) as (-> & Hs). split; auto. cbn [map]. rewrite Ho, Hs. reflexivity.
Qed.

Lemma names_made (w : World) : WorldOk w -> forall addrs t os w1 t1, Made E (map (fun a => (a, QNamespaces)) addrs) w t os w1 t1 ->
  forall ns, holders addrs os ns = having w addrs ns.
Proof.
  intros Hw. induction addrs as [|a addrs IH]; intros t os w1 t1 HM ns; cbn [map] in HM.
  - apply made_nil in HM. destruct HM as (-> & _). reflexivity.
  - apply made_inv in HM. destruct HM as (o & ys & w2 & t2 & -> & HM1 & HM2).
    assert (Hstep : w2 = w /\ NoDup (listed o) /\ forall ns, In ns (listed o) <-> manager w a ns <> None).
    { inversion HM1 as [|? ? ? ? ? ? ? ? Hlost HM'|? ? ? ? ? ? ? ? ? ? ? Hna Hft Hx HM'|? ? ? ? ? ? ? ? ? ? ? Hna Hft Hx HM']; subst.
      - apply made_nil in HM'. destruct HM' as (_ & -> & _). destruct Hlost as [Hlost|Hlost]; [|rewrite (Had t) in Hlost; discriminate].
        splits; auto; [constructor|]. intros ns'. unfold manager. rewrite Hlost. split; [intros []|congruence].
      - rewrite (Had t) in Hft. discriminate Hft.
      - apply made_nil in HM'. destruct HM' as (_ & -> & ->). pose proof (names_spec E HE a w (S t) Hw) as Hs. unfold wp in Hs. rewrite Hx in Hs.
        cbn [fst snd] in Hs. destruct Hs as (-> & l & -> & Hl). auto. }
    destruct Hstep as (-> & Hl1 & Hl2). rewrite holders_cons, (IH _ _ _ _ HM2). unfold having. cbn [filter].
    assert (Hf : filter (str_eqb ns) (listed o) = match manager w a ns with Some _ => [ns] | None => [] end).
    { clear HM1 HM2. specialize (Hl2 ns). revert Hl1 Hl2. generalize (listed o). intros l Hl1 Hl2.
      assert (Hno : forall l, ~ In ns l -> filter (str_eqb ns) l = []).
      { induction l0 as [|x l0 IHl]; intros Hi; cbn [filter]; auto. destruct (str_eqb ns x) eqn:Hx; [apply str_eqb_eq in Hx; subst; exfalso; apply Hi; left; auto|].
        apply IHl. intros Hi'. apply Hi. right. exact Hi'. }
      destruct (manager w a ns) as [m|]; [|apply Hno; intros Hi; apply Hl2 in Hi; congruence].
      assert (Hi : In ns l) by (apply Hl2; discriminate). clear Hl2. induction l as [|x l IHl]; [destruct Hi|].
      apply NoDup_cons_iff in Hl1. destruct Hl1 as (Hx & Hl1). cbn [filter]. destruct (str_eqb ns x) eqn:Hxe.
      - apply str_eqb_eq in Hxe. subst x. rewrite Hno by auto. reflexivity.
      - apply IHl; auto. destruct Hi as [->|Hi]; auto. rewrite str_eqb_refl in Hxe. discriminate. }
    rewrite Hf. destruct (manager w a ns); reflexivity.
Qed.
Lemma having_in (w : World) addrs ns b : In b (having w addrs ns) <-> In b addrs /\ manager w b ns <> None.
Proof.
  unfold having. rewrite filter_In. destruct (manager w b ns); split; intros (H1 & H2); split; auto; congruence.
Qed.
Lemma having_eq (w w' : World) addrs ns : (forall b, manager w' b ns = manager w b ns) -> having w' addrs ns = having w addrs ns.
Proof. intros H. unfold having. apply filter_ext. intros b. rewrite H. reflexivity. Qed.

(* What the task does to one namespace. *)
Definition settled (c : el_cfg) (w w' : World) (ns : str) : Prop :=
  let mean := mean_size w (el_remote c) ns in
  (forall b, ~ In b (el_remote c) -> manager w' b ns = manager w b ns) /\
  (size_at w (el_local c) ns <= size_at w' (el_local c) ns)%Z /\
  (forall b, b <> el_local c -> (size_at w' b ns <= size_at w b ns)%Z) /\
  ((mean - margin_of mean < size_at w (el_local c) ns)%Z -> forall b, manager w' b ns = manager w b ns) /\
  forall s, centroids_up_to w (el_remote c) ns (Z.of_nat s) ->
    (size_at w' (el_local c) ns = size_at w (el_local c) ns \/ (3 * size_at w' (el_local c) ns < 3 * mean - 2 * margin_of mean + 3 * Z.of_nat s)%Z) /\
    forall b, b <> el_local c -> size_at w' b ns = size_at w b ns \/
      (2 <= length (having w (el_remote c) ns) -> (mean + margin_of mean - Z.of_nat s < size_at w' b ns)%Z).

Lemma settled_same c (w w' : World) ns : (forall b, manager w' b ns = manager w b ns) -> settled c w w' ns.
Proof.
  intros H. unfold settled. cbv zeta. assert (Hs : forall b, size_at w' b ns = size_at w b ns) by (intros b; apply size_eq; auto).
  splits; auto; [rewrite Hs; lia|intros b _; rewrite Hs; lia].
Qed.

Lemma pulled_rest c only mean margin : forall todo here l, (mean - margin < here)%Z -> Pulled c only mean margin todo here l -> l = [].
Proof.
  intros todo here l Hh HP. induction HP as [here|other size r here l Hpass HP IH|other size r here n l Hpass HP IH]; auto.
  exfalso. apply Hpass. right. left. exact Hh.
Qed.

Lemma mean_nonneg (w : World) addrs ns : (0 <= mean_size w addrs ns)%Z.
Proof.
  unfold mean_size. apply Z_div_nonneg_nonneg; [|lia]. induction (having w addrs ns) as [|b l IH]; cbn [map fold_right]; [lia|]. unfold size_at at 1. lia.
Qed.

Lemma balanced_settles c who (w0 : World) : NoDup (el_remote c) -> In (el_local c) (el_remote c) ->
  (forall ns, who ns = having w0 (el_remote c) ns) -> (forall b ns, length (centroids_at w0 b ns) < el_fuel c) ->
  forall nss w t w' t', Balanced E c who nss w t w' t' -> NoDup nss -> calm w ->
  (forall ns, In ns nss -> forall b, manager w b ns = manager w0 b ns) ->
  calm w' /\ (forall ns, ~ In ns nss -> forall b, manager w' b ns = manager w b ns) /\ forall ns, In ns nss -> settled c w0 w' ns.
Proof.
  intros Hnd Hloc Hwho Hfuel nss w t w' t' HB.
  induction HB as [w t|ns r w t order xs w1 t1 mean todo l ys w2 t2 w' t' Hord HM1 Hmean Htodo HP HM2 Hl HB IH]; intros Hns Hc Hsame.
  - splits; auto. intros ns [].
  - apply NoDup_cons_iff in Hns. destruct Hns as (Hnot & Hns).
    assert (Hcur : forall b, manager w b ns = manager w0 b ns) by (apply Hsame; left; auto).
    destruct (len_made ns w (proj1 Hc) _ _ _ _ _ HM1) as (-> & Hxs). clear HM1. rewrite Hxs in *.
    assert (Hwh : who ns = having w (el_remote c) ns) by (rewrite Hwho; symmetry; apply having_eq; exact Hcur).
    assert (Hmz : mean = mean_size w (el_remote c) ns).
    { subst mean. unfold mean_size, sum_of. rewrite <- Hwh, (Permutation_length Hord). f_equal.
      apply (Permutation_map (fun b => size_at w b ns)) in Hord. clear -Hord. induction Hord; cbn [fold_right] in *; lia. }
    assert (Hndo : NoDup order) by (apply (Permutation_NoDup (Permutation_sym Hord)); rewrite Hwh; apply NoDup_filter; exact Hnd).
    assert (Hin : forall b z, In (b, z) todo -> z = size_at w b ns /\ In b order).
    { intros b z Hb. apply (Permutation_in _ Htodo) in Hb. clear -Hb. induction order as [|a order IHo]; [destruct Hb|].
      cbn [map combine In] in Hb. destruct Hb as [Hb|Hb]; [inversion Hb; subst; split; auto; left; auto|]. destruct (IHo Hb). split; auto. right; auto. }
    assert (Hkeys : map fst (combine order (map (fun b => size_at w b ns) order)) = order) by (apply combine_fst; rewrite map_length; reflexivity).
    assert (Hndt : NoDup (map fst todo)).
    { apply (Permutation_NoDup (Permutation_map fst (Permutation_sym Htodo))). rewrite Hkeys. exact Hndo. }
    assert (Hkey : forall b, In b (map fst todo) <-> In b (el_remote c) /\ manager w b ns <> None).
    { intros b. rewrite <- having_in, <- Hwh. split; intros Hi.
      - apply (Permutation_in _ Hord). rewrite <- Hkeys. apply (Permutation_in _ (Permutation_map fst Htodo)). exact Hi.
      - apply (Permutation_in _ (Permutation_map fst (Permutation_sym Htodo))). rewrite Hkeys. apply (Permutation_in _ (Permutation_sym Hord)). exact Hi. }
    assert (Hhere : here_of todo (el_local c) = size_at w (el_local c) ns).
    { rewrite here_assoc. destruct (assoc (el_local c) todo) as [z|] eqn:Ha; [apply assoc_in in Ha; apply (Hin _ _ Ha)|].
      destruct (manager w (el_local c) ns) as [m|] eqn:Hm; [|unfold size_at, data_at, centroids_at; rewrite Hm; reflexivity].
      exfalso. assert (Hi : In (el_local c) (map fst todo)) by (apply Hkey; split; auto; congruence).
      apply in_map_iff in Hi. destruct Hi as ([b z] & Hb & Hi). cbn [fst] in Hb. subst b. rewrite (assoc_nodup _ _ _ Hndt Hi) in Ha. discriminate. }
    assert (Hmar : (0 <= margin_of mean)%Z) by (apply margin_nonneg; rewrite Hmz; apply mean_nonneg).
    assert (Hz : forall b z, In (b, z) todo -> b <> el_local c -> z = size_at w b ns /\ length (centroids_at w b ns) < el_fuel c).
    { intros b z Hb _. split; [apply (Hin b z Hb)|]. unfold centroids_at. rewrite Hcur. apply Hfuel. }
    destruct (pull_run c _ _ _ ns Hmar _ _ _ HP w _ _ _ _ Hndt Hc Hz Hhere HM2 Hl) as (K1 & K2 & K3 & K4 & K5 & K6).
    destruct IH as (I1 & I2 & I3); auto.
    { intros ns' Hi b. rewrite K2 by (intros ->; auto). apply Hsame. right. exact Hi. }
    splits; auto.
    + intros ns' Hi b. rewrite I2 by (intros Hi'; apply Hi; right; exact Hi'). apply K2. intros ->. apply Hi. left. reflexivity.
    + intros ns' [<-|Hi]; [|apply I3; exact Hi].
      assert (Hend : forall b, manager w' b ns = manager w2 b ns) by (apply I2; exact Hnot).
      assert (Hse : forall b, size_at w' b ns = size_at w2 b ns) by (intros b; apply size_eq; auto).
      assert (Hss : forall b, size_at w b ns = size_at w0 b ns) by (intros b; apply size_eq; auto).
      assert (Hhv : having w (el_remote c) ns = having w0 (el_remote c) ns) by (apply having_eq; exact Hcur).
      assert (Hms : mean_size w (el_remote c) ns = mean_size w0 (el_remote c) ns).
      { unfold mean_size. rewrite Hhv. do 2 f_equal. apply map_ext. exact Hss. }
      unfold settled. cbv zeta. rewrite <- Hms, <- Hmz, <- Hhv. rewrite Hhere in *. rewrite Hss in *. splits.
      * intros b Hb. rewrite Hend, <- Hcur. apply K3; [congruence|]. intros Hi. apply Hkey in Hi. destruct Hi. auto.
      * rewrite Hse. lia.
      * intros b Hb. rewrite Hse, <- Hss. apply K5; auto.
      * intros Hrest b. rewrite Hend, <- Hcur. pose proof (pulled_rest c _ _ _ _ _ _ Hrest HP) as Hnil. rewrite Hnil in HM2. cbn [map] in HM2.
        apply made_nil in HM2. destruct HM2 as (_ & -> & _). reflexivity.
      * intros s Hs. destruct (K6 s) as (L1 & L2).
        { intros b Hb Hi. apply Hkey in Hi. destruct Hi as (Hi & _). apply Forall_forall. intros cen Hcen. unfold centroids_at in Hcen.
          rewrite Hcur in Hcen. specialize (Hs b cen Hi Hcen). lia. }
        rewrite Hse. split; [exact L1|]. intros b Hb. rewrite Hse, <- Hss. destruct (L2 b Hb) as [L|L]; [left; exact L|right].
        intros H2. apply L. apply Nat.eqb_neq. rewrite (Permutation_length Hord), Hwh. lia.
Qed.

Theorem balance_settles c (w : World) t w' t' : NoDup (el_remote c) -> In (el_local c) (el_remote c) -> calm w ->
  (forall b ns, length (centroids_at w b ns) < el_fuel c) ->
  exec (task_body E c TBalance) w t = Ok ((tt, w'), t') -> forall ns, settled c w w' ns.
Proof.
  intros Hnd Hloc Hc Hf Hx ns. destruct (balance_made E HE c w t w' t' (proj1 Hc) Hnd Hx) as (os & t1 & nss & H1 & H2 & H3 & H4).
  pose proof (names_made w (proj1 Hc) _ _ _ _ _ H1) as Hwho.
  destruct (balanced_settles c _ w Hnd Hloc Hwho Hf nss w _ _ _ H4 H2 Hc) as (_ & K2 & K3); [auto|].
  destruct (in_dec str_dec ns nss) as [Hi|Hi]; [apply K3; exact Hi|apply settled_same, K2; exact Hi].
Qed.
End Settle.
