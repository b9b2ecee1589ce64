(* Pools of jobs on nodes that are emptied meanwhile. *)
From Verif Require Import Base Num MathUtils Knn Env Centroid CManager DataSpec MgrSpec Wp DataFacts NumFacts
  Proc Owns Server ServerSpec ServerFacts Slots ServerProofs ClusterProofs Alone Core EventLoop CoreSpec CoreProofs
  SystemProofs OriginSpec Reset.

Section ResetProofs.
Context {N : Num}.
Notation DP := (DataPoint N).
Notation World := (World N).

(* ---- what it does ---- *)
Lemma forget_node (w : World) a b : node_at (forget w a) b =
  if str_eqb b a then option_map (fun nd => MkNode (nd_heap nd) [] (nd_thresh nd)) (node_at w b) else node_at w b.
Proof.
  unfold forget, node_at. destruct (str_eqb b a) eqn:Eb.
  - apply str_eqb_eq in Eb. subst b. destruct (assoc a (w_nodes w)) as [nd|] eqn:Ha; [|rewrite Ha; reflexivity].
    unfold set_node. cbn [w_nodes]. rewrite assoc_upsert_same. reflexivity.
  - destruct (assoc a (w_nodes w)) as [nd|]; auto. unfold set_node. cbn [w_nodes]. apply assoc_upsert_other.
    intros ->. rewrite str_eqb_refl in Eb. discriminate.
Qed.
Lemma forget_keys (w : World) a : map fst (w_nodes (forget w a)) = map fst (w_nodes w).
Proof. unfold forget. destruct (assoc a (w_nodes w)) as [nd|] eqn:Ha; auto. cbn [set_node w_nodes]. apply upsert_keys_present. congruence. Qed.
Lemma forget_dropped (w : World) a : w_dropped (forget w a) = w_dropped w.
Proof. unfold forget. destruct (assoc a (w_nodes w)); auto. Qed.
Lemma forget_data (w : World) a : Permutation (all_data (forget w a)) (all_data w).
Proof.
  unfold forget. destruct (assoc a (w_nodes w)) as [nd|] eqn:Ha; auto.
  destruct (upd_data w a nd Ha) as (rest & H1 & H2). rewrite H1.
  exact (H2 (MkNode (nd_heap nd) [] (nd_thresh nd)) [] []).
Qed.
Lemma forget_manager (w : World) a b ns : manager (forget w a) b ns = if str_eqb b a then None else manager w b ns.
Proof.
  unfold manager. rewrite forget_node. destruct (str_eqb b a); auto. destruct (node_at w b); auto.
Qed.

Lemma exec_reset a (w : World) t : exec (run_reset a) w t = Ok ((DIdle, forget w a), t).
Proof. reflexivity. Qed.

Lemma reset_alone a (w : World) t : wp (exec (run_reset a) w) t (fun r t' => t' = t /\ forall b ns,
  (b = a -> manager (snd r) b ns = None) /\ (b <> a -> manager (snd r) b ns = manager w b ns)).
Proof.
  unfold wp. rewrite exec_reset. split; auto. intros b ns. cbn [snd]. rewrite forget_manager. split; intros H.
  - subst b. rewrite str_eqb_refl. auto.
  - rewrite str_eqb_neq; auto.
Qed.

Context (E : Env N) (HE : EnvOk E) (HO : NumOrd N).

(* ---- together with jobs ---- *)
Section Run.
Context (D : str -> nat -> Prop) (Known Mine : str -> str -> Prop) (Tidy Fuel : Prop).
Notation inv := (winv (CensOk D) Known Mine Tidy).
Notation gives := (G E Known Mine False).

Lemma owns_reset a w0 : (forall ns, Mine a ns) -> (forall ns, ~ Known a ns) ->
  owns (L := lock) inv (ServerFacts.ext (N := N) False) gives (J E) Fuel (run_reset a) (fun d h _ => d = DIdle /\ h = []) [] w0.
Proof.
  intros HM HK. unfold run_reset, h_reset. cbn [pbind owns]. intros w t _ HI. unfold ret. exists []. splits; auto.
  - split; [rewrite forget_keys; apply HI|]. intros b nd Hb. rewrite forget_node in Hb. destruct (str_eqb b a) eqn:Eb.
    + apply str_eqb_eq in Eb. subst b. destruct (node_at w a) as [nd0|] eqn:Ha; [|discriminate]. cbn [option_map] in Hb.
      inversion Hb; subst nd. destruct HI as (_ & HI). destruct (HI _ _ Ha) as (K1 & K2 & K3 & K4 & K5).
      unfold NInv. cbn [nd_tbl nd_heap map assoc]. splits; [constructor|discriminate|exact K3| |].
      * intros ns Hk. destruct (HK _ Hk).
      * intros Ht p ns m Hp. split; auto. intros Hk. destruct (HK _ Hk).
    + apply HI. exact Hb.
  - split; [apply forget_keys|]. intros b nd Hb. rewrite forget_node, Hb. destruct (str_eqb b a); cbn [option_map]; eexists; (split; [reflexivity|]).
    + split; [reflexivity|]. split; [cbn [nd_heap]; eauto|]. intros [].
    + apply node_le_refl.
  - unfold G. splits; auto.
    + intros b ns Hn. rewrite forget_manager. destruct (str_eqb b a) eqn:Eb; auto. apply str_eqb_eq in Eb. subst b. destruct Hn. apply HM.
    + intros b ns Hk. unfold ptr. rewrite forget_node. destruct (str_eqb b a) eqn:Eb; auto. apply str_eqb_eq in Eb. subst b. destruct (HK _ Hk).
    + exists []. rewrite forget_dropped, !app_nil_r. splits; auto. intros _. eapply keeps_proper; [reflexivity|symmetry; apply forget_data|apply keeps_refl].
Qed.

Lemma r_run js rs sched (w : World) t : inv w ->
  Forall (fun j => job_fits D w j /\ (may_steal j -> Fuel) /\ forall b n, touches D j b n -> Mine b n) js ->
  Forall (fun a => forall ns, Mine a ns /\ ~ Known a ns) rs ->
  match interleave DIdle sched (with_resets E js rs) w t with
  | Ok ((th, w'), t') => exists hs, inv w' /\ ServerFacts.ext False w w' /\
      gives t t' w (jobs_in js) w' (concat hs) /\
      Forall2 (fun p h => forall d, p = Ret d -> answers_arrive E -> Permutation h (job_out d)) th hs /\
      (~ Fuel -> exists sched2 ds w2 t2, interleave DIdle sched2 th w' t' = Ok ((map (fun d => Ret d) ds, w2), t2))
  | Panic => False
  | OutOfFuel => Fuel
  end.
Proof.
  intros HI HR HS. destruct (loose_kind E HE D False (fun x => match x with end)) as (K & E1 & E2). rewrite <- E1 in *.
  set (Q := fun (d : done N) (h : list (str * DP)) (_ : World) => answers_arrive E -> Permutation h (job_out d)).
  pose proof (owns_interleave (L := lock) (winv K Known Mine Tidy) (ServerFacts.ext False) (G E Known Mine False) ext_refl ext_trans
    (G_refl E Known Mine False) (G_trans E Known Mine False) (G_frame E Known Mine False)
    (G_perm E Known Mine False) (J E) Fuel Q DIdle) as H.
  pose proof (pool_completes (R := done N) (L := lock) (winv K Known Mine Tidy) (ServerFacts.ext False) (G E Known Mine False) ext_refl ext_trans
    (J E) Fuel) as HC.
  specialize (H (fun _ _ _ _ _ x => x)).
  assert (HJ : forall h (w : World), J E h -> Q DIdle h w) by (intros h w0 Hj Ha; rewrite (Hj Ha); apply Permutation_refl).
  specialize (H HJ sched (with_resets E js rs) (map job_in js ++ map (fun _ => []) rs) w t HI).
  assert (HP : pool_owns (L := lock) (winv K Known Mine Tidy) (ServerFacts.ext False) (G E Known Mine False) (J E) Fuel Q
                 (with_resets E js rs) (map job_in js ++ map (fun _ => []) rs) w).
  { clear H. apply Forall2_app.
    - induction HR as [|j js (H1 & H3 & H4) HR IH]; [constructor|]. cbn [map]. constructor; auto.
      eapply raw_weaken; [apply (raw_job E HE HO D Known Mine False Tidy Fuel False K); eauto; try tauto; rewrite E2; auto|].
      intros x h w' _ Hp _. exact Hp.
    - induction HS as [|a rs Ha HS IH]; [constructor|]. cbn [map]. constructor; auto. rewrite E1.
      eapply raw_weaken; [apply owns_reset; intros; apply Ha|]. intros x h w' _ (-> & ->) _. reflexivity. }
  specialize (H HP). destruct (interleave DIdle sched (with_resets E js rs) w t) as [[[th w'] t']| |]; auto.
  destruct H as (hs & H1 & H2 & H3 & H4). exists hs. splits; auto.
  - rewrite concat_app in H3. replace (concat (map (fun _ : str => []) rs)) with (@nil (str * DP)) in H3
      by (clear; induction rs; auto). rewrite app_nil_r in H3. exact H3.
  - clear - H4. induction H4 as [|p h th hs H H4 IH]; constructor; auto. intros d -> Ha. exact (H Ha).
  - intros HF. eapply (HC HF Q); [exact (fun _ _ _ _ _ x => x)|exact H1|exact H4].
Qed.
End Run.

Lemma fits_any D (w : World) js (Fuel : Prop) : AnyJobs D w js -> (Exists may_steal js -> Fuel) ->
  Forall (fun j => job_fits D w j /\ (may_steal j -> Fuel) /\ forall b n : str, touches D j b n -> True) js.
Proof.
  intros H HF. apply Forall_forall. intros j Hin. pose proof (proj1 (Forall_forall _ _) H j Hin). splits; auto.
  intros Hs. apply HF. apply Exists_exists. eauto.
Qed.

Lemma r_safe D (w : World) js rs sched t : WorldOk w -> OwnDims D w -> AnyJobs D w js ->
  match interleave DIdle sched (with_resets E js rs) w t with
  | Ok ((_, w'), _) => WorldOk w' /\ OwnDims D w'
  | Panic => False
  | OutOfFuel => Exists may_steal js
  end.
Proof.
  intros H1 H2 H3.
  pose proof (r_run D (fun _ _ => False) (fun _ _ => True) False (Exists may_steal js) js rs sched w t) as H.
  assert (HI : winv (CensOk D) (fun _ _ => False) (fun _ _ => True) False w) by (apply WorldOk_winv; auto; tauto).
  specialize (H HI (fits_any _ _ _ _ H3 (fun x => x))).
  assert (HR : Forall (fun a : str => forall ns : str, True /\ ~ False) rs) by (apply Forall_forall; tauto).
  specialize (H HR). destruct (interleave DIdle sched (with_resets E js rs) w t) as [[[th w'] t']| |]; auto.
  destruct H as (hs & H & _). eapply winv_WorldOk; eauto.
Qed.

Lemma r_finish D (w : World) js rs sched t : WorldOk w -> OwnDims D w -> AnyJobs D w js -> Forall (fun j => ~ may_steal j) js ->
  match interleave DIdle sched (with_resets E js rs) w t with
  | Ok ((th, w'), t') => exists sched2 ds w2 t2, interleave DIdle sched2 th w' t' = Ok ((map (fun d => Ret d) ds, w2), t2)
  | _ => False
  end.
Proof.
  intros H1 H2 H3 H4.
  pose proof (r_run D (fun _ _ => False) (fun _ _ => True) False False js rs sched w t) as H.
  assert (HI : winv (CensOk D) (fun _ _ => False) (fun _ _ => True) False w) by (apply WorldOk_winv; auto; tauto).
  assert (HF : Exists may_steal js -> False).
  { intros Hx. apply Exists_exists in Hx. destruct Hx as (j & Hin & Hs). rewrite Forall_forall in H4. exact (H4 _ Hin Hs). }
  specialize (H HI (fits_any _ _ _ _ H3 HF)).
  assert (HR : Forall (fun a : str => forall ns : str, True /\ ~ False) rs) by (apply Forall_forall; tauto).
  specialize (H HR). destruct (interleave DIdle sched (with_resets E js rs) w t) as [[[th w'] t']| |]; auto.
  destruct H as (hs & _ & _ & _ & _ & H). apply H; auto.
Qed.

Lemma r_others D (w : World) js rs sched t th w' t' a ns : WorldOk w -> OwnDims D w -> AnyJobs D w js ->
  ~ In a rs -> Forall (fun j => ~ touches D j a ns) js ->
  interleave DIdle sched (with_resets E js rs) w t = Ok ((th, w'), t') ->
  manager w' a ns = manager w a ns.
Proof.
  intros H1 H2 H3 Hn H4 Hr.
  pose (Mine := fun b n => In b rs \/ exists j, In j js /\ touches D j b n).
  pose proof (r_run D (fun _ _ => False) Mine False True js rs sched w t) as H.
  assert (HI : winv (CensOk D) (fun _ _ => False) Mine False w) by (apply WorldOk_winv; auto; tauto).
  specialize (H HI). assert (HR : Forall (fun j => job_fits D w j /\ (may_steal j -> True) /\ forall b n, touches D j b n -> Mine b n) js).
  { apply Forall_forall. intros j Hin. pose proof (proj1 (Forall_forall _ _) H3 j Hin) as K1.
    splits; auto. intros b n Hb. right. exists j. auto. }
  assert (HS : Forall (fun a => forall ns, Mine a ns /\ ~ False) rs) by (apply Forall_forall; intros b Hb n; split; [left; auto|tauto]).
  specialize (H HR HS). rewrite Hr in H. destruct H as (hs & _ & _ & (_ & HG & _) & _). apply HG.
  intros [Hi|(j & Hin & Hb)]; [contradiction|]. rewrite Forall_forall in H4. eapply H4; eauto.
Qed.

Lemma r_visible D (w : World) js rs sched t th w' t' b nd : WorldOk w -> NoOrphans w -> OwnDims D w -> AnyJobs D w js ->
  Forall (fun j => forall b n, touches D j b n -> node_at w b <> None -> In b rs \/ manager w b n <> None) js ->
  interleave DIdle sched (with_resets E js rs) w t = Ok ((th, w'), t') ->
  ~ In b rs -> node_at w' b = Some nd -> Permutation (node_visible nd) (node_data nd).
Proof.
  intros H1 H0 H2 H3 H4 Hr Hb Hnd.
  pose (Known := fun a ns => ~ In a rs /\ ptr w a ns <> None).
  pose (Mine := fun b n => In b rs \/ exists j, In j js /\ touches D j b n).
  pose proof (r_run D Known Mine True True js rs sched w t) as H.
  assert (HI : winv (CensOk D) Known Mine True w).
  { destruct H1 as (W1 & W2). split; auto. intros a nd0 Ha. pose proof (assoc_in _ _ _ Ha) as Hi.
    destruct (W2 _ _ Hi) as (K1 & K2). unfold NInv. splits; auto.
    - intros ns p Hp. apply K2, assoc_in; auto.
    - intros p ns m Hp. eapply H2; [exact Hi|]. eapply nth_error_In; eauto.
    - intros ns (_ & Hk). unfold ptr in Hk. rewrite Ha in Hk. exact Hk.
    - intros _ p ns m Hp. pose proof (H0 a nd0 p ns m Hi Hp) as Hq. split; auto.
      destruct (in_dec str_dec a rs) as [Hin|Hin]; [right; left; auto|left]. split; auto. unfold ptr. rewrite Ha, Hq. discriminate. }
  specialize (H HI). assert (HR : Forall (fun j => job_fits D w j /\ (may_steal j -> True) /\ forall b n, touches D j b n -> Mine b n) js).
  { apply Forall_forall. intros j Hin. pose proof (proj1 (Forall_forall _ _) H3 j Hin) as K1.
    splits; auto. intros c n Hc. right. exists j. auto. }
  assert (HS : Forall (fun a => forall ns, Mine a ns /\ ~ Known a ns) rs).
  { apply Forall_forall. intros c Hc n; split; [left; auto|]. intros (Hx & _). contradiction. }
  specialize (H HR HS). rewrite Hr in H. destruct H as (hs & HI' & HX & _).
  destruct HI' as (_ & I2). destruct (I2 _ _ Hnd) as (K1 & K2 & _ & _ & K5). apply node_visible_all.
  - split; auto. intros ns p Hp. apply K2. apply in_assoc; auto.
  - intros p ns m Hp. destruct (K5 I _ _ _ Hp) as (K6 & K7). apply K6.
    destruct K7 as [K7|[K7|(j & Hj & Ht)]]; [auto|contradiction|]. split; auto. rewrite Forall_forall in H4.
    destruct (H4 j Hj b ns Ht) as [Hin|Hm]; [|contradiction|].
    + intros Hn'. destruct HX as (HX1 & _). apply assoc_none in Hn'. apply Hn'. rewrite <- HX1. apply in_map_iff. exists (b, nd).
      split; auto. apply assoc_in. exact Hnd.
    + unfold manager in Hm. unfold ptr. destruct (node_at w b) as [nd0|]; [|contradiction]. destruct (assoc ns (nd_tbl nd0)); congruence.
Qed.

(* Everything stays in the memory of the nodes, in sight or not. *)
Lemma r_conserve D (w : World) js rs sched t ds w' t' : WorldOk w -> OwnDims D w -> AnyJobs D w js ->
  answers_arrive E ->
  interleave DIdle sched (with_resets E js rs) w t = Ok ((map (fun d => Ret d) ds, w'), t') ->
  exists dropped, w_dropped w' = w_dropped w ++ dropped /\
    keeps E t t' (all_data w ++ jobs_in js) (all_data w' ++ jobs_out ds ++ dropped).
Proof.
  intros H1 H2 H3 Ha Hr.
  pose proof (r_run D (fun _ _ => False) (fun _ _ => True) False True js rs sched w t) as H.
  assert (HI : winv (CensOk D) (fun _ _ => False) (fun _ _ => True) False w) by (apply WorldOk_winv; auto; tauto).
  specialize (H HI (fits_any _ _ _ _ H3 (fun _ => I))).
  assert (HR : Forall (fun a : str => forall ns : str, True /\ ~ False) rs) by (apply Forall_forall; tauto).
  specialize (H HR). rewrite Hr in H. destruct H as (hs & _ & _ & (_ & _ & _ & x & HG & _ & Hk) & HF & _).
  exists x. split; auto. eapply keeps_proper; [reflexivity| |apply (Hk Ha)].
  rewrite (ended_hands E ds hs Ha HF). reflexivity.
Qed.
End ResetProofs.
