From Verif Require Import Base Num MathUtils Env Centroid CManager MgrSpec DataSpec DataFacts Wp Exact
  CentroidProofs DistributeProofs PortionsProofs CMProofs CMProofs2 CMProofs3 History.

Section HistoryProofs.
Context {N : Num} (E : Env N) (HE : EnvOk E).
Notation DP := (DataPoint N).
Notation Cen := (Centroid N).
Notation ms m := (stored (cm_cs m)).
Context (P : nat -> Cen -> Prop).
Context (PA : forall n, AddClosed (P n)) (PR : forall n, RmClosed (P n)).
Context (PW : forall n c, P n c -> cwf n c).
Context (PN : forall n v, length v = n -> P n (new_centroid v)).
Context (PM : forall n c t, P n c -> wp (c_move_vector E c) t (fun r t' =>
   P n (snd r) /\ c_dps (snd r) = live_from E t (c_dps c) /\ t' = t + length (c_dps c))).
Context (allow : cmop N -> Prop).
Context (PT : allow OMemTrim -> forall n c t, P n c -> wp (c_mem_trim E c) t (fun c' t' =>
   P n c' /\ c_dps c' = live_from E t (c_dps c) /\ t' = t + length (c_dps c))).
Context (PC : forall cs n, allow (OAttach cs) -> Forall (cwf n) cs -> Forall (P n) cs).

Definition trivV (n : nat) (m : CM N) : Prop := True.
Lemma trivU n m i (c c' : Cen) : cmP P n m -> trivV n m -> nth_error (cm_cs m) i = Some c ->
  length (c_vec c') = n -> trivV n (update_centroid m i c c').
Proof. intros; exact I. Qed.

Lemma dim_ok_cwf n (c : Cen) : dim_ok n c = true -> cwf n c.
Proof.
  unfold dim_ok. intros H. apply andb_true_iff in H. destruct H as [H1 H2].
  apply Nat.eqb_eq in H1. split; auto. apply Forall_forall. intros d Hd.
  rewrite forallb_forall in H2. apply Nat.eqb_eq; auto.
Qed.

Definition step_post (m : CM N) (t : nat) (r : list DP * list DP * CM N) (t' : nat) : Prop :=
  let '(i, o, m') := r in
  t <= t' /\ (exists n', cmP P n' m') /\ cm_thresh m' = cm_thresh m /\
  conserves E t t' (ms m ++ i) (ms m' ++ o).

Lemma step_spec n m o t : cmP P n m -> counts_ok o -> allow o -> wp (step E m o) t (step_post m t).
Proof.
  intros Hm Hco Hal. unfold step_post. destruct o; cbn [step counts_ok] in *; try (apply wp_bind).
  - (* add *)
    eapply wp_mono; [apply (cm_add_spec E HE P PA PR PW PN trivV trivU n m d t Hm); intros; exact I|].
    intros [ok m'] t' (Ht & Hth & Hf & (n' & Hm' & _) & Hc & _). cbn [fst snd] in *. apply wp_ret.
    splits; auto. { exists n'; auto. } rewrite app_nil_r. destruct ok.
    + apply Hc; auto.
    + rewrite Hf by auto. rewrite app_nil_r. apply conserves_refl.
  - eapply wp_mono; [apply (cm_drain_unordered_spec E HE P PR PW trivV trivU n m n0 t Hco Hm I)|].
    intros [ds m'] t' (Ht & Hm' & _ & Hth & _ & Hc & _). apply wp_ret. cbn [fst snd] in *.
    splits; eauto. rewrite app_nil_r; auto.
  - eapply wp_mono; [apply (cm_drain_ordered_spec E HE P PR PW trivV trivU n m n0 t Hco Hm I)|].
    intros [ds m'] t' (Ht & Hm' & _ & Hth & _ & Hc & _). apply wp_ret. cbn [fst snd] in *.
    splits; eauto. rewrite app_nil_r; auto.
  - eapply wp_mono; [apply (cm_expire_spec E P PR PW trivV trivU n m t Hm I)|].
    cbn beta. intros m' t' (-> & Hm' & _ & Hth & _ & Hst). apply wp_ret. rewrite !app_nil_r, Hst.
    splits; eauto; [lia|apply conserves_live].
  - eapply wp_mono; [apply (cm_mem_trim_spec E P PW (PT Hal) n m t Hm)|].
    cbn beta. intros m' t' (-> & Hm' & Hth & _ & Hst). apply wp_ret. rewrite !app_nil_r, Hst.
    splits; eauto; [lia|apply conserves_live].
  - eapply wp_mono; [apply (cm_move_vector_spec E P PW PM n m t Hm)|].
    intros [ok m'] t' (-> & Hm' & Hth & _ & Hst & _). apply wp_ret. cbn [snd] in *. rewrite !app_nil_r, Hst.
    splits; eauto; [lia|apply conserves_live].
  - eapply wp_mono; [apply (cm_distribute_internal_spec E HE P PA PR PW PM n m n0 t Hm)|].
    cbn beta. intros m' t' (Ht & Hm' & Hth & _ & _ & Hc). apply wp_ret. rewrite !app_nil_r. splits; eauto.
  - eapply wp_mono; [apply (cm_knn_lookup_spec E HE P PR PW trivV trivU n m v k drain t Hco Hm I)|].
    intros [ds m'] t' (Ht & Hm' & _ & Hth & _ & _ & _ & H1 & H2). apply wp_ret. cbn [fst snd] in *.
    rewrite app_nil_r. splits; eauto. destruct drain; auto. rewrite app_nil_r. apply H2; auto.
  - eapply wp_mono; [apply (cm_nearest_spec E HE P PW n m v n0 drain t Hco Hm)|].
    intros [oc m'] t' (-> & Hm' & Hth & idx & _ & _ & _ & _ & Ho). apply wp_ret. cbn [fst snd] in *.
    rewrite app_nil_r. splits; eauto. apply conserves_perm. destruct oc as [cs|].
    + destruct Ho as (_ & _ & H1 & H2). destruct drain.
      * destruct (H2 eq_refl) as [_ Hp]. change (all_dps cs) with (stored cs).
        rewrite <- stored_app. apply stored_perm; auto.
      * rewrite (H1 eq_refl), app_nil_r. auto.
    + destruct Ho as [_ ->]. rewrite app_nil_r; auto.
  - eapply wp_mono; [apply (cm_split_spec E P PA PR PW PN n m p t Hm)|].
    cbn beta. intros m' t' (Ht & Hm' & Hth & _ & Hc & _). apply wp_ret. rewrite !app_nil_r. splits; eauto.
  - eapply wp_mono; [apply (cm_merge_spec E HE P PA PR PW n m p t Hm)|].
    cbn beta. intros m' t' (Ht & Hm' & Hth & Hc & _). apply wp_ret. rewrite !app_nil_r. splits; eauto.
  - destruct (forallb (dim_ok (length (cm_vec m))) cs) eqn:Hf; apply wp_ret; splits; eauto.
    + exists n. split; cbn [cm_vec cm_cs]; [apply Hm|]. apply Forall_app; split; [apply Hm|].
      apply PC; auto. apply Forall_forall. intros c Hc. rewrite forallb_forall in Hf.
      apply dim_ok_cwf. destruct Hm as [<- _]. auto.
    + cbn [cm_cs]. rewrite app_nil_r, stored_app. apply conserves_refl.
    + rewrite !app_nil_r. apply conserves_refl.
Qed.

Lemma run_spec : forall ops n m t, cmP P n m -> Forall counts_ok ops -> Forall allow ops ->
  wp (run E m ops) t (step_post m t).
Proof.
  induction ops as [|o ops IH]; intros n m t Hm Hco Hal; cbn [run].
  - apply wp_ret. cbn. splits; eauto. rewrite !app_nil_r. apply conserves_refl.
  - inversion Hco as [|? ? Hc1 Hco']; subst. inversion Hal as [|? ? Ha1 Hal']; subst.
    apply wp_bind. eapply wp_mono; [apply (step_spec n m o t Hm Hc1 Ha1)|].
    intros [[i1 o1] m1] t1 (Ht1 & (n1 & Hm1) & Hth1 & Hcv1).
    apply wp_bind. eapply wp_mono; [apply (IH n1 m1 t1 Hm1 Hco' Hal')|].
    intros [[i2 o2] m2] t2 (Ht2 & Hm2 & Hth2 & Hcv2). apply wp_ret. cbn.
    splits; eauto; [lia|congruence|].
    eapply conserves_seq with (b := ms m1 ++ o1 ++ i2); [exact Ht1|exact Ht2| |].
    + rewrite app_assoc. eapply conserves_proper; [| |apply (conserves_frame E _ _ _ _ i2 Hcv1)]; perm.
    + eapply conserves_proper; [| |apply (conserves_frame E _ _ _ _ o1 Hcv2)]; perm.
Qed.
End HistoryProofs.

Section Histories.
Context {N : Num} (E : Env N) (HE : EnvOk E).
Notation Cen := (Centroid N).
Notation ms m := (stored (cm_cs m)).

Lemma run_cwf ops n m t : cmP cwf n m -> Forall counts_ok ops ->
  wp (run E m ops) t (step_post E cwf m t).
Proof.
  intros Hm Hco.
  apply (run_spec E HE cwf cwf_add cwf_rm cwf_id cwf_new (cwf_move E) (fun _ => True)) with (n := n); auto.
  - intros _. apply (cwf_mem_trim E).
  - apply Forall_forall; auto.
Qed.

(* Everything but MemTrim, and attached centroids already carry their mean. *)
Definition keeps_means (o : cmop N) : Prop :=
  match o with
  | OMemTrim => False
  | OAttach cs => Forall (fun c => c_dps c <> [] ->
                    c_vec c = mean_of (length (c_vec c)) (map dp_vec (c_dps c))) cs
  | _ => True
  end.

Lemma run_cmean (HX : ExactNum N) ops n m t : cmP cmean n m -> Forall counts_ok ops ->
  Forall keeps_means ops -> wp (run E m ops) t (step_post E cmean m t).
Proof.
  intros Hm Hco Hk.
  apply (run_spec E HE cmean (fun n => cmean_add n HX) (fun n => cmean_rm n HX) cmean_cwf cmean_new
           (cmean_move E HX) keeps_means) with (n := n); auto.
  - contradiction.
  - intros cs k Ha Hw. cbn [keeps_means] in Ha. rewrite Forall_forall in *. intros c Hc.
    split; [auto|]. intros Hne. rewrite (Ha c Hc Hne) at 1. destruct (Hw c Hc) as [-> _]. reflexivity.
Qed.

(* ---- the manager's vector ---- *)
Definition keeps_vec (o : cmop N) : Prop :=
  match o with
  | OMemTrim | OSplit _ | OMerge _ | OAttach _ => False
  | _ => True
  end.

Definition vec_inv (m : CM N) : Prop := exists n, cmP cwf n m /\ vmean n m.

Lemma step_vmean (HX : ExactNum N) m o t :
  vec_inv m -> (cm_thresh m <= 1)%Z -> counts_ok o -> keeps_vec o ->
  wp (step E m o) t (fun r _ => vec_inv (snd r) /\ cm_thresh (snd r) = cm_thresh m).
Proof.
  intros (n & Hm & HV) HT Hco Hk.
  pose proof (vmean_update HX cwf cwf_id) as VU.
  destruct o; cbn [step counts_ok keeps_vec] in *; try contradiction; apply wp_bind.
  - eapply wp_mono; [apply (cm_add_spec E HE cwf cwf_add cwf_rm cwf_id cwf_new vmean VU n m d t Hm); auto|].
    intros [ok m'] t' (_ & Hth & Hf & (n' & Hm' & Hn & _) & _ & Hemp & Hne). apply wp_ret. cbn [fst snd] in *.
    split; auto. destruct ok; [|rewrite Hf by auto; exists n; auto].
    exists n'. split; auto. destruct (cm_cs m) as [|c0 cs0] eqn:Hcs.
    + destruct Hemp as (c & Hc & Hv); auto. intros _. unfold cm_vecs. rewrite Hc, Hv. cbn [map].
      symmetry. apply (mean_singleton HX). rewrite <- Hv. apply Hm'.
    + rewrite Hn in * by discriminate. destruct Hne as (i & idx & c & _ & _ & _ & Hcase); auto; [discriminate|].
      destruct Hcase as [((_ & H2) & _)|(_ & HV' & _)]; [lia|auto].
  - eapply wp_mono; [apply (cm_drain_unordered_spec E HE cwf cwf_rm cwf_id vmean VU n m n0 t Hco Hm HV)|].
    intros [ds m'] t' (_ & Hm' & HV' & Hth & _). apply wp_ret. cbn [snd] in *. split; auto. exists n; auto.
  - eapply wp_mono; [apply (cm_drain_ordered_spec E HE cwf cwf_rm cwf_id vmean VU n m n0 t Hco Hm HV)|].
    intros [ds m'] t' (_ & Hm' & HV' & Hth & _). apply wp_ret. cbn [snd] in *. split; auto. exists n; auto.
  - eapply wp_mono; [apply (cm_expire_spec E cwf cwf_rm cwf_id vmean VU n m t Hm HV)|].
    cbn beta. intros m' t' (_ & Hm' & HV' & Hth & _). apply wp_ret. cbn [snd]. split; auto. exists n; auto.
  - eapply wp_mono; [apply (cm_move_vector_spec E cwf cwf_id (cwf_move E) n m t Hm)|].
    intros [ok m'] t' (_ & Hm' & Hth & _ & _ & _ & Hv). apply wp_ret. cbn [snd] in *. split; auto. exists n.
    split; auto. apply (vmean_of_fold HX n m' cwf cwf_id); auto.
  - eapply wp_mono; [apply (cm_distribute_internal_spec E HE cwf cwf_add cwf_rm cwf_id (cwf_move E) n m n0 t Hm)|].
    cbn beta. intros m' t' (_ & Hm' & Hth & Hl & Hv & _). apply wp_ret. cbn [snd]. split; auto. exists n.
    split; auto. intros Hne. apply (vmean_of_fold HX n m' cwf cwf_id); auto. apply Hv.
    intros H0. apply Hne. apply length_zero_iff_nil. rewrite Hl, H0. auto.
  - eapply wp_mono; [apply (cm_knn_lookup_spec E HE cwf cwf_rm cwf_id vmean VU n m v k drain t Hco Hm HV)|].
    intros [ds m'] t' (_ & Hm' & HV' & Hth & _). apply wp_ret. cbn [snd] in *. split; auto. exists n; auto.
  - eapply wp_mono; [apply (wp_conj _ _ _ _ (cm_nearest_spec E HE cwf cwf_id n m v n0 drain t Hco Hm)
                         (vmean_nearest E HE HX cwf cwf_id n m v n0 drain t Hco Hm HV))|].
    intros [oc m'] t' ((_ & Hm' & Hth & _) & HV'). apply wp_ret. cbn [snd] in *. split; auto. exists n; auto.
Qed.

Lemma run_vmean (HX : ExactNum N) : forall ops m t,
  vec_inv m -> (cm_thresh m <= 1)%Z -> Forall counts_ok ops -> Forall keeps_vec ops ->
  wp (run E m ops) t (fun r _ => vec_inv (snd r)).
Proof.
  induction ops as [|o ops IH]; intros m t Hm HT Hco Hk; cbn [run].
  - apply wp_ret. auto.
  - inversion Hco; subst. inversion Hk; subst. apply wp_bind.
    eapply wp_mono; [apply (step_vmean HX m o t); auto|].
    intros [[i1 o1] m1] t1 [H1' H2']. cbn [snd] in *. apply wp_bind.
    eapply wp_mono; [apply (IH m1 t1); auto; lia|].
    intros [[i2 o2] m2] t2 H. apply wp_ret. auto.
Qed.

(* ---- auto split over adds ---- *)
Lemma run_small : forall ds n m t,
  cmP cwf n m -> (2 <= cm_thresh m)%Z -> Forall (small (cm_thresh m)) (cm_cs m) ->
  wp (run E m (map OAdd ds)) t (fun r _ => Forall (small (cm_thresh m)) (cm_cs (snd r))).
Proof.
  induction ds as [|d ds IH]; intros n m t Hm HT Hs; cbn [map run step].
  - apply wp_ret; auto.
  - apply wp_bind. apply wp_bind.
    eapply wp_mono; [apply (wp_conj _ _ _ _ (cm_add_small E HE m d t n Hm HT Hs)
       (cm_add_spec E HE cwf cwf_add cwf_rm cwf_id cwf_new (fun _ _ => True) (fun _ _ _ _ _ _ _ _ _ => I) n m d t Hm (fun _ => I)))|].
    intros [ok m1] t1 (Hs1 & (_ & Hth & _ & (n' & Hm1 & _) & _)). cbn [snd] in *. apply wp_ret.
    rewrite <- Hth in *. apply wp_bind.
    eapply wp_mono; [apply (IH n' m1 t1 Hm1 HT Hs1)|].
    intros [[i2 o2] m2] t2 H. apply wp_ret. auto.
Qed.
End Histories.
