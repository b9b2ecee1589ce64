(* Proofs of the statements collected in Props02.v. *)
From Verif Require Import Base Num MathUtils Knn Env Centroid CHistory DataSpec DataFacts Wp NumFacts Exact SearchSpec KnnProofs
  CentroidProofs DistributeProofs PortionsProofs CMProofs CMProofs2 CMProofs3 MathSpec TestEnv.
From Coq Require Import QArith Qcanon SpecFloat.
Local Open Scope nat_scope.

Section Steps.
Context {N : Num} (E : Env N) (HE : EnvOk E).
Notation DP := (DataPoint N).
Notation Cen := (Centroid N).
Context (P : Cen -> Prop).
Context (PA : AddClosed P) (PR : RmClosed P).
Context (PM : forall c t, P c -> wp (c_move_vector E c) t (fun r t' =>
   P (snd r) /\ c_dps (snd r) = live_from E t (c_dps c) /\ t' = t + length (c_dps c))).
Context (allow : cenop N -> Prop).
Context (PT : allow CMemTrim -> forall c t, P c -> wp (c_mem_trim E c) t (fun c' t' =>
   P c' /\ c_dps c' = live_from E t (c_dps c) /\ t' = t + length (c_dps c))).

Definition cstep_post (c : Cen) (t : nat) (r : cres N) (t' : nat) : Prop :=
  t <= t' /\ P (r_cen r) /\
  conserves E t t' (c_dps c ++ r_in r) (c_dps (r_cen r) ++ r_out r) /\
  Forall (seen_live E t t') (r_ret r) /\ Forall (seen_live E t t') (r_in r).

Lemma cstep_spec c o t : P c -> ccounts_ok o -> allow o -> wp (cstep E c o) t (cstep_post c t).
Proof.
  intros Hc Hco Hal. unfold cstep_post. destruct o; cbn [cstep ccounts_ok] in *; apply wp_bind.
  - eapply wp_mono; [apply c_add_spec|]. intros [ok c'] t' (Ht & H). apply wp_ret. cbn [r_in r_out r_ret r_cen].
    split; [lia|].
    destruct H as [(Hl & -> & He & [= -> ->])|[(Hl & -> & He & [= -> ->])|(Hl & -> & [= -> ->])]].
    + splits; auto.
      * cbn [add_dp_raw c_dps]. rewrite app_nil_r. apply conserves_refl.
      * constructor; auto. exists t. split; [lia|auto].
    + splits; auto. apply conserves_refl.
    + splits; auto. apply conserves_refl.
  - eapply wp_mono; [apply (c_drain_unordered_spec E P (RmClosed_0 P PR) c n t Hco Hc)|].
    intros [ds c'] t' (H1 & H2). apply wp_ret. cbn [fst snd r_in r_out r_ret r_cen] in *. rewrite app_nil_r.
    pose proof (drained_prefix_live E _ _ _ _ _ _ H2). apply drained_prefix_conserves in H2. destruct H2.
    splits; auto.
  - eapply wp_mono; [apply (c_drain_ordered_spec E P PR c n t HE Hco Hc)|].
    intros [ds c'] t' (H1 & -> & idx & _ & Hnd & _ & Hf & H2 & H3). apply wp_ret.
    cbn [fst snd r_in r_out r_ret r_cen] in *. rewrite app_nil_r, H3, H2. splits; auto; [lia| |].
    + apply picked_conserves; auto.
    + apply picked_live.
  - eapply wp_mono; [apply (c_expire_spec E P PR c t Hc)|].
    cbn beta. intros c' t' (H1 & H2 & ->). apply wp_ret. cbn [r_in r_out r_ret r_cen]. rewrite !app_nil_r, H2.
    splits; auto; [lia|apply conserves_live].
  - eapply wp_mono; [apply (PT Hal c t Hc)|].
    cbn beta. intros c' t' (H1 & H2 & ->). apply wp_ret. cbn [r_in r_out r_ret r_cen]. rewrite !app_nil_r, H2.
    splits; auto; [lia|apply conserves_live].
  - eapply wp_mono; [apply (PM c t Hc)|].
    intros [ok c'] t' (H1 & H2 & ->). apply wp_ret. cbn [snd r_in r_out r_ret r_cen] in *. rewrite !app_nil_r, H2.
    splits; auto; [lia|apply conserves_live].
  - eapply wp_mono; [apply (c_knn_lookup_spec E P PR c v k drain t HE Hco Hc)|].
    intros [ds c'] t' (H1 & -> & idx & _ & Hnd & _ & Hf & H2 & H3). apply wp_ret.
    cbn [fst snd r_in r_out r_ret r_cen] in *. rewrite app_nil_r, H3, H2. splits; auto; [lia| |].
    + destruct drain; [apply picked_conserves; auto|]. rewrite app_nil_r. apply conserves_live.
    + apply picked_live.
Qed.

Lemma seen_live_mono t t' s s' d : s <= t -> t' <= s' -> seen_live E t t' d -> seen_live E s s' d.
Proof. intros H1 H2 (k & Hk & He). exists k. split; [lia|auto]. Qed.

Lemma crun_spec : forall ops c t, P c -> Forall ccounts_ok ops -> Forall allow ops ->
  wp (crun E c ops) t (cstep_post c t).
Proof.
  induction ops as [|o ops IH]; intros c t Hc Hco Hal; cbn [crun].
  - apply wp_ret. unfold cstep_post; cbn [r_in r_out r_ret r_cen]. splits; auto. apply conserves_refl.
  - inversion Hco; subst. inversion Hal; subst. apply wp_bind.
    eapply wp_mono; [apply cstep_spec; auto|]. intros r1 t1 (Ht1 & Hc1 & Hcv1 & Hr1 & Hi1).
    apply wp_bind. eapply wp_mono; [apply IH; auto|]. intros r2 t2 (Ht2 & Hc2 & Hcv2 & Hr2 & Hi2).
    apply wp_ret. unfold cstep_post. cbn [r_in r_out r_ret r_cen]. splits; auto; [lia| | |].
    + eapply conserves_seq with (b := c_dps (r_cen r1) ++ r_out r1 ++ r_in r2); [exact Ht1|exact Ht2| |].
      * eapply conserves_proper; [| |apply (conserves_frame E _ _ _ _ (r_in r2) Hcv1)]; perm.
      * eapply conserves_proper; [| |apply (conserves_frame E _ _ _ _ (r_out r1) Hcv2)]; perm.
    + apply Forall_app; split; eapply Forall_impl; try eassumption; intros d; apply seen_live_mono; lia.
    + apply Forall_app; split; eapply Forall_impl; try eassumption; intros d; apply seen_live_mono; lia.
Qed.
End Steps.

Section Statements.
Context {N : Num} (E : Env N) (HE : EnvOk E).
Notation DP := (DataPoint N).
Notation Cen := (Centroid N).

(* Every datapoint has the centroid's dimension. *)
Definition dims (c : Cen) : Prop := Forall (fun d => length (dp_vec d) = length (c_vec c)) (c_dps c).

Lemma dims_cwf c : dims c -> cwf (length (c_vec c)) c.
Proof. intros H. split; auto. Qed.

Lemma c_add_iff c d t :
  wp (c_add E c d) t (fun r t' =>
    (fst r = true <-> length (dp_vec d) = length (c_vec c) /\ expired_at (e_now E t) d = false) /\
    (fst r = true -> c_dps (snd r) = c_dps c ++ [d]) /\ (fst r = false -> snd r = c)).
Proof.
  eapply wp_mono; [apply c_add_spec|]. intros r t' (_ & H).
  destruct H as [(Hl & _ & He & ->)|[(Hl & _ & He & ->)|(Hl & _ & ->)]]; cbn [fst snd add_dp_raw c_dps]; splits;
    auto; try discriminate; split; intros H; try discriminate; auto; destruct H; congruence.
Qed.

Lemma cstep_cwf n c o t : cwf n c -> ccounts_ok o ->
  wp (cstep E c o) t (cstep_post E (cwf n) c t).
Proof.
  intros Hc Hco. apply (cstep_spec E HE (cwf n) (cwf_add n) (cwf_rm n) (cwf_move E n) (fun _ => True)); auto.
  intros _. apply (cwf_mem_trim E n).
Qed.
Lemma crun_cwf n ops c t : cwf n c -> Forall ccounts_ok ops ->
  wp (crun E c ops) t (cstep_post E (cwf n) c t).
Proof.
  intros Hc Hco. apply (crun_spec E HE (cwf n) (cwf_add n) (cwf_rm n) (cwf_move E n) (fun _ => True)); auto.
  - intros _. apply (cwf_mem_trim E n).
  - apply Forall_forall; auto.
Qed.
Lemma crun_cmean (HX : ExactNum N) n ops c t : cmean n c -> Forall ccounts_ok ops ->
  Forall (fun o => o <> CMemTrim) ops ->
  wp (crun E c ops) t (cstep_post E (cmean n) c t).
Proof.
  intros Hc Hco Ha.
  apply (crun_spec E HE (cmean n) (cmean_add n HX) (cmean_rm n HX) (cmean_move E HX n) (fun o => o <> CMemTrim)); auto.
  congruence.
Qed.

(* C10 *)
Lemma centroid_conserves c o t : dims c -> ccounts_ok o ->
  wp (cstep E c o) t (fun r t' => dims (r_cen r) /\ length (c_vec (r_cen r)) = length (c_vec c) /\
    conserves E t t' (c_dps c ++ r_in r) (c_dps (r_cen r) ++ r_out r)).
Proof.
  intros Hd Hco. eapply wp_mono; [apply (cstep_cwf _ c o t (dims_cwf c Hd) Hco)|].
  intros r t' (Ht & (Hl & Hc) & Hcv & _). splits; auto. unfold dims. rewrite Hl; auto.
Qed.
Lemma centroid_history_conserves v ops t : Forall ccounts_ok ops ->
  wp (crun E (new_centroid v) ops) t (fun r t' =>
    dims (r_cen r) /\ conserves E t t' (r_in r) (c_dps (r_cen r) ++ r_out r)).
Proof.
  intros Hco. eapply wp_mono; [apply (crun_cwf (length v) ops (new_centroid v) t (cwf_new _ v eq_refl) Hco)|].
  intros r t' (Ht & (Hl & Hc) & Hcv & _). split; auto. unfold dims. rewrite Hl; auto.
Qed.
(* C11 *)
Lemma centroid_returns_live c o t : dims c -> ccounts_ok o ->
  wp (cstep E c o) t (fun r t' => Forall (seen_live E t t') (r_ret r)).
Proof.
  intros Hd Hco. eapply wp_mono; [apply (cstep_cwf _ c o t (dims_cwf c Hd) Hco)|].
  intros r t' (_ & _ & _ & H & _). auto.
Qed.
(* C12 *)
Lemma centroid_mean (HX : ExactNum N) v ops t : Forall ccounts_ok ops -> ~ In CMemTrim ops ->
  wp (crun E (new_centroid v) ops) t (fun r _ =>
    c_dps (r_cen r) <> [] ->
    c_vec (r_cen r) = mean_of (length v) (map dp_vec (c_dps (r_cen r)))).
Proof.
  intros Hco Hn. eapply wp_mono; [apply (crun_cmean HX (length v) ops (new_centroid v) t (cmean_new _ v eq_refl) Hco)|].
  - apply Forall_forall. intros o Ho ->. auto.
  - intros r t' (_ & (_ & H) & _). auto.
Qed.
(* C13 *)
Lemma mem_trim_vec (HX : ExactNum N) c l d t : dims c -> c_dps c = l ++ [d] ->
  c_vec c = mean_of (length (c_vec c)) (map dp_vec (c_dps c)) ->
  wp (c_mem_trim E c) t (fun c' t' => c_vec c' = dp_vec d /\ c_dps c' = live_from E t (c_dps c)).
Proof.
  intros Hd Hl Hm. apply (c_mem_trim_vec E HX (length (c_vec c)) l d c t); auto.
  split; auto. apply dims_cwf; auto.
Qed.
(* C14 *)
Lemma move_vector_repairs n (HX : ExactNum N) c t :
  Forall (fun d => length (dp_vec d) = n) (c_dps c) ->
  wp (c_move_vector E c) t (fun r t' =>
    let l := live_from E t (c_dps c) in
    c_dps (snd r) = l /\
    (l <> [] -> fst r = true /\ c_vec (snd r) = mean_of n (map dp_vec l)) /\
    (l = [] -> fst r = false)).
Proof. apply c_move_vector_repairs; auto. Qed.
(* C16 *)
Lemma drain_unordered_prefix c n t : (0 <= n)%Z ->
  wp (c_drain_unordered E c n) t (fun r t' =>
    exists pre, c_dps c = pre ++ c_dps (snd r) /\ fst r = live_from E t pre /\ t' = t + length pre /\
      (Z.of_nat (length (fst r)) <= n)%Z /\
      ((Z.of_nat (length (fst r)) < n)%Z -> c_dps (snd r) = [])).
Proof.
  intros Hn. eapply wp_mono; [apply (c_drain_unordered_spec E (fun _ => True)); auto|].
  { intros ? ? ? ? ?; auto. }
  intros [ds c'] t' (_ & pre & H1 & H2 & H3 & H4 & H5 & _). cbn [fst snd] in *.
  exists pre. splits; auto; [lia|]. intros; apply H5. lia.
Qed.
(* C17 *)
Lemma drain_ordered_exact c n t : (0 <= n)%Z ->
  wp (c_drain_ordered E c n) t (fun r t' =>
    let l := live_from E t (c_dps c) in
    exists idx, e_kfn E (c_vec c) (map dp_vec l) n = Ok idx /\
      fst r = pick idx l /\ c_dps (snd r) = without idx l /\
      Permutation l (c_dps (snd r) ++ fst r)).
Proof.
  intros Hn. eapply wp_mono; [apply (c_drain_ordered_spec E (fun _ => True)); auto|].
  { intros ? ? ? ? ?; auto. }
  intros [ds c'] t' (_ & _ & idx & H1 & Hnd & _ & Hf & H2 & H3). cbn [fst snd] in *.
  exists idx. splits; auto. rewrite H2, H3.
  rewrite (pick_without idx (live_from E t (c_dps c)) Hnd Hf) at 1. apply Permutation_app_comm.
Qed.
(* C18 *)
Lemma knn_lookup_exact c v k drain t : (0 <= k)%Z ->
  wp (c_knn_lookup E c v k drain) t (fun r t' =>
    let l := live_from E t (c_dps c) in
    exists idx, e_knn E v (map dp_vec l) k = Ok idx /\
      fst r = pick idx l /\ c_dps (snd r) = (if drain then without idx l else l) /\
      Permutation l (without idx l ++ fst r)).
Proof.
  intros Hn. eapply wp_mono; [apply (c_knn_lookup_spec E (fun _ => True)); auto|].
  { intros ? ? ? ? ?; auto. }
  intros [ds c'] t' (_ & _ & idx & H1 & Hnd & _ & Hf & H2 & H3). cbn [fst snd] in *.
  exists idx. splits; auto. rewrite H2.
  rewrite (pick_without idx (live_from E t (c_dps c)) Hnd Hf) at 1. apply Permutation_app_comm.
Qed.
(* C19 *)
Lemma expire_exact c t :
  wp (c_expire E c) t (fun c' t' => c_dps c' = live_from E t (c_dps c) /\ t' = t + length (c_dps c)).
Proof.
  eapply wp_mono; [apply (c_expire_spec E (fun _ => True)); auto|].
  - intros ? ? ? ? ?; auto.
  - cbn beta. tauto.
Qed.
(* C20 *)
Lemma distribute_conserves pool self n recv t :
  Forall dims pool -> self < length pool -> (0 <= n)%Z -> Forall (fun r => r < length pool) recv ->
  wp (c_distribute E pool self n recv) t (fun pool' t' =>
    conserves E t t' (concat (map c_dps pool)) (concat (map c_dps pool')) /\
    Forall dims pool' /\ length pool' = length pool /\
    (forall j, j <> self -> ~ In j recv -> nth_error pool' j = nth_error pool j) /\
    (recv = [] -> pool' = pool)).
Proof.
  intros Hd Hs Hn Hr.
  set (ds := map (fun c => length (c_vec c)) pool).
  assert (H2 : Forall2 cwf ds pool).
  { unfold ds. clear -Hd. induction Hd; cbn [map]; constructor; auto. apply dims_cwf; auto. }
  eapply wp_mono; [apply (c_distribute_spec E HE cwf cwf_add cwf_rm cwf_id ds pool self n recv t H2 Hs Hn Hr)|].
  cbn beta. intros pool' t' (_ & HF & [Hl Hfr] & Hnil & Hc). splits; auto.
  - clear -HF. induction HF as [|x y l l' Hxy HF IH]; constructor; auto.
    destruct Hxy as [H1 H2]. unfold dims. rewrite H1; auto.
  - intros j H1 H3. apply Hfr. intros [H|H]; auto.
Qed.
End Statements.

(* C17, C18 with the searches the service configures *)
Lemma drain_ordered_worst (E : Env f64) (HE : EnvOk E) dist asc c n t :
  (e_kfn E = knn_brute dist asc) -> (0 <= n)%Z ->
  wp (c_drain_ordered E c n) t (fun r t' =>
    let l := live_from E t (c_dps c) in
    exists idx, BestK dist asc (c_vec c) (map dp_vec l) (Z.to_nat n) idx /\
      fst r = pick idx l /\ c_dps (snd r) = without idx l).
Proof.
  intros Hs Hn. eapply wp_mono; [apply (drain_ordered_exact E HE c n t Hn)|].
  intros r t' (idx & H1 & H2 & H3 & _). rewrite Hs in H1.
  destruct (knn_brute_bestk f64_ord dist asc (c_vec c) (map dp_vec (live_from E t (c_dps c))) n Hn) as (idx' & H4 & H5).
  rewrite H4 in H1. injection H1 as ->. exists idx. auto.
Qed.
Lemma knn_lookup_best (E : Env f64) (HE : EnvOk E) dist asc c v k drain t :
  (e_knn E = knn_brute dist asc) -> (0 <= k)%Z ->
  wp (c_knn_lookup E c v k drain) t (fun r t' =>
    let l := live_from E t (c_dps c) in
    exists idx, BestK dist asc v (map dp_vec l) (Z.to_nat k) idx /\
      fst r = pick idx l /\ c_dps (snd r) = (if drain then without idx l else l)).
Proof.
  intros Hs Hn. eapply wp_mono; [apply (knn_lookup_exact E HE c v k drain t Hn)|].
  intros r t' (idx & H1 & H2 & H3 & _). rewrite Hs in H1.
  destruct (knn_brute_bestk f64_ord dist asc v (map dp_vec (live_from E t (c_dps c))) k Hn) as (idx' & H4 & H5).
  rewrite H4 in H1. injection H1 as ->. exists idx. auto.
Qed.
Lemma negative_counts_panic {N : Num} (E : Env N) c n v drain t : (n < 0)%Z ->
  c_drain_unordered E c n t = Panic /\ c_drain_ordered E c n t = Panic /\
  c_knn_lookup E c v n drain t = Panic.
Proof.
  intros H. unfold c_drain_unordered, c_drain_ordered, c_knn_lookup.
  assert ((n <? 0)%Z = true) as -> by lia. auto.
Qed.
Lemma centroid_history_returns_live {N : Num} (E : Env N) (HE : EnvOk E) v ops t : Forall ccounts_ok ops ->
  wp (crun E (new_centroid v) ops) t (fun r t' => Forall (seen_live E t t') (r_ret r)).
Proof.
  intros Hco. eapply wp_mono; [apply (crun_cwf E HE (length v) ops (new_centroid v) t (cwf_new _ v eq_refl) Hco)|].
  intros r t' (_ & _ & _ & H & _). auto.
Qed.
Lemma mem_trim_data {N : Num} (E : Env N) c t : dims c ->
  wp (c_mem_trim E c) t (fun c' t' => c_dps c' = live_from E t (c_dps c) /\ length (c_vec c') = length (c_vec c)).
Proof.
  intros Hd. eapply wp_mono; [apply (cwf_mem_trim E _ c t (dims_cwf c Hd))|].
  cbn beta. intros c' t' ((H1 & _) & H2 & _). auto.
Qed.

(* ---- witnesses ---- *)
Lemma mem_trim_refuted : exists (c c' : Centroid qc) t',
  dims c /\ c_vec c = mean_of 1 (map dp_vec (c_dps c)) /\
  c_mem_trim ratE c 0 = Ok (c', t') /\ c_dps c' = c_dps c /\
  c_vec c' <> mean_of 1 (map dp_vec (c_dps c')).
Proof.
  set (c := MkC (qv [1]%Z) [dq [0]%Z; dq [2]%Z]).
  assert (Hd : dims c) by (repeat constructor).
  assert (Hm : c_vec c = mean_of 1 (map dp_vec (c_dps c))) by (apply qv_ext; vm_compute; reflexivity).
  destruct (wp_elim _ _ _ (mem_trim_vec ratE qc_exact c [dq [0]%Z] (dq [2]%Z) 0 Hd eq_refl Hm))
    as (c' & t' & Hr & H1 & H2).
  exists c, c', t'. split; [exact Hd|]. split; [exact Hm|]. split; [exact Hr|].
  assert (H3 : c_dps c' = c_dps c) by (rewrite H2; reflexivity). split; [exact H3|].
  rewrite H1, H3, <- Hm. intros H. apply (f_equal (map this)) in H. vm_compute in H. discriminate H.
Qed.

Definition big : DataPoint f64 := dp [10 ^ 308]%Z.
Definition is_finite (x : F f64) : bool :=
  match x with S754_zero _ | S754_finite _ _ _ => true | _ => false end.

Lemma ieee_mean_refuted : exists (ops : list (cenop f64)) r t',
  Forall ccounts_ok ops /\ ~ In CMemTrim ops /\
  crun cosE (new_centroid (fv [0]%Z)) ops 0 = Ok (r, t') /\
  c_dps (r_cen r) <> [] /\
  Forall (fun d : DataPoint f64 => forallb is_finite (dp_vec d) = true) (r_in r) /\
  forallb is_finite (mean_of 1 (map dp_vec (c_dps (r_cen r)))) = true /\
  forallb is_finite (c_vec (r_cen r)) = false.
Proof.
  set (ops := [CAdd big; CAdd big; CAdd (dp [1]%Z); CDrainUnordered 2]).
  assert (H : wp (crun cosE (new_centroid (fv [0]%Z)) ops) 0 (fun r _ =>
    negb (length (c_dps (r_cen r)) =? 0) &&
    forallb (fun d : DataPoint f64 => forallb is_finite (dp_vec d)) (r_in r) &&
    forallb is_finite (mean_of 1 (map dp_vec (c_dps (r_cen r)))) &&
    negb (forallb is_finite (c_vec (r_cen r))) = true)) by (vm_compute; reflexivity).
  apply wp_elim in H. destruct H as (r & t' & Hr & H).
  apply andb_true_iff in H. destruct H as [H H4]. apply andb_true_iff in H. destruct H as [H H3].
  apply andb_true_iff in H. destruct H as [H1 H2].
  exists ops, r, t'. split.
  { constructor; [exact I|]. constructor; [exact I|]. constructor; [exact I|].
    constructor; [|constructor]. cbn [ccounts_ok]. lia. }
  split; [intros [H|[H|[H|[H|[]]]]]; discriminate H|]. split; [exact Hr|].
  split; [intros Hn; rewrite Hn in H1; discriminate|].
  split; [apply Forall_forall; rewrite forallb_forall in H2; exact H2|].
  split; [exact H3|]. apply negb_true_iff. exact H4.
Qed.
