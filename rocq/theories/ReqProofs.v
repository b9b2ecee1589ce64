(* Proofs about ReqSpec.v. *)
From Verif Require Import LookupProofs Base Num MathUtils Knn Env Centroid CManager History SearchSpec DataSpec MgrSpec MgrSpec2 Wp NumFacts
  Exact CentroidProofs CMProofs CMProofs2 CMProofs3 CMProofs4 CMProofs5 HistoryProofs Props02Lemmas Props03Lemmas Props07Lemmas Proc Owns Server ServerSpec ServerFacts SeqProofs ReqSpec.
Local Open Scope nat_scope.

Section ReqProofs.
Context {N : Num} (E : Env N) (HE : EnvOk E).
Notation World := (World N).
Notation DP := (DataPoint N).
Notation ms m := (stored (cm_cs m)).

Definition others (w w' : World) (a ns : str) : Prop :=
  forall b ns', (b, ns') <> (a, ns) -> manager w' b ns' = manager w b ns'.

Lemma access_effect {A B} a ns (f : CM N -> M (A * CM N)) g (K : option A -> B) (w : World) m t (Q : A -> CM N -> nat -> Prop) :
  WorldOk w -> manager w a ns = Some m -> wp (f m) t (fun r t' => Q (fst r) (snd r) t') ->
  wp (exec (call o <- access_g a ns f g; Ret (K o)) w) t (fun r t' => exists y m', fst r = K (Some y) /\ Q y m' t' /\
    manager (snd r) a ns = Some m' /\ others w (snd r) a ns).
Proof.
  intros Hw Hm Hf. unfold wp in *. rewrite exec_bind. rewrite exec_access_g by auto. rewrite Hm.
  destruct (f m t) as [[[y m'] t1]| |]; auto. cbn [exec]. unfold ret. exists y, m'. cbn [fst snd] in *. split; auto. split; auto.
  split.
  - rewrite put_mgr_get by congruence. rewrite !str_eqb_refl. auto.
  - intros b ns' Hne. rewrite put_mgr_get by congruence. destruct (str_eqb b a) eqn:Eb; auto. cbn [andb].
    destruct (str_eqb ns' ns) eqn:En; auto. apply str_eqb_eq in Eb, En. congruence.
Qed.

Lemma wp_when {A} (m : M A) t (H : Prop) (Q : A -> nat -> Prop) :
  wp m t (fun _ _ => True) -> (H -> wp m t Q) -> wp m t (fun r t' => H -> Q r t').
Proof. unfold wp. destruct (m t) as [[x t']| |]; auto. Qed.

Lemma between_range lo hi c : in_range lo hi c = between (N := N) lo hi c.
Proof. reflexivity. Qed.

Lemma wp_all {A} (m : M A) t (Q Q' : A -> nat -> Prop) : wp m t Q -> wp m t Q' -> wp m t (fun r t' => Q r t' /\ Q' r t').
Proof. unfold wp. destruct (m t) as [[x t']| |]; auto. Qed.
Lemma wp_some {A} (m : M A) t (Q : A -> nat -> Prop) : wp m t Q -> wp m t (fun _ _ => True).
Proof. unfold wp. destruct (m t) as [[x t']| |]; auto. Qed.
Lemma wp_bind_ret {A B} (m : M A) (f : A -> B) t (Q : B -> nat -> Prop) : wp m t (fun x t' => Q (f x) t') -> wp (do x <- m; ret (f x)) t Q.
Proof. unfold wp, bind, ret. destruct (m t) as [[x t']| |]; auto. Qed.

Lemma without_nil {A} (l : list A) : without [] l = l.
Proof. unfold without. generalize 0. induction l as [|x l IH]; intros i; cbn; auto. rewrite IH. auto. Qed.

Lemma effect_of (q : req N) a ns n (w : World) m t : req_ns q = Some ns -> on_manager q -> req_counts q ->
  WorldOk w -> manager w a ns = Some m -> DimOk n m ->
  wp (exec (serve E a q) w) t (fun r t' => exists m', manager (snd r) a ns = Some m' /\
    Effect E n t t' m q (fst r) m' /\ others w (snd r) a ns).
Proof.
  intros Hns Hon Hco Hw Hm HD.
  assert (Hgo : forall A B (f : CM N -> M (A * CM N)) g (K : option A -> ans N) (F : A -> B),
    wp (f m) t (fun r t' => Effect E n t t' m q (K (Some (fst r))) (snd r)) ->
    wp (exec (call o <- access_g a ns f g; Ret (K o)) w) t (fun r t' => exists m', manager (snd r) a ns = Some m' /\
      Effect E n t t' m q (fst r) m' /\ others w (snd r) a ns)).
  { intros A B f g K F Hf. eapply wp_mono; [apply (access_effect a ns f g K w m t (fun y m' t' => Effect E n t t' m q (K (Some y)) m') Hw Hm Hf)|].
    intros r t' (y & m' & -> & H1 & H2 & H3). exists m'. auto. }
  assert (HD' : cmP cwf n m) by exact HD.
  destruct q; cbn [on_manager req_ns req_counts] in *; try contradiction; injection Hns as <-; cbn [serve].
  - (* Vec *) apply (Hgo _ unit _ _ _ (fun _ => tt)). apply wp_ret. cbn. auto.
  - (* Add *)
    assert (Hadd : wp (cm_add E m d) t (fun r t' => Effect E n t t' m (QAdd ns0 d) (ABool true) (snd r))).
    { pose proof (cm_add_stores E HE n m d t HD) as H1. pose proof (cm_add_accepts E HE n m d t HD) as H2.
      assert (H3 : wp (cm_add E m d) t (fun r t' => cm_cs m <> [] -> fst r = true ->
        exists i idx c c' new, e_knn E (dp_vec d) (map c_vec (cm_cs m)) 1%Z = Ok (i :: idx) /\
         nth_error (cm_cs m) i = Some c /\ cm_cs (snd r) = list_set (cm_cs m) i c' ++ new /\
         (new = [] /\ c_dps c' = c_dps c ++ [d] \/
          exists c2, new = [c2] /\ conserves E t t' (c_dps c ++ [d]) (c_dps c' ++ c_dps c2)))).
      { apply wp_when; [eapply wp_some; exact H1|]. intros Hne. eapply wp_mono; [apply (cm_add_where E HE n m d t HD Hne)|].
        intros r t' H Hr. destruct (H Hr) as (i & idx & c & K1 & K2 & c' & extra & K3 & K4). exists i, idx, c, c', extra. splits; auto.
        destruct K4 as [(-> & K4 & _)|(fr & -> & _ & K4 & _)]; [left; auto|right; eauto]. }
      eapply wp_mono; [apply (wp_all _ _ _ _ H1 (wp_all _ _ _ _ H2 H3))|]. intros [b m'] t' ((K1 & K2) & K3 & K4). cbn [fst snd] in *.
      cbn [Effect]. split; auto. split; [destruct b; [right; apply K2; auto|left; auto]|]. split.
      - intros Hne Hfs Hl. assert (Hb : b = true).
        { apply K3. split; [apply Hne; left; auto|]. destruct (cm_cs m) as [|c cs] eqn:Ecs; auto. right.
          split; [apply Hne; left; auto|]. apply Hfs; auto; [discriminate|]. destruct HD as (_ & HD). rewrite Ecs in HD.
          rewrite Forall_map. eapply Forall_impl; [|exact HD]. intros c0 (H0 & _). auto. }
        subst b. apply K2; auto.
      - intros Hne. destruct b; [right; auto|left; auto]. }
    unfold wp in Hadd |- *. unfold h_add. rewrite exec_bind, exec_bind, exec_access_g by auto. rewrite Hm.
    destruct (cm_add E m d t) as [[[b m'] t1]| |]; auto. cbn [exec]. unfold ret. cbn [fst snd] in *. exists m'. split.
    + rewrite put_mgr_get by congruence. rewrite !str_eqb_refl. auto.
    + split; auto. intros b' ns' Hne. rewrite put_mgr_get by congruence. destruct (str_eqb b' a) eqn:Eb; auto. cbn [andb].
      destruct (str_eqb ns' ns0) eqn:En; auto. apply str_eqb_eq in Eb, En. congruence.
  - (* DrainUnordered *) apply (Hgo _ unit _ _ _ (fun _ => tt)). cbn [Effect].
    assert (H1 : wp (cm_drain_unordered E m n0) t (fun r t' => conserves E t t' (ms m) (ms (snd r) ++ fst r) /\ Forall (seen_live E t t') (fst r))).
    { eapply wp_mono; [apply (cm_drain_unordered_spec E HE cwf cwf_rm cwf_id trivV trivU n m n0 t Hco HD' I)|]. cbn beta. tauto. }
    pose proof (wp_some _ _ _ H1) as H0.
    pose proof (wp_when _ t (1 <= n0)%Z _ H0 (fun Hk => proj1 (cm_drain_bound E HE n m n0 t Hk HD))) as H2.
    pose proof (wp_when _ t (1 <= n0)%Z _ H0 (fun Hk => wp_when _ t (never_expired E (ms m)) _ H0 (fun He => cm_drain_exact E HE n m n0 t Hk HD He))) as H3.
    pose proof (wp_when _ t (1 <= n0)%Z _ H0 (fun Hk => wp_when _ t (never_expired E (ms m)) _ H0 (fun He => cm_drain_even E HE n m n0 t Hk HD He))) as H4.
    eapply wp_mono; [apply (wp_all _ _ _ _ H1 (wp_all _ _ _ _ H2 (wp_all _ _ _ _ H3 H4)))|].
    intros [ds m'] t' ((K1 & K2) & K3 & K4 & K5). cbn [fst snd] in *. exists ds. splits; auto. intros Hk. apply K3; auto.
  - (* DrainOrdered *) apply (Hgo _ unit _ _ _ (fun _ => tt)). cbn [Effect].
    assert (H1 : wp (cm_drain_ordered E m n0) t (fun r t' => conserves E t t' (ms m) (ms (snd r) ++ fst r) /\ Forall (seen_live E t t') (fst r))).
    { eapply wp_mono; [apply (cm_drain_ordered_spec E HE cwf cwf_rm cwf_id trivV trivU n m n0 t Hco HD' I)|]. cbn beta. tauto. }
    pose proof (wp_some _ _ _ H1) as H0.
    pose proof (wp_when _ t (1 <= n0)%Z _ H0 (fun Hk => proj2 (cm_drain_bound E HE n m n0 t Hk HD))) as H2.
    pose proof (wp_when _ t (1 <= n0)%Z _ H0 (fun Hk => wp_when _ t (never_expired E (ms m)) _ H0 (fun He => cm_drain_ordered_even E HE n m n0 t Hk HD He))) as H4.
    eapply wp_mono; [apply (wp_all _ _ _ _ H1 (wp_all _ _ _ _ H2 H4))|].
    intros [ds m'] t' ((K1 & K2) & K3 & K5). cbn [fst snd] in *. exists ds. splits; auto. intros Hk; apply K3; auto.
    intros Hk He. destruct (K5 Hk He) as (ps & P1 & P2 & _ & P3). exists ps. auto.
  - (* Expire *) apply (Hgo _ unit _ _ _ (fun _ => tt)). apply wp_bind_ret. cbn [fst snd Effect].
    eapply wp_mono; [apply (cm_expire_lists E n m t HD)|]. auto.
  - (* LenDP *) apply (Hgo _ unit _ _ _ (fun _ => tt)). apply wp_ret. cbn [fst snd Effect]. rewrite cm_len_dp_stored. auto.
  - (* MemTrim *) apply (Hgo _ unit _ _ _ (fun _ => tt)). apply wp_bind_ret. cbn [fst snd Effect].
    eapply wp_mono; [apply (cm_mem_trim_lists E n m t HD)|]. auto.
  - (* MoveVector *) apply (Hgo _ unit _ _ _ (fun _ => tt)). cbn [Effect].
    assert (H1 : wp (cm_move_vector E m) t (fun r t' => (fst r = true <-> cm_cs m <> []) /\ ms (snd r) = live_from E t (ms m))).
    { eapply wp_mono; [apply (cm_move_vector_spec E cwf cwf_id (cwf_move E) n m t HD')|]. cbn beta zeta. tauto. }
    pose proof (wp_when _ t (ExactNum N) _ (wp_some _ _ _ H1) (fun HX => move_vector_restores E HX n m t HD)) as H2.
    eapply wp_mono; [apply (wp_all _ _ _ _ H1 H2)|]. intros [b m'] t' ((K1 & K2) & K3). cbn [fst snd] in *. exists b. splits; auto.
    intros HX. apply K3. auto.
  - (* DistributeInternal *) apply (Hgo _ unit _ _ _ (fun _ => tt)). apply wp_bind_ret. cbn [fst snd Effect].
    assert (H1 : wp (cm_distribute_internal E m n0) t (fun m' t' => conserves E t t' (ms m) (ms m'))).
    { eapply wp_mono; [apply (cm_distribute_internal_spec E HE cwf cwf_add cwf_rm cwf_id (cwf_move E) n m n0 t HD')|]; cbn beta; tauto. }
    pose proof (wp_some _ _ _ H1) as H0.
    pose proof (wp_when _ t (1 <= n0)%Z _ H0 (fun Hk => wp_when _ t (cm_cs m <> []) _ H0 (fun Hne => wp_when _ t (never_expired E (ms m)) _ H0
      (fun He => distribute_internal_spreads E HE n m n0 t Hk HD Hne He)))) as H2.
    eapply wp_mono; [apply (wp_all _ _ _ _ H1 H2)|]. intros m' t' (K1 & K2). auto.
  - (* KnnLookup *) apply (Hgo _ unit _ _ _ (fun _ => tt)). cbn [Effect].
    pose proof (lookup_exact E HE n m v k drain t Hco HD) as H1. pose proof (wp_some _ _ _ H1) as H0.
    pose proof (wp_when _ t (never_expired E (ms m)) _ H0 (fun He => wp_when _ t (ranks_all (e_knn E) v (map c_vec (cm_cs m))) _ H0 (fun Hr =>
      wp_when _ t (Forall (fun c => c_dps c <> [] /\ ranks_all (e_knn E) v (map dp_vec (c_dps c))) (cm_cs m)) _ H0 (fun Hf =>
      lookup_count E HE n m v k drain t Hco HD He Hr Hf)))) as H2.
    pose proof (lookup_collects E HE n m v k drain t Hco HD) as H3.
    eapply wp_mono; [apply (wp_all _ _ _ _ H1 (wp_all _ _ _ _ H2 H3))|]. intros [ds m'] t' ((K1 & K2 & K3 & K4) & K5 & K6). cbn [fst snd] in *. exists ds. splits; auto.
  - (* NearestCentroids *) apply (Hgo _ unit _ _ _ (fun _ => tt)). cbn [Effect].
    eapply wp_bind, wp_mono; [apply (nearest_exact E HE n m v n0 drain t Hco HD)|]. intros [o m'] t' (idx & K1 & _ & _ & K2). apply wp_ret. cbn [fst snd] in *.
    exists idx. split; auto. destruct o as [cs|].
    + destruct K2 as (_ & -> & K3 & K4). splits; auto. intros Hd. apply K4; auto.
    + destruct K2 as (-> & ->). splits; auto. intros _. symmetry. apply without_nil.
  - (* NearestCentroidVec *) apply (Hgo _ unit _ _ _ (fun _ => tt)). cbn [Effect].
    eapply wp_bind, wp_mono; [apply (nearest_exact E HE n m v 1%Z false t ltac:(lia) HD)|]. intros [o m'] t' (idx & K1 & _ & _ & K2). apply wp_ret. cbn [fst snd] in *.
    exists idx. split; auto. destruct o as [cs|].
    + destruct K2 as (_ & -> & K3 & _). split; auto. destruct (pick idx (cm_cs m)); auto.
    + destruct K2 as (-> & ->). auto.
  - (* SplitCentroids *) apply (Hgo _ unit _ _ _ (fun _ => tt)). apply wp_bind_ret. cbn [fst snd Effect].
    eapply wp_mono; [apply (split_exact E n m (between lo hi) t HD)|]. auto.
  - (* MergeCentroids *) apply (Hgo _ unit _ _ _ (fun _ => tt)). apply wp_bind_ret. cbn [fst snd Effect].
    assert (H1 : wp (cm_merge E m (between lo hi)) t (fun m' t' => conserves E t t' (ms m) (ms m'))).
    { eapply wp_mono; [apply (merge_exact E HE n m (between lo hi) t HD)|]. cbn beta. tauto. }
    pose proof (wp_when _ t (Forall (fun c => between lo hi c = false) (cm_cs m)) _ (wp_some _ _ _ H1) (fun Hf => merge_none E m (between lo hi) t Hf)) as H2.
    eapply wp_mono; [apply (wp_all _ _ _ _ H1 (wp_all _ _ _ _ H2 (cm_merge_absorbs E HE (between lo hi) n m t HD)))|].
    intros m' t' (K1 & K2 & K3). auto.
Qed.
End ReqProofs.
