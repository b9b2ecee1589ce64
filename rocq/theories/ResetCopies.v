(* What a lossy network, and nodes that are emptied meanwhile, can and cannot do to the data. *)
From Verif Require Import Base Num MathUtils Knn Env Centroid CManager DataSpec MgrSpec Wp NumFacts Proc Owns
  Server ServerSpec ServerFacts Slots Core EventLoop CoreSpec OriginSpec OriginProofs CopiesProofs LossProofs Reset ResetProofs.

Lemma forget_tags {N : Num} (w : World N) a : OriginProofs.tags_le (OriginProofs.tagged w) (OriginProofs.tagged (forget w a)).
Proof.
  intros b p ns (nd & m & H1 & H2). unfold OriginProofs.tagged. pose proof (forget_node w a b) as H. unfold node_at in H. rewrite H, H1.
  destruct (str_eqb b a); cbn [option_map]; eexists; exists m; split; eauto.
Qed.
Lemma forget_forall {N : Num} (P : Node N -> Prop) (w : World N) a : (forall nd, P nd -> P (MkNode (nd_heap nd) [] (nd_thresh nd))) ->
  Forall (fun e => P (snd e)) (w_nodes w) -> Forall (fun e => P (snd e)) (w_nodes (forget w a)).
Proof.
  intros HP H. unfold forget. destruct (assoc a (w_nodes w)) as [nd|] eqn:Ha; auto. cbn [set_node w_nodes]. apply upsert_forall; auto.
  intros k' _. cbn [snd]. apply HP. rewrite Forall_forall in H. apply (H (a, nd)). apply assoc_in. exact Ha.
Qed.
Lemma members_perm {N : Num} f (l l' : list (str * DataPoint N)) : Permutation l l' -> members f l = members f l'.
Proof.
  intros H. unfold members. induction H; cbn [filter]; auto; try lia.
  - destruct (f (fst x) (snd x)); cbn [length]; auto.
  - destruct (f (fst x) (snd x)), (f (fst y) (snd y)); cbn [length]; auto.
Qed.
Lemma forget_CInv {N : Num} (w : World N) a : CInv w -> CInv (forget w a).
Proof. apply forget_forall. intros nd (H1 & H2). split; auto. cbn [nd_tbl assoc]. discriminate. Qed.
Lemma forget_wt {N : Num} f (w : World N) a : wt f (forget w a) = wt f w.
Proof. unfold wt. rewrite forget_dropped, (members_perm f _ _ (forget_data w a)). reflexivity. Qed.

Lemma pays_reset {N : Num} (E : Env N) f T a : pays E f T (run_reset a) 0 (ends f).
Proof.
  unfold run_reset, h_reset. cbn [pbind pays]. intros w t x w' t' Hw HT H. unfold ret in H. inversion H; subst. splits; auto.
  - apply forget_CInv; auto.
  - apply forget_tags.
  - exists 0. rewrite forget_wt. split; [lia|]. unfold ends. cbn. lia.
Qed.
Lemma owes_reset {N : Num} f T a : owes (N := N) f T (run_reset a) 0 (owed f).
Proof.
  unfold run_reset, h_reset. cbn [pbind owes]. intros w t x w' t' Hw HT H. unfold ret in H. inversion H; subst. splits; auto.
  - apply forget_CInv; auto.
  - apply forget_tags.
  - exists 0. rewrite forget_wt. split; [lia|]. unfold owed. lia.
Qed.
Lemma holds_reset {N : Num} P K a : holds (N := N) P K (run_reset a) (done_ok P).
Proof.
  unfold run_reset, h_reset. cbn [pbind holds]. intros w t x w' t' (Hw & Hd) HT H. unfold ret in H. inversion H; subst. splits; auto.
  - split; [|rewrite forget_dropped; auto]. apply forget_forall; auto. intros nd (H1 & H2). split; auto. cbn [nd_tbl assoc]. discriminate.
  - apply forget_tags.
  - constructor.
Qed.
Lemma sum_zeros {A} (rs : list A) : list_sum (map (fun _ => 0) rs) = 0.
Proof. induction rs; auto. Qed.

Theorem reset_made_up (N : Num) (E : Env N) jobs rs sched t (w : World N) l w' t' : WorldOk w ->
  interleave DIdle sched (with_resets E jobs rs) w t = Ok ((l, w'), t') ->
  let known := all_data w ++ w_dropped w ++ jobs_in jobs in
  incl (all_data w') known /\ incl (w_dropped w') known /\ (forall x, In (Ret x) l -> incl (shown x) known).
Proof.
  intros (Hn & Hw) H known. set (P := fun ns d => In (ns, d) known).
  assert (Hinv : OInv P w).
  { split.
    - apply Forall_forall. intros [a nd] Hi. cbn [snd]. destruct (Hw _ _ Hi) as (H1 & H2). split.
      + apply Forall_forall. intros [ns m] Hm. cbn [fst snd]. apply okm_stored. apply Forall_forall. intros d Hd. unfold P, known. apply in_or_app. left.
        unfold all_data. apply in_concat. exists (node_data nd). split; [apply in_map_iff; exists (a, nd); auto|]. eapply node_data_in; eauto.
      + intros ns p Hp. apply H2. apply assoc_in. exact Hp.
    - apply Forall_forall. intros [ns d] Hi. unfold P, known. cbn [fst snd]. apply in_or_app. right. apply in_or_app. auto. }
  destruct (interleave_origin P DIdle (done_ok P)) with (sched := sched) (l := with_resets E jobs rs) (w := w) (t := t) (l' := l) (w' := w') (t' := t')
    as ((H1 & H2) & H3); auto.
  - constructor.
  - apply Forall_app. split; [|apply Forall_forall; intros p Hp; apply in_map_iff in Hp; destruct Hp as (a & <- & _); apply holds_reset].
    apply Forall_forall. intros p Hp. apply in_map_iff in Hp. destruct Hp as (j & <- & Hj). apply (sound_job E P j).
    apply Forall_forall. intros [ns d] Hd. unfold P, known. cbn [fst snd]. apply in_or_app. right. apply in_or_app. right. unfold jobs_in. apply in_concat.
    exists (job_in j). split; auto. apply in_map. exact Hj.
  - splits.
    + intros [ns d] Hd. unfold all_data in Hd. apply in_concat in Hd. destruct Hd as (x & Hx & Hd). apply in_map_iff in Hx. destruct Hx as ([a nd] & <- & Hx).
      rewrite Forall_forall in H1. destruct (H1 _ Hx) as (K1 & _). cbn [snd] in K1, Hd. unfold node_data in Hd. apply in_concat in Hd.
      destruct Hd as (y & Hy & Hd). apply in_map_iff in Hy. destruct Hy as ([n m] & <- & Hy). rewrite Forall_forall in K1. specialize (K1 _ Hy). cbn [fst snd] in K1, Hd.
      unfold tag in Hd. apply in_map_iff in Hd. destruct Hd as (d' & He & Hd). inversion He; subst. apply okm_stored in K1. rewrite Forall_forall in K1. exact (K1 _ Hd).
    + intros [ns d] Hd. rewrite Forall_forall in H2. exact (H2 _ Hd).
    + intros x Hx [ns d] Hd. rewrite Forall_forall in H3. specialize (H3 _ Hx). cbn [holds] in H3. unfold done_ok in H3. rewrite Forall_forall in H3. exact (H3 _ Hd).
Qed.

Theorem reset_copies (N : Num) (E : Env N) : EnvOk E -> forall f jobs rs sched t (w : World N) l w' t', WorldOk w -> OwnDims any_dim w -> Forall job_counts jobs ->
  interleave DIdle sched (with_resets E jobs rs) w t = Ok ((l, w'), t') ->
  members f (all_data w') + members f (w_dropped w') + members f (jobs_out (ended l)) <=
  members f (all_data w) + members f (w_dropped w) + members f (jobs_in jobs) + answers_lost E t t'.
Proof.
  intros HE f jobs rs sched t w l w' t' (Hn & Hw) HD Hj H.
  assert (Hi : CInv w).
  { apply Forall_forall. intros [a nd] Hi. cbn [snd]. destruct (Hw _ _ Hi) as (H1 & H2). split.
    - apply Forall_forall. intros [ns m] Hm. cbn [fst snd]. eapply HD; eauto.
    - intros ns p Hp. apply H2. apply assoc_in. exact Hp. }
  assert (Hh : exists ns, held E f (tagged w) (ends f) (map (run_job E) jobs) ns /\ list_sum ns = members f (jobs_in jobs)).
  { clear H. unfold jobs_in. induction Hj as [|j jobs Hj Hjs IH]; [exists []; split; [constructor|reflexivity]|]. destruct IH as (ns & H1 & H2).
    exists (members f (job_in j) :: ns). cbn [map concat list_sum fold_right]. fold (list_sum ns). rewrite members_app, H2. split; auto. constructor; auto.
    pose proof (CopiesProofs.tri_job E HE f j Hj (tagged w) 0) as Ht. rewrite Nat.add_0_r in Ht. eapply pays_weak; [exact Ht|lia|]. intros d m (_ & Hd). unfold ends. lia. }
  destruct Hh as (ns0 & H1' & H2').
  assert (Hh : exists ns, held E f (tagged w) (ends f) (with_resets E jobs rs) ns /\ list_sum ns = members f (jobs_in jobs)).
  { exists (ns0 ++ map (fun _ => 0) rs). split; [|rewrite list_sum_app, sum_zeros; lia]. apply Forall2_app; auto.
    clear. induction rs; cbn [map]; constructor; auto. apply pays_reset. }
  destruct Hh as (ns & H1 & H2). destruct (interleave_pays E f sched _ _ _ _ _ _ _ H1 Hi H) as (H3 & H4 & ns' & H5 & H6).
  apply ended_paid in H5. unfold wt in H6. rewrite (L_split E t t' H4) in H6. lia.
Qed.

Theorem reset_nothing_lost (N : Num) (E : Env N) : EnvOk E -> forall f jobs rs sched t (w : World N) l w' t', lives E f -> WorldOk w -> OwnDims any_dim w ->
  Forall job_counts jobs -> Forall nothing_drained jobs ->
  interleave DIdle sched (with_resets E jobs rs) w t = Ok ((l, w'), t') -> Forall is_ret l ->
  members f (all_data w) + members f (w_dropped w) + members f (jobs_in jobs) <=
  members f (all_data w') + members f (w_dropped w') + members f (jobs_out (ended l)).
Proof.
  intros HE f jobs rs sched t w l w' t' HL (Hn & Hw) HD Hj Hd H Hret.
  assert (Hi : CInv w).
  { apply Forall_forall. intros [a nd] Hi. cbn [snd]. destruct (Hw _ _ Hi) as (H1 & H2). split.
    - apply Forall_forall. intros [ns m] Hm. cbn [fst snd]. eapply HD; eauto.
    - intros ns p Hp. apply H2. apply assoc_in. exact Hp. }
  assert (Hh : exists ns, left f (tagged w) (owed f) (map (run_job E) jobs) ns /\ list_sum ns = members f (jobs_in jobs)).
  { clear H. unfold jobs_in. induction Hj as [|j jobs Hj Hjs IH]; [exists []; split; [constructor|reflexivity]|]. inversion Hd as [|? ? Hd1 Hd2]; subst.
    destruct (IH Hd2) as (ns & H1 & H2).
    exists (members f (job_in j) :: ns). cbn [map concat list_sum fold_right]. fold (list_sum ns). rewrite members_app, H2. split; auto. constructor; auto.
    pose proof (LossProofs.tri_job E HE f HL j Hj Hd1 (tagged w) 0) as Ht. rewrite Nat.add_0_r in Ht. eapply owes_weak; [exact Ht|lia|]. intros d m m' (_ & Hm) Hl. unfold owed. lia. }
  destruct Hh as (ns0 & H1' & H2').
  assert (Hh : exists ns, left f (tagged w) (owed f) (with_resets E jobs rs) ns /\ list_sum ns = members f (jobs_in jobs)).
  { exists (ns0 ++ map (fun _ => 0) rs). split; [|rewrite list_sum_app, sum_zeros; lia]. apply Forall2_app; auto.
    clear. induction rs; cbn [map]; constructor; auto. apply owes_reset. }
  destruct Hh as (ns & H1 & H2). destruct (interleave_owes f sched _ _ _ _ _ _ _ H1 Hi H) as (H3 & ns' & H5 & H6).
  apply ended_owed in H5; auto. unfold CopiesProofs.wt in H6. lia.
Qed.
