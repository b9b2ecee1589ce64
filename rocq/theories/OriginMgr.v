(* No operation of a centroid or a manager makes up a datapoint: whatever holds for all
   datapoints that go in holds for all that are stored and all that come out. *)
From Verif Require Import Base Num MathUtils Env Centroid CManager DataSpec ThreshProofs.

Section OriginMgr.
Context {N : Num} (E : Env N) (P : DataPoint N -> Prop).
Notation DP := (DataPoint N).
Notation Cen := (Centroid N).
Notation CM := (CM N).

Definition okc (c : Cen) : Prop := Forall P (c_dps c).
Definition okm (m : CM) : Prop := Forall okc (cm_cs m).

Lemma gives_index {A} (l : list A) i : gives (index l i) (fun x => In x l).
Proof.
  unfold index. destruct (nth_error l i) eqn:H; [|apply gives_panic]. apply gives_ret. eapply nth_error_In; eauto.
Qed.
Lemma gives_at {A} (Q : A -> Prop) l i : Forall Q l -> gives (index l i) Q.
Proof. intros H t x t' He. apply gives_index in He. rewrite Forall_forall in H. auto. Qed.
Lemma gives_weak {A} (m : M A) (Q Q' : A -> Prop) : gives m Q -> (forall x, Q x -> Q' x) -> gives m Q'.
Proof. intros H HQ t x t' He. eapply HQ, H, He. Qed.
Lemma gives_any {A} (m : M A) : gives m (fun _ => True).
Proof. intros t x t' _. exact I. Qed.
Lemma gives_fuel {A} (Q : A -> Prop) : gives out_of_fuel Q.
Proof. intros t x t' H. discriminate. Qed.
Lemma forall_remove {A} (Q : A -> Prop) i l : Forall Q l -> Forall Q (remove_at i l).
Proof.
  intros H. unfold remove_at. apply Forall_app. split.
  - apply Forall_forall. intros x Hx. rewrite Forall_forall in H. apply H. rewrite <- (firstn_skipn i l). apply in_or_app; auto.
  - apply Forall_forall. intros x Hx. rewrite Forall_forall in H. apply H. rewrite <- (firstn_skipn (S i) l). apply in_or_app; auto.
Qed.

(* ---- centroids ---- *)
Lemma add_origin c d : okc c -> P d -> gives (c_add E c d) (fun r => okc (snd r)).
Proof.
  intros Hc Hd. unfold c_add. destruct (negb _); [apply gives_ret; auto|]. apply gives_then. intros [|]; apply gives_ret; auto.
  cbn [snd]. unfold okc, add_dp_raw. cbn [c_dps]. apply Forall_app. auto.
Qed.
Lemma rm_origin c i : okc c -> gives (rm_dp c i) okc.
Proof. intros Hc. unfold rm_dp. apply gives_then. intros d. apply gives_ret. unfold okc. cbn [c_dps]. apply forall_remove; auto. Qed.
Lemma skip_origin : forall fuel c i, okc c -> gives (skip_expired E fuel c i) okc.
Proof.
  induction fuel; intros c i Hc; cbn [skip_expired]; (destruct (_ <? _); [|apply gives_ret; auto]); apply gives_then; intros d; apply gives_then; intros [|];
    try (apply gives_ret; auto); [apply gives_fuel|].
  eapply gives_bind; [apply rm_origin; auto|]. auto.
Qed.
Lemma gen_origin s : okc (fst s) -> gives (dp_vec_gen E s) (fun r => okc (fst (snd r))).
Proof.
  destruct s as [c i]. cbn [fst dp_vec_gen]. intros Hc. eapply gives_bind; [apply skip_origin; auto|]. intros c' Hc'.
  destruct (nth_error _ _); apply gives_ret; auto.
Qed.

(* A generator that keeps I. *)
Lemma exhaust_keeps {S} (I : S -> Prop) (g : Gen S) : (forall s, I s -> gives (g s) (fun r => I (snd r))) ->
  forall fuel s, I s -> gives (exhaust (N := N) fuel g s) (fun r => I (snd r)).
Proof.
  intros Hg. induction fuel; intros s Hs; cbn [exhaust]; [apply gives_fuel|].
  eapply gives_bind; [apply Hg; auto|]. intros [[v|] s'] H; [|apply gives_ret; auto].
  eapply gives_bind; [apply IHfuel; exact H|]. intros [vs s''] H'. apply gives_ret. exact H'.
Qed.
Lemma mean_loop_keeps {S} (I : S -> Prop) (g : Gen S) : (forall s, I s -> gives (g s) (fun r => I (snd r))) ->
  forall fuel s res n, I s -> gives (vec_mean_loop (N := N) fuel g s res n) (fun r => I (snd r)).
Proof.
  intros Hg. induction fuel; intros s res n Hs; cbn [vec_mean_loop]; [apply gives_fuel|].
  eapply gives_bind; [apply Hg; auto|]. intros [[v|] s'] H; [|apply gives_ret; auto].
  destruct (_ =? _); [apply IHfuel; exact H|apply gives_ret; auto].
Qed.
Lemma mean_keeps {S} (I : S -> Prop) (g : Gen S) : (forall s, I s -> gives (g s) (fun r => I (snd r))) ->
  forall fuel s, I s -> gives (vec_mean (N := N) fuel g s) (fun r => I (snd r)).
Proof.
  intros Hg fuel s Hs. unfold vec_mean. eapply gives_bind; [apply Hg; auto|]. intros [[v|] s'] H; [|apply gives_ret; auto].
  eapply gives_bind; [apply (mean_loop_keeps I); auto; exact H|]. intros [[[res n] ok] s2] H2. destruct ok; apply gives_ret; auto.
Qed.

Lemma search_origin s v c k : okc c -> gives (search_dps E s v c k) (fun r => okc (snd r)).
Proof.
  intros Hc. unfold search_dps. eapply gives_bind; [apply (exhaust_keeps (fun s => okc (fst s))); [apply gen_origin|exact Hc]|].
  intros [vs [c' i]] H. apply gives_then. intros idx. apply gives_ret. exact H.
Qed.
Lemma move_c_origin c : okc c -> gives (c_move_vector E c) (fun r => okc (snd r)).
Proof.
  intros Hc. unfold c_move_vector. eapply gives_bind; [apply (mean_keeps (fun s => okc (fst s))); [apply gen_origin|exact Hc]|].
  intros [[v ok] [c' i]] H. apply gives_ret. destruct ok; exact H.
Qed.
Lemma all_origin {A} (Q : A -> Prop) l : Forall Q l -> forall idx, gives (index_all l idx) (Forall Q).
Proof.
  intros Hl. induction idx as [|i idx IH]; cbn [index_all]; [apply gives_ret; auto|].
  eapply gives_bind; [apply gives_at, Hl|]. intros x Hx. eapply gives_bind; [apply IH|]. intros xs Hxs. apply gives_ret. auto.
Qed.
Lemma rm_all_origin : forall idx c, okc c -> gives (rm_all c idx) okc.
Proof.
  induction idx as [|i idx IH]; intros c Hc; cbn [rm_all]; [apply gives_ret; auto|].
  eapply gives_bind; [apply rm_origin; auto|]. auto.
Qed.
Definition okr (r : list DP * Cen) : Prop := Forall P (fst r) /\ okc (snd r).
Lemma drain_loop_origin : forall fuel c n res, okc c -> Forall P res -> gives (drain_unordered_loop E fuel c n res) okr.
Proof.
  induction fuel; intros c n res Hc Hr; cbn [drain_unordered_loop]; (destruct (c_dps c) as [|d ds] eqn:Hd; [apply gives_ret; split; auto|]);
    (destruct n; [apply gives_ret; split; auto|]); [apply gives_fuel|].
  apply gives_then. intros e. eapply gives_bind; [apply rm_origin; auto|]. intros c' Hc'.
  destruct e; apply IHfuel; auto. apply Forall_app. split; auto. constructor; auto. unfold okc in Hc. rewrite Hd in Hc. inversion Hc; auto.
Qed.
Lemma drain_u_origin c n : okc c -> gives (c_drain_unordered E c n) okr.
Proof. intros Hc. unfold c_drain_unordered. destruct (_ <? _)%Z; [apply gives_panic|]. apply drain_loop_origin; auto. Qed.
Lemma drain_o_origin c n : okc c -> gives (c_drain_ordered E c n) okr.
Proof.
  intros Hc. unfold c_drain_ordered. destruct (_ <? _)%Z; [apply gives_panic|]. eapply gives_bind; [apply search_origin; auto|].
  intros [idx c1] H1. eapply gives_bind; [apply (all_origin P); exact H1|]. intros res Hres. eapply gives_bind; [apply rm_all_origin; exact H1|].
  intros c2 H2. apply gives_ret. split; auto.
Qed.
Lemma expire_loop_origin : forall fuel c i, okc c -> gives (expire_loop E fuel c i) okc.
Proof.
  induction fuel; intros c i Hc; cbn [expire_loop]; (destruct (_ <? _); [|apply gives_ret; auto]); [apply gives_fuel|].
  apply gives_then. intros d. apply gives_then. intros [|]; [|auto]. eapply gives_bind; [apply rm_origin; auto|]. auto.
Qed.
Lemma trim_loop_origin : forall fuel c ds, okc c -> Forall P ds -> gives (mem_trim_loop E fuel c ds) okr.
Proof.
  induction fuel; intros c ds Hc Hd; cbn [mem_trim_loop]; (destruct (c_dps c) eqn:He; [apply gives_ret; split; auto|]); [apply gives_fuel|].
  eapply gives_bind; [apply drain_u_origin; auto|]. intros [r c'] (H1 & H2). apply IHfuel; auto. apply Forall_app. auto.
Qed.
Lemma trim_c_origin c : okc c -> gives (c_mem_trim E c) okc.
Proof.
  intros Hc. unfold c_mem_trim. eapply gives_bind; [apply trim_loop_origin; auto|]. intros [ds c'] (H1 & H2). apply gives_ret. exact H1.
Qed.
Lemma knn_c_origin c v k drain : okc c -> gives (c_knn_lookup E c v k drain) okr.
Proof.
  intros Hc. unfold c_knn_lookup. destruct (_ <? _)%Z; [apply gives_panic|]. eapply gives_bind; [apply search_origin; auto|].
  intros [idx c1] H1. eapply gives_bind; [apply (all_origin P); exact H1|]. intros res Hres. destruct drain; [|apply gives_ret; split; auto].
  eapply gives_bind; [apply rm_all_origin; exact H1|]. intros c2 H2. apply gives_ret. split; auto.
Qed.
Lemma put_back_origin pool self d : Forall okc pool -> P d -> gives (put_back E pool self d) (Forall okc).
Proof.
  intros Hp Hd. unfold put_back. eapply gives_bind; [apply (gives_at okc); auto|]. intros c Hc. eapply gives_bind; [apply add_origin; auto|].
  intros [b c'] H. apply gives_ret. apply forall_set; auto.
Qed.
Lemma distribute_loop_origin self recv : forall data pool, Forall okc pool -> Forall P data -> gives (distribute_loop E pool self recv data) (Forall okc).
Proof.
  induction data as [|d data IH]; intros pool Hp Hd; cbn [distribute_loop]; [apply gives_ret; auto|]. inversion Hd; subst.
  apply gives_then. intros vs. apply gives_then. intros idx. eapply (gives_bind _ _ (Forall okc)); [|auto].
  destruct idx as [|i idx]; [apply put_back_origin; auto|]. apply gives_then. intros r. eapply gives_bind; [apply (gives_at okc); auto|]. intros c Hc.
  eapply gives_bind; [apply add_origin; auto|]. intros [[|] c'] H; [apply gives_ret; apply forall_set; auto|apply put_back_origin; auto].
Qed.
Lemma distribute_c_origin pool self n recv : Forall okc pool -> gives (c_distribute E pool self n recv) (Forall okc).
Proof.
  intros Hp. unfold c_distribute. destruct recv; [apply gives_ret; auto|]. eapply gives_bind; [apply (gives_at okc); auto|]. intros c Hc.
  eapply gives_bind; [apply drain_o_origin; auto|]. intros [ds c'] (H1 & H2). apply distribute_loop_origin; auto. apply forall_set; auto.
Qed.

(* ---- managers ---- *)
Definition okrm (r : list DP * CM) : Prop := Forall P (fst r) /\ okm (snd r).

Lemma update_ok m i c c' : okm m -> okc c' -> okm (update_centroid m i c c').
Proof. intros Hm Hc. unfold okm, update_centroid. cbn [cm_cs]. apply forall_set; auto. Qed.
Lemma add_all_origin : forall ds c, okc c -> Forall P ds -> gives (add_all E c ds) okc.
Proof.
  induction ds as [|d ds IH]; intros c Hc Hd; cbn [add_all]; [apply gives_ret; auto|]. inversion Hd; subst.
  eapply gives_bind; [apply add_origin; auto|]. intros [b c'] H. auto.
Qed.
Lemma split_origin m i trim : okm m -> gives (split_centroid E m i trim) (fun o => match o with Some (a, b) => okc a /\ okc b | None => True end).
Proof.
  intros Hm. unfold split_centroid. destruct (_ <=? _)%Z; [apply gives_ret; auto|]. destruct (nth_error _ _) as [old|] eqn:Ho; [|apply gives_ret; auto].
  assert (Hc : okc old) by (unfold okm in Hm; rewrite Forall_forall in Hm; apply Hm; eapply nth_error_In; eauto).
  eapply gives_bind; [apply drain_u_origin; auto|]. intros [ds old'] (H1 & H2). eapply gives_bind; [apply add_all_origin; auto; constructor|].
  intros fresh Hf. apply gives_ret. auto.
Qed.
Lemma add_m_origin m d : okm m -> P d -> gives (cm_add E m d) (fun r => okm (snd r)).
Proof.
  intros Hm Hd. unfold cm_add. apply gives_then. intros [|]; [apply gives_ret; auto|]. destruct (cm_cs m) as [|c0 cs] eqn:Hcs.
  - eapply gives_bind; [apply add_origin; auto; constructor|]. intros [b c] Hc. apply gives_ret. cbn [snd]. unfold okm. cbn [cm_cs]. auto.
  - rewrite <- Hcs. apply gives_then. intros [|i idx]; [apply gives_ret; auto|]. eapply gives_bind; [apply (gives_at okc); auto|]. intros c Hc.
    eapply gives_bind; [apply add_origin; auto|]. intros [ok c'] Hc'. destruct (negb ok); [apply gives_ret; auto|].
    assert (Hu : okm (update_centroid m i c c')) by (apply update_ok; auto).
    destruct (_ <=? _)%Z; [|apply gives_ret; auto]. eapply gives_bind; [apply split_origin; exact Hu|]. intros [[a b]|] H; [|apply gives_ret; auto].
    destruct H. apply gives_ret. cbn [snd]. unfold okm. cbn [cm_cs set_centroid]. apply Forall_app. split; [apply forall_set; auto|auto].
Qed.
Lemma portions_origin drain : (forall c n, okc c -> gives (drain c n) okr) ->
  forall ps m res, okm m -> Forall P res -> gives (drain_portions drain m ps res) okrm.
Proof.
  intros Hdr. induction ps as [|[i p] ps IH]; intros m res Hm Hr; cbn [drain_portions]; [apply gives_ret; split; auto|].
  eapply gives_bind; [apply (gives_at okc); exact Hm|]. intros c Hc. eapply gives_bind; [apply Hdr; auto|]. intros [r c'] (H1 & H2).
  apply IH; [apply update_ok; auto|apply Forall_app; auto].
Qed.
Lemma drain_um_origin m n : okm m -> gives (cm_drain_unordered E m n) okrm.
Proof. intros Hm. unfold cm_drain_unordered. destruct (_ <? _)%Z; [apply gives_panic|]. apply gives_then. intros ps. apply portions_origin; auto. intros. apply drain_u_origin; auto. Qed.
Lemma drain_om_origin m n : okm m -> gives (cm_drain_ordered E m n) okrm.
Proof. intros Hm. unfold cm_drain_ordered. destruct (_ <? _)%Z; [apply gives_panic|]. apply gives_then. intros ps. apply portions_origin; auto. intros. apply drain_o_origin; auto. Qed.
Lemma expire_m_origin m : okm m -> gives (cm_expire E m) okm.
Proof.
  unfold cm_expire. generalize (seq 0 (length (cm_cs m))). intros is. revert m. induction is as [|i is IH]; intros m Hm; cbn [cm_expire_loop]; [apply gives_ret; auto|].
  eapply gives_bind; [apply (gives_at okc); exact Hm|]. intros c Hc. eapply gives_bind; [apply expire_loop_origin; auto|]. intros c' Hc'. apply IH, update_ok; auto.
Qed.
Lemma trim_m_origin m : okm m -> gives (cm_mem_trim E m) okm.
Proof.
  assert (H : forall is m kept, okm m -> Forall okc kept -> gives (cm_mem_trim_loop E m is kept) (fun r => Forall okc (snd r))).
  { induction is as [|i is IH]; intros m0 kept Hm Hk; cbn [cm_mem_trim_loop]; [apply gives_ret; auto|].
    eapply gives_bind; [apply (gives_at okc); exact Hm|]. intros c Hc. eapply gives_bind; [apply trim_c_origin; auto|]. intros c' Hc'.
    cbv zeta. apply IH.
    - assert (Hu : okm (update_centroid m0 i c c')) by (apply update_ok; auto). destruct (_ && _); [exact Hu|exact Hu].
    - destruct (negb _); auto. apply Forall_app. auto. }
  intros Hm. unfold cm_mem_trim. eapply gives_bind; [apply H; auto|]. intros [m' kept] Hk. apply gives_ret. exact Hk.
Qed.
Lemma move_m_origin m : okm m -> gives (cm_move_vector E m) (fun r => okm (snd r)).
Proof.
  assert (H : forall cs, Forall okc cs -> gives (move_all E cs) (Forall okc)).
  { induction cs as [|c cs IH]; intros Hc; cbn [move_all]; [apply gives_ret; auto|]. inversion Hc; subst.
    eapply gives_bind; [apply move_c_origin; auto|]. intros [b c'] Hc'. eapply gives_bind; [apply IH; auto|]. intros r Hr. apply gives_ret. auto. }
  intros Hm. unfold cm_move_vector. eapply gives_bind; [apply H; exact Hm|]. intros cs Hcs. apply gives_then. intros [[v ok] s]. apply gives_ret. exact Hcs.
Qed.
Lemma forall_firstn {A} (Q : A -> Prop) k l : Forall Q l -> Forall Q (firstn k l).
Proof. intros H. apply Forall_forall. intros x Hx. rewrite Forall_forall in H. apply H. rewrite <- (firstn_skipn k l). apply in_or_app; auto. Qed.
Lemma internal_origin m n : okm m -> gives (cm_distribute_internal E m n) okm.
Proof.
  intros Hm. unfold cm_distribute_internal. eapply (gives_bind _ _ (fun r => okm (fst r))).
  - unfold cm_distribute. destruct (seq 0 _) as [|r0 recv]; [apply gives_ret; auto|]. apply gives_then. intros ps. eapply (gives_bind _ _ (Forall okc)).
    + assert (Hp : Forall okc (cm_cs m ++ [])) by (rewrite app_nil_r; exact Hm). revert Hp. generalize (cm_cs m ++ []). generalize (r0 :: recv). intros rv.
      induction ps as [|[i p] ps IH]; intros pool Hp; cbn [cm_distribute_loop]; [apply gives_ret; auto|].
      eapply gives_bind; [apply distribute_c_origin; auto|]. auto.
    + intros pool Hp. cbv zeta. eapply gives_bind; [apply move_m_origin; unfold okm; cbn [cm_cs]; apply forall_firstn; auto|].
      intros [b m'] H. apply gives_ret. exact H.
  - intros [m' ext] H. apply gives_ret. exact H.
Qed.
Lemma take_origin k drain : forall ds c res, okc c -> Forall P ds -> Forall P res -> gives (lookup_take E c ds res k drain) okr.
Proof.
  induction ds as [|d ds IH]; intros c res Hc Hd Hr; cbn [lookup_take]; [apply gives_ret; split; auto|]. inversion Hd; subst.
  destruct (_ <? _); [apply IH; auto; apply Forall_app; auto|]. destruct drain; [|apply IH; auto].
  eapply gives_bind; [apply add_origin; auto|]. intros [b c'] H. apply IH; auto.
Qed.
Lemma lookup_origin m v k drain : okm m -> gives (cm_knn_lookup E m v k drain) okrm.
Proof.
  intros Hm. unfold cm_knn_lookup. destruct (_ <? _)%Z; [apply gives_panic|]. apply gives_then. intros idx.
  assert (Hr : Forall P []) by constructor. revert Hr Hm. generalize (@nil DP). revert m.
  induction idx as [|i idx IH]; intros m res Hr Hm; cbn [lookup_loop]; [apply gives_ret; split; auto|]. destruct (_ <=? _); [apply gives_ret; split; auto|].
  eapply gives_bind; [apply (gives_at okc); exact Hm|]. intros c Hc. eapply gives_bind; [apply knn_c_origin; auto|]. intros [ds c1] (H1 & H2).
  eapply gives_bind; [apply take_origin; eauto|]. intros [res' c2] (H3 & H4). apply IH; auto. apply update_ok; auto.
Qed.
Lemma delete_origin : forall js m, okm m -> gives (delete_all m js) okm.
Proof.
  induction js as [|j js IH]; intros m Hm; cbn [delete_all]; [apply gives_ret; auto|]. eapply (gives_bind _ _ okm); [|auto].
  unfold delete_centroid. apply gives_then. intros c. apply gives_ret. unfold okm. cbn [cm_cs]. apply forall_remove; auto.
Qed.
Lemma nearest_origin m v n drain : okm m ->
  gives (cm_nearest E m v n drain) (fun r => match fst r with Some cs => Forall okc cs | None => True end /\ okm (snd r)).
Proof.
  intros Hm. unfold cm_nearest. apply gives_then. intros [|i idx]; [apply gives_ret; cbn [fst snd]; auto|]. apply (gives_bind _ _ (Forall okc)); [apply (all_origin okc); exact Hm|]. intros cs Hcs.
  destruct drain; [|apply gives_ret; auto]. eapply gives_bind; [apply delete_origin; exact Hm|]. intros m' Hm'. apply gives_ret. cbn [fst snd]. auto.
Qed.
Lemma split_m_origin m p : okm m -> gives (cm_split E m p) okm.
Proof.
  assert (H : forall is m fresh, okm m -> Forall okc fresh -> gives (split_loop E m p is fresh) (fun r => okm (fst r) /\ Forall okc (snd r))).
  { induction is as [|i is IH]; intros m0 fresh Hm Hf; cbn [split_loop]; [apply gives_ret; auto|]. apply gives_then. intros c. destruct (negb _); [apply IH; auto|].
    eapply gives_bind; [apply split_origin; auto|]. intros [[a b]|] Hab; [|apply IH; auto]. destruct Hab. apply IH.
    - unfold okm. cbn [cm_cs set_centroid]. apply forall_set; auto.
    - apply Forall_app. auto. }
  intros Hm. unfold cm_split. eapply gives_bind; [apply H; auto|]. intros [m' fresh] (H1 & H2). apply gives_ret. unfold okm. cbn [cm_cs]. apply Forall_app. auto.
Qed.
Lemma merge_m_origin m p : okm m -> gives (cm_merge E m p) okm.
Proof.
  assert (H0 : forall i idx cs marks, Forall okc cs -> gives (merge_inner E cs marks i p idx) (fun r => Forall okc (fst r))).
  { intros i. induction idx as [|j idx IH]; intros cs marks Hcs; cbn [merge_inner]; [apply gives_ret; auto|]. apply gives_then. intros mj.
    destruct (_ || _); [apply IH; auto|]. cbv zeta. eapply gives_bind; [apply (gives_at okc); exact Hcs|]. intros other Ho.
    eapply gives_bind; [apply drain_u_origin; auto|]. intros [ds other'] (H1 & H2). cbv zeta.
    assert (Hs : Forall okc (list_set cs j other')) by (apply forall_set; auto).
    eapply gives_bind; [apply (gives_at okc); exact Hs|]. intros cand Hc. eapply gives_bind; [apply add_all_origin; auto|]. intros cand' Hc'. cbv zeta.
    assert (Hs2 : Forall okc (list_set (list_set cs j other') i cand')) by (apply forall_set; auto).
    destruct (p cand'); [apply IH; auto|apply gives_ret; auto]. }
  assert (H : forall is m marks, okm m -> gives (merge_outer E m marks p is) (fun r => okm (fst r))).
  { induction is as [|i is IH]; intros m0 marks Hm; cbn [merge_outer]; [apply gives_ret; auto|]. apply gives_then. intros cand. apply gives_then. intros mi.
    destruct (_ || _); [apply IH; auto|]. apply gives_then. intros idx. eapply gives_bind; [apply H0; exact Hm|]. intros [cs' marks'] Hc. apply gives_then. intros cand'.
    apply IH. exact Hc. }
  intros Hm. unfold cm_merge. eapply gives_bind; [apply H; exact Hm|]. intros [m' marks] Hm'. apply delete_origin. exact Hm'.
Qed.
End OriginMgr.
