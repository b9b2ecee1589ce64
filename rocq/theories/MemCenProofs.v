(* The centroid with slices does what the centroid with lists does. *)
From Verif Require Import Base Num MathUtils Env Wp Centroid CManager Memory MemProofs MemCentroid MemSim.

Ltac frside := simpl; intros; intuition (subst; auto; try lia).
Ltac frt F1 F2 := eapply (fr_trans _ _ _ _ _ _ _ _ _ _ _ _ F1 F2); solve [frside].

Section MemCen.
Context {N : Num} (E : Env N).
Notation DP := (DataPoint N).
Notation Cen := (Centroid N).
Notation lheap := (lheap N).

Lemma sim_pure {R R' S S'} (p : prog N R) (f : R -> prog N R') h (s : S) (m : M S') Q Q' :
  sim p h (ret s) Q -> (forall r h', Q r h' s -> sim (f r) h' m Q') -> sim (mbind p f) h m Q'.
Proof.
  intros H Hf t. rewrite run_mbind. specialize (H t). unfold bind.
  destruct (run_lists p h t) as [[[a d] u]| |]; cbn in *; try contradiction.
  destruct H as (-> & H). apply Hf; auto.
Qed.

Lemma fr_own S Y W h h' p (o : vec N * nat) : fr S (snd o :: Y) W h h' -> obj h p o -> In p S -> fr S Y W h h'.
Proof.
  intros F Ho Hp. constructor; try solve [apply F].
  intros x l Hx Hy HS. apply (fr_data _ _ _ _ _ F); auto. simpl. intros [He|He]; auto. apply (HS p o); auto.
Qed.
Lemma fr_weak S Y W S' Y' W' (h h' : lheap) : fr S Y W h h' ->
  incl S S' -> incl Y Y' -> incl W W' -> fr S' Y' W' h h'.
Proof.
  intros F HS HY HW. constructor; try solve [apply F].
  - intros x l Hx Hy Hp. apply (fr_data _ _ _ _ _ F); auto. intros p o Hin. apply Hp. auto.
  - intros u l Hu Hw. apply (fr_ptrs _ _ _ _ _ F); auto.
  - intros p o Ho. destruct (fr_obj _ _ _ _ _ F p o Ho) as (v & Hv & Hs). exists v. split; auto.
Qed.

(* Changing the two fields of a centroid. *)
Lemma fr_update (h : lheap) p (c : Cen) x v l : wf h -> obj h p (c_vec c, x) -> dvar h x (c_dps c) ->
  fr [p] [] [] h (set_data (set_vec_of h p v x) x l) /\ cen (set_data (set_vec_of h p v x) x l) p (MkC v l).
Proof.
  intros Hw Ho Hx. pose proof (fr_set_vec h p v _ Hw Ho) as F1. cbn [snd] in F1.
  pose proof (fr_set_data _ x l (fr_wf _ _ _ _ _ F1)) as F2.
  split.
  - eapply (fr_own _ _ _ _ _ p (c_vec c, x)); [|exact Ho|simpl; auto]. frt F1 F2.
  - exists x. split; cbn [c_vec c_dps].
    + eapply obj_set; eauto.
    + eapply dvar_set. exact Hx.
Qed.
Lemma fr_update2 (h : lheap) p (c : Cen) x l : wf h -> obj h p (c_vec c, x) -> dvar h x (c_dps c) ->
  fr [p] [] [] h (set_data h x l) /\ cen (set_data h x l) p (MkC (c_vec c) l).
Proof.
  intros Hw Ho Hx. pose proof (fr_set_data h x l Hw) as F2. split.
  - eapply (fr_own _ _ _ _ _ p (c_vec c, x)); [|exact Ho|simpl; auto]. eapply fr_weak; [exact F2|..]; intros q; simpl; tauto.
  - exists x. split; cbn [c_vec c_dps]; auto. eapply dvar_set. exact Hx.
Qed.
Lemma fr_update1 (h : lheap) p (c : Cen) v : wf h -> cen h p c ->
  exists x, obj h p (c_vec c, x) /\ fr [p] [] [] h (set_vec_of h p v x) /\ cen (set_vec_of h p v x) p (MkC v (c_dps c)).
Proof.
  intros Hw (x & Ho & Hx). exists x. split; auto. split.
  - apply (fr_set_vec h p v _ Hw Ho).
  - exists x. split; auto. eapply obj_set; eauto.
Qed.

Lemma sim_len_m {R S} p c (f : nat -> prog N R) h (m : M S) Q : cen h p c ->
  sim (f (length (c_dps c))) h m Q -> sim (mbind (len_m p) f) h m Q.
Proof. intros (x & Ho & Hx) H. apply sim_assoc. eapply sim_get_obj; eauto. eapply sim_len; eauto. Qed.
Lemma sim_vec_m {R S} p c (f : vec N -> prog N R) h (m : M S) Q : cen h p c ->
  sim (f (c_vec c)) h m Q -> sim (mbind (vec_m p) f) h m Q.
Proof. intros (x & Ho & Hx) H. apply sim_assoc. eapply sim_get_obj; eauto. Qed.
Lemma sim_dp_m {R S} p c i d (f : DP -> prog N R) h (m : M S) Q : cen h p c -> nth_error (c_dps c) i = Some d ->
  sim (f d) h m Q -> sim (mbind (dp_m p i) f) h m Q.
Proof. intros (x & Ho & Hx) Hi H. apply sim_assoc. eapply sim_get_obj; eauto. eapply sim_get; eauto. Qed.

Lemma index_ok {A} (l : list A) i x t : nth_error l i = Some x -> index l i t = Ok (x, t).
Proof. intros H. unfold index. rewrite H. reflexivity. Qed.
Lemma sim_index {A R S} (l : list A) i x (p : prog N R) h (g : A -> M S) Q : nth_error l i = Some x ->
  sim p h (g x) Q -> sim p h (bind (index l i) g) Q.
Proof. intros H. apply sim_right. intros t. apply index_ok. auto. Qed.

(* c.DataPoints[i], with a bounds check on both sides. *)
Lemma sim_dp_index {R S} p c i (f : DP -> prog N R) h (g : DP -> M S) Q : cen h p c ->
  (forall d, nth_error (c_dps c) i = Some d -> sim (f d) h (g d) Q) ->
  sim (mbind (dp_m p i) f) h (bind (index (c_dps c) i) g) Q.
Proof.
  intros Hc Hk. destruct (nth_error (c_dps c) i) as [d|] eqn:Hi.
  - eapply sim_index; eauto. eapply sim_dp_m; eauto.
  - destruct Hc as (x & Ho & Hx). unfold obj, dvar in *. apply sim_panic.
    + intros t. rewrite run_mbind. unfold bind, dp_m. cbn. unfold bind, index. rewrite Ho. cbn. rewrite Hx. cbn. rewrite Hi. reflexivity.
    + intros t. unfold bind, index. rewrite Hi. reflexivity.
Qed.

Lemma new_centroid_sim (h : lheap) v cap : wf h ->
  sim (new_centroid_m v cap) h (ret (new_centroid v))
    (fun p h' c => fr [] [] [] h h' /\ l_ptrs h' = l_ptrs h /\ p = length (l_objs h) /\ cen h' p c).
Proof.
  intros Hw. unfold new_centroid_m. eapply sim_new. apply sim_last. eapply sim_new_obj. apply sim_ret.
  destruct (fr_add_obj h v Hw). auto.
Qed.

Lemma add_raw_sim (h : lheap) p (c : Cen) d : wf h -> cen h p c ->
  sim (add_raw_m p d) h (ret (add_dp_raw c d)) (fun _ h' c' => fr [p] [] [] h h' /\ cen h' p c').
Proof.
  intros Hw (x & Ho & Hx). unfold add_raw_m. eapply sim_get_obj; eauto. cbn [fst snd]. eapply sim_len; eauto.
  eapply sim_set_obj; eauto. cbn [snd]. apply sim_last. eapply sim_app; [exact Hx|]. apply sim_ret.
  apply (fr_update h p c x _ (c_dps c ++ [d]) Hw Ho Hx).
Qed.

Lemma add_sim (h : lheap) p (c : Cen) d : wf h -> cen h p c ->
  sim (add_m E p d) h (c_add E c d) (fun b h' r => fr [p] [] [] h h' /\ cen h' p (snd r) /\ b = fst r).
Proof.
  intros Hw Hc. unfold add_m, c_add. eapply sim_vec_m; eauto.
  assert (F0 : fr [p] [] [] h h) by (eapply fr_weak; [apply fr_refl; auto|..]; intros q; simpl; tauto).
  destruct (negb (length (dp_vec d) =? length (c_vec c))); [apply sim_ret; auto|].
  eapply sim_eff. intros []; [apply sim_ret; auto|].
  eapply sim_pure; [apply add_raw_sim; eauto|]. intros _ h' (F & Hc'). apply sim_ret. auto.
Qed.

Lemma rm_sim (h : lheap) p (c : Cen) i : wf h -> cen h p c ->
  sim (rm_m p i) h (rm_dp c i) (fun _ h' c' => fr [p] [] [] h h' /\ cen h' p c').
Proof.
  intros Hw (x & Ho & Hx). unfold rm_m, rm_dp. eapply sim_get_obj; eauto. cbn [fst snd]. eapply sim_len; eauto.
  destruct (nth_error (c_dps c) i) as [d|] eqn:Hi.
  - eapply sim_index; eauto. pose proof (nth_error_len _ _ _ Hi) as Hlt.
    destruct (1 <? length (c_dps c)).
    + apply sim_assoc. eapply sim_get; eauto. eapply sim_set_obj; eauto. cbn [snd].
      apply sim_last. eapply sim_del; [exact Hx|auto|]. apply sim_ret.
      apply (fr_update h p c x _ (remove_at i (c_dps c)) Hw Ho Hx).
    + cbn [mbind]. apply sim_last. eapply sim_del; eauto. apply sim_ret.
      apply (fr_update2 h p c x (remove_at i (c_dps c)) Hw Ho Hx).
  - apply sim_panic.
    + intros t. unfold dvar, obj in *. pose proof (proj1 (nth_error_None _ _) Hi) as Hge.
      destruct (1 <? length (c_dps c)).
      * rewrite run_mbind. unfold bind. rewrite run_mbind. unfold bind. cbn. unfold bind, index. rewrite Hx. cbn. rewrite Hi. reflexivity.
      * cbn [mbind]. unfold data. cbn [run_lists list_op]. unfold bind, index. rewrite Hx. cbn [ret].
        rewrite (proj2 (Nat.ltb_ge _ _) Hge). reflexivity.
    + intros t. unfold bind, index. rewrite Hi. reflexivity.
Qed.

Lemma skip_sim fuel : forall (h : lheap) p (c : Cen) i, wf h -> cen h p c ->
  sim (skip_m E fuel p i) h (skip_expired E fuel c i) (fun _ h' c' => fr [p] [] [] h h' /\ cen h' p c').
Proof.
  induction fuel as [|fuel IH]; intros h p c i Hw Hc; cbn [skip_m skip_expired]; eapply sim_len_m; eauto;
    (assert (F0 : fr [p] [] [] h h) by (eapply fr_weak; [apply fr_refl; auto|..]; intros q; simpl; tauto));
    (destruct (i <? length (c_dps c)); [|apply sim_ret; auto]);
    apply sim_dp_index; auto; intros d Hd; eapply sim_eff; intros []; try (apply sim_ret; auto).
  - apply sim_out_of_fuel.
  - eapply sim_bind; [apply rm_sim; auto|]. intros _ h1 c1 (F1 & Hc1).
    eapply sim_mono; [apply IH; auto; apply F1|]. intros _ h2 c2 (F2 & Hc2). split; auto. frt F1 F2.
Qed.

Lemma gen_sim (h : lheap) p (c : Cen) i : wf h -> cen h p c ->
  sim (gen_m E p i) h (dp_vec_gen E (c, i))
    (fun r h' s => fr [p] [] [] h h' /\ fst s = fst r /\ snd (snd s) = snd r /\ cen h' p (fst (snd s))).
Proof.
  intros Hw Hc. unfold gen_m, dp_vec_gen. eapply sim_len_m; eauto.
  eapply sim_bind; [apply skip_sim; auto|]. intros _ h1 c1 (F1 & Hc1).
  eapply sim_len_m; eauto. destruct (nth_error (c_dps c1) i) as [d|] eqn:Hd.
  - pose proof (nth_error_len _ _ _ Hd). rewrite (proj2 (Nat.leb_gt _ _)) by auto.
    eapply sim_dp_m; eauto. apply sim_ret. auto.
  - apply nth_error_None in Hd. rewrite (proj2 (Nat.leb_le _ _)) by auto. apply sim_ret. auto.
Qed.

Lemma exhaust_sim fuel : forall (h : lheap) p (c : Cen) i, wf h -> cen h p c ->
  sim (exhaust_m E fuel p i) h (exhaust fuel (dp_vec_gen E) (c, i))
    (fun vs h' s => fr [p] [] [] h h' /\ vs = fst s /\ cen h' p (fst (snd s))).
Proof.
  induction fuel as [|fuel IH]; intros h p c i Hw Hc; cbn [exhaust_m exhaust]; [apply sim_out_of_fuel|].
  eapply sim_bind; [apply gen_sim; auto|]. intros [o j] h1 [o' [c1 j']] (F1 & H1 & H2 & Hc1). cbn [fst snd] in *. subst o' j'.
  destruct o as [v|]; [|apply sim_ret; auto].
  eapply sim_bind; [apply IH; eauto; apply F1|]. intros vs h2 [vs' s2] (F2 & H3 & Hc2). cbn [fst snd] in *. subst vs'.
  apply sim_ret. splits; auto. frt F1 F2.
Qed.

Lemma search_sim s target h p c k : wf h -> cen h p c ->
  sim (search_m E s target p k) h (search_dps E s target c k)
    (fun idx h' r => fr [p] [] [] h h' /\ idx = fst r /\ cen h' p (snd r)).
Proof.
  intros Hw Hc. unfold search_m, search_dps. eapply sim_len_m; eauto.
  eapply sim_bind; [apply exhaust_sim; auto|]. intros vs h1 [vs' [c1 j]] (F1 & H1 & Hc1). cbn [fst snd] in *. subst vs'.
  apply sim_last. eapply sim_eff. intros idx. apply sim_ret. auto.
Qed.

(* Loops that also fill a slice y. *)
Lemma drain_loop_sim fuel : forall (h : lheap) p (c : Cen) y l n, wf h -> cen h p c -> loose h y l ->
  sim (drain_loop_m E fuel p y (length l + n)) h (drain_unordered_loop E fuel c n l)
    (fun _ h' r => fr [p] [y] [] h h' /\ cen h' p (snd r) /\ loose h' y (fst r)).
Proof.
  induction fuel as [|fuel IH]; intros h p c y l n Hw Hc Hy; cbn [drain_loop_m drain_unordered_loop];
    (assert (F0 : fr [p] [y] [] h h) by (eapply fr_weak; [apply fr_refl; auto|..]; intros q; simpl; tauto));
    eapply sim_len_m; eauto; (eapply sim_len; [apply Hy|]);
    (destruct (c_dps c) as [|d ds] eqn:Hds; [cbn [length negb Nat.eqb andb]; apply sim_ret; auto|]);
    (destruct n as [|n]; [rewrite Nat.add_0_r, Nat.ltb_irrefl, andb_false_r; apply sim_ret; auto|]);
    rewrite (proj2 (Nat.ltb_lt (length l) (length l + S n))) by lia; cbn [length negb Nat.eqb andb].
  - apply sim_out_of_fuel.
  - eapply (sim_dp_m p c 0 d); [eauto|rewrite Hds; reflexivity|]. eapply sim_eff. intros e. destruct e.
    + cbn [mbind]. eapply sim_bind; [apply rm_sim; auto|]. intros _ h1 c1 (F1 & Hc1).
      eapply sim_mono; [apply (IH h1 p c1 y l (S n)); auto; [apply F1|]|].
      * eapply loose_fr; eauto.
      * intros _ h2 r (F2 & Hr). split; auto. frt F1 F2.
    + apply sim_assoc. eapply (sim_dp_m p c 0 d); [eauto|rewrite Hds; reflexivity|].
      eapply sim_app; [apply Hy|]. pose proof (fr_set_data h y (l ++ [d]) Hw) as F1.
      assert (Hc1 : cen (set_data h y (l ++ [d])) p c).
      { eapply cen_fr; eauto. intros x o [<-|[]] Ho. apply (proj2 Hy p o Ho). }
      assert (Hy1 : loose (set_data h y (l ++ [d])) y (l ++ [d])).
      { eapply loose_any; eauto. eapply dvar_set. apply Hy. }
      eapply sim_bind; [apply rm_sim; [apply F1|eauto]|]. intros _ h2 c2 (F2 & Hc2).
      replace (length l + S n) with (length (l ++ [d]) + n) by (rewrite app_length; simpl; lia).
      eapply sim_mono; [apply (IH h2 p c2 y (l ++ [d]) n); auto; [apply F2|]|].
      * eapply loose_fr; eauto.
      * intros _ h3 r (F3 & Hr). split; auto.
        assert (F12 : fr [p] [y] [] h h2) by frt F1 F2. frt F12 F3.
Qed.

Definition dpost (p : nat) (h : lheap) (y : nat) (h' : lheap) (r : list DP * Cen) : Prop :=
  fr [p] [] [] h h' /\ length (l_data h) <= y /\ cen h' p (snd r) /\ loose h' y (fst r).

Lemma drain_unordered_sim (h : lheap) p (c : Cen) n : wf h -> cen h p c ->
  sim (drain_unordered_m E p n) h (c_drain_unordered E c n) (dpost p h).
Proof.
  intros Hw Hc. unfold drain_unordered_m, c_drain_unordered.
  destruct (n <? 0)%Z; [apply sim_panic; intros t; reflexivity|].
  destruct (fr_add_data h Hw) as (F1 & Hy). eapply sim_new.
  assert (Hc1 : cen (add_data h) p c) by (eapply cen_fr; eauto).
  eapply sim_len_m; eauto.
  intros t. pose proof (drain_loop_sim (length (c_dps c)) (add_data h) p c (length (l_data h)) [] (Z.to_nat n)
    (fr_wf _ _ _ _ _ F1) Hc1 Hy t) as H. cbn [length Nat.add] in H. rewrite run_mbind. unfold bind.
  destruct (run_lists _ _ _) as [[[a d] u]| |], (drain_unordered_loop _ _ _ _ _ _) as [[r u']| |]; cbn in *; auto.
  destruct H as (-> & F2 & Hr1 & Hr2). split; auto. unfold dpost. cbn [fst snd]. splits; try apply Hr2; auto. frt F1 F2.
Qed.

Lemma collect_sim idx : forall (h : lheap) p (c : Cen) y l, wf h -> cen h p c -> loose h y l ->
  sim (collect_m p y idx) h (index_all (c_dps c) idx)
    (fun _ h' r => fr [] [y] [] h h' /\ cen h' p c /\ loose h' y (l ++ r)).
Proof.
  induction idx as [|i idx IH]; intros h p c y l Hw Hc Hy; cbn [collect_m index_all].
  - apply sim_ret. rewrite app_nil_r. splits; try apply Hy; auto. eapply fr_weak; [apply fr_refl; auto|..]; intros q; simpl; tauto.
  - apply sim_dp_index; auto. intros d Hd. eapply sim_app; [apply Hy|].
    pose proof (fr_set_data h y (l ++ [d]) Hw) as F1.
    assert (Hc1 : cen (set_data h y (l ++ [d])) p c).
    { eapply cen_fr; eauto. intros x o [<-|[]] Ho. apply (proj2 Hy p o Ho). }
    assert (Hy1 : loose (set_data h y (l ++ [d])) y (l ++ [d])).
    { eapply loose_any; eauto. eapply dvar_set. apply Hy. }
    apply sim_last. eapply sim_bind; [apply IH; eauto; apply F1|]. intros [] h2 r (F2 & Hc2 & Hy2).
    apply sim_ret. rewrite <- app_assoc in Hy2. splits; try apply Hy2; auto. frt F1 F2.
Qed.

Lemma rm_all_sim idx : forall (h : lheap) p (c : Cen), wf h -> cen h p c ->
  sim (rm_all_m p idx) h (rm_all c idx) (fun _ h' c' => fr [p] [] [] h h' /\ cen h' p c').
Proof.
  induction idx as [|i idx IH]; intros h p c Hw Hc; cbn [rm_all_m rm_all].
  - apply sim_ret. split; auto. eapply fr_weak; [apply fr_refl; auto|..]; intros q; simpl; tauto.
  - eapply sim_bind; [apply rm_sim; auto|]. intros _ h1 c1 (F1 & Hc1).
    eapply sim_mono; [apply IH; eauto; apply F1|]. intros _ h2 c2 (F2 & Hc2). split; auto. frt F1 F2.
Qed.

Lemma drain_ordered_sim (h : lheap) p (c : Cen) n : wf h -> cen h p c ->
  sim (drain_ordered_m E p n) h (c_drain_ordered E c n) (dpost p h).
Proof.
  intros Hw Hc. unfold drain_ordered_m, c_drain_ordered.
  destruct (n <? 0)%Z; [apply sim_panic; intros t; reflexivity|].
  destruct (fr_add_data h Hw) as (F1 & Hy). eapply sim_new. set (y := length (l_data h)) in *.
  assert (Hc1 : cen (add_data h) p c) by (eapply cen_fr; eauto).
  eapply sim_vec_m; eauto. eapply sim_bind; [apply search_sim; [apply F1|eauto]|].
  intros idx h2 [idx' c2] (F2 & He & Hc2). cbn [fst snd] in *. subst idx'.
  assert (Hy2 : loose h2 y []) by (eapply loose_fr; eauto).
  eapply sim_bind; [eapply collect_sim; eauto; apply F2|]. intros _ h3 r (F3 & Hc3 & Hy3).
  eapply sim_bind; [apply rm_all_sim; eauto; apply F3|]. intros _ h4 c4 (F4 & Hc4).
  apply sim_ret. unfold dpost. cbn [fst snd]. splits; auto; try (eapply loose_fr; eauto).
  - assert (F12 : fr [p] [] [] h h2) by frt F1 F2. assert (F123 : fr [p] [] [] h h3) by frt F12 F3. frt F123 F4.
Qed.

Lemma knn_lookup_sim (h : lheap) p (c : Cen) v k drain : wf h -> cen h p c ->
  sim (knn_lookup_m E p v k drain) h (c_knn_lookup E c v k drain) (dpost p h).
Proof.
  intros Hw Hc. unfold knn_lookup_m, c_knn_lookup.
  destruct (k <? 0)%Z; [apply sim_panic; intros t; reflexivity|].
  destruct (fr_add_data h Hw) as (F1 & Hy). eapply sim_new. set (y := length (l_data h)) in *.
  assert (Hc1 : cen (add_data h) p c) by (eapply cen_fr; eauto).
  eapply sim_bind; [apply search_sim; [apply F1|eauto]|].
  intros idx h2 [idx' c2] (F2 & He & Hc2). cbn [fst snd] in *. subst idx'.
  assert (Hy2 : loose h2 y []) by (eapply loose_fr; eauto).
  eapply sim_bind; [eapply collect_sim; eauto; apply F2|]. intros _ h3 r (F3 & Hc3 & Hy3).
  assert (F12 : fr [p] [] [] h h2) by frt F1 F2. assert (F123 : fr [p] [] [] h h3) by frt F12 F3.
  destruct drain.
  - eapply sim_bind; [apply rm_all_sim; eauto; apply F3|]. intros _ h4 c4 (F4 & Hc4).
    apply sim_ret. unfold dpost. cbn [fst snd]. splits; auto; try (eapply loose_fr; eauto). frt F123 F4.
  - cbn [mbind]. apply sim_ret. unfold dpost. cbn [fst snd]. splits; auto; apply Hy3.
Qed.

Lemma expire_loop_sim fuel : forall (h : lheap) p (c : Cen) i, wf h -> cen h p c ->
  sim (expire_loop_m E fuel p i) h (expire_loop E fuel c i) (fun _ h' c' => fr [p] [] [] h h' /\ cen h' p c').
Proof.
  induction fuel as [|fuel IH]; intros h p c i Hw Hc; cbn [expire_loop_m expire_loop]; eapply sim_len_m; eauto;
    (assert (F0 : fr [p] [] [] h h) by (eapply fr_weak; [apply fr_refl; auto|..]; intros q; simpl; tauto));
    (destruct (i <? length (c_dps c)); [|apply sim_ret; auto]).
  - apply sim_out_of_fuel.
  - apply sim_dp_index; auto. intros d Hd. eapply sim_eff; intros [].
    + eapply sim_bind; [apply rm_sim; auto|]. intros _ h1 c1 (F1 & Hc1).
      eapply sim_mono; [apply IH; auto; apply F1|]. intros _ h2 c2 (F2 & Hc2). split; auto. frt F1 F2.
    + apply IH; auto.
Qed.
Lemma expire_sim (h : lheap) p (c : Cen) : wf h -> cen h p c ->
  sim (expire_m E p) h (c_expire E c) (fun _ h' c' => fr [p] [] [] h h' /\ cen h' p c').
Proof. intros Hw Hc. unfold expire_m, c_expire. eapply sim_len_m; eauto. apply expire_loop_sim; auto. Qed.

Lemma trim_loop_sim fuel : forall (h : lheap) p (c : Cen) y l, wf h -> cen h p c -> loose h y l ->
  sim (trim_loop_m E fuel p y) h (mem_trim_loop E fuel c l)
    (fun _ h' r => fr [p] [y] [] h h' /\ cen h' p (snd r) /\ loose h' y (fst r)).
Proof.
  induction fuel as [|fuel IH]; intros h p c y l Hw Hc Hy; cbn [trim_loop_m mem_trim_loop];
    (assert (F0 : fr [p] [y] [] h h) by (eapply fr_weak; [apply fr_refl; auto|..]; intros q; simpl; tauto));
    eapply sim_len_m; eauto;
    (destruct (c_dps c) as [|d ds] eqn:Hds; cbn [length Nat.ltb Nat.leb]; [apply sim_ret; auto|]).
  - apply sim_out_of_fuel.
  - eapply sim_bind; [apply drain_unordered_sim; auto|]. intros z h1 [r c1] (F1 & Hz & Hc1 & Hl1). cbn [fst snd] in *.
    assert (Hy1 : loose h1 y l) by (eapply loose_fr; eauto).
    eapply sim_all; [apply Hl1|]. eapply sim_app; [apply Hy1|].
    pose proof (fr_set_data h1 y (l ++ r) (fr_wf _ _ _ _ _ F1)) as F2.
    eapply sim_mono; [apply (IH _ p c1 y (l ++ r)); [apply F2|..]|].
    + eapply cen_fr; [apply F1|eauto..]. intros x o [<-|[]] Ho. apply (proj2 Hy1 p o Ho).
    + eapply loose_any; eauto. eapply dvar_set. apply Hy1.
    + intros _ h3 s (F3 & Hs). split; auto. assert (F12 : fr [p] [y] [] h (set_data h1 y (l ++ r))) by frt F1 F2. frt F12 F3.
Qed.

Lemma mem_trim_sim (h : lheap) p (c : Cen) : wf h -> cen h p c ->
  sim (mem_trim_m E p) h (c_mem_trim E c) (fun _ h' c' => fr [p] [] [] h h' /\ cen h' p c').
Proof.
  intros Hw Hc. unfold mem_trim_m, c_mem_trim.
  destruct (fr_add_data h Hw) as (F1 & Hy). eapply sim_new. set (y := length (l_data h)) in *.
  assert (Hc1 : cen (add_data h) p c) by (eapply cen_fr; eauto).
  eapply sim_len_m; eauto. eapply sim_bind; [eapply trim_loop_sim; eauto; apply F1|].
  intros _ h2 [l c2] (F2 & (x & Ho & Hx) & Hy2). cbn [fst snd] in *.
  eapply sim_get_obj; eauto. cbn [snd]. apply sim_last. eapply sim_move; [exact Hx|apply Hy2|]. apply sim_ret.
  assert (F12 : fr [p] [] [] h h2) by frt F1 F2.
  pose proof (fr_update2 h2 p c2 x l (fr_wf _ _ _ _ _ F2) Ho Hx) as (F3 & Hc3).
  pose proof (fr_set_data (set_data h2 x l) y [] (fr_wf _ _ _ _ _ F3)) as F4.
  assert (F123 : fr [p] [] [] h (set_data h2 x l)) by frt F12 F3.
  split; [frt F123 F4|]. eapply cen_fr; [apply F3|eauto..].
  intros z o [<-|[]] Ho'. cbn in Ho'. apply (proj2 Hy2 p o Ho').
Qed.

Lemma mean_loop_sim fuel : forall (h : lheap) p (c : Cen) i res n, wf h -> cen h p c ->
  sim (mean_loop_m E fuel p i res n) h (vec_mean_loop fuel (dp_vec_gen E) (c, i) res n)
    (fun r h' s => fr [p] [] [] h h' /\ r = fst s /\ cen h' p (fst (snd s))).
Proof.
  induction fuel as [|fuel IH]; intros h p c i res n Hw Hc; cbn [mean_loop_m vec_mean_loop]; [apply sim_out_of_fuel|].
  eapply sim_bind; [apply gen_sim; auto|]. intros [o j] h1 [o' [c1 j']] (F1 & H1 & H2 & Hc1). cbn [fst snd] in *. subst o' j'.
  destruct o as [v|]; [|apply sim_ret; auto].
  destruct (length v =? length res); [|apply sim_ret; auto].
  eapply sim_mono; [apply IH; eauto; apply F1|]. intros r h2 s (F2 & H3). split; auto. frt F1 F2.
Qed.

Lemma move_vector_sim (h : lheap) p (c : Cen) : wf h -> cen h p c ->
  sim (move_vector_m E p) h (c_move_vector E c) (fun b h' r => fr [p] [] [] h h' /\ b = fst r /\ cen h' p (snd r)).
Proof.
  intros Hw Hc. unfold move_vector_m, c_move_vector, mean_m, vec_mean. eapply sim_len_m; eauto.
  eapply sim_bind with (Q := fun r h' s => fr [p] [] [] h h' /\ r = fst s /\ cen h' p (fst (snd s))).
  - eapply sim_bind; [apply gen_sim; auto|]. intros [o j] h1 [o' [c1 j']] (F1 & H1 & H2 & Hc1). cbn [fst snd] in *. subst o' j'.
    destruct o as [v|]; [|apply sim_ret; auto].
    eapply sim_bind; [apply mean_loop_sim; eauto; apply F1|].
    intros [[res n] ok] h2 [[[res' n'] ok'] s2] (F2 & He & Hc2). cbn [fst snd] in *. injection He as <- <- <-.
    assert (F12 : fr [p] [] [] h h2) by frt F1 F2. destruct ok; apply sim_ret; auto.
  - intros [v ok] h2 [[v' ok'] [c2 j]] (F2 & He & Hc2). cbn [fst snd] in *. injection He as <- <-. destruct ok.
    + destruct (fr_update1 h2 p c2 v (fr_wf _ _ _ _ _ F2) Hc2) as (x & Ho & F3 & Hc3).
      eapply sim_set_obj; eauto. cbn [snd]. apply sim_ret. cbn [fst snd]. splits; auto. frt F2 F3.
    + apply sim_ret. auto.
Qed.
End MemCen.
