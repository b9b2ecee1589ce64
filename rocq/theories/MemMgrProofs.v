(* The manager with slices and pointers does what the manager with lists does. *)
From Verif Require Import Base Num MathUtils Env Wp Centroid CManager History Memory MemProofs MemCentroid MemSim MemCenProofs MemManager.

Section MemMgr.
Context {N : Num} (E : Env N).
Notation DP := (DataPoint N).
Notation Cen := (Centroid N).
Notation lheap := (lheap N).
Notation mgr := (mgr N).

Definition cens (h : lheap) (ps : list nat) (cs : list Cen) : Prop := Forall2 (cen h) ps cs.
Definition loose_all (h : lheap) (Y : list nat) : Prop := forall x, In x Y -> exists l, loose h x l.

Lemma cens_length h ps cs : cens h ps cs -> length ps = length cs.
Proof. intros H. induction H; simpl; auto. Qed.
Lemma cens_at h ps cs i c : cens h ps cs -> nth_error cs i = Some c -> exists p, nth_error ps i = Some p /\ cen h p c.
Proof.
  intros H. revert i. induction H as [|p c' ps cs Hc H IH]; intros [|i] Hi; simpl in *; try discriminate.
  - injection Hi as <-. eauto.
  - apply IH. auto.
Qed.
Lemma cens_at2 h ps cs i p : cens h ps cs -> nth_error ps i = Some p -> exists c, nth_error cs i = Some c /\ cen h p c.
Proof.
  intros H. revert i. induction H as [|q c' ps cs Hc H IH]; intros [|i] Hi; simpl in *; try discriminate.
  - injection Hi as <-. eauto.
  - apply IH. auto.
Qed.
Lemma cens_none h ps cs i : cens h ps cs -> nth_error cs i = None -> nth_error ps i = None.
Proof. intros H Hi. apply nth_error_None. rewrite (cens_length _ _ _ H). apply nth_error_None. auto. Qed.

Lemma cens_fr S Y W h h' ps cs : wf h -> fr S Y W h h' -> cens h ps cs -> loose_all h Y ->
  (forall p, In p ps -> ~ In p S) -> cens h' ps cs.
Proof.
  intros Hw F H HY. induction H as [|p c ps cs Hc H IH]; intros HS; constructor.
  - eapply cen_fr; eauto; [apply HS; simpl; auto|]. intros x o Hx Ho. destruct (HY x Hx) as (l & _ & Hl). eapply Hl; eauto.
  - apply IH. intros q Hq. apply HS. simpl. auto.
Qed.
Lemma cens_set Y W h h' ps cs i p c : wf h -> NoDup ps -> cens h ps cs -> nth_error ps i = Some p ->
  fr [p] Y W h h' -> loose_all h Y -> cen h' p c -> cens h' ps (list_set cs i c).
Proof.
  intros Hw Hn H Hi F HY Hc. revert i Hi. induction H as [|q c' ps cs Hq H IH]; intros [|i] Hi; simpl in *; try discriminate.
  - injection Hi as ->. inversion Hn; subst. constructor; auto. eapply cens_fr; eauto.
    intros r Hr [<-|[]]. auto.
  - inversion Hn; subst. constructor; [|apply IH; auto].
    eapply cen_fr; eauto.
    + intros [<-|[]]. apply H2. eapply nth_error_In; eauto.
    + intros x o Hx Ho. destruct (HY x Hx) as (l & _ & Hl). eapply Hl; eauto.
Qed.

Lemma run_vecs h ps cs t : cens h ps cs -> run_lists (vecs_m ps) h t = Ok ((map c_vec cs, h), t).
Proof.
  intros H. revert t. induction H as [|p c ps cs (x & Ho & Hx) H IH]; intros t; cbn [vecs_m map]; [reflexivity|].
  rewrite run_mbind. unfold bind, vec_m. cbn. unfold bind, index, obj in *. rewrite Ho. cbn.
  rewrite run_mbind. unfold bind. rewrite IH. reflexivity.
Qed.
Lemma sim_vecs {R S} ps cs (f : list (vec N) -> prog N R) h (m : M S) Q : cens h ps cs ->
  sim (f (map c_vec cs)) h m Q -> sim (mbind (vecs_m ps) f) h m Q.
Proof. intros H. apply sim_left. intros t. apply run_vecs. auto. Qed.
Lemma run_lens h ps cs t : cens h ps cs -> run_lists (lens_m ps) h t = Ok ((map (fun c => c_len c) cs, h), t).
Proof.
  intros H. revert t. induction H as [|p c ps cs (x & Ho & Hx) H IH]; intros t; cbn [lens_m map]; [reflexivity|].
  rewrite run_mbind. unfold bind, len_m. cbn. unfold bind, index, obj, dvar in *. rewrite Ho. cbn. rewrite Hx. cbn. rewrite eta.
  rewrite run_mbind. unfold bind. rewrite IH. reflexivity.
Qed.
Lemma sim_lens {R S} ps cs (f : list nat -> prog N R) h (m : M S) Q : cens h ps cs ->
  sim (f (map (fun c => c_len c) cs)) h m Q -> sim (mbind (lens_m ps) f) h m Q.
Proof. intros H. apply sim_left. intros t. apply run_lens. auto. Qed.

Lemma sim_read {R S} p c (f : Cen -> prog N R) (h : lheap) (m : M S) Q : cen h p c ->
  sim (f c) h m Q -> sim (mbind (read_m p) f) h m Q.
Proof.
  intros (x & Ho & Hx) H. apply sim_assoc. eapply sim_get_obj; eauto. apply sim_assoc. eapply sim_all; eauto.
  cbn [mbind fst snd]. destruct c; exact H.
Qed.

(* ---- distribution among the centroids ps ---- *)
Lemma fr0 S Y W (h : lheap) : wf h -> fr S Y W h h.
Proof. intros Hw. eapply fr_weak; [apply fr_refl; auto|..]; intros q []. Qed.

Lemma c_add_false c d t c' t' : c_add E c d t = Ok ((false, c'), t') -> c' = c.
Proof.
  unfold c_add. destruct (negb _); [cbv [ret]; congruence|]. unfold bind. destruct (expired E d t) as [[[] u]| |]; cbv [ret]; congruence.
Qed.

Lemma add_sim2 h p c d : wf h -> cen h p c ->
  sim (add_m E p d) h (c_add E c d)
    (fun b h' r => fr [p] [] [] h h' /\ cen h' p (snd r) /\ b = fst r /\ (fst r = false -> snd r = c)).
Proof.
  intros Hw Hc t. pose proof (add_sim E h p c d Hw Hc t) as H.
  destruct (run_lists (add_m E p d) h t) as [[[a d1] u]| |], (c_add E c d t) as [[[b c1] u']| |] eqn:Hadd; cbn in *; auto.
  destruct H as (-> & F & H1 & H2). splits; auto. intros ->. eapply c_add_false; eauto.
Qed.

Lemma put_back_sim h ps pool self p d : wf h -> NoDup ps -> cens h ps pool -> nth_error ps self = Some p ->
  sim (run _ <- add_m E p d; Done tt) h (put_back E pool self d)
    (fun _ h' pool' => fr ps [] [] h h' /\ cens h' ps pool').
Proof.
  intros Hw Hn Hc Hp. unfold put_back. destruct (cens_at2 _ _ _ _ _ Hc Hp) as (c & Hi & Hcp).
  eapply sim_index; eauto. eapply sim_bind; [apply add_sim; eauto|]. intros b h1 [b' c1] (F1 & Hc1 & _).
  apply sim_ret. split.
  - eapply fr_weak; [exact F1|..]; intros q; simpl; try tauto. intros [<-|[]]. eapply nth_error_In; eauto.
  - eapply cens_set; eauto. intros x [].
Qed.

Lemma recv_vecs_ok h ps pool rs qs t : cens h ps pool -> Forall2 (fun r q => nth_error ps r = Some q) rs qs ->
  exists cs, cens h qs cs /\ recv_vecs pool rs t = Ok (map c_vec cs, t).
Proof.
  intros Hc H. revert t. induction H as [|r q rs qs Hr H IH]; intros t.
  - exists []. split; constructor.
  - destruct (IH t) as (cs & Hcs & He). destruct (cens_at2 _ _ _ _ _ Hc Hr) as (c & Hi & Hq).
    exists (c :: cs). split; [constructor; auto|]. cbn [recv_vecs map]. unfold bind. rewrite (index_ok _ _ _ _ Hi), He. reflexivity.
Qed.
Lemma recv_at ps rs (qs : list nat) i : Forall2 (fun r q => nth_error ps r = Some q) rs qs ->
  nth_error rs i = None /\ nth_error qs i = None \/
  exists r q, nth_error rs i = Some r /\ nth_error qs i = Some q /\ nth_error ps r = Some q.
Proof.
  intros H. revert i. induction H as [|r q rs qs Hr H IH]; intros [|i]; simpl; auto. right. eauto.
Qed.

Lemma skipn_cons {A} (l : list A) i d r : skipn i l = d :: r -> nth_error l i = Some d /\ skipn (S i) l = r.
Proof.
  revert l. induction i as [|i IH]; intros [|x l] H; try discriminate.
  - injection H as -> ->. auto.
  - apply IH in H. destruct H. auto.
Qed.

Lemma distribute_loop_sim data0 : forall h ps pool self p rs qs y l i, wf h -> NoDup ps -> cens h ps pool ->
  nth_error ps self = Some p -> Forall2 (fun r q => nth_error ps r = Some q) rs qs ->
  loose h y l -> skipn i l = data0 ->
  sim (distribute_loop_m E p qs y i (length data0)) h (distribute_loop E pool self rs data0)
    (fun _ h' pool' => fr ps [] [] h h' /\ cens h' ps pool').
Proof.
  induction data0 as [|d data0 IH]; intros h ps pool self p rs qs y l i Hw Hn Hc Hp Hr Hy Hl;
    cbn [length distribute_loop_m distribute_loop].
  - apply sim_ret. split; auto. apply fr0; auto.
  - destruct (skipn_cons l i d data0 Hl) as (Hd & Hl').
    eapply sim_get; [apply Hy|exact Hd|].
    destruct (recv_vecs_ok h ps pool rs qs 0 Hc Hr) as (cs & Hcs & _).
    eapply sim_vecs; eauto. eapply sim_right.
    { intros t. destruct (recv_vecs_ok h ps pool rs qs t Hc Hr) as (cs' & Hcs' & He).
      assert (Hv : map c_vec cs' = map c_vec cs).
      { pose proof (run_vecs h qs cs 0 Hcs) as H1. pose proof (run_vecs h qs cs' 0 Hcs') as H2. congruence. }
      rewrite He, Hv. reflexivity. }
    eapply sim_eff. intros idx.
    assert (Hnext : forall h1 pool1, fr ps [] [] h h1 -> cens h1 ps pool1 ->
      sim (distribute_loop_m E p qs y (S i) (length data0)) h1 (distribute_loop E pool1 self rs data0)
        (fun _ h' pool' => fr ps [] [] h h' /\ cens h' ps pool')).
    { intros h1 pool1 F1 Hc1. eapply sim_mono; [eapply IH; eauto; [apply F1|eapply loose_fr; eauto]|].
      intros _ h2 pool2 (F2 & Hc2). split; auto. frt F1 F2. }
    destruct idx as [|r0 idx].
    + cbn [mbind]. eapply sim_bind; [apply (put_back_sim h ps pool self p d Hw Hn Hc Hp)|].
      intros _ h1 pool1 (F1 & Hc1). apply Hnext; auto.
    + apply sim_unassoc. eapply sim_bind with (Q := fun _ h' pool' => fr ps [] [] h h' /\ cens h' ps pool');
        [|intros _ h1 pool1 (F1 & Hc1); apply Hnext; auto].
      apply sim_assoc. destruct (recv_at ps rs qs r0 Hr) as [(H1 & H2)|(r & q & H1 & H2 & H3)].
      { apply sim_panic.
        - intros t. rewrite run_mbind. unfold bind. cbn. unfold bind, index. rewrite H2. reflexivity.
        - intros t. unfold bind, index. rewrite H1. reflexivity. }
      eapply sim_left with (r := q) (h' := h). { intros t. cbn. unfold bind. rewrite (index_ok _ _ _ _ H2). reflexivity. }
      eapply sim_index; [exact H1|].
      destruct (cens_at2 _ _ _ _ _ Hc H3) as (c & Hi & Hq). eapply sim_index; [exact Hi|].
      eapply sim_bind; [apply add_sim2; eauto|]. intros b h1 [b' c1] (F1 & Hc1 & -> & Hf). cbn [fst snd] in *.
      assert (F1' : fr ps [] [] h h1).
      { eapply fr_weak; [exact F1|..]; intros q'; simpl; try tauto. intros [<-|[]]. eapply nth_error_In; eauto. }
      assert (Hc1' : cens h1 ps (list_set pool r c1)) by (eapply cens_set; eauto; intros x []).
      destruct b'.
      * apply sim_ret. auto.
      * rewrite (Hf eq_refl), (list_set_id _ _ _ Hi) in Hc1'.
        eapply sim_mono; [apply (put_back_sim h1 ps pool self p d (fr_wf _ _ _ _ _ F1) Hn Hc1' Hp)|].
        intros _ h2 pool2 (F2 & Hc2). split; auto. frt F1' F2.
Qed.

Lemma distribute_sim h ps pool self p n rs qs : wf h -> NoDup ps -> cens h ps pool ->
  nth_error ps self = Some p -> Forall2 (fun r q => nth_error ps r = Some q) rs qs ->
  sim (distribute_m E p n qs) h (c_distribute E pool self n rs) (fun _ h' pool' => fr ps [] [] h h' /\ cens h' ps pool').
Proof.
  intros Hw Hn Hc Hp Hr. unfold distribute_m, c_distribute. destruct Hr as [|r q rs qs Hrq Hr].
  - apply sim_ret. split; auto. apply fr0; auto.
  - destruct (cens_at2 _ _ _ _ _ Hc Hp) as (c & Hi & Hcp). eapply sim_index; eauto.
    eapply sim_bind; [apply drain_ordered_sim; eauto|]. intros y h1 [l c1] (F1 & Hy & Hc1 & Hl). cbn [fst snd] in *.
    eapply sim_len; [apply Hl|].
    assert (F1' : fr ps [] [] h h1).
    { eapply fr_weak; [exact F1|..]; intros q'; simpl; try tauto. intros [<-|[]]. eapply nth_error_In; eauto. }
    eapply sim_mono; [eapply distribute_loop_sim with (ps := ps); eauto; [apply F1|eapply cens_set; eauto; intros x []]|].
    intros _ h2 pool2 (F2 & Hc2). split; auto. frt F1' F2.
Qed.

(* ---- the manager ---- *)
Record rep (h : lheap) (g : mgr) (ps : list nat) (m : CM N) : Prop := MkRep {
  rep_wf : wf h;
  rep_cs : pvar h (g_cs g) ps;
  rep_nodup : NoDup ps;
  rep_cens : cens h ps (cm_cs m);
  rep_vec : g_vec g = cm_vec m;
  rep_thresh : g_thresh g = cm_thresh m }.

Definition incl_new (h : lheap) (ps ps' : list nat) : Prop := forall q, In q ps' -> In q ps \/ length (l_objs h) <= q.

Lemma rep_len h g ps m : rep h g ps m -> length ps = length (cm_cs m).
Proof. intros R. eapply cens_length. apply R. Qed.

Lemma near_sim h g ps m v k : rep h g ps m ->
  sim (near_m E g v k) h (lift (e_knn E v (cm_vecs m) k)) (fun idx h' idx' => h' = h /\ idx = idx').
Proof.
  intros R. unfold near_m. eapply sim_pall; [apply R|]. eapply sim_vecs; [apply R|].
  intros t. cbn. unfold bind, lift, cm_vecs. destruct (e_knn E v (map c_vec (cm_cs m)) k); cbn; auto.
Qed.

Lemma fold_lens (cs : list Cen) a : fold_left Nat.add (map (fun c => c_len c) cs) a = fold_left (fun r c => r + c_len c) cs a.
Proof. revert a. induction cs as [|c cs IH]; intros a; simpl; auto. Qed.

Lemma portions_sim h g ps m n : rep h g ps m ->
  sim (portions_m E g n) h (cm_portions E m n) (fun pt h' pt' => h' = h /\ pt = pt').
Proof.
  intros R. unfold portions_m, cm_portions. eapply sim_pall; [apply R|]. eapply sim_lens; [apply R|].
  rewrite fold_lens. fold (cm_len_dp m). rewrite map_length. eapply sim_eff. intros pt.
  intros t. cbn. unfold bind. destruct (any_order E (portions_entries pt) t) as [[a u]| |]; cbn; auto.
Qed.

Lemma sim_update {R S} (g : mgr) old p c ps (f : mgr -> prog N R) h (m : M S) Q : pvar h (g_cs g) ps -> cen h p c ->
  sim (f (with_vec g (vec_update (g_vec g) (length ps) old (c_vec c)))) h m Q -> sim (mbind (update_m g old p) f) h m Q.
Proof. intros Hp Hc H. apply sim_assoc. eapply sim_vec_m; eauto. apply sim_assoc. eapply sim_plen; eauto. Qed.

(* A change of one centroid. *)
Lemma rep_touch Y h h' g ps m i p c c' : rep h g ps m -> nth_error ps i = Some p ->
  fr [p] Y [] h h' -> loose_all h Y -> cen h' p c' ->
  rep h' (with_vec g (vec_update (g_vec g) (length ps) (c_vec c) (c_vec c'))) ps (update_centroid m i c c').
Proof.
  intros R Hp F HY Hc. constructor; cbn [with_vec g_cs g_vec g_thresh update_centroid cm_cs cm_vec cm_thresh]; try apply R.
  - apply F.
  - eapply (fr_ptrs _ _ _ _ _ F); [apply R|auto].
  - eapply cens_set; eauto; apply R.
  - rewrite (rep_len _ _ _ _ R), (rep_vec _ _ _ _ R). reflexivity.
Qed.
Lemma rep_set Y h h' g ps m i p c' : rep h g ps m -> nth_error ps i = Some p ->
  fr [p] Y [] h h' -> loose_all h Y -> cen h' p c' -> rep h' g ps (set_centroid m i c').
Proof.
  intros R Hp F HY Hc. constructor; cbn [set_centroid cm_cs cm_vec cm_thresh]; try apply R.
  - apply F.
  - eapply (fr_ptrs _ _ _ _ _ F); [apply R|auto].
  - eapply cens_set; eauto; apply R.
Qed.
Lemma rep_fr Y h h' g ps m : rep h g ps m -> fr [] Y [] h h' -> loose_all h Y -> rep h' g ps m.
Proof.
  intros R F HY. constructor; try apply R.
  - apply F.
  - eapply (fr_ptrs _ _ _ _ _ F); [apply R|auto].
  - eapply cens_fr; eauto; apply R.
Qed.
Lemma fr_one p ps i Y W (h h' : lheap) : nth_error ps i = Some p -> fr [p] Y W h h' -> fr ps Y W h h'.
Proof.
  intros Hi F. eapply fr_weak; [exact F|..]; intros q; simpl; try tauto. intros [<-|[]]. eapply nth_error_In; eauto.
Qed.
Lemma loose_one h y l : loose h y l -> loose_all h [y].
Proof. intros H x [<-|[]]. eauto. Qed.
Lemma loose_nil h : loose_all h [].
Proof. intros x []. Qed.
Hint Resolve loose_one loose_nil : core.

Lemma rep_at h g ps m i c : rep h g ps m -> nth_error (cm_cs m) i = Some c ->
  exists p, nth_error ps i = Some p /\ cen h p c.
Proof. intros R. apply cens_at. apply R. Qed.

(* cm.Centroids[i], with a bounds check on both sides. *)
Lemma sim_pget_index {A S} h g ps m i (f : nat -> prog N A) (k : Cen -> M S) Q : rep h g ps m ->
  (forall p c, nth_error ps i = Some p -> nth_error (cm_cs m) i = Some c -> cen h p c -> sim (f p) h (k c) Q) ->
  sim (mbind (ptrs (Get (g_cs g) i)) f) h (bind (index (cm_cs m) i) k) Q.
Proof.
  intros R Hk. destruct (nth_error (cm_cs m) i) as [c|] eqn:Hi.
  - destruct (rep_at _ _ _ _ _ _ R Hi) as (p & Hp & Hc). eapply sim_index; eauto. eapply sim_pget; [apply R|eauto|]. auto.
  - pose proof (cens_none _ _ _ _ (rep_cens _ _ _ _ R) Hi) as Hp. apply sim_panic.
    + intros t. rewrite run_mbind. unfold bind. cbn. unfold bind, index. pose proof (rep_cs _ _ _ _ R) as Hu. unfold pvar in Hu.
      rewrite Hu. cbn. rewrite Hp. reflexivity.
    + intros t. unfold bind, index. rewrite Hi. reflexivity.
Qed.

Lemma add_slice_sim ds : forall h q c y l i, wf h -> cen h q c -> loose h y l -> skipn i l = ds ->
  sim (add_slice_m E q y i (length ds)) h (add_all E c ds) (fun _ h' c' => fr [q] [] [] h h' /\ cen h' q c').
Proof.
  induction ds as [|d ds IH]; intros h q c y l i Hw Hc Hy Hl; cbn [length add_slice_m add_all].
  - apply sim_ret. split; auto. apply fr0; auto.
  - destruct (skipn_cons l i d ds Hl) as (Hd & Hl'). eapply sim_get; [apply Hy|exact Hd|].
    eapply sim_bind; [apply add_sim; eauto|]. intros b h1 [b' c1] (F1 & Hc1 & _). cbn [fst snd] in *.
    eapply sim_mono; [eapply IH; eauto; [apply F1|eapply loose_fr; eauto]|]. intros _ h2 c2 (F2 & Hc2). split; auto. frt F1 F2.
Qed.

Lemma split_centroid_sim h g ps m i trim : rep h g ps m ->
  sim (split_centroid_m E g i trim) h (split_centroid E m i trim)
    (fun o h' o' => match o, o' with
       | None, None => h' = h
       | Some q, Some (old, new) => fr ps [] [] h h' /\ length (l_objs h) <= q /\ cen h' q new /\
           rep h' g ps (set_centroid m i old)
       | _, _ => False end).
Proof.
  intros R. unfold split_centroid_m, split_centroid. eapply sim_plen; [apply R|].
  rewrite (rep_len _ _ _ _ R). destruct (trim <=? 0)%Z.
  { rewrite orb_true_r. apply sim_ret. auto. }
  rewrite orb_false_r. destruct (nth_error (cm_cs m) i) as [old|] eqn:Hi.
  2: { apply nth_error_None in Hi. rewrite (proj2 (Nat.leb_le _ _)) by auto. apply sim_ret. auto. }
  pose proof (nth_error_len _ _ _ Hi). rewrite (proj2 (Nat.leb_gt _ _)) by auto.
  destruct (rep_at _ _ _ _ _ _ R Hi) as (p & Hp & Hc). eapply sim_pget; [apply R|eauto|]. eapply sim_vec_m; eauto.
  eapply sim_pure; [apply new_centroid_sim; apply R|]. intros q h1 (F1 & Hu1 & Hq & Hcq).
  assert (R1 : rep h1 g ps m) by (eapply rep_fr; eauto).
  assert (Hc1 : cen h1 p old) by (eapply cen_fr; [apply R|exact F1|exact Hc|auto|intros x o []]).
  assert (Hpq : p <> q). { destruct Hc as (x & Ho & _). apply obj_lt in Ho. lia. }
  eapply sim_bind; [apply drain_unordered_sim; [apply R1|eauto]|]. intros y h2 [ds old'] (F2 & Hy & Hc2 & Hl2). cbn [fst snd] in *.
  assert (Hcq2 : cen h2 q (new_centroid (c_vec old))).
  { eapply cen_fr; [apply R1|exact F2|exact Hcq|intros [?|[]]; auto|intros x o []]. }
  assert (R2 : rep h2 g ps (set_centroid m i old')) by (eapply rep_set; eauto).
  eapply sim_len; [apply Hl2|]. eapply sim_bind; [eapply add_slice_sim; [apply R2|eauto|exact Hl2|reflexivity]|].
  intros _ h3 new (F3 & Hc3). apply sim_ret.
  pose proof (fr_one p ps i _ _ _ _ Hp F2) as F2'.
  assert (F12 : fr ps [] [] h h2) by frt F1 F2'.
  splits; auto.
  - frt F12 F3.
  - lia.
  - constructor; cbn [set_centroid cm_cs cm_vec cm_thresh]; try apply R.
    + apply F3.
    + eapply (fr_ptrs _ _ _ _ _ F3); [apply R2|auto].
    + eapply cens_fr; [apply R2|exact F3|apply R2|auto|]. intros p' Hp' [<-|[]].
      apply In_nth_error in Hp'. destruct Hp' as (i' & Hi').
      destruct (cens_at2 _ _ _ _ _ (rep_cens _ _ _ _ R) Hi') as (c' & _ & (x & Ho & _)). apply obj_lt in Ho. lia.
Qed.

(* What an operation on the manager may do. *)
Definition mpost (h : lheap) (g : mgr) (ps : list nat) (h' : lheap) (g' : mgr) (m' : CM N) : Prop :=
  exists ps', rep h' g' ps' m' /\ g_cs g' = g_cs g /\ fr ps [] [g_cs g] h h' /\ incl_new h ps ps'.

Lemma mpost_same h g ps m : rep h g ps m -> mpost h g ps h g m.
Proof. intros R. exists ps. splits; auto. apply fr0. apply R. intros q Hq. auto. Qed.
Lemma mpost_fr h g ps h' g' m' : rep h' g' ps m' -> g_cs g' = g_cs g -> fr ps [] [] h h' -> mpost h g ps h' g' m'.
Proof.
  intros R Hg F. exists ps. splits; auto.
  - eapply fr_weak; [exact F|..]; intros q; simpl; tauto.
  - intros q Hq. auto.
Qed.

Lemma rep_lt h g ps m p : rep h g ps m -> In p ps -> p < length (l_objs h).
Proof.
  intros R Hp. apply In_nth_error in Hp. destruct Hp as (i & Hi).
  destruct (cens_at2 _ _ _ _ _ (rep_cens _ _ _ _ R) Hi) as (c & _ & (x & Ho & _)). eapply obj_lt; eauto.
Qed.

(* append(cm.Centroids, q) *)
Lemma nodup_snoc {A} (l : list A) x : NoDup l -> ~ In x l -> NoDup (l ++ [x]).
Proof.
  intros Hn Hx. apply NoDup_Add with (a := x) (l := l); auto. rewrite <- (app_nil_r l) at 1. apply Add_app.
Qed.
Lemma rep_push h g ps m q c v : rep h g ps m -> cen h q c -> ~ In q ps ->
  rep (set_ptrs h (g_cs g) (ps ++ [q])) (with_vec g v) (ps ++ [q]) (MkCM v (cm_cs m ++ [c]) (cm_thresh m)).
Proof.
  intros R Hc Hq. constructor; cbn [with_vec g_cs g_vec g_thresh cm_cs cm_vec cm_thresh]; auto; try apply R.
  - eapply pvar_set. apply R.
  - apply nodup_snoc; auto. apply R.
  - apply Forall2_app; [apply (rep_cens _ _ _ _ R)|constructor; auto; constructor].
Qed.

Lemma add_mgr_sim h g ps m d : rep h g ps m ->
  sim (mgr_add_m E g d) h (cm_add E m d) (fun r h' s => fst r = fst s /\ mpost h g ps h' (snd r) (snd s)).
Proof.
  intros R. unfold mgr_add_m, cm_add. eapply sim_eff. intros [].
  { apply sim_ret. split; auto. apply mpost_same; auto. }
  eapply sim_plen; [apply R|]. rewrite (rep_len _ _ _ _ R). destruct (cm_cs m) as [|c0 cs0] eqn:Hcs; cbn [length Nat.eqb].
  - assert (ps = []) by (pose proof (rep_len _ _ _ _ R) as H; rewrite Hcs in H; destruct ps; auto; discriminate). subst ps.
    eapply sim_pure; [apply new_centroid_sim; apply R|]. intros p h1 (F1 & Hu1 & Hp & Hc1).
    eapply sim_bind; [apply add_sim; [apply F1|eauto]|]. intros b h2 [b' c2] (F2 & Hc2 & _). cbn [fst snd] in *.
    assert (Hu2 : pvar h2 (g_cs g) []).
    { eapply (fr_ptrs _ _ _ _ _ F2); [|auto]. eapply (fr_ptrs _ _ _ _ _ F1); [apply R|auto]. }
    eapply sim_papp; [exact Hu2|]. cbn [app].
    pose proof (fr_set_ptrs h2 (g_cs g) [p] (fr_wf _ _ _ _ _ F2)) as F3.
    assert (Hc3 : cen (set_ptrs h2 (g_cs g) [p]) p c2) by (destruct Hc2 as (x & ?); exists x; auto).
    eapply sim_vec_m; [exact Hc3|]. apply sim_ret. cbn [fst snd]. split; auto.
    assert (F12 : fr [] [] [] h h2) by frt F1 F2.
    exists [p]. splits; auto.
    + constructor; cbn [with_vec g_cs g_vec g_thresh cm_cs cm_vec cm_thresh]; auto; try apply R.
      * apply F3.
      * eapply pvar_set; eauto.
      * constructor; [simpl; tauto|constructor].
      * constructor; auto.
    + frt F12 F3.
    + intros q [<-|[]]. right. lia.
  - rewrite <- Hcs. eapply sim_bind; [eapply near_sim; eauto|]. intros idx h' idx' (-> & ->).
    destruct idx' as [|i idx']; [apply sim_ret; split; auto; apply mpost_same; auto|].
    apply sim_pget_index with (ps := ps); auto. intros p c Hp Hi Hc. eapply sim_vec_m; eauto.
    eapply sim_bind; [apply add_sim2; [apply R|eauto]|]. intros b h1 [b' c1] (F1 & Hc1 & -> & Hf). cbn [fst snd] in *.
    pose proof (fr_one p ps i _ _ _ _ Hp F1) as F1'.
    destruct b'; cbn [negb].
    2: { rewrite (Hf eq_refl) in Hc1. apply sim_ret. split; auto. apply mpost_fr; auto.
         pose proof (rep_set [] h h1 g ps m i p c R Hp F1 (loose_nil h) Hc1) as R1.
         unfold set_centroid in R1. rewrite (list_set_id _ _ _ Hi) in R1. destruct m; exact R1. }
    eapply sim_update; [eapply (fr_ptrs _ _ _ _ _ F1); [apply R|auto]|eauto|].
    pose proof (rep_touch [] h h1 g ps m i p c c1 R Hp F1 (loose_nil h) Hc1) as R1.
    eapply sim_len_m; [exact Hc1|]. change (length (c_dps c1)) with (c_len c1). rewrite (rep_thresh _ _ _ _ R).
    destruct (cm_thresh m <=? Z.of_nat (c_len c1))%Z; [|apply sim_ret; split; auto; apply mpost_fr; auto].
    eapply sim_bind; [apply split_centroid_sim; exact R1|]. intros [q|] h2 [[old new]|] H2; try contradiction.
    2: { subst h2. apply sim_ret. split; auto. apply mpost_fr; auto. }
    destruct H2 as (F2 & Hq & Hcq & R2).
    assert (Hnq : ~ In q ps). { intros Hin. pose proof (rep_lt _ _ _ _ _ R Hin). pose proof (fr_olen _ _ _ _ _ F1). lia. }
    eapply sim_papp; [apply (rep_cs _ _ _ _ R2)|]. apply sim_ret. split; auto. cbn [fst snd].
    exists (ps ++ [q]). splits; auto.
    + pose proof (rep_push h2 _ ps _ q new (cm_vec (set_centroid (update_centroid m i c c1) i old)) R2 Hcq Hnq) as R3.
      rewrite <- (rep_vec _ _ _ _ R2) in R3 at 1. exact R3.
    + pose proof (fr_set_ptrs h2 (g_cs g) (ps ++ [q]) (fr_wf _ _ _ _ _ F2)) as F3.
      assert (F12 : fr ps [] [] h h2) by frt F1' F2. frt F12 F3.
    + intros q' Hin. apply in_app_iff in Hin. destruct Hin as [Hin|[<-|[]]]; auto.
      right. pose proof (fr_olen _ _ _ _ _ F1). lia.
Qed.
End MemMgr.
