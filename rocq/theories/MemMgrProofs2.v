(* The remaining operations of the manager. *)
From Coq Require Import Sorted Permutation.
From Verif Require Import Base Num MathUtils Env Wp Centroid CManager History Memory MemProofs MemCentroid MemSim MemCenProofs MemManager MemMgrProofs.

Section MemMgr2.
Context {N : Num} (E : Env N).
Notation DP := (DataPoint N).
Notation Cen := (Centroid N).
Notation lheap := (lheap N).
Notation mgr := (mgr N).
Hint Resolve loose_one loose_nil : core.

(* The manager keeps its slice of pointers; of the other slices only Y change. *)
Definition kept (Y : list nat) (h : lheap) (g : mgr) (ps : list nat) (h' : lheap) (g' : mgr) (m' : CM N) : Prop :=
  rep h' g' ps m' /\ g_cs g' = g_cs g /\ fr ps Y [] h h'.

Lemma kept_refl Y h g ps m : rep h g ps m -> kept Y h g ps h g m.
Proof. intros R. unfold kept. splits; auto. apply fr0. apply R. Qed.
Lemma kept_trans Y h g ps h1 g1 m1 h2 g2 m2 : kept Y h g ps h1 g1 m1 -> kept Y h1 g1 ps h2 g2 m2 -> kept Y h g ps h2 g2 m2.
Proof. intros (R1 & H1 & F1) (R2 & H2 & F2). unfold kept. splits; auto; [congruence|]. frt F1 F2. Qed.
Lemma kept_touch Y h g ps m i p c c' h' : rep h g ps m -> nth_error ps i = Some p ->
  fr [p] Y [] h h' -> loose_all h Y -> cen h' p c' ->
  kept Y h g ps h' (with_vec g (vec_update (g_vec g) (length ps) (c_vec c) (c_vec c'))) (update_centroid m i c c').
Proof.
  intros R Hp F HY Hc. unfold kept. splits; auto; [eapply rep_touch; eauto|]. eapply fr_one; eauto.
Qed.
Lemma kept_mpost h g ps h' g' m' : kept [] h g ps h' g' m' -> mpost h g ps h' g' m'.
Proof. intros (R & Hg & F). apply mpost_fr; auto. Qed.
Lemma kept_mpost_new y h g ps h' g' m' : kept [y] h g ps h' g' m' -> length (l_data h) <= y ->
  forall h0, fr [] [] [] h0 h -> length (l_data h0) <= y -> mpost h0 g ps h' g' m'.
Proof.
  intros (R & Hg & F) Hy h0 F0 Hy0. apply mpost_fr; auto. frt F0 F.
Qed.

Lemma sim_vassoc {A S S' S''} (p : prog N A) h (m : M S) (f : S -> M S') (g : S' -> M S'') Q :
  sim p h (bind m (fun x => bind (f x) g)) Q -> sim p h (bind (bind m f) g) Q.
Proof. intros H t. specialize (H t). unfold bind in *. destruct (m t) as [[a u]| |]; exact H. Qed.
Lemma sim_vlast {A S} (p : prog N A) h (m : M S) Q : sim p h (bind m (fun x => ret x)) Q -> sim p h m Q.
Proof. intros H t. specialize (H t). unfold bind, ret in *. destruct (m t) as [[a u]| |]; exact H. Qed.

Lemma nodup_app {A} (l r : list A) : NoDup l -> NoDup r -> (forall x, In x l -> ~ In x r) -> NoDup (l ++ r).
Proof.
  intros Hl Hr H. induction Hl as [|x l Hx Hl IH]; simpl; auto. constructor.
  - intros Hi. apply in_app_iff in Hi. destruct Hi; auto. apply (H x); simpl; auto.
  - apply IH. intros y Hy. apply H. simpl. auto.
Qed.

(* ---- draining ---- *)
Section Drain.
Variables (drain : nat -> Z -> prog N nat) (vdrain : Cen -> Z -> M (list DP * Cen)).
Hypothesis drain_sim : forall h p c n, wf h -> cen h p c -> sim (drain p n) h (vdrain c n) (dpost p h).

Lemma drain_portions_sim pt : forall h g ps m y res, rep h g ps m -> loose h y res ->
  sim (drain_portions_m drain g pt y) h (drain_portions vdrain m pt res)
    (fun g' h' s => kept [y] h g ps h' g' (snd s) /\ loose h' y (fst s)).
Proof.
  induction pt as [|(i, k) pt IH]; intros h g ps m y res R Hy; cbn [drain_portions_m drain_portions].
  - apply sim_ret. split; auto. apply kept_refl; auto.
  - eapply sim_pget_index; eauto. intros p c Hp Hi Hc. eapply sim_vec_m; eauto.
    eapply sim_bind; [apply drain_sim; [apply R|eauto]|]. intros z h1 [r c1] (F1 & Hz & Hc1 & Hl1). cbn [fst snd] in *.
    eapply sim_all; [apply Hl1|].
    assert (Hy1 : loose h1 y res) by (eapply loose_fr; eauto).
    eapply sim_app; [apply Hy1|].
    pose proof (fr_set_data h1 y (res ++ r) (fr_wf _ _ _ _ _ F1)) as F2.
    assert (F12 : fr [p] [y] [] h (set_data h1 y (res ++ r))) by frt F1 F2.
    assert (Hc2 : cen (set_data h1 y (res ++ r)) p c1).
    { eapply cen_fr; [apply F1|exact F2|exact Hc1|auto|]. intros x o [<-|[]] Ho. eapply Hy1; eauto. }
    assert (Hy2 : loose (set_data h1 y (res ++ r)) y (res ++ r)).
    { eapply loose_any; [exact F2|exact Hy1|]. eapply dvar_set. apply Hy1. }
    pose proof (kept_touch [y] h g ps m i p c c1 _ R Hp F12 (loose_one _ _ _ Hy) Hc2) as K.
    eapply sim_update; [|eauto|].
    { eapply (fr_ptrs _ _ _ _ _ F12); [apply R|auto]. }
    eapply sim_mono; [eapply IH; [apply K|exact Hy2]|]. intros g2 h2 [res2 m2] (K2 & Hy3). split; auto. eapply kept_trans; eauto.
Qed.

Lemma mgr_drain_sim h g ps m n : rep h g ps m ->
  sim (mgr_drain_m E drain g n) h
    (if (n <? 0)%Z then panic else do pt <- cm_portions E m n; drain_portions vdrain m pt [])
    (fun r h' s => mpost h g ps h' (snd r) (snd s) /\ loose h' (fst r) (fst s)).
Proof.
  intros R. unfold mgr_drain_m. destruct (n <? 0)%Z; [apply sim_panic; intros t; reflexivity|].
  destruct (fr_add_data h (rep_wf _ _ _ _ R)) as (F1 & Hy). eapply sim_new. set (y := length (l_data h)) in *.
  assert (R1 : rep (add_data h) g ps m) by (eapply rep_fr; eauto).
  eapply sim_bind; [eapply portions_sim; eauto|]. intros pt h' pt' (-> & ->).
  eapply sim_mono with (Q := fun (r : nat * mgr) h' (s : list DP * CM N) =>
     fst r = y /\ kept [y] (add_data h) g ps h' (snd r) (snd s) /\ loose h' y (fst s)).
  - intros t. rewrite run_mbind. pose proof (drain_portions_sim pt' _ _ _ _ _ _ R1 Hy t) as H. unfold bind.
    destruct (run_lists (drain_portions_m drain g pt' y) (add_data h) t) as [[[a d] u]| |], (drain_portions vdrain m pt' [] t) as [[s u']| |];
      cbn in *; auto. destruct H as (-> & K & Hl). auto.
  - intros [y' g'] h2 [l m2] (Hy' & (R2 & Hg & F2) & Hl). cbn [fst snd] in *. subst y'. split; auto. apply mpost_fr; auto.
    frt F1 F2.
Qed.
End Drain.

(* ---- visiting every centroid ---- *)
Lemma nth_mid {A} (l : list A) x r : nth_error (l ++ x :: r) (length l) = Some x.
Proof. induction l; simpl; auto. Qed.
Lemma seq_mid {A} (l : list A) x r : seq (length l) (length (x :: r)) = length l :: seq (length (l ++ [x])) (length r).
Proof. rewrite app_length. simpl. f_equal. f_equal. lia. Qed.
Lemma app_mid {A} (l : list A) x r : l ++ x :: r = (l ++ [x]) ++ r.
Proof. rewrite <- app_assoc. reflexivity. Qed.

Lemma expire_all_sim ps2 : forall ps1 h g m, rep h g (ps1 ++ ps2) m ->
  sim (expire_all_m E g ps2) h (cm_expire_loop E m (seq (length ps1) (length ps2)))
    (fun g' h' m' => kept [] h g (ps1 ++ ps2) h' g' m').
Proof.
  induction ps2 as [|p ps2 IH]; intros ps1 h g m R; cbn [expire_all_m].
  - apply sim_ret. apply kept_refl; auto.
  - rewrite seq_mid. cbn [cm_expire_loop]. pose proof (nth_mid ps1 p ps2) as Hp.
    destruct (cens_at2 _ _ _ _ _ (rep_cens _ _ _ _ R) Hp) as (c & Hi & Hc). eapply sim_vec_m; eauto. eapply sim_index; eauto.
    eapply sim_bind; [apply expire_sim; [apply R|eauto]|]. intros _ h1 c1 (F1 & Hc1).
    pose proof (kept_touch [] h g _ m _ p c c1 _ R Hp F1 (loose_nil h) Hc1) as K.
    eapply sim_update; [eapply (fr_ptrs _ _ _ _ _ F1); [apply R|auto]|eauto|].
    rewrite (app_mid ps1 p ps2) in *. eapply sim_mono; [apply IH; apply K|]. intros g2 h2 m2 K2. eapply kept_trans; eauto.
Qed.
Lemma mgr_expire_sim h g ps m : rep h g ps m ->
  sim (mgr_expire_m E g) h (cm_expire E m) (fun g' h' m' => mpost h g ps h' g' m').
Proof.
  intros R. unfold mgr_expire_m, cm_expire. eapply sim_pall; [apply R|]. rewrite <- (rep_len _ _ _ _ R).
  eapply sim_mono; [apply (expire_all_sim ps [] h g m R)|]. intros g' h' m' K. apply kept_mpost. exact K.
Qed.

Lemma set_vec_rep (h : lheap) g ps (m : CM N) v : rep h g ps m -> rep h (with_vec g v) ps (set_vec m v).
Proof. intros R. constructor; cbn; try apply R; auto. Qed.

Lemma nodup_mid {A} (l : list A) x r : NoDup (l ++ x :: r) -> ~ In x l.
Proof. intros H Hx. apply NoDup_remove_2 in H. apply H. apply in_app_iff. auto. Qed.

Lemma trim_all_sim ps2 : forall ps1 h g m u us kept0, rep h g (ps1 ++ ps2) m -> u <> g_cs g ->
  pvar h u us -> cens h us kept0 -> NoDup us -> incl us ps1 ->
  sim (trim_all_m E g ps2 u) h (cm_mem_trim_loop E m (seq (length ps1) (length ps2)) kept0)
    (fun g' h' s => rep h' g' (ps1 ++ ps2) (fst s) /\ g_cs g' = g_cs g /\ fr (ps1 ++ ps2) [] [u] h h' /\
       exists us', pvar h' u us' /\ cens h' us' (snd s) /\ NoDup us' /\ incl us' (ps1 ++ ps2)).
Proof.
  induction ps2 as [|p ps2 IH]; intros ps1 h g m u us kept0 R Hu Hus Hk Hn Hin; cbn [trim_all_m].
  - apply sim_ret. cbn [fst snd]. splits; auto. { apply fr0. apply R. }
    exists us. rewrite app_nil_r. auto.
  - rewrite seq_mid. cbn [cm_mem_trim_loop]. pose proof (nth_mid ps1 p ps2) as Hp.
    destruct (cens_at2 _ _ _ _ _ (rep_cens _ _ _ _ R) Hp) as (c & Hi & Hc). eapply sim_vec_m; eauto. eapply sim_index; eauto.
    eapply sim_bind; [apply mem_trim_sim; [apply R|eauto]|]. intros _ h1 c1 (F1 & Hc1).
    pose proof (kept_touch [] h g _ m _ p c c1 _ R Hp F1 (loose_nil h) Hc1) as (R1 & Hg1 & F1').
    assert (Hpu : ~ In p us) by (intros Hx; apply Hin in Hx; eapply nodup_mid; [apply R|exact Hx]).
    assert (Hus1 : pvar h1 u us) by (eapply (fr_ptrs _ _ _ _ _ F1); eauto).
    assert (Hk1 : cens h1 us kept0).
    { eapply cens_fr; [apply R|exact F1|exact Hk|auto|]. intros q Hq [<-|[]]. auto. }
    eapply sim_update; [eapply (fr_ptrs _ _ _ _ _ F1); [apply R|auto]|eauto|].
    set (g1 := with_vec g _) in *. set (m1 := update_centroid m _ c c1) in *. cbv zeta.
    eapply sim_len_m; [exact Hc1|]. change (length (c_dps c1)) with (c_len c1).
    set (us1 := if negb (c_len c1 =? 0) then us ++ [p] else us).
    set (h2 := if negb (c_len c1 =? 0) then set_ptrs h1 u (us ++ [p]) else h1).
    assert (H2 : fr [] [] [u] h1 h2 /\ rep h2 g1 (ps1 ++ p :: ps2) m1 /\ pvar h2 u us1 /\
                 cens h2 us1 (if negb (c_len c1 =? 0) then kept0 ++ [c1] else kept0) /\ NoDup us1 /\ incl us1 (ps1 ++ [p]) /\ cen h2 p c1).
    { unfold us1, h2. destruct (negb (c_len c1 =? 0)).
      - pose proof (fr_set_ptrs h1 u (us ++ [p]) (fr_wf _ _ _ _ _ F1)) as F2. splits; auto.
        + constructor; try apply R1; auto. apply pvar_set_other; auto. apply R1.
        + eapply pvar_set; eauto.
        + apply Forall2_app; [exact Hk1|constructor; auto].
        + apply nodup_snoc; auto.
        + intros q Hq. apply in_app_iff in Hq. apply in_app_iff. destruct Hq; auto.
      - splits; auto. { apply fr0. apply R1. } intros q Hq. apply in_app_iff. auto. }
    destruct H2 as (F2 & R2 & Hus2 & Hk2 & Hn2 & Hin2 & Hc2).
    eapply sim_left with (r := tt) (h' := h2).
    { intros t. unfold h2. destruct (negb (c_len c1 =? 0)); [|reflexivity].
      cbn. unfold bind, index. unfold pvar in Hus1. rewrite Hus1. reflexivity. }
    eapply sim_plen; [apply R2|]. eapply sim_vec_m; [exact Hc2|].
    assert (Hlen : length (ps1 ++ p :: ps2) = length (cm_cs m1)) by (eapply rep_len; eauto).
    rewrite Hlen.
    set (m2 := if _ && _ then set_vec m1 _ else m1). set (g2 := if _ && _ then with_vec g1 _ else g1).
    assert (R3 : rep h2 g2 (ps1 ++ p :: ps2) m2 /\ g_cs g2 = g_cs g).
    { unfold g2, m2. rewrite (rep_vec _ _ _ _ R2). destruct (_ && _); split; auto. apply set_vec_rep; auto. }
    destruct R3 as (R3 & Hg3). rewrite (app_mid ps1 p ps2) in *.
    eapply sim_mono; [eapply (IH (ps1 ++ [p]) h2 g2 m2 u us1); eauto; rewrite Hg3; auto|].
    intros g3 h3 [m3 k3] (R4 & Hg4 & F4 & H4). cbn [fst snd] in *. splits; auto; [congruence|].
    assert (F12 : fr ((ps1 ++ [p]) ++ ps2) [] [u] h h2) by frt F1' F2. frt F12 F4.
Qed.

Lemma mgr_trim_sim h g ps m : rep h g ps m ->
  sim (mgr_trim_m E g) h (cm_mem_trim E m) (fun g' h' m' => mpost h g ps h' g' m').
Proof.
  intros R. unfold mgr_trim_m, cm_mem_trim. eapply sim_plen; [apply R|]. eapply sim_pnew.
  destruct (fr_add_ptrs h (rep_wf _ _ _ _ R)) as (F1 & Hu). set (u := length (l_ptrs h)) in *.
  assert (Hug : u <> g_cs g). { pose proof (pvar_lt _ _ _ (rep_cs _ _ _ _ R)). lia. }
  assert (R1 : rep (add_ptrs h) g ps m) by (eapply rep_fr; eauto).
  eapply sim_pall; [apply R1|]. rewrite <- (rep_len _ _ _ _ R).
  eapply sim_bind; [eapply (trim_all_sim ps [] (add_ptrs h) g m u [] []); eauto; try constructor; intros q []|].
  intros g1 h1 [m1 k1] (R2 & Hg & F2 & us & Hus & Hk & Hn & Hin). cbn [fst snd app] in *.
  eapply sim_pmove; [|exact Hus|]. { rewrite <- Hg. apply R2. }
  apply sim_ret.
  pose proof (fr_set_ptrs h1 (g_cs g) us (rep_wf _ _ _ _ R2)) as F3.
  pose proof (fr_set_ptrs (set_ptrs h1 (g_cs g) us) u [] (fr_wf _ _ _ _ _ F3)) as F4.
  assert (F12 : fr ps [] [] h h1) by frt F1 F2.
  assert (F13 : fr ps [] [g_cs g] h (set_ptrs h1 (g_cs g) us)) by frt F12 F3.
  exists us. splits; auto.
  - constructor; cbn; try apply R2; auto.
    rewrite Hg. apply pvar_set_other; auto. eapply pvar_set. rewrite <- Hg. apply R2.
  - frt F13 F4.
  - intros q Hq. auto.
Qed.

Lemma move_all_sim ps : forall h cs, wf h -> NoDup ps -> cens h ps cs ->
  sim (move_all_m E ps) h (move_all E cs) (fun _ h' cs' => fr ps [] [] h h' /\ cens h' ps cs').
Proof.
  induction ps as [|p ps IH]; intros h cs Hw Hn Hc; inversion Hc as [|p' c' ps' cs0 Hpc Hcs]; subst; cbn [move_all_m move_all].
  - apply sim_ret. split; auto. apply fr0; auto.
  - inversion Hn; subst. eapply sim_bind; [apply move_vector_sim; eauto|]. intros b h1 [b' c1] (F1 & _ & Hc1). cbn [fst snd] in *.
    assert (Hcs1 : cens h1 ps cs0).
    { eapply cens_fr; [exact Hw|exact F1|exact Hcs|auto|]. intros q Hq [<-|[]]. auto. }
    apply sim_last. eapply sim_bind; [apply IH; eauto; apply F1|]. intros [] h2 cs2 (F2 & Hc2). apply sim_ret.
    split.
    + frt F1 F2.
    + constructor; auto. eapply cen_fr; [apply F1|exact F2|exact Hc1|auto|intros x o []].
Qed.
Lemma mgr_move_kept h g ps m : rep h g ps m ->
  sim (mgr_move_m E g) h (cm_move_vector E m) (fun r h' s => fst r = fst s /\ kept [] h g ps h' (snd r) (snd s)).
Proof.
  intros R. unfold mgr_move_m, cm_move_vector. eapply sim_pall; [apply R|].
  eapply sim_bind; [apply move_all_sim; apply R|]. intros _ h1 cs1 (F1 & Hc1). eapply sim_vecs; [exact Hc1|].
  rewrite map_length. eapply sim_eff. intros ((v, ok), x). apply sim_ret. cbn [fst snd]. split; auto.
  assert (Hcs : pvar h1 (g_cs g) ps) by (eapply (fr_ptrs _ _ _ _ _ F1); [apply R|auto]).
  unfold kept. destruct ok; splits; auto; constructor; cbn; auto; try apply R; apply F1.
Qed.
Lemma mgr_move_sim h g ps m : rep h g ps m ->
  sim (mgr_move_m E g) h (cm_move_vector E m) (fun r h' s => fst r = fst s /\ mpost h g ps h' (snd r) (snd s)).
Proof.
  intros R. eapply sim_mono; [apply mgr_move_kept; eauto|]. intros r h' s (H & K). split; auto. apply kept_mpost; auto.
Qed.

(* ---- distribution ---- *)
Lemma distribute_all_sim pt : forall h g ps pool rs qs, wf h -> NoDup ps -> pvar h (g_cs g) ps -> cens h ps pool ->
  Forall2 (fun r q => nth_error ps r = Some q) rs qs -> qs <> [] ->
  sim (distribute_all_m E g pt qs) h (cm_distribute_loop E pool pt rs) (fun _ h' pool' => fr ps [] [] h h' /\ cens h' ps pool').
Proof.
  induction pt as [|(i, k) pt IH]; intros h g ps pool rs qs Hw Hn Hg Hc Hr Hq; cbn [distribute_all_m cm_distribute_loop].
  - apply sim_ret. split; auto. apply fr0; auto.
  - destruct (nth_error ps i) as [p|] eqn:Hp.
    + eapply sim_pget; eauto. eapply sim_bind; [eapply distribute_sim; eauto|]. intros _ h1 pool1 (F1 & Hc1).
      eapply sim_mono; [eapply IH; eauto; [apply F1|eapply (fr_ptrs _ _ _ _ _ F1); eauto]|].
      intros _ h2 pool2 (F2 & Hc2). split; auto. frt F1 F2.
    + apply sim_panic.
      * intros t. rewrite run_mbind. unfold bind. cbn. unfold bind, index. unfold pvar in Hg. rewrite Hg. cbn. rewrite Hp. reflexivity.
      * intros t. unfold bind, c_distribute. destruct Hr as [|r q rs qs Hrq Hr]; [congruence|]. unfold bind, index.
        rewrite (proj2 (nth_error_None pool i)); [reflexivity|]. rewrite <- (cens_length _ _ _ Hc). apply nth_error_None. auto.
Qed.

Lemma seq_self {A} (ps0 ps : list A) :
  Forall2 (fun r q => nth_error (ps0 ++ ps) r = Some q) (seq (length ps0) (length ps)) ps.
Proof.
  revert ps0. induction ps as [|p ps IH]; intros ps0; [constructor|]. rewrite seq_mid. constructor.
  - apply nth_mid.
  - rewrite app_mid. apply IH.
Qed.

Lemma mgr_distribute_sim h g ps m n : rep h g ps m ->
  sim (mgr_distribute_m E g n) h (cm_distribute_internal E m n) (fun g' h' m' => mpost h g ps h' g' m').
Proof.
  intros R. unfold mgr_distribute_m, cm_distribute_internal, cm_distribute. eapply sim_pall; [apply R|].
  pose proof (seq_self [] ps) as Hr. cbn [app length] in Hr. rewrite (rep_len _ _ _ _ R) in Hr.
  destruct ps as [|p ps].
  - pose proof (rep_len _ _ _ _ R) as Hl. destruct (cm_cs m); [|discriminate]. cbn [length seq].
    eapply sim_right; [reflexivity|]. apply sim_ret. apply mpost_same; auto.
  - destruct (seq 0 (length (cm_cs m))) as [|r rs] eqn:Hs; [inversion Hr|]. rewrite app_nil_r.
    apply sim_vassoc. eapply sim_bind; [eapply portions_sim; eauto|]. intros pt h' pt' (-> & ->).
    apply sim_vassoc. eapply sim_bind; [eapply distribute_all_sim; eauto; try apply R; discriminate|].
    intros _ h1 pool (F1 & Hc1). rewrite <- (rep_len _ _ _ _ R), (cens_length _ _ _ Hc1), firstn_all.
    assert (R1 : rep h1 g (p :: ps) (MkCM (cm_vec m) pool (cm_thresh m))).
    { constructor; cbn; try apply R; auto; [apply F1|]. eapply (fr_ptrs _ _ _ _ _ F1); [apply R|auto]. }
    apply sim_vassoc. eapply sim_bind; [apply mgr_move_kept; exact R1|]. intros [b g2] h2 [b' m2] (_ & R2 & Hg & F2).
    cbn [fst snd] in *. apply (sim_right _ _ _ _ _ (m2, skipn (length pool) pool)); [reflexivity|]. apply sim_ret. apply mpost_fr; auto. frt F1 F2.
Qed.

(* ---- lookups ---- *)
Lemma lookup_take_sim k drain ds : forall h p c z i l y res, wf h -> cen h p c -> loose h z l -> skipn i l = ds ->
  loose h y res -> z <> y ->
  sim (lookup_take_m E p z i (length ds) y k drain) h (lookup_take E c ds res k drain)
    (fun _ h' s => fr [p] [y] [] h h' /\ cen h' p (snd s) /\ loose h' y (fst s)).
Proof.
  induction ds as [|d ds IH]; intros h p c z i l y res Hw Hc Hz Hl Hy Hzy; cbn [length lookup_take_m lookup_take].
  - apply sim_ret. splits; auto. apply fr0; auto.
  - destruct (skipn_cons l i d ds Hl) as (Hd & Hl'). eapply sim_get; [apply Hz|exact Hd|]. eapply sim_len; [apply Hy|].
    assert (Hnext : forall h1 c1 res1, fr [p] [y] [] h h1 -> cen h1 p c1 -> loose h1 y res1 ->
      sim (lookup_take_m E p z (S i) (length ds) y k drain) h1 (lookup_take E c1 ds res1 k drain)
        (fun _ h' s => fr [p] [y] [] h h' /\ cen h' p (snd s) /\ loose h' y (fst s))).
    { intros h1 c1 res1 F1 Hc1 Hy1.
      eapply sim_mono; [eapply (IH h1 p c1 z (S i) l y res1); auto; [apply F1|eapply loose_fr; eauto; intros [?|[]]; auto]|].
      intros _ h2 s (F2 & Hc2 & Hy2). splits; auto. frt F1 F2. }
    destruct (length res <? k).
    + eapply sim_app; [apply Hy|].
      pose proof (fr_set_data h y (res ++ [d]) Hw) as F1. apply Hnext.
      * eapply fr_weak; [exact F1|..]; intros q; simpl; tauto.
      * eapply cen_fr; [exact Hw|exact F1|exact Hc|auto|]. intros x o [<-|[]] Ho. eapply Hy; eauto.
      * eapply loose_any; [exact F1|exact Hy|]. eapply dvar_set. apply Hy.
    + destruct drain.
      * apply sim_assoc. eapply sim_bind; [apply add_sim; eauto|]. intros b h1 [b' c1] (F1 & Hc1 & _). cbn [fst snd mbind] in *.
        apply Hnext; auto.
        -- eapply fr_weak; [exact F1|..]; intros q; simpl; tauto.
        -- eapply loose_fr; eauto.
      * cbn [mbind]. apply Hnext; auto. apply fr0; auto.
Qed.

Lemma lookup_all_sim k v drain idx : forall h g ps m y res, rep h g ps m -> loose h y res ->
  sim (lookup_all_m E g idx v k drain y) h (lookup_loop E m idx v k drain res)
    (fun g' h' s => kept [y] h g ps h' g' (snd s) /\ loose h' y (fst s)).
Proof.
  induction idx as [|i idx IH]; intros h g ps m y res R Hy; cbn [lookup_all_m lookup_loop].
  - apply sim_ret. split; auto. apply kept_refl; auto.
  - eapply sim_len; [apply Hy|]. destruct (k <=? length res). { apply sim_ret. split; auto. apply kept_refl; auto. }
    eapply sim_pget_index; eauto. intros p c Hp Hi Hc. eapply sim_vec_m; eauto.
    eapply sim_bind; [apply knn_lookup_sim; [apply R|eauto]|]. intros z h1 [ds c1] (F1 & Hz & Hc1 & Hl1). cbn [fst snd] in *.
    eapply sim_len; [apply Hl1|].
    assert (Hy1 : loose h1 y res) by (eapply loose_fr; eauto).
    assert (Hzy : z <> y). { pose proof (dvar_lt _ _ _ (proj1 Hy)). lia. }
    eapply sim_bind; [eapply (lookup_take_sim k drain ds h1 p c1 z 0 ds y res); auto; apply F1|].
    intros _ h2 [res2 c2] (F2 & Hc2 & Hy2). cbn [fst snd] in *.
    assert (F12 : fr [p] [y] [] h h2) by frt F1 F2.
    pose proof (kept_touch [y] h g ps m i p c c2 _ R Hp F12 (loose_one _ _ _ Hy) Hc2) as K.
    eapply sim_update; [eapply (fr_ptrs _ _ _ _ _ F12); [apply R|auto]|eauto|].
    eapply sim_mono; [eapply IH; [apply K|exact Hy2]|]. intros g3 h3 [res3 m3] (K3 & Hy3). split; auto. eapply kept_trans; eauto.
Qed.

Lemma mgr_lookup_sim h g ps m v k drain : rep h g ps m ->
  sim (mgr_lookup_m E g v k drain) h (cm_knn_lookup E m v k drain)
    (fun r h' s => mpost h g ps h' (snd r) (snd s) /\ loose h' (fst r) (fst s)).
Proof.
  intros R. unfold mgr_lookup_m, cm_knn_lookup. destruct (k <? 0)%Z; [apply sim_panic; intros t; reflexivity|].
  destruct (fr_add_data h (rep_wf _ _ _ _ R)) as (F1 & Hy). eapply sim_new. set (y := length (l_data h)) in *.
  assert (R1 : rep (add_data h) g ps m) by (eapply rep_fr; eauto).
  eapply sim_bind; [eapply near_sim; eauto|]. intros idx h' idx' (-> & ->).
  apply sim_vlast. eapply sim_bind; [eapply lookup_all_sim; eauto|].
  intros g2 h2 [l m2] ((R2 & Hg & F2) & Hl). apply sim_ret. cbn [fst snd] in *. split; auto. apply mpost_fr; auto. frt F1 F2.
Qed.

(* ---- removing centroids ---- *)
Lemma cens_remove (h : lheap) ps cs j : cens h ps cs -> cens h (remove_at j ps) (remove_at j cs).
Proof.
  intros H. revert j. induction H as [|p c ps cs Hc H IH]; intros [|j]; unfold remove_at; cbn [firstn skipn app]; try constructor; auto.
  apply IH.
Qed.
Lemma in_remove {A} (l : list A) j x : In x (remove_at j l) -> In x l.
Proof.
  unfold remove_at. intros H. apply in_app_iff in H. destruct H as [H|H].
  - rewrite <- (firstn_skipn j l). apply in_app_iff. auto.
  - rewrite <- (firstn_skipn (S j) l). apply in_app_iff. auto.
Qed.
Lemma nodup_remove {A} (l : list A) j : NoDup l -> NoDup (remove_at j l).
Proof.
  intros H. revert j. induction H as [|x l Hx H IH]; intros [|j]; unfold remove_at; cbn [firstn skipn app]; try constructor; auto.
  - intros Hi. apply Hx. eapply in_remove with (j := j). exact Hi.
  - apply IH.
Qed.
Lemma nth_remove {A} (l : list A) j x : NoDup l -> nth_error l j = Some x -> ~ In x (remove_at j l).
Proof.
  intros H. revert j. induction H as [|y l Hy H IH]; intros [|j] Hj; try discriminate; unfold remove_at; cbn [firstn skipn app].
  - injection Hj as ->. auto.
  - intros [->|Hi]; [apply Hy; eapply nth_error_In; exact Hj|]. eapply IH; eauto.
Qed.
Lemma nth_before {A} (l : list A) j i : i < j -> nth_error (remove_at j l) i = nth_error l i.
Proof.
  revert j i. induction l as [|y l IH]; intros [|j] i Hi; try lia; [destruct i; reflexivity|].
  destruct i as [|i]; [reflexivity|]. unfold remove_at. cbn [firstn skipn app nth_error]. apply IH. lia.
Qed.

(* Of the heap only the slice of pointers changes. *)
Definition cut (h : lheap) (g : mgr) (ps : list nat) (h' : lheap) (g' : mgr) (m' : CM N) (ps' : list nat) : Prop :=
  rep h' g' ps' m' /\ g_cs g' = g_cs g /\ fr [] [] [g_cs g] h h' /\ incl ps' ps.

Lemma delete_sim h g ps m j : rep h g ps m ->
  sim (delete_m g j) h (delete_centroid m j) (fun g' h' m' => cut h g ps h' g' m' (remove_at j ps) /\ j < length ps).
Proof.
  intros R. unfold delete_m, delete_centroid. eapply sim_plen; [apply R|].
  destruct (nth_error (cm_cs m) j) as [c|] eqn:Hi.
  - destruct (rep_at _ _ _ _ _ _ R Hi) as (p & Hp & Hc). pose proof (nth_error_len _ _ _ Hp) as Hlt.
    eapply sim_index; eauto. cbv zeta. rewrite <- (rep_len _ _ _ _ R).
    rewrite (proj2 (Nat.ltb_lt 0 (length ps))) by lia.
    apply sim_assoc. eapply sim_pget; [apply R|eauto|]. apply sim_assoc. eapply sim_vec_m; eauto. cbn [mbind].
    eapply sim_pdel; [apply R|auto|]. apply sim_ret.
    pose proof (fr_set_ptrs h (g_cs g) (remove_at j ps) (rep_wf _ _ _ _ R)) as F. split; auto. unfold cut. splits; auto.
    + constructor; cbn; try apply R.
      * eapply pvar_set. apply R.
      * apply nodup_remove. apply R.
      * apply (cens_remove h). apply R.
      * rewrite (rep_vec _ _ _ _ R). reflexivity.
    + intros q Hq. eapply in_remove; eauto.
  - pose proof (cens_none _ _ _ _ (rep_cens _ _ _ _ R) Hi) as Hp. pose proof (rep_cs _ _ _ _ R) as Hu. unfold pvar in Hu. apply sim_panic.
    + intros t. pose proof (proj1 (nth_error_None _ _) Hp) as Hge. destruct (0 <? length ps).
      * rewrite run_mbind. unfold bind. rewrite run_mbind. unfold bind. cbn. unfold bind, index. rewrite Hu. cbn. rewrite Hp. reflexivity.
      * cbn [mbind]. rewrite run_mbind. unfold bind. unfold ptrs. cbn [run_lists list_op]. unfold bind, index. rewrite Hu. cbn [ret].
        rewrite (proj2 (Nat.ltb_ge j (length ps))) by auto. reflexivity.
    + intros t. unfold bind, index. rewrite Hi. reflexivity.
Qed.

Lemma delete_all_sim js : forall h g ps m, rep h g ps m -> StronglySorted ge js ->
  sim (delete_all_m g js) h (delete_all m js)
    (fun g' h' m' => exists ps', cut h g ps h' g' m' ps' /\ forall j p, In j js -> nth_error ps j = Some p -> ~ In p ps').
Proof.
  induction js as [|j js IH]; intros h g ps m R Hs; cbn [delete_all_m delete_all].
  - apply sim_ret. exists ps. split; [|intros j p []]. unfold cut. splits; auto; [apply fr0; apply R|]. intros q Hq; auto.
  - inversion Hs as [|j' js' Hs' Hge]; subst. eapply sim_bind; [apply delete_sim; eauto|].
    intros g1 h1 m1 ((R1 & Hg1 & F1 & Hin1) & Hlt). eapply sim_mono; [eapply IH; eauto|].
    intros g2 h2 m2 (ps2 & (R2 & Hg2 & F2 & Hin2) & Hd). exists ps2. split.
    + unfold cut. splits; auto; [congruence| |intros q Hq; auto]. rewrite Hg1 in F2. frt F1 F2.
    + assert (Hj : forall p, nth_error ps j = Some p -> ~ In p ps2).
      { intros p Hp Hi. apply Hin2 in Hi. eapply nth_remove; [apply (rep_nodup _ _ _ _ R)|exact Hp|exact Hi]. }
      intros i p [<-|Hi] Hp; auto. destruct (Nat.eq_dec i j) as [->|Hne]; auto.
      apply (Hd i p Hi). rewrite nth_before; auto.
      pose proof (proj1 (Forall_forall _ _) Hge i Hi) as H. cbn in H. lia.
Qed.

(* ---- NearestCentroids ---- *)
Lemma pick_sim idx : forall (h : lheap) g ps m u us cs, rep h g ps m -> u <> g_cs g -> pvar h u us -> cens h us cs ->
  sim (pick_m g u idx) h (index_all (cm_cs m) idx)
    (fun _ h' r => rep h' g ps m /\ fr [] [] [u] h h' /\ exists us', pvar h' u (us ++ us') /\ cens h' (us ++ us') (cs ++ r) /\
       forall q, In q us' -> exists i, In i idx /\ nth_error ps i = Some q).
Proof.
  induction idx as [|i idx IH]; intros h g ps m u us cs R Hu Hus Hc; cbn [pick_m index_all].
  - apply sim_ret. splits; auto; [apply fr0; apply R|]. exists []. rewrite !app_nil_r. splits; auto. intros q [].
  - eapply sim_pget_index; eauto. intros p c Hp Hi Hpc. eapply sim_papp; eauto.
    pose proof (fr_set_ptrs h u (us ++ [p]) (rep_wf _ _ _ _ R)) as F1.
    assert (R1 : rep (set_ptrs h u (us ++ [p])) g ps m).
    { constructor; try apply R; auto. apply pvar_set_other; auto. apply R. }
    apply sim_last. eapply sim_bind; [eapply (IH _ g ps m u (us ++ [p]) (cs ++ [c])); eauto|].
    + eapply pvar_set; eauto.
    + apply Forall2_app; [exact Hc|constructor; auto].
    + intros [] h2 r (R2 & F2 & us' & Hus' & Hc' & Hin). apply sim_ret. splits; auto; [frt F1 F2|].
      exists (p :: us'). rewrite <- !app_assoc in *. splits; auto.
      intros q [<-|Hq]; [exists i; split; simpl; auto|]. destruct (Hin q Hq) as (i' & H1 & H2). exists i'. split; simpl; auto.
Qed.

Lemma sorted_rev l : StronglySorted ge (rev (sort_ints l)).
Proof.
  assert (Hsn : forall r x, StronglySorted ge r -> Forall (fun y => x <= y) r -> StronglySorted ge (r ++ [x])).
  { intros r x Hs. induction Hs as [|y r Hs IH Hy]; intros Hx; cbn [app]; [repeat constructor|].
    inversion Hx; subst. constructor; auto. apply Forall_app. split; auto. }
  pose proof (sort_ints_sorted l) as H. induction H as [|x r Hs IH Hx]; simpl; [constructor|].
  apply Hsn; auto. apply Forall_rev. eapply Forall_impl; [|exact Hx]. cbn. intros y. auto.
Qed.
Lemma in_rev_sort l j : In j l -> In j (rev (sort_ints l)).
Proof. intros H. apply -> in_rev. eapply Permutation_in; [apply Permutation_sym, sort_ints_perm|auto]. Qed.

(* What a returned slice of pointers shows. *)
Definition shows_cens (h : lheap) (g : mgr) (ps : list nat) (away : bool) (u : nat) (cs : list Cen) : Prop :=
  u <> g_cs g /\ exists us, pvar h u us /\ cens h us cs /\ (away = true -> forall q, In q us -> ~ In q ps).

Lemma mgr_nearest_sim h g ps m v n drain : rep h g ps m ->
  sim (mgr_nearest_m E g v n drain) h (cm_nearest E m v n drain)
    (fun r h' s => exists ps', rep h' (snd r) ps' (snd s) /\ g_cs (snd r) = g_cs g /\ fr ps [] [g_cs g] h h' /\ incl_new h ps ps' /\
       match fst r, fst s with
       | None, None => True
       | Some u, Some cs => shows_cens h' g ps' drain u cs
       | _, _ => False
       end).
Proof.
  intros R. unfold mgr_nearest_m, cm_nearest. eapply sim_bind; [eapply near_sim; eauto|]. intros idx h' idx' (-> & ->).
  destruct idx' as [|i idx]. { apply sim_ret. cbn [fst snd]. exists ps. splits; auto; [apply fr0; apply R|]. intros q; auto. }
  remember (i :: idx) as is eqn:His. clear His i idx.
  eapply sim_pnew. destruct (fr_add_ptrs h (rep_wf _ _ _ _ R)) as (F1 & Hu). set (u := length (l_ptrs h)) in *.
  assert (Hug : u <> g_cs g). { pose proof (pvar_lt _ _ _ (rep_cs _ _ _ _ R)). lia. }
  assert (R1 : rep (add_ptrs h) g ps m) by (eapply rep_fr; eauto).
  eapply sim_bind; [eapply (pick_sim is (add_ptrs h) g ps m u [] []); eauto; constructor|].
  intros _ h2 cs (R2 & F2 & us & Hus & Hc & Hin). cbn [app] in *.
  assert (F12 : fr [] [] [] h h2) by frt F1 F2.
  destruct drain.
  - eapply sim_bind; [apply delete_all_sim; [exact R2|apply sorted_rev]|].
    intros g3 h3 m3 (ps3 & (R3 & Hg3 & F3 & Hin3) & Hd). apply sim_ret. cbn [fst snd]. exists ps3. splits; auto.
    + frt F12 F3.
    + intros q Hq; auto.
    + split; auto. exists us. splits.
      * eapply (fr_ptrs _ _ _ _ _ F3); [exact Hus|]. intros [?|[]]; auto.
      * eapply cens_fr; [apply R2|exact F3|exact Hc|auto|auto].
      * intros _ q Hq. destruct (Hin q Hq) as (i & Hi & Hn). eapply Hd; [apply in_rev_sort; exact Hi|exact Hn].
  - cbn [mbind]. apply sim_ret. cbn [fst snd]. exists ps. splits; auto.
    + eapply fr_weak; [exact F12|..]; intros q; simpl; tauto.
    + intros q; auto.
    + split; auto. exists us. splits; auto. discriminate.
Qed.

(* ---- SplitCentroids ---- *)
Lemma split_all_sim B c ps2 : forall ps1 h g m u us fresh, rep h g (ps1 ++ ps2) m -> u <> g_cs g ->
  pvar h u us -> cens h us fresh -> NoDup us ->
  (forall p, In p (ps1 ++ ps2) -> p < B) -> (forall q, In q us -> B <= q) -> B <= length (l_objs h) ->
  sim (split_all_m E g c (length ps1) ps2 u) h (split_loop E m c (seq (length ps1) (length ps2)) fresh)
    (fun _ h' s => rep h' g (ps1 ++ ps2) (fst s) /\ fr (ps1 ++ ps2) [] [u] h h' /\
       exists us', pvar h' u us' /\ cens h' us' (snd s) /\ NoDup us' /\ forall q, In q us' -> B <= q).
Proof.
  induction ps2 as [|p ps2 IH]; intros ps1 h g m u us fresh R Hu Hus Hc Hn HB HB' Hh; cbn [split_all_m].
  - apply sim_ret. cbn [fst snd]. splits; eauto. apply fr0. apply R.
  - rewrite seq_mid. cbn [split_loop]. pose proof (nth_mid ps1 p ps2) as Hp.
    destruct (cens_at2 _ _ _ _ _ (rep_cens _ _ _ _ R) Hp) as (x & Hi & Hx). eapply sim_read; eauto. eapply sim_index; eauto.
    assert (Hl : S (length ps1) = length (ps1 ++ [p])) by (rewrite app_length; simpl; lia).
    destruct (negb (c x)).
    { cbn [mbind]. rewrite Hl, (app_mid ps1 p ps2) in *. eapply IH; eauto. }
    apply sim_assoc. eapply sim_len_m; eauto. apply sim_assoc. eapply sim_bind; [eapply split_centroid_sim; eauto|].
    intros [q|] h1 [[old new]|] H1; try contradiction.
    + destruct H1 as (F1 & Hq & Hcq & R1).
      assert (Hus1 : pvar h1 u us) by (eapply (fr_ptrs _ _ _ _ _ F1); eauto).
      assert (Hc1 : cens h1 us fresh).
      { eapply cens_fr; [apply R|exact F1|exact Hc|auto|]. intros q' Hq' Hin. apply HB in Hin. apply HB' in Hq'. lia. }
      eapply sim_papp; [exact Hus1|].
      pose proof (fr_set_ptrs h1 u (us ++ [q]) (fr_wf _ _ _ _ _ F1)) as F2.
      assert (F12 : fr (ps1 ++ p :: ps2) [] [u] h (set_ptrs h1 u (us ++ [q]))) by frt F1 F2.
      assert (Hlt : forall q', In q' us -> q' < length (l_objs h)).
      { intros q' Hq'. apply In_nth_error in Hq'. destruct Hq' as (k & Hk).
        destruct (cens_at2 _ _ _ _ _ Hc Hk) as (c' & _ & (y & Ho & _)). eapply obj_lt; eauto. }
      rewrite Hl, (app_mid ps1 p ps2) in *.
      eapply sim_mono; [eapply (IH (ps1 ++ [p]) (set_ptrs h1 u (us ++ [q])) g (set_centroid m (length ps1) old) u (us ++ [q]) (fresh ++ [new])); auto|].
      * constructor; try apply R1; auto. apply pvar_set_other; auto. apply R1.
      * eapply pvar_set; eauto.
      * apply Forall2_app; [exact Hc1|constructor; auto].
      * apply nodup_snoc; auto. intros Hin. apply Hlt in Hin. lia.
      * intros q' Hin. apply in_app_iff in Hin. destruct Hin as [Hin|[<-|[]]]; auto. lia.
      * pose proof (fr_olen _ _ _ _ _ F12). lia.
      * intros _ h3 s (R3 & F3 & H3). splits; auto. frt F12 F3.
    + subst h1. cbn [mbind]. rewrite Hl, (app_mid ps1 p ps2) in *. eapply IH; eauto.
Qed.

Lemma mgr_split_sim h g ps m c : rep h g ps m ->
  sim (mgr_split_m E g c) h (cm_split E m c) (fun _ h' m' => mpost h g ps h' g m').
Proof.
  intros R. unfold mgr_split_m, cm_split. eapply sim_pnew.
  destruct (fr_add_ptrs h (rep_wf _ _ _ _ R)) as (F1 & Hu). set (u := length (l_ptrs h)) in *.
  assert (Hug : u <> g_cs g). { pose proof (pvar_lt _ _ _ (rep_cs _ _ _ _ R)). lia. }
  assert (R1 : rep (add_ptrs h) g ps m) by (eapply rep_fr; eauto).
  eapply sim_pall; [apply R1|]. rewrite <- (rep_len _ _ _ _ R).
  eapply sim_bind; [eapply (split_all_sim (length (l_objs h)) c ps [] (add_ptrs h) g m u [] []); eauto|].
  - constructor.
  - constructor.
  - intros p Hp. eapply rep_lt; eauto.
  - intros q [].
  - intros _ h2 [m2 fresh] (R2 & F2 & us & Hus & Hc & Hn & HB). cbn [fst snd app] in *.
    eapply sim_pall; eauto. apply sim_last. eapply sim_papp; [apply R2|]. apply sim_ret.
    assert (F12 : fr ps [] [] h h2) by frt F1 F2.
    pose proof (fr_set_ptrs h2 (g_cs g) (ps ++ us) (rep_wf _ _ _ _ R2)) as F3.
    exists (ps ++ us). splits; auto.
    + constructor; cbn; try apply R2; auto.
      * eapply pvar_set. apply R2.
      * apply nodup_app; auto; [apply R|]. intros q Hq Hq'. apply HB in Hq'. pose proof (rep_lt _ _ _ _ _ R Hq). lia.
      * apply Forall2_app; [apply R2|exact Hc].
    + frt F12 F3.
    + intros q Hq. apply in_app_iff in Hq. destruct Hq; auto.
Qed.

(* ---- MergeCentroids ---- *)
Lemma merge_inner_sim c i p idx : forall h g ps cs marks, wf h -> pvar h (g_cs g) ps -> NoDup ps -> cens h ps cs ->
  nth_error ps i = Some p ->
  sim (merge_inner_m E g marks i p c idx) h (merge_inner E cs marks i c idx)
    (fun marks' h' s => fr ps [] [] h h' /\ cens h' ps (fst s) /\ marks' = snd s).
Proof.
  induction idx as [|j idx IH]; intros h g ps cs marks Hw Hg Hn Hc Hp; cbn [merge_inner_m merge_inner].
  - apply sim_ret. splits; auto. apply fr0; auto.
  - eapply sim_eff. intros mj. destruct (Nat.eqb_spec j i) as [Hji|Hji]; cbn [orb]; [eapply IH; eauto|].
    destruct mj; [eapply IH; eauto|]. cbv zeta.
    destruct (nth_error cs j) as [other|] eqn:Hj.
    2: { apply sim_panic.
         - intros t. pose proof (cens_none _ _ _ _ Hc Hj) as Hnone.
           rewrite run_mbind. unfold bind. cbn. unfold bind, index. unfold pvar in Hg. rewrite Hg. cbn. rewrite Hnone. reflexivity.
         - intros t. unfold bind, index. rewrite Hj. reflexivity. }
    destruct (cens_at _ _ _ _ _ Hc Hj) as (q & Hq & Hcq). eapply sim_pget; eauto. eapply sim_index; eauto.
    eapply sim_len_m; eauto. change (length (c_dps other)) with (c_len other).
    eapply sim_bind; [apply drain_unordered_sim; eauto|]. intros y h1 [ds other'] (F1 & Hy & Hc1 & Hl). cbn [fst snd] in *.
    eapply sim_len; [apply Hl|].
    assert (Hcs1 : cens h1 ps (list_set cs j other')) by (eapply cens_set; eauto).
    destruct (cens_at2 _ _ _ _ _ Hcs1 Hp) as (cand & Hi & Hcp). eapply sim_index; eauto.
    eapply sim_bind; [eapply (add_slice_sim E ds h1 p cand y ds 0); eauto; apply F1|]. intros _ h2 cand' (F2 & Hc2).
    assert (Hcs2 : cens h2 ps (list_set (list_set cs j other') i cand')) by (eapply cens_set; [apply F1|auto|exact Hcs1|exact Hp|exact F2|auto|exact Hc2]).
    pose proof (fr_one q ps j _ _ _ _ Hq F1) as F1'. pose proof (fr_one p ps i _ _ _ _ Hp F2) as F2'.
    assert (F12 : fr ps [] [] h h2) by frt F1' F2'.
    eapply sim_read; [exact Hc2|]. destruct (c cand').
    + eapply sim_mono; [eapply (IH h2 g ps); eauto; [apply F12|eapply (fr_ptrs _ _ _ _ _ F12); eauto]|].
      intros marks3 h3 s (F3 & Hc3 & Hm). splits; auto. frt F12 F3.
    + apply sim_ret. splits; auto.
Qed.

Lemma merge_outer_sim c is : forall h g ps m marks, rep h g ps m ->
  sim (merge_outer_m E g marks c is) h (merge_outer E m marks c is)
    (fun r h' s => kept [] h g ps h' (fst r) (fst s) /\ snd r = snd s).
Proof.
  induction is as [|i is IH]; intros h g ps m marks R; cbn [merge_outer_m merge_outer].
  - apply sim_ret. split; auto. apply kept_refl; auto.
  - eapply sim_pget_index; eauto. intros p x Hp Hi Hx. eapply sim_read; eauto. eapply sim_eff. intros mi.
    destruct (negb (c x) || mi); [apply IH; auto|].
    eapply sim_vec_m; eauto. eapply sim_plen; [apply R|]. rewrite (rep_len _ _ _ _ R).
    eapply sim_bind; [eapply near_sim; eauto|]. intros idx h' idx' (-> & ->).
    eapply sim_bind; [eapply merge_inner_sim; eauto; apply R|]. intros marks1 h1 [cs1 marks1'] (F1 & Hc1 & ->). cbn [fst snd] in *.
    destruct (cens_at2 _ _ _ _ _ Hc1 Hp) as (x1 & Hi1 & Hx1). eapply sim_index; eauto. cbv zeta.
    eapply sim_update; [eapply (fr_ptrs _ _ _ _ _ F1); [apply R|auto]|eauto|].
    assert (K : kept [] h g ps h1 (with_vec g (vec_update (g_vec g) (length ps) (c_vec x) (c_vec x1)))
                  (MkCM (vec_update (cm_vec m) (length cs1) (c_vec x) (c_vec x1)) cs1 (cm_thresh m))).
    { unfold kept. splits; auto. constructor; cbn; try apply R; auto; [apply F1| |].
      - eapply (fr_ptrs _ _ _ _ _ F1); [apply R|auto].
      - rewrite (rep_vec _ _ _ _ R), (cens_length _ _ _ Hc1). reflexivity. }
    eapply sim_mono; [eapply IH; apply K|]. intros [g2 marks2] h2 [m2 marks2'] (K2 & Hm). split; auto. eapply kept_trans; eauto.
Qed.

Lemma sorted_marked marks : StronglySorted ge (marked marks).
Proof.
  unfold marked. assert (Hf : forall (f : nat -> bool) l, StronglySorted ge l -> StronglySorted ge (filter f l)).
  { intros f l H. induction H as [|x r Hs IH Hx]; simpl; [constructor|]. destruct (f x); auto. constructor; auto.
    apply Forall_forall. intros y Hy. apply filter_In in Hy. eapply (proj1 (Forall_forall _ _) Hx). apply Hy. }
  apply Hf. generalize (length marks) as n. intros n. induction n as [|n IH]; [constructor|].
  rewrite seq_S, rev_app_distr. simpl. constructor; auto. apply Forall_forall. intros y Hy. apply in_rev, in_seq in Hy. lia.
Qed.

Lemma mgr_merge_sim h g ps m c : rep h g ps m ->
  sim (mgr_merge_m E g c) h (cm_merge E m c) (fun g' h' m' => mpost h g ps h' g' m').
Proof.
  intros R. unfold mgr_merge_m, cm_merge. eapply sim_plen; [apply R|]. rewrite (rep_len _ _ _ _ R).
  eapply sim_bind; [apply merge_outer_sim; eauto|]. intros [g1 marks] h1 [m1 marks'] ((R1 & Hg1 & F1) & Hm). cbn [fst snd] in *. subst marks'.
  eapply sim_mono; [apply delete_all_sim; [exact R1|apply sorted_marked]|].
  intros g2 h2 m2 (ps2 & (R2 & Hg2 & F2 & Hin) & _). exists ps2. splits; auto; [congruence| |intros q Hq; auto].
  rewrite Hg1 in F2. frt F1 F2.
Qed.

(* ---- centroids from other nodes ---- *)
Lemma alloc_sim (g : mgr) cs : forall h : lheap, wf h ->
  sim (alloc_m g cs) h (ret cs)
    (fun ps h' cs' => fr [] [] [] h h' /\ cens h' ps cs' /\ NoDup ps /\ (forall q, In q ps -> length (l_objs h) <= q)).
Proof.
  induction cs as [|c cs IH]; intros h Hw; cbn [alloc_m].
  - apply sim_ret. splits; auto; [apply fr0; auto|constructor|constructor|intros q []].
  - eapply sim_new. eapply sim_new_obj. destruct (fr_add_obj h (c_vec c) Hw) as (F1 & (x & Ho & Hx)).
    set (h1 := add_obj (add_data h) (c_vec c) (length (l_data h))) in *. cbn [c_vec c_dps] in *.
    assert (x = length (l_data h)) as ->.
    { unfold obj, h1 in Ho. cbn in Ho. rewrite nth_error_app2 in Ho by lia. rewrite Nat.sub_diag in Ho. injection Ho. auto. }
    eapply sim_app; [exact Hx|]. cbn [app].
    destruct (fr_update2 h1 (length (l_objs h)) (MkC (c_vec c) []) (length (l_data h)) (c_dps c) (fr_wf _ _ _ _ _ F1) Ho Hx) as (F2 & Hc2).
    set (h2 := set_data h1 _ _) in *. cbn [c_vec c_dps] in *.
    assert (F12 : fr [] [] [] h h2) by frt F1 F2.
    eapply sim_pure; [apply IH; apply F12|]. intros ps h3 (F3 & Hcs & Hn & Hq). apply sim_ret. splits.
    + frt F12 F3.
    + constructor; auto. destruct c. eapply cen_fr; [apply F12|exact F3|exact Hc2|auto|intros y o []].
    + constructor; auto. intros Hin. apply Hq in Hin. destruct Hc2 as (y & Hy & _). apply obj_lt in Hy. change (l_objs (add_data h)) with (l_objs h) in *. lia.
    + intros q [<-|Hin]; [auto|]. apply Hq in Hin. pose proof (fr_olen _ _ _ _ _ F12). change (l_objs (add_data h)) with (l_objs h) in *. lia.
Qed.

Lemma mgr_attach_sim (h : lheap) g ps m cs : rep h g ps m ->
  sim (mgr_attach_m g cs) h
    (ret (if forallb (dim_ok (length (cm_vec m))) cs then MkCM (cm_vec m) (cm_cs m ++ cs) (cm_thresh m) else m))
    (fun _ h' m' => mpost h g ps h' g m').
Proof.
  intros R. unfold mgr_attach_m. rewrite (rep_vec _ _ _ _ R). destruct (forallb _ cs).
  - eapply sim_pure; [apply alloc_sim; apply R|]. intros qs h1 (F1 & Hc & Hn & Hq).
    assert (R1 : rep h1 g ps m) by (eapply rep_fr; eauto).
    apply sim_last. eapply sim_papp; [apply R1|]. apply sim_ret.
    pose proof (fr_set_ptrs h1 (g_cs g) (ps ++ qs) (fr_wf _ _ _ _ _ F1)) as F3.
    exists (ps ++ qs). splits; auto.
    + constructor; cbn; try apply R1; auto.
      * eapply pvar_set. apply R1.
      * apply nodup_app; auto; [apply R|]. intros q Hin Hin'. apply Hq in Hin'. pose proof (rep_lt _ _ _ _ _ R Hin). lia.
      * apply Forall2_app; [apply R1|exact Hc].
    + frt F1 F3.
    + intros q Hin. apply in_app_iff in Hin. destruct Hin; auto.
  - apply sim_ret. apply mpost_same; auto.
Qed.
End MemMgr2.
