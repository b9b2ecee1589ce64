(* Stealing and load balancing move whole centroids, if nothing expires and no message is lost. *)
From Verif Require Import Base Num MathUtils Knn Env Centroid CManager DataSpec MgrSpec Wp DataFacts NumFacts
  CentroidProofs DistributeProofs CMProofs CMProofs2 CMProofs3 HistoryProofs Proc Owns Server ServerSpec ServerFacts
  SeqProofs SeqProofs2 SeqProofs3 StealProofs ServerProofs Alone Uniform EventLoop CoreSpec LoopSpec LoopProofs2 TaskSpec TaskProofs
  Props03Lemmas UpkeepProofs SettleSpec SettleSteal SettleProofs GainProofs RestSpec.
From Coq Require Import Permutation.

Section Keep.
Context {N : Num} (E : Env N) (HE : EnvOk E).
Notation Cen := (Centroid N).
Notation World := (World N).
Notation DP := (DataPoint N).

Lemma perm_concat {A} (l l' : list (list A)) : Permutation l l' -> Permutation (concat l) (concat l').
Proof.
  induction 1 as [|x l l' _ IH|x y l|l1 l2 l3 _ IH1 _ IH2]; cbn [concat]; auto.
  - apply Permutation_app_head. exact IH.
  - rewrite !app_assoc. apply Permutation_app_tail, Permutation_app_comm.
  - rewrite IH1. exact IH2.
Qed.

(* ---- moving the vectors ---- *)
Lemma move_all_groups n : forall (cs : list Cen) t, Forall (cwf n) cs -> never_expired E (stored cs) ->
  wp (move_all E cs) t (fun cs' _ => map c_dps cs' = map c_dps cs).
Proof.
  induction cs as [|c cs IH]; intros t Hf Hn; cbn [move_all]; [apply wp_ret; auto|].
  inversion Hf as [|? ? Hc Hf']; subst. change (stored (c :: cs)) with (c_dps c ++ stored cs) in Hn. apply never_app in Hn. destruct Hn as (Hn1 & Hn2).
  apply wp_bind. eapply wp_mono; [apply (cwf_move E n c t Hc)|]. intros [ok c'] t' (_ & H2 & _). cbn [snd] in *.
  apply wp_bind. eapply wp_mono; [apply (IH t' Hf' Hn2)|]. intros cs' t'' H. apply wp_ret. cbn [map]. rewrite H, H2.
  rewrite never_expired_live by exact Hn1. reflexivity.
Qed.
Lemma move_vector_groups n (m : CM N) t : DimOk n m -> never_expired E (stored (cm_cs m)) ->
  wf (cm_move_vector E m) t (fun r _ => map c_dps (cm_cs (snd r)) = map c_dps (cm_cs m)).
Proof.
  intros Hd Hn. pose proof (move_all_groups n (cm_cs m) t (proj2 Hd) Hn) as H.
  pose proof (cm_move_vector_spec E cwf cwf_id (cwf_move E) n m t Hd) as K. unfold wf, wp, cm_move_vector, bind in *.
  destruct (move_all E (cm_cs m) t) as [[cs' t']| |]; auto; try contradiction.
  destruct (vec_mean (S (length cs')) list_gen (map c_vec cs') t') as [[[[v ok] x] t2]| |]; auto.
Qed.

(* ---- the loop ---- *)
Lemma steal_loop_groups n a from ns v limit : a <> from -> length v = n -> forall fuel (w : World) t total m,
  WorldOk w -> manager w a ns = Some m -> DimOk n m -> (forall mr, manager w from ns = Some mr -> DimOk n mr) ->
  never_expired E (data_at w from ns) -> (forall k, e_fate E k = Delivered) ->
  wf (exec (steal_loop E fuel a from ns v limit total) w) t (fun r _ => WorldOk (snd r) /\
    exists m' gone, manager (snd r) a ns = Some m' /\ DimOk n m' /\ Forall (eq []) gone /\
      (manager w from ns <> None -> manager (snd r) from ns <> None) /\
      Permutation (map c_dps (cm_cs m) ++ groups w from ns) (map c_dps (cm_cs m') ++ groups (snd r) from ns ++ gone)).
Proof.
  intros Hne Hv. induction fuel as [|fuel IH]; intros w t total m Hw Hm Hd Hr Hn Had; cbn [steal_loop].
  all: assert (Hstop : forall b, wf (exec (Ret (total, b) : proc' N (nat * bool)) w) t (fun r _ => WorldOk (snd r) /\
    exists m' gone, manager (snd r) a ns = Some m' /\ DimOk n m' /\ Forall (eq []) gone /\
      (manager w from ns <> None -> manager (snd r) from ns <> None) /\
      Permutation (map c_dps (cm_cs m) ++ groups w from ns) (map c_dps (cm_cs m') ++ groups (snd r) from ns ++ gone)))
    by (intros b; apply wf_ret; cbn [fst snd]; split; auto; exists m, []; splits; auto; rewrite app_nil_r; auto).
  all: destruct (Z.ltb_spec (Z.of_nat total) limit) as [Hlim|Hlim]; [|apply Hstop].
  { exact I. }
  apply wf_exec_bind. destruct (manager w from ns) as [mr|] eqn:Hmr.
  2:{ destruct (nearest_none E from ns v w t Hw Hmr) as (t' & Ht & He). unfold wf at 1. rewrite He. cbn [fst snd].
      apply wf_ret. cbn [fst snd]. split; auto. exists m, []. splits; auto. rewrite app_nil_r; auto. }
  specialize (Hr mr eq_refl).
  eapply wf_mono; [apply wp_wf, (nearest_one E HE n from ns v w t mr Hw Hmr Hr)|]. intros [[o ok] w1] t1 H. cbn [fst snd] in H.
  destruct H as (mr' & -> & Hd' & Ht & Hok & Ho). cbn [fst snd].
  assert (Hmrn : manager w from ns <> None) by congruence.
  assert (Hw1 : WorldOk (put_mgr w from ns mr' [])) by (apply put_mgr_ok; auto).
  assert (Hm1 : manager (put_mgr w from ns mr' []) a ns = Some m) by (rewrite (put_only w from ns); auto; congruence).
  assert (Hr1 : manager (put_mgr w from ns mr' []) from ns = Some mr') by (apply put_at; auto).
  assert (Hc0 : groups w from ns = map c_dps (cm_cs mr)) by (unfold groups, centroids_at; rewrite Hmr; auto).
  assert (Hc1 : groups (put_mgr w from ns mr' []) from ns = map c_dps (cm_cs mr')) by (unfold groups, centroids_at; rewrite Hr1; auto).
  destruct Ho as [(-> & Hkeep & _)|(c & Hp & -> & Hc)].
  { rewrite (Hkeep ltac:(intros k; rewrite (Had k); discriminate)) in *. apply wf_ret. cbn [fst snd]. split; auto. exists m, []. splits; auto; [congruence|].
    rewrite Hc0, Hc1, app_nil_r. auto. }
  assert (Hpg : Permutation (groups w from ns) (c_dps c :: map c_dps (cm_cs mr'))).
  { rewrite Hc0. apply (Permutation_map c_dps) in Hp. exact Hp. }
  assert (Hn2 : never_expired E (c_dps c ++ stored (cm_cs mr'))).
  { intros j d Hdd. apply (Hn j). unfold data_at, centroids_at. rewrite Hmr. unfold stored. apply (Permutation_map c_dps) in Hp.
    apply (Permutation_in _ (perm_concat _ _ (Permutation_sym Hp))). exact Hdd. }
  apply never_app in Hn2. destruct Hn2 as (Hn2 & Hn3).
  destruct Hc as [(Hce & ->)|(Hce & c' & k & -> & Hcw & Hk1 & -> & Hk3)].
  { apply wf_ret. cbn [fst snd]. split; auto. exists m, [[]]. splits; auto; [congruence|]. rewrite Hc1.
    rewrite Hpg, Hce. apply Permutation_app_head. apply Permutation_cons_append. }
  rewrite never_expired_live in Hk3 by exact Hn2.
  apply wf_exec_bind. unfold access. apply wp_wf.
  apply (wp_exec_access _ _ _ _ _ m); auto. apply wp_ret. cbn [fst snd pbind].
  set (m2 := MkCM (cm_vec m) (cm_cs m ++ [c']) (cm_thresh m)).
  assert (Hm1n : manager (put_mgr w from ns mr' []) a ns <> None) by congruence.
  set (w2 := put_mgr (put_mgr w from ns mr' []) a ns m2 []).
  assert (Hr2 : manager w2 from ns = Some mr') by (unfold w2; rewrite (put_only (put_mgr w from ns mr' []) a ns); auto; congruence).
  assert (Hc2 : groups w2 from ns = map c_dps (cm_cs mr')) by (unfold groups, centroids_at; rewrite Hr2; auto).
  change (put_mgr (put_mgr w from ns mr' []) a ns _ _) with w2.
  eapply wf_mono; [apply (IH w2 _ _ m2)|].
  - apply put_mgr_ok; auto.
  - apply put_at; auto.
  - destruct Hd as (D1 & D2). split; auto. cbn [m2 cm_cs]. apply Forall_app. split; auto.
  - intros mr2 H2. rewrite Hr2 in H2. injection H2 as <-. auto.
  - unfold data_at, centroids_at. rewrite Hr2. exact Hn3.
  - exact Had.
  - intros r t2 (H1 & m' & gone & H2 & H3 & H4 & H5 & H6). split; auto. exists m', gone. splits; auto.
    + intros _. apply H5. congruence.
    + rewrite <- H6, Hpg, Hc2. cbn [m2 cm_cs]. rewrite map_app. cbn [map]. rewrite Hk3, <- app_assoc. reflexivity.
Qed.

Lemma steal_groups n fuel a from ns limit (w : World) t : WorldOk w -> a <> from -> node_at w a <> None ->
  (forall b m, b = a \/ b = from -> manager w b ns = Some m -> DimOk n m) ->
  never_expired E (data_at w a ns) -> never_expired E (data_at w from ns) -> (forall k, e_fate E k = Delivered) ->
  wf (exec (serve E a (QSteal fuel from ns limit)) w) t (fun r _ =>
    (manager w a ns <> None -> manager (snd r) a ns <> None) /\ (manager w from ns <> None -> manager (snd r) from ns <> None) /\
    exists gone, Forall (eq []) gone /\
      Permutation (groups w a ns ++ groups w from ns) (groups (snd r) a ns ++ groups (snd r) from ns ++ gone)).
Proof.
  intros Hw Hne Hna Hd Hn1 Hn2 Had.
  set (Q := fun w' : World => (manager w a ns <> None -> manager w' a ns <> None) /\ (manager w from ns <> None -> manager w' from ns <> None) /\
    exists gone, Forall (eq []) gone /\ Permutation (groups w a ns ++ groups w from ns) (groups w' a ns ++ groups w' from ns ++ gone)).
  assert (Hrest : forall v w1 t1 m1, WorldOk w1 -> manager w1 a ns = Some m1 -> DimOk n m1 -> length v = n ->
    map c_dps (cm_cs m1) = groups w a ns -> (forall b ns2, (b, ns2) <> (a, ns) -> manager w1 b ns2 = manager w b ns2) ->
    wf (exec (call ' (total, ok) <- steal_loop E fuel a from ns v limit 0;
              call _ <- access a ns (fun m => cm_move_vector E m); Ret (total, ok)) w1) t1 (fun r _ => Q (snd r))).
  { intros v w1 t1 m1 Hw1 Hm1 Hd1 Hv Hg Ho. assert (Hfr : manager w1 from ns = manager w from ns) by (apply Ho; congruence).
    assert (Hgf : groups w1 from ns = groups w from ns) by (unfold groups, centroids_at; rewrite Hfr; auto).
    apply wf_exec_bind. eapply wf_mono.
    { apply (steal_loop_groups n a from ns v limit Hne Hv fuel w1 t1 0 m1); auto.
      - intros mr Hmr. apply (Hd from); auto. congruence.
      - unfold data_at, centroids_at in *. rewrite Hfr. exact Hn2. }
    intros [[total ok] w2] t2 (L0 & m2 & gone & L1 & L2 & L3 & L4 & L5). cbn [fst snd] in *. rewrite Hg, Hgf in L5.
    assert (Hnm : never_expired E (stored (cm_cs m2))).
    { intros j d Hdd. assert (Hi : In d (concat (groups w a ns ++ groups w from ns))).
      { apply (Permutation_in _ (perm_concat _ _ (Permutation_sym L5))). rewrite concat_app. apply in_or_app. left. exact Hdd. }
      rewrite concat_app in Hi. apply in_app_or in Hi. destruct Hi as [Hi|Hi]; [apply (Hn1 j d)|apply (Hn2 j d)]; exact Hi. }
    apply wf_exec_bind. unfold access. unfold wf at 1. rewrite exec_access_g by auto. rewrite L1.
    pose proof (move_vector_groups n m2 t2 L2 Hnm) as Hmv. unfold wf in Hmv. destruct (cm_move_vector E m2 t2) as [[[x m3] t3]| |]; auto.
    cbn [fst snd] in *. apply wf_ret. cbn [fst snd]. set (w3 := put_mgr w2 a ns m3 []).
    assert (Ha3 : manager w3 a ns = Some m3) by (apply put_at; congruence).
    assert (Hf3 : manager w3 from ns = manager w2 from ns) by (apply put_only; congruence).
    unfold Q. rewrite Ha3, Hf3. splits.
    - discriminate.
    - intros Hx. apply L4. rewrite Hfr. exact Hx.
    - exists gone. split; auto. replace (groups w3 a ns) with (map c_dps (cm_cs m2)) by (unfold groups, centroids_at; rewrite Ha3; auto).
      replace (groups w3 from ns) with (groups w2 from ns) by (unfold groups, centroids_at; rewrite Hf3; auto). exact L5. }
  assert (HQ : Q w). { unfold Q. splits; auto. exists []. split; auto. rewrite app_nil_r. auto. }
  assert (Hend : forall p t1 w1, wf (exec p w1) t1 (fun r _ => Q (snd r)) ->
    wf (exec (call ' (x, ok) <- (p : proc' N (nat * bool)); Ret (ASteal (N := N) x ok)) w1) t1 (fun r _ => Q (snd r))).
  { intros p t1 w1 H. apply wf_exec_bind. eapply wf_mono; [exact H|]. intros [[x ok] w2] t2 Hx. cbn [fst snd] in *. apply wf_ret. exact Hx. }
  change (wf (exec (serve E a (QSteal fuel from ns limit)) w) t (fun r _ => Q (snd r))).
  cbn [serve]. apply Hend. unfold h_steal. apply wf_exec_bind. unfold h_vec at 1, access at 1. destruct (manager w a ns) as [m|] eqn:Hm.
  - apply wp_wf. apply (wp_exec_access _ _ _ _ _ m); auto. apply wp_ret. cbn [fst snd]. rewrite put_same by auto. cbn [pbind].
    assert (Hdm : DimOk n m) by (apply (Hd a); auto). apply (Hrest (cm_vec m) w t m); auto; [apply Hdm|]. unfold groups, centroids_at. rewrite Hm. auto.
  - unfold wf at 1. rewrite exec_access_g by auto. rewrite Hm. cbn [fst snd].
    assert (Hnil : forall t1, wf (exec (Ret (0, false) : proc' N (nat * bool)) w) t1 (fun r _ => Q (snd r))).
    { intros t1. apply wf_ret. exact HQ. }
    apply wf_exec_bind. apply wf_exec_bind. unfold c_vec_of. apply wf_exec_bind. unfold wf at 1. rewrite exec_rpc.
    assert (Hhv : forall t1, exec (h_vec from ns) w t1 = Ok ((match manager w from ns with Some mr => Some (cm_vec mr) | None => None end, w), t1)).
    { intros t1. unfold h_vec, access. rewrite exec_access_g by auto. destruct (manager w from ns) as [mr|] eqn:Hmr; auto.
      unfold ret. cbn [fst snd]. rewrite put_same by auto. auto. }
    destruct (match node_at w from with None => ReqLost | Some _ => e_fate E t end); rewrite ?Hhv; cbn [fst snd join];
      [|do 2 (apply wf_ret; cbn [fst snd]); apply Hnil|do 2 (apply wf_ret; cbn [fst snd]); apply Hnil].
    destruct (manager w from ns) as [mr|] eqn:Hmr; [|do 2 (apply wf_ret; cbn [fst snd]); apply Hnil].
    destruct (cm_vec mr) as [|x0 xs] eqn:Hcv; [do 2 (apply wf_ret; cbn [fst snd]); apply Hnil|].
    rewrite <- Hcv. apply wf_ret. cbn [fst snd]. destruct (node_at w a) as [nda|] eqn:Hnda; [|congruence].
    apply wf_exec_bind. unfold wf at 1. rewrite (exec_factory a (cm_vec mr) w (S t) nda Hnda). cbn [fst snd].
    apply wf_exec_bind. unfold wf at 1. rewrite exec_add_slot by congruence. cbn [fst snd]. apply wf_ret. cbn [fst snd].
    assert (Hdr : DimOk n mr) by (apply (Hd from); auto). set (m1 := new_cm (cm_vec mr) (nd_thresh nda)).
    assert (Hnn : node_at w a <> None) by congruence.
    apply (Hrest (cm_vec mr) (new_mgr w a ns m1) (S t) m1).
    + apply new_mgr_ok; auto.
    + apply new_at; auto.
    + split; [apply Hdr|constructor].
    + apply Hdr.
    + unfold groups, centroids_at. rewrite Hm. reflexivity.
    + intros b ns2 Hb. apply (new_only w a ns); auto.
Qed.
End Keep.
