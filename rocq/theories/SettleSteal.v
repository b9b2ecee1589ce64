(* A steal takes fewer than the limit and the largest centroid together. *)
From Verif Require Import Base Num MathUtils Knn Env Centroid CManager DataSpec MgrSpec Wp DataFacts NumFacts
  CentroidProofs DistributeProofs CMProofs CMProofs2 CMProofs3 HistoryProofs Proc Owns Server ServerSpec ServerFacts
  SeqProofs SeqProofs2 StealProofs ServerProofs Alone Uniform.

Section SettleSteal.
Context {N : Num} (E : Env N) (HE : EnvOk E).
Notation Cen := (Centroid N).
Notation World := (World N).

Lemma live_shorter l : forall t, length (live_from E t l) <= length l.
Proof. induction l as [|d l IH]; intros t; cbn [live_from length]; auto. specialize (IH (S t)). destruct (expired_at _ d); cbn [length]; lia. Qed.

Lemma steal_loop_bound s n a from ns v limit : a <> from -> length v = n -> forall fuel (w : World) t total m,
  WorldOk w -> manager w a ns = Some m -> DimOk n m -> (forall mr, manager w from ns = Some mr -> DimOk n mr) ->
  Forall (fun c => length (c_dps c) <= s) (centroids_at w from ns) -> (Z.of_nat total < limit + Z.of_nat s)%Z ->
  wf (exec (steal_loop E fuel a from ns v limit total) w) t (fun r _ => (Z.of_nat (fst (fst r)) < limit + Z.of_nat s)%Z /\
    WorldOk (snd r) /\ exists m', manager (snd r) a ns = Some m' /\ DimOk n m').
Proof.
  intros Hne Hv. induction fuel as [|fuel IH]; intros w t total m Hw Hm Hd Hr Hs Htot; cbn [steal_loop];
    (destruct (Z.ltb_spec (Z.of_nat total) limit) as [Hlim|Hlim]; [|apply wf_ret; cbn [fst snd]; splits; auto; exists m; auto]); [exact I|].
  apply wf_exec_bind. destruct (manager w from ns) as [mr|] eqn:Hmr.
  2:{ destruct (nearest_none E from ns v w t Hw Hmr) as (t' & Ht & He). unfold wf at 1. rewrite He. cbn [fst snd].
      apply wf_ret. cbn [fst snd]. splits; auto. exists m; auto. }
  specialize (Hr mr eq_refl).
  eapply wf_mono; [apply wp_wf, (nearest_one E HE n from ns v w t mr Hw Hmr Hr)|]. intros [[o ok] w1] t1 H. cbn [fst snd] in H.
  destruct H as (mr' & -> & Hd' & Ht & Hok & Ho). cbn [fst snd].
  assert (Hmrn : manager w from ns <> None) by congruence.
  assert (Hw1 : WorldOk (put_mgr w from ns mr' [])) by (apply put_mgr_ok; auto).
  assert (Hm1 : manager (put_mgr w from ns mr' []) a ns = Some m) by (rewrite (put_only w from ns); auto; congruence).
  assert (Hr1 : manager (put_mgr w from ns mr' []) from ns = Some mr') by (apply put_at; auto).
  assert (Hc0 : centroids_at w from ns = cm_cs mr) by (unfold centroids_at; rewrite Hmr; auto).
  rewrite Hc0 in Hs.
  destruct Ho as [(-> & _)|(c & Hp & -> & Hc)]; [apply wf_ret; cbn [fst snd]; splits; auto; exists m; auto|].
  assert (Hs' : Forall (fun c => length (c_dps c) <= s) (c :: cm_cs mr')) by (rewrite <- Hp; exact Hs).
  inversion Hs' as [|? ? Hsc Hsr]; subst.
  destruct Hc as [(Hce & ->)|(Hce & c' & k & -> & Hcw & Hk1 & -> & Hk3)]; [apply wf_ret; cbn [fst snd]; splits; auto; exists m; auto|].
  apply wf_exec_bind. unfold access. apply wp_wf.
  apply (wp_exec_access _ _ _ _ _ m); auto. apply wp_ret. cbn [fst snd pbind].
  set (m2 := MkCM (cm_vec m) (cm_cs m ++ [c']) (cm_thresh m)).
  assert (Hm1n : manager (put_mgr w from ns mr' []) a ns <> None) by congruence.
  apply (IH _ _ _ m2).
  - apply put_mgr_ok; auto.
  - apply put_at; auto.
  - destruct Hd as (D1 & D2). split; auto. cbn [m2 cm_cs]. apply Forall_app. split; auto.
  - intros mr2 H2. rewrite (put_only (put_mgr w from ns mr' []) a ns) in H2; auto; [|congruence]. rewrite Hr1 in H2. injection H2 as <-. auto.
  - unfold centroids_at. rewrite (put_only (put_mgr w from ns mr' []) a ns); auto; [|congruence]. rewrite Hr1. exact Hsr.
  - pose proof (live_shorter (c_dps c) k) as Hl. rewrite <- Hk3 in Hl. unfold c_len. lia.
Qed.

Lemma steal_bound s n fuel a from ns limit (w : World) t : WorldOk w -> a <> from -> node_at w a <> None ->
  (forall b m, b = a \/ b = from -> manager w b ns = Some m -> DimOk n m) ->
  Forall (fun c => length (c_dps c) <= s) (centroids_at w from ns) -> (0 < limit)%Z ->
  wf (exec (serve E a (QSteal fuel from ns limit)) w) t (fun r _ => forall total ok, fst r = ASteal total ok ->
    (Z.of_nat total < limit + Z.of_nat s)%Z).
Proof.
  intros Hw Hne Hna Hd Hs Hlim.
  assert (Hrest : forall v w1 t1 m1, WorldOk w1 -> manager w1 a ns = Some m1 -> DimOk n m1 -> length v = n ->
    (forall b ns2, (b, ns2) <> (a, ns) -> manager w1 b ns2 = manager w b ns2) ->
    wf (exec (call ' (total, ok) <- steal_loop E fuel a from ns v limit 0;
              call _ <- access a ns (fun m => cm_move_vector E m); Ret (total, ok)) w1) t1
      (fun r _ => (Z.of_nat (fst (fst r)) < limit + Z.of_nat s)%Z)).
  { intros v w1 t1 m1 Hw1 Hm1 Hd1 Hv Ho. assert (Hfr : manager w1 from ns = manager w from ns) by (apply Ho; congruence).
    apply wf_exec_bind. eapply wf_mono.
    { apply (steal_loop_bound s n a from ns v limit Hne Hv fuel w1 t1 0 m1); auto.
      - intros mr Hmr. apply (Hd from); auto. congruence.
      - unfold centroids_at in *. rewrite Hfr. exact Hs.
      - cbn. lia. }
    intros [[total ok] w2] t2 (L1 & L2 & m2 & L3 & L4). cbn [fst snd] in *. apply wf_exec_bind. unfold access. apply wp_wf.
    apply (wp_exec_access _ _ _ _ _ m2); auto.
    eapply wp_mono; [apply (cm_move_vector_spec E cwf cwf_id (cwf_move E) n m2 t2 L4)|]. intros r t3 _. apply wf_ret. exact L1. }
  assert (Hend : forall p t1 w1, wf (exec p w1) t1 (fun r _ => (Z.of_nat (fst (fst r)) < limit + Z.of_nat s)%Z) ->
    wf (exec (call ' (x, ok) <- (p : proc' N (nat * bool)); Ret (ASteal (N := N) x ok)) w1) t1
      (fun r _ => forall total ok, fst r = ASteal total ok -> (Z.of_nat total < limit + Z.of_nat s)%Z)).
  { intros p t1 w1 H. apply wf_exec_bind. eapply wf_mono; [exact H|]. intros [[x ok] w2] t2 Hx. cbn [fst snd] in *. apply wf_ret. cbn [fst].
    intros total ok' He. inversion He; subst. exact Hx. }
  cbn [serve]. apply Hend. unfold h_steal. apply wf_exec_bind. unfold h_vec at 1, access at 1. destruct (manager w a ns) as [m|] eqn:Hm.
  - apply wp_wf. apply (wp_exec_access _ _ _ _ _ m); auto. apply wp_ret. cbn [fst snd]. rewrite put_same by auto. cbn [pbind].
    assert (Hdm : DimOk n m) by (apply (Hd a); auto). apply (Hrest (cm_vec m) w t m); auto. apply Hdm.
  - unfold wf at 1. rewrite exec_access_g by auto. rewrite Hm. cbn [fst snd].
    assert (Hnil : forall t1, wf (exec (Ret (0, false) : proc' N (nat * bool)) w) t1 (fun r _ => (Z.of_nat (fst (fst r)) < limit + Z.of_nat s)%Z)).
    { intros t1. apply wf_ret. cbn [fst]. cbn. lia. }
    apply wf_exec_bind. apply wf_exec_bind. unfold c_vec_of. apply wf_exec_bind. unfold wf at 1. rewrite exec_rpc.
    assert (Hhv : forall t1, exec (h_vec from ns) w t1 = Ok ((match manager w from ns with Some mr => Some (cm_vec mr) | None => None end, w), t1)).
    { intros t1. unfold h_vec, access. rewrite exec_access_g by auto. destruct (manager w from ns) as [mr|] eqn:Hmr; auto.
      unfold ret. cbn [fst snd]. rewrite put_same by auto. auto. }
    destruct (match node_at w from with None => ReqLost | Some _ => e_fate E t end); rewrite ?Hhv; cbn [fst snd join];
      [|do 2 (apply wf_ret; cbn [fst snd]); apply Hnil|do 2 (apply wf_ret; cbn [fst snd]); apply Hnil].
    destruct (manager w from ns) as [mr|] eqn:Hmr; [|do 2 (apply wf_ret; cbn [fst snd]); apply Hnil].
    destruct (cm_vec mr) as [|x0 xs] eqn:Hcv; [do 2 (apply wf_ret; cbn [fst snd]); apply Hnil|].
    rewrite <- Hcv. apply wf_ret. cbn [fst snd]. destruct (node_at w a) as [nda|] eqn:Hnda; [|congruence].
    apply wf_exec_bind. unfold wf at 1. rewrite (exec_factory a (cm_vec mr) w (S t) nda Hnda). cbn [fst snd].
    apply wf_exec_bind. unfold wf at 1. rewrite exec_add_slot by congruence. cbn [fst snd]. apply wf_ret. cbn [fst snd].
    assert (Hdr : DimOk n mr) by (apply (Hd from); auto). set (m1 := new_cm (cm_vec mr) (nd_thresh nda)).
    assert (Hnn : node_at w a <> None) by congruence.
    apply (Hrest (cm_vec mr) (new_mgr w a ns m1) (S t) m1).
    + apply new_mgr_ok; auto.
    + apply new_at; auto.
    + split; [apply Hdr|constructor].
    + apply Hdr.
    + intros b ns2 Hb. apply (new_only w a ns); auto.
Qed.
End SettleSteal.
