(* Requests running alone: what each handler does to the managers it names. *)
From Verif Require Import Base Num MathUtils Knn Env Centroid CManager DataSpec MgrSpec Wp DataFacts NumFacts
  Proc Owns Server ServerSpec CMProofs ServerFacts.

Section Seq.
Context {N : Num} (E : Env N).
Notation DP := (DataPoint N).
Notation World := (World N).

Lemma exec_bind {W L R S} (p : proc W L R) (k : R -> proc W L S) w t :
  exec (pbind p k) w t = match exec p w t with
                         | Ok ((r, w'), t') => exec (k r) w' t'
                         | Panic => Panic
                         | OutOfFuel => OutOfFuel
                         end.
Proof.
  revert S k w t. induction p as [R r|R A l f k0 IH|R q IHq k0 IHk]; intros S k w t; cbn [pbind exec].
  - auto.
  - unfold bind. destruct (f w t) as [[[a w'] t']| |]; auto.
  - unfold bind. destruct (exec q w t) as [[[u w'] t']| |]; auto.
Qed.

(* The world after the manager of ns at a has become m'. *)
Definition put_mgr (w : World) (a ns : str) (m' : CM N) (x : list DP) : World :=
  match node_at w a with
  | None => w
  | Some nd =>
      match assoc ns (nd_tbl nd) with
      | None => w
      | Some p => drop ns x (set_node w a (MkNode (list_set (nd_heap nd) p (ns, m')) (nd_tbl nd) (nd_thresh nd)))
      end
  end.

Lemma manager_slot (w : World) a ns m : WorldOk w -> manager w a ns = Some m ->
  exists nd p, node_at w a = Some nd /\ assoc ns (nd_tbl nd) = Some p /\ nth_error (nd_heap nd) p = Some (ns, m).
Proof.
  intros (H1 & H2) H. unfold manager in H. destruct (node_at w a) as [nd|] eqn:Ha; [|discriminate].
  destruct (assoc ns (nd_tbl nd)) as [p|] eqn:Hp; [|discriminate]. exists nd, p. splits; auto.
  destruct (H2 _ _ (assoc_in _ _ _ Ha)) as (_ & K). destruct (K _ _ (assoc_in _ _ _ Hp)) as (m' & Hm).
  rewrite Hm in H. cbn in H. congruence.
Qed.
Lemma manager_none (w : World) a ns : WorldOk w -> manager w a ns = None ->
  match node_at w a with None => None | Some nd => assoc ns (nd_tbl nd) end = None.
Proof.
  intros (H1 & H2) H. unfold manager in H. destruct (node_at w a) as [nd|] eqn:Ha; auto.
  destruct (assoc ns (nd_tbl nd)) as [p|] eqn:Hp; auto.
  destruct (H2 _ _ (assoc_in _ _ _ Ha)) as (_ & K). destruct (K _ _ (assoc_in _ _ _ Hp)) as (m' & Hm).
  rewrite Hm in H. discriminate.
Qed.

Lemma exec_access_g {A} a ns (f : CM N -> M (A * CM N)) g (w : World) t : WorldOk w ->
  exec (access_g a ns f g) w t =
    match manager w a ns with
    | None => Ok ((None, w), t)
    | Some m => match f m t with
                | Ok ((x, m'), t') => Ok ((Some x, put_mgr w a ns m' (g x)), t')
                | Panic => Panic
                | OutOfFuel => OutOfFuel
                end
    end.
Proof.
  intros Hw. unfold access_g. rewrite exec_bind. cbn [lookup exec]. unfold bind, ret.
  destruct (manager w a ns) as [m|] eqn:Hm.
  - destruct (manager_slot _ _ _ _ Hw Hm) as (nd & p & Ha & Hp & Hn). unfold put_mgr. rewrite Ha, Hp.
    unfold node_at in Ha. rewrite Ha, Hp. rewrite exec_bind. cbn [slot_access exec]. unfold bind, ret.
    rewrite Ha, Hn. destruct (f m t) as [[[x m'] t']| |]; auto.
  - pose proof (manager_none _ _ _ Hw Hm) as Hn. unfold node_at in Hn.
    destruct (assoc a (w_nodes w)) as [nd|]; [rewrite Hn|]; auto.
Qed.

Lemma put_mgr_get (w : World) a ns m' x b ns2 : WorldOk w -> manager w a ns <> None ->
  manager (put_mgr w a ns m' x) b ns2 = if str_eqb b a && str_eqb ns2 ns then Some m' else manager w b ns2.
Proof.
  intros Hw Hm. destruct (manager w a ns) as [m|] eqn:Hm'; [|contradiction].
  destruct (manager_slot _ _ _ _ Hw Hm') as (nd & p & Ha & Hp & Hn). unfold put_mgr. rewrite Ha, Hp.
  unfold manager at 1. rewrite node_at_set. destruct (str_eqb b a) eqn:Eb; cbn [andb].
  - apply str_eqb_eq in Eb. subst b. cbn [nd_tbl nd_heap]. unfold manager. rewrite Ha.
    assert (Hlt : p < length (nd_heap nd)) by (apply nth_error_Some; congruence).
    destruct (str_eqb ns2 ns) eqn:En.
    + apply str_eqb_eq in En. subst ns2. rewrite Hp, nth_list_set, Nat.eqb_refl.
      replace (p <? length (nd_heap nd)) with true by (symmetry; apply Nat.ltb_lt; auto). auto.
    + destruct (assoc ns2 (nd_tbl nd)) as [q|] eqn:Hq; auto. rewrite nth_list_set.
      destruct (q =? p) eqn:Eq; cbn [andb]; auto. apply Nat.eqb_eq in Eq. subst q.
      destruct Hw as (_ & Hw). destruct (Hw _ _ (assoc_in _ _ _ Ha)) as (_ & K).
      destruct (K _ _ (assoc_in _ _ _ Hq)) as (m2 & Hm2). rewrite Hn in Hm2. injection Hm2 as ->.
      rewrite str_eqb_refl in En. discriminate.
  - auto.
Qed.
Lemma put_mgr_ok (w : World) a ns m' x : WorldOk w -> WorldOk (put_mgr w a ns m' x).
Proof.
  intros Hw. unfold put_mgr. destruct (node_at w a) as [nd|] eqn:Ha; auto.
  destruct (assoc ns (nd_tbl nd)) as [p|] eqn:Hp; auto. destruct Hw as (H1 & H2).
  destruct (H2 _ _ (assoc_in _ _ _ Ha)) as (K1 & K2). split.
  - cbn [drop set_node w_nodes]. apply upsert_nodup; auto.
  - intros b nb Hb. cbn [drop set_node w_nodes] in Hb.
    assert (Hn : assoc b (upsert a (MkNode (list_set (nd_heap nd) p (ns, m')) (nd_tbl nd) (nd_thresh nd)) (w_nodes w)) = Some nb).
    { apply in_assoc; auto. apply upsert_nodup; auto. }
    destruct (str_dec b a) as [->|Hne].
    + rewrite assoc_upsert_same in Hn. injection Hn as <-. split; auto. cbn [nd_tbl nd_heap].
      intros ns2 q Hq. destruct (K2 _ _ Hq) as (m2 & Hm2). rewrite nth_list_set.
      destruct (q =? p) eqn:Eq; cbn [andb]; eauto. apply Nat.eqb_eq in Eq. subst q.
      destruct (K2 _ _ (assoc_in _ _ _ Hp)) as (m3 & Hm3). rewrite Hm2 in Hm3. injection Hm3 as -> _.
      destruct (p <? length (nd_heap nd)); eauto.
    + rewrite assoc_upsert_other in Hn by auto. apply assoc_in in Hn. eauto.
Qed.
Lemma put_mgr_dropped (w : World) a ns m' x : WorldOk w -> manager w a ns <> None ->
  w_dropped (put_mgr w a ns m' x) = w_dropped w ++ tag ns x.
Proof.
  intros Hw Hm. destruct (manager w a ns) as [m|] eqn:Hm'; [|contradiction].
  destruct (manager_slot _ _ _ _ Hw Hm') as (nd & p & Ha & Hp & Hn). unfold put_mgr. rewrite Ha, Hp. auto.
Qed.
Lemma put_mgr_node (w : World) a ns m' x b :
  option_map nd_thresh (node_at (put_mgr w a ns m' x) b) = option_map nd_thresh (node_at w b).
Proof.
  unfold put_mgr. destruct (node_at w a) as [nd|] eqn:Ha; auto.
  destruct (assoc ns (nd_tbl nd)) as [p|] eqn:Hp; auto. rewrite node_at_set.
  destruct (str_eqb b a) eqn:Eb; auto. apply str_eqb_eq in Eb. subst b. rewrite Ha. auto.
Qed.

(* A new slot. *)
Definition new_mgr (w : World) (a ns : str) (m : CM N) : World :=
  match node_at w a with
  | None => w
  | Some nd => set_node w a (MkNode (nd_heap nd ++ [(ns, m)]) (upsert ns (length (nd_heap nd)) (nd_tbl nd)) (nd_thresh nd))
  end.
Lemma set_node_drop (w : World) a nd : set_node w a nd = drop a [] (set_node w a nd).
Proof. unfold drop, set_node. cbn [w_nodes w_dropped map]. rewrite app_nil_r. auto. Qed.
Lemma new_mgr_get (w : World) a ns m b ns2 : WorldOk w -> node_at w a <> None ->
  manager (new_mgr w a ns m) b ns2 = if str_eqb b a && str_eqb ns2 ns then Some m else manager w b ns2.
Proof.
  intros (H1 & H2) Hn. unfold new_mgr. destruct (node_at w a) as [nd|] eqn:Ha; [|contradiction].
  rewrite set_node_drop. unfold manager. rewrite node_at_set. destruct (str_eqb b a) eqn:Eb; cbn [andb]; auto.
  apply str_eqb_eq in Eb. subst b. rewrite Ha. cbn [nd_tbl nd_heap].
  destruct (str_eqb ns2 ns) eqn:En.
  - apply str_eqb_eq in En. subst. rewrite assoc_upsert_same, nth_error_snoc, Nat.eqb_refl. auto.
  - rewrite assoc_upsert_other by (intros ->; rewrite str_eqb_refl in En; discriminate).
    destruct (assoc ns2 (nd_tbl nd)) as [q|] eqn:Hq; auto. rewrite nth_error_app1; auto.
    destruct (H2 _ _ (assoc_in _ _ _ Ha)) as (_ & K). destruct (K _ _ (assoc_in _ _ _ Hq)) as (m2 & Hm2).
    apply nth_error_Some. congruence.
Qed.
Lemma new_mgr_ok (w : World) a ns m : WorldOk w -> WorldOk (new_mgr w a ns m).
Proof.
  intros (H1 & H2). unfold new_mgr. destruct (node_at w a) as [nd|] eqn:Ha; [|split; auto].
  destruct (H2 _ _ (assoc_in _ _ _ Ha)) as (K1 & K2). split.
  - cbn [set_node w_nodes]. apply upsert_nodup; auto.
  - intros b nb Hb. cbn [set_node w_nodes] in Hb. apply in_assoc in Hb; [|apply upsert_nodup; auto].
    destruct (str_dec b a) as [->|Hne].
    + rewrite assoc_upsert_same in Hb. injection Hb as <-. split; cbn [nd_tbl nd_heap].
      * apply upsert_nodup; auto.
      * intros ns2 q Hq. apply in_assoc in Hq; [|apply upsert_nodup; auto]. rewrite nth_error_snoc.
        destruct (str_dec ns2 ns) as [->|Hne].
        -- rewrite assoc_upsert_same in Hq. injection Hq as <-. rewrite Nat.eqb_refl. eauto.
        -- rewrite assoc_upsert_other in Hq by auto. destruct (K2 _ _ (assoc_in _ _ _ Hq)) as (m2 & Hm2). exists m2.
           destruct (q =? length (nd_heap nd)) eqn:Eq; auto. apply Nat.eqb_eq in Eq. subst q.
           assert (length (nd_heap nd) < length (nd_heap nd)) by (apply nth_error_Some; congruence). lia.
    + rewrite assoc_upsert_other in Hb by auto. apply assoc_in in Hb. eauto.
Qed.
Lemma new_mgr_node (w : World) a ns m b :
  option_map nd_thresh (node_at (new_mgr w a ns m) b) = option_map nd_thresh (node_at w b).
Proof.
  unfold new_mgr. destruct (node_at w a) as [nd|] eqn:Ha; auto. rewrite set_node_drop, node_at_set.
  destruct (str_eqb b a) eqn:Eb; auto. apply str_eqb_eq in Eb. subst b. rewrite Ha. auto.
Qed.
Lemma new_mgr_dropped (w : World) a ns m : w_dropped (new_mgr w a ns m) = w_dropped w.
Proof. unfold new_mgr. destruct (node_at w a); auto. Qed.

Lemma drop_ok (w : World) ns x : WorldOk w -> WorldOk (drop ns x w).
Proof. auto. Qed.
Lemma drop_get (w : World) ns x b ns2 : manager (drop ns x w) b ns2 = manager w b ns2.
Proof. auto. Qed.

Lemma exec_add_slot a ns m (w : World) t : node_at w a <> None ->
  exec (add_slot a ns m) w t = Ok ((tt, new_mgr w a ns m), t).
Proof.
  intros H. cbn [add_slot exec]. unfold bind, ret, new_mgr, node_at in *. destruct (assoc a (w_nodes w)); [auto|contradiction].
Qed.
Lemma exec_factory a v (w : World) t nd : node_at w a = Some nd ->
  exec (factory a v) w t = Ok ((new_cm v (nd_thresh nd), w), t).
Proof. intros H. cbn [factory exec]. unfold bind, ret, node_at in *. rewrite H. auto. Qed.

(* ---- C38 ---- *)
Lemma unknown_namespace a q ns (w : World) t : WorldOk w -> req_counts q -> req_ns q = Some ns -> ~ creates q ->
  manager w a ns = None -> exec (serve E a q) w t = Ok ((ANsErr, w), t).
Proof.
  intros Hw Hc Hq Hn Hm. destruct q; cbn [req_ns] in Hq; try discriminate Hq; injection Hq as ->;
    cbn [creates] in Hn; try (exfalso; apply Hn; exact I); cbn [serve req_counts] in *; unfold reply; rewrite exec_bind;
    try (unfold h_vec, h_drain_unordered, h_drain_ordered, h_expire, h_len_dp, h_mem_trim, h_move_vector,
           h_distribute_internal, h_knn_lookup, h_nearest, h_nearest_vec, h_split, h_merge, access;
         rewrite exec_access_g by auto; rewrite Hm; reflexivity).
  - unfold h_distribute_fast, distribute_with. destruct (Z.ltb_spec n 0); [lia|].
    rewrite exec_bind, exec_access_g by auto. rewrite Hm. reflexivity.
  - unfold h_distribute_accurate, distribute_with. destruct (Z.ltb_spec n 0); [lia|].
    rewrite exec_bind, exec_access_g by auto. rewrite Hm. reflexivity.
Qed.

Lemma reply_some {A} a ns (f : CM N -> M (A * CM N)) g (F : A -> ans N) (w : World) m t x w' t' :
  WorldOk w -> manager w a ns = Some m -> exec (reply F (access_g a ns f g)) w t = Ok ((x, w'), t') -> exists y, x = F y.
Proof.
  intros Hw Hm H. unfold reply in H. rewrite exec_bind, exec_access_g in H by auto. rewrite Hm in H.
  destruct (f m t) as [[[y m'] t1]| |]; try discriminate H. cbn [exec] in H. unfold ret in H. injection H as <- _ _. eauto.
Qed.
Lemma distribute_some a ns n addrs loop (w : World) m t x w' t' :
  WorldOk w -> manager w a ns = Some m ->
  exec (reply (fun _ => AOk) (distribute_with E a ns n addrs loop)) w t = Ok ((x, w'), t') -> x = AOk.
Proof.
  intros Hw Hm H. unfold reply, distribute_with in H. rewrite exec_bind in H. destruct (n <? 0)%Z; [discriminate H|].
  rewrite exec_bind, exec_access_g in H by auto. rewrite Hm in H.
  destruct (cm_drain_ordered E m n t) as [[[ds m'] t1]| |]; try discriminate H.
  destruct ds, addrs; cbn [exec] in H; unfold ret in H; try (injection H as <- _ _; reflexivity).
  rewrite exec_bind in H.
  match type of H with context [exec ?p ?ww ?tt] => destruct (exec p ww tt) as [[[u w1] t2]| |]; try discriminate H end.
  injection H as <- _ _. reflexivity.
Qed.

Lemma known_namespace a q ns (w : World) t x w' t' : WorldOk w -> req_ns q = Some ns -> manager w a ns <> None ->
  exec (serve E a q) w t = Ok ((x, w'), t') -> x <> ANsErr.
Proof.
  intros Hw Hq Hm H. destruct (manager w a ns) as [m|] eqn:Hm'; [|contradiction].
  destruct q; cbn [req_ns] in Hq; try discriminate Hq; injection Hq as ->; cbn [serve] in *;
    try (eapply reply_some in H; [|eauto|eauto]; destruct H as (y & ->); discriminate);
    try (eapply distribute_some in H; [|eauto|eauto]; subst x; discriminate).
  - rewrite exec_bind in H. destruct (exec _ w t) as [[[b w1] t1]| |]; try discriminate H. injection H as <- _ _. discriminate.
  - rewrite exec_bind in H. destruct (exec _ w t) as [[[[n ok] w1] t1]| |]; try discriminate H. injection H as <- _ _. discriminate.
Qed.

(* ---- C36 ---- *)
Lemma put_same (w : World) a ns m : WorldOk w -> manager w a ns = Some m -> put_mgr w a ns m [] = w.
Proof.
  intros Hw Hm. destruct (manager_slot _ _ _ _ Hw Hm) as (nd & p & Ha & Hp & Hn). unfold put_mgr. rewrite Ha, Hp.
  assert (HL : list_set (nd_heap nd) p (ns, m) = nd_heap nd).
  { clear - Hn. revert p Hn. induction (nd_heap nd) as [|y l IH]; intros [|p] Hn; cbn in *; try congruence. f_equal; auto. }
  rewrite HL. destruct nd as [h tb th]. cbn [nd_heap nd_tbl nd_thresh].
  assert (HU : upsert a (MkNode h tb th) (w_nodes w) = w_nodes w).
  { unfold node_at in Ha. clear - Ha. induction (w_nodes w) as [|[k v] l IH]; cbn [assoc upsert] in *; [discriminate|].
    destruct (str_eqb a k) eqn:Ek; [injection Ha as <-; auto|]. f_equal; auto. }
  unfold drop, set_node. cbn [w_nodes w_dropped map]. rewrite HU, app_nil_r. destruct w; auto.
Qed.

Lemma exec_meta_loop a (w : World) : WorldOk w -> forall nss t,
  exec (meta_loop a nss) w t =
    Ok ((flat_map (fun ns => match manager w a ns with
                             | Some m => [(ns, (length (cm_cs m), length (stored (cm_cs m))))]
                             | None => []
                             end) nss, w), t).
Proof.
  intros Hw. induction nss as [|ns r IH]; intros t; cbn [meta_loop flat_map]; auto.
  rewrite exec_bind. unfold access. rewrite exec_access_g by auto. destruct (manager w a ns) as [m|] eqn:Hm; cbn [ret].
  - unfold ret. rewrite (put_same w a ns m Hw Hm), exec_bind, IH. cbn [exec]. unfold ret. cbn [app].
    rewrite cm_len_dp_stored. auto.
  - rewrite exec_bind, IH. auto.
Qed.

End Seq.
