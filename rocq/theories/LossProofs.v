(* Losses: as long as nothing is drained over the network, a lost message loses no datapoint.
   The counterpart of CopiesProofs: a process must bring back the members of f it carries. *)
From Verif Require Import Base Num MathUtils Knn Env Centroid CManager DataSpec MgrSpec DataFacts Proc Server ServerSpec Wp Owns CentroidProofs CMProofs CMProofs3 DistributeProofs
  ServerFacts Slots Core EventLoop CoreSpec ThreshProofs OriginSpec OriginMgr OriginProofs CopiesProofs.

Section Losses.
Context {N : Num} (E : Env N) (HE : EnvOk E) (f : str -> DataPoint N -> bool) (HL : lives E f).
Notation DP := (DataPoint N).
Notation Cen := (Centroid N).
Notation World := (World N).
Notation proc' := (proc' N).
Notation ms m := (stored (cm_cs m)).
Notation cn := (cn f).
Notation wt := (wt f).
Notation ok := (CensOk any_dim).
Notation tags_le := OriginProofs.tags_le.
Notation tagged := OriginProofs.tagged.
Notation K := (K E HE).

Lemma cn_lives ns t t' a b : conserves E t t' a b -> cn ns a <= cn ns b.
Proof.
  intros (l & Hp & Hl). rewrite (cn_perm f ns _ _ Hp), cn_app. clear Hp. enough (H : cn ns l = 0) by lia.
  unfold CopiesProofs.cn. induction Hl as [|d l Hd Hl IH]; auto. cbn [filter]. destruct (f ns d) eqn:Hf; [|exact IH].
  exfalso. destruct Hd as (k & _ & Hk). rewrite (HL ns d k Hf) in Hk. discriminate.
Qed.

Fixpoint owes {R} (T : tags) (p : proc' R) (n : nat) (Q : R -> nat -> Prop) : Prop :=
  match p with
  | Ret r => Q r n
  | Act _ g k => forall w t x w' t', CInv w -> tags_le T (tagged w) -> g w t = Ok ((x, w'), t') ->
      CInv w' /\ tags_le (tagged w) (tagged w') /\
      exists n', wt w + n <= wt w' + n' /\ owes (tagged w') (k x) n' Q
  | Fork q k => exists n1 n2, n <= n1 + n2 /\ owes T q n1 (fun _ m => m = 0) /\ owes T k n2 Q
  end.

Lemma owes_more {R} (p : proc' R) : forall T T' n (Q : R -> nat -> Prop), tags_le T T' -> owes T p n Q -> owes T' p n Q.
Proof.
  induction p as [R r|R A o g k IH|R q IHq k IHk]; intros T T' n Q HK; cbn [owes]; auto.
  - intros H w t x w' t' Hw Ht. apply H; auto. eapply le_trans; eauto.
  - intros (n1 & n2 & H0 & H1 & H2). exists n1, n2. splits; eauto.
Qed.
Lemma owes_bind {R S} (p : proc' R) : forall T n (k : R -> proc' S) (Q : R -> nat -> Prop) Q', owes T p n Q ->
  (forall r m T', tags_le T T' -> Q r m -> owes T' (k r) m Q') -> owes T (pbind p k) n Q'.
Proof.
  revert S. induction p as [R r|R A o g k0 IH|R q IHq k0 IHk]; intros S T n k Q Q' Hp Hf; cbn [pbind owes] in *.
  - apply Hf; auto. intros a p ns H; exact H.
  - intros w t x w' t' Hw Ht He. destruct (Hp _ _ _ _ _ Hw Ht He) as (H1 & H2 & n' & H4 & H5). splits; auto. exists n'. split; auto.
    eapply IH; [exact H5|]. intros r m T' HK Hr. apply Hf; auto. eapply le_trans; [|exact HK]. eapply le_trans; eauto.
  - destruct Hp as (n1 & n2 & H0 & H1 & H2). exists n1, n2. splits; auto. eapply IHk; eauto.
Qed.
Lemma owes_weak {R} (p : proc' R) : forall T n n' (Q Q' : R -> nat -> Prop), owes T p n Q -> n' <= n -> (forall r m m', Q r m -> m' <= m -> Q' r m') -> owes T p n' Q'.
Proof.
  induction p as [R r|R A o g k IH|R q IHq k IHk]; intros T n n' Q Q' Hp Hn HQ; cbn [owes] in *; eauto.
  - intros w t x w' t' Hw Ht He. destruct (Hp _ _ _ _ _ Hw Ht He) as (H1 & H2 & m & H4 & H5). splits; auto. exists m. split; [lia|]. eapply IH; eauto.
  - destruct Hp as (n1 & n2 & H0 & H1 & H2). exists n1, n2. splits; eauto. lia.
Qed.

(* p takes i members and returns, with a result r that meets Q, at least o r of them. *)
Definition tri {R} (p : proc' R) (i : nat) (Q : R -> Prop) (o : R -> nat) : Prop :=
  forall T n, owes T p (i + n) (fun r m => Q r /\ m <= o r + n).

Lemma tri_le {R} (p : proc' R) i (Q Q' : R -> Prop) o o' : tri p i Q o -> (forall r, Q r -> Q' r /\ o r <= o' r) -> tri p i Q' o'.
Proof.
  intros H HQ T n. eapply owes_weak; [apply (H T n)|lia|]. intros r m m' (H1 & H2) Hm. destruct (HQ _ H1). split; auto. lia.
Qed.
Lemma tri_ret {R} (r : R) i (Q : R -> Prop) o : Q r -> i <= o r -> tri (Ret r) i Q o.
Proof. intros H1 H2 T n. cbn [owes]. split; auto. lia. Qed.
Lemma tri_bind {R S} (p : proc' R) (k : R -> proc' S) i j Q o Q' o' : tri p i Q o -> (forall r, Q r -> tri (k r) (o r + j) Q' o') ->
  tri (pbind p k) (i + j) Q' o'.
Proof.
  intros Hp Hk T n. replace (i + j + n) with (i + (j + n)) by lia. eapply owes_bind; [apply Hp|]. intros r m T' _ (Hr & Hm). cbn beta in Hm.
  eapply owes_weak; [apply (Hk r Hr T' n)|lia|]. intros r' m' m2 (H1 & H2) Hl. split; auto. lia.
Qed.
Lemma tri_bind0 {R S} (p : proc' R) (k : R -> proc' S) i Q o Q' o' : tri p i Q o -> (forall r, Q r -> tri (k r) (o r) Q' o') ->
  tri (pbind p k) i Q' o'.
Proof. intros Hp Hk. replace i with (i + 0) by lia. eapply tri_bind; [exact Hp|]. intros r Hr. rewrite Nat.add_0_r. auto. Qed.

(* Processes that carry nothing. *)
Definition idle {R} (p : proc' R) : Prop := tri p 0 any none.
Lemma idle_then {R S} (p : proc' R) (k : R -> proc' S) j Q' o' : idle p -> (forall r, tri (k r) j Q' o') -> tri (pbind p k) j Q' o'.
Proof. intros Hp Hk. apply (tri_bind p k 0 j any none); auto. Qed.
Lemma idle_of {R} (p : proc' R) Q o : tri p 0 Q o -> (forall r, Q r -> o r = 0) -> idle p.
Proof. intros H Ho. eapply tri_le; [exact H|]. intros r Hr. split; [exact I|]. rewrite (Ho r Hr). auto. Qed.

(* ---- the primitive actions ---- *)
Lemma tri_same {A} o (g : World -> M (A * World)) : (forall w t x w' t', g w t = Ok ((x, w'), t') -> w' = w) -> idle (Act o g Ret).
Proof.
  intros H T n. cbn [owes]. intros w t x w' t' Hw Ht He. rewrite (H _ _ _ _ _ He) in *. splits; auto; [intros a p ns Hp; exact Hp|].
  exists (0 + n). split; [lia|]. split; [exact I|]. cbv [none]. lia.
Qed.
Lemma idle_local {A} (m : M A) : idle (local m : proc' A).
Proof.
  apply tri_same. intros w t x w' t'. unfold bind, ret. destruct (m t) as [[y t1]| |] eqn:He; try discriminate.
  intros Hx. inversion Hx; subst. auto.
Qed.
Lemma tri_drop ns ds : tri (drop_dps ns ds : proc' unit) (cn ns ds) any none.
Proof.
  intros T n. cbn [drop_dps owes]. intros w t x w' t' Hw Ht He. inversion He; subst. splits; auto; [intros a p k Hp; exact Hp|].
  exists n. rewrite wt_drop. split; [lia|]. split; [exact I|]. cbv [none]. lia.
Qed.
Lemma tri_namespaces a : idle (h_namespaces E a : proc' _).
Proof.
  apply tri_same. intros w t x w' t'. destruct (assoc a (w_nodes w)).
  - unfold bind. destruct (any_order E _ t) as [[y t1]| |] eqn:He; try discriminate. intros H. inversion H; auto.
  - intros H. inversion H; auto.
Qed.

(* A call whose answer is lost must owe nothing when it ends. *)
Lemma tri_rpc {A} a (h : proc' A) i (Q : A -> Prop) o : tri h i Q o -> (forall r, Q r -> o r = 0) -> tri (rpc E a h) i (opt Q) (oget i o).
Proof.
  intros Hh Ho T n. unfold rpc. cbn [pbind owes]. intros w t x w' t' Hw Ht He. unfold bind, tick, ret in He. inversion He; subst. clear He.
  splits; auto; [intros b p k Hp; exact Hp|].
  destruct (match assoc a (w_nodes w') with Some _ => e_fate E t | None => ReqLost end) eqn:Hx; exists (i + n); (split; [lia|]).
  - eapply owes_bind; [apply Hh|]. intros r m T' _ Hr. exact Hr.
  - cbn [owes opt oget]. auto.
  - cbn [owes]. exists (i + 0), (i + n). split; [lia|]. split; [|cbn [opt oget]; auto].
    eapply owes_bind; [apply (Hh _ 0)|]. intros r m T' _ (Hr & Hm). cbn [owes]. rewrite (Ho r Hr) in Hm. lia.
Qed.
Lemma idle_rpc {A} a (h : proc' A) : idle h -> idle (rpc E a h).
Proof. intros H. eapply idle_of; [apply tri_rpc; [exact H|auto]|]. intros [r|] _; auto. Qed.

(* ---- slots ---- *)
Definition mgr_owes {A} ns (g : CM N -> M (A * CM N)) (h : A -> list DP) i (Q : A -> Prop) (o : A -> nat) : Prop :=
  forall m t x m' t', ok ns m -> g m t = Ok ((x, m'), t') ->
    ok ns m' /\ Q x /\ cn ns (ms m) + i <= cn ns (ms m') + cn ns (h x) + o x.
Lemma owes_slot {A} (T : tags) a p ns (g : CM N -> M (A * CM N)) h i Q o n : T a p ns -> mgr_owes ns g h i Q o ->
  owes T (slot_access a p g h) (i + n) (fun r m => Q r /\ m <= o r + n).
Proof.
  intros Hk Hf. cbn [slot_access owes]. intros w t x w' t' Hw Ht. destruct (Ht _ _ _ Hk) as (nd & m & Ha & Hp). rewrite Ha, Hp. unfold bind.
  destruct (g m t) as [[[y m'] t1]| |] eqn:He; try discriminate. unfold ret. intros H. inversion H; subst. clear H.
  pose proof (cnode_inv _ _ _ Hw Ha) as (N1 & N2).
  assert (Hm : ok ns m) by (rewrite Forall_forall in N1; exact (N1 _ (nth_error_In _ _ Hp))).
  destruct (Hf _ _ _ _ _ Hm He) as (H2 & H3 & H4).
  assert (Hh : forall q n mm, nth_error (nd_heap nd) q = Some (n, mm) -> exists m2, nth_error (list_set (nd_heap nd) p (ns, m')) q = Some (n, m2)).
  { intros q k mm Hq. destruct (Nat.eq_dec p q) as [->|Hne].
    - exists m'. rewrite Hp in Hq. inversion Hq; subst. eapply set_nth_same; eauto.
    - exists mm. rewrite set_nth_other; auto. }
  set (nd' := MkNode (list_set (nd_heap nd) p (ns, m')) (nd_tbl nd) (nd_thresh nd)) in *.
  splits; auto.
  - apply (cset_inv w a nd'); auto. split; cbn [nd' nd_heap nd_tbl].
    + apply forall_set; auto.
    + intros k q Hq. destruct (N2 _ _ Hq) as (mm & Hmm). eauto.
  - apply (tagged_set w a nd nd' Ha). exact Hh.
  - exists (o x + n). split; [|split; auto].
    destruct (upd_data w a nd Ha) as (rest & U1 & U2). destruct (slot_data nd p ns m Hp) as (rest2 & S1 & S2).
    specialize (U2 nd' ns (h x)). specialize (S2 m' (nd_tbl nd) (nd_thresh nd)). fold nd' in S2.
    unfold CopiesProofs.wt. apply (members_perm f) in U1, U2, S1, S2. rewrite U1, U2. rewrite !members_app in *. rewrite !members_tag in *.
    cbn [drop set_node w_dropped]. rewrite members_app. change (map (pair ns) (h x)) with (tag ns (h x)). rewrite members_tag. lia.
Qed.
Lemma tri_access_g {A} a ns (g : CM N -> M (A * CM N)) h i Q o : mgr_owes ns g h i Q o -> tri (access_g a ns g h) i (opt Q) (oget i o).
Proof.
  intros Hf T n. unfold access_g, lookup. cbn [pbind owes]. intros w t x w' t' Hw Ht H. inversion H; subst. clear H.
  splits; auto; [intros b p k Hp; exact Hp|]. exists (i + n). split; [lia|]. destruct (assoc a (w_nodes w')) as [nd|] eqn:Ha; [|cbn [owes opt oget]; auto].
  destruct (assoc ns (nd_tbl nd)) as [p|] eqn:Hp; [|cbn [owes opt oget]; auto].
  pose proof (cnode_inv _ _ _ Hw Ha) as (_ & N2). destruct (N2 _ _ Hp) as (m & Hm).
  eapply owes_bind; [eapply owes_slot; [|exact Hf]; exists nd, m; auto|]. intros r m' T' _ Hr. exact Hr.
Qed.
Lemma tri_access {A} a ns (g : CM N -> M (A * CM N)) i Q o : mgr_owes ns g (fun _ => []) i Q o -> tri (access a ns g) i (opt Q) (oget i o).
Proof. apply tri_access_g. Qed.

(* The managers. *)
Lemma mgr_wp {A} ns (g : CM N -> M (A * CM N)) h i (Q : A -> Prop) o (before : CM N -> list DP) (after : A -> list DP) :
  (forall m t, ok ns m -> wp (g m) t (fun r t' => t <= t' /\ ok ns (snd r) /\ Q (fst r) /\ conserves E t t' (before m) (ms (snd r) ++ after (fst r)))) ->
  (forall m, cn ns (ms m) + i <= cn ns (before m)) -> (forall x, Q x -> cn ns (after x) <= cn ns (h x) + o x) -> mgr_owes ns g h i Q o.
Proof.
  intros Hw Hb Ha m t x m' t' Hm He. specialize (Hw m t Hm). unfold wp in Hw. rewrite He in Hw. cbn [fst snd] in Hw.
  destruct Hw as (H1 & H2 & H3 & H4). splits; auto. apply (cn_lives ns) in H4. rewrite cn_app in H4. specialize (Hb m). specialize (Ha x H3). lia.
Qed.
Lemma keeper_owes {A} ns (g : CM N -> M (A * CM N)) : keeper E ns g -> mgr_owes ns g (fun _ => []) 0 any none.
Proof.
  intros H. apply (mgr_wp ns g _ 0 any none (fun m => ms m) (fun _ => [])); [|intros; lia|intros; cbv [none]; rewrite ?cn_nil; lia].
  intros m t Hm. eapply wp_mono; [apply H; exact Hm|]. intros r t' (H1 & H2 & H3). rewrite app_nil_r. splits; auto. exact I.
Qed.
Lemma idle_access {A} a ns (g : CM N -> M (A * CM N)) : keeper E ns g -> idle (access a ns g).
Proof. intros H. eapply idle_of; [apply tri_access; apply keeper_owes; exact H|]. intros [r|] _; auto. Qed.
Lemma idle_h_vec a ns : idle (h_vec a ns : proc' _). Proof. apply idle_access, (keeper_read E ns cm_vec). Qed.
Lemma idle_h_len a ns : idle (h_len_dp a ns : proc' _). Proof. apply idle_access, (keeper_read E ns cm_len_dp). Qed.
Lemma idle_h_expire a ns : idle (h_expire E a ns). Proof. apply idle_access, (keeper_unit E). intros. apply (kind_expire K); auto. Qed.
Lemma idle_h_mem_trim a ns : idle (h_mem_trim E a ns). Proof. apply idle_access, (keeper_unit E). intros. apply (kind_mem_trim K); auto. Qed.
Lemma idle_h_move a ns : idle (h_move_vector E a ns). Proof. apply idle_access. intros m t Hm. apply (kind_move K); auto. Qed.
Lemma idle_h_internal a ns n : idle (h_distribute_internal E a ns n). Proof. apply idle_access, (keeper_unit E). intros. apply (kind_internal K); auto. Qed.
Lemma idle_h_split a ns lo hi : idle (h_split E a ns lo hi). Proof. apply idle_access, (keeper_unit E). intros. apply (kind_split K); auto. Qed.
Lemma idle_h_merge a ns lo hi : idle (h_merge E a ns lo hi). Proof. apply idle_access, (keeper_unit E). intros. apply (kind_merge K); auto. Qed.
Lemma idle_h_nearest_vec a ns v : idle (h_nearest_vec E a ns v).
Proof.
  apply idle_access. intros m t Hm. apply wp_bind. eapply wp_mono; [apply (kind_nearest K ns m v 1%Z false t); [lia|exact Hm]|].
  intros [r m'] t' (H1 & H2 & H3 & H4 & H5). apply wp_ret. cbn [fst snd] in *. rewrite app_nil_r in H5. auto.
Qed.
Lemma add_owes ns d : mgr_owes ns (fun m => cm_add E m d) (unless d) (cn ns [d]) any none.
Proof.
  apply (mgr_wp ns _ _ _ any none (fun m => ms m ++ [d]) (unless d)); [|intros m; rewrite cn_app; lia|intros; cbv [none]; lia].
  intros m t Hm. eapply wp_mono; [apply (kind_add K ns m d t Hm (dim_any ns d))|]. intros r t' (H1 & H2 & _ & H3). splits; auto. exact I.
Qed.
Lemma neg_owes {A} ns (g : CM N -> M (A * CM N)) h i Q o (n : Z) : ((n < 0)%Z -> forall m t, g m t = Panic) -> ((0 <= n)%Z -> mgr_owes ns g h i Q o) -> mgr_owes ns g h i Q o.
Proof. intros H1 H2. destruct (Z.ltb_spec n 0); [|auto]. intros m t x m' t' _ He. rewrite H1 in He; [discriminate|auto]. Qed.
Lemma drain_u_owes ns n : mgr_owes ns (fun m => cm_drain_unordered E m n) (fun _ => []) 0 any (cn ns).
Proof.
  apply (neg_owes _ _ _ _ _ _ n); [intros Hn m t; unfold cm_drain_unordered; assert ((n <? 0)%Z = true) as -> by lia; auto|]. intros Hn.
  apply (mgr_wp ns _ _ _ any (cn ns) (fun m => ms m) (fun ds => ds)); [|intros m; lia|intros; cbv [none]; rewrite ?cn_nil; lia].
  intros m t Hm. eapply wp_mono; [apply (kind_drain_u K ns m n t Hn Hm)|]. intros r t' (H1 & H2 & _ & H3). splits; auto. exact I.
Qed.
Lemma drain_o_owes ns n (h : list DP -> list DP) o : (forall ds, cn ns ds <= cn ns (h ds) + o ds) -> mgr_owes ns (fun m => cm_drain_ordered E m n) h 0 any o.
Proof.
  intros Ho. apply (neg_owes _ _ _ _ _ _ n); [intros Hn m t; unfold cm_drain_ordered; assert ((n <? 0)%Z = true) as -> by lia; auto|]. intros Hn.
  apply (mgr_wp ns _ _ _ any o (fun m => ms m) (fun ds => ds)); [|intros m; lia|intros; auto].
  intros m t Hm. eapply wp_mono; [apply (kind_drain_o K ns m n t Hn Hm)|]. intros r t' (H1 & H2 & _ & H3). splits; auto. exact I.
Qed.
Lemma lookup_owes ns v n (drain : bool) : mgr_owes ns (fun m => cm_knn_lookup E m v n drain) (fun _ => []) 0 any (fun ds => if drain then cn ns ds else 0).
Proof.
  apply (neg_owes _ _ _ _ _ _ n); [intros Hn m t; unfold cm_knn_lookup; assert ((n <? 0)%Z = true) as -> by lia; auto|]. intros Hn.
  apply (mgr_wp ns _ _ _ any _ (fun m => ms m) (fun ds => if drain then ds else [])); [|intros m; lia|intros; destruct drain; rewrite ?cn_nil; lia].
  intros m t Hm. eapply wp_mono; [apply (kind_knn K ns m v n drain t Hn Hm)|]. intros r t' (H1 & H2 & _ & H3). splits; auto. exact I.
Qed.
Lemma nearest_owes ns v n (drain : bool) : (0 <= n)%Z -> mgr_owes ns (fun m => do ' (o, m') <- cm_nearest E m v n drain; ret (match o with Some cs => cs | None => [] end, m'))
  (fun _ => []) 0 (fun cs => length cs <= Z.to_nat n /\ Forall (cen_ok any_dim ns) cs) (fun cs => if drain then cn ns (stored cs) else 0).
Proof.
  intros Hn. apply (mgr_wp ns _ _ _ _ _ (fun m => ms m) (fun cs => if drain then stored cs else [])); [|intros m; lia|intros; destruct drain; rewrite ?cn_nil; lia].
  intros m t Hm. apply wp_bind. eapply wp_mono; [apply (kind_nearest K ns m v n drain t Hn Hm)|]. intros [r m'] t' (H1 & H2 & H3 & H4 & H5). apply wp_ret.
  cbn [fst snd] in *. splits; auto.
Qed.

(* ---- handlers ---- *)
Lemma tri_factory a v : tri (factory a v : proc' (CM N)) 0 (fun m => cm_cs m = []) none.
Proof.
  intros T n. cbn [factory owes]. intros w t x w' t' Hw Ht. destruct (assoc a (w_nodes w)); [|discriminate]. intros H. inversion H; subst.
  splits; auto; [intros b p k Hp; exact Hp|]. exists (0 + n). split; [lia|]. split; [reflexivity|cbv [none]; lia].
Qed.
Lemma tri_first_add ns m d : cm_cs m = [] -> tri (first_add E ns m d) (cn ns [d]) (ok ns) (fun m' => cn ns (ms m')).
Proof.
  intros Hm T n. cbn [first_add owes]. intros w t x w' t' Hw Ht. unfold bind. destruct (cm_add E m d t) as [[[b m1] t1]| |] eqn:He; try discriminate.
  unfold ret. intros H. inversion H; subst. clear H.
  assert (Hok : ok ns m) by (split; [exists 0; exact I|rewrite Hm; constructor]).
  destruct (add_owes ns d _ _ _ _ _ Hok He) as (H2 & _ & H3). rewrite Hm in H3. cbn [stored map concat] in H3. change (cn ns []) with 0 in H3. cbv [none] in H3.
  splits; auto; [intros a p k Hp; exact Hp|]. exists (cn ns (ms x) + n). rewrite wt_drop. split; [lia|]. split; auto.
Qed.
Lemma tri_add_slot a ns m : ok ns m -> tri (add_slot a ns m : proc' unit) (cn ns (ms m)) any none.
Proof.
  intros Hm T n. cbn [add_slot owes]. intros w t x w' t' Hw Ht. destruct (assoc a (w_nodes w)) as [nd|] eqn:Ha; try discriminate.
  intros H. inversion H; subst. clear H. pose proof (cnode_inv _ _ _ Hw Ha) as (N1 & N2).
  assert (Hh : forall q n mm, nth_error (nd_heap nd) q = Some (n, mm) -> exists m2, nth_error (nd_heap nd ++ [(ns, m)]) q = Some (n, m2)).
  { intros q k mm Hq. exists mm. rewrite nth_error_app1; auto. apply nth_error_Some. congruence. }
  set (nd' := MkNode (nd_heap nd ++ [(ns, m)]) (upsert ns (length (nd_heap nd)) (nd_tbl nd)) (nd_thresh nd)) in *. splits; auto.
  - apply (cset_inv w a nd'); auto. split; cbn [nd' nd_heap nd_tbl].
    + apply Forall_app. auto.
    + intros k q. destruct (str_eqb k ns) eqn:Hn.
      * apply str_eqb_eq in Hn. subst k. rewrite assoc_upsert_same. intros H. inversion H; subst. exists m.
        rewrite nth_error_app2, Nat.sub_diag; auto.
      * rewrite assoc_upsert_other; [|intros ->; rewrite str_eqb_refl in Hn; discriminate]. intros Hq. destruct (N2 _ _ Hq) as (mm & Hmm). eauto.
  - apply (tagged_set w a nd nd' Ha). exact Hh.
  - exists n. split; [|split; [exact I|cbv [none]; lia]]. destruct (upd_data w a nd Ha) as (rest & U1 & U2). specialize (U2 nd' ns []).
    assert (Hd : members f (node_data nd') = members f (node_data nd) + cn ns (ms m)).
    { unfold node_data, nd'. cbn [nd_heap]. rewrite map_app, concat_app, members_app. cbn [map concat fst snd]. rewrite app_nil_r, members_tag. auto. }
    apply (members_perm f) in U1, U2. rewrite !members_app in *. unfold CopiesProofs.wt.
    change (all_data (set_node w a nd')) with (all_data (drop ns [] (set_node w a nd'))). rewrite U1, U2. cbn [set_node w_dropped]. lia.
Qed.
Lemma tri_h_add a ns d : tri (h_add E a ns d) (cn ns [d]) (fun b => b = true) none.
Proof.
  unfold h_add. eapply tri_bind0; [apply tri_access_g, add_owes|]. intros [b|] _; cbn [oget]; [apply tri_ret; auto|].
  apply (tri_bind _ _ 0 _ _ none _ _ (tri_factory a (dp_vec d))). intros m Hm. cbn [none plus].
  eapply tri_bind0; [apply tri_first_add; exact Hm|]. intros m' Hm'. cbn beta.
  eapply tri_bind0; [apply tri_add_slot; exact Hm'|]. intros. apply tri_ret; auto.
Qed.
Lemma tri_h_lookup a ns v k d : tri (h_knn_lookup E a ns v k d) 0 any (oget 0 (fun ds => if d then cn ns ds else 0)).
Proof. eapply tri_le; [apply tri_access, (lookup_owes ns v k d)|]. intros r _. split; [exact I|lia]. Qed.
Lemma tri_h_nearest a ns v n d : (0 <= n)%Z -> tri (h_nearest E a ns v n d) 0 (opt (fun cs => length cs <= Z.to_nat n /\ Forall (cen_ok any_dim ns) cs))
  (oget 0 (fun cs => if d then cn ns (stored cs) else 0)).
Proof. intros Hn. apply tri_access. apply nearest_owes. exact Hn. Qed.

Create HintDb losses.
Lemma idle_ret {R} (r : R) : idle (Ret r : proc' R). Proof. apply tri_ret; [exact I|auto]. Qed.
Lemma idle_bind {R S} (p : proc' R) (k : R -> proc' S) : idle p -> (forall r, idle (k r)) -> idle (pbind p k).
Proof. intros H1 H2. apply idle_then; auto. Qed.
Lemma idle_panic {A} : idle (local panic : proc' A). Proof. apply idle_local. Qed.
Lemma idle_fuel {A} : idle (local out_of_fuel : proc' A). Proof. apply idle_local. Qed.
Hint Resolve idle_ret idle_panic idle_fuel tri_namespaces idle_h_vec idle_h_len idle_h_expire idle_h_mem_trim idle_h_move idle_h_internal idle_h_split idle_h_merge idle_h_nearest_vec : losses.
Ltac os :=
  repeat first
    [ progress cbn beta
    | solve [auto with losses]
    | match goal with
      | |- forall _, _ => intro
      | |- idle (match ?x with _ => _ end) => destruct x
      | |- idle (let (_, _) := ?x in _) => destruct x
      | |- idle (pbind _ _) => apply idle_bind
      | |- idle (rpc _ _ _) => apply idle_rpc
      | |- idle (local _) => apply idle_local
      end ].
Lemma idle_meta_loop a nss : idle (meta_loop a nss : proc' _).
Proof.
  induction nss as [|ns nss IH]; cbn [meta_loop]; [os|]. apply idle_bind; [|os]. apply idle_access, (keeper_read E ns (fun m => (length (cm_cs m), cm_len_dp m))).
Qed.
Hint Resolve idle_meta_loop : losses.
Lemma idle_h_meta a : idle (h_meta E a). Proof. unfold h_meta. os. Qed.
Hint Resolve idle_h_meta : losses.

(* ---- clients ---- *)
Lemma idle_c_namespaces a : idle (c_namespaces E a). Proof. unfold c_namespaces. os. Qed.
Lemma idle_c_vec_of a ns : idle (c_vec_of E a ns). Proof. unfold c_vec_of. os. Qed.
Lemma idle_c_expire a ns : idle (c_expire_of E a ns). Proof. unfold c_expire_of. os. Qed.
Lemma idle_c_mem_trim a ns : idle (c_mem_trim_of E a ns). Proof. unfold c_mem_trim_of. os. Qed.
Lemma idle_c_di a ns n : idle (c_distribute_internal E a ns n). Proof. unfold c_distribute_internal. os. Qed.
Lemma idle_c_split a ns lo hi : idle (c_split E a ns lo hi). Proof. unfold c_split. os. Qed.
Lemma idle_c_merge a ns lo hi : idle (c_merge E a ns lo hi). Proof. unfold c_merge. os. Qed.
Lemma idle_c_len a ns : idle (c_len_dp E a ns). Proof. unfold c_len_dp. os. Qed.
Lemma idle_c_nearest_vec a ns v : idle (c_nearest_vec E a ns v). Proof. unfold c_nearest_vec. os. Qed.
Lemma idle_c_meta a : idle (c_meta E a). Proof. unfold c_meta. os. Qed.
Hint Resolve idle_c_namespaces idle_c_vec_of idle_c_expire idle_c_mem_trim idle_c_di idle_c_split idle_c_merge idle_c_len idle_c_nearest_vec idle_c_meta : losses.

Notation kept := (kept f).
Lemma tri_c_add a ns d : tri (c_add_dp E a ns d) (cn ns [d]) any (kept ns d).
Proof.
  unfold c_add_dp. eapply tri_bind0; [apply tri_rpc; [apply tri_h_add|auto]|]. intros [b|] H; apply tri_ret; try exact I; cbn [oget CopiesProofs.kept opt] in *; [subst b; auto|lia].
Qed.
Lemma idle_c_lookup a ns v k : idle (c_lookup E a ns v k false).
Proof.
  unfold c_lookup. destruct (_ <? _)%Z; [os|]. apply idle_bind; [|os]. apply idle_rpc. eapply idle_of; [apply tri_h_lookup|]. intros [r|] _; auto.
Qed.
Hint Resolve idle_c_lookup : losses.

(* ---- handlers that call other nodes ---- *)
Lemma idle_fetch_each g addrs : (forall b, idle (g b)) -> idle (fetch_each g addrs : proc' (list (str * vec N))).
Proof. intros Hf. induction addrs; cbn [fetch_each]; os. Qed.
Hint Resolve idle_fetch_each : losses.
Lemma idle_fetch_vecs g addrs : (forall b, idle (g b)) -> idle (fetch_vecs E g addrs).
Proof. intros Hf. unfold fetch_vecs. os. Qed.
Hint Resolve idle_fetch_vecs : losses.
Lemma tri_try_add addrs idx ns d : tri (try_add E addrs idx ns d) (cn ns [d]) any (kept ns d).
Proof.
  induction idx as [|i idx IH]; cbn [try_add]; [apply tri_ret; [exact I|auto]|]. apply idle_then; [os|]. intros a.
  eapply tri_bind0; [apply tri_c_add|]. intros [|] _; cbn [CopiesProofs.kept]; [apply tri_ret; [exact I|auto]|exact IH].
Qed.
Lemma tri_distribute_dp d rsl ns : tri (distribute_dp E d rsl ns) (cn ns [d]) any (kept ns d).
Proof. unfold distribute_dp. apply idle_then; [os|]. intros. apply tri_try_add. Qed.
Lemma tri_put_back a ns d : tri (put_back_dp E a ns d) (cn ns [d]) any none.
Proof.
  unfold put_back_dp. eapply tri_bind0; [apply tri_access_g, add_owes|]. intros [b|] _; cbn [oget]; [apply tri_ret; [exact I|auto]|]. apply tri_drop.
Qed.
Lemma tri_redo a ns d (b : bool) : tri (if b then Ret tt else put_back_dp E a ns d) (kept ns d b) any none.
Proof. destruct b; cbn [CopiesProofs.kept]; [apply tri_ret; [exact I|auto]|apply tri_put_back]. Qed.
Lemma tri_fast_loop a ns rsl ds : tri (distribute_fast_loop E a ns rsl ds) (cn ns ds) any none.
Proof.
  induction ds as [|d ds IH]; cbn [distribute_fast_loop]; [apply tri_ret; [exact I|auto]|]. rewrite cn_cons.
  eapply tri_bind; [apply tri_distribute_dp|]. intros b _. eapply tri_bind; [apply tri_redo|]. intros r _. exact IH.
Qed.
Lemma tri_accurate_loop a ns addrs ds : tri (distribute_accurate_loop E a ns addrs ds) (cn ns ds) any none.
Proof.
  induction ds as [|d ds IH]; cbn [distribute_accurate_loop]; [apply tri_ret; [exact I|auto]|]. apply idle_then; [os|]. intros rsl. rewrite cn_cons.
  eapply tri_bind; [apply tri_distribute_dp|]. intros b _. eapply tri_bind; [apply tri_redo|]. intros r _. exact IH.
Qed.
Lemma idle_distribute_with a ns n addrs loop : (forall ds, tri (loop ds) (cn ns ds) any none) -> idle (distribute_with E a ns n addrs loop).
Proof.
  intros Hl. unfold distribute_with. destruct (_ <? _)%Z; [os|].
  eapply tri_bind0; [apply tri_access_g, (drain_o_owes ns n _ (fun ds => match addrs with [] => 0 | _ => cn ns ds end)); intros ds; destruct addrs; rewrite ?cn_nil; lia|].
  intros [[|d ds]|] _; cbn [oget]; [destruct addrs; apply tri_ret; try exact I; rewrite ?cn_nil; auto| |apply tri_ret; [exact I|auto]].
  destruct addrs as [|b addrs]; [apply tri_ret; [exact I|auto]|]. eapply tri_bind0; [apply Hl|]. intros. apply tri_ret; [exact I|auto].
Qed.
Lemma idle_h_fast a ns n addrs : idle (h_distribute_fast E a ns n addrs).
Proof. apply idle_distribute_with. intros. apply idle_then; [os|]. intros. apply tri_fast_loop. Qed.
Lemma idle_h_accurate a ns n addrs : idle (h_distribute_accurate E a ns n addrs).
Proof. apply idle_distribute_with. intros. apply tri_accurate_loop. Qed.
Hint Resolve idle_h_fast idle_h_accurate : losses.
Lemma tri_serve a q : match q with QNearest _ _ n _ => (0 <= n)%Z | QSteal _ _ _ _ => False | _ => True end ->
  tri (serve E a q) (members f (req_tin q)) any (fun x => members f (ans_tout q x)).
Proof.
  assert (Hz : forall p : proc' (ans N), (forall x, members f (ans_tout q x) = 0) -> idle p -> members f (req_tin q) = 0 ->
    tri p (members f (req_tin q)) any (fun x => members f (ans_tout q x))).
  { intros p H1 H2 H3. rewrite H3. eapply tri_le; [exact H2|]. intros r Hr. rewrite H1. split; [exact I|auto]. }
  intros Hq. destruct q; try contradiction; try solve [apply Hz; [intros x; destruct x; reflexivity|cbn [serve]; unfold reply; os|reflexivity]]; cbn [serve].
  - unfold req_tin. cbn [req_ns req_in]. rewrite members_tag. eapply tri_bind0; [apply tri_h_add|]. intros b _. apply tri_ret; [exact I|auto].
  - unfold reply. eapply tri_bind0; [apply tri_access, drain_u_owes|]. intros [x|] _; (apply tri_ret; [exact I|]); unfold ans_tout; cbn [req_ns ans_out oget]; rewrite members_tag; auto.
  - unfold reply. eapply tri_bind0; [apply tri_access, (drain_o_owes _ _ _ (cn ns)); intros; rewrite cn_nil; lia|].
    intros [x|] _; (apply tri_ret; [exact I|]); unfold ans_tout; cbn [req_ns ans_out oget]; rewrite members_tag; auto.
  - unfold reply. eapply tri_bind0; [apply tri_h_lookup|].
    intros [x|] _; (apply tri_ret; [exact I|]); unfold ans_tout; cbn [req_ns oget]; rewrite members_tag; destruct drain; cbn [ans_out]; rewrite ?cn_nil; lia.
  - unfold reply. eapply tri_bind0; [apply tri_h_nearest; exact Hq|].
    intros [x|] _; (apply tri_ret; [exact I|]); unfold ans_tout; cbn [req_ns oget]; rewrite members_tag; destruct drain; cbn [ans_out]; rewrite ?cn_nil; lia.
Qed.

(* ---- HTTP ---- *)
Lemma idle_best_fit s v fetch : idle fetch -> idle (best_fit s v fetch : proc' (list str)).
Proof. intros H. unfold best_fit. os. Qed.
Hint Resolve idle_best_fit : losses.
Lemma tri_put_dp addrs ns d : tri (put_dp E addrs ns d) (cn ns [d]) any (kept ns d).
Proof.
  induction addrs as [|a addrs IH]; cbn [put_dp]; [apply tri_ret; [exact I|auto]|].
  eapply tri_bind0; [apply tri_c_add|]. intros [|] _; cbn [CopiesProofs.kept]; [apply tri_ret; [exact I|auto]|exact IH].
Qed.
Lemma idle_get_loop ns v n : forall addrs res, idle (get_loop E addrs ns v n false res).
Proof. induction addrs as [|a addrs IH]; intros res; cbn [get_loop]; os. Qed.
Hint Resolve idle_get_loop : losses.
Lemma tri_put_http addrs o : tri (put_http E addrs (Some o)) (cn (po_ns o) [to_dp (po_dp o)]) any
  (fun r => if (status r =? 200)%Z then 0 else cn (po_ns o) [to_dp (po_dp o)]).
Proof.
  unfold put_http. cbv zeta. apply (tri_bind0 _ _ _ any (kept (po_ns o) (to_dp (po_dp o)))).
  - unfold put_accurate, put_fast, best_fit_accurate, best_fit_fast. destruct (po_accurate o); (apply idle_then; [os|]); intros; apply tri_put_dp.
  - intros b _. apply (tri_bind0 _ _ _ any (kept (po_ns o) (to_dp (po_dp o)))).
    + destruct b; cbn [CopiesProofs.kept]; [apply tri_ret; [exact I|auto]|]. unfold put_rand. apply idle_then; [os|]. intros. apply tri_put_dp.
    + intros [|] _; (apply tri_ret; [exact I|]); cbn [CopiesProofs.kept status]; auto.
Qed.
Lemma idle_query_http addrs o : qo_drain o = false -> idle (query_http E addrs (Some o)).
Proof. intros Hd. unfold query_http. rewrite Hd. unfold best_fit_accurate, best_fit_fast, get_dps. os. Qed.

Lemma tri_job j : job_counts j -> nothing_drained j -> tri (run_job E j) (members f (job_in j)) any (fun d => members f (job_out d)).
Proof.
  intros Hj Hn. destruct j as [a q|addrs [o|]|addrs [o|]|c stop n]; cbn [run_job job_in]; try contradiction.
  - eapply tri_bind0; [apply tri_serve|].
    + destruct q; try exact I; [exact Hj|exact Hn].
    + intros x _. apply tri_ret; [exact I|auto].
  - change [(po_ns o, to_dp (po_dp o))] with (tag (po_ns o) [to_dp (po_dp o)]). rewrite members_tag. eapply tri_bind0; [apply tri_put_http|].
    intros r _. apply tri_ret; [exact I|]. cbn [job_out]. destruct (_ =? _)%Z; auto.
    change [(po_ns o, to_dp (po_dp o))] with (tag (po_ns o) [to_dp (po_dp o)]). rewrite members_tag. auto.
  - apply tri_ret; [exact I|]. change (members f []) with 0. lia.
  - eapply tri_bind0; [apply idle_query_http; exact Hn|]. intros [r ds] _. apply tri_ret; [exact I|]. cbv [none]. lia.
  - apply tri_ret; [exact I|]. change (members f []) with 0. lia.
Qed.

(* ---- together ---- *)
Definition owed (d : done N) (m : nat) : Prop := m <= members f (job_out d).
Definition left {R} (T : tags) (Q : R -> nat -> Prop) (l : list (proc' R)) (ns : list nat) : Prop := Forall2 (fun p n => owes T p n Q) l ns.
Lemma left_set {R} (T : tags) (Q : R -> nat -> Prop) : forall (l : list (proc' R)) ns i p, left T Q l ns -> nth_error l i = Some p ->
  exists n rest, owes T p n Q /\ list_sum ns = n + rest /\ forall T' p' n', tags_le T T' -> owes T' p' n' Q -> exists ns', left T' Q (list_set l i p') ns' /\ list_sum ns' = n' + rest.
Proof.
  intros l ns i p H. revert i. induction H as [|q n l ns Hq Hl IH]; intros [|i] Hp; cbn [nth_error] in Hp; try discriminate.
  - inversion Hp; subst. exists n, (list_sum ns). splits; auto. intros T' p' n' HT Hp'. exists (n' :: ns). split; auto. cbn [list_set]. constructor; auto.
    clear - HT Hl. unfold left. induction Hl; constructor; auto. eapply owes_more; eauto.
  - destruct (IH _ Hp) as (k & rest & H1 & H2 & H3). exists k, (n + rest). splits; auto; [cbn [list_sum fold_right] in *; fold (list_sum ns) in *; lia|].
    intros T' p' n' HT Hp'. destruct (H3 T' p' n' HT Hp') as (ns' & H4 & H5). exists (n :: ns'). split; [cbn [list_set]; constructor; auto; eapply owes_more; eauto|].
    cbn [list_sum fold_right]. fold (list_sum ns'). lia.
Qed.
Lemma interleave_owes sched : forall (l : list (proc World (@lock) (done N))) w t l' w' t' ns, left (tagged w) owed l ns -> CInv w ->
  interleave DIdle sched l w t = Ok ((l', w'), t') ->
  CInv w' /\ exists ns', left (tagged w') owed l' ns' /\ wt w + list_sum ns <= wt w' + list_sum ns'.
Proof.
  induction sched as [|i sched IH]; intros l w t l' w' t' ns Hl Hw; cbn [interleave].
  - unfold ret. intros H. inversion H; subst. splits; auto. exists ns. auto.
  - unfold bind at 1. destruct (step1 DIdle l i w t) as [[[l1 w1] t1]| |] eqn:Hs; try discriminate. intros H.
    assert (H1 : CInv w1 /\ exists ns1, left (tagged w1) owed l1 ns1 /\ wt w + list_sum ns <= wt w1 + list_sum ns1).
    { unfold step1 in Hs. destruct (nth_error l i) as [p|] eqn:Hp; [|inversion Hs; subst; splits; auto; exists ns; auto].
      destruct (left_set _ _ _ _ _ _ Hl Hp) as (n & rest & Hk & Hsum & Hset).
      destruct p as [r|A o g k|q k].
      - inversion Hs; subst. splits; auto. exists ns. auto.
      - unfold bind in Hs. destruct (g w t) as [[[x w2] t2]| |] eqn:Hf; try discriminate. unfold ret in Hs. inversion Hs; subst.
        cbn [owes] in Hk. destruct (Hk w t x w1 t1 Hw) as (K1 & K2 & n' & K4 & K5); auto; [intros b p m Hb; exact Hb|].
        splits; auto. destruct (Hset _ _ _ K2 K5) as (ns' & S1 & S2). exists ns'. split; auto. lia.
      - inversion Hs; subst. destruct Hk as (n1 & n2 & Hn & Hq & Hk). splits; auto.
        destruct (Hset (tagged w1) k n2) as (ns' & S1 & S2); auto; [intros b p m Hb; exact Hb|]. exists (ns' ++ [n1]). split.
        + apply Forall2_app; auto. constructor; [|constructor]. eapply owes_bind; [exact Hq|]. intros r m T' _ Hm. cbn [owes]. unfold owed. cbn beta in Hm. lia.
        + rewrite sum_app. cbn [list_sum fold_right]. lia. }
    destruct H1 as (H1 & ns1 & H3 & H4). destruct (IH _ _ _ _ _ _ _ H3 H1 H) as (H5 & ns' & H7 & H8). split; auto. exists ns'. split; auto. lia.
Qed.
End Losses.

Lemma ended_owed {N : Num} f T (l : list (proc' N (done N))) : Forall is_ret l -> forall ns, left f T (owed f) l ns -> list_sum ns <= members f (jobs_out (ended l)).
Proof.
  unfold ended, jobs_out. induction l as [|p l IH]; intros Hr ns H; inversion H as [|? n ? ns' Hp Hl]; subst; [cbn; lia|]. inversion Hr as [|? ? Hr1 Hr2]; subst.
  cbn [map concat list_sum fold_right]. fold (list_sum ns').
  specialize (IH Hr2 _ Hl). rewrite map_app, concat_app, members_app. destruct p; try contradiction. cbn [map concat] in *.
  cbn [owes] in Hp. unfold owed in Hp. rewrite app_nil_r. lia.
Qed.

Theorem nothing_lost (N : Num) (E : Env N) : EnvOk E -> forall f jobs sched t (w : World N) l w' t', lives E f -> WorldOk w -> OwnDims any_dim w ->
  Forall job_counts jobs -> Forall nothing_drained jobs ->
  interleave DIdle sched (map (run_job E) jobs) w t = Ok ((l, w'), t') -> Forall is_ret l ->
  members f (all_data w) + members f (w_dropped w) + members f (jobs_in jobs) <=
  members f (all_data w') + members f (w_dropped w') + members f (jobs_out (ended l)).
Proof.
  intros HE f jobs sched t w l w' t' HL (Hn & Hw) HD Hj Hd H Hret.
  assert (Hi : CInv w).
  { apply Forall_forall. intros [a nd] Hi. cbn [snd]. destruct (Hw _ _ Hi) as (H1 & H2). split.
    - apply Forall_forall. intros [ns m] Hm. cbn [fst snd]. eapply HD; eauto.
    - intros ns p Hp. apply H2. apply assoc_in. exact Hp. }
  assert (Hh : exists ns, left f (tagged w) (owed f) (map (run_job E) jobs) ns /\ list_sum ns = members f (jobs_in jobs)).
  { clear H. unfold jobs_in. induction Hj as [|j jobs Hj Hjs IH]; [exists []; split; [constructor|reflexivity]|]. inversion Hd as [|? ? Hd1 Hd2]; subst.
    destruct (IH Hd2) as (ns & H1 & H2).
    exists (members f (job_in j) :: ns). cbn [map concat list_sum fold_right]. fold (list_sum ns). rewrite members_app, H2. split; auto. constructor; auto.
    pose proof (tri_job E HE f HL j Hj Hd1 (tagged w) 0) as Ht. rewrite Nat.add_0_r in Ht. eapply owes_weak; [exact Ht|lia|]. intros d m m' (_ & Hm) Hl. unfold owed. lia. }
  destruct Hh as (ns & H1 & H2). destruct (interleave_owes f sched _ _ _ _ _ _ _ H1 Hi H) as (H3 & ns' & H5 & H6).
  apply ended_owed in H5; auto. unfold CopiesProofs.wt in H6. lia.
Qed.
