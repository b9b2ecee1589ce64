(* What is handed out or stored anew was found unexpired: an invariant of all processes. *)
From Verif Require Import Base Num MathUtils Env Centroid CManager DataSpec MgrSpec Proc Server ServerSpec Wp Owns ServerFacts Core EventLoop CoreSpec
  ThreshProofs OriginMgr OriginSpec OriginProofs ExpiryMgr ExpiryTime ExpirySpec.

Section Expiry.
Context {N : Num} (E : Env N) (T T' : nat).
Notation DP := (DataPoint N).
Notation Cen := (Centroid N).
Notation World := (World N).
Notation proc' := (proc' N).
Notation live := (live E T T').
Notation within := (within T T').
(* P holds of what may be stored, C of what may be on its way. *)
Context (P C : str -> DP -> Prop) (PC : forall ns d, P ns d -> C ns d) (CP : forall ns d, C ns d -> live d -> P ns d).
Definition good (ns : str) (d : DP) : Prop := C ns d /\ live d.

Definition NInv (nd : Node N) : Prop :=
  Forall (fun s => okm (P (fst s)) (snd s)) (nd_heap nd) /\
  forall ns p, assoc ns (nd_tbl nd) = Some p -> exists m, nth_error (nd_heap nd) p = Some (ns, m).
Definition OInv (w : World) : Prop :=
  Forall (fun e => NInv (snd e)) (w_nodes w).

Fixpoint safe {R} (K : tags) (p : proc' R) (Q : R -> Prop) : Prop :=
  match p with
  | Ret r => Q r
  | Act _ f k => forall w t x w' t', T <= t -> t' <= T' -> OInv w -> tags_le K (tagged w) -> f w t = Ok ((x, w'), t') ->
      OInv w' /\ tags_le (tagged w) (tagged w') /\ safe (tagged w') (k x) Q
  | Fork q k => safe K q (fun _ => True) /\ safe K k Q
  end.
Definition steady {R} (p : proc' R) (Q : R -> Prop) : Prop := forall K, safe K p Q.

Lemma safe_more {R} (p : proc' R) : forall K K' (Q : R -> Prop), tags_le K K' -> safe K p Q -> safe K' p Q.
Proof.
  induction p as [R r|R A o f k IH|R q IHq k IHk]; intros K K' Q HK; cbn [safe]; auto.
  - intros H w t x w' t' T1 T2 Hw Ht. apply H; auto. eapply le_trans; eauto.
  - intros (H1 & H2). split; eauto.
Qed.
Lemma safe_weak {R} (p : proc' R) : forall K (Q Q' : R -> Prop), safe K p Q -> (forall r, Q r -> Q' r) -> safe K p Q'.
Proof.
  induction p as [R r|R A o f k IH|R q IHq k IHk]; intros K Q Q' H HQ; cbn [safe] in *; auto.
  - intros w t x w' t' T1 T2 Hw Ht Hf. destruct (H _ _ _ _ _ T1 T2 Hw Ht Hf) as (H1 & H2 & H3). eauto.
  - destruct H. split; eauto.
Qed.
Lemma safe_bind {R S} (p : proc' R) : forall K (f : R -> proc' S) (Q : R -> Prop) Q', safe K p Q -> (forall r K', tags_le K K' -> Q r -> safe K' (f r) Q') ->
  safe K (pbind p f) Q'.
Proof.
  revert S. induction p as [R r|R A o g k IH|R q IHq k IHk]; intros S K f Q Q' Hp Hf; cbn [pbind safe] in *.
  - apply Hf; auto. intros a p ns H; exact H.
  - intros w t x w' t' T1 T2 Hw Ht He. destruct (Hp _ _ _ _ _ T1 T2 Hw Ht He) as (H1 & H2 & H3). splits; auto. eapply IH; [exact H3|].
    intros r K' HK Hr. apply Hf; auto. eapply le_trans; [|exact HK]. eapply le_trans; eauto.
  - destruct Hp as (H1 & H2). split; auto. eapply IHk; eauto.
Qed.
Lemma steady_bind {R S} (p : proc' R) (f : R -> proc' S) Q Q' : steady p Q -> (forall r, Q r -> steady (f r) Q') -> steady (pbind p f) Q'.
Proof. intros Hp Hf K. eapply safe_bind; [apply Hp|]. intros r K' _ Hr. apply Hf; auto. Qed.
Lemma steady_then {R S} (p : proc' R) (f : R -> proc' S) Q Q' : steady p Q -> (forall r, steady (f r) Q') -> steady (pbind p f) Q'.
Proof. intros Hp Hf. eapply steady_bind; eauto. Qed.
Lemma steady_weak {R} (p : proc' R) (Q Q' : R -> Prop) : steady p Q -> (forall r, Q r -> Q' r) -> steady p Q'.
Proof. intros Hp HQ K. eapply safe_weak; eauto. Qed.
Lemma steady_ret {R} (r : R) (Q : R -> Prop) : Q r -> steady (Ret r) Q.
Proof. intros H K. exact H. Qed.

(* An action that leaves the world alone. *)
Lemma steady_same {A} o (f : World -> M (A * World)) (Q : A -> Prop) :
  (forall w t x w' t', T <= t -> t' <= T' -> OInv w -> f w t = Ok ((x, w'), t') -> w' = w /\ Q x) -> steady (Act o f Ret) Q.
Proof.
  intros H K w t x w' t' T1 T2 Hw Ht He. destruct (H _ _ _ _ _ T1 T2 Hw He) as (-> & Hx). splits; auto. intros a p ns Hp; exact Hp.
Qed.
Lemma steady_local {A} (m : M A) (Q : A -> Prop) : gives m Q -> steady (local m : proc' A) Q.
Proof.
  intros H. apply steady_same. intros w t x w' t' T1 T2 _. unfold bind, ret. destruct (m t) as [[y t1]| |] eqn:He; try discriminate.
  intros Hx. inversion Hx; subst. split; auto. eapply H; eauto.
Qed.
Lemma steady_drop ns ds : steady (drop_dps ns ds : proc' unit) (fun _ => True).
Proof.
  intros K w t x w' t' _ _ H1 Ht He. inversion He; subst. splits; [exact H1|intros a p n Hp; exact Hp|exact I].
Qed.
Lemma steady_namespaces a : steady (h_namespaces E a : proc' _) (fun _ => True).
Proof.
  apply steady_same. intros w t x w' t' T1 T2 _. destruct (assoc a (w_nodes w)).
  - unfold bind. destruct (any_order E _ t) as [[y t1]| |]; try discriminate. intros H. inversion H; auto.
  - intros H. inversion H; auto.
Qed.
Lemma steady_rpc {A} a (h : proc' A) (Q : A -> Prop) : steady h Q -> steady (rpc E a h) (fun o => match o with Some x => Q x | None => True end).
Proof.
  intros Hh. unfold rpc. eapply steady_then; [apply (steady_same None _ (fun _ => True)); intros w t x w' t' _ _ _ H; inversion H; auto|].
  intros [| |].
  - eapply steady_bind; [exact Hh|]. intros x Hx. apply steady_ret. exact Hx.
  - apply steady_ret. exact I.
  - intros K. cbn [safe]. split; auto. eapply safe_bind; [apply Hh|]. intros; exact I.
Qed.

Lemma set_inv' (w : World) a nd : OInv w -> NInv nd -> OInv (set_node w a nd).
Proof.
  intros H1 Hn. unfold OInv. cbn [set_node w_nodes]. apply upsert_forall; auto.
Qed.
Lemma node_inv (w : World) a nd : OInv w -> assoc a (w_nodes w) = Some nd -> NInv nd.
Proof.
  intros H1 Ha. apply assoc_In in Ha. destruct Ha as (k & Hk). unfold OInv in H1. rewrite Forall_forall in H1. exact (H1 _ Hk).
Qed.
(* What an access must do for the datapoints of the namespace. *)
Definition mgr_ok {A} ns (f : CM N -> M (A * CM N)) (Q : A -> Prop) : Prop :=
  forall m, okm (P ns) m -> within (f m) (fun r => Q (fst r) /\ okm (P ns) (snd r)).

Lemma safe_slot {A} (K : tags) a p ns (f : CM N -> M (A * CM N)) g Q : K a p ns -> mgr_ok ns f Q -> safe K (slot_access a p f g) Q.
Proof.
  intros Hk Hf. cbn [slot_access safe]. intros w t x w' t' T1 T2 Hw Ht. destruct (Ht _ _ _ Hk) as (nd & m & Ha & Hp). rewrite Ha, Hp. unfold bind.
  destruct (f m t) as [[[y m'] t1]| |] eqn:He; try discriminate. unfold ret. intros H. inversion H; subst. clear H.
  pose proof (node_inv _ _ _ Hw Ha) as (N1 & N2).
  assert (Hm : okm (P ns) m) by (rewrite Forall_forall in N1; exact (N1 _ (nth_error_In _ _ Hp))).
  destruct (Hf _ Hm _ _ _ T1 T2 He) as (H1 & H2). cbn [fst snd] in *.
  assert (Hh : forall q n mm, nth_error (nd_heap nd) q = Some (n, mm) -> exists m2, nth_error (list_set (nd_heap nd) p (ns, m')) q = Some (n, m2)).
  { intros q n mm Hq. destruct (Nat.eq_dec p q) as [->|Hne].
    - exists m'. rewrite Hp in Hq. inversion Hq; subst. eapply set_nth_same; eauto.
    - exists mm. rewrite set_nth_other; auto. }
  splits; auto.
  - apply set_inv'; auto. split; cbn [nd_heap nd_tbl].
    + apply forall_set; auto.
    + intros n q Hq. destruct (N2 _ _ Hq) as (mm & Hmm). eauto.
  - apply (tagged_set w a nd (MkNode (list_set (nd_heap nd) p (ns, m')) (nd_tbl nd) (nd_thresh nd)) Ha). exact Hh.
Qed.
Lemma steady_access_g {A} a ns (f : CM N -> M (A * CM N)) g Q : mgr_ok ns f Q -> steady (access_g a ns f g) (opt Q).
Proof.
  intros Hf K. unfold access_g, lookup. cbn [pbind safe]. intros w t x w' t' T1 T2 Hw Ht H. inversion H; subst. clear H.
  splits; auto; [intros b p n Hp; exact Hp|]. destruct (assoc a (w_nodes w')) as [nd|] eqn:Ha; [|exact I].
  destruct (assoc ns (nd_tbl nd)) as [p|] eqn:Hp; [|exact I].
  pose proof (node_inv _ _ _ Hw Ha) as (_ & N2). destruct (N2 _ _ Hp) as (m & Hm).
  eapply safe_bind; [eapply safe_slot; [|exact Hf]; exists nd, m; auto|]. intros r K' _ Hr. exact Hr.
Qed.
Lemma steady_access {A} a ns (f : CM N -> M (A * CM N)) (Q : A -> Prop) : mgr_ok ns f Q -> steady (access a ns f) (opt Q).
Proof.
  intros Hf. apply steady_access_g. exact Hf.
Qed.
Lemma steady_access_unit a ns (f : CM N -> M (CM N)) : (forall m, okm (P ns) m -> gives (f m) (okm (P ns))) ->
  steady (access a ns (fun m => do m' <- f m; ret (tt, m'))) (opt (fun _ => True)).
Proof.
  intros Hf. apply steady_access. intros m Hm. apply within_gives. eapply gives_bind; [apply Hf; auto|]. intros m' Hm'. apply gives_ret. auto.
Qed.

Lemma steady_factory a v : steady (factory a v : proc' (CM N)) (fun m => cm_cs m = []).
Proof.
  apply steady_same. intros w t x w' t' T1 T2 _. destruct (assoc a (w_nodes w)); [|discriminate]. intros H. inversion H; subst. auto.
Qed.
Lemma steady_first_add ns m d : okm (P ns) m -> C ns d -> steady (first_add E ns m d) (okm (P ns)).
Proof.
  intros Hm Hd K w t x w' t' T1 T2 Hw Ht. unfold bind. destruct (cm_add E m d t) as [[[ok m1] t1]| |] eqn:He; try discriminate.
  unfold ret. intros H. inversion H; subst. apply (add_m_live E T T' (P ns)) in He; auto. splits; [exact Hw|intros a p n Hp; exact Hp|exact He].
Qed.
Lemma steady_add_slot a ns m : okm (P ns) m -> steady (add_slot a ns m : proc' unit) (fun _ => True).
Proof.
  intros Hm K. cbn [add_slot safe]. intros w t x w' t' T1 T2 Hw Ht. destruct (assoc a (w_nodes w)) as [nd|] eqn:Ha; try discriminate.
  intros H. inversion H; subst. clear H. pose proof (node_inv _ _ _ Hw Ha) as (N1 & N2).
  assert (Hh : forall q n mm, nth_error (nd_heap nd) q = Some (n, mm) -> exists m2, nth_error (nd_heap nd ++ [(ns, m)]) q = Some (n, m2)).
  { intros q n mm Hq. exists mm. rewrite nth_error_app1; auto. apply nth_error_Some. congruence. }
  splits; auto.
  - apply set_inv'; auto. split; cbn [nd_heap nd_tbl].
    + apply Forall_app. auto.
    + intros n q. destruct (str_eqb n ns) eqn:Hn.
      * apply str_eqb_eq in Hn. subst n. rewrite assoc_upsert_same. intros H. inversion H; subst. exists m.
        rewrite nth_error_app2, Nat.sub_diag; auto.
      * rewrite assoc_upsert_other; [|intros ->; rewrite str_eqb_refl in Hn; discriminate]. intros Hq. destruct (N2 _ _ Hq) as (mm & Hmm). eauto.
  - apply (tagged_set w a nd (MkNode (nd_heap nd ++ [(ns, m)]) (upsert ns (length (nd_heap nd)) (nd_tbl nd)) (nd_thresh nd)) Ha). exact Hh.
Qed.

(* ---- handlers ---- *)
Lemma opt_any {A} (p : proc' (option A)) Q : steady p (opt Q) -> steady p any.
Proof. intros H. eapply steady_weak; [exact H|]. intros; exact I. Qed.

Lemma steady_h_vec a ns : steady (h_vec a ns : proc' _) any.
Proof. apply (opt_any _ any). apply steady_access. intros m Hm. apply within_ret. split; [exact I|exact Hm]. Qed.
Lemma add_ok' ns d : C ns d -> mgr_ok ns (fun m => cm_add E m d) any.
Proof.
  intros Hd m Hm. eapply within_weak; [apply (add_m_live E T T' (P ns)); auto|]. intros r H. split; [exact I|exact H].
Qed.
Lemma steady_h_add a ns d : C ns d -> steady (h_add E a ns d) any.
Proof.
  intros Hd. unfold h_add. eapply steady_then; [apply steady_access_g, add_ok'; auto|]. intros [b|]; [apply steady_ret; exact I|].
  eapply steady_bind; [apply steady_factory|]. intros m Hm. eapply steady_bind; [apply steady_first_add; auto; unfold okm; rewrite Hm; constructor|].
  intros m' Hm'. eapply steady_then; [apply steady_add_slot; auto|]. intros. apply steady_ret. exact I.
Qed.
Lemma good_both ns l : Forall (P ns) l -> Forall live l -> Forall (good ns) l.
Proof. intros H1 H2. rewrite Forall_forall in *. intros d Hd. split; auto. Qed.
Lemma good_live ns l : Forall (good ns) l -> Forall live l.
Proof. apply Forall_impl. intros d (_ & H). exact H. Qed.
Lemma good_c ns l : Forall (good ns) l -> Forall (C ns) l.
Proof. apply Forall_impl. intros d (H & _). exact H. Qed.
Lemma steady_h_drain_u a ns n : steady (h_drain_unordered E a ns n) (opt (Forall (good ns))).
Proof.
  apply steady_access. intros m Hm. eapply within_weak; [apply within_both; [apply (drain_um_origin E (P ns)); auto|apply drain_um_live]|]. intros r ((H1 & H2) & H3). split; auto. apply good_both; auto.
Qed.
Lemma steady_h_drain_o a ns n : steady (h_drain_ordered E a ns n) (opt (Forall (good ns))).
Proof.
  apply steady_access. intros m Hm. eapply within_weak; [apply within_both; [apply (drain_om_origin E (P ns)); auto|apply drain_om_live]|]. intros r ((H1 & H2) & H3). split; auto. apply good_both; auto.
Qed.
Lemma steady_h_expire a ns : steady (h_expire E a ns) any.
Proof. eapply opt_any. apply steady_access_unit. intros. apply expire_m_origin; auto. Qed.
Lemma steady_h_len a ns : steady (h_len_dp a ns : proc' _) any.
Proof. apply (opt_any _ any). apply steady_access. intros m Hm. apply within_ret. split; [exact I|exact Hm]. Qed.
Lemma steady_h_mem_trim a ns : steady (h_mem_trim E a ns) any.
Proof. eapply opt_any. apply steady_access_unit. intros. apply trim_m_origin; auto. Qed.
Lemma steady_h_move a ns : steady (h_move_vector E a ns) any.
Proof. apply (opt_any _ any). apply steady_access. intros m Hm. apply within_gives. eapply gives_weak; [apply (move_m_origin E (P ns)); auto|]. intros r H. split; [exact I|exact H]. Qed.
Lemma steady_h_internal a ns n : steady (h_distribute_internal E a ns n) any.
Proof. eapply opt_any. apply steady_access_unit. intros. apply internal_origin; auto. Qed.
Lemma steady_h_lookup a ns v k d : steady (h_knn_lookup E a ns v k d) (opt (Forall (good ns))).
Proof.
  apply steady_access. intros m Hm. eapply within_weak; [apply within_both; [apply (lookup_origin E (P ns)); auto|apply lookup_live]|]. intros r ((H1 & H2) & H3). split; auto. apply good_both; auto.
Qed.
Lemma steady_h_nearest a ns v n d : steady (h_nearest E a ns v n d) (opt (Forall (okc (P ns)))).
Proof.
  apply steady_access. intros m Hm. apply within_gives. eapply gives_bind; [apply nearest_origin; exact Hm|]. intros [[cs|] m'] (H1 & H2); apply gives_ret; cbn [fst snd] in *; auto.
Qed.
Lemma steady_h_nearest_vec a ns v : steady (h_nearest_vec E a ns v) any.
Proof.
  apply (opt_any _ any). apply steady_access. intros m Hm. apply within_gives. eapply gives_bind; [apply nearest_origin; exact Hm|]. intros [o m'] (H1 & H2). apply gives_ret.
  split; [exact I|exact H2].
Qed.
Lemma steady_h_split a ns lo hi : steady (h_split E a ns lo hi) any.
Proof. eapply opt_any. apply steady_access_unit. intros. apply split_m_origin; auto. Qed.
Lemma steady_h_merge a ns lo hi : steady (h_merge E a ns lo hi) any.
Proof. eapply opt_any. apply steady_access_unit. intros. apply merge_m_origin; auto. Qed.

Create HintDb steady.
Hint Resolve steady_namespaces steady_h_vec steady_h_add steady_h_expire steady_h_len steady_h_mem_trim steady_h_move steady_h_internal
  steady_h_nearest_vec steady_h_split steady_h_merge : steady.
Lemma any_bind {R S} (p : proc' R) (f : R -> proc' S) : steady p any -> (forall r, steady (f r) any) -> steady (pbind p f) any.
Proof. apply steady_then. Qed.
Lemma any_ret {R} (r : R) : steady (Ret r) any. Proof. apply steady_ret. exact I. Qed.
Lemma any_local {A} (m : M A) : steady (local m : proc' A) any. Proof. apply steady_local. intros t x t' _. exact I. Qed.
Lemma any_rpc {A} a (h : proc' A) Q : steady h Q -> steady (rpc E a h) any.
Proof. intros H. eapply opt_any. apply steady_rpc. exact H. Qed.
Lemma any_weak {R} (p : proc' R) Q : steady p Q -> steady p any.
Proof. intros H. eapply steady_weak; [exact H|]. intros; exact I. Qed.
Hint Resolve any_ret any_local : steady.
Ltac os :=
  repeat first
    [ progress cbn beta
    | solve [auto with steady]
    | match goal with
      | |- forall _, _ => intro
      | |- steady (match ?x with _ => _ end) _ => destruct x
      | |- steady (let (_, _) := ?x in _) _ => destruct x
      | |- steady (pbind _ _) any => apply any_bind
      | |- steady (rpc _ _ _) any => apply (any_rpc _ _ any)
      end ].

Lemma steady_meta_loop a nss : steady (meta_loop a nss : proc' _) any.
Proof.
  induction nss as [|ns nss IH]; cbn [meta_loop]; [os|]. apply any_bind; [|os]. apply (opt_any _ any). apply steady_access. intros m Hm. apply within_ret. split; [exact I|exact Hm].
Qed.
Hint Resolve steady_meta_loop : steady.
Lemma steady_h_meta a : steady (h_meta E a) any. Proof. unfold h_meta. os. Qed.
Hint Resolve steady_h_meta : steady.

(* ---- clients ---- *)
Lemma steady_c_namespaces a : steady (c_namespaces E a) any. Proof. unfold c_namespaces. os. Qed.
Lemma steady_c_vec_of a ns : steady (c_vec_of E a ns) any. Proof. unfold c_vec_of. os. Qed.
Lemma steady_c_add_dp a ns d : C ns d -> steady (c_add_dp E a ns d) any. Proof. intros H. unfold c_add_dp. os. Qed.
Lemma steady_c_expire a ns : steady (c_expire_of E a ns) any. Proof. unfold c_expire_of. os. Qed.
Lemma steady_c_mem_trim a ns : steady (c_mem_trim_of E a ns) any. Proof. unfold c_mem_trim_of. os. Qed.
Lemma steady_c_di a ns n : steady (c_distribute_internal E a ns n) any. Proof. unfold c_distribute_internal. os. Qed.
Lemma steady_c_split a ns lo hi : steady (c_split E a ns lo hi) any. Proof. unfold c_split. os. Qed.
Lemma steady_c_merge a ns lo hi : steady (c_merge E a ns lo hi) any. Proof. unfold c_merge. os. Qed.
Lemma steady_c_len a ns : steady (c_len_dp E a ns) any. Proof. unfold c_len_dp. os. Qed.
Lemma steady_c_nearest_vec a ns v : steady (c_nearest_vec E a ns v) any. Proof. unfold c_nearest_vec. os. Qed.
Lemma steady_c_meta a : steady (c_meta E a) any. Proof. unfold c_meta. os. Qed.
Hint Resolve steady_c_namespaces steady_c_vec_of steady_c_add_dp steady_c_expire steady_c_mem_trim steady_c_di steady_c_split steady_c_merge steady_c_len
  steady_c_nearest_vec steady_c_meta : steady.

Lemma steady_c_lookup a ns v k d : steady (c_lookup E a ns v k d) (Forall (good ns)).
Proof.
  unfold c_lookup. destruct (_ <? _)%Z; [apply steady_local; apply gives_panic|]. eapply steady_bind; [apply steady_rpc, steady_h_lookup|].
  intros [[l|]|] H; apply steady_ret; cbn [join]; auto.
Qed.
Lemma drop_empty_ok ns : forall n (cs : list Cen), (length cs <= n)%nat -> Forall (okc (P ns)) cs -> Forall (okc (P ns)) (drop_empty cs).
Proof.
  induction n; intros cs Hn H; (destruct cs as [|c cs]; cbn [drop_empty]; auto); [cbn [length] in Hn; lia|]. inversion H; subst. cbn [length] in Hn.
  destruct (_ =? _); [|constructor; auto; apply IHn; auto; lia]. destruct cs as [|c' cs]; auto. inversion H3; subst. constructor; auto. apply IHn; auto. cbn [length] in Hn. lia.
Qed.
Lemma reinit_origin ns : forall cs, Forall (okc (P ns)) cs -> gives (reinit E cs) (Forall (okc (P ns))).
Proof.
  induction cs as [|c cs IH]; intros H; cbn [reinit]; [apply gives_ret; auto|]. inversion H; subst. apply gives_then. intros d.
  eapply gives_bind; [apply (move_c_origin E (P ns)); exact H2|]. intros [b c'] Hc. eapply gives_bind; [apply IH; auto|]. intros r Hr. apply gives_ret. auto.
Qed.
Lemma steady_c_nearest a ns v n d : steady (c_nearest E a ns v n d) (fun r => opt (Forall (okc (P ns))) (fst r)).
Proof.
  unfold c_nearest. eapply steady_bind; [apply steady_rpc, steady_h_nearest|]. intros r Hr.
  eapply steady_bind; [apply (steady_local _ (opt (Forall (okc (P ns)))))|].
  - assert (Hl : Forall (okc (P ns)) (match join r with Some l => l | None => [] end)) by (destruct r as [[l|]|]; cbn [join]; auto).
    revert Hl. generalize (match join r with Some l => l | None => [] end). intros l Hl. unfold post_nearest. destruct l as [|c l]; [apply gives_ret; exact I|].
    eapply gives_bind; [apply reinit_origin; eapply drop_empty_ok; eauto|]. intros cs Hcs. apply gives_ret. exact Hcs.
  - intros cs Hcs. apply steady_ret. exact Hcs.
Qed.

(* ---- handlers that call other nodes ---- *)
Lemma steady_fetch_each f addrs : (forall b, steady (f b) any) -> steady (fetch_each f addrs : proc' (list (str * vec N))) any.
Proof. intros Hf. induction addrs; cbn [fetch_each]; os. Qed.
Hint Resolve steady_fetch_each : steady.
Lemma steady_fetch_vecs f addrs : (forall b, steady (f b) any) -> steady (fetch_vecs E f addrs) any.
Proof. intros Hf. unfold fetch_vecs. os. Qed.
Lemma steady_try_add addrs idx ns d : C ns d -> steady (try_add E addrs idx ns d) any.
Proof. intros Hd. induction idx; cbn [try_add]; os. Qed.
Hint Resolve steady_fetch_vecs steady_try_add : steady.
Lemma steady_distribute_dp d rsl ns : C ns d -> steady (distribute_dp E d rsl ns) any.
Proof. intros Hd. unfold distribute_dp. os. Qed.
Lemma steady_put_back a ns d : C ns d -> steady (put_back_dp E a ns d) any.
Proof.
  intros Hd. unfold put_back_dp. eapply steady_then; [apply steady_access_g, add_ok'; auto|]. intros [b|]; [os|].
  apply (any_weak _ (fun _ => True)). apply steady_drop.
Qed.
Hint Resolve steady_distribute_dp steady_put_back : steady.
Lemma steady_fast_loop a ns rsl ds : Forall (C ns) ds -> steady (distribute_fast_loop E a ns rsl ds) any.
Proof. intros H. induction H; cbn [distribute_fast_loop]; os. Qed.
Lemma steady_accurate_loop a ns addrs ds : Forall (C ns) ds -> steady (distribute_accurate_loop E a ns addrs ds) any.
Proof. intros H. induction H; cbn [distribute_accurate_loop]; os. Qed.
Hint Resolve steady_fast_loop steady_accurate_loop : steady.
Lemma steady_distribute_with a ns n addrs loop : (forall ds, Forall (C ns) ds -> steady (loop ds) any) -> steady (distribute_with E a ns n addrs loop) any.
Proof.
  intros Hl. unfold distribute_with. destruct (_ <? _)%Z; [os|]. eapply steady_bind; [apply (steady_access_g _ _ _ _ (Forall (P ns)))|].
  - intros m Hm. apply within_gives. exact (drain_om_origin E (P ns) m n Hm).
  - intros [ds|] H; [|os]. destruct ds as [|d ds]; [os|]. destruct addrs as [|b addrs]; [os|]. apply any_bind; [apply Hl|os].
    eapply Forall_impl; [|exact H]. auto.
Qed.
Lemma steady_h_fast a ns n addrs : steady (h_distribute_fast E a ns n addrs) any.
Proof. apply steady_distribute_with. intros. os. Qed.
Lemma steady_h_accurate a ns n addrs : steady (h_distribute_accurate E a ns n addrs) any.
Proof. apply steady_distribute_with. intros. os. Qed.
Lemma steady_steal_loop fuel a from ns v limit : forall total, steady (steal_loop E fuel a from ns v limit total) any.
Proof.
  induction fuel as [|fuel IH]; intros total; cbn [steal_loop]; (destruct (_ <? _)%Z; [|os]); [os|].
  eapply steady_bind; [apply steady_c_nearest|]. intros [[[|c cs]|] ok] H; [os| |os]. cbn [fst opt] in H.
  eapply steady_then; [apply (steady_access _ _ _ any)|].
  - intros m Hm. apply within_ret. split; [exact I|]. cbn [snd]. unfold okm. cbn [cm_cs]. apply Forall_app. auto.
  - intros r. apply any_bind.
    + destruct r; [os|]. apply any_bind; [|os]. apply (any_weak _ (fun _ => True)). apply steady_drop.
    + intros total'. destruct ok; [apply IH|os].
Qed.
Hint Resolve steady_h_fast steady_h_accurate steady_steal_loop : steady.
Lemma steady_h_steal fuel a from ns limit : steady (h_steal E fuel a from ns limit) any.
Proof.
  unfold h_steal. apply any_bind; [os|]. intros lv. apply any_bind.
  - destruct lv; [os|]. apply any_bind; [os|]. intros [v|]; [|os]. eapply steady_bind; [apply steady_factory|]. intros m Hm.
    eapply steady_then; [apply steady_add_slot; unfold okm; rewrite Hm; constructor|]. os.
  - intros [v|]; [|os]. apply any_bind; [os|]. intros [total ok]. apply any_bind; [apply steady_h_move|os].
Qed.
Hint Resolve steady_h_steal : steady.
Lemma steady_c_fast a ns addrs n : steady (c_distribute_fast E a ns addrs n) any. Proof. unfold c_distribute_fast. os. Qed.
Lemma steady_c_accurate a ns addrs n : steady (c_distribute_accurate E a ns addrs n) any. Proof. unfold c_distribute_accurate. os. Qed.
Lemma steady_c_steal fuel a from ns limit : steady (c_steal E fuel a from ns limit) any. Proof. unfold c_steal. os. Qed.
Hint Resolve steady_c_fast steady_c_accurate steady_c_steal : steady.

Definition req_ok (q : req N) : Prop := match q with QAdd ns d => C ns d | _ => True end.
Definition ans_ok (q : req N) (x : ans N) : Prop := match x with ACens _ => True | _ => Forall live (ans_shows x) end.

Lemma steady_reply {A} (f : A -> ans N) (p : proc' (option A)) (Q : A -> Prop) (Q' : ans N -> Prop) :
  steady p (opt Q) -> Q' (ANsErr) -> (forall x, Q x -> Q' (f x)) -> steady (reply f p) Q'.
Proof. intros Hp H0 H1. unfold reply. eapply steady_bind; [exact Hp|]. intros [x|] Hx; apply steady_ret; auto. Qed.
Lemma opt_of {A} (p : proc' (option A)) : steady p any -> steady p (opt any).
Proof. intros H. eapply steady_weak; [exact H|]. intros [x|] _; exact I. Qed.

Lemma steady_serve a q : req_ok q -> steady (serve E a q) (ans_ok q).
Proof.
  assert (Hq : forall q x, ans_shows x = [] -> ans_ok q x) by (intros q' x Hx; unfold ans_ok; rewrite Hx; destruct x; auto).
  intros Hr. destruct q; cbn [serve];
    try (eapply (steady_reply _ _ any); [apply opt_of; auto with steady|apply Hq; reflexivity|intros; apply Hq; reflexivity]);
    try (eapply steady_then; [apply any_weak with (Q := any); auto with steady|intros; try destruct r; apply steady_ret, Hq; reflexivity]).
  - eapply (steady_reply _ _ (Forall (good ns))); [apply steady_h_drain_u|apply Hq; reflexivity|]. intros x Hx. exact (good_live _ _ Hx).
  - eapply (steady_reply _ _ (Forall (good ns))); [apply steady_h_drain_o|apply Hq; reflexivity|]. intros x Hx. exact (good_live _ _ Hx).
  - eapply (steady_reply _ _ (Forall (good ns))); [apply steady_h_lookup|apply Hq; reflexivity|]. intros x Hx. exact (good_live _ _ Hx).
  - eapply (steady_reply _ _ (Forall (okc (P ns)))); [apply steady_h_nearest|apply Hq; reflexivity|]. intros x Hx. exact I.
Qed.

(* ---- HTTP and the event loop ---- *)
Lemma steady_best_fit s v fetch : steady fetch any -> steady (best_fit s v fetch : proc' (list str)) any.
Proof. intros H. unfold best_fit. os. Qed.
Lemma steady_put_dp addrs ns d : C ns d -> steady (put_dp E addrs ns d) any.
Proof. intros H. induction addrs; cbn [put_dp]; os. Qed.
Lemma steady_get_loop ns v n drain : forall addrs res, Forall (good ns) res -> steady (get_loop E addrs ns v n drain res) (Forall (good ns)).
Proof.
  induction addrs as [|a addrs IH]; intros res Hr; cbn [get_loop]; [apply steady_ret; auto|]. eapply steady_bind; [apply steady_c_lookup|]. intros ds Hd. cbv zeta.
  assert (H : Forall (good ns) (res ++ ds)) by (apply Forall_app; auto). destruct (_ <=? _)%Z; [apply steady_ret; auto|auto].
Qed.
Hint Resolve steady_best_fit steady_put_dp : steady.
Definition body_in' (o : put_opts N) : Prop := C (po_ns o) (to_dp (po_dp o)).
Lemma steady_put_http addrs body : opt body_in' body -> steady (put_http E addrs body) (fun r => http_shows r = []).
Proof.
  intros H. unfold put_http. destruct body as [o|]; [|apply steady_ret; reflexivity]. cbn [opt] in H. unfold body_in' in H. cbv zeta.
  apply (steady_then _ _ any); [|intros r; apply (steady_then _ _ any); [|intros r2; apply steady_ret; reflexivity]].
  - unfold put_accurate, put_fast, best_fit_accurate, best_fit_fast. os.
  - unfold put_rand. os.
Qed.
Definition query_ok (r : http N * list DP) : Prop := Forall live (http_shows (fst r) ++ snd r).
Lemma steady_query_http addrs body : steady (query_http E addrs body) query_ok.
Proof.
  unfold query_http. destruct body as [o|]; [|apply steady_ret; constructor]. apply (steady_then _ _ any).
  - unfold best_fit_accurate, best_fit_fast. os.
  - intros l. destruct (_ <? _)%Z; [apply steady_ret; constructor|]. eapply (steady_bind _ _ (Forall (good (qo_ns o)))).
    + unfold get_dps. destruct (_ <? _)%Z; [apply steady_local, gives_panic|]. apply steady_get_loop. constructor.
    + intros ds Hd. apply good_live in Hd. apply steady_ret. unfold query_ok. cbn [fst snd http_shows]. apply Forall_app. split; auto.
      destruct (marshal (of_dps ds)) as [l'|] eqn:Hm; [|constructor]. rewrite (OriginProofs.wires_back _ _ Hm). exact Hd.
Qed.

Lemma steady_each nss p : (forall ns, steady (p ns) any) -> steady (each nss p : proc' unit) any.
Proof. intros H. induction nss; cbn [each]; os. Qed.
Lemma steady_poll addrs : forall t, steady (poll E addrs t) any.
Proof. induction addrs; intros t; cbn [poll]; os. Qed.
Lemma steady_with_table c p : (forall t, steady (p t) any) -> steady (with_table E c p) any.
Proof. intros H. unfold with_table. apply any_bind; [apply steady_poll|auto]. Qed.
Lemma steady_with_local c p : (forall ns, steady (p ns) any) -> steady (with_local E c p) any.
Proof. intros H. unfold with_local. apply any_bind; [os|]. intros. apply steady_each; auto. Qed.
Lemma steady_go p : steady p any -> steady (go p : proc' unit) any.
Proof. intros H K. cbn [go safe]. split; [apply H|exact I]. Qed.
Lemma steady_fetch_lens addrs ns : steady (fetch_lens E addrs ns) any.
Proof. induction addrs; cbn [fetch_lens]; os. Qed.
Hint Resolve steady_fetch_lens : steady.
Lemma steady_remote_lens addrs ns : steady (remote_lens E addrs ns) any.
Proof. unfold remote_lens. os. Qed.
Lemma steady_balance_loop take c naddrs mean margin : (forall o w, steady (take o w : proc' nat) any) ->
  forall todo lens, steady (balance_loop take c naddrs mean margin todo lens) any.
Proof. intros H. induction todo as [|[o n] todo IH]; intros lens; cbn [balance_loop]; os. Qed.
Lemma steady_balance_ns c t ns : steady (balance_ns E c t ns) any.
Proof.
  unfold balance_ns. apply any_bind; [apply steady_remote_lens|]. intros [|x lens]; [os|].
  apply any_bind; [os|]. intros. apply steady_balance_loop. intros. unfold steal_from. os.
Qed.
Lemma steady_metas addrs : forall items, steady (metas E addrs items) any.
Proof. induction addrs; intros items; cbn [metas]; os. Qed.
Lemma steady_task_body c k : steady (task_body E c k) any.
Proof.
  destruct k; cbn [task_body].
  - apply any_bind; [apply steady_metas|]. os.
  - apply steady_with_local. intros. apply steady_go. auto with steady.
  - apply steady_with_local. intros. apply steady_go. auto with steady.
  - apply steady_with_local. intros. apply steady_go. auto with steady.
  - apply steady_with_local. intros. apply steady_go. auto with steady.
  - apply steady_with_local. intros. apply steady_go. auto with steady.
  - apply steady_with_local. intros. apply steady_with_table. intros. auto with steady.
  - apply steady_with_local. intros. apply steady_with_table. intros. auto with steady.
  - apply steady_with_table. intros. apply any_bind; [os|]. intros. apply steady_each. intros. apply steady_balance_ns.
Qed.
Lemma steady_run_task c iter k : steady (run_task E c iter k) any.
Proof. unfold run_task, with_skip. destruct (_ =? 0)%Z; [os|]. destruct (_ =? 0)%Z; [apply steady_task_body|os]. Qed.
Lemma steady_el_steps rd run l : steady rd any -> (forall k, steady (run k) any) -> steady (el_steps rd run l : proc' unit) any.
Proof. intros H1 H2. unfold el_step. induction l; cbn [el_steps]; unfold el_step; os. Qed.
Lemma steady_el_loop rd run : steady rd any -> (forall i k, steady (run i k) any) -> forall n iter, steady (el_loop rd run n iter : proc' bool) any.
Proof.
  intros H1 H2. induction n; intros iter; cbn [el_loop]; (apply any_bind; [auto|]; intros [|]; [os|]); [os|].
  apply any_bind; [apply steady_el_steps; auto|]. auto.
Qed.
Lemma steady_event_loop c stop n : steady (event_loop E c stop n) any.
Proof. unfold event_loop. apply steady_el_loop; [unfold read_stop; os|]. intros. apply steady_run_task. Qed.

Definition done_ok (d : done N) : Prop := Forall (fun e => live (snd e)) (handed d).
Definition job_ok (j : job N) : Prop := Forall (fun e => C (fst e) (snd e)) (job_in j).
Lemma tag_ok (ns : str) (l : list DP) : Forall live l -> Forall (fun e => live (snd e)) (map (pair ns) l).
Proof. intros H. induction H; cbn [map]; auto. Qed.
Lemma steady_job j : job_ok j -> steady (run_job E j) done_ok.
Proof.
  intros Hj. destruct j as [a q|addrs body|addrs body|c stop n]; cbn [run_job].
  - eapply (steady_bind _ _ (ans_ok q)).
    + apply steady_serve. destruct q; try exact I. unfold job_ok in Hj. cbn in Hj. inversion Hj; subst. exact H1.
    + intros x Hx. apply steady_ret. unfold done_ok, handed, shown, ans_ok in *. destruct x; auto; destruct (req_ns q); apply tag_ok; exact Hx.
  - eapply (steady_bind _ _ (fun r => http_shows r = [])).
    + apply steady_put_http. destruct body as [o|]; [|exact I]. unfold job_ok in Hj. cbn in Hj. inversion Hj; subst. exact H1.
    + intros x Hx. apply steady_ret. unfold done_ok, handed, shown. destruct body; rewrite Hx; constructor.
  - eapply (steady_bind _ _ query_ok); [apply steady_query_http|]. intros [r ds] H. apply steady_ret. unfold done_ok, handed, shown, query_ok in *. cbn [fst snd] in H.
    destruct body; apply tag_ok; exact H.
  - eapply steady_then; [apply steady_event_loop|]. intros r. apply steady_ret. constructor.
Qed.

Lemma interleave_steady {R} (dflt : R) (Q : R -> Prop) : Q dflt -> forall sched (l : list (proc World (@lock) R)) w t l' w',
  Forall (fun p : proc' R => safe (tagged w) p Q) l -> Forall (fun p : proc' R => later p) l -> OInv w -> T <= t -> interleave dflt sched l w t = Ok ((l', w'), T') ->
  OInv w' /\ Forall (fun p : proc' R => safe (tagged w') p Q) l'.
Proof.
  intros Hdf. induction sched as [|i sched IH]; intros l w t l' w' Hl Hs Hw Ht; cbn [interleave].
  - unfold ret. intros H. inversion H; subst. auto.
  - unfold bind at 1. destruct (step1 dflt l i w t) as [[[l1 w1] t1]| |] eqn:Hst; try discriminate. intros H.
    assert (H0 : Forall (fun p : proc' R => later p) l1 /\ t <= t1).
    { unfold step1 in Hst. destruct (nth_error l i) as [p|] eqn:Hp; [|inversion Hst; subst; auto].
      pose proof (nth_error_In _ _ Hp) as Hi. assert (Hk : later p) by (rewrite Forall_forall in Hs; auto).
      destruct p as [r|A o f k|q k].
      - inversion Hst; subst; auto.
      - unfold bind in Hst. destruct (f w t) as [[[x w2] t2]| |] eqn:Hf; try discriminate. unfold ret in Hst. inversion Hst; subst.
        cbn [later] in Hk. destruct Hk as (K1 & K2). split; [apply forall_set; auto|]. eapply K1; eauto.
      - inversion Hst; subst. destruct Hk as (Hq & Hk). split; auto. apply Forall_app. split; [apply forall_set; auto|].
        constructor; auto. apply later_bind; auto. intros; exact I. }
    destruct H0 as (H0 & Htt). pose proof (interleave_later _ _ _ _ _ _ _ _ H0 H) as Hend.
    assert (H1 : Forall (fun p : proc' R => safe (tagged w1) p Q) l1 /\ OInv w1).
    { unfold step1 in Hst. destruct (nth_error l i) as [p|] eqn:Hp; [|inversion Hst; subst; auto].
      pose proof (nth_error_In _ _ Hp) as Hi. assert (Hk : safe (tagged w) p Q) by (rewrite Forall_forall in Hl; auto).
      destruct p as [r|A o f k|q k].
      - inversion Hst; subst; auto.
      - unfold bind in Hst. destruct (f w t) as [[[x w2] t2]| |] eqn:Hf; try discriminate. unfold ret in Hst. inversion Hst; subst.
        cbn [safe] in Hk. destruct (Hk w t x w1 t1 Ht Hend Hw) as (K1 & K2 & K3); auto; [intros b p n Hb; exact Hb|]. split; auto. apply forall_set; auto.
        eapply Forall_impl; [|exact Hl]. intros p Hpp. eapply safe_more; eauto.
      - inversion Hst; subst. destruct Hk as (Hq & Hk). split; auto. apply Forall_app. split; [apply forall_set; auto|].
        constructor; auto. eapply safe_bind; [exact Hq|]. intros; exact Hdf. }
    destruct H1. eapply IH; [| | | |exact H]; auto. lia.
Qed.
End Expiry.

Theorem expired_stays_out (N : Num) (E : Env N) jobs sched t (w : World N) l w' t' : WorldOk w ->
  interleave DIdle sched (map (run_job E) jobs) w t = Ok ((l, w'), t') ->
  (forall x e, In (Ret x) l -> In e (handed x) -> seen_live E t t' (snd e)) /\
  (forall e, In e (all_data w') -> In e (all_data w) \/ (In e (jobs_in jobs) /\ seen_live E t t' (snd e))).
Proof.
  intros (Hn & Hw) H.
  set (C := fun ns d => In (ns, d) (all_data w) \/ In (ns, d) (jobs_in jobs)).
  set (P := fun ns d => In (ns, d) (all_data w) \/ (In (ns, d) (jobs_in jobs) /\ live E t t' d)).
  assert (PC : forall ns d, P ns d -> C ns d) by (intros ns d [HP|(HP & _)]; [left|right]; exact HP).
  assert (CP : forall ns d, C ns d -> live E t t' d -> P ns d) by (intros ns d [HC|HC] HL; [left|right]; auto).
  assert (Hinv : OInv P w).
  { apply Forall_forall. intros [a nd] Hi. cbn [snd]. destruct (Hw _ _ Hi) as (H1 & H2). split.
    - apply Forall_forall. intros [ns m] Hm. cbn [fst snd]. apply okm_stored. apply Forall_forall. intros d Hd. left.
      unfold all_data. apply in_concat. exists (node_data nd). split; [apply in_map_iff; exists (a, nd); auto|]. eapply node_data_in; eauto.
    - intros ns p Hp. apply H2. apply assoc_in. exact Hp. }
  destruct (interleave_steady t t' P DIdle (done_ok E t t')) with (sched := sched) (l := map (run_job E) jobs) (w := w) (t := t) (l' := l) (w' := w')
    as (H1 & H3); auto.
  - constructor.
  - apply Forall_forall. intros p Hp. apply in_map_iff in Hp. destruct Hp as (j & <- & Hj). apply (steady_job E t t' P C PC CP j).
    apply Forall_forall. intros [ns d] Hd. right. cbn [fst snd]. unfold jobs_in. apply in_concat.
    exists (job_in j). split; auto. apply in_map. exact Hj.
  - apply Forall_forall. intros p Hp. apply in_map_iff in Hp. destruct Hp as (j & <- & Hj). apply later_job.
  - split.
    + intros x e Hx He. rewrite Forall_forall in H3. specialize (H3 _ Hx). cbn [safe] in H3. unfold done_ok in H3. rewrite Forall_forall in H3. exact (H3 _ He).
    + intros [ns d] Hd. unfold all_data in Hd. apply in_concat in Hd. destruct Hd as (x & Hx & Hd). apply in_map_iff in Hx. destruct Hx as ([a nd] & <- & Hx).
      unfold OInv in H1. rewrite Forall_forall in H1. destruct (H1 _ Hx) as (K1 & _). cbn [snd] in K1, Hd. unfold node_data in Hd. apply in_concat in Hd.
      destruct Hd as (y & Hy & Hd). apply in_map_iff in Hy. destruct Hy as ([n m] & <- & Hy). rewrite Forall_forall in K1. specialize (K1 _ Hy). cbn [fst snd] in K1, Hd.
      unfold tag in Hd. apply in_map_iff in Hd. destruct Hd as (d' & He & Hd). inversion He; subst. apply okm_stored in K1. rewrite Forall_forall in K1. exact (K1 _ Hd).
Qed.
