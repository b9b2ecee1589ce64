(* Nothing is made up: an invariant of all processes, whatever the network does. *)
From Verif Require Import Base Num MathUtils Env Centroid CManager DataSpec MgrSpec Proc Server ServerSpec Wp Owns ServerFacts Core EventLoop CoreSpec
  ThreshProofs OriginMgr OriginSpec.

Section Origin.
Context {N : Num} (E : Env N) (P : str -> DataPoint N -> Prop).
Notation DP := (DataPoint N).
Notation Cen := (Centroid N).
Notation World := (World N).
Notation proc' := (proc' N).

(* Slot p of node a belongs to namespace ns. *)
Definition tags : Type := str -> nat -> str -> Prop.
Definition tagged (w : World) : tags := fun a p ns =>
  exists nd m, assoc a (w_nodes w) = Some nd /\ nth_error (nd_heap nd) p = Some (ns, m).
Definition tags_le (K K' : tags) : Prop := forall a p ns, K a p ns -> K' a p ns.

Definition NInv (nd : Node N) : Prop :=
  Forall (fun s => okm (P (fst s)) (snd s)) (nd_heap nd) /\
  forall ns p, assoc ns (nd_tbl nd) = Some p -> exists m, nth_error (nd_heap nd) p = Some (ns, m).
Definition OInv (w : World) : Prop :=
  Forall (fun e => NInv (snd e)) (w_nodes w) /\ Forall (fun e => P (fst e) (snd e)) (w_dropped w).

Fixpoint holds {R} (K : tags) (p : proc' R) (Q : R -> Prop) : Prop :=
  match p with
  | Ret r => Q r
  | Act _ f k => forall w t x w' t', OInv w -> tags_le K (tagged w) -> f w t = Ok ((x, w'), t') ->
      OInv w' /\ tags_le (tagged w) (tagged w') /\ holds (tagged w') (k x) Q
  | Fork q k => holds K q (fun _ => True) /\ holds K k Q
  end.
Definition sound {R} (p : proc' R) (Q : R -> Prop) : Prop := forall K, holds K p Q.

Lemma le_trans K1 K2 K3 : tags_le K1 K2 -> tags_le K2 K3 -> tags_le K1 K3.
Proof. unfold tags_le. auto. Qed.
Lemma holds_more {R} (p : proc' R) : forall K K' (Q : R -> Prop), tags_le K K' -> holds K p Q -> holds K' p Q.
Proof.
  induction p as [R r|R A o f k IH|R q IHq k IHk]; intros K K' Q HK; cbn [holds]; auto.
  - intros H w t x w' t' Hw Ht. apply H; auto. eapply le_trans; eauto.
  - intros (H1 & H2). split; eauto.
Qed.
Lemma holds_weak {R} (p : proc' R) : forall K (Q Q' : R -> Prop), holds K p Q -> (forall r, Q r -> Q' r) -> holds K p Q'.
Proof.
  induction p as [R r|R A o f k IH|R q IHq k IHk]; intros K Q Q' H HQ; cbn [holds] in *; auto.
  - intros w t x w' t' Hw Ht Hf. destruct (H _ _ _ _ _ Hw Ht Hf) as (H1 & H2 & H3). eauto.
  - destruct H. split; eauto.
Qed.
Lemma holds_bind {R S} (p : proc' R) : forall K (f : R -> proc' S) (Q : R -> Prop) Q', holds K p Q -> (forall r K', tags_le K K' -> Q r -> holds K' (f r) Q') ->
  holds K (pbind p f) Q'.
Proof.
  revert S. induction p as [R r|R A o g k IH|R q IHq k IHk]; intros S K f Q Q' Hp Hf; cbn [pbind holds] in *.
  - apply Hf; auto. intros a p ns H; exact H.
  - intros w t x w' t' Hw Ht He. destruct (Hp _ _ _ _ _ Hw Ht He) as (H1 & H2 & H3). splits; auto. eapply IH; [exact H3|].
    intros r K' HK Hr. apply Hf; auto. eapply le_trans; [|exact HK]. eapply le_trans; eauto.
  - destruct Hp as (H1 & H2). split; auto. eapply IHk; eauto.
Qed.
Lemma sound_bind {R S} (p : proc' R) (f : R -> proc' S) Q Q' : sound p Q -> (forall r, Q r -> sound (f r) Q') -> sound (pbind p f) Q'.
Proof. intros Hp Hf K. eapply holds_bind; [apply Hp|]. intros r K' _ Hr. apply Hf; auto. Qed.
Lemma sound_then {R S} (p : proc' R) (f : R -> proc' S) Q Q' : sound p Q -> (forall r, sound (f r) Q') -> sound (pbind p f) Q'.
Proof. intros Hp Hf. eapply sound_bind; eauto. Qed.
Lemma sound_weak {R} (p : proc' R) (Q Q' : R -> Prop) : sound p Q -> (forall r, Q r -> Q' r) -> sound p Q'.
Proof. intros Hp HQ K. eapply holds_weak; eauto. Qed.
Lemma sound_ret {R} (r : R) (Q : R -> Prop) : Q r -> sound (Ret r) Q.
Proof. intros H K. exact H. Qed.

(* An action that leaves the world alone. *)
Lemma sound_same {A} o (f : World -> M (A * World)) (Q : A -> Prop) :
  (forall w t x w' t', OInv w -> f w t = Ok ((x, w'), t') -> w' = w /\ Q x) -> sound (Act o f Ret) Q.
Proof.
  intros H K w t x w' t' Hw Ht He. destruct (H _ _ _ _ _ Hw He) as (-> & Hx). splits; auto. intros a p ns Hp; exact Hp.
Qed.
Lemma sound_local {A} (m : M A) (Q : A -> Prop) : gives m Q -> sound (local m : proc' A) Q.
Proof.
  intros H. apply sound_same. intros w t x w' t' _. unfold bind, ret. destruct (m t) as [[y t1]| |] eqn:He; try discriminate.
  intros Hx. inversion Hx; subst. split; auto. eapply H; eauto.
Qed.
Lemma sound_drop ns ds : Forall (P ns) ds -> sound (drop_dps ns ds : proc' unit) (fun _ => True).
Proof.
  intros Hd K w t x w' t' (H1 & H2) Ht He. inversion He; subst. splits; [|intros a p n Hp; exact Hp|exact I].
  split; auto. cbn [drop w_dropped]. apply Forall_app. split; auto. apply Forall_forall. intros e Hi. apply in_map_iff in Hi.
  destruct Hi as (d & <- & Hi). rewrite Forall_forall in Hd. cbn [fst snd]. auto.
Qed.
Lemma sound_namespaces a : sound (h_namespaces E a : proc' _) (fun _ => True).
Proof.
  apply sound_same. intros w t x w' t' _. destruct (assoc a (w_nodes w)).
  - unfold bind. destruct (any_order E _ t) as [[y t1]| |]; try discriminate. intros H. inversion H; auto.
  - intros H. inversion H; auto.
Qed.
Lemma sound_rpc {A} a (h : proc' A) (Q : A -> Prop) : sound h Q -> sound (rpc E a h) (fun o => match o with Some x => Q x | None => True end).
Proof.
  intros Hh. unfold rpc. eapply sound_then; [apply (sound_same None _ (fun _ => True)); intros w t x w' t' _ H; inversion H; auto|].
  intros [| |].
  - eapply sound_bind; [exact Hh|]. intros x Hx. apply sound_ret. exact Hx.
  - apply sound_ret. exact I.
  - intros K. cbn [holds]. split; auto. eapply holds_bind; [apply Hh|]. intros; exact I.
Qed.

Lemma upsert_forall {V} (Q : str * V -> Prop) k v l : Forall Q l -> (forall k', str_eqb k k' = true -> Q (k', v)) -> Forall Q (upsert k v l).
Proof.
  intros H Hv. induction H as [|[k' v'] l Hx Hl IH]; cbn [upsert].
  - constructor; auto. apply Hv, str_eqb_refl.
  - destruct (str_eqb k k') eqn:Hk; constructor; auto.
Qed.
Lemma set_inv' (w : World) a nd : OInv w -> NInv nd -> OInv (set_node w a nd).
Proof. intros (H1 & H2) Hn. split; auto. cbn [set_node w_nodes]. apply upsert_forall; auto. Qed.
Lemma assoc_In {V} k (l : list (str * V)) v : assoc k l = Some v -> exists k', In (k', v) l.
Proof.
  induction l as [|[k' v'] l IH]; cbn [assoc]; [discriminate|]. destruct (str_eqb k k').
  - intros H. inversion H; subst. exists k'. left; auto.
  - intros H. destruct (IH H) as (k2 & Hk). exists k2. right; auto.
Qed.
Lemma node_inv (w : World) a nd : OInv w -> assoc a (w_nodes w) = Some nd -> NInv nd.
Proof. intros (H1 & _) Ha. apply assoc_In in Ha. destruct Ha as (k & Hk). rewrite Forall_forall in H1. exact (H1 _ Hk). Qed.
Lemma drop_inv (w : World) ns ds : OInv w -> Forall (P ns) ds -> OInv (drop ns ds w).
Proof.
  intros (H1 & H2) Hd. split; auto. cbn [drop w_dropped]. apply Forall_app. split; auto. apply Forall_forall. intros e Hi. apply in_map_iff in Hi.
  destruct Hi as (d & <- & Hi). rewrite Forall_forall in Hd. cbn [fst snd]. auto.
Qed.
Lemma set_nth_same {A} (l : list A) i x y : nth_error l i = Some y -> nth_error (list_set l i x) i = Some x.
Proof. revert i. induction l as [|z l IH]; intros [|i]; cbn [nth_error list_set]; try discriminate; auto. Qed.
Lemma set_nth_other {A} (l : list A) i j x : i <> j -> nth_error (list_set l i x) j = nth_error l j.
Proof. revert i j. induction l as [|z l IH]; intros [|i] [|j] H; cbn [nth_error list_set]; auto; congruence. Qed.

Lemma tagged_set (w : World) a nd nd' : assoc a (w_nodes w) = Some nd ->
  (forall p ns m, nth_error (nd_heap nd) p = Some (ns, m) -> exists m', nth_error (nd_heap nd') p = Some (ns, m')) ->
  tags_le (tagged w) (tagged (set_node w a nd')).
Proof.
  intros Ha H b p ns (nb & m & Hb & Hp). unfold tagged. cbn [set_node w_nodes]. destruct (str_eqb b a) eqn:Hba.
  - apply str_eqb_eq in Hba. subst b. rewrite assoc_upsert_same. assert (nb = nd) by congruence. subst nb.
    destruct (H _ _ _ Hp) as (m' & Hm'). exists nd', m'. auto.
  - rewrite assoc_upsert_other; [exists nb, m; auto|]. intros ->. rewrite str_eqb_refl in Hba. discriminate.
Qed.

(* What an access must do for the datapoints of the namespace. *)
Definition mgr_ok {A} ns (f : CM N -> M (A * CM N)) (g : A -> list DP) (Q : A -> Prop) : Prop :=
  forall m, okm (P ns) m -> gives (f m) (fun r => Q (fst r) /\ okm (P ns) (snd r) /\ Forall (P ns) (g (fst r))).

Lemma holds_slot {A} (K : tags) a p ns (f : CM N -> M (A * CM N)) g Q : K a p ns -> mgr_ok ns f g Q -> holds K (slot_access a p f g) Q.
Proof.
  intros Hk Hf. cbn [slot_access holds]. intros w t x w' t' Hw Ht. destruct (Ht _ _ _ Hk) as (nd & m & Ha & Hp). rewrite Ha, Hp. unfold bind.
  destruct (f m t) as [[[y m'] t1]| |] eqn:He; try discriminate. unfold ret. intros H. inversion H; subst. clear H.
  pose proof (node_inv _ _ _ Hw Ha) as (N1 & N2).
  assert (Hm : okm (P ns) m) by (rewrite Forall_forall in N1; exact (N1 _ (nth_error_In _ _ Hp))).
  destruct (Hf _ Hm _ _ _ He) as (H1 & H2 & H3). cbn [fst snd] in *.
  assert (Hh : forall q n mm, nth_error (nd_heap nd) q = Some (n, mm) -> exists m2, nth_error (list_set (nd_heap nd) p (ns, m')) q = Some (n, m2)).
  { intros q n mm Hq. destruct (Nat.eq_dec p q) as [->|Hne].
    - exists m'. rewrite Hp in Hq. inversion Hq; subst. eapply set_nth_same; eauto.
    - exists mm. rewrite set_nth_other; auto. }
  splits; auto.
  - apply drop_inv; auto. apply set_inv'; auto. split; cbn [nd_heap nd_tbl].
    + apply forall_set; auto.
    + intros n q Hq. destruct (N2 _ _ Hq) as (mm & Hmm). eauto.
  - apply (tagged_set w a nd (MkNode (list_set (nd_heap nd) p (ns, m')) (nd_tbl nd) (nd_thresh nd)) Ha). exact Hh.
Qed.
Definition opt {A} (Q : A -> Prop) (o : option A) : Prop := match o with Some x => Q x | None => True end.
Lemma sound_access_g {A} a ns (f : CM N -> M (A * CM N)) g Q : mgr_ok ns f g Q -> sound (access_g a ns f g) (opt Q).
Proof.
  intros Hf K. unfold access_g, lookup. cbn [pbind holds]. intros w t x w' t' Hw Ht H. inversion H; subst. clear H.
  splits; auto; [intros b p n Hp; exact Hp|]. destruct (assoc a (w_nodes w')) as [nd|] eqn:Ha; [|exact I].
  destruct (assoc ns (nd_tbl nd)) as [p|] eqn:Hp; [|exact I].
  pose proof (node_inv _ _ _ Hw Ha) as (_ & N2). destruct (N2 _ _ Hp) as (m & Hm).
  eapply holds_bind; [eapply holds_slot; [|exact Hf]; exists nd, m; auto|]. intros r K' _ Hr. exact Hr.
Qed.
Lemma sound_access {A} a ns (f : CM N -> M (A * CM N)) (Q : A -> Prop) :
  (forall m, okm (P ns) m -> gives (f m) (fun r => Q (fst r) /\ okm (P ns) (snd r))) -> sound (access a ns f) (opt Q).
Proof. intros Hf. apply sound_access_g. intros m Hm t r t' He. destruct (Hf _ Hm _ _ _ He). auto. Qed.
Lemma sound_access_unit a ns (f : CM N -> M (CM N)) : (forall m, okm (P ns) m -> gives (f m) (okm (P ns))) ->
  sound (access a ns (fun m => do m' <- f m; ret (tt, m'))) (opt (fun _ => True)).
Proof. intros Hf. apply sound_access. intros m Hm. eapply gives_bind; [apply Hf; auto|]. intros m' Hm'. apply gives_ret. auto. Qed.

Lemma sound_factory a v : sound (factory a v : proc' (CM N)) (fun m => cm_cs m = []).
Proof.
  apply sound_same. intros w t x w' t' _. destruct (assoc a (w_nodes w)); [|discriminate]. intros H. inversion H; subst. auto.
Qed.
Lemma sound_first_add ns m d : okm (P ns) m -> P ns d -> sound (first_add E ns m d) (okm (P ns)).
Proof.
  intros Hm Hd K w t x w' t' Hw Ht. unfold bind. destruct (cm_add E m d t) as [[[ok m1] t1]| |] eqn:He; try discriminate.
  unfold ret. intros H. inversion H; subst. apply (add_m_origin E (P ns)) in He; auto. splits; [|intros a p n Hp; exact Hp|exact He].
  apply drop_inv; auto. destruct ok; cbn [unless]; auto.
Qed.
Lemma sound_add_slot a ns m : okm (P ns) m -> sound (add_slot a ns m : proc' unit) (fun _ => True).
Proof.
  intros Hm K. cbn [add_slot holds]. intros w t x w' t' Hw Ht. destruct (assoc a (w_nodes w)) as [nd|] eqn:Ha; try discriminate.
  intros H. inversion H; subst. clear H. pose proof (node_inv _ _ _ Hw Ha) as (N1 & N2).
  assert (Hh : forall q n mm, nth_error (nd_heap nd) q = Some (n, mm) -> exists m2, nth_error (nd_heap nd ++ [(ns, m)]) q = Some (n, m2)).
  { intros q n mm Hq. exists mm. rewrite nth_error_app1; auto. apply nth_error_Some. congruence. }
  splits; auto.
  - apply set_inv'; auto. split; cbn [nd_heap nd_tbl].
    + apply Forall_app. auto.
    + intros n q. destruct (str_eqb n ns) eqn:Hn.
      * apply str_eqb_eq in Hn. subst n. rewrite assoc_upsert_same. intros H. inversion H; subst. exists m.
        rewrite nth_error_app2, Nat.sub_diag; auto.
      * rewrite assoc_upsert_other; [|intros ->; rewrite str_eqb_refl in Hn; discriminate]. intros Hq. destruct (N2 _ _ Hq) as (mm & Hmm). eauto.
  - apply (tagged_set w a nd (MkNode (nd_heap nd ++ [(ns, m)]) (upsert ns (length (nd_heap nd)) (nd_tbl nd)) (nd_thresh nd)) Ha). exact Hh.
Qed.

(* ---- handlers ---- *)
Definition any {A} (_ : A) : Prop := True.
Lemma opt_any {A} (p : proc' (option A)) Q : sound p (opt Q) -> sound p any.
Proof. intros H. eapply sound_weak; [exact H|]. intros; exact I. Qed.

Lemma sound_h_vec a ns : sound (h_vec a ns : proc' _) any.
Proof. apply (opt_any _ any). apply sound_access. intros m Hm. apply gives_ret. split; [exact I|exact Hm]. Qed.
Lemma add_ok' ns d : P ns d -> mgr_ok ns (fun m => cm_add E m d) (unless d) any.
Proof.
  intros Hd m Hm. eapply gives_weak; [apply (add_m_origin E (P ns)); auto|]. intros [[|] m'] H; cbn [fst snd unless] in *; splits; try exact I; auto.
Qed.
Lemma sound_h_add a ns d : P ns d -> sound (h_add E a ns d) any.
Proof.
  intros Hd. unfold h_add. eapply sound_then; [apply sound_access_g, add_ok'; auto|]. intros [b|]; [apply sound_ret; exact I|].
  eapply sound_bind; [apply sound_factory|]. intros m Hm. eapply sound_bind; [apply sound_first_add; auto; unfold okm; rewrite Hm; constructor|].
  intros m' Hm'. eapply sound_then; [apply sound_add_slot; auto|]. intros. apply sound_ret. exact I.
Qed.
Lemma sound_h_drain_u a ns n : sound (h_drain_unordered E a ns n) (opt (Forall (P ns))).
Proof. apply sound_access. intros m Hm. apply drain_um_origin; auto. Qed.
Lemma sound_h_drain_o a ns n : sound (h_drain_ordered E a ns n) (opt (Forall (P ns))).
Proof. apply sound_access. intros m Hm. apply drain_om_origin; auto. Qed.
Lemma sound_h_expire a ns : sound (h_expire E a ns) any.
Proof. eapply opt_any. apply sound_access_unit. intros. apply expire_m_origin; auto. Qed.
Lemma sound_h_len a ns : sound (h_len_dp a ns : proc' _) any.
Proof. apply (opt_any _ any). apply sound_access. intros m Hm. apply gives_ret. split; [exact I|exact Hm]. Qed.
Lemma sound_h_mem_trim a ns : sound (h_mem_trim E a ns) any.
Proof. eapply opt_any. apply sound_access_unit. intros. apply trim_m_origin; auto. Qed.
Lemma sound_h_move a ns : sound (h_move_vector E a ns) any.
Proof. apply (opt_any _ any). apply sound_access. intros m Hm. eapply gives_weak; [apply (move_m_origin E (P ns)); auto|]. intros r H. split; [exact I|exact H]. Qed.
Lemma sound_h_internal a ns n : sound (h_distribute_internal E a ns n) any.
Proof. eapply opt_any. apply sound_access_unit. intros. apply internal_origin; auto. Qed.
Lemma sound_h_lookup a ns v k d : sound (h_knn_lookup E a ns v k d) (opt (Forall (P ns))).
Proof. apply sound_access. intros m Hm. apply lookup_origin; auto. Qed.
Lemma sound_h_nearest a ns v n d : sound (h_nearest E a ns v n d) (opt (Forall (okc (P ns)))).
Proof.
  apply sound_access. intros m Hm. eapply gives_bind; [apply nearest_origin; exact Hm|]. intros [[cs|] m'] (H1 & H2); apply gives_ret; cbn [fst snd] in *; auto.
Qed.
Lemma sound_h_nearest_vec a ns v : sound (h_nearest_vec E a ns v) any.
Proof.
  apply (opt_any _ any). apply sound_access. intros m Hm. eapply gives_bind; [apply nearest_origin; exact Hm|]. intros [o m'] (H1 & H2). apply gives_ret.
  split; [exact I|exact H2].
Qed.
Lemma sound_h_split a ns lo hi : sound (h_split E a ns lo hi) any.
Proof. eapply opt_any. apply sound_access_unit. intros. apply split_m_origin; auto. Qed.
Lemma sound_h_merge a ns lo hi : sound (h_merge E a ns lo hi) any.
Proof. eapply opt_any. apply sound_access_unit. intros. apply merge_m_origin; auto. Qed.

Create HintDb origin.
Hint Resolve sound_namespaces sound_h_vec sound_h_add sound_h_expire sound_h_len sound_h_mem_trim sound_h_move sound_h_internal
  sound_h_nearest_vec sound_h_split sound_h_merge : origin.
Lemma any_bind {R S} (p : proc' R) (f : R -> proc' S) : sound p any -> (forall r, sound (f r) any) -> sound (pbind p f) any.
Proof. apply sound_then. Qed.
Lemma any_ret {R} (r : R) : sound (Ret r) any. Proof. apply sound_ret. exact I. Qed.
Lemma any_local {A} (m : M A) : sound (local m : proc' A) any. Proof. apply sound_local. intros t x t' _. exact I. Qed.
Lemma any_rpc {A} a (h : proc' A) Q : sound h Q -> sound (rpc E a h) any.
Proof. intros H. eapply opt_any. apply sound_rpc. exact H. Qed.
Lemma any_weak {R} (p : proc' R) Q : sound p Q -> sound p any.
Proof. intros H. eapply sound_weak; [exact H|]. intros; exact I. Qed.
Hint Resolve any_ret any_local : origin.
Ltac os :=
  repeat first
    [ progress cbn beta
    | solve [auto with origin]
    | match goal with
      | |- forall _, _ => intro
      | |- sound (match ?x with _ => _ end) _ => destruct x
      | |- sound (let (_, _) := ?x in _) _ => destruct x
      | |- sound (pbind _ _) any => apply any_bind
      | |- sound (rpc _ _ _) any => apply (any_rpc _ _ any)
      end ].

Lemma sound_meta_loop a nss : sound (meta_loop a nss : proc' _) any.
Proof.
  induction nss as [|ns nss IH]; cbn [meta_loop]; [os|]. apply any_bind; [|os]. apply (opt_any _ any). apply sound_access. intros m Hm. apply gives_ret. split; [exact I|exact Hm].
Qed.
Hint Resolve sound_meta_loop : origin.
Lemma sound_h_meta a : sound (h_meta E a) any. Proof. unfold h_meta. os. Qed.
Hint Resolve sound_h_meta : origin.

(* ---- clients ---- *)
Lemma sound_c_namespaces a : sound (c_namespaces E a) any. Proof. unfold c_namespaces. os. Qed.
Lemma sound_c_vec_of a ns : sound (c_vec_of E a ns) any. Proof. unfold c_vec_of. os. Qed.
Lemma sound_c_add_dp a ns d : P ns d -> sound (c_add_dp E a ns d) any. Proof. intros H. unfold c_add_dp. os. Qed.
Lemma sound_c_expire a ns : sound (c_expire_of E a ns) any. Proof. unfold c_expire_of. os. Qed.
Lemma sound_c_mem_trim a ns : sound (c_mem_trim_of E a ns) any. Proof. unfold c_mem_trim_of. os. Qed.
Lemma sound_c_di a ns n : sound (c_distribute_internal E a ns n) any. Proof. unfold c_distribute_internal. os. Qed.
Lemma sound_c_split a ns lo hi : sound (c_split E a ns lo hi) any. Proof. unfold c_split. os. Qed.
Lemma sound_c_merge a ns lo hi : sound (c_merge E a ns lo hi) any. Proof. unfold c_merge. os. Qed.
Lemma sound_c_len a ns : sound (c_len_dp E a ns) any. Proof. unfold c_len_dp. os. Qed.
Lemma sound_c_nearest_vec a ns v : sound (c_nearest_vec E a ns v) any. Proof. unfold c_nearest_vec. os. Qed.
Lemma sound_c_meta a : sound (c_meta E a) any. Proof. unfold c_meta. os. Qed.
Hint Resolve sound_c_namespaces sound_c_vec_of sound_c_add_dp sound_c_expire sound_c_mem_trim sound_c_di sound_c_split sound_c_merge sound_c_len
  sound_c_nearest_vec sound_c_meta : origin.

Lemma sound_c_lookup a ns v k d : sound (c_lookup E a ns v k d) (Forall (P ns)).
Proof.
  unfold c_lookup. destruct (_ <? _)%Z; [apply sound_local; apply gives_panic|]. eapply sound_bind; [apply sound_rpc, sound_h_lookup|].
  intros [[l|]|] H; apply sound_ret; cbn [join]; auto.
Qed.
Lemma drop_empty_ok ns : forall n (cs : list Cen), (length cs <= n)%nat -> Forall (okc (P ns)) cs -> Forall (okc (P ns)) (drop_empty cs).
Proof.
  induction n; intros cs Hn H; (destruct cs as [|c cs]; cbn [drop_empty]; auto); [cbn [length] in Hn; lia|]. inversion H; subst. cbn [length] in Hn.
  destruct (_ =? _); [|constructor; auto; apply IHn; auto; lia]. destruct cs as [|c' cs]; auto. inversion H3; subst. constructor; auto. apply IHn; auto. cbn [length] in Hn. lia.
Qed.
Lemma reinit_origin ns : forall cs, Forall (okc (P ns)) cs -> gives (reinit E cs) (Forall (okc (P ns))).
Proof.
  induction cs as [|c cs IH]; intros H; cbn [reinit]; [apply gives_ret; auto|]. inversion H; subst. apply gives_then. intros d.
  eapply gives_bind; [apply (move_c_origin E (P ns)); exact H2|]. intros [b c'] Hc. eapply gives_bind; [apply IH; auto|]. intros r Hr. apply gives_ret. auto.
Qed.
Lemma sound_c_nearest a ns v n d : sound (c_nearest E a ns v n d) (fun r => opt (Forall (okc (P ns))) (fst r)).
Proof.
  unfold c_nearest. eapply sound_bind; [apply sound_rpc, sound_h_nearest|]. intros r Hr.
  eapply sound_bind; [apply (sound_local _ (opt (Forall (okc (P ns)))))|].
  - assert (Hl : Forall (okc (P ns)) (match join r with Some l => l | None => [] end)) by (destruct r as [[l|]|]; cbn [join]; auto).
    revert Hl. generalize (match join r with Some l => l | None => [] end). intros l Hl. unfold post_nearest. destruct l as [|c l]; [apply gives_ret; exact I|].
    eapply gives_bind; [apply reinit_origin; eapply drop_empty_ok; eauto|]. intros cs Hcs. apply gives_ret. exact Hcs.
  - intros cs Hcs. apply sound_ret. exact Hcs.
Qed.

(* ---- handlers that call other nodes ---- *)
Lemma sound_fetch_each f addrs : (forall b, sound (f b) any) -> sound (fetch_each f addrs : proc' (list (str * vec N))) any.
Proof. intros Hf. induction addrs; cbn [fetch_each]; os. Qed.
Hint Resolve sound_fetch_each : origin.
Lemma sound_fetch_vecs f addrs : (forall b, sound (f b) any) -> sound (fetch_vecs E f addrs) any.
Proof. intros Hf. unfold fetch_vecs. os. Qed.
Lemma sound_try_add addrs idx ns d : P ns d -> sound (try_add E addrs idx ns d) any.
Proof. intros Hd. induction idx; cbn [try_add]; os. Qed.
Hint Resolve sound_fetch_vecs sound_try_add : origin.
Lemma sound_distribute_dp d rsl ns : P ns d -> sound (distribute_dp E d rsl ns) any.
Proof. intros Hd. unfold distribute_dp. os. Qed.
Lemma sound_put_back a ns d : P ns d -> sound (put_back_dp E a ns d) any.
Proof.
  intros Hd. unfold put_back_dp. eapply sound_then; [apply sound_access_g, add_ok'; auto|]. intros [b|]; [os|].
  apply (any_weak _ (fun _ => True)). apply sound_drop. auto.
Qed.
Hint Resolve sound_distribute_dp sound_put_back : origin.
Lemma sound_fast_loop a ns rsl ds : Forall (P ns) ds -> sound (distribute_fast_loop E a ns rsl ds) any.
Proof. intros H. induction H; cbn [distribute_fast_loop]; os. Qed.
Lemma sound_accurate_loop a ns addrs ds : Forall (P ns) ds -> sound (distribute_accurate_loop E a ns addrs ds) any.
Proof. intros H. induction H; cbn [distribute_accurate_loop]; os. Qed.
Hint Resolve sound_fast_loop sound_accurate_loop : origin.
Lemma sound_distribute_with a ns n addrs loop : (forall ds, Forall (P ns) ds -> sound (loop ds) any) -> sound (distribute_with E a ns n addrs loop) any.
Proof.
  intros Hl. unfold distribute_with. destruct (_ <? _)%Z; [os|]. eapply sound_bind; [apply (sound_access_g _ _ _ _ (Forall (P ns)))|].
  - intros m Hm. eapply gives_weak; [apply (drain_om_origin E (P ns)); auto|]. intros [ds m'] (H1 & H2). cbn [fst snd] in *. splits; auto. destruct addrs; auto.
  - intros [ds|] H; [|os]. destruct ds as [|d ds]; [os|]. destruct addrs as [|b addrs]; [os|]. apply any_bind; [apply Hl; exact H|os].
Qed.
Lemma sound_h_fast a ns n addrs : sound (h_distribute_fast E a ns n addrs) any.
Proof. apply sound_distribute_with. intros. os. Qed.
Lemma sound_h_accurate a ns n addrs : sound (h_distribute_accurate E a ns n addrs) any.
Proof. apply sound_distribute_with. intros. os. Qed.
Lemma stored_ok ns (cs : list Cen) : Forall (okc (P ns)) cs -> Forall (P ns) (concat (map c_dps cs)).
Proof. intros H. induction H; cbn [map concat]; auto. apply Forall_app. auto. Qed.
Lemma sound_steal_loop fuel a from ns v limit : forall total, sound (steal_loop E fuel a from ns v limit total) any.
Proof.
  induction fuel as [|fuel IH]; intros total; cbn [steal_loop]; (destruct (_ <? _)%Z; [|os]); [os|].
  eapply sound_bind; [apply sound_c_nearest|]. intros [[[|c cs]|] ok] H; [os| |os]. cbn [fst opt] in H.
  eapply sound_then; [apply (sound_access _ _ _ any)|].
  - intros m Hm. apply gives_ret. split; [exact I|]. cbn [snd]. unfold okm. cbn [cm_cs]. apply Forall_app. auto.
  - intros r. apply any_bind.
    + destruct r; [os|]. apply any_bind; [|os]. apply (any_weak _ (fun _ => True)). apply sound_drop. apply stored_ok. exact H.
    + intros total'. destruct ok; [apply IH|os].
Qed.
Hint Resolve sound_h_fast sound_h_accurate sound_steal_loop : origin.
Lemma sound_h_steal fuel a from ns limit : sound (h_steal E fuel a from ns limit) any.
Proof.
  unfold h_steal. apply any_bind; [os|]. intros lv. apply any_bind.
  - destruct lv; [os|]. apply any_bind; [os|]. intros [v|]; [|os]. eapply sound_bind; [apply sound_factory|]. intros m Hm.
    eapply sound_then; [apply sound_add_slot; unfold okm; rewrite Hm; constructor|]. os.
  - intros [v|]; [|os]. apply any_bind; [os|]. intros [total ok]. apply any_bind; [apply sound_h_move|os].
Qed.
Hint Resolve sound_h_steal : origin.
Lemma sound_c_fast a ns addrs n : sound (c_distribute_fast E a ns addrs n) any. Proof. unfold c_distribute_fast. os. Qed.
Lemma sound_c_accurate a ns addrs n : sound (c_distribute_accurate E a ns addrs n) any. Proof. unfold c_distribute_accurate. os. Qed.
Lemma sound_c_steal fuel a from ns limit : sound (c_steal E fuel a from ns limit) any. Proof. unfold c_steal. os. Qed.
Hint Resolve sound_c_fast sound_c_accurate sound_c_steal : origin.

Definition req_ok (q : req N) : Prop := match q with QAdd ns d => P ns d | _ => True end.
Definition ans_ok (q : req N) (x : ans N) : Prop := Forall (P (match req_ns q with Some ns => ns | None => [] end)) (ans_shows x).

Lemma sound_reply {A} (f : A -> ans N) (p : proc' (option A)) (Q : A -> Prop) (Q' : ans N -> Prop) :
  sound p (opt Q) -> Q' (ANsErr) -> (forall x, Q x -> Q' (f x)) -> sound (reply f p) Q'.
Proof. intros Hp H0 H1. unfold reply. eapply sound_bind; [exact Hp|]. intros [x|] Hx; apply sound_ret; auto. Qed.
Lemma opt_of {A} (p : proc' (option A)) : sound p any -> sound p (opt any).
Proof. intros H. eapply sound_weak; [exact H|]. intros [x|] _; exact I. Qed.
Lemma stored_forall ns (cs : list Cen) : Forall (okc (P ns)) cs -> Forall (P ns) (stored cs).
Proof. intros H. apply stored_ok in H. exact H. Qed.

Lemma sound_serve a q : req_ok q -> sound (serve E a q) (ans_ok q).
Proof.
  assert (Hq : forall q x, ans_shows x = [] -> ans_ok q x) by (intros q' x Hx; unfold ans_ok; rewrite Hx; constructor).
  intros Hr. destruct q; cbn [serve];
    try (eapply (sound_reply _ _ any); [apply opt_of; auto with origin|apply Hq; reflexivity|intros; apply Hq; reflexivity]);
    try (eapply sound_then; [apply any_weak with (Q := any); auto with origin|intros; try destruct r; apply sound_ret, Hq; reflexivity]).
  - eapply (sound_reply _ _ (Forall (P ns))); [apply sound_h_drain_u|apply Hq; reflexivity|]. intros x Hx. exact Hx.
  - eapply (sound_reply _ _ (Forall (P ns))); [apply sound_h_drain_o|apply Hq; reflexivity|]. intros x Hx. exact Hx.
  - eapply (sound_reply _ _ (Forall (P ns))); [apply sound_h_lookup|apply Hq; reflexivity|]. intros x Hx. exact Hx.
  - eapply (sound_reply _ _ (Forall (okc (P ns)))); [apply sound_h_nearest|apply Hq; reflexivity|]. intros x Hx. apply stored_forall. exact Hx.
Qed.

(* ---- HTTP and the event loop ---- *)
Lemma sound_best_fit s v fetch : sound fetch any -> sound (best_fit s v fetch : proc' (list str)) any.
Proof. intros H. unfold best_fit. os. Qed.
Lemma sound_put_dp addrs ns d : P ns d -> sound (put_dp E addrs ns d) any.
Proof. intros H. induction addrs; cbn [put_dp]; os. Qed.
Lemma sound_get_loop ns v n drain : forall addrs res, Forall (P ns) res -> sound (get_loop E addrs ns v n drain res) (Forall (P ns)).
Proof.
  induction addrs as [|a addrs IH]; intros res Hr; cbn [get_loop]; [apply sound_ret; auto|]. eapply sound_bind; [apply sound_c_lookup|]. intros ds Hd. cbv zeta.
  assert (H : Forall (P ns) (res ++ ds)) by (apply Forall_app; auto). destruct (_ <=? _)%Z; [apply sound_ret; auto|auto].
Qed.
Hint Resolve sound_best_fit sound_put_dp : origin.
Definition body_in (o : put_opts N) : Prop := P (po_ns o) (to_dp (po_dp o)).
Lemma sound_put_http addrs body : opt body_in body -> sound (put_http E addrs body) (fun r => http_shows r = []).
Proof.
  intros H. unfold put_http. destruct body as [o|]; [|apply sound_ret; reflexivity]. cbn [opt] in H. unfold body_in in H. cbv zeta.
  apply (sound_then _ _ any); [|intros r; apply (sound_then _ _ any); [|intros r2; apply sound_ret; reflexivity]].
  - unfold put_accurate, put_fast, best_fit_accurate, best_fit_fast. os.
  - unfold put_rand. os.
Qed.
Definition query_ok (body : option (query_opts N)) (r : http N * list DP) : Prop :=
  Forall (P (match body with Some o => qo_ns o | None => [] end)) (http_shows (fst r) ++ snd r).
Lemma wires_back (ds : list DP) l : marshal (of_dps ds) = Some l -> map to_dp l = ds.
Proof.
  unfold marshal. destruct (forallb _ _); [|discriminate]. intros H. inversion H; subst. unfold of_dps. rewrite map_map. rewrite <- (map_id ds) at 2.
  apply map_ext. intros []; reflexivity.
Qed.
Lemma sound_query_http addrs body : sound (query_http E addrs body) (query_ok body).
Proof.
  unfold query_http. destruct body as [o|]; [|apply sound_ret; constructor]. apply (sound_then _ _ any).
  - unfold best_fit_accurate, best_fit_fast. os.
  - intros l. destruct (_ <? _)%Z; [apply sound_ret; constructor|]. eapply (sound_bind _ _ (Forall (P (qo_ns o)))).
    + unfold get_dps. destruct (_ <? _)%Z; [apply sound_local, gives_panic|]. apply sound_get_loop. constructor.
    + intros ds Hd. apply sound_ret. unfold query_ok. cbn [fst snd http_shows]. apply Forall_app. split; auto.
      destruct (marshal (of_dps ds)) as [l'|] eqn:Hm; [|constructor]. rewrite (wires_back _ _ Hm). exact Hd.
Qed.

Lemma sound_each nss p : (forall ns, sound (p ns) any) -> sound (each nss p : proc' unit) any.
Proof. intros H. induction nss; cbn [each]; os. Qed.
Lemma sound_poll addrs : forall t, sound (poll E addrs t) any.
Proof. induction addrs; intros t; cbn [poll]; os. Qed.
Lemma sound_with_table c p : (forall t, sound (p t) any) -> sound (with_table E c p) any.
Proof. intros H. unfold with_table. apply any_bind; [apply sound_poll|auto]. Qed.
Lemma sound_with_local c p : (forall ns, sound (p ns) any) -> sound (with_local E c p) any.
Proof. intros H. unfold with_local. apply any_bind; [os|]. intros. apply sound_each; auto. Qed.
Lemma sound_go p : sound p any -> sound (go p : proc' unit) any.
Proof. intros H K. cbn [go holds]. split; [apply H|exact I]. Qed.
Lemma sound_fetch_lens addrs ns : sound (fetch_lens E addrs ns) any.
Proof. induction addrs; cbn [fetch_lens]; os. Qed.
Hint Resolve sound_fetch_lens : origin.
Lemma sound_remote_lens addrs ns : sound (remote_lens E addrs ns) any.
Proof. unfold remote_lens. os. Qed.
Lemma sound_balance_loop take c naddrs mean margin : (forall o w, sound (take o w : proc' nat) any) ->
  forall todo lens, sound (balance_loop take c naddrs mean margin todo lens) any.
Proof. intros H. induction todo as [|[o n] todo IH]; intros lens; cbn [balance_loop]; os. Qed.
Lemma sound_balance_ns c t ns : sound (balance_ns E c t ns) any.
Proof.
  unfold balance_ns. apply any_bind; [apply sound_remote_lens|]. intros [|x lens]; [os|].
  apply any_bind; [os|]. intros. apply sound_balance_loop. intros. unfold steal_from. os.
Qed.
Lemma sound_metas addrs : forall items, sound (metas E addrs items) any.
Proof. induction addrs; intros items; cbn [metas]; os. Qed.
Lemma sound_task_body c k : sound (task_body E c k) any.
Proof.
  destruct k; cbn [task_body].
  - apply any_bind; [apply sound_metas|]. os.
  - apply sound_with_local. intros. apply sound_go. auto with origin.
  - apply sound_with_local. intros. apply sound_go. auto with origin.
  - apply sound_with_local. intros. apply sound_go. auto with origin.
  - apply sound_with_local. intros. apply sound_go. auto with origin.
  - apply sound_with_local. intros. apply sound_go. auto with origin.
  - apply sound_with_local. intros. apply sound_with_table. intros. auto with origin.
  - apply sound_with_local. intros. apply sound_with_table. intros. auto with origin.
  - apply sound_with_table. intros. apply any_bind; [os|]. intros. apply sound_each. intros. apply sound_balance_ns.
Qed.
Lemma sound_run_task c iter k : sound (run_task E c iter k) any.
Proof. unfold run_task, with_skip. destruct (_ =? 0)%Z; [os|]. destruct (_ =? 0)%Z; [apply sound_task_body|os]. Qed.
Lemma sound_el_steps rd run l : sound rd any -> (forall k, sound (run k) any) -> sound (el_steps rd run l : proc' unit) any.
Proof. intros H1 H2. unfold el_step. induction l; cbn [el_steps]; unfold el_step; os. Qed.
Lemma sound_el_loop rd run : sound rd any -> (forall i k, sound (run i k) any) -> forall n iter, sound (el_loop rd run n iter : proc' bool) any.
Proof.
  intros H1 H2. induction n; intros iter; cbn [el_loop]; (apply any_bind; [auto|]; intros [|]; [os|]); [os|].
  apply any_bind; [apply sound_el_steps; auto|]. auto.
Qed.
Lemma sound_event_loop c stop n : sound (event_loop E c stop n) any.
Proof. unfold event_loop. apply sound_el_loop; [unfold read_stop; os|]. intros. apply sound_run_task. Qed.

Definition done_ok (d : done N) : Prop := Forall (fun e => P (fst e) (snd e)) (shown d).
Definition job_ok (j : job N) : Prop := Forall (fun e => P (fst e) (snd e)) (job_in j).
Lemma tag_ok ns (l : list DP) : Forall (P ns) l -> Forall (fun e => P (fst e) (snd e)) (map (pair ns) l).
Proof. intros H. induction H; cbn [map]; auto. Qed.
Lemma sound_job j : job_ok j -> sound (run_job E j) done_ok.
Proof.
  intros Hj. destruct j as [a q|addrs body|addrs body|c stop n]; cbn [run_job].
  - eapply (sound_bind _ _ (ans_ok q)).
    + apply sound_serve. destruct q; try exact I. unfold job_ok in Hj. cbn in Hj. inversion Hj; subst. exact H1.
    + intros x Hx. apply sound_ret. unfold done_ok, shown, ans_ok in *. destruct (req_ns q); apply tag_ok; exact Hx.
  - eapply (sound_bind _ _ (fun r => http_shows r = [])).
    + apply sound_put_http. destruct body as [o|]; [|exact I]. unfold job_ok in Hj. cbn in Hj. inversion Hj; subst. exact H1.
    + intros x Hx. apply sound_ret. unfold done_ok, shown. destruct body; rewrite Hx; constructor.
  - eapply (sound_bind _ _ (query_ok body)); [apply sound_query_http|]. intros [r ds] H. apply sound_ret. unfold done_ok, shown, query_ok in *. cbn [fst snd] in H.
    destruct body; apply tag_ok; exact H.
  - eapply sound_then; [apply sound_event_loop|]. intros r. apply sound_ret. constructor.
Qed.

Lemma interleave_origin {R} (dflt : R) (Q : R -> Prop) : Q dflt -> forall sched (l : list (proc World (@lock) R)) w t l' w' t',
  Forall (fun p : proc' R => holds (tagged w) p Q) l -> OInv w -> interleave dflt sched l w t = Ok ((l', w'), t') ->
  OInv w' /\ Forall (fun p : proc' R => holds (tagged w') p Q) l'.
Proof.
  intros Hdf. induction sched as [|i sched IH]; intros l w t l' w' t' Hl Hw; cbn [interleave].
  - unfold ret. intros H. inversion H; subst. auto.
  - unfold bind at 1. destruct (step1 dflt l i w t) as [[[l1 w1] t1]| |] eqn:Hs; try discriminate. intros H.
    assert (H1 : Forall (fun p : proc' R => holds (tagged w1) p Q) l1 /\ OInv w1).
    { unfold step1 in Hs. destruct (nth_error l i) as [p|] eqn:Hp; [|inversion Hs; subst; auto].
      pose proof (nth_error_In _ _ Hp) as Hi. assert (Hk : holds (tagged w) p Q) by (rewrite Forall_forall in Hl; auto).
      destruct p as [r|A o f k|q k].
      - inversion Hs; subst; auto.
      - unfold bind in Hs. destruct (f w t) as [[[x w2] t2]| |] eqn:Hf; try discriminate. unfold ret in Hs. inversion Hs; subst.
        cbn [holds] in Hk. destruct (Hk w t x w1 t1 Hw) as (K1 & K2 & K3); auto; [intros b p n Hb; exact Hb|]. split; auto. apply forall_set; auto.
        eapply Forall_impl; [|exact Hl]. intros p Hpp. eapply holds_more; eauto.
      - inversion Hs; subst. destruct Hk as (Hq & Hk). split; auto. apply Forall_app. split; [apply forall_set; auto|].
        constructor; auto. eapply holds_bind; [exact Hq|]. intros; exact Hdf. }
    destruct H1. eapply IH; eauto.
Qed.
End Origin.

Lemma node_data_in {N : Num} (nd : Node N) ns m d : In (ns, m) (nd_heap nd) -> In d (stored (cm_cs m)) -> In (ns, d) (node_data nd).
Proof.
  intros Hm Hd. unfold node_data. apply in_concat. exists (tag ns (stored (cm_cs m))). split; [|apply in_map; exact Hd].
  apply in_map_iff. exists (ns, m). auto.
Qed.
Lemma okm_stored {N : Num} (P : DataPoint N -> Prop) (m : CM N) : okm P m <-> Forall P (stored (cm_cs m)).
Proof.
  unfold okm, okc, stored. split.
  - intros H. induction H; cbn [map concat]; auto. apply Forall_app. auto.
  - induction (cm_cs m) as [|c cs IH]; cbn [map concat]; auto. intros H. apply Forall_app in H. destruct H. auto.
Qed.

Theorem nothing_made_up (N : Num) (E : Env N) jobs sched t (w : World N) l w' t' : WorldOk w ->
  interleave DIdle sched (map (run_job E) jobs) w t = Ok ((l, w'), t') ->
  let known := all_data w ++ w_dropped w ++ jobs_in jobs in
  incl (all_data w') known /\ incl (w_dropped w') known /\ (forall x, In (Ret x) l -> incl (shown x) known).
Proof.
  intros (Hn & Hw) H known. set (P := fun ns d => In (ns, d) known).
  assert (Hinv : OInv P w).
  { split.
    - apply Forall_forall. intros [a nd] Hi. cbn [snd]. destruct (Hw _ _ Hi) as (H1 & H2). split.
      + apply Forall_forall. intros [ns m] Hm. cbn [fst snd]. apply okm_stored. apply Forall_forall. intros d Hd. unfold P, known. apply in_or_app. left.
        unfold all_data. apply in_concat. exists (node_data nd). split; [apply in_map_iff; exists (a, nd); auto|]. eapply node_data_in; eauto.
      + intros ns p Hp. apply H2. apply assoc_in. exact Hp.
    - apply Forall_forall. intros [ns d] Hi. unfold P, known. cbn [fst snd]. apply in_or_app. right. apply in_or_app. auto. }
  destruct (interleave_origin P DIdle (done_ok P)) with (sched := sched) (l := map (run_job E) jobs) (w := w) (t := t) (l' := l) (w' := w') (t' := t')
    as ((H1 & H2) & H3); auto.
  - constructor.
  - apply Forall_forall. intros p Hp. apply in_map_iff in Hp. destruct Hp as (j & <- & Hj). apply (sound_job E P j).
    apply Forall_forall. intros [ns d] Hd. unfold P, known. cbn [fst snd]. apply in_or_app. right. apply in_or_app. right. unfold jobs_in. apply in_concat.
    exists (job_in j). split; auto. apply in_map. exact Hj.
  - splits.
    + intros [ns d] Hd. unfold all_data in Hd. apply in_concat in Hd. destruct Hd as (x & Hx & Hd). apply in_map_iff in Hx. destruct Hx as ([a nd] & <- & Hx).
      rewrite Forall_forall in H1. destruct (H1 _ Hx) as (K1 & _). cbn [snd] in K1, Hd. unfold node_data in Hd. apply in_concat in Hd.
      destruct Hd as (y & Hy & Hd). apply in_map_iff in Hy. destruct Hy as ([n m] & <- & Hy). rewrite Forall_forall in K1. specialize (K1 _ Hy). cbn [fst snd] in K1, Hd.
      unfold tag in Hd. apply in_map_iff in Hd. destruct Hd as (d' & He & Hd). inversion He; subst. apply okm_stored in K1. rewrite Forall_forall in K1. exact (K1 _ Hd).
    + intros [ns d] Hd. rewrite Forall_forall in H2. exact (H2 _ Hd).
    + intros x Hx [ns d] Hd. rewrite Forall_forall in H3. specialize (H3 _ Hx). cbn [holds] in H3. unfold done_ok in H3. rewrite Forall_forall in H3. exact (H3 _ Hd).
Qed.
