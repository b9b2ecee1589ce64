(* Copies: an answer that gets lost can leave one more copy of one datapoint, and nothing else
   can.  A process carries a number of members of an arbitrary set f. *)
From Verif Require Import Base Num MathUtils Knn Env Centroid CManager DataSpec MgrSpec DataFacts Proc Server ServerSpec Wp Owns CentroidProofs CMProofs CMProofs3 DistributeProofs ServerFacts Slots ServerProofs Core EventLoop
  CoreSpec ThreshProofs OriginSpec OriginMgr OriginProofs.

Section Copies.
Context {N : Num} (E : Env N) (HE : EnvOk E) (f : str -> DataPoint N -> bool).
Notation DP := (DataPoint N).
Notation Cen := (Centroid N).
Notation World := (World N).
Notation proc' := (proc' N).
Notation ms m := (stored (cm_cs m)).

Definition cn (ns : str) (l : list DP) : nat := length (filter (f ns) l).
Lemma cn_app ns l1 l2 : cn ns (l1 ++ l2) = cn ns l1 + cn ns l2.
Proof. unfold cn. rewrite filter_app, app_length. auto. Qed.
Lemma cn_nil ns : cn ns [] = 0.
Proof. auto. Qed.
Lemma cn_perm ns l1 l2 : Permutation l1 l2 -> cn ns l1 = cn ns l2.
Proof.
  intros H. unfold cn. induction H; cbn [filter]; auto; try congruence.
  - destruct (f ns x); cbn [length]; congruence.
  - destruct (f ns x), (f ns y); auto.
Qed.
Lemma cn_conserves ns t t' a b : conserves E t t' a b -> cn ns b <= cn ns a.
Proof. intros (l & Hp & _). rewrite (cn_perm ns _ _ Hp), cn_app. lia. Qed.
Lemma members_app l1 l2 : members f (l1 ++ l2) = members f l1 + members f l2.
Proof. unfold members. rewrite filter_app, app_length. auto. Qed.
Lemma members_tag ns l : members f (tag ns l) = cn ns l.
Proof. unfold members, tag, cn. induction l as [|d l IH]; cbn [map filter fst snd]; auto. destruct (f ns d); cbn [length]; congruence. Qed.
Lemma members_concat ls : members f (concat ls) = list_sum (map (members f) ls).
Proof. induction ls; cbn [concat map list_sum fold_right]; auto. rewrite members_app, IHls. auto. Qed.

(* Lost answers before a tick. *)
Definition L (t : nat) : nat := length (filter is_lost (map (e_fate E) (seq 0 t))).
Lemma L_split t t' : t <= t' -> L t' = L t + answers_lost E t t'.
Proof.
  intros H. unfold L, answers_lost. replace t' with (t + (t' - t)) at 1 by lia. rewrite seq_app, map_app, filter_app, app_length. auto.
Qed.
Lemma L_mono t t' : t <= t' -> L t <= L t'.
Proof. intros H. rewrite (L_split t t' H). lia. Qed.
Lemma L_S t : L (S t) = L t + if is_lost (e_fate E t) then 1 else 0.
Proof. unfold L. rewrite seq_S, map_app, filter_app, app_length. cbn [map filter plus]. destruct (is_lost _); auto. Qed.

(* The managers. *)
Definition K : SlotKind E any_dim False := loose E HE any_dim False (fun H => False_ind _ H).
Notation ok := (CensOk any_dim).

Definition wt (w : World) : nat := members f (all_data w) + members f (w_dropped w).
Definition CNode (nd : Node N) : Prop :=
  Forall (fun s => ok (fst s) (snd s)) (nd_heap nd) /\
  forall ns p, assoc ns (nd_tbl nd) = Some p -> exists m, nth_error (nd_heap nd) p = Some (ns, m).
Definition CInv (w : World) : Prop := Forall (fun e => CNode (snd e)) (w_nodes w).
Notation tags_le := OriginProofs.tags_le.
Notation tagged := OriginProofs.tagged.

Fixpoint pays {R} (T : tags) (p : proc' R) (n : nat) (Q : R -> nat -> Prop) : Prop :=
  match p with
  | Ret r => Q r n
  | Act _ g k => forall w t x w' t', CInv w -> tags_le T (tagged w) -> g w t = Ok ((x, w'), t') ->
      CInv w' /\ tags_le (tagged w) (tagged w') /\ t <= t' /\
      exists n', wt w' + n' + L t <= wt w + n + L t' /\ pays (tagged w') (k x) n' Q
  | Fork q k => exists n1 n2, n1 + n2 <= n /\ pays T q n1 (fun _ _ => True) /\ pays T k n2 Q
  end.

Lemma pays_more {R} (p : proc' R) : forall T T' n (Q : R -> nat -> Prop), tags_le T T' -> pays T p n Q -> pays T' p n Q.
Proof.
  induction p as [R r|R A o g k IH|R q IHq k IHk]; intros T T' n Q HK; cbn [pays]; auto.
  - intros H w t x w' t' Hw Ht. apply H; auto. eapply le_trans; eauto.
  - intros (n1 & n2 & H0 & H1 & H2). exists n1, n2. splits; eauto.
Qed.
Lemma pays_bind {R S} (p : proc' R) : forall T n (k : R -> proc' S) (Q : R -> nat -> Prop) Q', pays T p n Q ->
  (forall r m T', tags_le T T' -> Q r m -> pays T' (k r) m Q') -> pays T (pbind p k) n Q'.
Proof.
  revert S. induction p as [R r|R A o g k0 IH|R q IHq k0 IHk]; intros S T n k Q Q' Hp Hf; cbn [pbind pays] in *.
  - apply Hf; auto. intros a p ns H; exact H.
  - intros w t x w' t' Hw Ht He. destruct (Hp _ _ _ _ _ Hw Ht He) as (H1 & H2 & H3 & n' & H4 & H5). splits; auto. exists n'. split; auto.
    eapply IH; [exact H5|]. intros r m T' HK Hr. apply Hf; auto. eapply le_trans; [|exact HK]. eapply le_trans; eauto.
  - destruct Hp as (n1 & n2 & H0 & H1 & H2). exists n1, n2. splits; auto. eapply IHk; eauto.
Qed.
Lemma pays_weak {R} (p : proc' R) : forall T n n' (Q Q' : R -> nat -> Prop), pays T p n Q -> n <= n' -> (forall r m, Q r m -> Q' r (m + (n' - n))) -> pays T p n' Q'.
Proof.
  induction p as [R r|R A o g k IH|R q IHq k IHk]; intros T n n' Q Q' Hp Hn HQ; cbn [pays] in *.
  - replace n' with (n + (n' - n)) by lia. auto.
  - intros w t x w' t' Hw Ht He. destruct (Hp _ _ _ _ _ Hw Ht He) as (H1 & H2 & H3 & m & H4 & H5). splits; auto. exists (m + (n' - n)). split; [lia|].
    eapply IH; [exact H5|lia|]. intros r j Hj. replace (m + (n' - n) - m) with (n' - n) by lia. auto.
  - destruct Hp as (n1 & n2 & H0 & H1 & H2). exists n1, (n2 + (n' - n)). splits; auto; [lia|]. eapply IHk; [exact H2|lia|].
    intros r j Hj. replace (n2 + (n' - n) - n2) with (n' - n) by lia. auto.
Qed.

(* p takes i members and returns, with a result r that meets Q, o r of them. *)
Definition tri {R} (p : proc' R) (i : nat) (Q : R -> Prop) (o : R -> nat) : Prop :=
  forall T n, pays T p (i + n) (fun r m => Q r /\ o r + n <= m).

Lemma tri_le {R} (p : proc' R) i i' (Q Q' : R -> Prop) o o' : tri p i Q o -> i <= i' -> (forall r, Q r -> Q' r /\ o' r <= o r + (i' - i)) -> tri p i' Q' o'.
Proof.
  intros H Hi HQ T n. eapply pays_weak; [apply (H T n)|lia|]. intros r m (H1 & H2). destruct (HQ _ H1). split; auto. lia.
Qed.
Lemma tri_ret {R} (r : R) i (Q : R -> Prop) o : Q r -> o r <= i -> tri (Ret r) i Q o.
Proof. intros H1 H2 T n. cbn [pays]. split; auto. lia. Qed.
Lemma tri_bind {R S} (p : proc' R) (k : R -> proc' S) i j Q o Q' o' : tri p i Q o -> (forall r, Q r -> tri (k r) (o r + j) Q' o') ->
  tri (pbind p k) (i + j) Q' o'.
Proof.
  intros Hp Hk T n. replace (i + j + n) with (i + (j + n)) by lia. eapply pays_bind; [apply Hp|]. intros r m T' _ (Hr & Hm). cbn beta in Hm.
  eapply pays_weak; [apply (Hk r Hr T' n)|lia|]. intros r' m' (H1 & H2). split; auto. lia.
Qed.
Lemma tri_bind0 {R S} (p : proc' R) (k : R -> proc' S) i Q o Q' o' : tri p i Q o -> (forall r, Q r -> tri (k r) (o r) Q' o') ->
  tri (pbind p k) i Q' o'.
Proof. intros Hp Hk. replace i with (i + 0) by lia. eapply tri_bind; [exact Hp|]. intros r Hr. rewrite Nat.add_0_r. auto. Qed.

(* Processes that carry nothing. *)
Definition none {R} : R -> nat := fun _ => 0.
Definition idle {R} (p : proc' R) : Prop := tri p 0 any none.
Lemma idle_then {R S} (p : proc' R) (k : R -> proc' S) j Q' o' : idle p -> (forall r, tri (k r) j Q' o') -> tri (pbind p k) j Q' o'.
Proof. intros Hp Hk. apply (tri_bind p k 0 j any none); auto. Qed.
Lemma idle_of {R} (p : proc' R) Q o : tri p 0 Q o -> idle p.
Proof. intros H. eapply tri_le; [exact H|lia|]. intros r Hr. split; [exact I|cbv [none]; lia]. Qed.

(* What time may do. *)
Definition steps {A} (m : M A) (Q : A -> Prop) : Prop := forall t x t', m t = Ok (x, t') -> t <= t' /\ Q x.
Lemma steps_ret {A} (x : A) (Q : A -> Prop) : Q x -> steps (ret x) Q.
Proof. intros H t y t' He. unfold ret in He. inversion He; subst. auto. Qed.
Lemma steps_bind {A B} (m : M A) (k : A -> M B) P Q : steps m P -> (forall x, P x -> steps (k x) Q) -> steps (bind m k) Q.
Proof.
  intros Hm Hk t x t'. unfold bind. destruct (m t) as [[a t1]| |] eqn:He; try discriminate. intros H.
  destruct (Hm _ _ _ He) as (H1 & H2). destruct (Hk _ H2 _ _ _ H). split; auto. lia.
Qed.
Lemma steps_weak {A} (m : M A) (Q Q' : A -> Prop) : steps m Q -> (forall x, Q x -> Q' x) -> steps m Q'.
Proof. intros H HQ t x t' He. destruct (H _ _ _ He). auto. Qed.
Lemma steps_panic {A} (Q : A -> Prop) : steps panic Q. Proof. intros t x t' H. discriminate. Qed.
Lemma steps_fuel {A} (Q : A -> Prop) : steps out_of_fuel Q. Proof. intros t x t' H. discriminate. Qed.
Lemma steps_tick : steps tick any. Proof. intros t x t' H. unfold tick in H. inversion H; subst. split; [lia|exact I]. Qed.
Lemma steps_lift {A} (o : outcome A) : steps (lift o) any.
Proof. intros t x t'. unfold lift. destruct o; try discriminate. intros H. inversion H; subst. split; [lia|exact I]. Qed.
Lemma steps_index {A} (l : list A) i : steps (index l i) any.
Proof. unfold index. destruct (nth_error l i); [apply steps_ret; exact I|apply steps_panic]. Qed.
Lemma steps_order {A} (l : list A) : steps (any_order E l) any.
Proof. unfold any_order. eapply steps_bind; [apply steps_tick|]. intros. apply steps_ret. exact I. Qed.
Lemma steps_index_all {A} (l : list A) idx : steps (index_all l idx) any.
Proof.
  induction idx; cbn [index_all]; [apply steps_ret; exact I|]. eapply steps_bind; [apply steps_index|]. intros. eapply steps_bind; [exact IHidx|].
  intros. apply steps_ret. exact I.
Qed.
Lemma steps_shuffle {A} (l : list A) : steps (shuffle E l) any.
Proof.
  unfold shuffle. generalize (seq 0 (length l)). intros is. revert l. induction is as [|i is IH]; intros l; cbn [shuffle_loop]; [apply steps_ret; exact I|].
  eapply steps_bind; [apply steps_tick|]. intros. cbv zeta. eapply steps_bind; [apply steps_index|]. intros. eapply steps_bind; [apply steps_index|]. intros. apply IH.
Qed.
Lemma steps_want c naddrs mean margin lens other size : steps (balance_want c naddrs mean margin lens other size) any.
Proof.
  unfold balance_want. cbv zeta.
  repeat match goal with |- steps (ret _) _ => apply steps_ret; exact I | |- steps panic _ => apply steps_panic | |- steps (match ?x with _ => _ end) _ => destruct x end.
Qed.
Lemma wp_steps {A} (m : M A) (Q : A -> Prop) : (forall t, wp m t (fun x t' => t <= t' /\ Q x)) -> steps m Q.
Proof. intros H t x t' He. specialize (H t). unfold wp in H. rewrite He in H. exact H. Qed.

(* ---- the primitive actions ---- *)
Lemma tri_same {A} o (g : World -> M (A * World)) : (forall w t x w' t', g w t = Ok ((x, w'), t') -> w' = w /\ t <= t') -> idle (Act o g Ret).
Proof.
  intros H T n. cbn [pays]. intros w t x w' t' Hw Ht He. destruct (H _ _ _ _ _ He) as (-> & Htt). splits; auto; [intros a p ns Hp; exact Hp|].
  exists (0 + n). pose proof (L_mono _ _ Htt). split; [lia|]. split; [exact I|]. cbv [none]. lia.
Qed.
Lemma tri_local {A} (m : M A) : steps m any -> idle (local m : proc' A).
Proof.
  intros H. apply tri_same. intros w t x w' t'. unfold bind, ret. destruct (m t) as [[y t1]| |] eqn:He; try discriminate.
  intros Hx. inversion Hx; subst. split; auto. eapply H; eauto.
Qed.
Lemma tri_local_post {A} (m : M A) i (Q : A -> Prop) o : steps m (fun x => Q x /\ o x <= i) -> tri (local m : proc' A) i Q o.
Proof.
  intros H T n. cbn [local pays]. intros w t x w' t' Hw Ht. unfold bind, ret. destruct (m t) as [[y t1]| |] eqn:He; try discriminate.
  intros Hx. inversion Hx; subst. destruct (H _ _ _ He) as (H1 & H2 & H3). splits; auto; [intros a p ns Hp; exact Hp|].
  exists (i + n). pose proof (L_mono _ _ H1). split; [lia|]. split; auto. lia.
Qed.
Lemma wt_drop ns ds w : wt (drop ns ds w) = wt w + cn ns ds.
Proof. unfold wt, drop, all_data. cbn [w_nodes w_dropped]. rewrite members_app. change (map (pair ns) ds) with (tag ns ds). rewrite members_tag. lia. Qed.
Lemma tri_drop ns ds : tri (drop_dps ns ds : proc' unit) (cn ns ds) any none.
Proof.
  intros T n. cbn [drop_dps pays]. intros w t x w' t' Hw Ht He. inversion He; subst. splits; auto; [intros a p k Hp; exact Hp|].
  exists n. rewrite wt_drop. split; [lia|]. split; [exact I|]. cbv [none]. lia.
Qed.
Lemma tri_namespaces a : idle (h_namespaces E a : proc' _).
Proof.
  apply tri_same. intros w t x w' t'. destruct (assoc a (w_nodes w)).
  - unfold bind. destruct (any_order E _ t) as [[y t1]| |] eqn:He; try discriminate. intros H. inversion H; subst. split; auto. eapply steps_order; eauto.
  - intros H. inversion H; auto.
Qed.

Definition oget {A} (i : nat) (o : A -> nat) (x : option A) : nat := match x with Some y => o y | None => i end.
Lemma tri_rpc {A} a (h : proc' A) i (Q : A -> Prop) o : i <= 1 -> tri h i Q o -> tri (rpc E a h) i (opt Q) (oget i o).
Proof.
  intros Hi Hh T n. unfold rpc. cbn [pbind pays]. intros w t x w' t' Hw Ht He. unfold bind, tick, ret in He. inversion He; subst. clear He.
  splits; auto; [intros b p k Hp; exact Hp|]. rewrite L_S.
  destruct (match assoc a (w_nodes w') with Some _ => e_fate E t | None => ReqLost end) eqn:Hx.
  - exists (i + n). split; [lia|]. eapply pays_bind; [apply Hh|]. intros r m T' _ Hr. exact Hr.
  - exists (i + n). split; [lia|]. cbn [pays opt oget]. auto.
  - assert (Hl : e_fate E t = RespLost) by (destruct (assoc a (w_nodes w')); congruence). rewrite Hl. cbn [is_lost].
    exists (i + n + 1). split; [lia|]. cbn [pays]. exists i, (i + n). split; [lia|]. split; [|cbn [opt oget]; auto].
    eapply (pays_bind h _ _ _ (fun _ _ => True)); [eapply (pays_weak h _ (i + 0)); [apply (Hh _ 0)|lia|intros; exact I]|]. intros; exact I.
Qed.
Lemma idle_rpc {A} a (h : proc' A) : idle h -> idle (rpc E a h).
Proof. intros H. eapply idle_of. apply tri_rpc; [lia|exact H]. Qed.

(* ---- slots ---- *)
Lemma cset_inv (w : World) a nd : CInv w -> CNode nd -> CInv (set_node w a nd).
Proof. intros H1 Hn. unfold CInv. cbn [set_node w_nodes]. apply upsert_forall; auto. Qed.
Lemma cnode_inv (w : World) a nd : CInv w -> assoc a (w_nodes w) = Some nd -> CNode nd.
Proof. intros H1 Ha. apply assoc_In in Ha. destruct Ha as (k & Hk). unfold CInv in H1. rewrite Forall_forall in H1. exact (H1 _ Hk). Qed.

Lemma members_perm l1 l2 : Permutation l1 l2 -> members f l1 = members f l2.
Proof.
  intros H. unfold members. induction H; cbn [filter]; auto; try congruence.
  - destruct (f _ _); cbn [length]; congruence.
  - destruct (f (fst x) (snd x)), (f (fst y) (snd y)); auto.
Qed.

Definition mgr_pays {A} ns (g : CM N -> M (A * CM N)) (h : A -> list DP) i (Q : A -> Prop) (o : A -> nat) : Prop :=
  forall m t x m' t', ok ns m -> g m t = Ok ((x, m'), t') ->
    t <= t' /\ ok ns m' /\ Q x /\ cn ns (ms m') + cn ns (h x) + o x <= cn ns (ms m) + i.

Lemma pays_slot {A} (T : tags) a p ns (g : CM N -> M (A * CM N)) h i Q o n : T a p ns -> mgr_pays ns g h i Q o ->
  pays T (slot_access a p g h) (i + n) (fun r m => Q r /\ o r + n <= m).
Proof.
  intros Hk Hf. cbn [slot_access pays]. intros w t x w' t' Hw Ht. destruct (Ht _ _ _ Hk) as (nd & m & Ha & Hp). rewrite Ha, Hp. unfold bind.
  destruct (g m t) as [[[y m'] t1]| |] eqn:He; try discriminate. unfold ret. intros H. inversion H; subst. clear H.
  pose proof (cnode_inv _ _ _ Hw Ha) as (N1 & N2).
  assert (Hm : ok ns m) by (rewrite Forall_forall in N1; exact (N1 _ (nth_error_In _ _ Hp))).
  destruct (Hf _ _ _ _ _ Hm He) as (H1 & H2 & H3 & H4).
  assert (Hh : forall q n mm, nth_error (nd_heap nd) q = Some (n, mm) -> exists m2, nth_error (list_set (nd_heap nd) p (ns, m')) q = Some (n, m2)).
  { intros q k mm Hq. destruct (Nat.eq_dec p q) as [->|Hne].
    - exists m'. rewrite Hp in Hq. inversion Hq; subst. eapply set_nth_same; eauto.
    - exists mm. rewrite set_nth_other; auto. }
  set (nd' := MkNode (list_set (nd_heap nd) p (ns, m')) (nd_tbl nd) (nd_thresh nd)) in *.
  splits; auto.
  - apply (cset_inv w a nd'); auto. split; cbn [nd' nd_heap nd_tbl].
    + apply forall_set; auto.
    + intros k q Hq. destruct (N2 _ _ Hq) as (mm & Hmm). eauto.
  - apply (tagged_set w a nd nd' Ha). exact Hh.
  - exists (o x + n). split; [|split; auto]. pose proof (L_mono _ _ H1).
    destruct (upd_data w a nd Ha) as (rest & U1 & U2). destruct (slot_data nd p ns m Hp) as (rest2 & S1 & S2).
    specialize (U2 nd' ns (h x)). specialize (S2 m' (nd_tbl nd) (nd_thresh nd)). fold nd' in S2.
    unfold wt. apply members_perm in U1, U2, S1, S2. rewrite U1, U2. rewrite !members_app in *. rewrite !members_tag in *.
    cbn [drop set_node w_dropped]. rewrite members_app. change (map (pair ns) (h x)) with (tag ns (h x)). rewrite members_tag. lia.
Qed.
Lemma tri_access_g {A} a ns (g : CM N -> M (A * CM N)) h i Q o : mgr_pays ns g h i Q o -> tri (access_g a ns g h) i (opt Q) (oget i o).
Proof.
  intros Hf T n. unfold access_g, lookup. cbn [pbind pays]. intros w t x w' t' Hw Ht H. inversion H; subst. clear H.
  splits; auto; [intros b p k Hp; exact Hp|]. exists (i + n). split; [lia|]. destruct (assoc a (w_nodes w')) as [nd|] eqn:Ha; [|cbn [pays opt oget]; auto].
  destruct (assoc ns (nd_tbl nd)) as [p|] eqn:Hp; [|cbn [pays opt oget]; auto].
  pose proof (cnode_inv _ _ _ Hw Ha) as (_ & N2). destruct (N2 _ _ Hp) as (m & Hm).
  eapply pays_bind; [eapply pays_slot; [|exact Hf]; exists nd, m; auto|]. intros r m' T' _ Hr. exact Hr.
Qed.
Lemma tri_access {A} a ns (g : CM N -> M (A * CM N)) i Q o : mgr_pays ns g (fun _ => []) i Q o -> tri (access a ns g) i (opt Q) (oget i o).
Proof. apply tri_access_g. Qed.

(* The managers pay. *)
Lemma mgr_wp {A} ns (g : CM N -> M (A * CM N)) h i (Q : A -> Prop) o (before : CM N -> list DP) (after : A -> list DP) :
  (forall m t, ok ns m -> wp (g m) t (fun r t' => t <= t' /\ ok ns (snd r) /\ Q (fst r) /\ conserves E t t' (before m) (ms (snd r) ++ after (fst r)))) ->
  (forall m, cn ns (before m) <= cn ns (ms m) + i) -> (forall x, Q x -> cn ns (h x) + o x <= cn ns (after x)) -> mgr_pays ns g h i Q o.
Proof.
  intros Hw Hb Ha m t x m' t' Hm He. specialize (Hw m t Hm). unfold wp in Hw. rewrite He in Hw. cbn [fst snd] in Hw.
  destruct Hw as (H1 & H2 & H3 & H4). splits; auto. apply (cn_conserves ns) in H4. rewrite cn_app in H4. specialize (Hb m). specialize (Ha x H3). lia.
Qed.
Definition keeper {A} ns (g : CM N -> M (A * CM N)) : Prop := forall m t, ok ns m ->
  wp (g m) t (fun r t' => t <= t' /\ ok ns (snd r) /\ conserves E t t' (ms m) (ms (snd r))).
Lemma keeper_pays {A} ns (g : CM N -> M (A * CM N)) : keeper ns g -> mgr_pays ns g (fun _ => []) 0 any none.
Proof.
  intros H. apply (mgr_wp ns g _ 0 any none (fun m => ms m) (fun _ => [])); [|intros; lia|intros; cbv [none]; rewrite ?cn_nil; lia].
  intros m t Hm. eapply wp_mono; [apply H; exact Hm|]. intros r t' (H1 & H2 & H3). rewrite app_nil_r. splits; auto. exact I.
Qed.
Lemma idle_access {A} a ns (g : CM N -> M (A * CM N)) : keeper ns g -> idle (access a ns g).
Proof. intros H. eapply idle_of. apply tri_access. apply keeper_pays. exact H. Qed.
Lemma keeper_unit ns (g : CM N -> M (CM N)) : (forall m t, ok ns m -> wp (g m) t (fun m' t' => t <= t' /\ ok ns m' /\ conserves E t t' (ms m) (ms m'))) ->
  keeper ns (fun m => do m' <- g m; ret (tt, m')).
Proof. intros H m t Hm. apply wp_bind. eapply wp_mono; [apply H; exact Hm|]. intros m' t' H'. apply wp_ret. exact H'. Qed.
Lemma keeper_read {A} ns (g : CM N -> A) : keeper ns (fun m => ret (g m, m)).
Proof. intros m t Hm. apply wp_ret. cbn [snd]. splits; auto. apply conserves_refl. Qed.

Lemma idle_h_vec a ns : idle (h_vec a ns : proc' _). Proof. apply idle_access, (keeper_read ns cm_vec). Qed.
Lemma idle_h_len a ns : idle (h_len_dp a ns : proc' _). Proof. apply idle_access, (keeper_read ns cm_len_dp). Qed.
Lemma idle_h_expire a ns : idle (h_expire E a ns). Proof. apply idle_access, keeper_unit. intros. apply (kind_expire K); auto. Qed.
Lemma idle_h_mem_trim a ns : idle (h_mem_trim E a ns). Proof. apply idle_access, keeper_unit. intros. apply (kind_mem_trim K); auto. Qed.
Lemma idle_h_move a ns : idle (h_move_vector E a ns). Proof. apply idle_access. intros m t Hm. apply (kind_move K); auto. Qed.
Lemma idle_h_internal a ns n : idle (h_distribute_internal E a ns n). Proof. apply idle_access, keeper_unit. intros. apply (kind_internal K); auto. Qed.
Lemma idle_h_split a ns lo hi : idle (h_split E a ns lo hi). Proof. apply idle_access, keeper_unit. intros. apply (kind_split K); auto. Qed.
Lemma idle_h_merge a ns lo hi : idle (h_merge E a ns lo hi). Proof. apply idle_access, keeper_unit. intros. apply (kind_merge K); auto. Qed.
Lemma idle_h_nearest_vec a ns v : idle (h_nearest_vec E a ns v).
Proof.
  apply idle_access. intros m t Hm. apply wp_bind. eapply wp_mono; [apply (kind_nearest K ns m v 1%Z false t); [lia|exact Hm]|].
  intros [r m'] t' (H1 & H2 & H3 & H4 & H5). apply wp_ret. cbn [fst snd] in *. rewrite app_nil_r in H5. auto.
Qed.
Lemma dim_any ns (d : DP) : any_dim ns (length (dp_vec d)). Proof. exact I. Qed.
Lemma add_pays ns d : mgr_pays ns (fun m => cm_add E m d) (unless d) (cn ns [d]) any none.
Proof.
  apply (mgr_wp ns _ _ _ any none (fun m => ms m ++ [d]) (unless d)); [|intros m; rewrite cn_app; lia|intros; cbv [none]; lia].
  intros m t Hm. eapply wp_mono; [apply (kind_add K ns m d t Hm (dim_any ns d))|]. intros r t' (H1 & H2 & _ & H3). splits; auto. exact I.
Qed.
Lemma neg_pays {A} ns (g : CM N -> M (A * CM N)) h i Q o (n : Z) : ((n < 0)%Z -> forall m t, g m t = Panic) -> ((0 <= n)%Z -> mgr_pays ns g h i Q o) -> mgr_pays ns g h i Q o.
Proof. intros H1 H2. destruct (Z.ltb_spec n 0); [|auto]. intros m t x m' t' _ He. rewrite H1 in He; [discriminate|auto]. Qed.
Lemma drain_u_pays ns n : mgr_pays ns (fun m => cm_drain_unordered E m n) (fun _ => []) 0 any (cn ns).
Proof.
  apply (neg_pays _ _ _ _ _ _ n); [intros Hn m t; unfold cm_drain_unordered; assert ((n <? 0)%Z = true) as -> by lia; auto|]. intros Hn.
  apply (mgr_wp ns _ _ _ any (cn ns) (fun m => ms m) (fun ds => ds)); [|intros m; lia|intros; cbv [none]; rewrite ?cn_nil; lia].
  intros m t Hm. eapply wp_mono; [apply (kind_drain_u K ns m n t Hn Hm)|]. intros r t' (H1 & H2 & _ & H3). splits; auto. exact I.
Qed.
Lemma drain_o_pays ns n (h : list DP -> list DP) o : (forall ds, cn ns (h ds) + o ds <= cn ns ds) -> mgr_pays ns (fun m => cm_drain_ordered E m n) h 0 any o.
Proof.
  intros Ho. apply (neg_pays _ _ _ _ _ _ n); [intros Hn m t; unfold cm_drain_ordered; assert ((n <? 0)%Z = true) as -> by lia; auto|]. intros Hn.
  apply (mgr_wp ns _ _ _ any o (fun m => ms m) (fun ds => ds)); [|intros m; lia|intros; auto].
  intros m t Hm. eapply wp_mono; [apply (kind_drain_o K ns m n t Hn Hm)|]. intros r t' (H1 & H2 & _ & H3). splits; auto. exact I.
Qed.
Lemma lookup_pays ns v n (drain : bool) : mgr_pays ns (fun m => cm_knn_lookup E m v n drain) (fun _ => []) 0 any (fun ds => if drain then cn ns ds else 0).
Proof.
  apply (neg_pays _ _ _ _ _ _ n); [intros Hn m t; unfold cm_knn_lookup; assert ((n <? 0)%Z = true) as -> by lia; auto|]. intros Hn.
  apply (mgr_wp ns _ _ _ any _ (fun m => ms m) (fun ds => if drain then ds else [])); [|intros m; lia|intros; destruct drain; rewrite ?cn_nil; lia].
  intros m t Hm. eapply wp_mono; [apply (kind_knn K ns m v n drain t Hn Hm)|]. intros r t' (H1 & H2 & _ & H3). splits; auto. exact I.
Qed.
Lemma nearest_pays ns v n (drain : bool) : (0 <= n)%Z -> mgr_pays ns (fun m => do ' (o, m') <- cm_nearest E m v n drain; ret (match o with Some cs => cs | None => [] end, m'))
  (fun _ => []) 0 (fun cs => length cs <= Z.to_nat n /\ Forall (cen_ok any_dim ns) cs) (fun cs => if drain then cn ns (stored cs) else 0).
Proof.
  intros Hn. apply (mgr_wp ns _ _ _ _ _ (fun m => ms m) (fun cs => if drain then stored cs else [])); [|intros m; lia|intros; destruct drain; rewrite ?cn_nil; lia].
  intros m t Hm. apply wp_bind. eapply wp_mono; [apply (kind_nearest K ns m v n drain t Hn Hm)|]. intros [r m'] t' (H1 & H2 & H3 & H4 & H5). apply wp_ret.
  cbn [fst snd] in *. splits; auto.
Qed.

(* ---- handlers ---- *)
Lemma tri_factory a v : tri (factory a v : proc' (CM N)) 0 (fun m => cm_cs m = []) none.
Proof.
  intros T n. cbn [factory pays]. intros w t x w' t' Hw Ht. destruct (assoc a (w_nodes w)); [|discriminate]. intros H. inversion H; subst.
  splits; auto; [intros b p k Hp; exact Hp|]. exists (0 + n). split; [lia|]. split; [reflexivity|cbv [none]; lia].
Qed.
Lemma tri_first_add ns m d : cm_cs m = [] -> tri (first_add E ns m d) (cn ns [d]) (ok ns) (fun m' => cn ns (ms m')).
Proof.
  intros Hm T n. cbn [first_add pays]. intros w t x w' t' Hw Ht. unfold bind. destruct (cm_add E m d t) as [[[b m1] t1]| |] eqn:He; try discriminate.
  unfold ret. intros H. inversion H; subst. clear H.
  assert (Hok : ok ns m) by (split; [exists 0; exact I|rewrite Hm; constructor]).
  destruct (add_pays ns d _ _ _ _ _ Hok He) as (H1 & H2 & _ & H3). rewrite Hm in H3. cbn [stored map concat] in H3. change (cn ns []) with 0 in H3. cbv [none] in H3.
  splits; auto; [intros a p k Hp; exact Hp|]. exists (cn ns (ms x) + n). rewrite wt_drop. pose proof (L_mono _ _ H1). split; [lia|]. split; auto.
Qed.
Lemma tri_add_slot a ns m : ok ns m -> tri (add_slot a ns m : proc' unit) (cn ns (ms m)) any none.
Proof.
  intros Hm T n. cbn [add_slot pays]. intros w t x w' t' Hw Ht. destruct (assoc a (w_nodes w)) as [nd|] eqn:Ha; try discriminate.
  intros H. inversion H; subst. clear H. pose proof (cnode_inv _ _ _ Hw Ha) as (N1 & N2).
  assert (Hh : forall q n mm, nth_error (nd_heap nd) q = Some (n, mm) -> exists m2, nth_error (nd_heap nd ++ [(ns, m)]) q = Some (n, m2)).
  { intros q k mm Hq. exists mm. rewrite nth_error_app1; auto. apply nth_error_Some. congruence. }
  set (nd' := MkNode (nd_heap nd ++ [(ns, m)]) (upsert ns (length (nd_heap nd)) (nd_tbl nd)) (nd_thresh nd)) in *. splits; auto.
  - apply (cset_inv w a nd'); auto. split; cbn [nd' nd_heap nd_tbl].
    + apply Forall_app. auto.
    + intros k q. destruct (str_eqb k ns) eqn:Hn.
      * apply str_eqb_eq in Hn. subst k. rewrite assoc_upsert_same. intros H. inversion H; subst. exists m.
        rewrite nth_error_app2, Nat.sub_diag; auto.
      * rewrite assoc_upsert_other; [|intros ->; rewrite str_eqb_refl in Hn; discriminate]. intros Hq. destruct (N2 _ _ Hq) as (mm & Hmm). eauto.
  - apply (tagged_set w a nd nd' Ha). exact Hh.
  - exists n. split; [|split; [exact I|cbv [none]; lia]]. destruct (upd_data w a nd Ha) as (rest & U1 & U2). specialize (U2 nd' ns []).
    assert (Hd : members f (node_data nd') = members f (node_data nd) + cn ns (ms m)).
    { unfold node_data, nd'. cbn [nd_heap]. rewrite map_app, concat_app, members_app. cbn [map concat fst snd]. rewrite app_nil_r, members_tag. auto. }
    apply members_perm in U1, U2. rewrite !members_app in *. unfold wt.
    change (all_data (set_node w a nd')) with (all_data (drop ns [] (set_node w a nd'))). rewrite U1, U2. cbn [set_node w_dropped]. lia.
Qed.
Lemma tri_h_add a ns d : tri (h_add E a ns d) (cn ns [d]) (fun b => b = true) none.
Proof.
  unfold h_add. eapply tri_bind0; [apply tri_access_g, add_pays|]. intros [b|] _; cbn [oget]; [apply tri_ret; auto|].
  apply (tri_bind _ _ 0 _ _ none _ _ (tri_factory a (dp_vec d))). intros m Hm. cbn [none plus].
  eapply tri_bind0; [apply tri_first_add; exact Hm|]. intros m' Hm'. cbn beta.
  eapply tri_bind0; [apply tri_add_slot; exact Hm'|]. intros. apply tri_ret; auto.
Qed.
Lemma tri_h_lookup a ns v k d : tri (h_knn_lookup E a ns v k d) 0 any (oget 0 (fun ds => if d then cn ns ds else 0)).
Proof. eapply tri_le; [apply tri_access, (lookup_pays ns v k d)|lia|]. intros r _. split; [exact I|lia]. Qed.
Lemma tri_h_nearest a ns v n d : (0 <= n)%Z -> tri (h_nearest E a ns v n d) 0 (opt (fun cs => length cs <= Z.to_nat n /\ Forall (cen_ok any_dim ns) cs))
  (oget 0 (fun cs => if d then cn ns (stored cs) else 0)).
Proof. intros Hn. apply tri_access. apply nearest_pays. exact Hn. Qed.

Create HintDb copies.
Lemma idle_ret {R} (r : R) : idle (Ret r : proc' R). Proof. apply tri_ret; [exact I|auto]. Qed.
Lemma idle_bind {R S} (p : proc' R) (k : R -> proc' S) : idle p -> (forall r, idle (k r)) -> idle (pbind p k).
Proof. intros H1 H2. apply idle_then; auto. Qed.
Lemma idle_local {A} (m : M A) : steps m any -> idle (local m : proc' A). Proof. apply tri_local. Qed.
Lemma idle_panic {A} : idle (local panic : proc' A). Proof. apply idle_local, steps_panic. Qed.
Lemma idle_fuel {A} : idle (local out_of_fuel : proc' A). Proof. apply idle_local, steps_fuel. Qed.
Hint Resolve idle_ret idle_panic idle_fuel tri_namespaces idle_h_vec idle_h_len idle_h_expire idle_h_mem_trim idle_h_move idle_h_internal idle_h_split idle_h_merge
  idle_h_nearest_vec steps_order steps_lift steps_index steps_index_all steps_shuffle steps_want : copies.
Ltac os :=
  repeat first
    [ progress cbn beta
    | solve [auto with copies]
    | match goal with
      | |- forall _, _ => intro
      | |- idle (match ?x with _ => _ end) => destruct x
      | |- idle (let (_, _) := ?x in _) => destruct x
      | |- idle (pbind _ _) => apply idle_bind
      | |- idle (rpc _ _ _) => apply idle_rpc
      | |- idle (local _) => apply idle_local
      end ].
Lemma idle_meta_loop a nss : idle (meta_loop a nss : proc' _).
Proof.
  induction nss as [|ns nss IH]; cbn [meta_loop]; [os|]. apply idle_bind; [|os]. apply idle_access, (keeper_read ns (fun m => (length (cm_cs m), cm_len_dp m))).
Qed.
Hint Resolve idle_meta_loop : copies.
Lemma idle_h_meta a : idle (h_meta E a). Proof. unfold h_meta. os. Qed.
Hint Resolve idle_h_meta : copies.

(* ---- clients ---- *)
Lemma idle_c_namespaces a : idle (c_namespaces E a). Proof. unfold c_namespaces. os. Qed.
Lemma idle_c_vec_of a ns : idle (c_vec_of E a ns). Proof. unfold c_vec_of. os. Qed.
Lemma idle_c_expire a ns : idle (c_expire_of E a ns). Proof. unfold c_expire_of. os. Qed.
Lemma idle_c_mem_trim a ns : idle (c_mem_trim_of E a ns). Proof. unfold c_mem_trim_of. os. Qed.
Lemma idle_c_di a ns n : idle (c_distribute_internal E a ns n). Proof. unfold c_distribute_internal. os. Qed.
Lemma idle_c_split a ns lo hi : idle (c_split E a ns lo hi). Proof. unfold c_split. os. Qed.
Lemma idle_c_merge a ns lo hi : idle (c_merge E a ns lo hi). Proof. unfold c_merge. os. Qed.
Lemma idle_c_len a ns : idle (c_len_dp E a ns). Proof. unfold c_len_dp. os. Qed.
Lemma idle_c_nearest_vec a ns v : idle (c_nearest_vec E a ns v). Proof. unfold c_nearest_vec. os. Qed.
Lemma idle_c_meta a : idle (c_meta E a). Proof. unfold c_meta. os. Qed.
Hint Resolve idle_c_namespaces idle_c_vec_of idle_c_expire idle_c_mem_trim idle_c_di idle_c_split idle_c_merge idle_c_len idle_c_nearest_vec idle_c_meta : copies.

Definition kept ns d (b : bool) : nat := if b then 0 else cn ns [d].
Lemma cn_one ns d : cn ns [d] <= 1. Proof. unfold cn. cbn [filter]. destruct (f ns d); cbn [length]; lia. Qed.
Lemma tri_c_add a ns d : tri (c_add_dp E a ns d) (cn ns [d]) any (kept ns d).
Proof.
  unfold c_add_dp. eapply tri_bind0; [apply tri_rpc; [apply cn_one|apply tri_h_add]|]. intros [b|] H; apply tri_ret; try exact I; cbn [oget kept opt] in *; [subst b; auto|lia].
Qed.
Lemma tri_c_lookup a ns v k (d : bool) : tri (c_lookup E a ns v k d) 0 any (fun ds => if d then cn ns ds else 0).
Proof.
  unfold c_lookup. destruct (_ <? _)%Z.
  - intros T n. cbn [local pays]. intros; discriminate.
  - eapply tri_bind0; [apply tri_rpc; [lia|apply tri_h_lookup]|]. intros [[l|]|] _; apply tri_ret; try exact I; cbn [oget join]; auto; destruct d; rewrite ?cn_nil; lia.
Qed.
Lemma reinit_pays ns : forall (cs : list Cen), Forall (cen_ok any_dim ns) cs ->
  steps (reinit E cs) (fun cs' => Forall (cen_ok any_dim ns) cs' /\ cn ns (stored cs') <= cn ns (stored cs)).
Proof.
  induction cs as [|c cs IH]; intros H; cbn [reinit]; [apply steps_ret; auto|]. inversion H as [|? ? Hc Hcs]; subst.
  destruct (c_dps c) as [|d ds] eqn:Hds; [intros t x t' He; discriminate|].
  eapply (steps_bind _ _ (fun d' => d' = d)); [intros t x t' He; inversion He; auto|]. intros d' ->.
  destruct Hc as (n & _ & Hv & Hc). rewrite Hds in Hc. inversion Hc as [|? ? Hd Hds']; subst.
  eapply (steps_bind _ _ (fun r => cen_ok any_dim ns (snd r) /\ cn ns (c_dps (snd r)) <= cn ns (d :: ds))).
  - apply wp_steps. intros t. eapply wp_mono; [apply (cwf_move E (length (dp_vec d)) (MkC (dp_vec d) (d :: ds)))|].
    + split; cbn [c_vec c_dps]; auto. rewrite Hd. auto.
    + intros [b c'] t1 (K1 & K2 & ->). cbn [fst snd c_dps] in *. splits; [lia| |].
      * exists (length (dp_vec d)). split; [exact I|exact K1].
      * rewrite K2. eapply (cn_conserves ns t). apply conserves_live.
  - intros [b c'] (K1 & K2). cbn [snd] in *. eapply steps_bind; [apply IH; auto|]. intros cs' (L1 & L2). apply steps_ret. split; [constructor; auto|].
    unfold stored in *. cbn [map concat]. rewrite !cn_app, Hds. lia.
Qed.

Lemma tri_c_nearest a ns v : tri (c_nearest E a ns v 1 true) 0 (fun r => opt (Forall (cen_ok any_dim ns)) (fst r)) (fun r => oget 0 (fun cs => cn ns (stored cs)) (fst r)).
Proof.
  unfold c_nearest. eapply tri_bind0; [apply tri_rpc; [lia|apply tri_h_nearest; lia]|]. intros r Hr.
  set (l := match join r with Some l => l | None => [] end).
  assert (Hl : length l <= 1 /\ Forall (cen_ok any_dim ns) l /\ oget 0 (oget 0 (fun cs => cn ns (stored cs))) r = cn ns (stored l)).
  { destruct r as [[cs|]|]; cbn [opt oget join] in *; subst l; cbn [join]; auto. destruct Hr. auto. }
  destruct Hl as (H1 & H2 & H3). rewrite H3.
  eapply (tri_bind0 _ _ _ (opt (Forall (cen_ok any_dim ns))) (oget 0 (fun cs => cn ns (stored cs)))).
  - apply tri_local_post. destruct l as [|c [|c2 l]]; [| |cbn [length] in H1; lia]; cbn [post_nearest drop_empty].
    + apply steps_ret. cbn [opt oget]. split; [exact I|lia].
    + destruct (c_len c =? 0).
      * eapply (steps_bind _ _ (fun cs => cs = [])); [apply steps_ret; auto|]. intros cs ->. apply steps_ret. cbn [opt oget]. split; auto. cbn. lia.
      * eapply steps_bind; [apply reinit_pays; exact H2|]. intros cs (K1 & K2). apply steps_ret. cbn [opt oget]. auto.
  - intros o Ho. apply tri_ret; auto.
Qed.

(* ---- handlers that call other nodes ---- *)
Lemma idle_fetch_each g addrs : (forall b, idle (g b)) -> idle (fetch_each g addrs : proc' (list (str * vec N))).
Proof. intros Hf. induction addrs; cbn [fetch_each]; os. Qed.
Hint Resolve idle_fetch_each : copies.
Lemma idle_fetch_vecs g addrs : (forall b, idle (g b)) -> idle (fetch_vecs E g addrs).
Proof. intros Hf. unfold fetch_vecs. os. Qed.
Hint Resolve idle_fetch_vecs : copies.
Lemma tri_try_add addrs idx ns d : tri (try_add E addrs idx ns d) (cn ns [d]) any (kept ns d).
Proof.
  induction idx as [|i idx IH]; cbn [try_add]; [apply tri_ret; [exact I|auto]|]. apply idle_then; [os|]. intros a.
  eapply tri_bind0; [apply tri_c_add|]. intros [|] _; cbn [kept]; [apply tri_ret; [exact I|auto]|exact IH].
Qed.
Lemma tri_distribute_dp d rsl ns : tri (distribute_dp E d rsl ns) (cn ns [d]) any (kept ns d).
Proof. unfold distribute_dp. apply idle_then; [os|]. intros. apply tri_try_add. Qed.
Lemma tri_put_back a ns d : tri (put_back_dp E a ns d) (cn ns [d]) any none.
Proof.
  unfold put_back_dp. eapply tri_bind0; [apply tri_access_g, add_pays|]. intros [b|] _; cbn [oget]; [apply tri_ret; [exact I|auto]|]. apply tri_drop.
Qed.
Lemma tri_redo a ns d (b : bool) : tri (if b then Ret tt else put_back_dp E a ns d) (kept ns d b) any none.
Proof. destruct b; cbn [kept]; [apply tri_ret; [exact I|auto]|apply tri_put_back]. Qed.
Lemma cn_cons ns d ds : cn ns (d :: ds) = cn ns [d] + cn ns ds.
Proof. change (d :: ds) with ([d] ++ ds). apply cn_app. Qed.
Lemma tri_fast_loop a ns rsl ds : tri (distribute_fast_loop E a ns rsl ds) (cn ns ds) any none.
Proof.
  induction ds as [|d ds IH]; cbn [distribute_fast_loop]; [apply tri_ret; [exact I|auto]|]. rewrite cn_cons.
  eapply tri_bind; [apply tri_distribute_dp|]. intros b _. eapply tri_bind; [apply tri_redo|]. intros r _. exact IH.
Qed.
Lemma tri_accurate_loop a ns addrs ds : tri (distribute_accurate_loop E a ns addrs ds) (cn ns ds) any none.
Proof.
  induction ds as [|d ds IH]; cbn [distribute_accurate_loop]; [apply tri_ret; [exact I|auto]|]. apply idle_then; [os|]. intros rsl. rewrite cn_cons.
  eapply tri_bind; [apply tri_distribute_dp|]. intros b _. eapply tri_bind; [apply tri_redo|]. intros r _. exact IH.
Qed.
Lemma idle_distribute_with a ns n addrs loop : (forall ds, tri (loop ds) (cn ns ds) any none) -> idle (distribute_with E a ns n addrs loop).
Proof.
  intros Hl. unfold distribute_with. destruct (_ <? _)%Z; [os|].
  eapply tri_bind0; [apply tri_access_g, (drain_o_pays ns n _ (fun ds => match addrs with [] => 0 | _ => cn ns ds end)); intros ds; destruct addrs; rewrite ?cn_nil; lia|].
  intros [[|d ds]|] _; cbn [oget]; [destruct addrs; apply tri_ret; try exact I; cbv [none]; lia| |apply tri_ret; [exact I|auto]].
  destruct addrs as [|b addrs]; [apply tri_ret; [exact I|auto]|]. eapply tri_bind0; [apply Hl|]. intros. apply tri_ret; [exact I|auto].
Qed.
Lemma idle_h_fast a ns n addrs : idle (h_distribute_fast E a ns n addrs).
Proof. apply idle_distribute_with. intros. apply idle_then; [os|]. intros. apply tri_fast_loop. Qed.
Lemma idle_h_accurate a ns n addrs : idle (h_distribute_accurate E a ns n addrs).
Proof. apply idle_distribute_with. intros. apply tri_accurate_loop. Qed.
Lemma attach_pays ns (cs : list Cen) : Forall (cen_ok any_dim ns) cs ->
  mgr_pays ns (fun m => ret (tt, MkCM (cm_vec m) (cm_cs m ++ cs) (cm_thresh m))) (fun _ => []) (cn ns (stored cs)) any none.
Proof.
  intros Hc m t x m' t' Hm He. unfold ret in He. inversion He; subst. splits; auto; [|exact I|].
  - apply (kind_attach K); auto. exact I.
  - cbn [cm_cs]. rewrite stored_app, cn_app, cn_nil. cbv [none]. lia.
Qed.
Lemma idle_steal_loop fuel a from ns v limit : forall total, idle (steal_loop E fuel a from ns v limit total).
Proof.
  induction fuel as [|fuel IH]; intros total; cbn [steal_loop]; (destruct (_ <? _)%Z; [|os]); [os|].
  eapply tri_bind0; [apply tri_c_nearest|]. intros [[[|c cs]|] b] H; cbn [fst opt oget] in *; [apply tri_ret; [exact I|cbv [none]; lia]| |apply idle_ret].
  eapply tri_bind0; [apply tri_access, attach_pays; exact H|]. intros r _.
  apply (tri_bind0 _ _ _ any none).
  - destruct r as [u|]; cbn [oget]; [apply tri_ret; [exact I|auto]|]. change (concat (map c_dps (c :: cs))) with (stored (c :: cs)).
    eapply tri_bind0; [apply tri_drop|]. intros. apply tri_ret; [exact I|auto].
  - intros total' _. destruct b; [apply IH|apply idle_ret].
Qed.
Lemma idle_h_steal fuel a from ns limit : idle (h_steal E fuel a from ns limit).
Proof.
  unfold h_steal. apply idle_bind; [os|]. intros lv. apply idle_bind.
  - destruct lv; [os|]. apply idle_bind; [os|]. intros [v|]; [|os]. eapply tri_bind0; [apply tri_factory|]. intros m Hm. cbv [none].
    eapply (tri_bind0 _ _ _ any none); [|intros; apply idle_ret]. replace 0 with (cn ns (ms m)) by (rewrite Hm; auto). apply tri_add_slot. split; [exists 0; exact I|rewrite Hm; constructor].
  - intros [v|]; [|os]. apply idle_bind; [apply idle_steal_loop|]. intros [total b]. apply idle_bind; [apply idle_h_move|os].
Qed.
Hint Resolve idle_h_fast idle_h_accurate idle_h_steal : copies.
Lemma idle_c_fast a ns addrs n : idle (c_distribute_fast E a ns addrs n). Proof. unfold c_distribute_fast. os. Qed.
Lemma idle_c_accurate a ns addrs n : idle (c_distribute_accurate E a ns addrs n). Proof. unfold c_distribute_accurate. os. Qed.
Lemma idle_c_steal fuel a from ns limit : idle (c_steal E fuel a from ns limit). Proof. unfold c_steal. os. Qed.
Hint Resolve idle_c_fast idle_c_accurate idle_c_steal : copies.

Lemma tri_serve a q : match q with QNearest _ _ n _ => (0 <= n)%Z | _ => True end ->
  tri (serve E a q) (members f (req_tin q)) any (fun x => members f (ans_tout q x)).
Proof.
  assert (Hz : forall p : proc' (ans N), (forall x, members f (ans_tout q x) = 0) -> idle p -> members f (req_tin q) = 0 ->
    tri p (members f (req_tin q)) any (fun x => members f (ans_tout q x))).
  { intros p H1 H2 H3. rewrite H3. eapply tri_le; [exact H2|lia|]. intros r Hr. rewrite H1. split; [exact I|lia]. }
  intros Hq. destruct q; try solve [apply Hz; [intros x; destruct x; reflexivity|cbn [serve]; unfold reply; os|reflexivity]]; cbn [serve].
  - unfold req_tin. cbn [req_ns req_in]. rewrite members_tag. eapply tri_bind0; [apply tri_h_add|]. intros b _. apply tri_ret; [exact I|auto].
  - unfold reply. eapply tri_bind0; [apply tri_access, drain_u_pays|]. intros [x|] _; (apply tri_ret; [exact I|]); unfold ans_tout; cbn [req_ns ans_out oget]; rewrite members_tag; auto.
  - unfold reply. eapply tri_bind0; [apply tri_access, (drain_o_pays _ _ _ (cn ns)); intros; rewrite cn_nil; lia|].
    intros [x|] _; (apply tri_ret; [exact I|]); unfold ans_tout; cbn [req_ns ans_out oget]; rewrite members_tag; auto.
  - unfold reply. eapply tri_bind0; [apply tri_h_lookup|].
    intros [x|] _; (apply tri_ret; [exact I|]); unfold ans_tout; cbn [req_ns oget]; rewrite members_tag; destruct drain; cbn [ans_out]; rewrite ?cn_nil; lia.
  - unfold reply. eapply tri_bind0; [apply tri_h_nearest; exact Hq|].
    intros [x|] _; (apply tri_ret; [exact I|]); unfold ans_tout; cbn [req_ns oget]; rewrite members_tag; destruct drain; cbn [ans_out]; rewrite ?cn_nil; lia.
Qed.

(* ---- HTTP and the event loop ---- *)
Lemma idle_best_fit s v fetch : idle fetch -> idle (best_fit s v fetch : proc' (list str)).
Proof. intros H. unfold best_fit. os. Qed.
Hint Resolve idle_best_fit : copies.
Lemma tri_put_dp addrs ns d : tri (put_dp E addrs ns d) (cn ns [d]) any (kept ns d).
Proof.
  induction addrs as [|a addrs IH]; cbn [put_dp]; [apply tri_ret; [exact I|auto]|].
  eapply tri_bind0; [apply tri_c_add|]. intros [|] _; cbn [kept]; [apply tri_ret; [exact I|auto]|exact IH].
Qed.
Lemma tri_get_loop ns v n (drain : bool) : forall addrs res, tri (get_loop E addrs ns v n drain res) (if drain then cn ns res else 0) any (fun ds => if drain then cn ns ds else 0).
Proof.
  induction addrs as [|a addrs IH]; intros res; cbn [get_loop]; [apply tri_ret; [exact I|auto]|].
  apply (tri_bind _ _ 0 _ _ _ _ _ (tri_c_lookup a ns v (n - Z.of_nat (length res)) drain)). intros ds _. cbv zeta.
  assert (He : (if drain then cn ns ds else 0) + (if drain then cn ns res else 0) = if drain then cn ns (res ++ ds) else 0) by (destruct drain; rewrite ?cn_app; lia).
  rewrite He. destruct (_ <=? _)%Z; [apply tri_ret; [exact I|auto]|apply IH].
Qed.
Lemma tri_put_http addrs o : tri (put_http E addrs (Some o)) (cn (po_ns o) [to_dp (po_dp o)]) any
  (fun r => if (status r =? 200)%Z then 0 else cn (po_ns o) [to_dp (po_dp o)]).
Proof.
  unfold put_http. cbv zeta. apply (tri_bind0 _ _ _ any (kept (po_ns o) (to_dp (po_dp o)))).
  - unfold put_accurate, put_fast, best_fit_accurate, best_fit_fast. destruct (po_accurate o); (apply idle_then; [os|]); intros; apply tri_put_dp.
  - intros b _. apply (tri_bind0 _ _ _ any (kept (po_ns o) (to_dp (po_dp o)))).
    + destruct b; cbn [kept]; [apply tri_ret; [exact I|auto]|]. unfold put_rand. apply idle_then; [os|]. intros. apply tri_put_dp.
    + intros [|] _; (apply tri_ret; [exact I|]); cbn [kept status]; auto.
Qed.
Lemma tri_query_http addrs o : tri (query_http E addrs (Some o)) 0 any (fun r => if qo_drain o then cn (qo_ns o) (snd r) else 0).
Proof.
  unfold query_http. apply idle_then; [unfold best_fit_accurate, best_fit_fast; os|]. intros l. destruct (_ <? _)%Z.
  - apply tri_ret; [exact I|]. cbn [snd]. destruct (qo_drain o); auto.
  - unfold get_dps. destruct (_ <? _)%Z; [intros T n; cbn [local pbind pays]; intros; discriminate|]. pose proof (tri_get_loop (qo_ns o) (qo_vec o) (qo_n o) (qo_drain o) l []) as H.
    assert (Hz : (if qo_drain o then cn (qo_ns o) [] else 0) = 0) by (destruct (qo_drain o); auto). rewrite Hz in H. eapply tri_bind0; [exact H|].
    intros ds _. apply tri_ret; [exact I|auto].
Qed.

Lemma idle_each nss p : (forall ns, idle (p ns)) -> idle (each nss p : proc' unit).
Proof. intros H. induction nss; cbn [each]; os. Qed.
Lemma idle_poll addrs : forall t, idle (poll E addrs t).
Proof. induction addrs; intros t; cbn [poll]; os. Qed.
Lemma idle_with_table c p : (forall t, idle (p t)) -> idle (with_table E c p).
Proof. intros H. unfold with_table. apply idle_bind; [apply idle_poll|auto]. Qed.
Lemma idle_with_local c p : (forall ns, idle (p ns)) -> idle (with_local E c p).
Proof. intros H. unfold with_local. apply idle_bind; [os|]. intros. apply idle_each; auto. Qed.
Lemma idle_go p : idle p -> idle (go p : proc' unit).
Proof.
  intros H T n. cbn [go pays]. exists (0 + 0), n. split; [lia|]. split; [|split; [exact I|cbv [none]; lia]].
  eapply pays_weak; [apply (H T 0)|lia|]. auto.
Qed.
Lemma idle_fetch_lens addrs ns : idle (fetch_lens E addrs ns).
Proof. induction addrs; cbn [fetch_lens]; os. Qed.
Hint Resolve idle_fetch_lens : copies.
Lemma idle_remote_lens addrs ns : idle (remote_lens E addrs ns).
Proof. unfold remote_lens. os. Qed.
Lemma idle_balance_loop take c naddrs mean margin : (forall o w, idle (take o w : proc' nat)) ->
  forall todo lens, idle (balance_loop take c naddrs mean margin todo lens).
Proof. intros H. induction todo as [|[o n] todo IH]; intros lens; cbn [balance_loop]; os. Qed.
Lemma idle_balance_ns c t ns : idle (balance_ns E c t ns).
Proof.
  unfold balance_ns. apply idle_bind; [apply idle_remote_lens|]. intros [|x lens]; [os|].
  apply idle_bind; [os|]. intros. apply idle_balance_loop. intros. unfold steal_from. os.
Qed.
Lemma idle_metas addrs : forall items, idle (metas E addrs items).
Proof. induction addrs; intros items; cbn [metas]; os. Qed.
Lemma idle_task_body c k : idle (task_body E c k).
Proof.
  destruct k; cbn [task_body].
  - apply idle_bind; [apply idle_metas|]. os.
  - apply idle_with_local. intros. apply idle_go. auto with copies.
  - apply idle_with_local. intros. apply idle_go. auto with copies.
  - apply idle_with_local. intros. apply idle_go. auto with copies.
  - apply idle_with_local. intros. apply idle_go. auto with copies.
  - apply idle_with_local. intros. apply idle_go. auto with copies.
  - apply idle_with_local. intros. apply idle_with_table. intros. auto with copies.
  - apply idle_with_local. intros. apply idle_with_table. intros. auto with copies.
  - apply idle_with_table. intros. apply idle_bind; [os|]. intros. apply idle_each. intros. apply idle_balance_ns.
Qed.
Lemma idle_run_task c iter k : idle (run_task E c iter k).
Proof. unfold run_task, with_skip. destruct (_ =? 0)%Z; [os|]. destruct (_ =? 0)%Z; [apply idle_task_body|os]. Qed.
Lemma idle_el_steps rd run l : idle rd -> (forall k, idle (run k)) -> idle (el_steps rd run l : proc' unit).
Proof. intros H1 H2. unfold el_step. induction l; cbn [el_steps]; unfold el_step; os. Qed.
Lemma idle_el_loop rd run : idle rd -> (forall i k, idle (run i k)) -> forall n iter, idle (el_loop rd run n iter : proc' bool).
Proof.
  intros H1 H2. induction n; intros iter; cbn [el_loop]; (apply idle_bind; [auto|]; intros [|]; [os|]); [os|].
  apply idle_bind; [apply idle_el_steps; auto|]. auto.
Qed.
Lemma idle_event_loop c stop n : idle (event_loop E c stop n).
Proof.
  unfold event_loop. apply idle_el_loop; [|intros; apply idle_run_task]. unfold read_stop. apply idle_local.
  eapply steps_bind; [apply steps_tick|]. intros. apply steps_ret. exact I.
Qed.

Lemma tri_job j : job_counts j -> tri (run_job E j) (members f (job_in j)) any (fun d => members f (job_out d)).
Proof.
  intros Hj. destruct j as [a q|addrs [o|]|addrs [o|]|c stop n]; cbn [run_job job_in].
  - eapply tri_bind0; [apply tri_serve; exact Hj|]. intros x _. apply tri_ret; [exact I|auto].
  - change [(po_ns o, to_dp (po_dp o))] with (tag (po_ns o) [to_dp (po_dp o)]). rewrite members_tag. eapply tri_bind0; [apply tri_put_http|].
    intros r _. apply tri_ret; [exact I|]. cbn [job_out]. destruct (_ =? _)%Z; auto.
    change [(po_ns o, to_dp (po_dp o))] with (tag (po_ns o) [to_dp (po_dp o)]). rewrite members_tag. auto.
  - apply tri_ret; [exact I|auto].
  - eapply tri_bind0; [apply tri_query_http|]. intros [r ds] _. apply tri_ret; [exact I|]. cbn [job_out snd]. destruct (qo_drain o); auto. rewrite members_tag. auto.
  - apply tri_ret; [exact I|auto].
  - eapply tri_bind0; [apply idle_event_loop|]. intros r _. apply tri_ret; [exact I|auto].
Qed.

(* ---- together ---- *)
Definition ends (d : done N) (m : nat) : Prop := members f (job_out d) <= m.
Definition held {R} (T : tags) (Q : R -> nat -> Prop) (l : list (proc' R)) (ns : list nat) : Prop := Forall2 (fun p n => pays T p n Q) l ns.
Lemma sum_app l1 l2 : list_sum (l1 ++ l2) = list_sum l1 + list_sum l2.
Proof. apply list_sum_app. Qed.
Lemma held_set {R} (T : tags) (Q : R -> nat -> Prop) : forall (l : list (proc' R)) ns i p, held T Q l ns -> nth_error l i = Some p ->
  exists n rest, pays T p n Q /\ list_sum ns = n + rest /\ forall T' p' n', tags_le T T' -> pays T' p' n' Q -> exists ns', held T' Q (list_set l i p') ns' /\ list_sum ns' = n' + rest.
Proof.
  intros l ns i p H. revert i. induction H as [|q n l ns Hq Hl IH]; intros [|i] Hp; cbn [nth_error] in Hp; try discriminate.
  - inversion Hp; subst. exists n, (list_sum ns). splits; auto. intros T' p' n' HT Hp'. exists (n' :: ns). split; auto. cbn [list_set]. constructor; auto.
    clear - HT Hl. unfold held. induction Hl; constructor; auto. eapply pays_more; eauto.
  - destruct (IH _ Hp) as (k & rest & H1 & H2 & H3). exists k, (n + rest). splits; auto; [cbn [list_sum fold_right] in *; fold (list_sum ns) in *; lia|].
    intros T' p' n' HT Hp'. destruct (H3 T' p' n' HT Hp') as (ns' & H4 & H5). exists (n :: ns'). split; [cbn [list_set]; constructor; auto; eapply pays_more; eauto|].
    cbn [list_sum fold_right]. fold (list_sum ns'). lia.
Qed.
Lemma interleave_pays sched : forall (l : list (proc World (@lock) (done N))) w t l' w' t' ns, held (tagged w) ends l ns -> CInv w ->
  interleave DIdle sched l w t = Ok ((l', w'), t') ->
  CInv w' /\ t <= t' /\ exists ns', held (tagged w') ends l' ns' /\ wt w' + list_sum ns' + L t <= wt w + list_sum ns + L t'.
Proof.
  induction sched as [|i sched IH]; intros l w t l' w' t' ns Hl Hw; cbn [interleave].
  - unfold ret. intros H. inversion H; subst. splits; auto. exists ns. auto.
  - unfold bind at 1. destruct (step1 DIdle l i w t) as [[[l1 w1] t1]| |] eqn:Hs; try discriminate. intros H.
    assert (H1 : CInv w1 /\ t <= t1 /\ exists ns1, held (tagged w1) ends l1 ns1 /\ wt w1 + list_sum ns1 + L t <= wt w + list_sum ns + L t1).
    { unfold step1 in Hs. destruct (nth_error l i) as [p|] eqn:Hp; [|inversion Hs; subst; splits; auto; exists ns; auto].
      destruct (held_set _ _ _ _ _ _ Hl Hp) as (n & rest & Hk & Hsum & Hset).
      destruct p as [r|A o g k|q k].
      - inversion Hs; subst. splits; auto. exists ns. auto.
      - unfold bind in Hs. destruct (g w t) as [[[x w2] t2]| |] eqn:Hf; try discriminate. unfold ret in Hs. inversion Hs; subst.
        cbn [pays] in Hk. destruct (Hk w t x w1 t1 Hw) as (K1 & K2 & K3 & n' & K4 & K5); auto; [intros b p m Hb; exact Hb|].
        splits; auto. destruct (Hset _ _ _ K2 K5) as (ns' & S1 & S2). exists ns'. split; auto. lia.
      - inversion Hs; subst. destruct Hk as (n1 & n2 & Hn & Hq & Hk). splits; auto.
        destruct (Hset (tagged w1) k n2) as (ns' & S1 & S2); auto; [intros b p m Hb; exact Hb|]. exists (ns' ++ [n1]). split.
        + apply Forall2_app; auto. constructor; [|constructor]. eapply pays_bind; [exact Hq|]. intros r m T' _ _. cbn [pays]. unfold ends. cbn. lia.
        + rewrite sum_app. cbn [list_sum fold_right]. lia. }
    destruct H1 as (H1 & H2 & ns1 & H3 & H4). destruct (IH _ _ _ _ _ _ _ H3 H1 H) as (H5 & H6 & ns' & H7 & H8). splits; auto; [lia|]. exists ns'. split; auto. lia.
Qed.
End Copies.

Lemma ended_paid {N : Num} (E : Env N) f T l : forall ns, held E f T (ends f) l ns -> members f (jobs_out (ended l)) <= list_sum ns.
Proof.
  unfold ended, jobs_out. induction l as [|p l IH]; intros ns H; inversion H as [|? n ? ns' Hp Hl]; subst; [cbn; lia|]. cbn [map concat list_sum fold_right]. fold (list_sum ns').
  specialize (IH _ Hl). rewrite map_app, concat_app, members_app. destruct p; cbn [map concat] in *; [|change (members f []) with 0; lia..].
  cbn [pays] in Hp. unfold ends in Hp. rewrite app_nil_r. lia.
Qed.

Theorem copies_bounded (N : Num) (E : Env N) : EnvOk E -> forall f jobs sched t (w : World N) l w' t', WorldOk w -> OwnDims any_dim w -> Forall job_counts jobs ->
  interleave DIdle sched (map (run_job E) jobs) w t = Ok ((l, w'), t') ->
  members f (all_data w') + members f (w_dropped w') + members f (jobs_out (ended l)) <=
  members f (all_data w) + members f (w_dropped w) + members f (jobs_in jobs) + answers_lost E t t'.
Proof.
  intros HE f jobs sched t w l w' t' (Hn & Hw) HD Hj H.
  assert (Hi : CInv w).
  { apply Forall_forall. intros [a nd] Hi. cbn [snd]. destruct (Hw _ _ Hi) as (H1 & H2). split.
    - apply Forall_forall. intros [ns m] Hm. cbn [fst snd]. eapply HD; eauto.
    - intros ns p Hp. apply H2. apply assoc_in. exact Hp. }
  assert (Hh : exists ns, held E f (tagged w) (ends f) (map (run_job E) jobs) ns /\ list_sum ns = members f (jobs_in jobs)).
  { clear H. unfold jobs_in. induction Hj as [|j jobs Hj Hjs IH]; [exists []; split; [constructor|reflexivity]|]. destruct IH as (ns & H1 & H2).
    exists (members f (job_in j) :: ns). cbn [map concat list_sum fold_right]. fold (list_sum ns). rewrite members_app, H2. split; auto. constructor; auto.
    pose proof (tri_job E HE f j Hj (tagged w) 0) as Ht. rewrite Nat.add_0_r in Ht. eapply pays_weak; [exact Ht|lia|]. intros d m (_ & Hd). unfold ends. lia. }
  destruct Hh as (ns & H1 & H2). destruct (interleave_pays E f sched _ _ _ _ _ _ _ H1 Hi H) as (H3 & H4 & ns' & H5 & H6).
  apply ended_paid in H5. unfold wt in H6. rewrite (L_split E t t' H4) in H6. lia.
Qed.
