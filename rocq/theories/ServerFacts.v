(* The invariant and the guarantee that every server request respects at each of its steps. *)
From Verif Require Import Base Num MathUtils Knn Env Centroid CManager DataSpec MgrSpec Wp DataFacts NumFacts KnnProofs
  CentroidProofs CMProofs CMProofs2 CMProofs3 HistoryProofs Proc Owns Server ServerSpec.

Lemma str_eqb_eq a b : str_eqb a b = true <-> a = b.
Proof.
  revert b; induction a as [|x a IH]; intros [|y b]; cbn [str_eqb]; split; intros H; try discriminate; auto.
  - apply andb_true_iff in H. destruct H as [H1 H2]. apply Byte.byte_dec_bl in H1. apply IH in H2. congruence.
  - injection H as -> ->. apply andb_true_iff. split; [apply Byte.byte_dec_lb; auto|apply IH; auto].
Qed.
Lemma str_eqb_refl a : str_eqb a a = true.
Proof. apply str_eqb_eq; auto. Qed.
Lemma str_eqb_neq a b : a <> b -> str_eqb a b = false.
Proof. intros H. destruct (str_eqb a b) eqn:E; auto. apply str_eqb_eq in E. contradiction. Qed.
Lemma str_dec (a b : str) : {a = b} + {a <> b}.
Proof. destruct (str_eqb a b) eqn:E; [left|right]; [|intros H]; apply str_eqb_eq in E || apply str_eqb_eq in H; auto. congruence. Qed.

Section Assoc.
Context {V : Type}.
Implicit Type l : list (str * V).
Lemma assoc_in k v l : assoc k l = Some v -> In (k, v) l.
Proof.
  induction l as [|[k' v'] l IH]; cbn [assoc]; [discriminate|]. destruct (str_eqb k k') eqn:E.
  - apply str_eqb_eq in E. intros H. injection H as ->. subst. left; auto.
  - intros H. right; auto.
Qed.
Lemma assoc_none k l : assoc k l = None <-> ~ In k (map fst l).
Proof.
  induction l as [|[k' v'] l IH]; cbn [assoc map fst In]; [tauto|]. destruct (str_eqb k k') eqn:E.
  - apply str_eqb_eq in E. subst. split; [discriminate|]. intros H. destruct H; auto.
  - rewrite IH. split; intros H; [|tauto]. intros [->|H2]; [rewrite str_eqb_refl in E; discriminate|auto].
Qed.
Lemma in_assoc k v l : NoDup (map fst l) -> In (k, v) l -> assoc k l = Some v.
Proof.
  induction l as [|[k' v'] l IH]; cbn [assoc map fst In]; [tauto|]. intros Hd H. inversion Hd as [|? ? Hn Hd']; subst.
  destruct H as [H|H].
  - injection H as -> ->. rewrite str_eqb_refl; auto.
  - rewrite str_eqb_neq; auto. intros ->. apply Hn. apply in_map_iff. exists (k', v); auto.
Qed.
Lemma assoc_upsert_same k v l : assoc k (upsert k v l) = Some v.
Proof.
  induction l as [|[k' v'] l IH]; cbn [upsert assoc]; [rewrite str_eqb_refl; auto|].
  destruct (str_eqb k k') eqn:E; cbn [assoc]; rewrite E; auto.
Qed.
Lemma assoc_upsert_other k k2 v l : k2 <> k -> assoc k2 (upsert k v l) = assoc k2 l.
Proof.
  intros Hn. induction l as [|[k' v'] l IH]; cbn [upsert assoc].
  - rewrite str_eqb_neq; auto.
  - destruct (str_eqb k k') eqn:E; cbn [assoc].
    + apply str_eqb_eq in E. subst. rewrite !str_eqb_neq; auto.
    + rewrite IH; auto.
Qed.
Lemma upsert_keys_present k v l : assoc k l <> None -> map fst (upsert k v l) = map fst l.
Proof.
  induction l as [|[k' v'] l IH]; cbn [upsert assoc]; [congruence|]. destruct (str_eqb k k') eqn:E; cbn [map fst]; auto.
  intros H. rewrite IH; auto.
Qed.
Lemma upsert_keys_absent k v l : assoc k l = None -> upsert k v l = l ++ [(k, v)].
Proof.
  induction l as [|[k' v'] l IH]; cbn [upsert assoc]; auto. destruct (str_eqb k k') eqn:E; [discriminate|].
  intros H. rewrite IH; auto.
Qed.
Lemma upsert_nodup k v l : NoDup (map fst l) -> NoDup (map fst (upsert k v l)).
Proof.
  intros H. destruct (assoc k l) eqn:E.
  - rewrite upsert_keys_present; auto. congruence.
  - rewrite upsert_keys_absent by auto. rewrite map_app. cbn [map fst]. apply assoc_none in E.
    eapply Permutation_NoDup; [apply Permutation_cons_append|]. constructor; auto.
Qed.
Lemma upsert_split k v0 l : assoc k l = Some v0 ->
  exists l1 l2, l = l1 ++ (k, v0) :: l2 /\ forall v, upsert k v l = l1 ++ (k, v) :: l2.
Proof.
  induction l as [|[k' v'] l IH]; cbn [upsert assoc]; [discriminate|]. destruct (str_eqb k k') eqn:E.
  - apply str_eqb_eq in E. intros H. injection H as ->. subst. exists [], l. auto.
  - intros H. destruct (IH H) as (l1 & l2 & -> & Hu). exists ((k', v') :: l1), l2. split; auto.
    intros v. rewrite Hu. auto.
Qed.
End Assoc.

Section ServerFacts.
Context {N : Num} (E : Env N).
Notation DP := (DataPoint N).
Notation World := (World N).
Notation hand := (list (str * DataPoint N)).
Context (SP : str -> CM N -> Prop)         (* what holds of a slot of each namespace *)
        (Known : str -> str -> Prop)      (* namespaces that exist from the start *)
        (Mine : str -> str -> Prop)       (* places (address, namespace) that are worked on *)
        (NoDrop : Prop)                   (* nothing is dropped unless expired *)
        (Tidy : Prop)                     (* no slot is lost *)
        (Fuel : Prop)                     (* a steal may exceed its bound *)
        (Stay : Prop).                    (* no node forgets a namespace *)

(* ---- keeps ---- *)
Notation keeps := (keeps E).
Lemma keeps_refl t t' l : keeps t t' l l.
Proof. exists []. rewrite app_nil_r. auto. Qed.
Lemma keeps_perm t t' a b : Permutation a b -> keeps t t' a b.
Proof. intros H. exists []. rewrite app_nil_r. auto. Qed.
Lemma keeps_app t t' a b c d : keeps t t' a b -> keeps t t' c d -> keeps t t' (a ++ c) (b ++ d).
Proof.
  intros (l1 & H1 & K1) (l2 & H2 & K2). exists (l1 ++ l2). split; [rewrite H1, H2; perm|]. apply Forall_app; auto.
Qed.
Lemma keeps_frame t t' a b c : keeps t t' a b -> keeps t t' (a ++ c) (b ++ c).
Proof. intros H. apply keeps_app; auto. apply keeps_refl. Qed.
Lemma keeps_frame_l t t' a b c : keeps t t' a b -> keeps t t' (c ++ a) (c ++ b).
Proof. intros H. apply keeps_app; auto. apply keeps_refl. Qed.
Lemma keeps_proper t t' a a' b b' : Permutation a a' -> Permutation b b' -> keeps t t' a b -> keeps t t' a' b'.
Proof. intros Ha Hb (l & H & K). exists l. rewrite <- Ha, <- Hb. auto. Qed.
Lemma keeps_seq t t' t'' a b c : t <= t' -> t' <= t'' -> keeps t t' a b -> keeps t' t'' b c -> keeps t t'' a c.
Proof.
  intros Ht Ht' (l1 & H1 & K1) (l2 & H2 & K2). exists (l2 ++ l1). split; [rewrite H1, H2; perm|].
  apply Forall_app. split; eapply Forall_impl; eauto; intros e; apply seen_expired_widen; lia.
Qed.
Lemma tag_app ns (a b : list DP) : tag ns (a ++ b) = tag ns a ++ tag ns b.
Proof. apply map_app. Qed.
Lemma keeps_tag ns t t' a b : conserves E t t' a b -> keeps t t' (tag ns a) (tag ns b).
Proof.
  intros (l & H & K). exists (tag ns l). split.
  - rewrite <- tag_app. apply Permutation_map. auto.
  - apply Forall_map. auto.
Qed.
Lemma of_ns_app ns (a b : hand) : of_ns ns (a ++ b) = of_ns ns a ++ of_ns ns b.
Proof. unfold of_ns. rewrite filter_app. apply map_app. Qed.
Lemma of_ns_perm ns (a b : hand) : Permutation a b -> Permutation (of_ns ns a) (of_ns ns b).
Proof.
  intros H. apply Permutation_map. induction H; cbn [filter]; auto.
  - destruct (str_eqb ns (fst x)); auto.
  - destruct (str_eqb ns (fst x)), (str_eqb ns (fst y)); auto using perm_swap.
  - etransitivity; eauto.
Qed.
Lemma keeps_ns ns t t' a b : keeps t t' a b -> conserves E t t' (of_ns ns a) (of_ns ns b).
Proof.
  intros (l & H & K). exists (of_ns ns l). split.
  - rewrite <- of_ns_app. apply of_ns_perm; auto.
  - apply Forall_map. rewrite Forall_forall in *. intros e He. apply filter_In in He. apply K. tauto.
Qed.
Lemma keeps_plain t t' a b : keeps t t' a b -> conserves E t t' (map snd a) (map snd b).
Proof.
  intros (l & H & K). exists (map snd l). split.
  - rewrite <- map_app. apply Permutation_map; auto.
  - apply Forall_map. auto.
Qed.

Definition NInv (a : str) (nd : Node N) : Prop :=
  NoDup (map fst (nd_tbl nd)) /\
  (forall ns p, assoc ns (nd_tbl nd) = Some p -> exists m, nth_error (nd_heap nd) p = Some (ns, m)) /\
  (forall p ns m, nth_error (nd_heap nd) p = Some (ns, m) -> SP ns m) /\
  (forall ns, Known a ns -> assoc ns (nd_tbl nd) <> None) /\
  (Tidy -> forall p ns m, nth_error (nd_heap nd) p = Some (ns, m) ->
     (Known a ns -> assoc ns (nd_tbl nd) = Some p) /\ (Known a ns \/ Mine a ns)).
Definition winv (w : World) : Prop :=
  NoDup (map fst (w_nodes w)) /\ forall a nd, node_at w a = Some nd -> NInv a nd.

Definition node_le (nd nd' : Node N) : Prop :=
  nd_thresh nd' = nd_thresh nd /\
  (forall p ns m, nth_error (nd_heap nd) p = Some (ns, m) -> exists m', nth_error (nd_heap nd') p = Some (ns, m')) /\
  (Stay -> forall ns, assoc ns (nd_tbl nd) <> None -> assoc ns (nd_tbl nd') <> None).
Definition ext (w w' : World) : Prop :=
  map fst (w_nodes w') = map fst (w_nodes w) /\
  forall a nd, node_at w a = Some nd -> exists nd', node_at w' a = Some nd' /\ node_le nd nd'.

Definition ptr (w : World) (a ns : str) : option nat :=
  match node_at w a with None => None | Some nd => assoc ns (nd_tbl nd) end.

Definition G (t t' : nat) (w : World) (h : hand) (w' : World) (h' : hand) : Prop :=
  t <= t' /\
  (forall a ns, ~ Mine a ns -> manager w' a ns = manager w a ns) /\
  (forall a ns, Known a ns -> ptr w' a ns = ptr w a ns) /\
  exists x, w_dropped w' = w_dropped w ++ x /\
    (NoDrop -> Forall (fun e => seen_expired E t t' (snd e)) x) /\
    (answers_arrive E -> keeps t t' (all_data w ++ h) (all_data w' ++ h' ++ x)).
Definition J (h : hand) : Prop := answers_arrive E -> h = [].

Lemma node_le_refl nd : node_le nd nd.
Proof. split; auto. split; eauto. Qed.
Lemma node_le_trans a b c : node_le a b -> node_le b c -> node_le a c.
Proof.
  intros (H1 & H2 & H3) (K1 & K2 & K3). split; [congruence|]. split; auto.
  intros p ns m H. destruct (H2 _ _ _ H) as (m' & H'). eauto.
Qed.
Lemma ext_refl w : ext w w.
Proof. split; auto. intros a nd H. exists nd. split; auto. apply node_le_refl. Qed.
Lemma ext_trans a b c : ext a b -> ext b c -> ext a c.
Proof.
  intros (H1 & H2) (K1 & K2). split; [congruence|]. intros x nd H. destruct (H2 _ _ H) as (nd1 & H3 & H4).
  destruct (K2 _ _ H3) as (nd2 & H5 & H6). exists nd2. split; auto. eapply node_le_trans; eauto.
Qed.

Lemma G_refl t w h : G t t w h w h.
Proof.
  split; auto. split; auto. split; auto. exists []. rewrite !app_nil_r. splits; auto.
  intros _. apply keeps_refl.
Qed.
Lemma G_trans t1 t2 t3 w1 h1 w2 h2 w3 h3 : G t1 t2 w1 h1 w2 h2 -> G t2 t3 w2 h2 w3 h3 -> G t1 t3 w1 h1 w3 h3.
Proof.
  intros (H1 & H2 & H3 & x & H4 & H5 & H6) (K1 & K2 & K3 & y & K4 & K5 & K6). split; [lia|].
  split. { intros a ns Hn. rewrite K2, H2; auto. }
  split. { intros a ns Hn. rewrite K3, H3; auto. }
  exists (x ++ y). splits.
  - rewrite K4, H4, app_assoc. auto.
  - intros Hd. apply Forall_app; split; (eapply Forall_impl; [|eauto]); intros e; apply seen_expired_widen; lia.
  - intros Ha. eapply keeps_seq; [exact H1|exact K1|apply H6; auto|].
    eapply keeps_proper; [| |apply (keeps_frame _ _ _ _ x (K6 Ha))]; perm.
Qed.
Lemma G_frame t t' w h w' h' f : G t t' w h w' h' -> G t t' w (h ++ f) w' (h' ++ f).
Proof.
  intros (H1 & H2 & H3 & x & H4 & H5 & H6). unfold G; splits; auto. exists x. splits; auto. intros Ha.
  eapply keeps_proper; [| |apply (keeps_frame _ _ _ _ f (H6 Ha))]; perm.
Qed.
Lemma G_perm t t' w h w' h' k k' : Permutation h k -> Permutation h' k' ->
  G t t' w h w' h' -> G t t' w k w' k'.
Proof.
  intros Hp Hp' (H1 & H2 & H3 & x & H4 & H5 & H6). unfold G; splits; auto. exists x. splits; auto. intros Ha.
  eapply keeps_proper; [| |apply (H6 Ha)]; [rewrite Hp|rewrite Hp']; auto.
Qed.
Lemma J_done t w h1 h : J h1 -> G t t w (h1 ++ h) w h.
Proof.
  intros Hj. unfold G; splits; auto. exists []. rewrite !app_nil_r. splits; auto. intros Ha. rewrite (Hj Ha).
  apply keeps_refl.
Qed.

Notation owns := (owns (L := lock) winv ext G J Fuel).

(* ---- changing one node ---- *)
Lemma node_at_set (w : World) a nd b ns x :
  node_at (drop ns x (set_node w a nd)) b = if str_eqb b a then Some nd else node_at w b.
Proof.
  unfold node_at, drop, set_node. cbn [w_nodes]. destruct (str_eqb b a) eqn:Eb.
  - apply str_eqb_eq in Eb. subst. apply assoc_upsert_same.
  - apply assoc_upsert_other. intros ->. rewrite str_eqb_refl in Eb. discriminate.
Qed.
Lemma upd_inv (w : World) a nd nd' ns x : winv w -> node_at w a = Some nd -> NInv a nd' -> winv (drop ns x (set_node w a nd')).
Proof.
  intros (H1 & H2) Ha Hn. split.
  - cbn [drop set_node w_nodes]. apply upsert_nodup; auto.
  - intros b nb Hb. rewrite node_at_set in Hb. destruct (str_eqb b a) eqn:Eb; auto.
    apply str_eqb_eq in Eb. injection Hb as <-. subst. auto.
Qed.
Lemma upd_ext (w : World) a nd nd' ns x : node_at w a = Some nd -> node_le nd nd' -> ext w (drop ns x (set_node w a nd')).
Proof.
  intros Ha Hl. split.
  - cbn [drop set_node w_nodes]. apply upsert_keys_present. unfold node_at in Ha. congruence.
  - intros b nb Hb. rewrite node_at_set. destruct (str_eqb b a) eqn:Eb.
    + apply str_eqb_eq in Eb. subst. exists nd'. split; congruence.
    + exists nb. split; auto. apply node_le_refl.
Qed.
Lemma upd_data (w : World) a nd : node_at w a = Some nd -> exists rest,
  Permutation (all_data w) (node_data nd ++ rest) /\
  forall nd' ns x, Permutation (all_data (drop ns x (set_node w a nd'))) (node_data nd' ++ rest).
Proof.
  intros Ha. destruct (upsert_split _ _ _ Ha) as (l1 & l2 & Hl & Hu).
  exists (concat (map (fun e => node_data (snd e)) l1) ++ concat (map (fun e => node_data (snd e)) l2)).
  unfold all_data. cbn [drop set_node w_nodes]. split.
  - rewrite Hl, map_app, concat_app. cbn [map concat fst snd]. perm.
  - intros nd' ns x. rewrite Hu, map_app, concat_app. cbn [map concat fst snd]. perm.
Qed.
Lemma slot_data (nd : Node N) p ns m : nth_error (nd_heap nd) p = Some (ns, m) -> exists rest,
  Permutation (node_data nd) (tag ns (stored (cm_cs m)) ++ rest) /\
  forall m' tb th, Permutation (node_data (MkNode (list_set (nd_heap nd) p (ns, m')) tb th)) (tag ns (stored (cm_cs m')) ++ rest).
Proof.
  intros Hp. destruct (nth_error_split _ _ Hp) as (l1 & l2 & Hl & <-).
  exists (concat (map (fun s : str * CM N => tag (fst s) (stored (cm_cs (snd s)))) l1) ++
          concat (map (fun s : str * CM N => tag (fst s) (stored (cm_cs (snd s)))) l2)).
  unfold node_data. cbn [nd_heap]. split.
  - rewrite Hl, map_app, concat_app. cbn [map concat fst snd]. perm.
  - intros m' tb th. rewrite Hl, list_set_app, map_app, concat_app. cbn [map concat fst snd]. perm.
Qed.

Lemma nth_list_set {A} (l : list A) i j x :
  nth_error (list_set l i x) j = if (j =? i) && (i <? length l) then Some x else nth_error l j.
Proof.
  revert i j; induction l as [|y l IH]; intros i j.
  - cbn [list_set length]. rewrite andb_false_r. auto.
  - destruct i, j; cbn [list_set nth_error length]; auto. rewrite IH. auto.
Qed.

(* ---- actions ---- *)
Definition has_slot (w : World) a p ns : Prop :=
  exists nd m, node_at w a = Some nd /\ nth_error (nd_heap nd) p = Some (ns, m).
Definition is_node (w : World) a : Prop := node_at w a <> None.
Definition has_ns (w : World) a ns : Prop := Stay -> ptr w a ns <> None.
Lemma has_slot_ext w w' a p ns : ext w w' -> has_slot w a p ns -> has_slot w' a p ns.
Proof.
  intros (_ & He) (nd & m & H1 & H2). destruct (He _ _ H1) as (nd' & H3 & _ & H4 & _).
  destruct (H4 _ _ _ H2) as (m' & H5). exists nd', m'. auto.
Qed.
Lemma is_node_ext w w' a : ext w w' -> is_node w a -> is_node w' a.
Proof.
  intros (_ & He) H. unfold is_node in *. destruct (node_at w a) as [nd|] eqn:Ha; [|contradiction].
  destruct (He _ _ Ha) as (nd' & -> & _). discriminate.
Qed.
Lemma has_ns_ext w w' a ns : ext w w' -> has_ns w a ns -> has_ns w' a ns.
Proof.
  intros (_ & He) H HS. specialize (H HS). unfold ptr in *. destruct (node_at w a) as [nd|] eqn:Ha; [|contradiction].
  destruct (He _ _ Ha) as (nd' & -> & _ & _ & H3). auto.
Qed.


Lemma raw_bind {R S} (p : proc' N R) (k : R -> proc' N S) Q' (Q : R -> hand -> World -> Prop) h w0 :
  owns p Q h w0 -> (forall r h w, ext w0 w -> Q r h w -> owns (k r) Q' h w) -> owns (pbind p k) Q' h w0.
Proof. apply owns_bind; [exact ext_refl|exact ext_trans]. Qed.
Lemma raw_weaken {R} (p : proc' N R) (Q Q' : R -> hand -> World -> Prop) h w0 :
  owns p Q h w0 -> (forall r h w, ext w0 w -> Q r h w -> Q' r h w) -> owns p Q' h w0.
Proof. apply owns_weaken; [exact ext_refl|exact ext_trans]. Qed.

(* A process whose hand holds datapoints of one namespace. *)
Definition nowns {R} (ns : str) (p : proc' N R) (Q : R -> list DP -> World -> Prop) (h : list DP) (w0 : World) : Prop :=
  owns p (fun r h1 w => exists h', h1 = tag ns h' /\ Q r h' w) (tag ns h) w0.

Lemma owns_ret {R} ns (r : R) (Q : R -> list DP -> World -> Prop) h w0 : Q r h w0 -> nowns ns (Ret r) Q h w0.
Proof. intros H. exists h. auto. Qed.
Lemma owns_bind' {R S} ns (p : proc' N R) (k : R -> proc' N S) Q' (Q : R -> list DP -> World -> Prop) h w0 :
  nowns ns p Q h w0 -> (forall r h w, ext w0 w -> Q r h w -> nowns ns (k r) Q' h w) -> nowns ns (pbind p k) Q' h w0.
Proof. intros H1 H2. eapply raw_bind; [exact H1|]. intros r h1 w Hw (h' & -> & HQ). apply H2; auto. Qed.
Lemma owns_weaken' {R} ns (p : proc' N R) (Q Q' : R -> list DP -> World -> Prop) h w0 :
  nowns ns p Q h w0 -> (forall r h w, ext w0 w -> Q r h w -> Q' r h w) -> nowns ns p Q' h w0.
Proof. intros H1 H2. eapply raw_weaken; [exact H1|]. intros r h1 w Hw (h' & -> & HQ). eauto. Qed.
Lemma owns_frame' {R} ns (p : proc' N R) (Q : R -> list DP -> World -> Prop) h f w0 :
  nowns ns p Q h w0 -> nowns ns p (fun r h' w => exists h0, h' = h0 ++ f /\ Q r h0 w) (h ++ f) w0.
Proof.
  intros H. unfold nowns. rewrite tag_app. eapply raw_weaken; [apply owns_frame; [exact G_frame|exact H]|].
  intros r h1 w _ (h0 & -> & h' & -> & HQ). exists (h' ++ f). rewrite tag_app. eauto.
Qed.

(* A local computation that changes nothing. *)
Lemma owns_local {A} ns (m : M A) (Q : A -> list DP -> World -> Prop) h w0 :
  (forall t, wp m t (fun a t' => t <= t' /\ exists h', (answers_arrive E -> conserves E t t' h h') /\
     forall w, ext w0 w -> Q a h' w)) ->
  nowns ns (local m) Q h w0.
Proof.
  intros H w t Hw HI. unfold bind. specialize (H t). unfold wp in H.
  destruct (m t) as [[a t']| |]; auto; try contradiction. cbn [ret]. destruct H as (Ht & h' & Hc & HQ). exists (tag ns h'). splits; auto.
  - apply ext_refl.
  - unfold G; splits; auto. exists []. rewrite !app_nil_r. splits; auto. intros Ha. apply keeps_frame_l, keeps_tag; auto.
  - cbn [Owns.owns]. eauto.
Qed.
Lemma owns_fuel {A} ns (Q : A -> list DP -> World -> Prop) h w0 :
  Fuel -> nowns ns (local out_of_fuel) Q h w0.
Proof. intros HF w t Hw HI. exact HF. Qed.

Lemma raw_lookup a ns (Q : option nat -> hand -> World -> Prop) h w0 :
  (forall w p, ext w0 w -> ptr w a ns = Some p -> has_slot w a p ns -> Q (Some p) h w) ->
  (forall w, ext w0 w -> ptr w a ns = None -> (is_node w a -> ~ Known a ns) -> Q None h w) ->
  owns (lookup a ns) Q h w0.
Proof.
  intros H1 H2 w t Hw HI. unfold ret. exists h. splits; auto using ext_refl, G_refl.
  cbn [Owns.owns]. change (Q (ptr w a ns) h w). destruct (ptr w a ns) as [p|] eqn:Hp.
  - apply H1; auto. unfold ptr in Hp. destruct (node_at w a) as [nd|] eqn:Ha; [|discriminate].
    destruct HI as (_ & HI). destruct (HI _ _ Ha) as (_ & Hn & _). destruct (Hn _ _ Hp) as (m & Hm).
    exists nd, m. auto.
  - apply H2; auto. intros Hn Hk. unfold ptr in Hp. unfold is_node in Hn.
    destruct (node_at w a) as [nd|] eqn:Ha; [|contradiction].
    destruct HI as (_ & HI). destruct (HI _ _ Ha) as (_ & _ & _ & H4 & _). eapply H4; eauto.
Qed.

(* Work on a namespace that is not ours must leave the manager as it is. *)
Definition may {A} (a ns : str) (f : CM N -> M (A * CM N)) : Prop :=
  Mine a ns \/ forall m t x m' t', f m t = Ok ((x, m'), t') -> m' = m.

Lemma owns_slot {A} a p ns (f : CM N -> M (A * CM N)) g (Q : A -> list DP -> World -> Prop) h w0 :
  may a ns f -> has_slot w0 a p ns ->
  (forall m t, SP ns m -> wp (f m) t (fun r t' => t <= t' /\ SP ns (snd r) /\
     (NoDrop -> Forall (seen_expired E t t') (g (fst r))) /\ exists h',
     (answers_arrive E -> conserves E t t' (stored (cm_cs m) ++ h) (stored (cm_cs (snd r)) ++ h' ++ g (fst r))) /\
     forall w, ext w0 w -> Q (fst r) h' w)) ->
  nowns ns (slot_access a p f g) Q h w0.
Proof.
  intros HM Hs H w t Hw HI. pose proof (has_slot_ext _ _ _ _ _ Hw Hs) as (nd & m & Ha & Hp).
  unfold node_at in Ha. rewrite Ha, Hp. change (node_at w a = Some nd) in Ha.
  destruct (proj2 HI _ _ Ha) as (I1 & I2 & I3 & I4 & I5).
  specialize (H m t (I3 _ _ _ Hp)). unfold bind. unfold wp in H.
  destruct (f m t) as [[[x m'] t']| |] eqn:Hfm; auto; try contradiction. cbn [ret]. cbn [fst snd] in H.
  destruct H as (Ht & Hk & Hg & h' & Hc & HQ).
  set (nd' := MkNode (list_set (nd_heap nd) p (ns, m')) (nd_tbl nd) (nd_thresh nd)).
  assert (Hlt : p < length (nd_heap nd)) by (apply nth_error_Some; congruence).
  assert (Hle : node_le nd nd').
  { split; auto. split; auto. intros q ns2 m2 Hq. cbn [nd' nd_heap]. rewrite nth_list_set.
    destruct (q =? p) eqn:Eq; cbn [andb]; eauto. apply Nat.eqb_eq in Eq. subst q.
    replace (p <? length (nd_heap nd)) with true by (symmetry; apply Nat.ltb_lt; auto).
    rewrite Hp in Hq. injection Hq as <- <-. eauto. }
  assert (HN : NInv a nd').
  { unfold NInv; splits; auto.
    - intros ns2 q Hq. destruct (I2 _ _ Hq) as (m2 & Hm2). destruct Hle as (_ & Hle & _). eauto.
    - intros q ns2 m2. cbn [nd' nd_heap]. rewrite nth_list_set. destruct ((q =? p) && _); eauto.
      intros Hq. injection Hq as <- <-. auto.
    - intros Ht' q ns2 m2. cbn [nd' nd_heap nd_tbl]. rewrite nth_list_set. destruct (q =? p) eqn:Eq; cbn [andb]; [|eauto].
      apply Nat.eqb_eq in Eq. subst q. destruct (p <? length (nd_heap nd)); [|eauto].
      intros Hq. injection Hq as <- <-. eapply I5; eauto. }
  assert (HX : ext w (drop ns (g x) (set_node w a nd'))) by (eapply upd_ext; eauto).
  exists (tag ns h'). splits; auto.
  - eapply upd_inv; eauto.
  - unfold G; splits; auto.
    + intros b ns2 Hns. unfold manager. rewrite node_at_set. destruct (str_eqb b a) eqn:Eb; auto.
      apply str_eqb_eq in Eb. subst b. rewrite Ha. cbn [nd' nd_tbl nd_heap].
      destruct (assoc ns2 (nd_tbl nd)) as [q|] eqn:Hq; auto. rewrite nth_list_set.
      destruct (q =? p) eqn:Eq; cbn [andb]; auto. apply Nat.eqb_eq in Eq. subst q.
      destruct (I2 _ _ Hq) as (m2 & Hm2). rewrite Hp in Hm2. injection Hm2 as -> _. destruct HM as [HM|HM]; [contradiction|].
      replace (p <? length (nd_heap nd)) with true by (symmetry; apply Nat.ltb_lt; auto).
      rewrite Hp, (HM _ _ _ _ _ Hfm). auto.
    + intros b ns2 _. unfold ptr. rewrite node_at_set. destruct (str_eqb b a) eqn:Eb; auto.
      apply str_eqb_eq in Eb. subst b. rewrite Ha. auto.
    + exists (tag ns (g x)). splits; auto.
      { intros Hnd. apply Forall_map; auto. }
      intros Har. destruct (upd_data w a nd Ha) as (rest & P1 & P2).
      destruct (slot_data nd p ns m Hp) as (rest2 & S1 & S2).
      specialize (P2 nd' ns (g x)). specialize (S2 m' (nd_tbl nd) (nd_thresh nd)). fold nd' in S2.
      eapply keeps_proper; [| |apply (keeps_frame _ _ _ _ (rest2 ++ rest) (keeps_tag ns _ _ _ _ (Hc Har)))].
      * rewrite P1, S1, tag_app. perm.
      * rewrite P2, S2, !tag_app. perm.
  - cbn [Owns.owns]. exists h'. split; auto. apply HQ. eapply ext_trans; eauto.
Qed.

Lemma owns_factory ns a v (Q : CM N -> list DP -> World -> Prop) h w0 :
  is_node w0 a -> (forall w th, ext w0 w -> Q (new_cm v th) h w) -> nowns ns (factory a v) Q h w0.
Proof.
  intros Hn H w t Hw HI. apply (is_node_ext _ _ _ Hw) in Hn. unfold is_node, node_at in Hn.
  destruct (assoc a (w_nodes w)) as [nd|]; [|contradiction]. cbn [ret].
  exists (tag ns h). splits; auto using ext_refl, G_refl. cbn [Owns.owns]. eauto.
Qed.

Lemma owns_first_add ns m d (Q : CM N -> list DP -> World -> Prop) h w0 :
  (forall t, wp (cm_add E m d) t (fun r t' => t <= t' /\
     (NoDrop -> Forall (seen_expired E t t') (unless d (fst r))) /\ exists h',
     (answers_arrive E -> conserves E t t' h (h' ++ unless d (fst r))) /\
     forall w, ext w0 w -> Q (snd r) h' w)) ->
  nowns ns (first_add E ns m d) Q h w0.
Proof.
  intros H w t Hw HI. unfold bind. specialize (H t). unfold wp in H.
  destruct (cm_add E m d t) as [[[ok m'] t']| |]; auto; try contradiction. cbn [ret fst snd] in *.
  destruct H as (H1 & H2 & h' & H3 & H4). exists (tag ns h'). splits.
  - exact HI.
  - exact (ext_refl w).
  - unfold G; splits; auto. exists (tag ns (unless d ok)). splits; auto.
    + intros Hnd. apply Forall_map; auto.
    + intros Ha. rewrite <- tag_app. apply keeps_frame_l, keeps_tag. auto.
  - cbn [Owns.owns]. exists h'. split; auto.
Qed.

Lemma nth_error_snoc {A} (l : list A) x i : nth_error (l ++ [x]) i = if i =? length l then Some x else nth_error l i.
Proof.
  destruct (i =? length l) eqn:Ei.
  - apply Nat.eqb_eq in Ei. subst. rewrite nth_error_app2, Nat.sub_diag; auto.
  - apply Nat.eqb_neq in Ei. destruct (Nat.lt_ge_cases i (length l)) as [Hl|Hl].
    + apply nth_error_app1; auto.
    + rewrite nth_error_app2 by auto. destruct (i - length l) eqn:Ed; [lia|].
      cbn. rewrite (proj2 (nth_error_None l i)) by auto. destruct n; auto.
Qed.

Lemma owns_add_slot a ns m (Q : unit -> list DP -> World -> Prop) h h' w0 :
  Mine a ns -> is_node w0 a -> ~ Known a ns -> SP ns m ->
  (answers_arrive E -> Permutation h (stored (cm_cs m) ++ h')) ->
  (forall w, ext w0 w -> has_ns w a ns -> Q tt h' w) -> nowns ns (add_slot a ns m) Q h w0.
Proof.
  intros HM Hn Hk Hs Hp H w t Hw HI. apply (is_node_ext _ _ _ Hw) in Hn. unfold is_node in Hn.
  destruct (node_at w a) as [nd|] eqn:Ha; [|contradiction]. unfold node_at in Ha. rewrite Ha. cbn [ret].
  change (node_at w a = Some nd) in Ha.
  destruct (proj2 HI _ _ Ha) as (I1 & I2 & I3 & I4 & I5).
  set (nd' := MkNode (nd_heap nd ++ [(ns, m)]) (upsert ns (length (nd_heap nd)) (nd_tbl nd)) (nd_thresh nd)).
  assert (Hd : set_node w a nd' = drop ns [] (set_node w a nd')).
  { unfold drop, set_node. cbn [w_nodes w_dropped]. rewrite app_nil_r. auto. }
  rewrite Hd.
  assert (Hle : node_le nd nd').
  { split; auto. split.
    - intros q ns2 m2 Hq. cbn [nd' nd_heap]. exists m2. rewrite nth_error_app1; auto. apply nth_error_Some; congruence.
    - intros _ ns2 H2. cbn [nd' nd_tbl]. destruct (str_dec ns2 ns) as [->|Hne].
      + rewrite assoc_upsert_same. discriminate.
      + rewrite assoc_upsert_other; auto. }
  assert (HN : NInv a nd').
  { unfold NInv; splits; cbn [nd' nd_tbl nd_heap].
    - apply upsert_nodup; auto.
    - intros ns2 q Hq. rewrite nth_error_snoc. destruct (str_dec ns2 ns) as [->|Hne].
      + rewrite assoc_upsert_same in Hq. injection Hq as <-. rewrite Nat.eqb_refl. eauto.
      + rewrite assoc_upsert_other in Hq by auto. destruct (I2 _ _ Hq) as (m2 & Hm2). exists m2.
        destruct (q =? length (nd_heap nd)) eqn:Eq; auto. apply Nat.eqb_eq in Eq. subst q.
        assert (length (nd_heap nd) < length (nd_heap nd)) by (apply nth_error_Some; congruence). lia.
    - intros q ns2 m2. rewrite nth_error_snoc. destruct (q =? length (nd_heap nd)); eauto.
      intros Hq. injection Hq as <- <-. auto.
    - intros ns2 Hk2. destruct (str_dec ns2 ns) as [->|Hne]; [contradiction|]. rewrite assoc_upsert_other; auto.
    - intros Ht' q ns2 m2. rewrite nth_error_snoc. destruct (q =? length (nd_heap nd)) eqn:Eq.
      + intros Hq. injection Hq as <- <-. split; [contradiction|auto].
      + intros Hq. destruct (I5 Ht' _ _ _ Hq) as (K1 & K2). split; auto. intros Hk2.
        rewrite assoc_upsert_other; auto. intros ->. contradiction. }
  assert (HX : ext w (drop ns [] (set_node w a nd'))) by (eapply upd_ext; eauto).
  exists (tag ns h'). splits; auto.
  - eapply upd_inv; eauto.
  - unfold G; splits; auto.
    + intros b ns2 Hns. unfold manager. rewrite node_at_set. destruct (str_eqb b a) eqn:Eb; auto.
      apply str_eqb_eq in Eb. subst b. rewrite Ha. cbn [nd' nd_tbl nd_heap].
      assert (ns2 <> ns) by congruence. rewrite assoc_upsert_other by auto.
      destruct (assoc ns2 (nd_tbl nd)) as [q|] eqn:Hq; auto. rewrite nth_error_app1; auto.
      destruct (I2 _ _ Hq) as (m2 & Hm2). apply nth_error_Some. congruence.
    + intros b ns2 K. unfold ptr. rewrite node_at_set. destruct (str_eqb b a) eqn:Eb; auto.
      apply str_eqb_eq in Eb. subst b. rewrite Ha. cbn [nd' nd_tbl]. apply assoc_upsert_other. congruence.
    + exists []. rewrite !app_nil_r. splits; auto.
      * cbn [drop set_node w_dropped]. rewrite app_nil_r. auto.
      * intros Har. apply keeps_perm. destruct (upd_data w a nd Ha) as (rest & P1 & P2).
        assert (Hpt : Permutation (tag ns h) (tag ns (stored (cm_cs m)) ++ tag ns h')).
        { rewrite <- tag_app. apply Permutation_map. auto. }
        rewrite P1, (P2 nd' ns []), Hpt. unfold node_data. cbn [nd' nd_heap].
        rewrite map_app, concat_app. cbn [map concat fst snd]. rewrite app_nil_r. perm.
  - cbn [Owns.owns]. exists h'. split; auto. apply H; [eapply ext_trans; eauto|]. unfold has_ns, ptr. rewrite node_at_set, str_eqb_refl.
    cbn [nd' nd_tbl]. rewrite assoc_upsert_same. discriminate.
Qed.

Lemma raw_names a (Q : list str -> hand -> World -> Prop) h w0 :
  (forall w l, ext w0 w -> Q l h w) -> owns (h_namespaces E a) Q h w0.
Proof.
  intros H w t Hw HI. unfold any_order, bind, tick, ret. destruct (assoc a (w_nodes w)) as [nd|].
  - exists h. splits; auto using ext_refl. 2: cbn [Owns.owns]; auto.
    unfold G; splits; auto. exists []. rewrite !app_nil_r. splits; auto. intros _. apply keeps_refl.
  - exists h. splits; auto using ext_refl, G_refl. cbn [Owns.owns]. auto.
Qed.

Lemma raw_rpc {A} a (hd : proc' N A) (Q : option A -> hand -> World -> Prop) h w0 :
  (forall w, ext w0 w -> is_node w a -> owns hd (fun r => Q (Some r)) h w) ->
  (forall w, ext w0 w -> Q None h w) ->
  owns (rpc E a hd) Q h w0.
Proof.
  intros H1 H2. apply raw_bind with (Q := fun f h' w => h' = h /\ (f <> ReqLost -> is_node w a) /\
     (f = RespLost -> ~ answers_arrive E)).
  - intros w t Hw HI. unfold bind, tick, ret. exists h. splits; auto using ext_refl.
    + unfold G; splits; auto. exists []. rewrite !app_nil_r. splits; auto. intros _. apply keeps_refl.
    + cbn [Owns.owns]. change (assoc a (w_nodes w)) with (node_at w a). unfold is_node. splits; auto.
      * destruct (node_at w a); [discriminate|congruence].
      * destruct (node_at w a); [|discriminate]. intros Hf Ha. apply (Ha t); auto.
  - intros f h' w Hw (-> & Hn & Hl). destruct f.
    + eapply raw_bind; [apply H1; [exact Hw|apply Hn; discriminate]|]. intros r h' w' _ HQ. exact HQ.
    + apply H2; auto.
    + cbn [Owns.owns]. exists h, h. splits.
      * intros t w1. unfold G; splits; auto. exists []. rewrite !app_nil_r. splits; auto. intros Ha.
        exfalso. apply Hl; auto.
      * eapply raw_bind; [apply H1; [exact Hw|apply Hn; discriminate]|].
        intros r h' w' _ _. intros Ha. exfalso. apply Hl; auto.
      * apply H2; auto.
Qed.

Lemma owns_rpc {A} ns a (hd : proc' N A) (Q : option A -> list DP -> World -> Prop) h w0 :
  (forall w, ext w0 w -> is_node w a -> nowns ns hd (fun r => Q (Some r)) h w) ->
  (forall w, ext w0 w -> Q None h w) ->
  nowns ns (rpc E a hd) Q h w0.
Proof. intros H1 H2. apply raw_rpc; [exact H1|]. intros w Hw. exists h. auto. Qed.

Lemma owns_access {A} a ns (f : CM N -> M (A * CM N)) g (Q : option A -> list DP -> World -> Prop) h w0 :
  may a ns f ->
  (forall m t, SP ns m -> wp (f m) t (fun r t' => t <= t' /\ SP ns (snd r) /\
     (NoDrop -> Forall (seen_expired E t t') (g (fst r))) /\ exists h',
     (answers_arrive E -> conserves E t t' (stored (cm_cs m) ++ h) (stored (cm_cs (snd r)) ++ h' ++ g (fst r))) /\
     forall w, ext w0 w -> has_ns w a ns -> Q (Some (fst r)) h' w)) ->
  (forall w, ext w0 w -> (has_ns w a ns -> ~ Stay) -> (is_node w a -> ~ Known a ns) -> Q None h w) ->
  nowns ns (access_g a ns f g) Q h w0.
Proof.
  intros HM H1 H2.
  apply raw_bind with (Q := fun o h' w => h' = tag ns h /\
    match o with Some p => has_slot w a p ns /\ has_ns w a ns
               | None => (has_ns w a ns -> ~ Stay) /\ (is_node w a -> ~ Known a ns) end).
  - apply raw_lookup; intros; splits; auto; unfold has_ns; try congruence. intros Hx Hs; apply (Hx Hs); assumption.
  - intros o h' w Hw (-> & Ho). destruct o as [p|].
    + destruct Ho as (Hs & Hn). eapply (owns_bind' ns) with (Q := fun x h' w' => Q (Some x) h' w').
      * eapply owns_slot; [exact HM|exact Hs|]. intros m t Hm. eapply wp_mono; [apply H1; exact Hm|].
        intros r t' (K1 & K2 & K3 & h' & K4 & K5). splits; auto. exists h'. splits; auto.
        intros w' Hw'. apply K5; [eapply ext_trans; eauto|eapply has_ns_ext; eauto].
      * intros x h' w' _ HQ. apply owns_ret. exact HQ.
    + apply owns_ret. destruct Ho. apply H2; auto.
Qed.

(* An access that takes [out] out of the slot. *)
Lemma owns_take {A} a ns (f : CM N -> M (A * CM N)) (out : A -> list DP) (P : A -> Prop) w0 :
  may a ns f ->
  (forall m t, SP ns m -> wp (f m) t (fun r t' => t <= t' /\ SP ns (snd r) /\ P (fst r) /\
     conserves E t t' (stored (cm_cs m)) (stored (cm_cs (snd r)) ++ out (fst r)))) ->
  nowns ns (access a ns f) (fun o h' w => match o with
                                      | Some x => P x /\ h' = out x /\ has_ns w a ns
                                      | None => h' = [] /\ (has_ns w a ns -> ~ Stay) /\ (is_node w a -> ~ Known a ns)
                                      end) [] w0.
Proof.
  intros HM H. apply owns_access; auto. intros m t Hm. eapply wp_mono; [apply H; exact Hm|].
  intros r t' (K1 & K2 & K3 & K4). splits; auto. exists (out (fst r)). rewrite !app_nil_r. splits; auto.
Qed.

End ServerFacts.
Arguments ext_refl {N Stay}.
Arguments ext_trans {N Stay}.
Arguments is_node_ext {N Stay}.
Arguments has_ns_ext {N Stay}.
