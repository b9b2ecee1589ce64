(* The simulation: instructions (Locks.v) by processes (Proc.v). *)
From Verif Require Import Base Num MathUtils Env Centroid CManager DataSpec MgrSpec Wp Proc Owns Server ServerSpec ServerFacts
  Locks LocksProofs.

Section Sim.
Context {N : Num}.
Notation World := (World N).

(* Instructions of a process, up to pointwise equality of continuations. *)
Inductive lowers : forall {R}, iproc N R -> proc' N R -> Prop :=
| lo_ret R (r : R) : lowers (IRet r) (Ret r)
| lo_lock R A l (f : World -> M (A * World)) (k : A -> proc' N R) ik :
    (forall x, lowers (ik x) (k x)) ->
    lowers (ILock l (IDo load (fun w0 => IDo (comp f w0) (fun r => IDo (store l (snd r)) (fun _ => IUnlock l (ik (fst r)))))))
           (Act (Some l) f k)
| lo_none R A (f : World -> M (A * World)) (k : A -> proc' N R) ik :
    (forall x, lowers (ik x) (k x)) ->
    lowers (IDo load (fun w0 => IDo (comp f w0) (fun r => ik (fst r)))) (Act None f k)
| lo_fork R q iq (k : proc' N R) ik : lowers iq q -> lowers ik k -> lowers (IFork iq ik) (Fork q k).

Lemma lowers_lower {R} (p : proc' N R) : lowers (lower p) p.
Proof.
  induction p as [R r|R A o f k IH|R q IHq k IHk]; cbn [lower].
  - constructor.
  - destruct o as [l|].
    + apply (lo_lock R A l f k (fun x => lower (k x))). auto.
    + apply (lo_none R A f k (fun x => lower (k x))). auto.
  - constructor; auto.
Qed.
Lemma lowers_bind {R S} (ip : iproc N R) p (f : R -> iproc N S) g :
  lowers ip p -> (forall r, lowers (f r) (g r)) -> lowers (ibind ip f) (pbind p g).
Proof.
  intros H. revert S f g. induction H; intros S g0 g Hg; cbn [ibind pbind]; auto.
  - apply (lo_lock S A l f (fun x => pbind (k x) g) (fun x => ibind (ik x) g0)). auto.
  - apply (lo_none S A f (fun x => pbind (k x) g) (fun x => ibind (ik x) g0)). auto.
  - constructor; auto.
Qed.

Lemma lowers_cases {R} (ip : iproc N R) p : lowers ip p ->
  match p with
  | Ret r => ip = IRet r
  | Act (Some l) f k => exists ik, (forall x, lowers (ik x) (k x)) /\
      ip = ILock l (IDo load (fun w0 => IDo (comp f w0) (fun r => IDo (store l (snd r)) (fun _ => IUnlock l (ik (fst r))))))
  | Act None f k => exists ik, (forall x, lowers (ik x) (k x)) /\ ip = IDo load (fun w0 => IDo (comp f w0) (fun r => ik (fst r)))
  | Fork q k => exists iq ik, lowers iq q /\ lowers ik k /\ ip = IFork iq ik
  end.
Proof. intros H. destruct H; eauto 6. Qed.
Lemma nth_error_nil {A} i : nth_error (@nil A) i = None.
Proof. destruct i; auto. Qed.

Inductive phase :=
| POut
| PIn (l : lock)
| PLoad (o : option lock) (w0 : World)
| PDone (l : lock) (w1 : World)
| PRel (l : lock).
Definition own_of (ph : phase) : list lock :=
  match ph with
  | POut | PLoad None _ => []
  | PIn l | PLoad (Some l) _ | PDone l _ | PRel l => [l]
  end.

Context {R : Type} (dflt : R).

Inductive trel : phase -> iproc N R -> proc' N R -> Prop :=
| t_out ip p : lowers ip p -> trel POut ip p
| t_in A l (f : World -> M (A * World)) k ik : (forall x, lowers (ik x) (k x)) ->
    trel (PIn l) (IDo load (fun w0 => IDo (comp f w0) (fun r => IDo (store l (snd r)) (fun _ => IUnlock l (ik (fst r))))))
         (Act (Some l) f k)
| t_load A l w0 (f : World -> M (A * World)) k ik : (forall x, lowers (ik x) (k x)) ->
    trel (PLoad (Some l) w0) (IDo (comp f w0) (fun r => IDo (store l (snd r)) (fun _ => IUnlock l (ik (fst r)))))
         (Act (Some l) f k)
| t_load0 A w0 (f : World -> M (A * World)) k ik : (forall x, lowers (ik x) (k x)) ->
    trel (PLoad None w0) (IDo (comp f w0) (fun r => ik (fst r))) (Act None f k)
| t_done l w1 ip p : lowers ip p -> trel (PDone l w1) (IDo (store l w1) (fun _ => IUnlock l ip)) p
| t_rel l ip p : lowers ip p -> trel (PRel l) (IUnlock l ip) p.

Definition threads_rel (phs : list phase) (th : list (list lock * iproc N R)) (thc : list (proc' N R)) : Prop :=
  forall i, match nth_error phs i, nth_error th i, nth_error thc i with
            | Some ph, Some (own, ip), Some p => own = own_of ph /\ trel ph ip p /\ lw p
            | None, None, None => True
            | _, _, _ => False
            end.

Record held_rel (phs : list phase) (held : list lock) : Prop := {
  h_nodup : NoDup held;
  h_in : forall l, In l held <-> exists i ph, nth_error phs i = Some ph /\ In l (own_of ph);
  h_one : forall i j ph ph' l, nth_error phs i = Some ph -> nth_error phs j = Some ph' ->
            In l (own_of ph) -> In l (own_of ph') -> i = j
}.

Record world_rel (phs : list phase) (wf wc : World) : Prop := {
  w_keys : keys wf = keys wc;
  w_thr : forall a, thrv a wf = thrv a wc;
  w_len : forall a, lenv a wf = lenv a wc;
  w_done : forall i l w1, nth_error phs i = Some (PDone l w1) -> same_at l w1 wc;
  w_same : forall l, (forall i w1, nth_error phs i <> Some (PDone l w1)) -> same_at l wf wc;
  w_load : forall i o w0, nth_error phs i = Some (PLoad o w0) -> agree o w0 wc;
  w_mutex : forall i ph l, nth_error phs i = Some ph -> In l (own_of ph) -> has_mutex wf l = true
}.

Definition Rel (phs : list phase) (s : istate N R) (thc : list (proc' N R)) (wc : World) : Prop :=
  let '(th, held, wf) := s in threads_rel phs th thc /\ held_rel phs held /\ world_rel phs wf wc.

Lemma set_nth {A} (l : list A) i x y j z : nth_error l i = Some y -> nth_error (list_set l i x) j = Some z ->
  (j = i /\ z = x) \/ (j <> i /\ nth_error l j = Some z).
Proof.
  intros H. rewrite nth_list_set. assert (Hl : i < length l) by (apply nth_error_Some; congruence).
  apply Nat.ltb_lt in Hl. rewrite Hl, andb_true_r. destruct (j =? i) eqn:E; intros K.
  - apply Nat.eqb_eq in E. left. split; congruence.
  - apply Nat.eqb_neq in E. right. auto.
Qed.
Lemma set_nth_same {A} (l : list A) i x y : nth_error l i = Some y -> nth_error (list_set l i x) i = Some x.
Proof. intros H. apply list_set_same. apply nth_error_Some. congruence. Qed.
Lemma set_nth_other {A} (l : list A) i x j : j <> i -> nth_error (list_set l i x) j = nth_error l j.
Proof. intros H. apply list_set_other. auto. Qed.

Lemma threads_set phs th thc i ph own ip p ph' ip' p' :
  nth_error phs i = Some ph -> nth_error th i = Some (own, ip) -> nth_error thc i = Some p ->
  threads_rel phs th thc -> trel ph' ip' p' -> lw p' ->
  threads_rel (list_set phs i ph') (list_set th i (own_of ph', ip')) (list_set thc i p').
Proof.
  intros H1 H2 H3 Hr Ht Hl j. destruct (Nat.eq_dec j i) as [->|Hj].
  - erewrite !set_nth_same by eauto. auto.
  - rewrite !set_nth_other by auto. apply Hr.
Qed.
(* The coarse side does not move. *)
Lemma threads_set_fine phs th thc i ph own ip p ph' ip' :
  nth_error phs i = Some ph -> nth_error th i = Some (own, ip) -> nth_error thc i = Some p ->
  threads_rel phs th thc -> trel ph' ip' p ->
  threads_rel (list_set phs i ph') (list_set th i (own_of ph', ip')) thc.
Proof.
  intros H1 H2 H3 Hr Ht j. destruct (Nat.eq_dec j i) as [->|Hj].
  - erewrite !set_nth_same by eauto. rewrite H3. specialize (Hr i). rewrite H1, H2, H3 in Hr. tauto.
  - rewrite !set_nth_other by auto. apply Hr.
Qed.

(* The owner stays the same. *)
Lemma held_keep phs held i ph ph' : nth_error phs i = Some ph -> own_of ph' = own_of ph ->
  held_rel phs held -> held_rel (list_set phs i ph') held.
Proof.
  intros Hi Ho [Hd Hin H1]. constructor; auto.
  - intros l. rewrite Hin. split.
    + intros (j & phj & Hj & Hl). destruct (Nat.eq_dec j i) as [->|Hn].
      * exists i, ph'. erewrite set_nth_same by eauto. split; auto. rewrite Ho. congruence.
      * exists j, phj. rewrite set_nth_other; auto.
    + intros (j & phj & Hj & Hl). destruct (set_nth _ _ _ _ _ _ Hi Hj) as [[-> ->]|[Hn Hj']].
      * exists i, ph. rewrite <- Ho. auto.
      * exists j, phj. auto.
  - intros j k phj phk l Hj Hk Hlj Hlk.
    destruct (set_nth _ _ _ _ _ _ Hi Hj) as [[-> ->]|[Hn Hj']]; destruct (set_nth _ _ _ _ _ _ Hi Hk) as [[-> ->]|[Hn' Hk']]; auto.
    + rewrite Ho in Hlj. eapply H1; eauto.
    + rewrite Ho in Hlk. eapply H1; eauto.
    + eapply H1; eauto.
Qed.

Lemma held_take phs held i l : nth_error phs i = Some POut -> ~ In l held -> held_rel phs held ->
  held_rel (list_set phs i (PIn l)) (l :: held).
Proof.
  intros Hi Hn [Hd Hin H1]. constructor.
  - constructor; auto.
  - intros l'. cbn [In]. rewrite Hin. split.
    + intros [<-|(j & ph & Hj & Hl)].
      * exists i, (PIn l). erewrite set_nth_same by eauto. cbn [own_of In]. auto.
      * exists j, ph. rewrite set_nth_other; auto. intros ->. rewrite Hi in Hj. injection Hj as <-. destruct Hl.
    + intros (j & ph & Hj & Hl). destruct (set_nth _ _ _ _ _ _ Hi Hj) as [[-> ->]|[Hne Hj']].
      * cbn [own_of In] in Hl. tauto.
      * right. exists j, ph. auto.
  - intros j k phj phk l' Hj Hk Hlj Hlk.
    destruct (set_nth _ _ _ _ _ _ Hi Hj) as [[-> ->]|[Hne Hj']]; destruct (set_nth _ _ _ _ _ _ Hi Hk) as [[-> ->]|[Hne' Hk']]; auto.
    + exfalso. apply Hn. cbn [own_of In] in Hlj. destruct Hlj as [<-|[]]. apply Hin. eauto.
    + exfalso. apply Hn. cbn [own_of In] in Hlk. destruct Hlk as [<-|[]]. apply Hin. eauto.
    + eauto.
Qed.
Lemma held_give phs held i l : nth_error phs i = Some (PRel l) -> held_rel phs held ->
  held_rel (list_set phs i POut) (release l held).
Proof.
  intros Hi [Hd Hin H1]. constructor.
  - apply release_nodup; auto.
  - intros l'. rewrite release_in by auto. rewrite Hin. split.
    + intros [(j & ph & Hj & Hl) Hne]. exists j, ph. rewrite set_nth_other; auto. intros ->. rewrite Hi in Hj. injection Hj as <-.
      cbn [own_of In] in Hl. destruct Hl as [<-|[]]. congruence.
    + intros (j & ph & Hj & Hl). destruct (set_nth _ _ _ _ _ _ Hi Hj) as [[-> ->]|[Hne Hj']]; [destruct Hl|]. split; [eauto|].
      intros ->. apply Hne. eapply H1; eauto. cbn [own_of In]. auto.
  - intros j k phj phk l' Hj Hk Hlj Hlk.
    destruct (set_nth _ _ _ _ _ _ Hi Hj) as [[-> ->]|[Hne Hj']]; [destruct Hlj|];
      destruct (set_nth _ _ _ _ _ _ Hi Hk) as [[-> ->]|[Hne' Hk']]; [destruct Hlk|]. eauto.
Qed.

(* No world changes, and the thread is not between computing and writing. *)
Lemma world_keep phs wf wc i ph ph' : nth_error phs i = Some ph ->
  (forall l w1, ph <> PDone l w1) -> (forall l w1, ph' <> PDone l w1) ->
  (forall o w0, ph' = PLoad o w0 -> agree o w0 wc) ->
  (forall l, In l (own_of ph') -> has_mutex wf l = true) ->
  world_rel phs wf wc -> world_rel (list_set phs i ph') wf wc.
Proof.
  intros Hi Hn Hn' Hl Hm [K1 K2 K3 K4 K5 K6 K7]. constructor; auto.
  - intros j l w1 Hj. destruct (set_nth _ _ _ _ _ _ Hi Hj) as [[-> Hx]|[_ Hx]]; [|eauto]. symmetry in Hx. apply Hn' in Hx. destruct Hx.
  - intros l Hall. apply K5. intros j w1 Hj. destruct (Nat.eq_dec j i) as [->|Hne].
    + rewrite Hi in Hj. injection Hj as ->. eapply Hn; eauto.
    + apply (Hall j w1). rewrite set_nth_other; auto.
  - intros j o w0 Hj. destruct (set_nth _ _ _ _ _ _ Hi Hj) as [[-> Hx]|[_ Hx]]; eauto.
  - intros j phj l Hj Hlj. destruct (set_nth _ _ _ _ _ _ Hi Hj) as [[-> ->]|[_ Hx]]; eauto.
Qed.

Lemma no_done phs held i ph l : nth_error phs i = Some ph -> In l (own_of ph) -> (forall w1, ph <> PDone l w1) ->
  held_rel phs held -> forall j w1, nth_error phs j <> Some (PDone l w1).
Proof.
  intros Hi Hl Hn Hh j w1 Hj. assert (j = i).
  { eapply (h_one _ _ Hh j i); eauto. cbn [own_of In]. auto. }
  subst. rewrite Hi in Hj. injection Hj as ->. eapply Hn; eauto.
Qed.

Lemma agree_now phs wf wc l : world_rel phs wf wc -> (forall j w1, nth_error phs j <> Some (PDone l w1)) -> agree (Some l) wf wc.
Proof.
  intros Hw Hn. pose proof (w_same _ _ _ Hw l Hn) as Hs. unfold agree. split; [apply Hw|]. split; [apply Hw|].
  destruct l as [a|a p]; cbn [same_at] in Hs; auto. split; auto. apply Hw.
Qed.

(* ---- one computed action ---- *)
Lemma alloc_none (w0 w1 w : World) : w_nodes w1 = w_nodes w0 -> forall b, node_at (alloc w0 w1 w) b = node_at w b.
Proof.
  intros H b. rewrite alloc_at. unfold new_slots. rewrite H. destruct (assoc b (w_nodes w0)) as [n0|].
  - rewrite skipn_all. destruct (node_at w b) as [[h0 tb0 th0]|]; cbn [option_map nd_heap nd_tbl nd_thresh]; auto. rewrite app_nil_r. auto.
  - destruct (node_at w b) as [[h0 tb0 th0]|]; cbn [option_map nd_heap nd_tbl nd_thresh]; auto. rewrite app_nil_r. auto.
Qed.
Lemma new_slots_d d (w0 w1 : World) b : w_nodes w1 = dapply d (w_nodes w0) ->
  new_slots w0 w1 b = match d with
                      | DTable a _ ext => if str_eqb b a then match node_at w0 b with Some _ => ext | None => [] end else []
                      | _ => [] end.
Proof.
  intros H. unfold new_slots. rewrite H, dapply_at. unfold node_at.
  destruct d as [|a tbl ext|a p s].
  - destruct (assoc b (w_nodes w0)); auto. apply skipn_all.
  - destruct (str_eqb b a); destruct (assoc b (w_nodes w0)) as [n|]; cbn [option_map dnode nd_heap]; auto.
    + rewrite skipn_app, skipn_all, Nat.sub_diag. auto.
    + apply skipn_all.
  - destruct (str_eqb b a); destruct (assoc b (w_nodes w0)) as [n|]; cbn [option_map dnode nd_heap]; auto.
    + apply skipn_all2. rewrite list_set_length. auto.
    + apply skipn_all.
Qed.

Lemma keys_at (w w' : World) a : keys w = keys w' -> (node_at w a = None <-> node_at w' a = None).
Proof. intros H. unfold node_at. rewrite !assoc_none. fold (keys w) (keys w'). rewrite H. tauto. Qed.


Lemma alloc_thr w0 w1 (w : World) b : thrv b (alloc w0 w1 w) = thrv b w.
Proof. unfold thrv. rewrite alloc_at. destruct (node_at w b); auto. Qed.
Lemma alloc_tbl w0 w1 (w : World) b : tblv b (alloc w0 w1 w) = tblv b w.
Proof. unfold tblv. rewrite alloc_at. destruct (node_at w b); auto. Qed.
Lemma alloc_slot w0 w1 (w : World) b p : slotv b p w <> None -> slotv b p (alloc w0 w1 w) = slotv b p w.
Proof.
  intros Hp. unfold slotv in *. rewrite alloc_at. destruct (node_at w b) as [nd|]; auto. cbn [option_map nd_heap].
  apply nth_error_app1. apply nth_error_Some; auto.
Qed.
Lemma alloc_mutex w0 w1 (w : World) l : has_mutex w l = true -> has_mutex (alloc w0 w1 w) l = true.
Proof.
  destruct l as [a|a p]; auto. rewrite !has_mutex_slot. intros H. rewrite alloc_slot; auto.
Qed.

Lemma coarse_frame d l l' (w w' : World) : fits (Some l) d -> l' <> l -> w_nodes w' = dapply d (w_nodes w) ->
  match l' with
  | LTable b => tblv b w' = tblv b w /\ lenv b w' = lenv b w
  | LSlot b q => slotv b q w <> None -> slotv b q w' = slotv b q w
  end.
Proof.
  intros Hf Hl Hw. assert (Hn : forall b, node_at w' b = match d with
    | DNone => node_at w b
    | DTable a _ _ | DSlot a _ _ => if str_eqb b a then option_map (dnode d) (node_at w b) else node_at w b end).
  { intros b. unfold node_at. rewrite Hw, dapply_at. auto. }
  destruct l' as [b|b q].
  - unfold tblv, lenv. rewrite Hn. destruct d as [|a tbl ext|a p s]; auto; destruct (str_eqb b a) eqn:Eb; auto; apply str_eqb_eq in Eb; subst b.
    + destruct l as [c|c p]; cbn [fits] in Hf; [subst; congruence|tauto].
    + destruct (node_at w a); cbn [option_map dnode nd_tbl nd_heap]; auto. rewrite list_set_length. auto.
  - unfold slotv. rewrite Hn. destruct d as [|a tbl ext|a p s]; auto; destruct (str_eqb b a) eqn:Eb; auto; apply str_eqb_eq in Eb; subst b.
    + destruct (node_at w a); cbn [option_map dnode nd_heap]; auto. intros H. apply nth_error_app1. apply nth_error_Some; auto.
    + destruct (node_at w a); cbn [option_map dnode nd_heap]; auto. intros H. apply list_set_other.
      intros ->. destruct l as [c|c p]; cbn [fits] in Hf; [tauto|]. destruct Hf as [-> ->]. congruence.
Qed.

Lemma world_comp phs held wf wc i l w0 w1 wc' d :
  nth_error phs i = Some (PLoad (Some l) w0) -> held_rel phs held -> world_rel phs wf wc ->
  fits (Some l) d -> w_nodes w1 = dapply d (w_nodes w0) -> w_nodes wc' = dapply d (w_nodes wc) ->
  world_rel (list_set phs i (PDone l w1)) (alloc w0 w1 wf) wc'.
Proof.
  intros Hi Hh [K1 K2 K3 K4 K5 K6 K7] Hf H1 Hc.
  pose proof (K6 _ _ _ Hi) as (A1 & A2 & A3).
  assert (Hml : has_mutex wf l = true) by (eapply K7; eauto; cbn [own_of In]; auto).
  assert (Hkc : keys wc' = keys wc) by (unfold keys; rewrite Hc; apply dapply_keys).
  assert (Htc : forall b, thrv b wc' = thrv b wc) by (intros b; eapply dapply_thr; eauto).
  assert (Hn : forall b, node_at wc' b = match d with
    | DNone => node_at wc b
    | DTable a _ _ | DSlot a _ _ => if str_eqb b a then option_map (dnode d) (node_at wc b) else node_at wc b end).
  { intros b. unfold node_at. rewrite Hc, dapply_at. auto. }
  assert (Hn1 : forall b, node_at w1 b = match d with
    | DNone => node_at w0 b
    | DTable a _ _ | DSlot a _ _ => if str_eqb b a then option_map (dnode d) (node_at w0 b) else node_at w0 b end).
  { intros b. unfold node_at. rewrite H1, dapply_at. auto. }
  assert (Hother : forall j phj l', nth_error phs j = Some phj -> In l' (own_of phj) -> j <> i -> l' <> l).
  { intros j phj l' Hj Hl' Hne ->. apply Hne. eapply (h_one _ _ Hh); eauto. cbn [own_of In]. auto. }
  assert (Hmc : forall a p, has_mutex wf (LSlot a p) = true -> slotv a p wc <> None).
  { intros a p H. apply has_mutex_slot in H. apply (lenv_slot wf wc a p (K3 a)) in H. auto. }
  constructor.
  - rewrite alloc_keys, Hkc. auto.
  - intros a. rewrite alloc_thr, Htc. auto.
  - intros b. unfold lenv. rewrite alloc_at, Hn, (new_slots_d d) by auto. specialize (K3 b). unfold lenv in K3.
    assert (Hz : node_at w0 b = None <-> node_at wf b = None) by (apply keys_at; congruence).
    destruct d as [|a tbl ext|a p s]; [| |].
    + rewrite <- K3. destruct (node_at wf b); cbn [option_map nd_heap]; auto. rewrite app_nil_r. auto.
    + destruct (str_eqb b a).
      * destruct (node_at wf b), (node_at wc b); cbn [option_map nd_heap dnode] in *; try congruence.
        injection K3 as K3. destruct (node_at w0 b); [|destruct Hz as [Hz _]; specialize (Hz eq_refl); discriminate].
        rewrite !app_length. congruence.
      * rewrite <- K3. destruct (node_at wf b); cbn [option_map nd_heap]; auto. rewrite app_nil_r. auto.
    + destruct (str_eqb b a).
      * destruct (node_at wf b), (node_at wc b); cbn [option_map nd_heap dnode] in *; try congruence.
        rewrite app_nil_r, list_set_length. auto.
      * rewrite <- K3. destruct (node_at wf b); cbn [option_map nd_heap]; auto. rewrite app_nil_r. auto.
  - intros j l' w1' Hj. destruct (set_nth _ _ _ _ _ _ Hi Hj) as [[-> Hx]|[Hne Hj']].
    + injection Hx as <- ->. destruct l' as [a|a p]; cbn [same_at].
      * unfold tblv. rewrite Hn, Hn1. destruct A3 as [A3 _]. unfold tblv in A3. destruct d as [|b tbl ext|b p s]; cbn [fits] in Hf; auto; [|tauto].
        subst b. rewrite str_eqb_refl. assert (Hz : node_at w0 a = None <-> node_at wc a = None) by (apply keys_at; auto).
        destruct (node_at w0 a), (node_at wc a); cbn [option_map dnode nd_tbl]; auto; destruct Hz as [Hz1 Hz2]; exfalso;
          [specialize (Hz2 eq_refl)|specialize (Hz1 eq_refl)]; discriminate.
      * unfold slotv in *. rewrite Hn, Hn1. destruct d as [|b tbl ext|b q s]; cbn [fits] in Hf; auto; [tauto|].
        destruct Hf as [<- <-]. rewrite str_eqb_refl. apply Hmc in Hml. unfold slotv in Hml.
        destruct (node_at wc a) as [nc|]; [|congruence]. destruct (node_at w0 a) as [n0|]; [|congruence].
        cbn [option_map dnode nd_heap]. rewrite !list_set_same; auto; apply nth_error_Some; congruence.
    + assert (Hl : l' <> l) by (eapply Hother; eauto; cbn [own_of In]; auto).
      pose proof (K4 _ _ _ Hj') as Hs. pose proof (coarse_frame _ _ _ _ _ Hf Hl Hc) as Hfr.
      destruct l' as [a|a p]; cbn [same_at] in *.
      * destruct Hfr as [Hfr _]. congruence.
      * rewrite Hfr; auto. apply Hmc. eapply K7; eauto. cbn [own_of In]. auto.
  - intros l' Hall. assert (Hl : l' <> l).
    { intros ->. apply (Hall i w1). eapply set_nth_same; eauto. }
    assert (Hs : same_at l' wf wc).
    { apply K5. intros j w1' Hj. destruct (Nat.eq_dec j i) as [->|Hne]; [congruence|].
      apply (Hall j w1'). rewrite set_nth_other; auto. }
    pose proof (coarse_frame _ _ _ _ _ Hf Hl Hc) as Hfr. destruct l' as [a|a p]; cbn [same_at] in *.
    + rewrite alloc_tbl. destruct Hfr as [-> _]. auto.
    + destruct (slotv a p wf) as [sl|] eqn:Esl.
      * rewrite alloc_slot by congruence. rewrite Hfr; congruence.
      * assert (Hz : node_at w0 a = None <-> node_at wf a = None) by (apply keys_at; congruence).
        specialize (K3 a). unfold lenv in K3. unfold slotv in *. rewrite alloc_at, Hn, (new_slots_d d) by auto.
        destruct (node_at wf a) as [nf|], (node_at wc a) as [nc|]; cbn [option_map] in K3; try discriminate.
        2:{ destruct d; cbn [option_map]; auto; destruct (str_eqb _ _); auto. }
        injection K3 as K3. cbn [option_map nd_heap].
        assert (Hge : length (nd_heap nf) <= p) by (apply nth_error_None; auto).
        rewrite nth_error_app2 by auto.
        destruct d as [|b tbl ext|b q s].
        -- rewrite nth_error_nil. auto.
        -- destruct (str_eqb a b); cbn [option_map dnode nd_heap].
           ++ rewrite nth_error_app2 by lia. rewrite K3. destruct (node_at w0 a); auto.
              destruct Hz as [Hz _]. specialize (Hz eq_refl). discriminate.
           ++ rewrite nth_error_nil. auto.
        -- rewrite nth_error_nil. destruct (str_eqb a b); cbn [option_map dnode nd_heap]; auto.
           symmetry. apply nth_error_None. rewrite list_set_length. lia.
  - intros j o w0' Hj. destruct (set_nth _ _ _ _ _ _ Hi Hj) as [[-> Hx]|[Hne Hj']]; [discriminate|].
    pose proof (K6 _ _ _ Hj') as (B1 & B2 & B3). split; [congruence|]. split; [intros a; rewrite Htc; auto|].
    destruct o as [l'|]; auto. assert (Hl : l' <> l) by (eapply Hother; eauto; cbn [own_of In]; auto).
    pose proof (coarse_frame _ _ _ _ _ Hf Hl Hc) as Hfr. destruct l' as [a|a p].
    + destruct Hfr as [-> ->]. auto.
    + rewrite Hfr; auto. apply Hmc. eapply K7; eauto. cbn [own_of In]. auto.
  - intros j phj l' Hj Hl'. apply alloc_mutex. destruct (set_nth _ _ _ _ _ _ Hi Hj) as [[-> ->]|[Hne Hj']].
    + cbn [own_of In] in Hl'. destruct Hl' as [<-|[]]. auto.
    + eapply K7; eauto.
Qed.

Lemma put_len l w1 (w : World) b : lenv b (put l w1 w) = lenv b w.
Proof.
  unfold lenv. rewrite put_at. destruct l as [a|a p]; destruct (str_eqb b a) eqn:Eb; auto; apply str_eqb_eq in Eb; subst b.
  - destruct (node_at w1 a), (node_at w a); auto.
  - destruct (slotv a p w1), (node_at w a); cbn [option_map nd_heap]; auto. rewrite list_set_length; auto.
Qed.
Lemma put_thr l w1 (w : World) b : thrv b (put l w1 w) = thrv b w.
Proof.
  unfold thrv. rewrite put_at. destruct l as [a|a p]; destruct (str_eqb b a) eqn:Eb; auto; apply str_eqb_eq in Eb; subst b.
  - destruct (node_at w1 a), (node_at w a); auto.
  - destruct (slotv a p w1), (node_at w a); cbn [option_map nd_heap]; auto.
Qed.
Lemma put_other l l' w1 (w : World) : l' <> l -> same_at l' (put l w1 w) w.
Proof.
  intros Hl. destruct l' as [b|b q]; cbn [same_at].
  - unfold tblv. rewrite put_at. destruct l as [a|a p]; destruct (str_eqb b a) eqn:Eb; auto; apply str_eqb_eq in Eb; subst b; [congruence|].
    destruct (slotv a p w1), (node_at w a); auto.
  - unfold slotv at 1. rewrite put_at. unfold slotv at 2. destruct l as [a|a p]; destruct (str_eqb b a) eqn:Eb; auto; apply str_eqb_eq in Eb; subst b.
    + destruct (node_at w1 a), (node_at w a); auto.
    + destruct (slotv a p w1), (node_at w a); cbn [nd_heap]; auto. apply list_set_other. congruence.
Qed.
Lemma put_self l w1 (w wc : World) : same_at l w1 wc -> keys w = keys wc -> (forall a, lenv a w = lenv a wc) ->
  has_mutex w l = true -> same_at l (put l w1 w) wc.
Proof.
  intros Hs Hk Hlen Hm. destruct l as [a|a p]; cbn [same_at] in *.
  - unfold tblv in *. rewrite put_at, str_eqb_refl. assert (Hz : node_at w a = None <-> node_at wc a = None) by (apply keys_at; auto).
    destruct (node_at w1 a), (node_at w a), (node_at wc a); cbn [option_map nd_tbl] in *; auto; try discriminate;
      destruct Hz as [Hz1 Hz2]; exfalso; try (specialize (Hz2 eq_refl); discriminate); specialize (Hz1 eq_refl); discriminate.
  - apply has_mutex_slot in Hm. assert (Hc : slotv a p wc <> None) by (apply (lenv_slot w wc a p (Hlen a)); auto).
    unfold slotv at 1. rewrite put_at, str_eqb_refl. rewrite Hs. destruct (slotv a p wc) as [s|]; [|congruence].
    unfold slotv in Hm. destruct (node_at w a) as [nd|]; [|congruence]. cbn [nd_heap]. apply list_set_same. apply nth_error_Some; auto.
Qed.

Lemma world_store phs held wf wc i l w1 :
  nth_error phs i = Some (PDone l w1) -> held_rel phs held -> world_rel phs wf wc ->
  world_rel (list_set phs i (PRel l)) (put l w1 wf) wc.
Proof.
  intros Hi Hh [K1 K2 K3 K4 K5 K6 K7].
  assert (Hml : has_mutex wf l = true) by (eapply K7; eauto; cbn [own_of In]; auto).
  constructor.
  - rewrite put_keys. auto.
  - intros a. rewrite put_thr. auto.
  - intros a. rewrite put_len. auto.
  - intros j l' w1' Hj. destruct (set_nth _ _ _ _ _ _ Hi Hj) as [[-> Hx]|[Hne Hj']]; [discriminate|eauto].
  - intros l' Hall. destruct (lock_dec l' l) as [->|Hl].
    + apply put_self; auto. eapply K4; eauto.
    + pose proof (put_other l l' w1 wf Hl) as Hp. assert (Hs : same_at l' wf wc).
      { apply K5. intros j w1' Hj. destruct (Nat.eq_dec j i) as [->|Hne]; [congruence|].
        apply (Hall j w1'). rewrite set_nth_other; auto. }
      destruct l'; cbn [same_at] in *; congruence.
  - intros j o w0' Hj. destruct (set_nth _ _ _ _ _ _ Hi Hj) as [[-> Hx]|[Hne Hj']]; [discriminate|eauto].
  - intros j phj l' Hj Hl'. assert (Hm : has_mutex wf l' = true).
    { destruct (set_nth _ _ _ _ _ _ Hi Hj) as [[-> ->]|[Hne Hj']]; [|eauto]. cbn [own_of In] in Hl'. destruct Hl' as [<-|[]]. auto. }
    destruct l' as [a|a p]; auto. apply has_mutex_slot in Hm. apply has_mutex_slot.
    apply (lenv_slot (put l w1 wf) wf a p); auto. apply put_len.
Qed.

Lemma world_ext phs (wf wc wf' wc' : World) : keys wf' = keys wf -> keys wc' = keys wc ->
  (forall b, node_at wf' b = node_at wf b) -> (forall b, node_at wc' b = node_at wc b) ->
  world_rel phs wf wc -> world_rel phs wf' wc'.
Proof.
  intros Hk Hk' Hf Hc [K1 K2 K3 K4 K5 K6 K7].
  assert (Hs : forall l w, same_at l w wc' <-> same_at l w wc).
  { intros [a|a p] w; cbn [same_at]; unfold tblv, slotv; rewrite Hc; tauto. }
  assert (Hs' : forall l w, same_at l wf' w <-> same_at l wf w).
  { intros [a|a p] w; cbn [same_at]; unfold tblv, slotv; rewrite Hf; tauto. }
  constructor.
  - congruence.
  - intros a. unfold thrv. rewrite Hf, Hc. apply K2.
  - intros a. unfold lenv. rewrite Hf, Hc. apply K3.
  - intros j l w1 Hj. apply Hs. eauto.
  - intros l H. apply Hs', Hs. eauto.
  - intros j o w0 Hj. destruct (K6 _ _ _ Hj) as (B1 & B2 & B3). split; [congruence|]. split.
    + intros a. rewrite B2. unfold thrv. rewrite Hc. auto.
    + destruct o as [[a|a p]|]; auto; unfold tblv, lenv, slotv in *; rewrite Hc; auto.
  - intros j phj l Hj Hl. specialize (K7 _ _ _ Hj Hl). destruct l as [a|a p]; auto.
    apply has_mutex_slot in K7. apply has_mutex_slot. unfold slotv in *. rewrite Hf. auto.
Qed.

(* ---- one instruction ---- *)
Lemma same_length {A B} (a : list A) (b : list B) : (forall i, nth_error a i = None <-> nth_error b i = None) -> length a = length b.
Proof.
  intros H. assert (H1 : length b <= length a).
  { apply nth_error_None. apply H. apply nth_error_None. auto. }
  assert (length a <= length b); [|lia]. apply nth_error_None. apply H. apply nth_error_None. auto.
Qed.
Lemma threads_len phs th thc : threads_rel phs th thc -> length th = length phs /\ length thc = length phs.
Proof.
  intros H. split; apply same_length; intros i; specialize (H i);
    destruct (nth_error phs i), (nth_error th i) as [[]|], (nth_error thc i); split; intros K; auto; try discriminate; destruct H.
Qed.
Lemma nth_snoc {A} (l : list A) x i : nth_error (l ++ [x]) i = if i =? length l then Some x else nth_error l i.
Proof.
  destruct (i =? length l) eqn:E.
  - apply Nat.eqb_eq in E. subst. rewrite nth_error_app2, Nat.sub_diag; auto.
  - apply Nat.eqb_neq in E. destruct (Nat.lt_ge_cases i (length l)).
    + apply nth_error_app1; auto.
    + rewrite nth_error_app2 by auto. destruct (i - length l) as [|m] eqn:Em; [lia|]. cbn [nth_error].
      rewrite (proj2 (nth_error_None l i)) by auto. destruct m; auto.
Qed.

Lemma rel_fork phs th held wf (thc : list (proc' N R)) wc i iq ik (q : proc' N unit) (k : proc' N R) :
  nth_error phs i = Some POut -> nth_error th i = Some ([], IFork iq ik) -> nth_error thc i = Some (Fork q k) ->
  lowers iq q -> lowers ik k -> Rel phs (th, held, wf) thc wc ->
  Rel (phs ++ [POut]) (list_set th i ([], ik) ++ [([], ibind iq (fun _ => IRet dflt))], held, wf)
    (list_set thc i k ++ [pbind q (fun _ => Ret dflt)]) wc.
Proof.
  intros H1 H2 H3 Hq Hk (Ht & Hh & Hw).
  assert (Hlw : lw q /\ lw k).
  { specialize (Ht i). rewrite H1, H2, H3 in Ht. apply Ht. }
  assert (Hth : threads_rel phs (list_set th i ([], ik)) (list_set thc i k)).
  { rewrite <- (list_set_id phs i POut) by auto. apply (threads_set phs th thc i POut [] (IFork iq ik) (Fork q k) POut ik k); auto.
    constructor; auto. tauto. }
  assert (Hold : forall j x, nth_error (phs ++ [POut]) j = Some x -> x = POut \/ nth_error phs j = Some x).
  { intros j x. rewrite nth_snoc. destruct (j =? length phs); intros H; [left; congruence|right; auto]. }
  assert (Hnew : forall j x, nth_error phs j = Some x -> nth_error (phs ++ [POut]) j = Some x).
  { intros j x Hj. rewrite nth_error_app1; auto. apply nth_error_Some. congruence. }
  destruct (threads_len _ _ _ Hth) as [L1 L2]. split; [|split].
  - intros j. rewrite !nth_snoc, L1, L2. destruct (j =? length phs); [|apply Hth].
    split; auto. split.
    + constructor. apply lowers_bind; auto. intros []. constructor.
    + apply lw_bind; [tauto|]. cbn [lw]. auto.
  - destruct Hh as [G1 G2 G3]. constructor; auto.
    + intros l. rewrite G2. split; intros (j & ph & Hj & Hl).
      * exists j, ph. auto.
      * destruct (Hold _ _ Hj) as [->|Hj']; [destruct Hl|]. exists j, ph. auto.
    + intros j j' ph ph' l Hj Hj' Hl Hl'. destruct (Hold _ _ Hj) as [->|K]; [destruct Hl|].
      destruct (Hold _ _ Hj') as [->|K']; [destruct Hl'|]. eauto.
  - destruct Hw as [K1 K2 K3 K4 K5 K6 K7]. constructor; auto.
    + intros j l w1 Hj. destruct (Hold _ _ Hj) as [?|K]; [discriminate|eauto].
    + intros l H. apply K5. intros j w1 Hj. eapply H; eauto.
    + intros j o w0 Hj. destruct (Hold _ _ Hj) as [?|K]; [discriminate|eauto].
    + intros j ph l Hj Hl. destruct (Hold _ _ Hj) as [->|K]; [destruct Hl|eauto].
Qed.

(* The number of instructions until the mutex is free again. *)
Definition rank (ph : phase) : nat :=
  match ph with POut => 0 | PIn _ => 4 | PLoad (Some _) _ => 3 | PDone _ _ => 2 | PRel _ | PLoad None _ => 1 end.
Definition matched (mv : list phase -> list nat -> Prop) (thc : list (proc' N R)) (wc : World) (t : nat) (o : outcome (istate N R * nat)) : Prop :=
  match o with
  | Ok (s', t') => exists phs' sc thc' wc', interleave dflt sc thc wc t = Ok ((thc', wc'), t') /\ Rel phs' s' thc' wc' /\ mv phs' sc
  | Panic => exists sc, interleave dflt sc thc wc t = Panic
  | OutOfFuel => exists sc, interleave dflt sc thc wc t = OutOfFuel
  end.

Definition moved (phs : list phase) (held : list lock) (thc : list (proc' N R)) (i : nat) (phs' : list phase) (sc : list nat) : Prop :=
  match nth_error phs i with
  | None => True
  | Some POut =>
      match nth_error thc i with
      | None | Some (Ret _) => True
      | Some (Act (Some l) _ _) => In l held \/ (phs' = list_set phs i (PIn l) /\ sc = [])
      | Some (Act None _ _) => exists w0, phs' = list_set phs i (PLoad None w0) /\ sc = []
      | Some (Fork _ _) => phs' = phs ++ [POut] /\ sc = [i]
      end
  | Some ph => exists ph', phs' = list_set phs i ph' /\ rank ph = S (rank ph') /\ (forall w0, ph' <> PLoad None w0) /\ sc = match ph with PLoad _ _ => [i] | _ => [] end
  end.
Lemma step_matched phs s thc wc i t : Rel phs s thc wc -> matched (moved phs (snd (fst s)) thc i) thc wc t (istep dflt s i t).
Proof.
  destruct s as [[th held] wf]. intros HR. pose proof HR as (Ht & Hh & Hw). unfold istep.
  assert (Hstay : moved phs held thc i phs [] -> matched (moved phs held thc i) thc wc t (Ok ((th, held, wf), t))).
  { intros Hm. exists phs, [], thc, wc. split; auto. }
  cbn [fst snd]. unfold moved in *.
  pose proof (Ht i) as Hi. destruct (nth_error th i) as [[own ip]|] eqn:Eth.
  2:{ destruct (nth_error phs i); [destruct (nth_error thc i); destruct Hi|]. auto. }
  destruct (nth_error phs i) as [ph|] eqn:Eph; [|destruct (nth_error thc i); destruct Hi].
  destruct (nth_error thc i) as [p|] eqn:Ec; [|destruct Hi]. destruct Hi as (-> & Htr & Hlw).
  assert (Hone : interleave dflt [i] thc wc t =
     match p with
     | Ret _ => ret (thc, wc) | Act _ f k => do ' (a, w') <- f wc; ret (list_set thc i (k a), w')
     | Fork q k => ret (list_set thc i k ++ [pbind q (fun _ => Ret dflt)], wc) end t).
  { cbn [interleave]. unfold bind at 1. unfold step1.
    change (@nth_error (proc (Server.World N) lock R) thc i) with (@nth_error (proc' N R) thc i). rewrite Ec. destruct p as [r|A o f k|q k]; auto.
    unfold bind. destruct (f wc t) as [[[a w'] t']| |]; auto. }
  destruct Htr as [ip p Hlo|A l f k ik Hk|A l w0 f k ik Hk|A w0 f k ik Hk|l w1 ip p Hlo|l ip p Hlo].
  - (* outside *)
    pose proof (lowers_cases ip p Hlo) as Hc. destruct p as [r|A [l|] f k|q k].
    + subst. apply Hstay. auto.
    + destruct Hc as (ik & Hk & ->). destruct (has_mutex wf l) eqn:Em; cbn [negb].
      * destruct (mem l held) eqn:Eh; [apply Hstay; left; apply mem_in; auto|]. exists (list_set phs i (PIn l)), [], thc, wc. split; [auto|].
        split; [|auto]. split; [|split].
        -- eapply (threads_set_fine phs th thc i POut _ _ _ (PIn l)); eauto. constructor; auto.
        -- apply held_take; auto.
           intros H. apply mem_in in H. congruence.
        -- eapply world_keep; eauto; try discriminate. cbn [own_of In]. intros l' [<-|[]]. auto.
      * exists [i]. destruct l as [a|a p]; [discriminate|]. rewrite Hone.
        unfold bind. destruct Hlw as [[_ Hp] _]. rewrite Hp; auto.
        destruct (slotv a p wc) eqn:Es; auto. assert (slotv a p wf <> None).
        { apply (lenv_slot wf wc a p (w_len _ _ _ Hw a)). congruence. }
        apply has_mutex_slot in H. congruence.
    + destruct Hc as (ik & Hk & ->). cbn [load bind ret]. exists (list_set phs i (PLoad None wf)), [], thc, wc. split; [auto|].
      split; [|eauto]. split; [|split].
      * eapply (threads_set_fine phs th thc i POut _ _ _ (PLoad None wf)); eauto. constructor; auto.
      * eapply held_keep; eauto.
      * eapply world_keep; eauto; try discriminate; try (cbn [own_of In]; tauto).
        intros o w0 H. injection H as <- <-. split; [apply Hw|]. split; auto. apply Hw.
    + destruct Hc as (iq & ik & Hq & Hk & ->). cbn [ret]. exists (phs ++ [POut]), [i].
      exists (list_set thc i k ++ [pbind q (fun _ => Ret dflt)]), wc. split.
      * rewrite Hone; reflexivity.
      * split; [|auto]. eapply rel_fork; eauto.
  - (* locked *)
    cbn [load bind ret]. exists (list_set phs i (PLoad (Some l) wf)), [], thc, wc. split; [auto|]. split; [|eexists; splits; [reflexivity|auto|discriminate|auto]]. split; [|split].
    + eapply (threads_set_fine phs th thc i (PIn l) _ _ _ (PLoad (Some l) wf)); eauto. constructor; auto.
    + eapply held_keep; eauto.
    + eapply world_keep; eauto; try discriminate.
      * intros o w0 H. injection H as <- <-. eapply agree_now; eauto. eapply no_done; eauto; [cbn [own_of In]; auto|discriminate].
      * intros l' H. eapply (w_mutex _ _ _ Hw); eauto.
  - (* read, with a mutex *)
    pose proof (w_load _ _ _ Hw _ _ _ Eph) as Hag. destruct Hlw as [[Hf _] Hlk]. specialize (Hf w0 t).
    unfold comp, bind. destruct (f w0 t) as [[[x w1] t']| |] eqn:Ef.
    + destruct Hf as (d & Hd & H1 & Hall). destruct (Hall wc Hag) as (wc' & Hc & Hc'). cbn [ret fst snd].
      exists (list_set phs i (PDone l w1)), [i], (list_set thc i (k x)), wc'. split.
      * rewrite Hone. unfold bind. rewrite Hc. reflexivity.
      * split; [|eexists; splits; [reflexivity|auto|discriminate|auto]]. split; [|split].
        -- eapply (threads_set phs th thc i (PLoad (Some l) w0) _ _ _ (PDone l w1)); eauto. constructor; auto.
        -- eapply held_keep; eauto.
        -- eapply world_comp; eauto.
    + exists [i]. rewrite Hone. unfold bind. rewrite (Hf wc Hag). reflexivity.
    + exists [i]. rewrite Hone. unfold bind. rewrite (Hf wc Hag). reflexivity.
  - (* read, without *)
    pose proof (w_load _ _ _ Hw _ _ _ Eph) as Hag. destruct Hlw as [[Hf _] Hlk]. specialize (Hf w0 t).
    unfold comp, bind. destruct (f w0 t) as [[[x w1] t']| |] eqn:Ef.
    + destruct Hf as (d & Hd & H1 & Hall). destruct d; cbn [fits] in Hd; try tauto. cbn [dapply] in *.
      destruct (Hall wc Hag) as (wc' & Hc & Hc'). cbn [ret fst snd].
      exists (list_set phs i POut), [i], (list_set thc i (k x)), wc'. split.
      * rewrite Hone. unfold bind. rewrite Hc. reflexivity.
      * split; [|eexists; splits; [reflexivity|auto|discriminate|auto]]. split; [|split].
        -- eapply (threads_set phs th thc i (PLoad None w0) _ _ _ POut); eauto. constructor; auto.
        -- eapply held_keep; eauto.
        -- apply (world_ext _ wf wc).
           ++ apply alloc_keys.
           ++ unfold keys. congruence.
           ++ apply alloc_none; auto.
           ++ intros b. unfold node_at. congruence.
           ++ eapply world_keep; eauto; try discriminate; try (cbn [own_of In]; tauto).
    + exists [i]. rewrite Hone. unfold bind. rewrite (Hf wc Hag). reflexivity.
    + exists [i]. rewrite Hone. unfold bind. rewrite (Hf wc Hag). reflexivity.
  - (* computed *)
    unfold store. cbn [bind ret]. exists (list_set phs i (PRel l)), [], thc, wc. split; [auto|]. split; [|eexists; splits; [reflexivity|auto|discriminate|auto]]. split; [|split].
    + eapply (threads_set_fine phs th thc i (PDone l w1) _ _ _ (PRel l)); eauto. constructor; auto.
    + eapply held_keep; eauto.
    + eapply world_store; eauto.
  - (* written *)
    assert (Hin : In l held) by (apply (h_in _ _ Hh); exists i, (PRel l); cbn [own_of In]; auto).
    rewrite (proj2 (mem_in l held) Hin). exists (list_set phs i POut), [], thc, wc. split; [auto|]. split; [|eexists; splits; [reflexivity|auto|discriminate|auto]]. split; [|split].
    + cbn [own_of release]. rewrite (proj2 (lock_eqb_eq l l) eq_refl).
      eapply (threads_set_fine phs th thc i (PRel l) _ _ _ POut); eauto. constructor; auto.
    + eapply held_give; eauto.
    + eapply world_keep; eauto; try discriminate; try (cbn [own_of In]; tauto).
Qed.

Definition nomove (phs' : list phase) (sc : list nat) : Prop := True.
Lemma run_matched : forall sched phs s thc wc t, Rel phs s thc wc -> matched nomove thc wc t (irun dflt sched s t).
Proof.
  induction sched as [|i sched IH]; intros phs s thc wc t HR; cbn [irun].
  - exists phs, [], thc, wc. split; auto. split; auto. exact I.
  - unfold bind. pose proof (step_matched phs s thc wc i t HR) as Hs. destruct (istep dflt s i t) as [[s1 t1]| |]; cbn [matched] in *; auto.
    destruct Hs as (phs1 & sc & thc1 & wc1 & H1 & HR1 & _). specialize (IH phs1 s1 thc1 wc1 t1 HR1).
    destruct (irun dflt sched s1 t1) as [[s2 t2]| |]; cbn [matched] in *.
    + destruct IH as (phs2 & sc2 & thc2 & wc2 & H2 & HR2 & _). exists phs2, (sc ++ sc2), thc2, wc2. split; [|split; [auto|exact I]].
      rewrite interleave_app, H1. auto.
    + destruct IH as (sc2 & H2). exists (sc ++ sc2). rewrite interleave_app, H1. auto.
    + destruct IH as (sc2 & H2). exists (sc ++ sc2). rewrite interleave_app, H1. auto.
Qed.

Lemma rel_start (th : list (proc' N R)) w : Forall lw th -> Rel (map (fun _ => POut) th) (istart th w) th w.
Proof.
  intros Hlw. assert (Hp : forall i ph, nth_error (map (fun _ : proc' N R => POut) th) i = Some ph -> ph = POut).
  { intros i ph H. rewrite nth_error_map in H. destruct (nth_error th i); cbn [option_map] in H; congruence. }
  split; [|split].
  - intros i. rewrite !nth_error_map. destruct (nth_error th i) as [p|] eqn:E; cbn [option_map]; auto. split; auto. split.
    + constructor. apply lowers_lower.
    + rewrite Forall_forall in Hlw. apply Hlw. eapply nth_error_In; eauto.
  - constructor; [constructor| |].
    + intros l. split; [intros []|]. intros (i & ph & H & Hl). apply Hp in H. subst. destruct Hl.
    + intros i j ph ph' l H _ Hl. apply Hp in H. subst. destruct Hl.
  - constructor; auto.
    + intros i l w1 H. apply Hp in H. discriminate.
    + intros [a|a p] _; cbn [same_at]; auto.
    + intros i o w0 H. apply Hp in H. discriminate.
    + intros i ph l H Hl. apply Hp in H. subst. destruct Hl.
Qed.
End Sim.
