(* Whole lives of a manager, in memory and with lists. *)
From Verif Require Import Base Num MathUtils Env Wp Centroid CManager History Memory MemProofs MemCentroid MemSim MemCenProofs MemManager MemMgrProofs MemMgrProofs2 MemSpec.

Section MemTop.
Context {N : Num} (E : Env N).
Notation DP := (DataPoint N).
Notation Cen := (Centroid N).
Notation lheap := (lheap N).
Notation mgr := (mgr N).
Notation answer := (@answer N).

(* What the memory holds for an answer; ps are the manager's centroids. *)
Definition held (h : lheap) (g : mgr) (ps : list nat) (o : cmop N) (x : handle) (a : answer) : Prop :=
  match x, a with
  | HNone, ANone => True
  | HBool b, ABool b' => b = b'
  | HDps y, ADps l => loose h y l
  | HCens None, ACens None => True
  | HCens (Some u), ACens (Some cs) => shows_cens h g ps (negb (shares o)) u cs
  | _, _ => False
  end.

Lemma held_later h g ps o x a h' g' ps' m : rep h g ps m -> held h g ps o x a -> shares o = false -> g_cs g' = g_cs g ->
  fr ps [] [g_cs g] h h' -> incl_new h ps ps' -> held h' g' ps' o x a.
Proof.
  intros R H Ho Hg F Hin. destruct x as [|b|y|[u|]], a as [|b'|l|[cs|]]; cbn in *; auto.
  - eapply loose_fr; eauto.
  - rewrite Ho in *. destruct H as (Hu & us & Hus & Hc & Haway). specialize (Haway eq_refl). split; [congruence|].
    exists us. splits.
    + eapply (fr_ptrs _ _ _ _ _ F); [exact Hus|]. intros [?|[]]. auto.
    + eapply cens_fr; [apply R|exact F|exact Hc|intros y []|auto].
    + intros _ q Hq Hq'. apply Hin in Hq'. destruct Hq' as [Hq'|Hq']; [eapply Haway; eauto|].
      apply In_nth_error in Hq. destruct Hq as (k & Hk).
      destruct (cens_at2 _ _ _ _ _ Hc Hk) as (c & _ & (y & Hobj & _)). apply obj_lt in Hobj. lia.
Qed.

Lemma step_sim h g ps m o : rep h g ps m ->
  sim (step_m E g o) h (answer_of E m o)
    (fun r h' s => exists ps', rep h' (snd r) ps' (snd s) /\ g_cs (snd r) = g_cs g /\ fr ps [] [g_cs g] h h' /\
       incl_new h ps ps' /\ held h' (snd r) ps' o (fst r) (fst s)).
Proof.
  intros R.
  assert (Hmp : forall (x : handle) (a : answer) g' m' h', mpost h g ps h' g' m' ->
    (forall ps', rep h' g' ps' m' -> held h' g' ps' o x a) ->
    exists ps', rep h' (snd (x, g')) ps' (snd (a, m')) /\ g_cs (snd (x, g')) = g_cs g /\ fr ps [] [g_cs g] h h' /\
       incl_new h ps ps' /\ held h' (snd (x, g')) ps' o (fst (x, g')) (fst (a, m'))).
  { intros x a g' m' h' (ps' & R' & Hg & F & Hi) Hh. exists ps'. cbn [fst snd]. splits; auto. }
  destruct o as [d|n|n| | | |n|v k drain|v n drain|p|p|cs]; cbn [step_m answer_of].
  - eapply sim_bind; [apply add_mgr_sim; eauto|]. intros [b g'] h' [b' m'] (Hb & K). apply sim_ret. apply Hmp; auto.
  - eapply sim_bind; [apply (mgr_drain_sim E _ _ (drain_unordered_sim E) h g ps m n R)|].
    intros [y g'] h' [l m'] (K & Hl). apply sim_ret. apply Hmp; auto.
  - eapply sim_bind; [apply (mgr_drain_sim E _ _ (drain_ordered_sim E) h g ps m n R)|].
    intros [y g'] h' [l m'] (K & Hl). apply sim_ret. apply Hmp; auto.
  - eapply sim_bind; [apply mgr_expire_sim; eauto|]. intros g' h' m' K. apply sim_ret. apply Hmp; cbn; auto.
  - eapply sim_bind; [apply mgr_trim_sim; eauto|]. intros g' h' m' K. apply sim_ret. apply Hmp; cbn; auto.
  - eapply sim_bind; [apply mgr_move_sim; eauto|]. intros [b g'] h' [b' m'] (Hb & K). apply sim_ret. apply Hmp; auto.
  - eapply sim_bind; [apply mgr_distribute_sim; eauto|]. intros g' h' m' K. apply sim_ret. apply Hmp; cbn; auto.
  - eapply sim_bind; [apply mgr_lookup_sim; eauto|]. intros [y g'] h' [l m'] (K & Hl). apply sim_ret. apply Hmp; auto.
  - eapply sim_bind; [apply mgr_nearest_sim; eauto|]. intros [u g'] h' [cs m'] (ps' & R' & Hg & F & Hi & Hs). apply sim_ret.
    exists ps'. cbn [fst snd] in *. splits; auto. destruct u, cs; cbn; try contradiction; auto. rewrite negb_involutive.
    destruct Hs as (Hu & Hs). split; auto. congruence.
  - eapply sim_bind; [apply mgr_split_sim; eauto|]. intros [] h' m' K. apply sim_ret. apply Hmp; cbn; auto.
  - eapply sim_bind; [apply mgr_merge_sim; eauto|]. intros g' h' m' K. apply sim_ret. apply Hmp; cbn; auto.
  - eapply sim_bind; [apply mgr_attach_sim; eauto|]. intros [] h' m' K. apply sim_ret. apply Hmp; cbn; auto.
Qed.

Fixpoint held_all (h : lheap) (g : mgr) (ps : list nat) (ops : list (cmop N)) (xs : list handle) (l : list answer) : Prop :=
  match ops, xs, l with
  | [], [], [] => True
  | o :: ops', x :: xs', a :: l' => (shares o = false \/ ops' = [] -> held h g ps o x a) /\ held_all h g ps ops' xs' l'
  | _, _, _ => False
  end.

Lemma calls_sim ops : forall h g ps m, rep h g ps m ->
  sim (calls_m E g ops) h (answers E m ops)
    (fun r h' s => exists ps', rep h' (snd r) ps' (snd s) /\ g_cs (snd r) = g_cs g /\ fr ps [] [g_cs g] h h' /\
       incl_new h ps ps' /\ held_all h' (snd r) ps' ops (fst r) (fst s) /\ (ops = [] -> h' = h /\ snd r = g /\ ps' = ps)).
Proof.
  induction ops as [|o ops IH]; intros h g ps m R; cbn [calls_m answers].
  - apply sim_ret. cbn [fst snd held_all]. exists ps. splits; auto; [apply fr0; apply R|]. intros q; auto.
  - eapply sim_bind; [apply step_sim; eauto|]. intros [x g1] h1 [a m1] (ps1 & R1 & Hg1 & F1 & Hi1 & Hx). cbn [fst snd] in *.
    eapply sim_bind; [apply IH; eauto|]. intros [xs g2] h2 [l m2] (ps2 & R2 & Hg2 & F2 & Hi2 & Hxs & Hnil). cbn [fst snd] in *.
    apply sim_ret. cbn [fst snd held_all]. exists ps2. splits; auto; try congruence.
    + rewrite Hg1 in F2. frt F1 F2.
    + intros q Hq. apply Hi2 in Hq. destruct Hq as [Hq|Hq]; [apply Hi1 in Hq; auto|]. right. pose proof (fr_olen _ _ _ _ _ F1). lia.
    + intros [Ho| ->].
      * eapply held_later; [exact R1|exact Hx|exact Ho|exact Hg2|exact F2|exact Hi2].
      * destruct (Hnil eq_refl) as (-> & -> & ->). exact Hx.
Qed.

(* Reading. *)
Lemma read_of_lists {A} (m : mem A) x l : nth_error (contents m) x = Some l -> read_var m x = Some l.
Proof. unfold contents, read_var. rewrite nth_error_map. destruct (nth_error (m_vars m) x); auto. Qed.
Lemma read_cen_of (h : heap N) p c : cen (lists_of h) p c -> read_cen h p = Some c.
Proof.
  intros (x & Ho & Hx). unfold read_cen. unfold obj, dvar in *. cbn in *. rewrite Ho, (read_of_lists _ _ _ Hx). destruct c; auto.
Qed.
Lemma read_cens_of (h : heap N) ps cs : cens (lists_of h) ps cs -> read_cens h ps = Some cs.
Proof.
  intros H. induction H as [|p c ps cs Hc H IH]; cbn; auto. rewrite (read_cen_of _ _ _ Hc), IH. reflexivity.
Qed.
Lemma read_ptrs_of (h : heap N) u ps cs : pvar (lists_of h) u ps -> cens (lists_of h) ps cs -> read_ptrs h u = Some cs.
Proof. intros Hu Hc. unfold read_ptrs. rewrite (read_of_lists _ _ _ Hu). apply read_cens_of. auto. Qed.

Lemma tells_of (h : heap N) g ps o x a : held (lists_of h) g ps o x a -> tells h x a.
Proof.
  destruct x as [|b|y|[u|]], a as [|b'|l|[cs|]]; cbn; auto.
  - intros (H & _). apply read_of_lists. exact H.
  - intros (_ & us & Hus & Hc & _). eapply read_ptrs_of; eauto.
Qed.
Lemma tells_all_of (h : heap N) g ps ops : forall xs l, held_all (lists_of h) g ps ops xs l -> tells_all h ops xs l.
Proof.
  induction ops as [|o ops IH]; intros [|x xs] [|a l]; cbn; auto. intros (H1 & H2). split; auto.
  intros H. eapply tells_of. apply H1. exact H.
Qed.

Theorem memory_ok room init thresh cap ops t :
  same_run (fun (x : (list handle * mgr) * heap N) (y : list answer * CM N) =>
      read_mgr (snd x) (snd (fst x)) = Some (snd y) /\ tells_all (snd x) ops (fst (fst x)) (fst y))
    (run_heap room (life E init thresh cap ops) empty_heap t) (answers E (new_cm init thresh) ops t).
Proof.
  assert (Hok : heap_ok (@empty_heap N)) by (repeat split; constructor).
  pose proof (prog_ok room (life E init thresh cap ops) empty_heap t Hok) as H1.
  assert (H2 : sim (life E init thresh cap ops) (lists_of empty_heap) (answers E (new_cm init thresh) ops)
    (fun r h' s => exists ps, rep h' (snd r) ps (snd s) /\ held_all h' (snd r) ps ops (fst r) (fst s))).
  { unfold life, new_mgr_m. apply sim_assoc. eapply sim_pnew. cbn [mbind].
    eapply sim_mono; [eapply (calls_sim ops _ _ [] (new_cm init thresh))|].
    - constructor; cbn; auto; try (split; constructor); constructor.
    - intros r h' s (ps & R & _ & _ & _ & Hh & _). eauto. }
  specialize (H2 t). destruct (run_heap room (life E init thresh cap ops) empty_heap t) as [[[r h] u]| |],
    (run_lists (life E init thresh cap ops) (lists_of empty_heap) t) as [[[r' h'] u']| |],
    (answers E (new_cm init thresh) ops t) as [[s u'']| |]; cbn in *; try contradiction; auto.
  destruct H1 as (-> & -> & _ & <-), H2 as (-> & ps & R & Hh). splits; auto.
  - unfold read_mgr. rewrite (read_ptrs_of _ _ _ _ (rep_cs _ _ _ _ R) (rep_cens _ _ _ _ R)).
    rewrite (rep_vec _ _ _ _ R), (rep_thresh _ _ _ _ R). destruct (snd s); reflexivity.
  - eapply tells_all_of. exact Hh.
Qed.

(* The histories of History.v. *)
Lemma answer_step m o t : same_run (fun (x : answer * CM N) y => snd x = snd y) (answer_of E m o t) (step E m o t).
Proof.
  destruct o; cbn [answer_of step]; unfold bind, ret;
    try (match goal with |- context [match ?x with Ok _ => _ | Panic => _ | OutOfFuel => _ end] => destruct x as [[[? ?] ?]| |] end; cbn; auto; fail);
    try (match goal with |- context [match ?x with Ok _ => _ | Panic => _ | OutOfFuel => _ end] => destruct x as [[? ?]| |] end; cbn; auto; fail).
  destruct (forallb _ cs); cbn; auto.
Qed.
Lemma answers_run ops : forall m t, same_run (fun (x : list answer * CM N) y => snd x = snd y) (answers E m ops t) (History.run E m ops t).
Proof.
  induction ops as [|o ops IH]; intros m t; cbn [answers History.run]; [cbn; auto|]. unfold bind.
  pose proof (answer_step m o t) as H. destruct (answer_of E m o t) as [[[a m1] u]| |], (step E m o t) as [[[[i1 o1] m1'] u']| |]; cbn in *; try contradiction; auto.
  destruct H as (<- & <-). specialize (IH m1 u).
  destruct (answers E m1 ops u) as [[[l m2] v]| |], (History.run E m1 ops u) as [[[[i2 o2] m2'] v']| |]; cbn in *; try contradiction; auto.
Qed.
End MemTop.
