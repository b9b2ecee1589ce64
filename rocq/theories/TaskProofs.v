(* The tasks of the event loop make the requests that the configuration asks for. *)
From Verif Require Import Base Num MathUtils Env Centroid CManager Proc Server ServerSpec Wp Owns ServerFacts SeqProofs ClientSpec ClientProofs
  EventLoop CoreSpec LoopSpec LoopProofs2 DataSpec MgrSpec TaskSpec.
From Coq Require Import Permutation.

Section TaskProofs.
Context {N : Num} (E : Env N).

Definition handed {R : Type} (f : ans N -> R) (failed : R) (o : option (ans N)) : R :=
  match o with Some x => f x | None => failed end.

Lemma made_inv a q r w t os w' t' : Made E ((a, q) :: r) w t os w' t' <->
  exists o xs w1 t1, os = o :: xs /\ Made E [(a, q)] w t [o] w1 t1 /\ Made E r w1 t1 xs w' t'.
Proof.
  split.
  - inversion 1; subst.
    + do 4 eexists. split; [reflexivity|]. split; [eapply Made_lost; eauto; constructor|assumption].
    + do 4 eexists. split; [reflexivity|]. split; [eapply Made_hidden; eauto; constructor|assumption].
    + do 4 eexists. split; [reflexivity|]. split; [eapply Made_answered; eauto; constructor|assumption].
  - intros (o & xs & w1 & t1 & -> & H1 & H2). inversion H1; subst.
    + match goal with H : Made E [] _ _ _ _ _ |- _ => inversion H; subst end. eapply Made_lost; eauto.
    + match goal with H : Made E [] _ _ _ _ _ |- _ => inversion H; subst end. eapply Made_hidden; eauto.
    + match goal with H : Made E [] _ _ _ _ _ |- _ => inversion H; subst end. eapply Made_answered; eauto.
Qed.
Lemma made_nil w t os w' t' : Made E [] w t os w' t' <-> os = [] /\ w' = w /\ t' = t.
Proof. split; [inversion 1; auto|intros (-> & -> & ->); constructor]. Qed.

Lemma call_made {R} (c : proc' N R) a q f failed w t r w' t' : Calls E c a q f failed ->
  exec c w t = Ok ((r, w'), t') <-> exists o, r = handed f failed o /\ Made E [(a, q)] w t [o] w' t'.
Proof.
  intros Hc. rewrite Hc. unfold answered_with. split.
  - destruct (node_at w a) as [nd|] eqn:Hn; [destruct (e_fate E t) eqn:Hf|].
    + destruct (exec _ w (S t)) as [[[x w1] t1]| |] eqn:He; try discriminate. intros H. inversion H; subst.
      exists (Some x). split; [reflexivity|]. eapply Made_answered; eauto; [congruence|constructor].
    + intros H. inversion H; subst. exists None. split; [reflexivity|]. eapply Made_lost; eauto; constructor.
    + destruct (exec _ w (S t)) as [[[x w1] t1]| |] eqn:He; try discriminate. intros H. inversion H; subst.
      exists None. split; [reflexivity|]. eapply Made_hidden; eauto; [congruence|constructor].
    + intros H. inversion H; subst. exists None. split; [reflexivity|]. eapply Made_lost; eauto; constructor.
  - intros (o & -> & H). inversion H; subst; match goal with H : Made E [] _ _ _ _ _ |- _ => inversion H; subst end; cbn [handed].
    + match goal with H : _ \/ _ |- _ => destruct H as [-> | ->] end; [reflexivity|].
      match goal with |- context [node_at ?x ?y] => destruct (node_at x y); reflexivity end.
    + match goal with |- context [node_at ?x ?y] => destruct (node_at x y); [|congruence] end.
      match goal with H : e_fate E _ = _, He : exec _ _ _ = _ |- _ => rewrite H, He end. reflexivity.
    + match goal with |- context [node_at ?x ?y] => destruct (node_at x y); [|congruence] end.
      match goal with H : e_fate E _ = _, He : exec _ _ _ = _ |- _ => rewrite H, He end. reflexivity.
Qed.

(* A call, then more. *)
Lemma exec_call_then {R S} (c : proc' N R) (k : R -> proc' N S) a q f failed w t s w' t' : Calls E c a q f failed ->
  exec (call x <- c; k x) w t = Ok ((s, w'), t') <->
  exists o w1 t1, Made E [(a, q)] w t [o] w1 t1 /\ exec (k (handed f failed o)) w1 t1 = Ok ((s, w'), t').
Proof.
  intros Hc. rewrite exec_bind. split.
  - destruct (exec c w t) as [[[r w1] t1]| |] eqn:He; try discriminate. intros H.
    apply (call_made _ _ _ _ _ _ _ _ _ _ Hc) in He. destruct He as (o & -> & Hm). exists o, w1, t1. auto.
  - intros (o & w1 & t1 & Hm & H).
    assert (He : exec c w t = Ok ((handed f failed o, w1), t1)) by (apply (call_made _ _ _ _ _ _ _ _ _ _ Hc); eauto).
    rewrite He. exact H.
Qed.

Lemma exec_go (p : proc' N unit) w t : exec (go p) w t = exec p w t.
Proof.
  unfold go. cbn [exec]. unfold bind. destruct (exec p w t) as [[[u w1] t1]| |]; try reflexivity. destruct u. reflexivity.
Qed.

Lemma names_after o : handed to_names [] o = listed (N := N) o.
Proof. destruct o as [[]|]; reflexivity. Qed.

Lemma with_local_made c p w t w' t' :
  exec (with_local E c p) w t = Ok ((tt, w'), t') <->
  exists o w1 t1, Made E [(el_local c, QNamespaces)] w t [o] w1 t1 /\ exec (each (listed o) p) w1 t1 = Ok ((tt, w'), t').
Proof.
  unfold with_local. rewrite (exec_call_then _ _ (el_local c) QNamespaces to_names []).
  - split; intros (o & w1 & t1 & H1 & H2); exists o, w1, t1; split; auto;
      rewrite names_after in *; auto.
  - apply (calls E (el_local c) (el_local c) [] (MkDP (N := N) [] [] 0%Z false) 0%Z [] false [] 0%Z 0%Z 0).
Qed.

Lemma each_cons ns r (p : str -> proc' N unit) w t w' t' :
  exec (each (ns :: r) p) w t = Ok ((tt, w'), t') <->
  exists w1 t1, exec (p ns) w t = Ok ((tt, w1), t1) /\ exec (each r p) w1 t1 = Ok ((tt, w'), t').
Proof.
  cbn [each]. rewrite exec_bind. split.
  - destruct (exec (p ns) w t) as [[[u w1] t1]| |]; try discriminate. destruct u. eauto.
  - intros (w1 & t1 & -> & H). exact H.
Qed.

Lemma each_made (p : str -> proc' N unit) a (f : str -> req N) w' t' :
  (forall ns, Calls E (p ns) a (f ns) (@to_unit N) tt) -> forall nss w t,
  exec (each nss (fun ns => go (p ns))) w t = Ok ((tt, w'), t') <->
  exists xs, Made E (map (fun ns => (a, f ns)) nss) w t xs w' t'.
Proof.
  intros Hp. induction nss as [|ns r IH]; intros w t.
  - cbn [each exec map]. unfold ret. split.
    + intros H. inversion H; subst. exists []. constructor.
    + intros (xs & H). apply made_nil in H. destruct H as (-> & -> & ->). reflexivity.
  - rewrite each_cons. cbn [map]. split.
    + intros (w1 & t1 & H1 & H2). rewrite exec_go in H1. apply (call_made _ _ _ _ _ _ _ _ _ _ (Hp ns)) in H1. destruct H1 as (o & _ & H1).
      apply IH in H2. destruct H2 as (xs & H2). exists (o :: xs). apply made_inv. exists o, xs, w1, t1. auto.
    + intros (xs & H). apply made_inv in H. destruct H as (o & ys & w1 & t1 & -> & H1 & H2). exists w1, t1. split.
      * rewrite exec_go. apply (call_made _ _ _ _ _ _ _ _ _ _ (Hp ns)). exists o. split; [destruct o; reflexivity|exact H1].
      * apply IH. eauto.
Qed.

Theorem upkeep_made c k f w t w' t' : (forall ns, upkeep c k ns = Some (f ns)) ->
  exec (task_body E c k) w t = Ok ((tt, w'), t') <->
  exists o w1 t1 xs, Made E [(el_local c, QNamespaces)] w t [o] w1 t1 /\
    Made E (map (fun ns => (el_local c, f ns)) (listed o)) w1 t1 xs w' t'.
Proof.
  intros Hf.
  assert (H : forall p, (forall ns, Calls E (p ns) (el_local c) (f ns) (@to_unit N) tt) ->
    task_body E c k = with_local E c (fun ns => go (p ns)) ->
    exec (task_body E c k) w t = Ok ((tt, w'), t') <->
    exists o w1 t1 xs, Made E [(el_local c, QNamespaces)] w t [o] w1 t1 /\
      Made E (map (fun ns => (el_local c, f ns)) (listed o)) w1 t1 xs w' t').
  { intros p Hp ->. rewrite with_local_made. split.
    - intros (o & w1 & t1 & H1 & H2). apply (each_made p _ f _ _ Hp) in H2. destruct H2 as (xs & H2). exists o, w1, t1, xs. auto.
    - intros (o & w1 & t1 & xs & H1 & H2). exists o, w1, t1. split; [exact H1|]. apply (each_made p _ f _ _ Hp). eauto. }
  set (d := MkDP (N := N) [] [] 0%Z false).
  destruct k; cbn [upkeep] in Hf; try (specialize (Hf []); discriminate).
  - eapply H; [|reflexivity]. intros ns. specialize (Hf ns). inversion Hf as [Hq].
    apply (calls E (el_local c) (el_local c) ns d 0%Z [] false [] 0%Z 0%Z 0).
  - eapply H; [|reflexivity]. intros ns. specialize (Hf ns). inversion Hf as [Hq].
    apply (calls E (el_local c) (el_local c) ns d 0%Z [] false [] 0%Z 0%Z 0).
  - eapply H; [|reflexivity]. intros ns. specialize (Hf ns). inversion Hf as [Hq].
    apply (calls E (el_local c) (el_local c) ns d 0%Z [] false [] (el_merge_min c) (el_merge_max c) 0).
  - eapply H; [|reflexivity]. intros ns. specialize (Hf ns). inversion Hf as [Hq].
    apply (calls E (el_local c) (el_local c) ns d 0%Z [] false [] (el_split_min c) (el_split_max c) 0).
  - eapply H; [|reflexivity]. intros ns. specialize (Hf ns). inversion Hf as [Hq].
    apply (calls E (el_local c) (el_local c) ns d (el_internal_n c) [] false [] 0%Z 0%Z 0).
Qed.

(* ---- polling ---- *)
Lemma addrs_with_add (t : ns_table) a ns ns' :
  addrs_with (add_entry t a ns') ns = addrs_with t ns ++ (if str_eqb ns ns' then [a] else []).
Proof.
  unfold addrs_with, add_entry. destruct (str_eqb ns ns') eqn:Hs.
  - apply str_eqb_eq in Hs. subst ns'. rewrite assoc_upsert_same. destruct (assoc ns t); reflexivity.
  - rewrite assoc_upsert_other; [rewrite app_nil_r; reflexivity|]. intros ->. rewrite str_eqb_refl in Hs. discriminate.
Qed.
Lemma addrs_with_adds a ns l : forall t : ns_table,
  addrs_with (fold_left (fun t n => add_entry t a n) l t) ns = addrs_with t ns ++ map (fun _ => a) (filter (str_eqb ns) l).
Proof.
  induction l as [|n r IH]; intros t; cbn [fold_left filter]; [rewrite app_nil_r; reflexivity|].
  rewrite IH, addrs_with_add, <- app_assoc. destruct (str_eqb ns n); reflexivity.
Qed.

Lemma namespaces_call a : Calls E (c_namespaces E a) a QNamespaces (@to_names N) [].
Proof. apply (calls E a a [] (MkDP (N := N) [] [] 0%Z false) 0%Z [] false [] 0%Z 0%Z 0). Qed.

(* The table of the answers. *)
Fixpoint table_of (addrs : list str) (os : list (option (ans N))) (t : ns_table) : ns_table :=
  match addrs, os with
  | a :: r, o :: os' => table_of r os' (fold_left (fun t ns => add_entry t a ns) (listed o) t)
  | _, _ => t
  end.
Lemma holders_cons a addrs o (os : list (option (ans N))) ns :
  holders (a :: addrs) (o :: os) ns = map (fun _ => a) (filter (str_eqb ns) (listed o)) ++ holders addrs os ns.
Proof. reflexivity. Qed.
Lemma table_of_holders ns : forall addrs os t, addrs_with (table_of addrs os t) ns = addrs_with t ns ++ holders addrs os ns.
Proof.
  induction addrs as [|a r IH]; intros [|o os] t; cbn [table_of]; try (symmetry; apply app_nil_r).
  rewrite IH, addrs_with_adds, holders_cons, <- app_assoc. reflexivity.
Qed.

Lemma poll_made tb w' t' : forall addrs (tb0 : ns_table) w t,
  exec (poll E addrs tb0) w t = Ok ((tb, w'), t') <->
  exists os, tb = table_of addrs os tb0 /\ Made E (map (fun a => (a, QNamespaces)) addrs) w t os w' t'.
Proof.
  induction addrs as [|a r IH]; intros tb0 w t; cbn [poll map].
  - cbn [exec]. unfold ret. split.
    + intros H. inversion H; subst. exists []. split; [reflexivity|constructor].
    + intros (os & -> & H). apply made_nil in H. destruct H as (-> & -> & ->). reflexivity.
  - rewrite (exec_call_then _ _ a QNamespaces (@to_names N) [] w t tb w' t' (namespaces_call a)). split.
    + intros (o & w1 & t1 & H1 & H2). rewrite names_after in H2. apply IH in H2. destruct H2 as (os & -> & H2).
      exists (o :: os). split; [reflexivity|]. apply made_inv. exists o, os, w1, t1. auto.
    + intros (os & -> & H). apply made_inv in H. destruct H as (o & xs & w1 & t1 & -> & H1 & H2).
      exists o, w1, t1. split; [exact H1|]. rewrite names_after. apply IH. exists xs. auto.
Qed.

Lemma each_sent c (p : str -> list str -> proc' N unit) (f : str -> list str -> req N) w' t' :
  (forall ns addrs, Calls E (p ns addrs) (el_local c) (f ns addrs) (@to_unit N) tt) -> forall nss w t,
  exec (each nss (fun ns => with_table E c (fun tb => p ns (addrs_with tb ns)))) w t = Ok ((tt, w'), t') <->
  Sent E c f nss w t w' t'.
Proof.
  intros Hp. induction nss as [|ns r IH]; intros w t.
  - cbn [each exec]. unfold ret. split.
    + intros H. inversion H; subst. constructor.
    + inversion 1; subst. reflexivity.
  - rewrite each_cons. split.
    + intros (w2 & t2 & H1 & H2). apply IH in H2. unfold with_table in H1. rewrite exec_bind in H1.
      destruct (exec (poll E (el_remote c) []) w t) as [[[tb w1] t1]| |] eqn:Hpoll; try discriminate.
      apply poll_made in Hpoll. destruct Hpoll as (os & -> & Hm).
      apply (call_made _ _ _ _ _ _ _ _ _ _ (Hp ns _)) in H1. destruct H1 as (o & _ & H1).
      rewrite table_of_holders in H1. eapply Sent_next; eauto.
    + inversion 1; subst. exists w2, t2. split; [|apply IH; assumption].
      unfold with_table. rewrite exec_bind.
      assert (Hpoll : exec (poll E (el_remote c) []) w t = Ok ((table_of (el_remote c) os [], w1), t1)) by (apply poll_made; eauto).
      rewrite Hpoll. apply (call_made _ _ _ _ _ _ _ _ _ _ (Hp ns _)). exists x. split; [destruct x; reflexivity|].
      rewrite table_of_holders. assumption.
Qed.

Theorem sending_made c k f w t w' t' : (forall ns addrs, sending c k ns addrs = Some (f ns addrs)) ->
  exec (task_body E c k) w t = Ok ((tt, w'), t') <->
  exists o w1 t1, Made E [(el_local c, QNamespaces)] w t [o] w1 t1 /\ Sent E c f (listed o) w1 t1 w' t'.
Proof.
  intros Hf.
  assert (H : forall p, (forall ns addrs, Calls E (p ns addrs) (el_local c) (f ns addrs) (@to_unit N) tt) ->
    task_body E c k = with_local E c (fun ns => with_table E c (fun tb => p ns (addrs_with tb ns))) ->
    exec (task_body E c k) w t = Ok ((tt, w'), t') <->
    exists o w1 t1, Made E [(el_local c, QNamespaces)] w t [o] w1 t1 /\ Sent E c f (listed o) w1 t1 w' t').
  { intros p Hp ->. rewrite with_local_made. split.
    - intros (o & w1 & t1 & H1 & H2). apply (each_sent c p f _ _ Hp) in H2. exists o, w1, t1. auto.
    - intros (o & w1 & t1 & H1 & H2). exists o, w1, t1. split; [exact H1|]. apply (each_sent c p f _ _ Hp). exact H2. }
  set (d := MkDP (N := N) [] [] 0%Z false).
  destruct k; cbn [sending] in Hf; try (specialize (Hf [] []); discriminate).
  - apply (H (fun ns addrs => c_distribute_fast E (el_local c) ns addrs (el_fast_n c))); [|reflexivity].
    intros ns addrs. specialize (Hf ns addrs). inversion Hf as [Hq].
    apply (calls E (el_local c) (el_local c) ns d (el_fast_n c) [] false addrs 0%Z 0%Z 0).
  - apply (H (fun ns addrs => c_distribute_accurate E (el_local c) ns addrs (el_accurate_n c))); [|reflexivity].
    intros ns addrs. specialize (Hf ns addrs). inversion Hf as [Hq].
    apply (calls E (el_local c) (el_local c) ns d (el_accurate_n c) [] false addrs 0%Z 0%Z 0).
Qed.

(* ---- metadata ---- *)
Lemma meta_call a : Calls E (c_meta E a) a QMeta (@to_meta N) [].
Proof. apply (calls E a a [] (MkDP (N := N) [] [] 0%Z false) 0%Z [] false [] 0%Z 0%Z 0). Qed.

Lemma metas_made w' t' : forall addrs items w t,
  (exists l, exec (metas E addrs items) w t = Ok ((l, w'), t')) <->
  exists xs, Made E (map (fun a => (a, QMeta)) addrs) w t xs w' t'.
Proof.
  induction addrs as [|a r IH]; intros items w t; cbn [metas map].
  - cbn [exec]. unfold ret. split.
    + intros (l & H). inversion H; subst. exists []. constructor.
    + intros (xs & H). apply made_nil in H. destruct H as (-> & -> & ->). eauto.
  - split.
    + intros (l & H). apply (exec_call_then _ _ a QMeta (@to_meta N) [] _ _ _ _ _ (meta_call a)) in H.
      destruct H as (o & w1 & t1 & H1 & H2).
      destruct (proj1 (IH (upsert a (handed (@to_meta N) [] o) items) w1 t1)) as (xs & H3); [eauto|].
      exists (o :: xs). apply made_inv. exists o, xs, w1, t1. auto.
    + intros (xs & H). apply made_inv in H. destruct H as (o & ys & w1 & t1 & -> & H1 & H2).
      destruct (proj2 (IH (upsert a (handed (@to_meta N) [] o) items) w1 t1)) as (l & H3); [eauto|].
      exists l. apply (exec_call_then _ _ a QMeta (@to_meta N) [] _ _ _ _ _ (meta_call a)). exists o, w1, t1. auto.
Qed.

Theorem meta_made c w t w' t' :
  exec (task_body E c TMeta) w t = Ok ((tt, w'), t') <->
  exists xs, Made E (map (fun a => (a, QMeta)) (if el_local_only c then [el_local c] else el_remote c)) w t xs w' t'.
Proof.
  rewrite <- (metas_made w' t' (pull_from c) [] w t). cbn [task_body]. rewrite exec_bind. split.
  - destruct (exec (metas E (pull_from c) []) w t) as [[[l w1] t1]| |]; try discriminate. cbn [exec]. unfold ret.
    intros H. inversion H; subst. eauto.
  - intros (l & ->). reflexivity.
Qed.

(* ---- load balancing ---- *)
Lemma steal_call fuel a b ns n : Calls E (c_steal E fuel a b ns n) a (QSteal fuel b ns n) (@to_steal N) (0, false).
Proof. apply (calls E a b ns (MkDP (N := N) [] [] 0%Z false) n [] false [] 0%Z 0%Z fuel). Qed.
Lemma len_call a ns : Calls E (c_len_dp E a ns) a (QLenDP ns) (@to_nat N) 0.
Proof. apply (calls E a a ns (MkDP (N := N) [] [] 0%Z false) 0%Z [] false [] 0%Z 0%Z 0). Qed.

Lemma exec_local {A R} (m : M A) (k : A -> proc' N R) w t :
  exec (call x <- local m; k x) w t = match m t with Ok (x, t') => exec (k x) w t' | Panic => Panic | OutOfFuel => OutOfFuel end.
Proof. rewrite exec_bind. cbn [local exec]. unfold bind. destruct (m t) as [[x t']| |]; reflexivity. Qed.
Lemma exec_any_order {A R} (l : list A) (k : list A -> proc' N R) w t (HE : EnvOk E) : exists l', Permutation l' l /\
  exec (call x <- local (any_order E l); k x) w t = exec (k l') w (S t).
Proof.
  exists (pick (e_perm E t (length l)) l). split; [destruct HE as (HP & _); apply pick_any_perm, HP|]. rewrite exec_local. reflexivity.
Qed.

Lemma want_exact c naddrs mean margin lens other size t o t' : el_remote c <> [] -> (0 <= margin)%Z ->
  balance_want c naddrs mean margin lens other size t = Ok (o, t') ->
  let here := len_at lens (el_local c) in
  t' = t /\ match o with
            | None => passed c (naddrs =? 1) mean margin here other size
            | Some want => want = want_of c mean here /\ ~ passed c (naddrs =? 1) mean margin here other size
            end.
Proof.
  intros Hr Hm. unfold balance_want. cbv zeta. set (here := len_at lens (el_local c)).
  destruct (str_eqb (el_local c) other) eqn:He; cbn [orb].
  { intros H. inversion H; subst. split; auto. left. symmetry. apply str_eqb_eq. exact He. }
  assert (Hne : other <> el_local c) by (intros ->; rewrite str_eqb_refl in He; discriminate).
  destruct (mean <? here)%Z eqn:H1.
  { intros H. inversion H; subst. split; auto. apply Z.ltb_lt in H1. right; left. lia. }
  destruct (mean - margin <? here)%Z eqn:H2.
  { intros H. inversion H; subst. split; auto. apply Z.ltb_lt in H2. right; left. lia. }
  apply Z.ltb_ge in H1, H2. destruct (el_remote c) as [|a r] eqn:Hrr; [congruence|]. rewrite <- Hrr in *.
  assert (Hl : (0 < Z.of_nat (length (el_remote c)))%Z) by (rewrite Hrr; cbn [length]; lia).
  assert (Hw : Z.quot (Z.quot (mean - here) (Z.of_nat (length (el_remote c)))) 3 = want_of c mean here).
  { unfold want_of. rewrite (Z.quot_div_nonneg _ (Z.of_nat _)) by lia.
    rewrite Z.quot_div_nonneg by (try apply Z.div_pos; lia). rewrite Z.div_div by lia. f_equal. lia. }
  rewrite Hw. destruct (want_of c mean here =? 0)%Z eqn:H3.
  { intros H. inversion H; subst. split; auto. apply Z.eqb_eq in H3. right; right; left. auto. }
  apply Z.eqb_neq in H3. destruct ((size - want_of c mean here <? mean + margin)%Z && negb (naddrs =? 1)) eqn:H4.
  { intros H. inversion H; subst. split; auto. apply andb_true_iff in H4. destruct H4 as (H4 & H5).
    apply Z.ltb_lt in H4. apply negb_true_iff in H5. right; right; right. auto. }
  intros H. inversion H; subst. splits; auto. intros [Hp|[Hp|[Hp|(Hp1 & Hp2)]]]; [auto|lia|auto|].
  apply andb_false_iff in H4. destruct H4 as [H4|H4]; [apply Z.ltb_ge in H4; lia|]. apply negb_false_iff in H4. congruence.
Qed.

Lemma pulled_made c ns naddrs mean margin : el_remote c <> [] -> (0 <= margin)%Z -> forall todo lens w t w' t',
  exec (balance_loop (steal_from E c ns) c naddrs mean margin todo lens) w t = Ok ((tt, w'), t') ->
  exists l ys, Pulled c (naddrs =? 1) mean margin todo (len_at lens (el_local c)) l /\
    Made E (map (fun e => (el_local c, QSteal (el_fuel c) (asked_of e) ns (snd (fst e)))) l) w t ys w' t' /\
    map snd l = map came ys.
Proof.
  intros Hr Hm. induction todo as [|[other size] todo IH]; intros lens w t w' t'; cbn [balance_loop].
  - cbn [exec]. unfold ret. intros H. inversion H; subst. exists [], []. splits; auto; constructor.
  - rewrite exec_local.
    destruct (balance_want c naddrs mean margin lens other size t) as [[o t1]| |] eqn:Hb; try discriminate.
    apply (want_exact _ _ _ _ _ _ _ _ _ _ Hr Hm) in Hb. cbv zeta in Hb. destruct Hb as (-> & Hb). destruct o as [want|].
    + destruct Hb as (-> & Hb). unfold steal_from at 1. intros H. rewrite exec_bind in H.
      destruct (exec (call ' (n, _) <- c_steal E (el_fuel c) (el_local c) other ns (want_of c mean (len_at lens (el_local c))); Ret n) w t)
        as [[[n w1] t1]| |] eqn:Hs; try discriminate.
      apply (exec_call_then _ _ _ _ _ _ _ _ _ _ _ (steal_call _ _ _ _ _)) in Hs. destruct Hs as (o & w2 & t2 & H1 & H2).
      assert (Hn : n = came o /\ w2 = w1 /\ t2 = t1).
      { destruct o as [[]|]; cbn in H2; inversion H2; subst; auto. }
      destruct Hn as (Hn & -> & ->). apply IH in H. destruct H as (l & ys & H3 & H4 & H5).
      assert (Hne : el_local c <> other) by (intros Hx; apply Hb; left; auto).
      rewrite len_at_other, len_at_same in H3 by auto.
      exists ((other, want_of c mean (len_at lens (el_local c)), n) :: l), (o :: ys). splits.
      * apply Pulled_ask; auto.
      * cbn [map]. apply made_inv. exists o, ys, w1, t1. splits; auto.
      * cbn [map snd]. congruence.
    + intros H. apply IH in H. destruct H as (l & ys & H1 & H2 & H3). exists l, ys. splits; auto. apply Pulled_past; auto.
Qed.

Lemma fetch_lens_made ns : forall addrs w t l w' t', exec (fetch_lens E addrs ns) w t = Ok ((l, w'), t') ->
  exists xs, Made E (map (fun a => (a, QLenDP ns)) addrs) w t xs w' t' /\ length xs = length addrs /\
    map (fun e => (fst e, Z.of_nat (snd e))) l = combine addrs (map size_of xs).
Proof.
  induction addrs as [|a r IH]; intros w t l w' t'; cbn [fetch_lens].
  - cbn [exec]. unfold ret. intros H. inversion H; subst. exists []. splits; auto. constructor.
  - intros H. apply (exec_call_then _ _ _ _ _ _ _ _ _ _ _ (len_call a ns)) in H. destruct H as (o & w1 & t1 & H1 & H2).
    rewrite exec_bind in H2. destruct (exec (fetch_lens E r ns) w1 t1) as [[[l1 w2] t2]| |] eqn:He; try discriminate.
    cbn [exec] in H2. unfold ret in H2. inversion H2; subst. apply IH in He. destruct He as (xs & H3 & H4 & H5).
    exists (o :: xs). splits.
    + cbn [map]. apply made_inv. exists o, xs, w1, t1. auto.
    + cbn [length]. auto.
    + cbn [map combine fst snd]. rewrite H5. f_equal. f_equal. destruct o as [[]|]; reflexivity.
Qed.

Lemma combine_fst {A B} (l : list A) (m : list B) : length m = length l -> map fst (combine l m) = l.
Proof. revert m. induction l as [|a l IH]; intros [|b m] H; try discriminate; auto. cbn [combine map fst]. f_equal. apply IH. cbn in H. lia. Qed.
Lemma combine_snd {A B} (l : list A) (m : list B) : length m = length l -> map snd (combine l m) = m.
Proof. revert m. induction l as [|a l IH]; intros [|b m] H; try discriminate; auto. cbn [combine map snd]. f_equal. apply IH. cbn in H. lia. Qed.

Lemma here_assoc a l : here_of l a = match assoc a l with Some n => n | None => 0%Z end.
Proof.
  induction l as [|[k v] l IH]; cbn [here_of fold_right fst snd assoc]; auto.
  destruct (str_eqb k a) eqn:Hk.
  - apply str_eqb_eq in Hk. subst k. rewrite str_eqb_refl. reflexivity.
  - destruct (str_eqb a k) eqn:Ha; [|exact IH]. apply str_eqb_eq in Ha. subst k. rewrite str_eqb_refl in Hk. discriminate.
Qed.
Lemma here_perm a l l' : NoDup (map fst l) -> Permutation l' l -> here_of l' a = len_at l a.
Proof.
  intros Hn Hp. rewrite here_assoc. unfold len_at.
  assert (Hn' : NoDup (map fst l')) by (apply (Permutation_NoDup (Permutation_map fst (Permutation_sym Hp))); auto).
  destruct (assoc a l) as [v|] eqn:Hv.
  - apply assoc_in in Hv. apply (Permutation_in _ (Permutation_sym Hp)) in Hv. rewrite (assoc_nodup _ _ _ Hn' Hv). reflexivity.
  - destruct (assoc a l') as [v|] eqn:Hv'; auto. apply assoc_in, (Permutation_in _ Hp) in Hv'.
    rewrite (assoc_nodup _ _ _ Hn Hv') in Hv. discriminate.
Qed.

Lemma sizes_nonneg (xs : list (option (ans N))) : Forall (fun z => (0 <= z)%Z) (map size_of xs).
Proof. apply Forall_forall. intros z Hz. apply in_map_iff in Hz. destruct Hz as (o & <- & _). destruct o as [[]|]; cbn [size_of]; lia. Qed.

Lemma balance_ns_made (HE : EnvOk E) c tb ns w t w' t' : el_remote c <> [] -> NoDup (addrs_with tb ns) ->
  exec (balance_ns E c tb ns) w t = Ok ((tt, w'), t') ->
  exists order xs w1 t1 todo l ys, let mean := (sum_of (map size_of xs) / Z.of_nat (length order))%Z in
    Permutation order (addrs_with tb ns) /\
    Made E (map (fun a => (a, QLenDP ns)) order) w (S t) xs w1 t1 /\
    Permutation todo (combine order (map size_of xs)) /\
    Pulled c (length order =? 1) mean (margin_of mean) todo (here_of todo (el_local c)) l /\
    Made E (map (fun e => (el_local c, QSteal (el_fuel c) (asked_of e) ns (snd (fst e)))) l) w1 (S (S t1)) ys w' t' /\
    map snd l = map came ys.
Proof.
  intros Hr Hn. unfold balance_ns, remote_lens. set (addrs := addrs_with tb ns) in *. rewrite exec_bind.
  match goal with |- context [exec (call x <- local (any_order E addrs); @?k x) w t] =>
    destruct (exec_any_order addrs k w t HE) as (order & Hord & ->) end. cbv beta.
  rewrite exec_bind. destruct (exec (fetch_lens E order ns) w (S t)) as [[[l0 w1] t1]| |] eqn:Hf; try discriminate.
  apply fetch_lens_made in Hf. destruct Hf as (xs & H1 & H2 & H3).
  match goal with |- context [exec (call x <- local (any_order E l0); @?k x) w1 t1] =>
    destruct (exec_any_order l0 k w1 t1 HE) as (arr & Harr & ->) end. cbv beta. cbn [exec]. unfold ret.
  assert (Hlen : length (map size_of xs) = length order) by (rewrite map_length; auto).
  assert (Hkeys : map fst l0 = order).
  { rewrite <- (combine_fst order (map size_of xs)) by auto. rewrite <- H3, map_map. reflexivity. }
  assert (Hlens : fold_left (fun m e => upsert (fst e) (Z.of_nat (snd e)) m) arr [] = map (fun e => (fst e, Z.of_nat (snd e))) arr).
  { rewrite fold_upsert; [reflexivity|]. cbn [map app]. apply (Permutation_NoDup (Permutation_sym (Permutation_map fst Harr))). rewrite Hkeys.
    apply (Permutation_NoDup (Permutation_sym Hord)). auto. }
  rewrite Hlens. set (lens := map (fun e => (fst e, Z.of_nat (snd e))) arr).
  assert (Hpl : Permutation lens (combine order (map size_of xs))) by (rewrite <- H3; apply Permutation_map; auto).
  clearbody lens. clear Hlens.
  intros H. destruct lens as [|e0 lens0] eqn:Hl0; [discriminate H|]. assert (Hne : lens <> []) by (rewrite Hl0; discriminate).
  rewrite <- Hl0 in *. clear Hl0 e0 lens0. revert H. cbv zeta.
  match goal with |- context [exec (call x <- local (any_order E lens); @?k x) w1 (S t1)] =>
    destruct (exec_any_order lens k w1 (S t1) HE) as (todo & Htodo & ->) end. cbv beta.
  assert (Hll : length lens = length order).
  { rewrite (Permutation_length Hpl), combine_length, Hlen. lia. }
  assert (Htot : fold_left Z.add (map snd lens) 0%Z = sum_of (map size_of xs)).
  { rewrite fold_add_perm. cbn. rewrite (sum_perm _ _ (Permutation_map snd Hpl)), combine_snd by auto. reflexivity. }
  set (mean := (sum_of (map size_of xs) / Z.of_nat (length order))%Z).
  pose proof (sum_nonneg _ (sizes_nonneg xs)) as Hsum. fold (sum_of (map size_of xs)) in Hsum.
  assert (Hmean : Z.quot (fold_left Z.add (map snd lens) 0%Z) (Z.of_nat (length lens)) = mean).
  { rewrite Htot, Hll. unfold mean. apply Z.quot_div_nonneg; auto.
    destruct order as [|a0 order]; [|cbn [length]; lia]. exfalso. cbn in *. apply Permutation_sym, Permutation_nil in Hpl. auto. }
  rewrite Hmean. intros H. apply pulled_made in H; [|auto|apply margin_nonneg; unfold mean; apply Z_div_nonneg_nonneg; lia].
  destruct H as (l & ys & H4 & H5 & H6).
  rewrite <- (here_perm (el_local c) lens todo) in H4; [|rewrite (Permutation_map fst Hpl), combine_fst by auto;
    apply (Permutation_NoDup (Permutation_sym Hord)); auto|auto].
  rewrite <- (Permutation_length Hord) in H4.
  exists order, xs, w1, t1, todo, l, ys. splits; auto. transitivity lens; auto.
Qed.

Lemma sublist_nodup {A} (l m : list A) : sublist l m -> NoDup m -> NoDup l.
Proof.
  assert (Hi : forall l m : list A, sublist l m -> incl l m).
  { induction 1; intros z Hz; cbn [In] in *; auto. destruct Hz; auto. }
  induction 1 as [|x xs ys H IH|x xs ys H IH]; intros Hn; auto; apply NoDup_cons_iff in Hn; destruct Hn as (Hn1 & Hn); auto.
  constructor; auto. intros Hx. apply Hn1, (Hi _ _ H), Hx.
Qed.

Lemma table_keys : forall addrs os tb, NoDup (map fst tb) -> NoDup (map fst (table_of addrs os tb)).
Proof.
  assert (H1 : forall a l tb, NoDup (map fst tb) -> NoDup (map fst (fold_left (fun t ns => add_entry t a ns) l tb))).
  { intros a. induction l as [|n l IH]; intros tb H; cbn [fold_left]; auto. apply IH. unfold add_entry.
    destruct (assoc n tb) eqn:Hn.
    - rewrite upsert_keys_present by congruence. auto.
    - rewrite upsert_keys_absent by auto. rewrite map_app. cbn [map fst]. apply (Permutation_NoDup (Permutation_app_comm [n] _)).
      constructor; auto. intros Hi. apply in_map_iff in Hi. destruct Hi as ([k v] & Hk & Hi). cbn [fst] in Hk. subst k.
      rewrite (assoc_nodup _ _ _ H Hi) in Hn. discriminate. }
  induction addrs as [|a r IH]; intros [|o os] tb H; cbn [table_of]; auto.
Qed.

Theorem balance_made (HE : EnvOk E) c w t w' t' : WorldOk w -> NoDup (el_remote c) ->
  exec (task_body E c TBalance) w t = Ok ((tt, w'), t') ->
  exists os t1 nss, Made E (map (fun a => (a, QNamespaces)) (el_remote c)) w t os w t1 /\
    NoDup nss /\ (forall ns, In ns nss <-> holders (el_remote c) os ns <> []) /\
    Balanced E c (holders (el_remote c) os) nss w (S t1) w' t'.
Proof.
  intros Hw Hn. cbn [task_body]. unfold with_table. rewrite exec_bind.
  pose proof (poll_alone E HE w Hw (el_remote c) [] t) as Hpa. unfold wp in Hpa.
  destruct (exec (poll E (el_remote c) []) w t) as [[[tb w1] t1]| |] eqn:Hp; try discriminate.
  destruct Hpa as (Hw1 & answered & P1 & _ & P3 & P4). cbn [fst snd] in *. subst w1.
  apply poll_made in Hp. destruct Hp as (os & Htb & Hm).
  assert (Hwho : forall ns, addrs_with tb ns = holders (el_remote c) os ns) by (intros ns; rewrite Htb, table_of_holders; reflexivity).
  assert (Hnd : forall ns, NoDup (addrs_with tb ns)).
  { intros ns. rewrite P3. cbn [addrs_with assoc app]. apply NoDup_filter. apply (sublist_nodup _ _ P1). auto. }
  assert (Hk : NoDup (map fst tb)) by (rewrite Htb; apply table_keys; constructor).
  match goal with |- context [exec (call x <- local (any_order E (map fst tb)); @?k x) w t1] =>
    destruct (exec_any_order (map fst tb) k w t1 HE) as (nss & Hnss & ->) end. cbv beta. intros H.
  assert (Hin : forall ns, In ns nss <-> holders (el_remote c) os ns <> []).
  { intros ns. split.
    - intros Hi. apply (Permutation_in _ Hnss), P4 in Hi. destruct Hi as [[]|(a & Ha & Hh)]. rewrite <- Hwho, P3. intros Hx.
      assert (Hy : In a (filter (holds_ns w ns) answered)) by (apply filter_In; auto). rewrite app_nil_l in Hx. rewrite Hx in Hy. destruct Hy.
    - intros Hh. apply (Permutation_in _ (Permutation_sym Hnss)), P4. right. rewrite <- Hwho, P3 in Hh. cbn [app addrs_with assoc] in Hh.
      destruct (filter (holds_ns w ns) answered) as [|a l] eqn:Hx; [congruence|]. exists a. apply filter_In. rewrite Hx. left; auto. }
  exists os, t1, nss. splits; auto.
  - apply (Permutation_NoDup (Permutation_sym Hnss)). auto.
  - assert (Hsub : forall ns, In ns nss -> holders (el_remote c) os ns <> []) by (intros ns; apply Hin).
    clear Hin Hnss Hm P1 P3 P4 Hw. revert w H Hsub. generalize (S t1). induction nss as [|ns r IH]; intros k w H Hsub.
    + cbn [each exec] in H. unfold ret in H. inversion H; subst. constructor.
    + apply each_cons in H. destruct H as (w1 & k1 & H1 & H2).
      assert (Hr : el_remote c <> []).
      { intros Hx. apply (Hsub ns); [left; auto|]. rewrite Hx. reflexivity. }
      apply balance_ns_made in H1; auto. destruct H1 as (order & xs & w2 & t2 & todo & l & ys & Q1 & Q2 & Q3 & Q4 & Q5 & Q6).
      eapply (Balanced_next E c _ ns r w k order xs w2 t2 _ todo l ys w1 k1 w' t'); [rewrite <- Hwho; exact Q1|exact Q2|reflexivity|exact Q3|exact Q4|exact Q5|exact Q6|].
      apply IH; auto. intros ns' Hi. apply Hsub. right; auto.
Qed.
End TaskProofs.
