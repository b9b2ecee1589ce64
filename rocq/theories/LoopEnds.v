(* An event loop on its own ends each of its rounds, on any network. *)
From Verif Require Import Base Num MathUtils Env Centroid CManager DataSpec MgrSpec Wp NumFacts Proc Server ServerSpec Owns ServerFacts SeqProofs SeqProofs2
  StealProofs EventLoop CoreSpec LoopSpec LoopProofs2 TaskSpec TaskProofs Uniform SystemProofs BalanceEnds FuelSpec FuelProofs.
Local Open Scope nat_scope.

Section LoopEnds.
Context {N : Num} (E : Env N) (HE : EnvOk E) (HO : NumOrd N) (dim : str -> nat).
Notation World := (World N).
Notation D := (fun ns n => n = dim ns).
Notation sound w := (WorldOk w /\ DimsOk D w).

(* Every world has some bound on its numbers of centroids. *)
Lemma some_bound (w : World) : exists k, forall b ns, length (centroids_at w b ns) < k.
Proof.
  set (big := fun l : list (str * CM N) => fold_right (fun s r => length (cm_cs (snd s)) + r) 0 l).
  exists (S (fold_right (fun e r => big (nd_heap (snd e)) + r) 0 (w_nodes w))). intros b ns. unfold centroids_at, manager, node_at.
  destruct (assoc b (w_nodes w)) as [nd|] eqn:Hn; [|cbn; lia]. destruct (assoc ns (nd_tbl nd)) as [p|]; [|cbn; lia].
  destruct (nth_error (nd_heap nd) p) as [s|] eqn:Hp; cbn [option_map]; [|cbn; lia]. apply assoc_in in Hn. apply nth_error_In in Hp.
  assert (H1 : length (cm_cs (snd s)) <= big (nd_heap nd)).
  { clear - Hp. induction (nd_heap nd) as [|x l IH]; [destruct Hp|]. cbn [big fold_right]. fold (big l). destruct Hp as [->|Hp]; [lia|].
    specialize (IH Hp). lia. }
  assert (H2 : big (nd_heap nd) <= fold_right (fun e r => big (nd_heap (snd e)) + r) 0 (w_nodes w)); [|lia].
  clear - Hn. induction (w_nodes w) as [|x l IH]; [destruct Hn|]. cbn [fold_right]. destruct Hn as [->|Hn]; [cbn [snd]; lia|]. specialize (IH Hn). lia.
Qed.

(* With enough fuel, the process ends, always in the same way. *)
Definition ends {R} (P : nat -> proc' N R) : Prop := forall w t, sound w ->
  exists bound x w' t', sound w' /\ forall f, bound <= f -> exec (P f) w t = Ok ((x, w'), t').
Lemma ends_ret {R} (x : R) : ends (fun _ => Ret x).
Proof. intros w t H. exists 0, x, w, t. split; auto. Qed.
Lemma ends_bind {A R} (P : nat -> proc' N A) (K : nat -> A -> proc' N R) : ends P -> (forall x, ends (fun f => K f x)) ->
  ends (fun f => call x <- P f; K f x).
Proof.
  intros H1 H2 w t Hw. destruct (H1 w t Hw) as (b1 & x & w1 & t1 & S1 & E1). destruct (H2 x w1 t1 S1) as (b2 & y & w2 & t2 & S2 & E2).
  exists (b1 + b2), y, w2, t2. split; auto. intros f Hf. rewrite exec_bind, E1 by lia. apply E2. lia.
Qed.
Lemma ends_wp {R} (p : proc' N R) : (forall w t, sound w -> wp (exec p w) t (fun r _ => sound (snd r))) -> ends (fun _ => p).
Proof.
  intros H w t Hw. specialize (H w t Hw). unfold wp in H. destruct (exec p w t) as [[[x w'] t']| |] eqn:Hx; try contradiction.
  exists 0, x, w', t'. auto.
Qed.

(* One request that is not a steal. *)
Lemma served a (q : req N) {A} (h : proc' N A) (k : A -> ans N) w t : serve E a q = (call x <- h; Ret (k x)) -> req_counts q -> req_fits D q -> ~ is_steal q ->
  sound w -> wp (exec (rpc E a h) w) t (fun r _ => sound (snd r)).
Proof.
  intros Hq Hc Hf Hs (Hw & HD). unfold wp. rewrite exec_rpc. destruct (node_at w a) as [nd|] eqn:Hna; [|cbn [snd]; auto].
  pose proof (uniform_alone E HE HO D a q w (S t) Hw HD ltac:(rewrite Hna; discriminate) Hc Hf) as Hu. rewrite Hq, exec_bind in Hu.
  destruct (exec h w (S t)) as [[[x w1] t1]| |]; [cbn [exec ret] in Hu|contradiction|contradiction].
  destruct (e_fate E t); cbn [snd]; auto.
Qed.

Lemma names_sound a w t : sound w -> wp (exec (c_namespaces E a) w) t (fun r _ => sound (snd r)).
Proof. intros Hw. eapply wp_mono; [apply namespaces_alone; auto; apply Hw|]. intros [x w'] t' (-> & _). exact Hw. Qed.
Lemma poll_sound addrs tb w t : sound w -> wp (exec (poll E addrs tb) w) t (fun r _ => sound (snd r)).
Proof. intros Hw. eapply wp_mono; [apply poll_alone; auto; apply Hw|]. intros [x w'] t' (-> & _). exact Hw. Qed.

Lemma ends_each (p : str -> proc' N unit) : (forall ns, ends (fun _ => p ns)) -> forall nss, ends (fun _ => each nss p).
Proof. intros H. induction nss as [|ns r IH]; cbn [each]; [apply ends_ret|]. apply ends_bind with (K := fun _ _ => each r p); auto. Qed.
Lemma ends_local c (p : str -> proc' N unit) : (forall ns, ends (fun _ => p ns)) -> ends (fun _ => with_local E c p).
Proof.
  intros H. unfold with_local. apply ends_bind with (P := fun _ => c_namespaces E (el_local c)) (K := fun _ nss => each nss p);
    [apply ends_wp; intros; apply names_sound; auto|intros nss; apply ends_each; auto].
Qed.
Lemma ends_table c (p : ns_table -> proc' N unit) : (forall tb, ends (fun _ => p tb)) -> ends (fun _ => with_table E c p).
Proof.
  intros H. unfold with_table. apply ends_bind with (P := fun _ => poll E (el_remote c) []) (K := fun _ tb => p tb);
    [apply ends_wp; intros; apply poll_sound; auto|auto].
Qed.
Lemma ends_go (p : proc' N unit) : ends (fun _ => p) -> ends (fun _ => go p).
Proof.
  intros H w t Hw. destruct (H w t Hw) as (b & x & w1 & t1 & S1 & E1). exists b, tt, w1, t1. split; auto. intros f Hf. unfold go. cbn [exec]. unfold bind.
  rewrite (E1 f Hf). reflexivity.
Qed.
(* A call whose answer is not looked at. *)
Lemma ends_tell a (q : req N) {A} (h : proc' N A) (k : A -> ans N) : serve E a q = (call x <- h; Ret (k x)) -> req_counts q -> req_fits D q -> ~ is_steal q ->
  ends (fun _ => call _ <- rpc E a h; Ret tt).
Proof.
  intros H1 H2 H3 H4. apply ends_bind with (P := fun _ => rpc E a h) (K := fun _ _ => Ret tt); [|intros _; apply ends_ret].
  apply ends_wp. intros w t Hw. eapply served; eauto.
Qed.

Lemma ends_metas : forall addrs items, ends (fun _ => metas E addrs items).
Proof.
  induction addrs as [|a r IH]; intros items; cbn [metas]; [apply ends_ret|].
  apply ends_bind with (P := fun _ => c_meta E a) (K := fun _ m => metas E r (upsert a m items)); [|intros m; apply IH].
  unfold c_meta. apply ends_bind with (P := fun _ => rpc E a (h_meta E a)) (K := fun _ o => Ret (match o with Some l => l | None => [] end));
    [|intros o; apply ends_ret]. apply ends_wp. intros w t Hw. apply (served a QMeta (h_meta E a) AMeta w t); cbn; auto.
Qed.

Lemma ends_balance c : ends (fun f => task_body E (with_fuel c f) TBalance).
Proof.
  intros w t (Hw & HD). destruct (some_bound w) as (k & Hk).
  destruct (balance_ends E HE HO dim (with_fuel c k) w t Hw HD) as (w' & t' & Hx & Hw'); [intros b ns _; apply Hk|].
  exists k, tt, w', t'. split; auto. intros f Hf. apply (fuel_task E (with_fuel c k) f TBalance w t _ Hf Hx).
Qed.

Lemma ends_task c k : (0 <= el_fast_n c)%Z -> (0 <= el_accurate_n c)%Z -> ends (fun f => task_body E (with_fuel c f) k).
Proof.
  intros H1 H2. destruct k; try apply ends_balance; cbn [task_body]; unfold with_fuel; cbn [el_local el_remote el_fast_n el_accurate_n el_internal_n el_split_min el_split_max el_merge_min el_merge_max].
  - apply ends_bind with (P := fun f => metas E (pull_from (with_fuel c f)) []) (K := fun _ _ => Ret tt); [|intros; apply ends_ret].
    change (ends (fun f => metas E (pull_from c) [])). apply ends_metas.
  - change (ends (fun _ => with_local E c (fun ns => go (c_expire_of E (el_local c) ns)))). apply ends_local. intros ns. apply ends_go.
    unfold c_expire_of. eapply (ends_tell (el_local c) (QExpire ns)); [reflexivity|cbn; auto..].
  - change (ends (fun _ => with_local E c (fun ns => go (c_mem_trim_of E (el_local c) ns)))). apply ends_local. intros ns. apply ends_go.
    unfold c_mem_trim_of. eapply (ends_tell (el_local c) (QMemTrim ns)); [reflexivity|cbn; auto..].
  - change (ends (fun _ => with_local E c (fun ns => go (c_merge E (el_local c) ns (el_merge_min c) (el_merge_max c))))). apply ends_local. intros ns. apply ends_go.
    unfold c_merge. eapply (ends_tell (el_local c) (QMerge ns _ _)); [reflexivity|cbn; auto..].
  - change (ends (fun _ => with_local E c (fun ns => go (c_split E (el_local c) ns (el_split_min c) (el_split_max c))))). apply ends_local. intros ns. apply ends_go.
    unfold c_split. eapply (ends_tell (el_local c) (QSplit ns _ _)); [reflexivity|cbn; auto..].
  - change (ends (fun _ => with_local E c (fun ns => go (c_distribute_internal E (el_local c) ns (el_internal_n c))))). apply ends_local. intros ns. apply ends_go.
    unfold c_distribute_internal. eapply (ends_tell (el_local c) (QDistributeInternal ns _)); [reflexivity|cbn; auto..].
  - change (ends (fun _ => with_local E c (fun ns => with_table E c (fun t => c_distribute_fast E (el_local c) ns (addrs_with t ns) (el_fast_n c))))).
    apply ends_local. intros ns. apply ends_table. intros tb. unfold c_distribute_fast.
    eapply (ends_tell (el_local c) (QDistributeFast ns (el_fast_n c) (addrs_with tb ns))); [reflexivity|cbn; auto..].
  - change (ends (fun _ => with_local E c (fun ns => with_table E c (fun t => c_distribute_accurate E (el_local c) ns (addrs_with t ns) (el_accurate_n c))))).
    apply ends_local. intros ns. apply ends_table. intros tb. unfold c_distribute_accurate.
    eapply (ends_tell (el_local c) (QDistributeAccurate ns (el_accurate_n c) (addrs_with tb ns))); [reflexivity|cbn; auto..].
Qed.

Lemma ends_read stop : ends (fun _ => read_stop stop).
Proof. apply ends_wp. intros w t Hw. unfold read_stop. apply wp_exec_local. unfold wp, bind, tick, ret. cbn [snd]. exact Hw. Qed.

Lemma ends_loop c stop : loop_ok c -> forall n i, ends (fun f => el_loop (read_stop stop) (run_task E (validate (with_fuel c f))) n i).
Proof.
  intros (L1 & L2 & L3).
  assert (Hrun : forall i k, ends (fun f => run_task E (validate (with_fuel c f)) i k)).
  { intros i k. change (ends (fun f => with_skip i (interval (el_skip (validate c)) k) (task_body E (with_fuel (validate c) f) k))).
    unfold with_skip. assert (Hi : interval (el_skip (validate c)) k <> 0%Z).
    { destruct k; cbn; try exact L1; unfold clamp1; repeat match goal with |- context [(?x <? ?y)%Z] => destruct (Z.ltb_spec x y) end; lia. }
    apply Z.eqb_neq in Hi. rewrite Hi. destruct (Z.rem _ _ =? 0)%Z; [|apply ends_ret]. apply ends_task; auto. }
  assert (Hsteps : forall i l, ends (fun f => el_steps (read_stop stop) (run_task E (validate (with_fuel c f)) i) l)).
  { intros i. induction l as [|k l IH]; cbn [el_steps]; [apply ends_ret|].
    apply ends_bind with (P := fun f => el_step (read_stop stop) (run_task E (validate (with_fuel c f)) i k))
      (K := fun f _ => el_steps (read_stop stop) (run_task E (validate (with_fuel c f)) i) l); [|intros _; exact IH].
    unfold el_step. apply ends_bind with (P := fun _ => read_stop stop)
      (K := fun f (s1 : bool) => if s1 then Ret tt else call s2 <- read_stop stop; if s2 : bool then Ret tt else run_task E (validate (with_fuel c f)) i k); [apply ends_read|].
    intros [|]; [apply ends_ret|]. apply ends_bind with (P := fun _ => read_stop stop)
      (K := fun f (s2 : bool) => if s2 then Ret tt else run_task E (validate (with_fuel c f)) i k); [apply ends_read|]. intros [|]; [apply ends_ret|apply Hrun]. }
  induction n as [|n IH]; intros i; cbn [el_loop].
  - apply ends_bind with (P := fun _ => read_stop stop) (K := fun _ (s : bool) => if s then Ret true else Ret false); [apply ends_read|].
    intros [|]; apply ends_ret.
  - apply ends_bind with (P := fun _ => read_stop stop) (K := fun f (s : bool) => if s then Ret true else
      call _ <- el_steps (read_stop stop) (run_task E (validate (with_fuel c f)) i) task_order;
      el_loop (read_stop stop) (run_task E (validate (with_fuel c f))) n (next_iter i)); [apply ends_read|].
    intros [|]; [apply ends_ret|].
    apply ends_bind with (P := fun f => el_steps (read_stop stop) (run_task E (validate (with_fuel c f)) i) task_order)
      (K := fun f _ => el_loop (read_stop stop) (run_task E (validate (with_fuel c f))) n (next_iter i)); [apply Hsteps|intros _; apply IH].
Qed.

Theorem loop_ends c stop n (w : World) t : loop_ok c -> WorldOk w -> DimsOk D w ->
  exists bound r w' t', WorldOk w' /\ DimsOk D w' /\ forall f, bound <= f -> exec (event_loop E (with_fuel c f) stop n) w t = Ok ((r, w'), t').
Proof.
  intros Hc Hw HD. destruct (ends_loop c stop Hc n 0%Z w t (conj Hw HD)) as (b & r & w' & t' & (S1 & S2) & H). exists b, r, w', t'. auto.
Qed.
Theorem task_ends c k (w : World) t : (0 <= el_fast_n c)%Z -> (0 <= el_accurate_n c)%Z -> WorldOk w -> DimsOk D w ->
  exists bound w' t', WorldOk w' /\ DimsOk D w' /\ forall f, bound <= f -> exec (task_body E (with_fuel c f) k) w t = Ok ((tt, w'), t').
Proof.
  intros H1 H2 Hw HD. destruct (ends_task c k H1 H2 w t (conj Hw HD)) as (b & [] & w' & t' & (S1 & S2) & H). exists b, w', t'. auto.
Qed.
End LoopEnds.
