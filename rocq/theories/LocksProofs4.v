(* Every action of every job depends on and changes only what its mutex protects. *)
From Verif Require Import Base Num MathUtils Knn Env Centroid CManager DataSpec MgrSpec Wp Proc Owns Server ServerSpec ServerFacts
  Core EventLoop CoreSpec Locks LocksProofs LocksProofs2 LocksProofs3.

Section Jobs.
Context {N : Num} (E : Env N).
Notation World := (World N).
Notation proc' := (proc' N).

(* Actions without a mutex. *)
Lemma lw_none {A R} (f : World -> M (A * World)) (k : A -> proc' R) :
  (forall w0 t, match f w0 t with
    | Ok ((x, w1), t') => w_nodes w1 = w_nodes w0 /\ forall w, agree None w0 w -> exists w', f w t = Ok ((x, w'), t') /\ w_nodes w' = w_nodes w
    | Panic => forall w, agree None w0 w -> f w t = Panic
    | OutOfFuel => forall w, agree None w0 w -> f w t = OutOfFuel end) ->
  (forall x, lw (k x)) -> lw (Act None f k).
Proof.
  intros Hf Hk. cbn [lw]. split; auto. split; auto. intros w0 t. specialize (Hf w0 t).
  destruct (f w0 t) as [[[x w1] t']| |]; auto. exists DNone. cbn [fits dapply]. tauto.
Qed.
Lemma lw_local {A} (m : M A) : lw (local m : proc' A).
Proof.
  unfold local. apply lw_none; [|cbn [lw]; auto]. intros w0 t. unfold bind, ret. destruct (m t) as [[x t']| |]; auto.
  split; auto. intros w _. eauto.
Qed.
Lemma agree_none_node (w0 w : World) a : agree None w0 w -> (assoc a (w_nodes w0) = None <-> assoc a (w_nodes w) = None).
Proof. intros (H & _). apply (keys_at w0 w a). auto. Qed.
Lemma agree_node o (w0 w : World) a : agree o w0 w -> (assoc a (w_nodes w0) = None <-> assoc a (w_nodes w) = None).
Proof. intros (H & _). apply (keys_at w0 w a). auto. Qed.

Lemma lw_drop ns ds : lw (drop_dps ns ds : proc' unit).
Proof. apply lw_none; [|cbn [lw]; auto]. intros w0 t. cbn. split; auto. intros w _. eexists. split; reflexivity. Qed.
Lemma lw_factory a v : lw (factory a v : proc' (CM N)).
Proof.
  apply lw_none; [|cbn [lw]; auto]. intros w0 t. destruct (assoc a (w_nodes w0)) as [nd|] eqn:Ea.
  - cbn [ret]. split; auto. intros w Hw. pose proof (agree_none_node _ _ a Hw) as Hz. destruct Hw as (_ & Hth & _).
    specialize (Hth a). unfold thrv, node_at in Hth. rewrite Ea in Hth.
    destruct (assoc a (w_nodes w)) as [nd'|] eqn:Ea'; [|discriminate]. cbn [option_map] in Hth. injection Hth as ->. eexists. split; reflexivity.
  - cbn. intros w Hw. pose proof (proj1 (agree_none_node _ _ a Hw) Ea) as ->. auto.
Qed.
Lemma lw_first_add ns m d : lw (first_add E ns m d : proc' (CM N)).
Proof.
  apply lw_none; [|cbn [lw]; auto]. intros w0 t. unfold bind, ret. destruct (cm_add E m d t) as [[[ok m'] t']| |]; auto.
  cbn. split; auto. intros w _. eexists. split; reflexivity.
Qed.
Lemma lw_lookup a ns : lw (lookup a ns : proc' (option nat)).
Proof.
  cbn [lookup lw]. split; [|auto]. split; [|auto]. intros w0 t. cbn [ret]. exists DNone. cbn [fits dapply]. splits; auto.
  intros w Hw. exists w. split; auto. destruct Hw as (_ & _ & Ht & _). unfold tblv, node_at in Ht.
  destruct (assoc a (w_nodes w0)), (assoc a (w_nodes w)); cbn [option_map] in Ht; try discriminate; auto. injection Ht as ->. auto.
Qed.
Lemma lw_slot {A} a p (f : CM N -> M (A * CM N)) g : lw (slot_access a p f g).
Proof.
  cbn [slot_access lw]. split; [|auto]. split.
  - intros w0 t. destruct (assoc a (w_nodes w0)) as [nd|] eqn:Ea.
    + destruct (nth_error (nd_heap nd) p) as [[ns m]|] eqn:Ep.
      * assert (Hw : forall w, agree (Some (LSlot a p)) w0 w -> exists nd', assoc a (w_nodes w) = Some nd' /\ nth_error (nd_heap nd') p = Some (ns, m)).
        { intros w (_ & _ & Hs). unfold slotv, node_at in Hs. rewrite Ea, Ep in Hs. destruct (assoc a (w_nodes w)) as [nd'|]; [|discriminate]. eauto. }
        unfold bind, ret. destruct (f m t) as [[[x m'] t']| |] eqn:Ef.
        -- exists (DSlot a p (ns, m')). cbn [fits]. splits; auto.
           ++ cbn [drop set_node w_nodes dapply]. rewrite Ea. auto.
           ++ intros w Hag. destruct (Hw w Hag) as (nd' & Ha' & Hp'). rewrite Ha', Hp', Ef. eexists. split; [reflexivity|].
              cbn [drop set_node w_nodes dapply]. rewrite Ha'. auto.
        -- intros w Hag. destruct (Hw w Hag) as (nd' & Ha' & Hp'). rewrite Ha', Hp', Ef. auto.
        -- intros w Hag. destruct (Hw w Hag) as (nd' & Ha' & Hp'). rewrite Ha', Hp', Ef. auto.
      * cbn. intros w (_ & _ & Hs). unfold slotv, node_at in Hs. rewrite Ea, Ep in Hs.
        destruct (assoc a (w_nodes w)) as [nd'|]; auto. rewrite <- Hs. auto.
    + cbn. intros w Hw. pose proof (proj1 (agree_node _ _ _ a Hw) Ea) as ->. auto.
  - intros w t Hs. unfold slotv, node_at in Hs. destruct (assoc a (w_nodes w)) as [nd|]; auto. rewrite Hs. auto.
Qed.
Lemma lw_add_slot a ns m : lw (add_slot a ns m : proc' unit).
Proof.
  cbn [add_slot lw]. split; [|auto]. split; [|auto]. intros w0 t. destruct (assoc a (w_nodes w0)) as [nd|] eqn:Ea.
  - cbn [ret]. exists (DTable a (upsert ns (length (nd_heap nd)) (nd_tbl nd)) [(ns, m)]). cbn [fits]. splits; auto.
    + cbn [set_node w_nodes dapply]. rewrite Ea. auto.
    + intros w (_ & _ & Ht & Hl). unfold tblv, lenv, node_at in *. rewrite Ea in *.
      destruct (assoc a (w_nodes w)) as [nd'|] eqn:Ea'; [|discriminate]. cbn [option_map] in *. injection Ht as Ht. injection Hl as Hl.
      eexists. split; [reflexivity|]. cbn [set_node w_nodes dapply]. rewrite Ea'. cbn [dnode]. rewrite Ht, Hl. auto.
  - cbn. intros w Hw. pose proof (proj1 (agree_node _ _ _ a Hw) Ea) as ->. auto.
Qed.
Lemma lw_namespaces a : lw (h_namespaces E a : proc' (list str)).
Proof.
  cbn [h_namespaces lw]. split; [|auto]. split; [|auto]. intros w0 t.
  assert (Hw : forall w, agree (Some (LTable a)) w0 w -> option_map nd_tbl (assoc a (w_nodes w0)) = option_map nd_tbl (assoc a (w_nodes w))).
  { intros w (_ & _ & Ht & _). exact Ht. }
  destruct (assoc a (w_nodes w0)) as [nd|] eqn:Ea.
  - unfold bind, ret. destruct (any_order E (map fst (nd_tbl nd)) t) as [[ks t']| |] eqn:Eo.
    + exists DNone. cbn [fits dapply]. splits; auto. intros w Hag. specialize (Hw w Hag).
      destruct (assoc a (w_nodes w)) as [nd'|]; [|discriminate]. cbn [option_map] in Hw. injection Hw as <-. rewrite Eo. eauto.
    + intros w Hag. specialize (Hw w Hag).
      destruct (assoc a (w_nodes w)) as [nd'|]; [|discriminate]. cbn [option_map] in Hw. injection Hw as <-. rewrite Eo. eauto.
    + intros w Hag. specialize (Hw w Hag).
      destruct (assoc a (w_nodes w)) as [nd'|]; [|discriminate]. cbn [option_map] in Hw. injection Hw as <-. rewrite Eo. eauto.
  - cbn [ret]. exists DNone. cbn [fits dapply]. splits; auto. intros w Hag. specialize (Hw w Hag).
    destruct (assoc a (w_nodes w)) as [nd'|]; [discriminate|]. eexists. split; reflexivity.
Qed.
Lemma lw_rpc {A} a (h : proc' A) : lw h -> lw (rpc E a h).
Proof.
  intros Hh. unfold rpc. cbn [pbind]. apply lw_none.
  - intros w0 t. cbn [bind tick ret]. split; auto. intros w Hw. pose proof (agree_none_node _ _ a Hw) as Hz.
    exists w. unfold bind, tick, ret.
    destruct (assoc a (w_nodes w0)) eqn:Ea, (assoc a (w_nodes w)) eqn:Ea'; auto; exfalso; destruct Hz as [Hz1 Hz2];
      [specialize (Hz2 eq_refl)|specialize (Hz1 eq_refl)]; discriminate.
  - intros [| |]; cbn [pbind].
    + apply lw_bind; auto. cbn [lw]; auto.
    + cbn [lw]; auto.
    + cbn [lw]. split; auto. apply lw_bind; auto. cbn [lw]; auto.
Qed.

Lemma lw_access_g {A} a ns (f : CM N -> M (A * CM N)) g : lw (access_g a ns f g).
Proof.
  unfold access_g. apply lw_bind; [apply lw_lookup|]. intros [p|]; [|cbn [lw]; auto].
  apply lw_bind; [apply lw_slot|]. cbn [lw]; auto.
Qed.
Lemma lw_access {A} a ns (f : CM N -> M (A * CM N)) : lw (access a ns f).
Proof. apply lw_access_g. Qed.

Create HintDb lw.
Hint Resolve lw_local lw_drop lw_factory lw_first_add lw_lookup lw_slot lw_add_slot lw_namespaces lw_rpc lw_access_g lw_access : lw.
Ltac lws :=
  repeat first
    [ progress cbn beta
    | solve [auto with lw]
    | apply lw_rpc
    | apply lw_bind
    | exact I
    | match goal with
      | |- lw (Ret _) => exact I
      | |- forall _, _ => intro
      | |- lw (match ?x with _ => _ end) => destruct x
      | |- lw (let (_, _) := ?x in _) => destruct x
      end ].

Lemma lw_h_vec a ns : lw (h_vec a ns : proc' _). Proof. unfold h_vec. lws. Qed.
Lemma lw_h_add a ns d : lw (h_add E a ns d). Proof. unfold h_add. lws. Qed.
Lemma lw_meta_loop a nss : lw (meta_loop a nss : proc' _). Proof. induction nss; cbn [meta_loop]; lws. Qed.
Lemma lw_h_meta a : lw (h_meta E a). Proof. unfold h_meta. apply lw_bind; [apply lw_namespaces|]. intros. apply lw_meta_loop. Qed.
Hint Resolve lw_h_vec lw_h_add lw_meta_loop lw_h_meta : lw.

Lemma lw_c_namespaces a : lw (c_namespaces E a). Proof. unfold c_namespaces. lws. Qed.
Lemma lw_c_vec_of a ns : lw (c_vec_of E a ns). Proof. unfold c_vec_of. lws. Qed.
Lemma lw_c_add_dp a ns d : lw (c_add_dp E a ns d). Proof. unfold c_add_dp. lws. Qed.
Lemma lw_c_expire a ns : lw (c_expire_of E a ns). Proof. unfold c_expire_of, h_expire. lws. Qed.
Lemma lw_c_mem_trim a ns : lw (c_mem_trim_of E a ns). Proof. unfold c_mem_trim_of, h_mem_trim. lws. Qed.
Lemma lw_c_di a ns n : lw (c_distribute_internal E a ns n). Proof. unfold c_distribute_internal, h_distribute_internal. lws. Qed.
Lemma lw_c_split a ns lo hi : lw (c_split E a ns lo hi). Proof. unfold c_split, h_split. lws. Qed.
Lemma lw_c_merge a ns lo hi : lw (c_merge E a ns lo hi). Proof. unfold c_merge, h_merge. lws. Qed.
Lemma lw_c_len a ns : lw (c_len_dp E a ns). Proof. unfold c_len_dp, h_len_dp. lws. Qed.
Lemma lw_c_lookup a ns v k d : lw (c_lookup E a ns v k d). Proof. unfold c_lookup, h_knn_lookup. lws. Qed.
Lemma lw_c_nearest a ns v n d : lw (c_nearest E a ns v n d). Proof. unfold c_nearest, h_nearest. lws. Qed.
Lemma lw_c_nearest_vec a ns v : lw (c_nearest_vec E a ns v). Proof. unfold c_nearest_vec, h_nearest_vec. lws. Qed.
Lemma lw_c_meta a : lw (c_meta E a). Proof. unfold c_meta. lws. Qed.
Hint Resolve lw_c_namespaces lw_c_vec_of lw_c_add_dp lw_c_expire lw_c_mem_trim lw_c_di lw_c_split lw_c_merge lw_c_len
  lw_c_lookup lw_c_nearest lw_c_nearest_vec lw_c_meta : lw.

Lemma lw_fetch_each f addrs : (forall b, lw (f b)) -> lw (fetch_each f addrs : proc' (list (str * vec N))).
Proof. intros Hf. induction addrs; cbn [fetch_each]; lws. Qed.
Lemma lw_fetch_vecs f addrs : (forall b, lw (f b)) -> lw (fetch_vecs E f addrs).
Proof. intros Hf. unfold fetch_vecs. apply lw_bind; [apply lw_local|]. intros. apply lw_bind; [apply lw_fetch_each; auto|]. intros. apply lw_local. Qed.
Lemma lw_try_add addrs idx ns d : lw (try_add E addrs idx ns d).
Proof. induction idx; cbn [try_add]; lws. Qed.
Lemma lw_distribute_dp d rsl ns : lw (distribute_dp E d rsl ns).
Proof. unfold distribute_dp. apply lw_bind; [apply lw_local|]. intros. apply lw_try_add. Qed.
Lemma lw_put_back a ns d : lw (put_back_dp E a ns d).
Proof. unfold put_back_dp. lws. Qed.
Hint Resolve lw_fetch_each lw_fetch_vecs lw_try_add lw_distribute_dp lw_put_back : lw.
Lemma lw_fast_loop a ns rsl ds : lw (distribute_fast_loop E a ns rsl ds).
Proof. induction ds; cbn [distribute_fast_loop]; lws. Qed.
Lemma lw_accurate_loop a ns addrs ds : lw (distribute_accurate_loop E a ns addrs ds).
Proof. induction ds; cbn [distribute_accurate_loop]; lws. Qed.
Hint Resolve lw_fast_loop lw_accurate_loop : lw.
Lemma lw_distribute_with a ns n addrs loop : (forall ds, lw (loop ds)) -> lw (distribute_with E a ns n addrs loop).
Proof. intros Hl. unfold distribute_with. lws. Qed.
Lemma lw_h_fast a ns n addrs : lw (h_distribute_fast E a ns n addrs).
Proof. apply lw_distribute_with. intros. lws. Qed.
Lemma lw_h_accurate a ns n addrs : lw (h_distribute_accurate E a ns n addrs).
Proof. apply lw_distribute_with. intros. lws. Qed.
Lemma lw_steal_loop fuel a from ns v limit : forall total, lw (steal_loop E fuel a from ns v limit total).
Proof. induction fuel; intros total; cbn [steal_loop]; lws. Qed.
Hint Resolve lw_h_fast lw_h_accurate lw_steal_loop : lw.
Lemma lw_h_steal fuel a from ns limit : lw (h_steal E fuel a from ns limit).
Proof. unfold h_steal. lws. Qed.
Hint Resolve lw_h_steal : lw.
Lemma lw_c_fast a ns addrs n : lw (c_distribute_fast E a ns addrs n). Proof. unfold c_distribute_fast. lws. Qed.
Lemma lw_c_accurate a ns addrs n : lw (c_distribute_accurate E a ns addrs n). Proof. unfold c_distribute_accurate. lws. Qed.
Lemma lw_c_steal fuel a from ns limit : lw (c_steal E fuel a from ns limit). Proof. unfold c_steal. lws. Qed.
Hint Resolve lw_c_fast lw_c_accurate lw_c_steal : lw.

Lemma lw_serve a q : lw (serve E a q).
Proof.
  destruct q; cbn [serve]; unfold reply, h_drain_unordered, h_drain_ordered, h_expire, h_len_dp, h_mem_trim, h_move_vector, h_distribute_internal,
    h_knn_lookup, h_nearest, h_nearest_vec, h_split, h_merge; lws.
Qed.

(* ---- HTTP and the event loop ---- *)
Lemma lw_best_fit s v fetch : lw fetch -> lw (best_fit s v fetch : proc' (list str)).
Proof. intros H. unfold best_fit. lws. Qed.
Lemma lw_put_dp addrs ns d : lw (put_dp E addrs ns d).
Proof. induction addrs; cbn [put_dp]; lws. Qed.
Lemma lw_get_loop addrs ns v n drain : forall res, lw (get_loop E addrs ns v n drain res).
Proof. induction addrs; intros res; cbn [get_loop]; lws. Qed.
Hint Resolve lw_best_fit lw_put_dp lw_get_loop : lw.
Lemma lw_put_http addrs body : lw (put_http E addrs body).
Proof. unfold put_http, put_accurate, put_fast, put_rand, best_fit_accurate, best_fit_fast. lws. Qed.
Lemma lw_query_http addrs body : lw (query_http E addrs body).
Proof. unfold query_http, get_dps, best_fit_accurate, best_fit_fast. lws. Qed.

Lemma lw_each nss p : (forall ns, lw (p ns)) -> lw (each nss p : proc' unit).
Proof. intros H. induction nss; cbn [each]; lws. Qed.
Lemma lw_poll addrs : forall t, lw (poll E addrs t).
Proof. induction addrs; intros t; cbn [poll]; lws. Qed.
Lemma lw_with_table c p : (forall t, lw (p t)) -> lw (with_table E c p).
Proof. intros H. unfold with_table. apply lw_bind; [apply lw_poll|auto]. Qed.
Lemma lw_with_local c p : (forall ns, lw (p ns)) -> lw (with_local E c p).
Proof. intros H. unfold with_local. apply lw_bind; [apply lw_c_namespaces|]. intros. apply lw_each; auto. Qed.
Lemma lw_go p : lw p -> lw (go p : proc' unit).
Proof. intros H. cbn [go lw]. auto. Qed.
Lemma lw_fetch_lens addrs ns : lw (fetch_lens E addrs ns).
Proof. induction addrs; cbn [fetch_lens]; lws. Qed.
Lemma lw_remote_lens addrs ns : lw (remote_lens E addrs ns).
Proof. unfold remote_lens. apply lw_bind; [apply lw_local|]. intros. apply lw_bind; [apply lw_fetch_lens|]. intros. lws. Qed.
Lemma lw_balance_loop take c naddrs mean margin : (forall o w, lw (take o w : proc' nat)) ->
  forall todo lens, lw (balance_loop take c naddrs mean margin todo lens).
Proof.
  intros H. induction todo as [|[o n] todo IH]; intros lens; cbn [balance_loop]; [exact I|].
  apply lw_bind; [apply lw_local|]. intros [want|]; [|apply IH]. apply lw_bind; [apply H|]. intros. apply IH.
Qed.
Lemma lw_balance_ns c t ns : lw (balance_ns E c t ns).
Proof.
  unfold balance_ns. apply lw_bind; [apply lw_remote_lens|]. intros [|x lens]; [apply lw_local|].
  apply lw_bind; [apply lw_local|]. intros. apply lw_balance_loop. intros. unfold steal_from. lws.
Qed.
Lemma lw_metas addrs : forall items, lw (metas E addrs items).
Proof. induction addrs; intros items; cbn [metas]; lws. Qed.
Lemma lw_task_body c k : lw (task_body E c k).
Proof.
  destruct k; cbn [task_body].
  - apply lw_bind; [apply lw_metas|]. intros. exact I.
  - apply lw_with_local. intros. apply lw_go. auto with lw.
  - apply lw_with_local. intros. apply lw_go. auto with lw.
  - apply lw_with_local. intros. apply lw_go. auto with lw.
  - apply lw_with_local. intros. apply lw_go. auto with lw.
  - apply lw_with_local. intros. apply lw_go. auto with lw.
  - apply lw_with_local. intros. apply lw_with_table. intros. auto with lw.
  - apply lw_with_local. intros. apply lw_with_table. intros. auto with lw.
  - apply lw_with_table. intros. apply lw_bind; [apply lw_local|]. intros. apply lw_each. intros. apply lw_balance_ns.
Qed.
Lemma lw_run_task c iter k : lw (run_task E c iter k).
Proof. unfold run_task, with_skip. destruct (_ =? 0)%Z; [apply lw_local|]. destruct (_ =? 0)%Z; [apply lw_task_body|exact I]. Qed.
Lemma lw_el_steps rd run l : lw rd -> (forall k, lw (run k)) -> lw (el_steps rd run l : proc' unit).
Proof.
  intros H1 H2. induction l; cbn [el_steps]; [exact I|]. apply lw_bind; [|auto]. unfold el_step.
  apply lw_bind; auto. intros [|]; [exact I|]. apply lw_bind; auto. intros [|]; [exact I|auto].
Qed.
Lemma lw_el_loop rd run : lw rd -> (forall i k, lw (run i k)) -> forall n iter, lw (el_loop rd run n iter : proc' bool).
Proof.
  intros H1 H2. induction n; intros iter; cbn [el_loop]; (apply lw_bind; [auto|]; intros [|]; [exact I|]); [exact I|].
  apply lw_bind; [apply lw_el_steps; auto|]. auto.
Qed.
Lemma lw_event_loop c stop n : lw (event_loop E c stop n).
Proof. unfold event_loop. apply lw_el_loop; [apply lw_local|]. intros. apply lw_run_task. Qed.

Lemma lw_run_job j : lw (run_job E j).
Proof.
  destruct j; cbn [run_job].
  - apply lw_bind; [apply lw_serve|]. intros; exact I.
  - apply lw_bind; [apply lw_put_http|]. intros; exact I.
  - apply lw_bind; [apply lw_query_http|]. intros [? ?]; exact I.
  - apply lw_bind; [apply lw_event_loop|]. intros; exact I.
Qed.
End Jobs.
