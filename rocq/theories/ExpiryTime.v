(* Time goes on: no step of any process turns the tick counter back. *)
From Verif Require Import Base Num MathUtils Env Centroid CManager DataSpec MgrSpec Proc Server ServerSpec Wp Owns ServerFacts Core EventLoop CoreSpec
  ThreshProofs OriginMgr ExpiryMgr.

Section Later.
Context {N : Num} (E : Env N).
Notation World := (World N).
Notation proc' := (proc' N).

Fixpoint later {R} (p : proc' R) : Prop :=
  match p with
  | Ret _ => True
  | Act _ f k => (forall w, grows (f w)) /\ forall x, later (k x)
  | Fork q k => later q /\ later k
  end.

Lemma later_bind {R S} (p : proc' R) (f : R -> proc' S) : later p -> (forall r, later (f r)) -> later (pbind p f).
Proof.
  revert S f. induction p as [R r|R A o g k IH|R q IHq k IHk]; intros S f Hp Hf; cbn [pbind later] in *; auto.
  - destruct Hp. auto.
  - destruct Hp. auto.
Qed.
Create HintDb grow.
Hint Resolve @grows_ret @grows_panic @grows_fuel grows_tick @grows_lift @grows_index grows_expired @grows_order grows_move_c : grow.
Hint Resolve grows_add_m grows_drain_um grows_drain_om grows_expire_m grows_trim_m grows_move_m grows_internal grows_lookup grows_nearest grows_split_m
  grows_merge_m : grow.
Ltac gr :=
  repeat first
    [ progress cbn beta
    | progress cbv zeta
    | solve [auto with grow]
    | match goal with
      | |- forall _, _ => intro
      | |- grows (bind _ _) => apply grows_bind
      | |- grows (match ?x with _ => _ end) => destruct x
      | |- grows (let (_, _) := ?x in _) => destruct x
      end ].
Lemma later_local {A} (m : M A) : grows m -> later (local m : proc' A).
Proof. intros H. cbn [local later]. split; [gr|auto]. Qed.
Lemma later_drop ns ds : later (drop_dps ns ds : proc' unit).
Proof. cbn [drop_dps later]. split; [gr|auto]. Qed.
Lemma later_lookup a ns : later (lookup a ns : proc' _).
Proof. cbn [lookup later]. split; [gr|auto]. Qed.
Lemma later_namespaces a : later (h_namespaces E a : proc' _).
Proof. cbn [h_namespaces later]. split; [gr|auto]. Qed.
Lemma later_rpc {A} a (h : proc' A) : later h -> later (rpc E a h).
Proof.
  intros Hh. unfold rpc. cbn [pbind later]. split; [gr|]. intros [| |]; cbn [later]; auto; try (split; auto); apply later_bind; auto; intros; exact I.
Qed.
Lemma later_slot {A} a p (f : CM N -> M (A * CM N)) g : (forall m, grows (f m)) -> later (slot_access a p f g).
Proof. intros H. cbn [slot_access later]. split; [gr|auto]. Qed.
Lemma later_access_g {A} a ns (f : CM N -> M (A * CM N)) g : (forall m, grows (f m)) -> later (access_g a ns f g).
Proof.
  intros Hf. unfold access_g. apply later_bind; [apply later_lookup|]. intros [p|]; [|exact I].
  apply later_bind; [apply later_slot; auto|]. intros; exact I.
Qed.
Lemma later_access {A} a ns (f : CM N -> M (A * CM N)) : (forall m, grows (f m)) -> later (access a ns f).
Proof. apply later_access_g. Qed.
Lemma later_factory a v : later (factory a v : proc' (CM N)).
Proof. cbn [factory later]. split; [gr|auto]. Qed.
Lemma later_first_add ns m d : later (first_add E ns m d).
Proof. cbn [first_add later]. split; [gr|auto]. Qed.
Lemma later_add_slot a ns m : later (add_slot a ns m : proc' unit).
Proof. cbn [add_slot later]. split; [gr|auto]. Qed.
Lemma grows_reinit : forall cs, grows (reinit E cs).
Proof. induction cs; cbn [reinit]; gr. Qed.
Hint Resolve grows_reinit : grow.
Lemma grows_post r : grows (post_nearest E r).
Proof. unfold post_nearest. gr. Qed.
Hint Resolve grows_post : grow.

Create HintDb later.
Hint Resolve later_drop later_lookup later_namespaces later_factory later_first_add later_add_slot : later.
Ltac ks :=
  repeat first
    [ progress cbn beta
    | solve [auto with later]
    | match goal with
      | |- later (local _) => apply later_local
      | |- later (rpc _ _ _) => apply later_rpc
      | |- later (access _ _ _) => apply later_access
      | |- later (access_g _ _ _ _) => apply later_access_g
      | |- later (pbind _ _) => apply later_bind
      | |- later (Ret _) => exact I
      | |- forall _, _ => intro
      | |- later (match ?x with _ => _ end) => destruct x
      | |- later (let (_, _) := ?x in _) => destruct x
      | |- grows _ => solve [gr]
      end ].

Lemma later_h_vec a ns : later (h_vec a ns : proc' _). Proof. unfold h_vec. ks. Qed.
Lemma later_h_add a ns d : later (h_add E a ns d).
Proof. unfold h_add. ks. Qed.
Lemma later_meta_loop a nss : later (meta_loop a nss : proc' _). Proof. induction nss; cbn [meta_loop]; ks. Qed.
Hint Resolve later_h_vec later_h_add later_meta_loop : later.
Lemma later_h_meta a : later (h_meta E a). Proof. unfold h_meta. ks. Qed.
Lemma later_h_nearest a ns v n d : later (h_nearest E a ns v n d).
Proof. unfold h_nearest. ks. Qed.
Lemma later_h_nearest_vec a ns v : later (h_nearest_vec E a ns v).
Proof. unfold h_nearest_vec. ks. Qed.
Hint Resolve later_h_meta later_h_nearest later_h_nearest_vec : later.

Lemma grows_all' {A} (l : list A) idx : grows (index_all l idx). Proof. apply grows_all. Qed.
Hint Resolve @grows_all' : grow.
Lemma later_c_namespaces a : later (c_namespaces E a). Proof. unfold c_namespaces. ks. Qed.
Lemma later_c_vec_of a ns : later (c_vec_of E a ns). Proof. unfold c_vec_of. ks. Qed.
Lemma later_c_add_dp a ns d : later (c_add_dp E a ns d). Proof. unfold c_add_dp. ks. Qed.
Lemma later_c_expire a ns : later (c_expire_of E a ns). Proof. unfold c_expire_of, h_expire. ks. Qed.
Lemma later_c_mem_trim a ns : later (c_mem_trim_of E a ns). Proof. unfold c_mem_trim_of, h_mem_trim. ks. Qed.
Lemma later_c_di a ns n : later (c_distribute_internal E a ns n). Proof. unfold c_distribute_internal, h_distribute_internal. ks. Qed.
Lemma later_c_split a ns lo hi : later (c_split E a ns lo hi). Proof. unfold c_split, h_split. ks. Qed.
Lemma later_c_merge a ns lo hi : later (c_merge E a ns lo hi). Proof. unfold c_merge, h_merge. ks. Qed.
Lemma later_c_len a ns : later (c_len_dp E a ns). Proof. unfold c_len_dp, h_len_dp. ks. Qed.
Lemma later_c_lookup a ns v k d : later (c_lookup E a ns v k d). Proof. unfold c_lookup, h_knn_lookup. ks. Qed.
Lemma later_c_nearest a ns v n d : later (c_nearest E a ns v n d). Proof. unfold c_nearest. ks. Qed.
Lemma later_c_nearest_vec a ns v : later (c_nearest_vec E a ns v). Proof. unfold c_nearest_vec. ks. Qed.
Lemma later_c_meta a : later (c_meta E a). Proof. unfold c_meta. ks. Qed.
Hint Resolve later_c_namespaces later_c_vec_of later_c_add_dp later_c_expire later_c_mem_trim later_c_di later_c_split later_c_merge later_c_len
  later_c_lookup later_c_nearest later_c_nearest_vec later_c_meta : later.

Lemma later_fetch_each f addrs : (forall b, later (f b)) -> later (fetch_each f addrs : proc' (list (str * vec N))).
Proof. intros Hf. induction addrs; cbn [fetch_each]; ks. Qed.
Lemma later_fetch_vecs f addrs : (forall b, later (f b)) -> later (fetch_vecs E f addrs).
Proof. intros Hf. unfold fetch_vecs. apply later_bind; [ks|]. intros. apply later_bind; [apply later_fetch_each; auto|ks]. Qed.
Lemma later_try_add addrs idx ns d : later (try_add E addrs idx ns d).
Proof. induction idx; cbn [try_add]; ks. Qed.
Hint Resolve later_try_add : later.
Lemma later_distribute_dp d rsl ns : later (distribute_dp E d rsl ns).
Proof. unfold distribute_dp. ks. Qed.
Lemma later_put_back a ns d : later (put_back_dp E a ns d).
Proof. unfold put_back_dp. ks. Qed.
Hint Resolve later_fetch_each later_fetch_vecs later_try_add later_distribute_dp later_put_back : later.
Lemma later_fast_loop a ns rsl ds : later (distribute_fast_loop E a ns rsl ds).
Proof. induction ds; cbn [distribute_fast_loop]; ks. Qed.
Lemma later_accurate_loop a ns addrs ds : later (distribute_accurate_loop E a ns addrs ds).
Proof. induction ds; cbn [distribute_accurate_loop]; ks. Qed.
Hint Resolve later_fast_loop later_accurate_loop : later.
Lemma later_distribute_with a ns n addrs loop : (forall ds, later (loop ds)) -> later (distribute_with E a ns n addrs loop).
Proof. intros Hl. unfold distribute_with. ks. Qed.
Lemma later_h_fast a ns n addrs : later (h_distribute_fast E a ns n addrs).
Proof. apply later_distribute_with. intros. ks. Qed.
Lemma later_h_accurate a ns n addrs : later (h_distribute_accurate E a ns n addrs).
Proof. apply later_distribute_with. intros. ks. Qed.
Lemma later_steal_loop fuel a from ns v limit : forall total, later (steal_loop E fuel a from ns v limit total).
Proof. induction fuel; intros total; cbn [steal_loop]; ks. Qed.
Hint Resolve later_h_fast later_h_accurate later_steal_loop : later.
Lemma later_h_steal fuel a from ns limit : later (h_steal E fuel a from ns limit).
Proof. unfold h_steal. ks. Qed.
Hint Resolve later_h_steal : later.
Lemma later_c_fast a ns addrs n : later (c_distribute_fast E a ns addrs n). Proof. unfold c_distribute_fast. ks. Qed.
Lemma later_c_accurate a ns addrs n : later (c_distribute_accurate E a ns addrs n). Proof. unfold c_distribute_accurate. ks. Qed.
Lemma later_c_steal fuel a from ns limit : later (c_steal E fuel a from ns limit). Proof. unfold c_steal. ks. Qed.
Hint Resolve later_c_fast later_c_accurate later_c_steal : later.

Lemma later_serve a q : later (serve E a q).
Proof.
  destruct q; cbn [serve]; unfold reply, h_drain_unordered, h_drain_ordered, h_expire, h_len_dp, h_mem_trim, h_move_vector, h_distribute_internal,
    h_knn_lookup, h_split, h_merge; ks.
Qed.

(* ---- HTTP and the event loop ---- *)
Lemma later_best_fit s v fetch : later fetch -> later (best_fit s v fetch : proc' (list str)).
Proof. intros H. unfold best_fit. ks. Qed.
Lemma later_put_dp addrs ns d : later (put_dp E addrs ns d).
Proof. induction addrs; cbn [put_dp]; ks. Qed.
Lemma later_get_loop addrs ns v n drain : forall res, later (get_loop E addrs ns v n drain res).
Proof. induction addrs; intros res; cbn [get_loop]; ks. Qed.
Hint Resolve later_best_fit later_put_dp later_get_loop : later.
Lemma grows_shuffle {A} (l : list A) : grows (shuffle E l).
Proof.
  unfold shuffle. generalize (seq 0 (length l)). intros is. revert l. induction is; intros l; cbn [shuffle_loop]; gr.
Qed.
Hint Resolve @grows_shuffle : grow.
Lemma later_put_http addrs body : later (put_http E addrs body).
Proof. unfold put_http, put_accurate, put_fast, put_rand, best_fit_accurate, best_fit_fast. ks. Qed.
Lemma later_query_http addrs body : later (query_http E addrs body).
Proof. unfold query_http, get_dps, best_fit_accurate, best_fit_fast. ks. Qed.

Lemma later_each nss p : (forall ns, later (p ns)) -> later (each nss p : proc' unit).
Proof. intros H. induction nss; cbn [each]; ks. Qed.
Lemma later_poll addrs : forall t, later (poll E addrs t).
Proof. induction addrs; intros t; cbn [poll]; ks. Qed.
Lemma later_with_table c p : (forall t, later (p t)) -> later (with_table E c p).
Proof. intros H. unfold with_table. apply later_bind; [apply later_poll|auto]. Qed.
Lemma later_with_local c p : (forall ns, later (p ns)) -> later (with_local E c p).
Proof. intros H. unfold with_local. apply later_bind; [apply later_c_namespaces|]. intros. apply later_each; auto. Qed.
Lemma later_go p : later p -> later (go p : proc' unit).
Proof. intros H. cbn [go later]. auto. Qed.
Lemma later_fetch_lens addrs ns : later (fetch_lens E addrs ns).
Proof. induction addrs; cbn [fetch_lens]; ks. Qed.
Hint Resolve later_fetch_lens : later.
Lemma later_remote_lens addrs ns : later (remote_lens E addrs ns).
Proof. unfold remote_lens. ks. Qed.
Lemma later_balance_loop take c naddrs mean margin : (forall o w, later (take o w : proc' nat)) ->
  forall todo lens, later (balance_loop take c naddrs mean margin todo lens).
Proof.
  intros H. induction todo as [|[o n] todo IH]; intros lens; cbn [balance_loop]; [exact I|].
  apply later_bind; [apply later_local; unfold balance_want; gr|]. intros [want|]; [|apply IH]. apply later_bind; [apply H|]. intros. apply IH.
Qed.
Lemma later_balance_ns c t ns : later (balance_ns E c t ns).
Proof.
  unfold balance_ns. apply later_bind; [apply later_remote_lens|]. intros [|x lens]; [ks|].
  apply later_bind; [ks|]. intros. apply later_balance_loop. intros. unfold steal_from. ks.
Qed.
Lemma later_metas addrs : forall items, later (metas E addrs items).
Proof. induction addrs; intros items; cbn [metas]; ks. Qed.
Lemma later_task_body c k : later (task_body E c k).
Proof.
  destruct k; cbn [task_body].
  - apply later_bind; [apply later_metas|]. intros. exact I.
  - apply later_with_local. intros. apply later_go. auto with later.
  - apply later_with_local. intros. apply later_go. auto with later.
  - apply later_with_local. intros. apply later_go. auto with later.
  - apply later_with_local. intros. apply later_go. auto with later.
  - apply later_with_local. intros. apply later_go. auto with later.
  - apply later_with_local. intros. apply later_with_table. intros. auto with later.
  - apply later_with_local. intros. apply later_with_table. intros. auto with later.
  - apply later_with_table. intros. apply later_bind; [ks|]. intros. apply later_each. intros. apply later_balance_ns.
Qed.
Lemma later_run_task c iter k : later (run_task E c iter k).
Proof. unfold run_task, with_skip. destruct (_ =? 0)%Z; [ks|]. destruct (_ =? 0)%Z; [apply later_task_body|exact I]. Qed.
Lemma later_el_steps rd run l : later rd -> (forall k, later (run k)) -> later (el_steps rd run l : proc' unit).
Proof.
  intros H1 H2. induction l; cbn [el_steps]; [exact I|]. apply later_bind; [|auto]. unfold el_step.
  apply later_bind; auto. intros [|]; [exact I|]. apply later_bind; auto. intros [|]; [exact I|auto].
Qed.
Lemma later_el_loop rd run : later rd -> (forall i k, later (run i k)) -> forall n iter, later (el_loop rd run n iter : proc' bool).
Proof.
  intros H1 H2. induction n; intros iter; cbn [el_loop]; (apply later_bind; [auto|]; intros [|]; [exact I|]); [exact I|].
  apply later_bind; [apply later_el_steps; auto|]. auto.
Qed.
Lemma later_event_loop c stop n : later (event_loop E c stop n).
Proof. unfold event_loop. apply later_el_loop; [unfold read_stop; ks|]. intros. apply later_run_task. Qed.
Lemma later_job j : later (run_job E j).
Proof.
  destruct j; cbn [run_job]; (apply later_bind; [|intros; try destruct r; exact I]).
  - apply later_serve.
  - apply later_put_http.
  - apply later_query_http.
  - apply later_event_loop.
Qed.
Lemma interleave_later {R} (dflt : R) : forall sched (l : list (proc World (@lock) R)) w t l' w' t', Forall (fun p : proc' R => later p) l ->
  interleave dflt sched l w t = Ok ((l', w'), t') -> t <= t'.
Proof.
  induction sched as [|i sched IH]; intros l w t l' w' t' Hl; cbn [interleave].
  - unfold ret. intros H. inversion H; subst. auto.
  - unfold bind at 1. destruct (step1 dflt l i w t) as [[[l1 w1] t1]| |] eqn:Hs; try discriminate. intros H.
    assert (H1 : Forall (fun p : proc' R => later p) l1 /\ t <= t1).
    { unfold step1 in Hs. destruct (nth_error l i) as [p|] eqn:Hp; [|inversion Hs; subst; auto].
      pose proof (nth_error_In _ _ Hp) as Hi. assert (Hk : later p) by (rewrite Forall_forall in Hl; auto).
      destruct p as [r|A o f k|q k].
      - inversion Hs; subst; auto.
      - unfold bind in Hs. destruct (f w t) as [[[x w2] t2]| |] eqn:Hf; try discriminate. unfold ret in Hs. inversion Hs; subst.
        cbn [later] in Hk. destruct Hk as (K1 & K2). split; [apply forall_set; auto|]. eapply K1; eauto.
      - inversion Hs; subst. destruct Hk as (Hq & Hk). split; auto. apply Forall_app. split; [apply forall_set; auto|].
        constructor; auto. apply later_bind; auto. intros; exact I. }
    destruct H1 as (H1 & H2). pose proof (IH _ _ _ _ _ _ H1 H). lia.
Qed.
End Later.
