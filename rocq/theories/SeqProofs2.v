(* Requests running alone, continued: independence of other namespaces, adding, stealing. *)
From Verif Require Import Base Num MathUtils Knn Env Centroid CManager DataSpec MgrSpec Wp DataFacts NumFacts
  CentroidProofs CMProofs CMProofs2 CMProofs3 HistoryProofs Proc Owns Server ServerSpec ServerFacts SeqProofs.

Section Seq2.
Context {N : Num} (E : Env N).
Notation DP := (DataPoint N).
Notation World := (World N).

(* ---- C37: what a request answers depends on its own namespace only ---- *)
Definition same (ns : str) {R} (p : proc' N R) : Prop :=
  forall w1 w2 t, WorldOk w1 -> WorldOk w2 -> same_ns ns w1 w2 ->
  match exec p w1 t, exec p w2 t with
  | Ok ((r1, w1'), t1), Ok ((r2, w2'), t2) =>
      r1 = r2 /\ t1 = t2 /\ WorldOk w1' /\ WorldOk w2' /\ same_ns ns w1' w2'
  | Panic, Panic | OutOfFuel, OutOfFuel => True
  | _, _ => False
  end.

Section Same.
Context (ns : str).
Lemma same_ret {R} (r : R) : same ns (Ret r).
Proof. intros w1 w2 t H1 H2 Ha. cbn. auto. Qed.
Lemma same_bind {R S} (p : proc' N R) (k : R -> proc' N S) :
  same ns p -> (forall r, same ns (k r)) -> same ns (pbind p k).
Proof.
  intros Hp Hk w1 w2 t H1 H2 Ha. specialize (Hp w1 w2 t H1 H2 Ha). rewrite !exec_bind.
  destruct (exec p w1 t) as [[[r1 w1'] t1]| |], (exec p w2 t) as [[[r2 w2'] t2]| |]; try contradiction; auto.
  destruct Hp as (-> & -> & K1 & K2 & K3). apply Hk; auto.
Qed.
Lemma same_local {A} (m : M A) : same ns (local m).
Proof.
  intros w1 w2 t H1 H2 Ha. cbn [local exec]. unfold bind. destruct (m t) as [[x t']| |]; auto. cbn. auto.
Qed.
Lemma same_fork {R} (p : proc' N unit) (k : proc' N R) : same ns p -> same ns k -> same ns (Fork p k).
Proof.
  intros Hp Hk w1 w2 t H1 H2 Ha. specialize (Hp w1 w2 t H1 H2 Ha). cbn [exec]. unfold bind.
  destruct (exec p w1 t) as [[[r1 w1'] t1]| |], (exec p w2 t) as [[[r2 w2'] t2]| |]; try contradiction; auto.
  destruct Hp as (_ & -> & K1 & K2 & K3). apply Hk; auto.
Qed.
Lemma put_agree (w1 w2 : World) a m x y : WorldOk w1 -> WorldOk w2 -> same_ns ns w1 w2 -> manager w1 a ns <> None ->
  same_ns ns (put_mgr w1 a ns m x) (put_mgr w2 a ns m y).
Proof.
  intros H1 H2 (A1 & A2) Hm. split; intros b; [rewrite !put_mgr_node; auto|].
  rewrite !put_mgr_get; auto; [|congruence]. rewrite A2; auto.
Qed.
Lemma same_access {A} a (f : CM N -> M (A * CM N)) g : same ns (access_g a ns f g).
Proof.
  intros w1 w2 t H1 H2 Ha. rewrite !exec_access_g by auto. pose proof (proj2 Ha a) as Hm. rewrite <- Hm.
  destruct (manager w1 a ns) as [m|] eqn:Hm1; [|auto]. destruct (f m t) as [[[x m'] t']| |]; auto.
  splits; auto using put_mgr_ok. apply put_agree; auto. congruence.
Qed.
Lemma same_drop ds : same ns (drop_dps ns ds).
Proof. intros w1 w2 t H1 H2 Ha. cbn. splits; auto. Qed.
Lemma same_first_add m d : same ns (first_add E ns m d).
Proof.
  intros w1 w2 t H1 H2 Ha. cbn [first_add exec]. unfold bind, ret.
  destruct (cm_add E m d t) as [[[ok m'] t']| |]; auto.
Qed.
Lemma same_factory a v : same ns (factory a v).
Proof.
  intros w1 w2 t H1 H2 Ha. pose proof (proj1 Ha a) as Hn. cbn [factory exec]. unfold bind, ret, node_at in *.
  destruct (assoc a (w_nodes w1)) as [n1|], (assoc a (w_nodes w2)) as [n2|]; cbn in Hn; try discriminate.
  { injection Hn as Hn. rewrite Hn. splits; auto. }
  exact I.
Qed.
Lemma same_add_slot a m : same ns (add_slot a ns m).
Proof.
  intros w1 w2 t H1 H2 Ha. pose proof (proj1 Ha a) as Hn.
  destruct (node_at w1 a) as [n1|] eqn:E1, (node_at w2 a) as [n2|] eqn:E2; cbn in Hn; try discriminate.
  - rewrite !exec_add_slot by congruence. splits; auto using new_mgr_ok. split; intros b.
    + rewrite !new_mgr_node. apply Ha.
    + rewrite !new_mgr_get by (auto; congruence). rewrite (proj2 Ha); auto.
  - cbn [add_slot exec]. unfold bind, node_at in *. rewrite E1, E2. exact I.
Qed.
Lemma same_rpc {A} a (h : proc' N A) : same ns h -> same ns (rpc E a h).
Proof.
  intros Hh w1 w2 t H1 H2 Ha. pose proof (proj1 Ha a) as Hn. unfold rpc. cbn [pbind exec tick]. unfold bind, tick, ret.
  unfold node_at in Hn. destruct (assoc a (w_nodes w1)) as [n1|], (assoc a (w_nodes w2)) as [n2|]; cbn in Hn; try discriminate.
  - destruct (e_fate E t); [| |].
    + apply (same_bind h); auto. intros r. apply same_ret.
    + apply same_ret; auto.
    + apply (same_fork (call _ <- h; Ret tt)); auto; [|apply same_ret]. apply same_bind; auto. intros r. apply same_ret.
  - apply same_ret; auto.
Qed.
Ltac ss := repeat (first [ apply same_ret | apply same_local | apply same_access | apply same_drop | apply same_first_add
  | apply same_factory | apply same_add_slot | apply same_rpc | apply same_bind; [|intros ?] ]).

Lemma same_add a d : same ns (h_add E a ns d).
Proof. unfold h_add. apply same_bind; [apply same_access|]. intros [b|]; ss. Qed.
Lemma same_c_add a d : same ns (c_add_dp E a ns d).
Proof. unfold c_add_dp. apply same_bind; [apply same_rpc, same_add|]. intros r; ss. Qed.
Lemma same_c_vec a : same ns (c_vec_of E a ns).
Proof. unfold c_vec_of, h_vec, access. ss. Qed.
Lemma same_fetch_each f addrs : (forall a, same ns (f a)) -> same ns (fetch_each (N := N) f addrs).
Proof. intros Hf. induction addrs as [|a r IH]; cbn [fetch_each]; ss; auto. Qed.
Lemma same_fetch f addrs : (forall a, same ns (f a)) -> same ns (fetch_vecs E f addrs).
Proof. intros Hf. unfold fetch_vecs. ss. apply same_fetch_each; auto. Qed.
Lemma same_try_add addrs idx d : same ns (try_add E addrs idx ns d).
Proof.
  induction idx as [|i r IH]; cbn [try_add]; [ss|]. apply same_bind; [ss|]. intros a.
  apply same_bind; [apply same_c_add|]. intros [|]; [ss|auto].
Qed.
Lemma same_put_back a d : same ns (put_back_dp E a ns d).
Proof. unfold put_back_dp. apply same_bind; [ss|]. intros [b|]; ss. Qed.
Lemma same_fast_loop a rsl ds : same ns (distribute_fast_loop E a ns rsl ds).
Proof.
  induction ds as [|d r IH]; cbn [distribute_fast_loop]; [ss|]. apply same_bind.
  - unfold distribute_dp. apply same_bind; [ss|]. intros idx. apply same_try_add.
  - intros ok. apply same_bind; [|intros; auto]. destruct ok; [ss|apply same_put_back].
Qed.
Lemma same_accurate_loop a addrs ds : same ns (distribute_accurate_loop E a ns addrs ds).
Proof.
  induction ds as [|d r IH]; cbn [distribute_accurate_loop]; [ss|]. apply same_bind.
  - apply same_fetch. intros b. unfold c_nearest_vec, h_nearest_vec, access. ss.
  - intros rsl. apply same_bind.
    + unfold distribute_dp. apply same_bind; [ss|]. intros idx. apply same_try_add.
    + intros ok. apply same_bind; [|intros; auto]. destruct ok; [ss|apply same_put_back].
Qed.
Lemma same_distribute a n addrs loop : (forall ds, same ns (loop ds)) -> same ns (distribute_with E a ns n addrs loop).
Proof.
  intros Hl. unfold distribute_with. destruct (n <? 0)%Z; [ss|]. apply same_bind; [ss|].
  intros [[|d ds]|]; destruct addrs; ss; auto.
Qed.
Lemma same_c_nearest a v n drain : same ns (c_nearest E a ns v n drain).
Proof. unfold c_nearest, h_nearest, access. ss. Qed.
Lemma same_steal_loop a from v limit : forall fuel total, same ns (steal_loop E fuel a from ns v limit total).
Proof.
  induction fuel as [|fuel IH]; intros total; cbn [steal_loop]; destruct (Z.of_nat total <? limit)%Z; try (ss; fail).
  apply same_bind; [apply same_c_nearest|]. intros [[[|c cs]|] ok]; try (ss; fail).
  apply same_bind; [apply same_access|]. intros r. apply same_bind; [destruct r; ss|].
  intros tot. destruct ok; [auto|ss].
Qed.
Lemma same_steal fuel a from limit : same ns (h_steal E fuel a from ns limit).
Proof.
  unfold h_steal. apply same_bind; [unfold h_vec, access; ss|]. intros lv. apply same_bind.
  - destruct lv; [ss|]. apply same_bind; [apply same_c_vec|]. intros [v|]; ss.
  - intros [v|]; [|ss]. apply same_bind; [apply same_steal_loop|]. intros [tot ok]. unfold access. ss.
Qed.

Lemma same_serve a q : req_ns q = Some ns -> same ns (serve E a q).
Proof.
  intros Hq. destruct q; cbn [req_ns] in Hq; try discriminate Hq; injection Hq as ->; cbn [serve];
    try (unfold reply, h_vec, h_drain_unordered, h_drain_ordered, h_expire, h_len_dp, h_mem_trim, h_move_vector,
           h_distribute_internal, h_knn_lookup, h_nearest, h_nearest_vec, h_split, h_merge, access;
         apply same_bind; [apply same_access|intros r; apply same_ret]).
  - apply same_bind; [apply same_add|intros; ss].
  - unfold reply. apply same_bind; [|intros; ss]. apply same_distribute. intros ds. apply same_bind.
    + apply same_fetch. intros b. apply same_c_vec.
    + intros rsl. apply same_fast_loop.
  - unfold reply. apply same_bind; [|intros; ss]. apply same_distribute. intros ds. apply same_accurate_loop.
  - apply same_bind; [apply same_steal|]. intros [n ok]. ss.
Qed.
End Same.

(* ---- C39: adding ---- *)
Lemma pair_neq (b ns2 a ns : str) : (b, ns2) <> (a, ns) -> str_eqb b a && str_eqb ns2 ns = false.
Proof.
  intros H. destruct (str_eqb b a) eqn:Eb, (str_eqb ns2 ns) eqn:En; auto. apply str_eqb_eq in Eb, En. congruence.
Qed.
Lemma put_only (w : World) a ns m x : WorldOk w -> manager w a ns <> None -> only w (put_mgr w a ns m x) a ns.
Proof. intros Hw Hm b ns2 Hb. rewrite put_mgr_get, pair_neq; auto. Qed.
Lemma put_at (w : World) a ns m x : WorldOk w -> manager w a ns <> None -> manager (put_mgr w a ns m x) a ns = Some m.
Proof. intros Hw Hm. rewrite put_mgr_get, !str_eqb_refl; auto. Qed.
Lemma new_only (w : World) a ns m : WorldOk w -> node_at w a <> None -> only w (new_mgr w a ns m) a ns.
Proof. intros Hw Hm b ns2 Hb. rewrite new_mgr_get, pair_neq; auto. Qed.
Lemma new_at (w : World) a ns m : WorldOk w -> node_at w a <> None -> manager (new_mgr w a ns m) a ns = Some m.
Proof. intros Hw Hm. rewrite new_mgr_get, !str_eqb_refl; auto. Qed.

Lemma add_known a ns d (w : World) m t : WorldOk w -> manager w a ns = Some m ->
  exec (serve E a (QAdd ns d)) w t =
    match cm_add E m d t with
    | Ok ((ok, m'), t') => Ok ((ABool true, put_mgr w a ns m' (unless d ok)), t')
    | Panic => Panic
    | OutOfFuel => OutOfFuel
    end.
Proof.
  intros Hw Hm. cbn [serve]. rewrite exec_bind. unfold h_add. rewrite exec_bind, exec_access_g by auto. rewrite Hm.
  destruct (cm_add E m d t) as [[[ok m'] t']| |]; auto.
Qed.
Lemma add_unknown a ns d (w : World) t : WorldOk w -> node_at w a <> None -> manager w a ns = None ->
  exists th, option_map nd_thresh (node_at w a) = Some th /\
  exec (serve E a (QAdd ns d)) w t =
    match cm_add E (new_cm (dp_vec d) th) d t with
    | Ok ((ok, m'), t') => Ok ((ABool true, new_mgr (drop ns (unless d ok) w) a ns m'), t')
    | Panic => Panic
    | OutOfFuel => OutOfFuel
    end.
Proof.
  intros Hw Hn Hm. destruct (node_at w a) as [nd|] eqn:Ha; [|congruence]. exists (nd_thresh nd). split; auto.
  cbn [serve]. rewrite exec_bind. unfold h_add. rewrite exec_bind, exec_access_g by auto. rewrite Hm.
  rewrite exec_bind, (exec_factory a (dp_vec d) w t nd Ha). rewrite exec_bind. cbn [first_add exec]. unfold bind, ret.
  destruct (cm_add E _ d t) as [[[ok m'] t']| |]; auto. rewrite exec_bind, exec_add_slot; auto.
  change (node_at w a <> None). congruence.
Qed.

Lemma first_datapoint d th t :
  wp (cm_add E (new_cm (dp_vec d) th) d) t (fun r _ =>
    (expired_at (e_now E t) d = true -> snd r = new_cm (dp_vec d) th) /\
    (expired_at (e_now E t) d = false -> expired_at (e_now E (S t)) d = false -> stored (cm_cs (snd r)) = [d]) /\
    (expired_at (e_now E t) d = false -> expired_at (e_now E (S t)) d = true -> stored (cm_cs (snd r)) = [])).
Proof.
  unfold cm_add. cbn [new_cm cm_cs]. apply wp_bind, wp_expired. destruct (expired_at (e_now E t) d).
  - apply wp_ret. cbn [snd]. splits; auto; discriminate.
  - apply wp_bind. eapply wp_mono; [apply c_add_spec|]. intros [ok c] t1 (_ & H). apply wp_ret. cbn [snd cm_cs].
    cbn [new_centroid c_vec] in H. destruct H as [(_ & -> & Hx & [= -> ->])|[(_ & -> & Hx & [= -> ->])|(Hb & _)]]; [| |congruence].
    + splits; try discriminate; intros; try congruence. reflexivity.
    + splits; try discriminate; intros; try congruence. reflexivity.
Qed.

(* ---- remote calls ---- *)
Lemma exec_rpc {A} a (h : proc' N A) (w : World) t :
  exec (rpc E a h) w t =
    match (match node_at w a with None => ReqLost | Some _ => e_fate E t end) with
    | Delivered => match exec h w (S t) with
                   | Ok ((x, w'), t') => Ok ((Some x, w'), t')
                   | Panic => Panic | OutOfFuel => OutOfFuel end
    | ReqLost => Ok ((None, w), S t)
    | RespLost => match exec h w (S t) with
                   | Ok ((_, w'), t') => Ok ((None, w'), t')
                   | Panic => Panic | OutOfFuel => OutOfFuel end
    end.
Proof.
  unfold rpc. rewrite exec_bind. cbn [exec]. unfold bind at 1, tick, ret, node_at. unfold bind.
  destruct (assoc a (w_nodes w)); [|reflexivity]. destruct (e_fate E t); [| reflexivity |].
  - rewrite exec_bind. destruct (exec h w (S t)) as [[[x w'] t']| |]; auto.
  - cbn [exec]. unfold bind. rewrite exec_bind. destruct (exec h w (S t)) as [[[x w'] t']| |]; auto.
Qed.

End Seq2.
