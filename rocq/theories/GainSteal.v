(* When a steal takes something, and when it cannot. *)
From Verif Require Import Base Num MathUtils Knn Env Centroid CManager DataSpec MgrSpec Wp DataFacts NumFacts
  CentroidProofs DistributeProofs CMProofs CMProofs2 CMProofs3 HistoryProofs Proc Owns Server ServerSpec ServerFacts
  SeqProofs SeqProofs2 StealProofs ServerProofs Alone Uniform TaskSpec Props03Lemmas SettleSpec.

Section GainSteal.
Context {N : Num} (E : Env N) (HE : EnvOk E).
Notation Cen := (Centroid N).
Notation World := (World N).

Notation sees := (sees E).
Notation blind := (blind E).

Lemma steal_loop_mono a from ns v limit : forall fuel (w : World) t total r w' t',
  exec (steal_loop E fuel a from ns v limit total) w t = Ok ((r, w'), t') -> total <= fst r.
Proof.
  induction fuel as [|fuel IH]; intros w t total r w' t' H; cbn [steal_loop] in H; destruct (Z.of_nat total <? limit)%Z.
  - discriminate H.
  - cbn [exec] in H. unfold ret in H. inversion H; subst. cbn [fst]. lia.
  - rewrite exec_bind in H. destruct (exec (c_nearest E from ns v 1 true) w t) as [[[[o ok] w1] t1]| |]; try discriminate H.
    destruct o as [[|c cs]|].
    1,3: cbn [exec] in H; unfold ret in H; inversion H; subst; cbn [fst]; lia.
    rewrite exec_bind in H. match type of H with context[match ?e with _ => _ end] => destruct e as [[[x w2] t2]| |] end; try discriminate H.
    rewrite exec_bind in H. match type of H with context[match ?e with _ => _ end] => destruct e as [[[y w3] t3]| |] eqn:Hy end; try discriminate H.
    assert (Hle : total <= y).
    { destruct x as [u|].
      - cbn [exec] in Hy. unfold ret in Hy. inversion Hy; subst. lia.
      - rewrite exec_bind in Hy. match type of Hy with context[match ?e with _ => _ end] => destruct e as [[[z w4] t4]| |] end; try discriminate Hy.
        cbn [exec] in Hy. unfold ret in Hy. inversion Hy; subst. lia. }
    destruct ok.
    + apply IH in H. lia.
    + cbn [exec] in H. unfold ret in H. inversion H; subst. cbn [fst]. lia.
  - cbn [exec] in H. unfold ret in H. inversion H; subst. cbn [fst]. lia.
Qed.

Lemma nearest_sees n from ns v (w : World) t mr : WorldOk w -> manager w from ns = Some mr -> DimOk n mr -> sees v (cm_cs mr) ->
  (forall k, e_fate E k = Delivered) -> wp (exec (c_nearest E from ns v 1 true) w) t (fun r _ => fst (fst r) <> None).
Proof.
  intros Hw Hm Hd (i0 & idx0 & Hs) Had.
  assert (Hh : forall t, wp (exec (h_nearest E from ns v 1 true) w) t (fun r _ => exists c, fst r = Some [c] /\ cwf n c)).
  { clear t. intros t. unfold h_nearest, access. apply (wp_exec_access _ _ _ _ _ mr); auto. apply wp_bind.
    eapply wp_mono; [apply (cm_nearest_spec E HE cwf cwf_id n mr v 1 true t); [lia|auto]|].
    intros [o m'] t' (-> & Hm' & _ & idx & He & _ & Hf & Hl & Ho). apply wp_ret. cbn [fst snd] in *. unfold cm_vecs in He. rewrite Hs in He. injection He as <-.
    destruct o as [cs|]; [|destruct Ho; discriminate].
    destruct Ho as (Hne & -> & _ & _). destruct idx0 as [|j idx0]; [|cbn [length] in Hl; lia].
    inversion Hf as [|? ? Hi _]; subst. destruct (nth_error_lt _ i0 Hi) as (c & Hc). exists c.
    unfold pick. cbn [map concat flat_map]. rewrite Hc. split; auto. apply (cs_length_P cwf n mr i0 c Hd Hc). }
  unfold c_nearest. apply wp_exec_bind. unfold wp at 1. rewrite exec_rpc.
  destruct (node_at w from) as [nd|] eqn:Hn; [|unfold manager in Hm; rewrite Hn in Hm; discriminate Hm]. rewrite (Had t).
  specialize (Hh (S t)). unfold wp in Hh. destruct (exec (h_nearest E from ns v 1 true) w (S t)) as [[[o1 w1] t1]| |]; try contradiction. cbn [fst snd] in Hh.
  destruct Hh as (c & -> & Hc). cbn [fst snd join]. apply wp_exec_bind, wp_exec_local.
  eapply wp_mono; [apply (post_nearest_one E n c t1 Hc)|]. intros o t' Ho. apply wp_exec_ret. cbn [fst snd].
  destruct Ho as [(_ & -> & _)|(_ & c' & -> & _)]; discriminate.
Qed.

Lemma steal_loop_gains n a from ns v limit fuel (w : World) t m mr r w' t' : a <> from -> WorldOk w -> manager w a ns = Some m ->
  manager w from ns = Some mr -> DimOk n mr -> Forall (fun c => c_dps c <> []) (cm_cs mr) -> (forall b ns, never_expired E (data_at w b ns)) ->
  sees v (cm_cs mr) -> (forall k, e_fate E k = Delivered) -> (0 < limit)%Z ->
  exec (steal_loop E fuel a from ns v limit 0) w t = Ok ((r, w'), t') -> 0 < fst r.
Proof.
  intros Hne Hw Hm Hmr Hd Hce Hnev Hs Had Hlim H. destruct fuel as [|fuel]; cbn [steal_loop] in H.
  { destruct (Z.ltb_spec (Z.of_nat 0) limit); [discriminate H|lia]. }
  destruct (Z.ltb_spec (Z.of_nat 0) limit) as [_|]; [|lia]. rewrite exec_bind in H.
  pose proof (wp_conj _ _ _ _ (nearest_one E HE n from ns v w t mr Hw Hmr Hd) (nearest_sees n from ns v w t mr Hw Hmr Hd Hs Had)) as Hn.
  unfold wp in Hn. destruct (exec (c_nearest E from ns v 1 true) w t) as [[[[o ok] w1] t1]| |]; try discriminate H. cbn [fst snd] in Hn.
  destruct Hn as ((mr' & -> & Hd' & Ht & Hok & Ho) & Hnn).
  destruct Ho as [(Hno & _)|(c & Hp & -> & Hc)]; [congruence|].
  assert (Hcin : In c (cm_cs mr)) by (apply (Permutation_in _ (Permutation_sym Hp)); left; auto).
  assert (Hcne : c_dps c <> []) by (rewrite Forall_forall in Hce; auto).
  destruct Hc as [(Hc & _)|(_ & c' & k & -> & Hcw & _ & _ & Hk)]; [contradiction|].
  rewrite never_expired_live in Hk.
  2:{ intros j d Hdd. apply (Hnev from ns). unfold data_at, centroids_at. rewrite Hmr. unfold stored. apply in_concat. exists (c_dps c). split; auto.
      apply in_map. exact Hcin. }
  assert (Hw1 : WorldOk (put_mgr w from ns mr' [])) by (apply put_mgr_ok; auto; congruence).
  assert (Hm1 : manager (put_mgr w from ns mr' []) a ns = Some m) by (rewrite (put_only w from ns); auto; congruence).
  rewrite exec_bind in H. unfold access in H. rewrite exec_access_g in H by auto. rewrite Hm1 in H. unfold ret in H. cbn [exec pbind] in H. unfold ret in H.
  apply steal_loop_mono in H. unfold c_len in H. rewrite Hk in H. destruct (c_dps c) as [|d l]; [congruence|]. cbn [length] in H. lia.
Qed.

Lemma steal_gains n fuel a from ns limit (w : World) t mr x w' t' : WorldOk w -> a <> from -> node_at w a <> None -> 0 < n ->
  (forall b m, b = a \/ b = from -> manager w b ns = Some m -> DimOk n m) -> manager w from ns = Some mr ->
  Forall (fun c => c_dps c <> []) (cm_cs mr) -> (forall b ns, never_expired E (data_at w b ns)) -> (0 < limit)%Z -> (forall k, e_fate E k = Delivered) ->
  sees (match manager w a ns with Some m => cm_vec m | None => cm_vec mr end) (cm_cs mr) ->
  exec (serve E a (QSteal fuel from ns limit)) w t = Ok ((x, w'), t') -> 0 < came (Some x).
Proof.
  intros Hw Hne Hna H0 Hd Hmr Hce Hnev Hlim Had Hs H.
  assert (Hdr : DimOk n mr) by (apply (Hd from); auto).
  assert (Hrest : forall v w1 t1 m1 r w2 t2, WorldOk w1 -> manager w1 a ns = Some m1 -> sees v (cm_cs mr) ->
    (forall b ns2, (b, ns2) <> (a, ns) -> manager w1 b ns2 = manager w b ns2) -> never_expired E (data_at w1 a ns) ->
    exec (call ' (total, ok) <- steal_loop E fuel a from ns v limit 0;
              call _ <- access a ns (fun m => cm_move_vector E m); Ret (total, ok)) w1 t1 = Ok ((r, w2), t2) -> 0 < fst r).
  { intros v w1 t1 m1 r w2 t2 Hw1 Hm1 Hv Ho Hnv Hx. assert (Hfr : manager w1 from ns = Some mr) by (rewrite Ho; [exact Hmr|congruence]).
    rewrite exec_bind in Hx. destruct (exec (steal_loop E fuel a from ns v limit 0) w1 t1) as [[[[total ok] w3] t3]| |] eqn:Hl; try discriminate Hx.
    apply (steal_loop_gains n a from ns v limit fuel w1 t1 m1 mr) in Hl; auto.
    - cbn [fst] in Hl. rewrite exec_bind in Hx. match type of Hx with context[match ?e with _ => _ end] => destruct e as [[[y w4] t4]| |] end; try discriminate Hx.
      cbn [exec] in Hx. unfold ret in Hx. inversion Hx; subst. exact Hl.
    - intros b ns2. destruct (str_dec b a) as [->|Hb]; [destruct (str_dec ns2 ns) as [->|Hns]; [exact Hnv|]|];
        unfold data_at, centroids_at; rewrite Ho by congruence; apply Hnev. }
  cbn [serve] in H. rewrite exec_bind in H. destruct (exec (h_steal E fuel a from ns limit) w t) as [[[[total ok] w3] t3]| |] eqn:Hh; try discriminate H.
  cbn [exec] in H. unfold ret in H. inversion H; subst. cbn [came]. change total with (fst (total, ok)).
  unfold h_steal in Hh. rewrite exec_bind in Hh. unfold h_vec at 1, access at 1 in Hh. rewrite exec_access_g in Hh by auto.
  destruct (manager w a ns) as [m|] eqn:Hm.
  - unfold ret in Hh at 1. rewrite put_same in Hh by auto. cbn [pbind] in Hh. eapply (Hrest (cm_vec m) w _ m); [| | | | |exact Hh]; auto.
  - rewrite exec_bind, exec_bind in Hh. unfold c_vec_of in Hh. rewrite exec_bind, exec_rpc in Hh.
    destruct (node_at w from) as [ndf|] eqn:Hnf; [|unfold manager in Hmr; rewrite Hnf in Hmr; discriminate Hmr]. rewrite (Had t) in Hh.
    unfold h_vec, access in Hh. rewrite exec_access_g in Hh by auto. rewrite Hmr in Hh. unfold ret in Hh at 1. rewrite put_same in Hh by auto.
    cbn [join exec] in Hh. unfold ret in Hh at 1. destruct (cm_vec mr) as [|x0 xs] eqn:Hcv; [destruct Hdr as (Hl & _); rewrite Hcv in Hl; cbn [length] in Hl; lia|].
    rewrite <- Hcv in *. destruct (node_at w a) as [nda|] eqn:Hnda; [|congruence].
    rewrite exec_bind, (exec_factory a (cm_vec mr) w (S t) nda Hnda) in Hh. rewrite exec_bind, exec_add_slot in Hh by congruence.
    cbn [exec] in Hh. unfold ret in Hh at 1. assert (Hnn : node_at w a <> None) by congruence.
    eapply (Hrest (cm_vec mr) _ _ _); [| | | | |exact Hh].
    + apply new_mgr_ok; auto.
    + apply new_at; auto.
    + exact Hs.
    + intros b ns2 Hb. apply (new_only w a ns); auto.
    + unfold data_at, centroids_at. rewrite new_at by auto. intros k d [].
Qed.

(* ---- the vector that the search cannot use ---- *)
Lemma nearest_blind from ns v (w : World) t mr : WorldOk w -> manager w from ns = Some mr -> blind v (cm_cs mr) ->
  exists ok t', exec (c_nearest E from ns v 1 true) w t = Ok (((None, ok), w), t').
Proof.
  intros Hw Hmr Hb. assert (Hh : forall t, exec (h_nearest E from ns v 1 true) w t = Ok ((Some [], w), t)).
  { intros t0. unfold h_nearest, access. rewrite exec_access_g by auto. rewrite Hmr. unfold cm_nearest, bind, lift, cm_vecs. rewrite Hb. unfold ret.
    rewrite put_same by auto. reflexivity. }
  unfold c_nearest. rewrite exec_bind, exec_rpc. destruct (match node_at w from with Some _ => e_fate E t | None => ReqLost end);
    rewrite ?Hh; cbn [join post_nearest]; rewrite exec_bind; cbn [exec local]; unfold bind, ret; eauto.
Qed.

Lemma steal_blind fuel a from ns limit (w : World) t m x w' t' : WorldOk w -> manager w a ns = Some m -> cm_cs m = [] ->
  (forall mr, manager w from ns = Some mr -> blind (cm_vec m) (cm_cs mr)) ->
  exec (serve E a (QSteal fuel from ns limit)) w t = Ok ((x, w'), t') -> w' = w /\ came (Some x) = 0.
Proof.
  intros Hw Hm He Hb H. cbn [serve] in H. rewrite exec_bind in H.
  destruct (exec (h_steal E fuel a from ns limit) w t) as [[[[total ok] w3] t3]| |] eqn:Hh; try discriminate H.
  cbn [exec] in H. unfold ret in H. inversion H; subst. cbn [came].
  unfold h_steal in Hh. rewrite exec_bind in Hh. unfold h_vec at 1, access at 1 in Hh. rewrite exec_access_g in Hh by auto. rewrite Hm in Hh.
  unfold ret in Hh at 1. rewrite put_same in Hh by auto. cbn [pbind] in Hh. rewrite exec_bind in Hh.
  assert (Hl : forall r w1 t1, exec (steal_loop E fuel a from ns (cm_vec m) limit 0) w t = Ok ((r, w1), t1) -> w1 = w /\ fst r = 0).
  { intros r w1 t1 Hl. destruct fuel as [|fuel]; cbn [steal_loop] in Hl; (destruct (Z.of_nat 0 <? limit)%Z;
      [|cbn [exec] in Hl; unfold ret in Hl; inversion Hl; subst; auto]); [discriminate Hl|].
    rewrite exec_bind in Hl. destruct (manager w from ns) as [mr|] eqn:Hmr.
    - destruct (nearest_blind from ns (cm_vec m) w t mr Hw Hmr (Hb mr eq_refl)) as (ok1 & t2 & Hx). rewrite Hx in Hl.
      cbn [exec] in Hl. unfold ret in Hl. inversion Hl; subst; auto.
    - destruct (nearest_none E from ns (cm_vec m) w t Hw Hmr) as (t2 & _ & Hx). rewrite Hx in Hl.
      cbn [exec] in Hl. unfold ret in Hl. inversion Hl; subst; auto. }
  destruct (exec (steal_loop E fuel a from ns (cm_vec m) limit 0) w t) as [[[[total1 ok1] w1] t1]| |] eqn:Hls; try discriminate Hh.
  destruct (Hl _ _ _ eq_refl) as (-> & Ht). cbn [fst] in Ht. subst total1.
  rewrite exec_bind in Hh. unfold access in Hh. rewrite exec_access_g in Hh by auto. rewrite Hm in Hh.
  assert (Hmv : cm_move_vector E m t1 = Ok ((false, m), t1)).
  { unfold cm_move_vector. rewrite He. cbn [move_all]. destruct m as [v cs th]. cbn [cm_cs] in He. subst cs. reflexivity. }
  rewrite Hmv, put_same in Hh by auto. cbn [exec] in Hh. unfold ret in Hh. inversion Hh; subst. auto.
Qed.
End GainSteal.
