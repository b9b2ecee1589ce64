(* Where distribution to other nodes sends each datapoint. *)
From Coq Require Import Permutation.
From Verif Require Import Base Num MathUtils Knn SearchSpec Env Centroid CManager DataSpec MgrSpec Wp DataFacts NumFacts
  KnnProofs CentroidProofs CMProofs CMProofs2 MathSpec Proc Owns Server ServerSpec ServerFacts ServerProofs SeqProofs SeqProofs2 Alone Core EventLoop CoreSpec CoreProofs SystemProofs CoreSeq
  CMProofs3 HistoryProofs ClusterProofs StealProofs Props03Lemmas Props04Lemmas Props05Lemmas QueryProofs Closest.
Local Open Scope nat_scope.

Section Handed.
Context {N : Num} (E : Env N).
Notation DP := (DataPoint N).
Notation World := (World N).

(* ---- specification ---- *)

(* Starting in w at time t, the datapoints are added one after the other, each at one of the
   nodes that are closest to it, or back at node a if none can be compared; vecs gives the
   vectors that speak for the nodes in the world as it then is. *)
Inductive handed (a ns : str) (addrs : list str) (vecs : World -> str -> vec N -> Prop)
  : list DP -> World -> nat -> World -> nat -> Prop :=
| handed_all w t : handed a ns addrs vecs [] w t w t
| handed_on d r w t b t1 w1 t2 w' t' : In b addrs -> closest (vecs w) addrs (dp_vec d) b -> t <= t1 ->
    exec (serve E b (QAdd ns d)) w t1 = Ok ((ABool true, w1), t2) ->
    handed a ns addrs vecs r w1 t2 w' t' -> handed a ns addrs vecs (d :: r) w t w' t'
| handed_back d r w t t1 w1 t2 w' t' : (forall b u s, In b addrs -> vecs w b u -> ~ similar (dp_vec d) u s) -> t <= t1 ->
    exec (serve E a (QAdd ns d)) w t1 = Ok ((ABool true, w1), t2) ->
    handed a ns addrs vecs r w1 t2 w' t' -> handed a ns addrs vecs (d :: r) w t w' t'.

(* The same, with the place where each datapoint lands: in a centroid that is closest to it, or
   wherever node a puts it. *)
Inductive landed (a ns : str) (addrs : list str) : list DP -> World -> World -> Prop :=
| landed_all w : landed a ns addrs [] w w
| landed_on d r w b i c s w1 w' : In b addrs -> similar (dp_vec d) (c_vec c) s ->
    (forall b' u s', In b' addrs -> centroid_vec w ns b' u -> cosine_similarity (dp_vec d) u = Some s' -> fltb s s' = false) ->
    lands w w1 ns b i c d -> landed a ns addrs r w1 w' -> landed a ns addrs (d :: r) w w'
| landed_back d r w t1 w1 t2 w' : (forall b u s, In b addrs -> centroid_vec w ns b u -> ~ similar (dp_vec d) u s) ->
    exec (serve E a (QAdd ns d)) w t1 = Ok ((ABool true, w1), t2) -> landed a ns addrs r w1 w' -> landed a ns addrs (d :: r) w w'.

(* ---- proofs ---- *)
Context (HE : EnvOk E) (HO : NumOrd N) (D : str -> nat -> Prop) (Hall : all_delivered E) (HK : e_knn E = knn_cos).

Lemma handed_earlier a ns addrs vecs ds w t0 t w' t' : t0 <= t -> handed a ns addrs vecs ds w t w' t' -> ds <> [] ->
  handed a ns addrs vecs ds w t0 w' t'.
Proof. intros Ht H Hne. inversion H; subst; [congruence|eapply handed_on; [eassumption|eassumption| |eassumption|eassumption]; lia|eapply handed_back; [eassumption| |eassumption|eassumption]; lia]. Qed.

Lemma has_node (w : World) a ns : manager w a ns <> None -> node_at w a <> None.
Proof. unfold manager. intros H Hn. rewrite Hn in H. auto. Qed.

Lemma vecs_manager (w : World) (acc : bool) ns b u : (if acc then centroid_vec w ns else node_vec w ns) b u -> manager w b ns <> None.
Proof. destruct acc; [intros (m & c & H & _)|intros (m & H & _)]; congruence. Qed.

Lemma add_here a ns d (w : World) t : WorldOk w -> DimsOk D w -> D ns (length (dp_vec d)) -> manager w a ns <> None ->
  exists w' t', exec (h_add E a ns d) w t = Ok ((true, w'), t') /\ exec (serve E a (QAdd ns d)) w t = Ok ((ABool true, w'), t') /\
    exec (put_back_dp E a ns d) w t = Ok ((tt, w'), t') /\
    WorldOk w' /\ DimsOk D w' /\ forall b, manager w b ns <> None -> manager w' b ns <> None.
Proof.
  intros Hw Hd Hns Hm. destruct (h_add_alone E HE HO D a ns d w t Hw Hd Hns (has_node _ _ _ Hm)) as (w' & t' & H1 & H2).
  exists w', t'. split; auto. split; auto.
  pose proof (alone_safe E HE HO D a (QAdd ns d) w t Hw Hd (has_node _ _ _ Hm) I Hns) as H3. rewrite H2 in H3.
  destruct (manager w a ns) as [m|] eqn:Em; [|congruence]. pose proof (add_known E a ns d w m t Hw Em) as H4. rewrite H2 in H4.
  unfold put_back_dp. rewrite exec_bind, exec_access_g, Em by auto.
  destruct (cm_add E m d t) as [[[ok m'] t2]| |]; try discriminate. injection H4 as -> ->. cbn [exec]. unfold ret.
  split; auto. split; [apply H3|]. split; [apply H3|]. intros b Hb. rewrite put_mgr_get by (auto; congruence).
  destruct (str_eqb b a && str_eqb ns ns); auto. discriminate.
Qed.

(* What distribute_dp does with the vectors that were fetched. *)
Lemma distribute_one d rsl rest answers addrs ns (w : World) t : WorldOk w -> DimsOk D w -> D ns (length (dp_vec d)) ->
  Permutation (map fst rsl ++ rest) addrs -> Forall (fun e => answers (fst e) (snd e)) rsl ->
  Forall (fun a => forall u, ~ answers a u) rest -> (forall b u, answers b u -> manager w b ns <> None) ->
  exists l, Ranked E cosine_similarity false answers addrs (dp_vec d) l /\
    match l with
    | [] => exec (distribute_dp E d rsl ns) w t = Ok ((false, w), t)
    | b :: _ => exists t1 w1 t2, t <= t1 /\ exec (distribute_dp E d rsl ns) w t = Ok ((true, w1), t2) /\
        exec (serve E b (QAdd ns d)) w t1 = Ok ((ABool true, w1), t2)
    end.
Proof.
  intros Hw Hd Hns HP HF HR Hm.
  destruct (knn_brute_bestk HO cosine_similarity false (dp_vec d) (map snd rsl) (Z.of_nat (length rsl)) ltac:(lia)) as (idx & Hi & HB).
  rewrite Nat2Z.id in HB. assert (Hlt : Forall (fun i => i < length (map fst rsl)) idx).
  { apply Forall_forall. intros i Hin. destruct (bk_rankable _ _ _ _ _ _ HB i Hin) as (s & u & Hu & _).
    rewrite map_length, <- (map_length snd). apply nth_error_Some. congruence. }
  pose proof (pick_Forall2 (map fst rsl) idx Hlt) as H2. remember (pick idx (map fst rsl)) as l0 eqn:El. clear El. exists l0. split.
  { exists rsl, rest, idx. split; auto. }
  unfold distribute_dp. rewrite exec_bind. cbn [local exec]. unfold bind, lift. fold (@knn_cos N) in Hi. rewrite Hi. unfold ret.
  inversion H2 as [|i b idx' l Hb H2' E1 E2].
  - subst idx l0. reflexivity.
  - subst idx l0. cbn [try_add]. rewrite exec_bind. cbn [local exec]. unfold bind, index. rewrite Hb. unfold ret.
    assert (Hmb : manager w b ns <> None).
    { rewrite nth_error_map in Hb. destruct (nth_error rsl i) as [[b' u]|] eqn:Er; try discriminate. cbn in Hb. injection Hb as ->.
      apply nth_error_In in Er. rewrite Forall_forall in HF. apply (Hm b u), (HF _ Er). }
    rewrite exec_bind. unfold c_add_dp. rewrite exec_bind, (reached_exec E) by (split; [eapply has_node; eauto|apply Hall]).
    destruct (add_here b ns d w (S t) Hw Hd Hns Hmb) as (w1 & t2 & K1 & K2 & _). rewrite K1. cbn [exec]. unfold ret.
    exists (S t), w1, t2. auto.
Qed.

Definition answers_of (acc : bool) (w : World) ns v := if acc then accurate_vec E w ns v else fast_vec w ns.

Lemma answers_manager acc w ns v b u : answers_of acc w ns v b u -> manager w b ns <> None.
Proof. unfold answers_of. destruct acc; [intros (m & i & idx & c & H & _)|intros (m & H & _)]; congruence. Qed.

(* w0: the world in which the vectors were fetched. *)
Lemma hand_one acc a d rsl rest addrs ns (w0 w : World) t : WorldOk w -> DimsOk D w -> D ns (length (dp_vec d)) -> dp_vec d <> [] ->
  manager w a ns <> None -> (forall b, manager w0 b ns <> None -> manager w b ns <> None) ->
  Permutation (map fst rsl ++ rest) addrs -> Forall (fun e => answers_of acc w0 ns (dp_vec d) (fst e) (snd e)) rsl ->
  Forall (fun b => forall u, ~ answers_of acc w0 ns (dp_vec d) b u) rest ->
  let vecs := (if acc then centroid_vec w0 ns else node_vec w0 ns) in
  exists t1 w1 t2, t <= t1 /\
    exec (call ok <- distribute_dp E d rsl ns; (if ok then Ret tt else put_back_dp E a ns d)) w t = Ok ((tt, w1), t2) /\
    WorldOk w1 /\ DimsOk D w1 /\ (forall b, manager w b ns <> None -> manager w1 b ns <> None) /\
    ((exists b, In b addrs /\ closest vecs addrs (dp_vec d) b /\ exec (serve E b (QAdd ns d)) w t1 = Ok ((ABool true, w1), t2)) \/
     (forall b u s, In b addrs -> vecs b u -> ~ similar (dp_vec d) u s) /\ exec (serve E a (QAdd ns d)) w t1 = Ok ((ABool true, w1), t2)).
Proof.
  intros Hw Hd Hns Hv Ha Hkeep HP HF HR vecs. rewrite exec_bind.
  destruct (distribute_one d rsl rest _ addrs ns w t Hw Hd Hns HP HF HR) as (l & Hl & Hx).
  { intros b u Hb. apply Hkeep. eapply answers_manager; eauto. }
  assert (Hnr : nodes_ranked E w0 acc addrs ns (dp_vec d) l) by (unfold nodes_ranked; unfold answers_of in Hl; destruct acc; auto).
  destruct l as [|b l].
  - rewrite Hx. destruct (add_here a ns d w t Hw Hd Hns Ha) as (w1 & t2 & K1 & K2 & K3 & K4 & K5 & K6).
    exists t, w1, t2. split; auto. split; auto. split; auto. split; auto. split; auto. right. split; auto.
    intros b u s Hb Hu Hs. destruct (ranked_closest E HO w0 acc addrs ns (dp_vec d) [] Hall HK Hv) as (b' & l' & X & _); auto; [|discriminate].
    exists b, u, s. auto.
  - destruct Hx as (t1 & w1 & t2 & Ht & X1 & X2). rewrite X1. cbn [exec]. unfold ret. exists t1, w1, t2. split; auto. split; auto.
    assert (Hin : In b addrs) by (eapply ranked_incl; [exact Hl|left; auto]).
    assert (Hmb : manager w b ns <> None).
    { apply Hkeep. destruct (ranked_head E HO (answers_of acc w0 ns (dp_vec d))) with (addrs := addrs) (v := dp_vec d) (a := b) (l := l) as (_ & u & s & Y & _); auto.
      - intros x u u'. unfold answers_of. destruct acc; [apply accurate_fun|apply fast_fun].
      - eapply answers_manager; eauto. }
    destruct (add_here b ns d w t1 Hw Hd Hns Hmb) as (w2 & t3 & K1 & K2 & K3 & K4 & K5 & K6).
    rewrite X2 in K2. injection K2 as <- <-. split; auto. split; auto. split; auto. left. exists b. split; auto. split; auto.
    destruct (ranked_closest E HO w0 acc addrs ns (dp_vec d) (b :: l) Hall HK Hv) as (b' & l' & X & _ & Hc); auto.
    + destruct (ranked_head E HO (answers_of acc w0 ns (dp_vec d))) with (addrs := addrs) (v := dp_vec d) (a := b) (l := l) as (_ & u & s & Y & Z & _); auto.
      * intros x u u'. unfold answers_of. destruct acc; [apply accurate_fun|apply fast_fun].
      * exists b, u, s. split; auto. split; auto. unfold answers_of in Y. destruct acc.
        -- destruct Y as (m & i & idx & c & Y1 & Y2 & Y3 & -> & _). exists m, c. split; auto. split; auto. eapply nth_error_In; eauto.
        -- destruct Y as (m & Y1 & -> & _). exists m. auto.
    + injection X as <- _. exact Hc.
Qed.

Lemma fast_loop_handed a ns addrs rsl rest (w0 : World) : Permutation (map fst rsl ++ rest) addrs ->
  Forall (fun e => fast_vec w0 ns (fst e) (snd e)) rsl -> Forall (fun b => forall u, ~ fast_vec w0 ns b u) rest ->
  forall ds (w : World) t, WorldOk w -> DimsOk D w -> manager w a ns <> None -> (forall b, manager w0 b ns <> None -> manager w b ns <> None) ->
  Forall (fun d => D ns (length (dp_vec d)) /\ dp_vec d <> []) ds ->
  exists w' t', exec (distribute_fast_loop E a ns rsl ds) w t = Ok ((tt, w'), t') /\ handed a ns addrs (fun _ => node_vec w0 ns) ds w t w' t'.
Proof.
  intros HP HF HR. induction ds as [|d ds IH]; intros w t Hw Hd Ha Hk Hds; cbn [distribute_fast_loop].
  - exists w, t. split; [reflexivity|constructor].
  - inversion Hds as [|? ? (Hns & Hv) Hds']; subst.
    destruct (hand_one false a d rsl rest addrs ns w0 w t Hw Hd Hns Hv Ha Hk HP HF HR) as (t1 & w1 & t2 & Ht & He & Hw1 & Hd1 & Hk1 & Hc).
    destruct (IH w1 t2 Hw1 Hd1) as (w' & t' & He' & Hh'); auto. exists w', t'. split.
    + rewrite exec_bind in He |- *. destruct (exec (distribute_dp E d rsl ns) w t) as [[[ok w2] t3]| |]; try discriminate.
      rewrite exec_bind, He. exact He'.
    + destruct Hc as [(b & K1 & K2 & K3)|(K1 & K2)]; [eapply handed_on; [exact K1|exact K2| |exact K3|exact Hh']; lia|eapply handed_back; [exact K1| |exact K2|exact Hh']; lia].
Qed.

Lemma accurate_loop_handed a ns addrs : forall ds (w : World) t, WorldOk w -> DimsOk D w -> manager w a ns <> None ->
  Forall (fun d => D ns (length (dp_vec d)) /\ dp_vec d <> []) ds ->
  exists w' t', exec (distribute_accurate_loop E a ns addrs ds) w t = Ok ((tt, w'), t') /\ handed a ns addrs (fun w => centroid_vec w ns) ds w t w' t'.
Proof.
  induction ds as [|d ds IH]; intros w t Hw Hd Ha Hds; cbn [distribute_accurate_loop].
  - exists w, t. split; [reflexivity|constructor].
  - inversion Hds as [|? ? (Hns & Hv) Hds']; subst. rewrite exec_bind.
    pose proof (fetch_vecs_spec E HE w _ _ addrs t (fetches_accurate E HE w ns (dp_vec d) Hw)) as Hf. unfold wp in Hf.
    destruct (exec (fetch_vecs E (fun b => c_nearest_vec E b ns (dp_vec d)) addrs) w t) as [[[rsl w0] t0]| |]; try contradiction.
    cbn [fst snd] in Hf. destruct Hf as (Ht0 & -> & rest & HP & HF & HR). specialize (HR Hall).
    destruct (hand_one true a d rsl rest addrs ns w w t0 Hw Hd Hns Hv Ha (fun b H => H) HP HF HR) as (t1 & w1 & t2 & Ht & He & Hw1 & Hd1 & Hk1 & Hc).
    destruct (IH w1 t2 Hw1 Hd1) as (w' & t' & He' & Hh'); auto. exists w', t'. split.
    + rewrite exec_bind in He |- *. destruct (exec (distribute_dp E d rsl ns) w t0) as [[[ok w2] t3]| |]; try discriminate.
      rewrite exec_bind, He. exact He'.
    + destruct Hc as [(b & K1 & K2 & K3)|(K1 & K2)]; [eapply handed_on; [exact K1|exact K2| |exact K3|exact Hh']; lia|eapply handed_back; [exact K1| |exact K2|exact Hh']; lia].
Qed.

Lemma distribute_handed (acc : bool) a ns n addrs (w : World) t : WorldOk w -> DimsOk D w -> manager w a ns <> None -> (0 <= n)%Z -> addrs <> [] ->
  (forall k, D ns k -> k <> 0) ->
  wp (exec (serve E a (if acc then QDistributeAccurate ns n addrs else QDistributeFast ns n addrs)) w) t (fun r t' => fst r = AOk /\
    exists ds w0 t0, exec (serve E a (QDrainOrdered ns n)) w t = Ok ((ADPs ds, w0), t0) /\
      handed a ns addrs (fun w => if acc then centroid_vec w ns else node_vec w0 ns) ds w0 t0 (snd r) t').
Proof.
  intros Hw Hd Hm Hn Hne HD0. destruct (manager w a ns) as [m|] eqn:Em; [|congruence].
  destruct (manager_slot _ _ _ _ Hw Em) as (nd & p & Ha & Hp & Hnth).
  assert (Hso : SlotOk D ns m) by (eapply Hd; [apply assoc_in; exact Ha|eapply nth_error_In; eauto]). destruct Hso as (k & HDk & Hmd).
  pose proof (cm_drain_ordered_spec E HE cwf cwf_rm cwf_id (fun _ _ => True) (fun _ _ _ _ _ _ _ _ _ => I) k m n t Hn Hmd I) as Hs. unfold wp in Hs.
  pose proof (alone_safe E HE HO D a (QDrainOrdered ns n) w t Hw Hd ltac:(congruence) Hn I) as Hsafe.
  assert (Hq : exec (serve E a (QDrainOrdered ns n)) w t = match cm_drain_ordered E m n t with
    | Ok ((ds, m'), t') => Ok ((ADPs ds, put_mgr w a ns m' []), t') | Panic => Panic | OutOfFuel => OutOfFuel end).
  { cbn [serve]. unfold reply, h_drain_ordered, access. rewrite exec_bind, exec_access_g, Em by auto.
    destruct (cm_drain_ordered E m n t) as [[[ds m'] t']| |]; auto. }
  assert (Hb : forall loop, exec (distribute_with E a ns n addrs loop) w t = match cm_drain_ordered E m n t with
    | Ok ((ds, m'), t') => match ds with [] => Ok ((Some tt, put_mgr w a ns m' []), t') | _ :: _ => exec (call _ <- loop ds; Ret (Some tt)) (put_mgr w a ns m' []) t' end
    | Panic => Panic | OutOfFuel => OutOfFuel end).
  { intros loop. unfold distribute_with. replace (n <? 0)%Z with false by (symmetry; apply Z.ltb_ge; auto).
    rewrite exec_bind, exec_access_g, Em by auto. destruct (cm_drain_ordered E m n t) as [[[ds m'] t']| |]; auto.
    destruct addrs as [|b addrs]; [congruence|]. destruct ds as [|d ds]; reflexivity. }
  rewrite Hq in Hsafe |- *. unfold wp. destruct (cm_drain_ordered E m n t) as [[[ds m'] t0]| |]; try contradiction.
  cbn [fst snd] in Hs. destruct Hs as (Ht0 & _ & _ & _ & _ & Hcons & _). destruct Hsafe as (Hw0 & Hd0).
  set (w0 := put_mgr w a ns m' []) in *.
  assert (Hm0 : manager w0 a ns <> None) by (unfold w0; rewrite put_at by (auto; congruence); discriminate).
  assert (Hds : Forall (fun d => D ns (length (dp_vec d)) /\ dp_vec d <> []) ds).
  { apply Forall_forall. intros d Hin. assert (Hl : length (dp_vec d) = k).
    { destruct Hcons as (lost & HP & _). assert (Hi : In d (stored (cm_cs m))).
      { apply (Permutation_in _ (Permutation_sym HP)). rewrite !in_app_iff. auto. }
      destruct Hmd as (_ & Hcs). rewrite Forall_forall in Hcs. apply in_concat in Hi. destruct Hi as (l & Hl & Hi).
      apply in_map_iff in Hl. destruct Hl as (c & <- & Hc). destruct (Hcs c Hc) as (_ & Hdd). rewrite Forall_forall in Hdd. auto. }
    split; [rewrite Hl; auto|]. intros X. rewrite X in Hl. apply (HD0 k HDk). auto. }
  destruct ds as [|d0 ds0].
  { destruct acc; cbn [serve]; unfold reply, h_distribute_fast, h_distribute_accurate; rewrite exec_bind, Hb; cbn [exec ret fst snd]; (split; [reflexivity|]);
      exists [], w0, t0; (split; [reflexivity|constructor]). }
  destruct acc; cbn [serve]; unfold reply, h_distribute_fast, h_distribute_accurate; rewrite exec_bind, Hb; cbn beta iota.
  - destruct (accurate_loop_handed a ns addrs (d0 :: ds0) w0 t0 Hw0 Hd0 Hm0 Hds) as (w' & t' & He & Hh).
    rewrite exec_bind, He. cbn [exec ret fst snd]. split; [reflexivity|]. exists (d0 :: ds0), w0, t0. split; [reflexivity|exact Hh].
  - rewrite !exec_bind.
    pose proof (fetch_vecs_spec E HE w0 _ _ addrs t0 (fetches_fast E w0 ns Hw0)) as Hf. unfold wp in Hf.
    destruct (exec (fetch_vecs E (fun b => c_vec_of E b ns) addrs) w0 t0) as [[[rsl w1] t1]| |]; try contradiction.
    cbn [fst snd] in Hf. destruct Hf as (Ht1 & -> & rest & HP & HF & HR). specialize (HR Hall).
    destruct (fast_loop_handed a ns addrs rsl rest w0 HP HF HR (d0 :: ds0) w0 t1 Hw0 Hd0 Hm0 (fun b H => H) Hds) as (w' & t' & He & Hh).
    rewrite He. cbn [exec ret fst snd]. split; [reflexivity|]. exists (d0 :: ds0), w0, t0. split; [reflexivity|].
    eapply handed_earlier; eauto. discriminate.
Qed.

Lemma add_live b ns d (w : World) t w1 t' : WorldOk w -> DimsOk D w -> D ns (length (dp_vec d)) -> manager w b ns <> None ->
  exec (serve E b (QAdd ns d)) w t = Ok ((ABool true, w1), t') -> (forall x, never_expired E (data_at w x ns)) -> never_expired E [d] ->
  WorldOk w1 /\ DimsOk D w1 /\ (forall x, manager w x ns <> None -> manager w1 x ns <> None) /\ forall x, never_expired E (data_at w1 x ns).
Proof.
  intros Hw Hd Hns Hm He Hl Hld. destruct (add_here b ns d w t Hw Hd Hns Hm) as (w2 & t2 & _ & K1 & _ & K2 & K3 & K4).
  rewrite He in K1. injection K1 as <- <-. split; auto. split; auto. split; auto. intros x k y Hy.
  destruct (manager w b ns) as [m|] eqn:Em; [|congruence]. destruct (manager_dim D w b ns m Hw Hd Em) as (n & Hn).
  pose proof (add_known_spec E HE n b ns d w m t Hw Em Hn) as H. unfold wp in H. rewrite He in H. cbn [fst snd] in H.
  destruct H as (_ & Ho & H1 & H2). destruct (str_dec x b) as [->|Hx].
  2: { apply (Hl x). unfold data_at, centroids_at in *. rewrite Ho in Hy by congruence. exact Hy. }
  assert (Hin : In y (data_at w b ns ++ [d])).
  { match type of H2 with ~ ?A -> _ => assert (HA : A \/ ~ A) end.
    { destruct (expired_at (e_now E t) d) eqn:X1; [right; intros (X & _); discriminate|]. destruct (cm_cs m) as [|c0 cs]; [left; auto|].
      destruct (expired_at (e_now E (S t)) d) eqn:X2; [right; intros (_ & [X|(X & _)]); discriminate|].
      destruct (e_knn E (dp_vec d) (map c_vec (c0 :: cs)) 1%Z) as [[|i idx]| |] eqn:X3;
        [right; intros (_ & [X|(_ & i & idx & X)]); discriminate|left; split; auto; right; split; eauto|right; intros (_ & [X|(_ & i & idx & X)]); discriminate..]. }
    destruct HA as [HA|HA].
    - destruct (H1 HA) as (lost & HP & _). apply (Permutation_in _ (Permutation_sym HP)), in_app_iff. auto.
    - apply in_app_iff. left. specialize (H2 HA). unfold data_at, centroids_at in *. rewrite H2 in Hy. rewrite Em. exact Hy. }
  apply in_app_iff in Hin. destruct Hin as [Hin|Hin]; [apply (Hl b k y Hin)|apply (Hld k y Hin)].
Qed.

Lemma handed_landed a ns addrs ds (w : World) t w' t' : handed a ns addrs (fun w => centroid_vec w ns) ds w t w' t' ->
  WorldOk w -> DimsOk D w -> manager w a ns <> None -> Forall (fun d => D ns (length (dp_vec d)) /\ dp_vec d <> []) ds ->
  (forall x, never_expired E (data_at w x ns)) -> never_expired E ds -> landed a ns addrs ds w w'.
Proof.
  induction 1 as [w t|d r w t b t1 w1 t2 w' t' Hb Hc Ht He Hh IH|d r w t t1 w1 t2 w' t' Hc Ht He Hh IH]; intros Hw Hd Ha Hds Hl Hld; [constructor| |];
    inversion Hds as [|? ? (Hns & Hv) Hds']; subst.
  - assert (Hd1 : never_expired E [d]) by (intros k y [<-|[]]; apply Hld; left; auto).
    assert (Hmb : manager w b ns <> None) by (destruct Hc as (u & s & (m & c & X & _) & _); congruence).
    destruct (add_live b ns d w t1 w1 t2 Hw Hd Hns Hmb He Hl Hd1) as (K1 & K2 & K3 & K4).
    destruct (add_lands E HE HO D addrs ns d b w t1 (ABool true) w1 t2 Hw Hd HK Hv) as (i & c & s & X1 & X2 & X3); auto.
    { intros k y Hy. apply in_app_iff in Hy. destruct Hy as [Hy|Hy]; [apply (Hl b k y Hy)|apply (Hd1 k y Hy)]. }
    eapply landed_on; [exact Hb|exact X1|exact X2|exact X3|]. apply IH; auto. intros k y Hy. apply Hld. right; auto.
  - assert (Hd1 : never_expired E [d]) by (intros k y [<-|[]]; apply Hld; left; auto).
    destruct (add_live a ns d w t1 w1 t2 Hw Hd Hns Ha He Hl Hd1) as (K1 & K2 & K3 & K4).
    eapply landed_back; [exact Hc|exact He|]. apply IH; auto. intros k y Hy. apply Hld. right; auto.
Qed.

Lemma distribute_landed a ns n addrs (w : World) t : WorldOk w -> DimsOk D w -> manager w a ns <> None -> (0 <= n)%Z -> addrs <> [] ->
  (forall k, D ns k -> k <> 0) -> (forall b, never_expired E (data_at w b ns)) ->
  wp (exec (serve E a (QDistributeAccurate ns n addrs)) w) t (fun r t' =>
    exists ds w0 t0, exec (serve E a (QDrainOrdered ns n)) w t = Ok ((ADPs ds, w0), t0) /\ landed a ns addrs ds w0 (snd r)).
Proof.
  intros Hw Hd Hm Hn Hne HD0 Hl. eapply wp_mono; [apply (distribute_handed true a ns n addrs w t); auto|].
  intros [x w'] t' (_ & ds & w0 & t0 & He & Hh). cbn [fst snd] in *. exists ds, w0, t0. split; auto.
  destruct (manager w a ns) as [m|] eqn:Em; [|congruence]. destruct (manager_slot _ _ _ _ Hw Em) as (nd & p & Ha & Hp & Hnth).
  assert (Hso : SlotOk D ns m) by (eapply Hd; [apply assoc_in; exact Ha|eapply nth_error_In; eauto]). destruct Hso as (k & HDk & Hmd).
  pose proof (cm_drain_ordered_spec E HE cwf cwf_rm cwf_id (fun _ _ => True) (fun _ _ _ _ _ _ _ _ _ => I) k m n t Hn Hmd I) as Hs. unfold wp in Hs.
  pose proof (alone_safe E HE HO D a (QDrainOrdered ns n) w t Hw Hd ltac:(congruence) Hn I) as Hsafe. rewrite He in Hsafe. destruct Hsafe as (Hw0 & Hd0).
  cbn [serve] in He. unfold reply, h_drain_ordered, access in He. rewrite exec_bind, exec_access_g, Em in He by auto.
  destruct (cm_drain_ordered E m n t) as [[[ds' m'] t2]| |]; try discriminate. cbn [exec] in He. unfold ret in He. injection He as -> <- ->.
  cbn [fst snd] in Hs. destruct Hs as (_ & _ & _ & _ & _ & (lost & HP & _) & _).
  assert (Hsub : forall d, In d (stored (cm_cs m') ++ ds) -> In d (stored (cm_cs m))).
  { intros d Hin. apply (Permutation_in _ (Permutation_sym HP)), in_app_iff. left. exact Hin. }
  assert (Hlm : never_expired E (stored (cm_cs m))).
  { intros j d Hin. apply (Hl a j). unfold data_at, centroids_at. rewrite Em. exact Hin. }
  eapply handed_landed; [exact Hh|auto|auto| | | |].
  - rewrite put_at by (auto; congruence). discriminate.
  - apply Forall_forall. intros d Hin. assert (Hlen : length (dp_vec d) = k).
    { specialize (Hsub d ltac:(apply in_app_iff; auto)). destruct Hmd as (_ & Hcs). rewrite Forall_forall in Hcs. apply in_concat in Hsub.
      destruct Hsub as (l & Hll & Hi). apply in_map_iff in Hll. destruct Hll as (c & <- & Hc). destruct (Hcs c Hc) as (_ & Hdd). rewrite Forall_forall in Hdd. auto. }
    split; [rewrite Hlen; auto|]. intros X. rewrite X in Hlen. apply (HD0 k HDk). auto.
  - intros b j d Hin. unfold data_at, centroids_at in Hin. rewrite put_mgr_get in Hin by (auto; congruence).
    destruct (str_eqb b a && str_eqb ns ns); [apply (Hlm j), Hsub, in_app_iff; auto|apply (Hl b j), Hin].
  - intros j d Hin. apply (Hlm j), Hsub, in_app_iff. auto.
Qed.
End Handed.
