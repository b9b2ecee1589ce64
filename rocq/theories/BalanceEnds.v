(* A run of the load balancing task ends, on any network. *)
From Verif Require Import Base Num MathUtils Env Centroid CManager DataSpec MgrSpec Wp NumFacts Proc Server ServerSpec Owns ServerFacts SeqProofs SeqProofs2
  StealProofs EventLoop CoreSpec LoopSpec LoopProofs2 TaskSpec TaskProofs Uniform SystemProofs.
From Coq Require Import Permutation.
Local Open Scope nat_scope.

Section BalanceEnds.
Context {N : Num} (E : Env N) (HE : EnvOk E) (HO : NumOrd N) (dim : str -> nat).
Notation World := (World N).
Notation D := (fun ns n => n = dim ns).

Lemma len_dp_any ns a (w : World) t : WorldOk w -> wp (exec (c_len_dp E a ns) w) t (fun r _ => snd r = w).
Proof.
  intros Hw. unfold c_len_dp. apply wp_exec_bind. unfold wp. rewrite exec_rpc.
  assert (Hh : exists x, exec (h_len_dp a ns) w (S t) = Ok ((x, w), S t)).
  { unfold h_len_dp, access. rewrite exec_access_g by auto. destruct (manager w a ns) as [m|] eqn:Hm; [|eexists; reflexivity].
    unfold ret. rewrite put_same by auto. eexists; reflexivity. }
  destruct Hh as (x & Hh). rewrite Hh.
  destruct (node_at w a); [destruct (e_fate E t)|]; cbn [exec fst snd ret]; auto.
Qed.

Lemma fetch_lens_any ns (w : World) : WorldOk w -> forall addrs t,
  wp (exec (fetch_lens E addrs ns) w) t (fun r _ => snd r = w /\ map fst (fst r) = addrs).
Proof.
  intros Hw. induction addrs as [|a r IH]; intros t; cbn [fetch_lens]; [apply wp_exec_ret; auto|].
  apply wp_exec_bind. eapply wp_mono; [apply len_dp_any; auto|]. intros [x w1] t1 Hx. cbn [fst snd] in *. subst w1.
  apply wp_exec_bind. eapply wp_mono; [apply IH|]. intros [l w2] t2 (Hx & Hl). cbn [fst snd] in *. subst w2.
  apply wp_exec_ret. cbn [fst snd map]. rewrite Hl. auto.
Qed.

Lemma upserts_keys (l : list (str * nat)) : forall m : list (str * Z), NoDup (map fst m) ->
  let m' := fold_left (fun m e => upsert (fst e) (Z.of_nat (snd e)) m) l m in
  NoDup (map fst m') /\ (forall k, In k (map fst m') -> In k (map fst m) \/ In k (map fst l)) /\
  ((m <> [] \/ l <> []) -> m' <> []) /\ (Forall (fun e => (0 <= snd e)%Z) m -> Forall (fun e => (0 <= snd e)%Z) m').
Proof.
  induction l as [|e l IH]; intros m Hm; cbn [fold_left].
  - splits; auto. intros [H|H]; auto.
  - assert (Hk : NoDup (map fst (upsert (fst e) (Z.of_nat (snd e)) m)) /\
      forall k, In k (map fst (upsert (fst e) (Z.of_nat (snd e)) m)) -> In k (map fst m) \/ k = fst e).
    { destruct (assoc (fst e) m) as [v|] eqn:Hv.
      - rewrite upsert_keys_present by congruence. auto.
      - rewrite upsert_keys_absent by auto. rewrite map_app. cbn [map fst]. split.
        + apply (Permutation_NoDup (Permutation_app_comm [fst e] _)). constructor; auto. intros Hi. apply in_map_iff in Hi.
          destruct Hi as ([k v] & Hk & Hi). cbn [fst] in Hk. subst k. rewrite (assoc_nodup _ _ _ Hm Hi) in Hv. discriminate.
        + intros k Hi. apply in_app_iff in Hi. destruct Hi as [Hi|[Hi|[]]]; auto. }
    destruct Hk as (K1 & K2). destruct (IH _ K1) as (I1 & I2 & I3 & I4). splits; auto.
    + intros k Hi. destruct (I2 k Hi) as [H|H]; [|right; right; exact H]. destruct (K2 k H) as [H'|H']; auto. right. left. symmetry. exact H'.
    + intros _. apply I3. left. destruct m as [|[k v] m]; cbn [upsert]; [discriminate|]. destruct (str_eqb _ _); discriminate.
    + intros Hf. apply I4. clear - Hf. induction m as [|[k v] m IH]; cbn [upsert]; [constructor; [cbn; lia|constructor]|].
      inversion Hf; subst. destruct (str_eqb _ _); constructor; auto. cbn. lia.
Qed.

Lemma remote_lens_any ns addrs (w : World) t : WorldOk w ->
  wp (exec (remote_lens E addrs ns) w) t (fun r _ => snd r = w /\ NoDup (map fst (fst r)) /\ (forall k, In k (map fst (fst r)) -> In k addrs) /\
    (addrs <> [] -> fst r <> []) /\ Forall (fun e => (0 <= snd e)%Z) (fst r)).
Proof.
  intros Hw. unfold remote_lens. apply wp_exec_bind, wp_exec_local, wp_any_order; auto. intros order Ho. cbn [fst snd].
  apply wp_exec_bind. eapply wp_mono; [apply fetch_lens_any; auto|]. intros [l w1] t1 (Hx & Hl). cbn [fst snd] in *. subst w1.
  apply wp_exec_bind, wp_exec_local, wp_any_order; auto. intros arr Hp. cbn [fst snd]. apply wp_exec_ret. cbn [fst snd]. split; auto.
  destruct (upserts_keys arr [] ltac:(constructor)) as (I1 & I2 & I3 & I4). splits; auto.
  - intros k Hk. destruct (I2 k Hk) as [[]|Hk']. apply (Permutation_in _ Ho). rewrite <- Hl. apply (Permutation_in _ (Permutation_map fst Hp)). exact Hk'.
  - intros Hne. apply I3. right. intros ->. apply Permutation_nil in Hp. subst l. cbn [map] in Hl. subst order. apply Permutation_nil in Ho. auto.
Qed.

(* One steal. *)
Lemma steal_ends c ns other want (w : World) t : WorldOk w -> DimsOk D w -> el_local c <> other -> length (centroids_at w other ns) < el_fuel c ->
  wp (exec (steal_from E c ns other want) w) t (fun r _ => WorldOk (snd r) /\ DimsOk D (snd r) /\
    forall b ns2, (b, ns2) <> (el_local c, ns) -> (b, ns2) <> (other, ns) -> manager (snd r) b ns2 = manager w b ns2).
Proof.
  intros Hw HD Hne Hf. set (a := el_local c) in *. unfold steal_from, c_steal. fold a. apply wp_exec_bind, wp_exec_bind.
  destruct (node_at w a) as [nd|] eqn:Hna; [|unfold wp; rewrite exec_rpc, Hna; cbn [exec fst snd ret]; splits; auto].
  assert (Hn : node_at w a <> None) by (rewrite Hna; discriminate).
  assert (Hdim : forall b m, b = a \/ b = other -> manager w b ns = Some m -> DimOk (dim ns) m).
  { intros b m _ Hm. destruct (inv_slot D w b ns m (conj Hw HD) Hm) as (n & -> & Hd). exact Hd. }
  assert (Hh : exists x w1 t1, exec (h_steal E (el_fuel c) a other ns want) w (S t) = Ok ((x, w1), t1) /\ WorldOk w1 /\ DimsOk D w1 /\
    forall b ns2, (b, ns2) <> (a, ns) -> (b, ns2) <> (other, ns) -> manager w1 b ns2 = manager w b ns2).
  { pose proof (steal_spec E HE (dim ns) (el_fuel c) a other ns want w (S t) Hw Hne Hn Hdim Hf) as Hs.
    pose proof (uniform_alone E HE HO D a (QSteal (el_fuel c) other ns want) w (S t) Hw HD Hn I) as Hu.
    unfold wp in Hs. cbn [serve] in Hs, Hu. rewrite exec_bind in Hs, Hu.
    destruct (exec (h_steal E (el_fuel c) a other ns want) w (S t)) as [[[[total ok] w1] t1]| |]; try contradiction.
    cbn [exec ret] in Hs, Hu. destruct Hs as (parts & total' & ok' & k & S1 & S2 & S3 & S4 & S5 & S6 & S7 & S8). cbn [fst snd] in *.
    destruct Hu as (Hw' & HD'); [exact I|]. exists (total, ok), w1, t1. splits; auto. }
  destruct Hh as (x & w1 & t1 & Hx & H1 & H2 & H3). unfold wp. rewrite exec_rpc, Hna, Hx.
  destruct (e_fate E t); cbn [exec fst snd ret]; splits; auto; destruct x; cbn [exec fst snd ret]; auto.
Qed.

(* The loop over the sizes of one namespace. *)
Lemma loop_ends c ns naddrs mean margin : el_remote c <> [] -> (0 <= margin)%Z -> forall todo lens (w : World) t, NoDup (map fst todo) ->
  WorldOk w -> DimsOk D w -> (forall b, In b (map fst todo) -> b <> el_local c -> length (centroids_at w b ns) < el_fuel c) ->
  wp (exec (balance_loop (steal_from E c ns) c naddrs mean margin todo lens) w) t (fun r _ => WorldOk (snd r) /\ DimsOk D (snd r) /\
    forall b ns2, ns2 <> ns -> manager (snd r) b ns2 = manager w b ns2).
Proof.
  intros Hr Hm. induction todo as [|[o z] todo IH]; intros lens w t Hnd Hw HD Hf; cbn [balance_loop]; [apply wp_exec_ret; auto|].
  cbn [map fst] in Hnd, Hf. inversion Hnd as [|? ? Hnot Hnd']; subst.
  apply wp_exec_bind, wp_exec_local. eapply wp_mono; [apply want_spec; auto|]. intros [want|] t1 (-> & Hwant); cbn [fst snd].
  2:{ apply IH; auto. intros b Hb. apply Hf. right; exact Hb. }
  destruct Hwant as (Hne & _). apply wp_exec_bind. eapply wp_mono; [apply steal_ends; auto; apply Hf; auto; left; reflexivity|].
  intros [n w1] t2 (H1 & H2 & H3). cbn [fst snd] in *.
  eapply wp_mono; [apply IH; auto|].
  - intros b Hb Hbl. unfold centroids_at. rewrite H3; [apply Hf; auto; right; exact Hb|congruence|intros Heq; inversion Heq; subst; contradiction].
  - intros r t3 (K1 & K2 & K3). splits; auto. intros b ns2 Hns. rewrite K3 by auto. apply H3; congruence.
Qed.

Lemma balance_ns_ends c tb ns (w : World) t : WorldOk w -> DimsOk D w -> el_remote c <> [] -> addrs_with tb ns <> [] ->
  (forall b, b <> el_local c -> length (centroids_at w b ns) < el_fuel c) ->
  wp (exec (balance_ns E c tb ns) w) t (fun r _ => WorldOk (snd r) /\ DimsOk D (snd r) /\ forall b ns2, ns2 <> ns -> manager (snd r) b ns2 = manager w b ns2).
Proof.
  intros Hw HD Hr Ha Hf. unfold balance_ns. apply wp_exec_bind. eapply wp_mono; [apply remote_lens_any; auto|].
  intros [lens w1] t1 (Hx & H1 & H2 & H3 & H4). cbn [fst snd] in *. subst w1. specialize (H3 Ha). destruct lens as [|e lens]; [congruence|].
  set (ls := e :: lens) in *. apply wp_exec_bind, wp_exec_local, wp_any_order; auto. intros todo Hp. cbn [fst snd]. apply loop_ends; auto.
  - apply margin_nonneg. rewrite fold_add_perm, Z.add_0_l. apply Z.quot_pos; [|unfold ls; cbn [length]; lia]. apply sum_nonneg.
    apply Forall_forall. intros z Hz. apply in_map_iff in Hz. destruct Hz as (y & <- & Hy). rewrite Forall_forall in H4. auto.
  - apply (Permutation_NoDup (Permutation_map fst (Permutation_sym Hp))). exact H1.
Qed.

Theorem balance_ends c (w : World) t : WorldOk w -> DimsOk D w -> (forall b ns, b <> el_local c -> length (centroids_at w b ns) < el_fuel c) ->
  exists w' t', exec (task_body E c TBalance) w t = Ok ((tt, w'), t') /\ WorldOk w' /\ DimsOk D w'.
Proof.
  intros Hw HD Hf.
  assert (H : wp (exec (task_body E c TBalance) w) t (fun r _ => WorldOk (snd r) /\ DimsOk D (snd r))).
  2:{ unfold wp in H. destruct (exec (task_body E c TBalance) w t) as [[[[] w'] t']| |]; try contradiction. exists w', t'. auto. }
  cbn [task_body]. unfold with_table. apply wp_exec_bind.
  pose proof (poll_alone E HE w Hw (el_remote c) [] t) as Hpa. unfold wp in *.
  destruct (exec (poll E (el_remote c) []) w t) as [[[tb w1] t1]| |] eqn:Hp; try contradiction.
  destruct Hpa as (Hw1 & answered & P1 & _ & P3 & P4). cbn [fst snd] in *. subst w1.
  apply poll_made in Hp. destruct Hp as (os & Htb & Hmade).
  assert (Hk : NoDup (map fst tb)) by (rewrite Htb; apply table_keys; constructor).
  match goal with |- match ?x with _ => _ end => change (wp (fun _ => x) t1 (fun r _ => WorldOk (snd r) /\ DimsOk D (snd r))) end.
  match goal with |- wp (fun _ => exec ?p w t1) t1 ?Q => change (wp (exec p w) t1 Q) end.
  apply wp_exec_bind, wp_exec_local, wp_any_order; auto. intros nss Hnss. cbn [fst snd].
  assert (Hin : forall ns, In ns nss -> el_remote c <> [] /\ addrs_with tb ns <> []).
  { intros ns Hi. apply (Permutation_in _ Hnss), P4 in Hi. destruct Hi as [[]|(a & Ha & Hh)].
    assert (Hy : In a (filter (holds_ns w ns) answered)) by (apply filter_In; auto). split.
    - intros Hx. rewrite Hx in P1. inversion P1; subst. destruct Ha.
    - rewrite P3. cbn [app addrs_with assoc]. intros Hx. rewrite Hx in Hy. destruct Hy. }
  assert (Hns : NoDup nss) by (apply (Permutation_NoDup (Permutation_sym Hnss)); auto).
  assert (Hf' : forall ns, In ns nss -> forall b, b <> el_local c -> length (centroids_at w b ns) < el_fuel c) by auto.
  clear - HE HO Hw HD Hin Hns Hf'. revert w Hw HD Hf'. generalize (S t1). induction nss as [|ns nss IH]; intros k w Hw HD Hf; cbn [each]; [apply wp_exec_ret; auto|].
  inversion Hns as [|? ? Hnot Hns']; subst. destruct (Hin ns (or_introl eq_refl)) as (I1 & I2).
  apply wp_exec_bind. eapply wp_mono; [apply balance_ns_ends; auto; apply Hf; left; reflexivity|]. intros [u w1] t2 (K1 & K2 & K3). cbn [fst snd] in *.
  apply IH; auto; [intros ns' Hi; apply Hin; right; exact Hi|]. intros ns' Hi b Hb. unfold centroids_at.
  rewrite K3; [apply Hf; auto; right; exact Hi|]. intros ->. contradiction.
Qed.
End BalanceEnds.
