(* Proofs of the statements collected in Props04.v. *)
From Verif Require Import Base Num MathUtils Knn Env Centroid CManager DataSpec MgrSpec Wp DataFacts NumFacts
  KnnProofs MathSpec TestEnv Props03Lemmas Proc Owns Server ServerSpec ServerFacts ClusterProofs
  SeqProofs SeqProofs2 StealProofs SeqProofs3 Alone TestWorld.
From Coq.Init Require Import Byte.
Local Open Scope nat_scope.

Section Add.
Context {N : Num} (E : Env N) (HE : EnvOk E).
Notation World := (World N).

Lemma independent ns a q (w1 w2 : World) t : WorldOk w1 -> WorldOk w2 -> same_ns ns w1 w2 -> req_ns q = Some ns ->
  match exec (serve E a q) w1 t, exec (serve E a q) w2 t with
  | Ok ((x1, w1'), t1), Ok ((x2, w2'), t2) => x1 = x2 /\ t1 = t2 /\ same_ns ns w1' w2'
  | Panic, Panic | OutOfFuel, OutOfFuel => True
  | _, _ => False
  end.
Proof.
  intros H1 H2 H3 Hq. pose proof (same_serve E ns a q Hq w1 w2 t H1 H2 H3) as H.
  destruct (exec (serve E a q) w1 t) as [[[x1 w1'] t1]| |], (exec (serve E a q) w2 t) as [[[x2 w2'] t2]| |]; auto.
  destruct H as (-> & -> & _ & _ & H). auto.
Qed.

Lemma add_known_spec n a ns d (w : World) m t : WorldOk w -> manager w a ns = Some m -> DimOk n m ->
  wp (exec (serve E a (QAdd ns d)) w) t (fun r t' => fst r = ABool true /\ only w (snd r) a ns /\
    let accepted := expired_at (e_now E t) d = false /\
       (cm_cs m = [] \/ expired_at (e_now E (S t)) d = false /\
          exists i idx, e_knn E (dp_vec d) (map c_vec (cm_cs m)) 1%Z = Ok (i :: idx)) in
    (accepted -> conserves E t t' (data_at w a ns ++ [d]) (data_at (snd r) a ns)) /\
    (~ accepted -> manager (snd r) a ns = Some m)).
Proof.
  intros Hw Hm Hd. unfold wp. rewrite (add_known E a ns d w m t Hw Hm).
  pose proof (wp_conj _ _ _ _ (cm_add_accepts E HE n m d t Hd) (cm_add_stores E HE n m d t Hd)) as H. unfold wp in H.
  destruct (cm_add E m d t) as [[[ok m'] t']| |]; auto. cbn [fst snd] in *. destruct H as (H1 & H2 & H3).
  assert (Hmn : manager w a ns <> None) by congruence.
  assert (Hp : manager (put_mgr w a ns m' (unless d ok)) a ns = Some m') by (apply put_at; auto). splits; auto.
  - apply put_only; auto.
  - intros Ha. apply H1 in Ha. destruct (H3 Ha) as (H4 & _). unfold data_at, centroids_at. rewrite Hm, Hp. auto.
  - intros Ha. rewrite Hp. destruct ok; [exfalso; apply Ha, H1; auto|]. rewrite H2; auto.
Qed.

Lemma add_unknown_spec a ns d (w : World) t : WorldOk w -> node_at w a <> None -> manager w a ns = None ->
  wp (exec (serve E a (QAdd ns d)) w) t (fun r t' => fst r = ABool true /\ only w (snd r) a ns /\
    exists m, manager (snd r) a ns = Some m /\ option_map nd_thresh (node_at w a) = Some (cm_thresh m) /\
      (expired_at (e_now E t) d = true -> m = new_cm (dp_vec d) (cm_thresh m)) /\
      (expired_at (e_now E t) d = false -> expired_at (e_now E (S t)) d = false -> data_at (snd r) a ns = [d])).
Proof.
  intros Hw Hn Hm. unfold wp. destruct (add_unknown E a ns d w t Hw Hn Hm) as (th & Hth & ->).
  pose proof (first_datapoint E d th t) as H.
  assert (Hk : wp (cm_add E (new_cm (dp_vec d) th) d) t (fun r _ => cm_thresh (snd r) = th)).
  { unfold cm_add. cbn [new_cm cm_cs]. apply wp_bind, wp_expired. destruct (expired_at (e_now E t) d); [apply wp_ret; auto|].
    apply wp_bind. eapply wp_mono; [apply CentroidProofs.c_add_spec|]. intros [ok c] t1 _. apply wp_ret. auto. }
  pose proof (wp_conj _ _ _ _ H Hk) as K. unfold wp in K.
  destruct (cm_add E (new_cm (dp_vec d) th) d t) as [[[ok m'] t']| |]; auto. cbn [fst snd] in *.
  destruct K as ((K1 & K2 & _) & K3).
  assert (Hw' : WorldOk (drop ns (unless d ok) w)) by (apply drop_ok; auto).
  assert (Hn' : node_at (drop ns (unless d ok) w) a <> None) by exact Hn.
  assert (Hp : manager (new_mgr (drop ns (unless d ok) w) a ns m') a ns = Some m') by (apply new_at; auto). splits; auto.
  - intros b ns2 Hb. rewrite (new_only (drop ns (unless d ok) w) a ns) by auto. apply drop_get.
  - exists m'. rewrite Hth, K3. splits; auto. intros H1 H2. unfold data_at, centroids_at. rewrite Hp. apply K2; auto.
Qed.
End Add.

Section Distribute.
Context {N : Num} (E : Env N) (HE : EnvOk E) (HO : NumOrd N).
Notation World := (World N).

Definition is_distribute (q : req N) (ns : str) (addrs : list str) : Prop :=
  exists n, (0 <= n)%Z /\ (q = QDistributeFast ns n addrs \/ q = QDistributeAccurate ns n addrs).

Lemma distribute_conserves (D : str -> nat -> Prop) a q ns addrs (w : World) t : WorldOk w -> DimsOk D w -> node_at w a <> None ->
  is_distribute q ns addrs -> answers_arrive E ->
  wp (exec (serve E a q) w) t (fun r t' => exists dropped, w_dropped (snd r) = w_dropped w ++ dropped /\
    keeps E t t' (all_data w) (all_data (snd r) ++ dropped) /\
    (nothing_refused E D [(a, q)] -> Forall (fun e => seen_expired E t t' (snd e)) dropped) /\
    (forall b ns2, ns2 <> ns \/ ~ In b (a :: addrs) -> manager (snd r) b ns2 = manager w b ns2)).
Proof.
  intros H1 H2 H3 (n & Hn & Hq) Ha.
  assert (Hc : req_counts q) by (destruct Hq; subst q; auto).
  assert (Hd : req_dims D q) by (destruct Hq; subst q; cbn; auto).
  assert (Hs : ~ is_steal q) by (destruct Hq; subst q; cbn; auto).
  pose proof (alone_conserves E HE HO D a q w t H1 H2 H3 Hc Hd Ha Hs) as H. unfold wp in *.
  pose proof (fun b ns2 x w' t' => alone_isolated E HE HO D a q w t x w' t' b ns2 H1 H2 H3 Hc Hd) as Hi.
  destruct (exec (serve E a q) w t) as [[[x w'] t']| |]; auto. cbn [fst snd] in *.
  destruct H as (dr & K1 & K2 & K3). exists dr. splits; auto.
  - assert (E1 : req_tin q = []) by (destruct Hq; subst q; auto).
    assert (E2 : ans_tout q x = []) by (destruct Hq; subst q; destruct x; auto).
    rewrite E1, E2, app_nil_r in K2. auto.
  - intros b ns2 Hb. eapply Hi; eauto.
    assert (Hp : req_places a q = map (fun b => (b, ns)) (a :: addrs)) by (destruct Hq; subst q; auto).
    rewrite Hp. intros Hin. apply in_map_iff in Hin. destruct Hin as (y & [= -> ->] & Hy). destruct Hb; auto.
Qed.
End Distribute.

(* ---- witnesses ---- *)

(* Node B's only centroid has come to have the zero vector, its manager has not. *)
Definition zeroed : list (str * req f64) :=
  [(nB, QAdd ns1 (dp [6;0]%Z)); (nB, QAdd ns1 (dp [2;0]%Z)); (nB, QAdd ns1 (dp [1;0]%Z));
   (nB, QAdd ns1 (dp [-9;0]%Z)); (nB, QMerge ns1 0 100)].
Definition ab3 : World f64 := fresh [(nA, 100%Z); (nB, 3%Z)].

Lemma add_refuted : exists (E : Env f64) ths setup a ns d, EnvOk E /\ never_expired E [d] /\
  wp (serve_seq E (setup ++ [(a, QAdd ns d)]) (fresh ths)) 0 (fun r _ =>
    last (fst r) ANsErr = ABool true /\ ~ In d (data_at (snd r) a ns) /\ ~ In (ns, d) (all_data (snd r))).
Proof.
  exists cosE, [(nA, 100%Z); (nB, 3%Z)], zeroed, nB, ns1, (marked [1;1]%Z). splits; [apply cosE_ok|apply marked_lives|].
  apply check_wp with (b := fun r => match last (fst r) ANsErr with ABool b => b | _ => false end &&
    forallb unmarked (data_at (snd r) nB ns1) && forallb (fun e => unmarked (snd e)) (all_data (snd r))).
  - intros r H. apply andb_prop in H. destruct H as (H & H3). apply andb_prop in H. destruct H as (H1 & H2).
    splits; [|apply unmarked_out; auto|apply unmarked_out2; auto].
    destruct (last (fst r) ANsErr); try discriminate. destruct b; [auto|discriminate].
  - vm_compute. reflexivity.
Qed.

Lemma add_dimension_refuted : exists (E : Env f64) ths setup a ns d, EnvOk E /\ never_expired E [d] /\
  wp (serve_seq E (setup ++ [(a, QAdd ns d)]) (fresh ths)) 0 (fun r _ =>
    last (fst r) ANsErr = ABool true /\ ~ In d (data_at (snd r) a ns) /\ ~ In (ns, d) (all_data (snd r))).
Proof.
  exists cosE, [(nA, 100%Z)], [(nA, QAdd ns1 (dp [6;1]%Z))], nA, ns1, (marked [1]%Z). splits; [apply cosE_ok|apply marked_lives|].
  apply check_wp with (b := fun r => match last (fst r) ANsErr with ABool b => b | _ => false end &&
    forallb unmarked (data_at (snd r) nA ns1) && forallb (fun e => unmarked (snd e)) (all_data (snd r))).
  - intros r H. apply andb_prop in H. destruct H as (H & H3). apply andb_prop in H. destruct H as (H1 & H2).
    splits; [|apply unmarked_out; auto|apply unmarked_out2; auto].
    destruct (last (fst r) ANsErr); try discriminate. destruct b; [auto|discriminate].
  - vm_compute. reflexivity.
Qed.

(* Two adds create the same namespace. *)
Definition race : list (str * req f64) := [(nA, QAdd ns1 (marked [1;1]%Z)); (nA, QAdd ns1 (dp [1;2]%Z))].
Definition race_sched : list nat := [0; 1; 0; 0; 0; 1; 1; 1].
Lemma race_refuted : exists (E : Env f64) ths reqs sched rs w' t' a ns d, EnvOk E /\
  Forall (fun aq => fst aq = a /\ exists d, snd aq = QAdd ns d /\ length (dp_vec d) = 2 /\ never_expired E [d]) reqs /\
  interleave idle sched (map (request E) reqs) (fresh ths) 0 = Ok ((map (fun r => Ret r) rs, w'), t') /\
  Forall (fun r => snd r = ABool true) rs /\
  In (ns, d) (brought reqs) /\ ~ In (ns, d) (visible w').
Proof.
  exists cosE, [(nA, 100%Z)], race, race_sched.
  assert (H : match interleave idle race_sched (map (request cosE) race) (fresh [(nA, 100%Z)]) 0 with
    | Ok ((th, w'), _) => forallb (fun p => match p with Ret (_, ABool b) => b | _ => false end) th &&
        forallb (fun e => unmarked (snd e)) (visible w')
    | _ => false end = true) by (vm_compute; reflexivity).
  destruct (interleave idle race_sched (map (request cosE) race) (fresh [(nA, 100%Z)]) 0) as [[[th w'] t']| |]; try discriminate.
  apply andb_prop in H. destruct H as (H1 & H2).
  destruct (finished_check (fun r => match snd r with ABool b => b | _ => false end) th) as (rs & -> & H3).
  { rewrite <- H1. clear. induction th as [|p th IH]; auto. cbn [forallb]. rewrite IH. destruct p as [[q x]| |]; auto. }
  exists rs, w', t', nA, ns1, (marked [1;1]%Z). splits; auto.
  - apply cosE_ok.
  - repeat constructor; eexists; splits; try reflexivity; intros k d [<-|[]]; reflexivity.
  - apply Forall_forall. intros r Hr. rewrite forallb_forall in H3. specialize (H3 r Hr).
    destruct (snd r); try discriminate. destruct b; [auto|discriminate].
  - left. reflexivity.
  - apply unmarked_out2; auto.
Qed.

(* Distributing to nobody. *)
Lemma no_addresses_refuted : exists (E : Env f64) ths setup a ns n d, EnvOk E /\ answers_arrive E /\ never_expired E [d] /\
  In (a, QAdd ns d) setup /\
  wp (serve_seq E setup (fresh ths)) 0 (fun r t => In (ns, d) (all_data (snd r)) /\
    wp (exec (serve E a (QDistributeFast ns n [])) (snd r)) t (fun r' _ =>
      fst r' = AOk /\ ~ In (ns, d) (all_data (snd r')))).
Proof.
  exists cosE, [(nA, 100%Z)], [(nA, QAdd ns1 (marked [1;1]%Z))], nA, ns1, 1%Z, (marked [1;1]%Z).
  splits; [apply cosE_ok|intros k; discriminate|apply marked_lives|left; auto|].
  assert (H : match serve_seq cosE [(nA, QAdd ns1 (marked [1;1]%Z))] (fresh [(nA, 100%Z)]) 0 with
    | Ok ((_, w), t) =>
        existsb (fun e => str_eqb (fst e) ns1 && dp_same (marked [1;1]%Z) (snd e)) (all_data w) &&
        match exec (serve cosE nA (QDistributeFast ns1 1 [])) w t with
        | Ok ((AOk, w'), _) => forallb (fun e => unmarked (snd e)) (all_data w')
        | _ => false end
    | _ => false end = true) by (vm_compute; reflexivity).
  unfold wp in *. destruct (serve_seq cosE [(nA, QAdd ns1 (marked [1;1]%Z))] (fresh [(nA, 100%Z)]) 0) as [[[xs w] t]| |]; try discriminate.
  cbn [fst snd] in *. apply andb_prop in H. destruct H as (K & H).
  split; [apply has_tagged; auto|]. destruct (exec (serve cosE nA (QDistributeFast ns1 1 [])) w t) as [[[x w'] t']| |]; try discriminate.
  destruct x; try discriminate. cbn [fst snd]. split; auto. apply unmarked_out2; auto.
Qed.

(* A node that acknowledges what it does not store: reached by requests alone, in the
   service's configuration, with nothing expiring and a perfect network. *)
Lemma rejecting_node_refuted : exists (E : Env f64) ths setup a b ns n d, EnvOk E /\ (forall k, e_fate E k = Delivered) /\
  never_expired E [d] /\ a <> b /\
  wp (serve_seq E setup (fresh ths)) 0 (fun r t => In (ns, d) (all_data (snd r)) /\
    wp (exec (serve E a (QDistributeFast ns n [b])) (snd r)) t (fun r' _ =>
      fst r' = AOk /\ ~ In (ns, d) (all_data (snd r')))).
Proof.
  pose (setup := zeroed ++ [(nA, QAdd ns1 (marked [1;1]%Z))]).
  exists cosE, [(nA, 100%Z); (nB, 3%Z)], setup, nA, nB, ns1, 1%Z, (marked [1;1]%Z).
  splits; [apply cosE_ok|reflexivity|apply marked_lives|discriminate|].
  assert (H : match serve_seq cosE setup (fresh [(nA, 100%Z); (nB, 3%Z)]) 0 with
    | Ok ((_, w), t) =>
        existsb (fun e => str_eqb (fst e) ns1 && dp_same (marked [1;1]%Z) (snd e)) (all_data w) &&
        match exec (serve cosE nA (QDistributeFast ns1 1 [nB])) w t with
        | Ok ((AOk, w'), _) => forallb (fun e => unmarked (snd e)) (all_data w')
        | _ => false end
    | _ => false end = true) by (vm_compute; reflexivity).
  unfold wp in *. destruct (serve_seq cosE setup (fresh [(nA, 100%Z); (nB, 3%Z)]) 0) as [[[xs w] t]| |]; try discriminate.
  cbn [fst snd] in *. apply andb_prop in H. destruct H as (K & H).
  split; [apply has_tagged; auto|]. destruct (exec (serve cosE nA (QDistributeFast ns1 1 [nB])) w t) as [[[x w'] t']| |]; try discriminate.
  destruct x; try discriminate. cbn [fst snd]. split; auto. apply unmarked_out2; auto.
Qed.

(* As cosE, with the answer to the k-th event's call lost. *)
Definition lossy (k : nat) : Env f64 := plain_env (fun _ => 0%Z) (fun t => if t =? k then RespLost else Delivered) knn_cos kfn_cos.
Lemma lossy_ok k : EnvOk (lossy k).
Proof. apply plain_ok; [apply (knn_cos_ok f64_ord)|apply (kfn_cos_ok f64_ord)]. Qed.

Lemma lost_answer_refuted : exists (E : Env f64) ths setup a b ns n d, EnvOk E /\ never_expired E [d] /\ a <> b /\
  wp (serve_seq E setup (fresh ths)) 0 (fun r t => ~ In d (data_at (snd r) b ns) /\
    wp (exec (serve E a (QDistributeFast ns n [b])) (snd r)) t (fun r' _ =>
      fst r' = AOk /\ In d (data_at (snd r') a ns) /\ In d (data_at (snd r') b ns))).
Proof.
  pose (setup := [(nB, QAdd ns1 (dp [1;0]%Z)); (nA, QAdd ns1 (marked [1;1]%Z))]).
  assert (Hk : exists k, match serve_seq (lossy k) setup (fresh [(nA, 100%Z); (nB, 100%Z)]) 0 with
    | Ok ((_, w), t) => forallb unmarked (data_at w nB ns1) &&
        match exec (serve (lossy k) nA (QDistributeFast ns1 1 [nB])) w t with
        | Ok ((AOk, w'), _) => has_dp (marked [1;1]%Z) (data_at w' nA ns1) && has_dp (marked [1;1]%Z) (data_at w' nB ns1)
        | _ => false end
    | _ => false end = true) by (exists 9; vm_compute; reflexivity).
  destruct Hk as (k & H). exists (lossy k), [(nA, 100%Z); (nB, 100%Z)], setup, nA, nB, ns1, 1%Z, (marked [1;1]%Z).
  splits; [apply lossy_ok|apply marked_lives|discriminate|].
  unfold wp in *. destruct (serve_seq (lossy k) setup (fresh [(nA, 100%Z); (nB, 100%Z)]) 0) as [[[xs w] t]| |]; try discriminate.
  cbn [fst snd] in *. apply andb_prop in H. destruct H as (K & H). split; [apply unmarked_out; auto|].
  destruct (exec (serve (lossy k) nA (QDistributeFast ns1 1 [nB])) w t) as [[[x w'] t']| |]; try discriminate.
  destruct x; try discriminate. apply andb_prop in H. destruct H as (H1 & H2). cbn [fst snd]. splits; auto; apply has_dp_in; auto.
Qed.

(* "No network err but remote is empty" is answered although it is not. *)
Lemma steal_doc_refuted : exists (E : Env f64) ths setup fuel a b ns limit d, EnvOk E /\ (forall k, e_fate E k = Delivered) /\
  never_expired E [d] /\ a <> b /\ (0 < limit)%Z /\
  wp (serve_seq E setup (fresh ths)) 0 (fun r t =>
    wp (exec (serve E a (QSteal fuel b ns limit)) (snd r)) t (fun r' _ =>
      fst r' = ASteal 0 true /\ In d (data_at (snd r') b ns))).
Proof.
  pose (setup := [(nB, QAdd ns1 (marked [1]%Z)); (nB, QAdd ns1 (dp [8]%Z)); (nB, QDrainUnordered ns1 1); (nA, QAdd ns1 (dp [8]%Z))]).
  exists eucE, [(nA, 100%Z); (nB, 2%Z)], setup, 10, nA, nB, ns1, 5%Z, (marked [1]%Z).
  splits; [apply eucE_ok|reflexivity|apply marked_lives|discriminate|reflexivity|].
  assert (H : match serve_seq eucE setup (fresh [(nA, 100%Z); (nB, 2%Z)]) 0 with
    | Ok ((_, w), t) =>
        match exec (serve eucE nA (QSteal 10 nB ns1 5)) w t with
        | Ok ((ASteal 0 true, w'), _) => has_dp (marked [1]%Z) (data_at w' nB ns1)
        | _ => false end
    | _ => false end = true) by (vm_compute; reflexivity).
  unfold wp in *. destruct (serve_seq eucE setup (fresh [(nA, 100%Z); (nB, 2%Z)]) 0) as [[[xs w] t]| |]; try discriminate.
  cbn [fst snd] in *. destruct (exec (serve eucE nA (QSteal 10 nB ns1 5)) w t) as [[[x w'] t']| |]; try discriminate.
  destruct x as [| | | | | | |n ok| |]; try discriminate. destruct n; try discriminate. destruct ok; try discriminate.
  cbn [fst snd]. split; auto. apply has_dp_in; auto.
Qed.

(* Without the answers of the network, stolen centroids are gone. *)
Definition lossy_euc (k : nat) : Env f64 := plain_env (fun _ => 0%Z) (fun t => if t =? k then RespLost else Delivered) knn_euc kfn_euc.
Lemma lossy_euc_ok k : EnvOk (lossy_euc k).
Proof. apply plain_ok; [apply (knn_euc_ok f64_ord)|apply (kfn_euc_ok f64_ord)]. Qed.
Lemma steal_lost_refuted : exists (E : Env f64) ths setup fuel a b ns limit d, EnvOk E /\ never_expired E [d] /\ a <> b /\
  wp (serve_seq E setup (fresh ths)) 0 (fun r t => In (ns, d) (all_data (snd r)) /\
    wp (exec (serve E a (QSteal fuel b ns limit)) (snd r)) t (fun r' _ =>
      fst r' = ASteal 0 false /\ ~ In (ns, d) (all_data (snd r')))).
Proof.
  pose (setup := [(nB, QAdd ns1 (marked [1]%Z)); (nA, QAdd ns1 (dp [8]%Z))]).
  assert (Hk : exists k, match serve_seq (lossy_euc k) setup (fresh [(nA, 100%Z); (nB, 100%Z)]) 0 with
    | Ok ((_, w), t) => existsb (fun e => str_eqb (fst e) ns1 && dp_same (marked [1]%Z) (snd e)) (all_data w) &&
        match exec (serve (lossy_euc k) nA (QSteal 10 nB ns1 5)) w t with
        | Ok ((ASteal 0 false, w'), _) => forallb (fun e => unmarked (snd e)) (all_data w')
        | _ => false end
    | _ => false end = true) by (exists 4; vm_compute; reflexivity).
  destruct Hk as (k & H). exists (lossy_euc k), [(nA, 100%Z); (nB, 100%Z)], setup, 10, nA, nB, ns1, 5%Z, (marked [1]%Z).
  splits; [apply lossy_euc_ok|apply marked_lives|discriminate|].
  unfold wp in *. destruct (serve_seq (lossy_euc k) setup (fresh [(nA, 100%Z); (nB, 100%Z)]) 0) as [[[xs w] t]| |]; try discriminate.
  cbn [fst snd] in *. apply andb_prop in H. destruct H as (K & H). split; [apply has_tagged; auto|].
  destruct (exec (serve (lossy_euc k) nA (QSteal 10 nB ns1 5)) w t) as [[[x w'] t']| |]; try discriminate.
  destruct x as [| | | | | | |n ok| |]; try discriminate. destruct n; try discriminate. destruct ok; try discriminate.
  cbn [fst snd]. split; auto. apply unmarked_out2; auto.
Qed.

(* Two emptied centroids. *)
Lemma client_panic_refuted : exists (E : Env f64) ths setup b ns v n, EnvOk E /\ (forall k, e_fate E k = Delivered) /\ (0 <= n)%Z /\
  wp (serve_seq E setup (fresh ths)) 0 (fun r t => exec (c_nearest E b ns v n false) (snd r) t = Panic).
Proof.
  pose (setup := [(nB, QAdd ns1 (dp [1]%Z)); (nB, QAdd ns1 (dp [8]%Z)); (nB, QDrainUnordered ns1 2)]).
  exists eucE, [(nB, 2%Z)], setup, nB, ns1, (fv [1]%Z), 2%Z. splits; [apply eucE_ok|reflexivity|discriminate|].
  assert (H : match serve_seq eucE setup (fresh [(nB, 2%Z)]) 0 with
    | Ok ((_, w), t) => match exec (c_nearest eucE nB ns1 (fv [1]%Z) 2 false) w t with Panic => true | _ => false end
    | _ => false end = true) by (vm_compute; reflexivity).
  unfold wp. destruct (serve_seq eucE setup (fresh [(nB, 2%Z)]) 0) as [[[xs w] t]| |]; try discriminate.
  cbn [fst snd]. destruct (exec _ w t); try discriminate. auto.
Qed.
