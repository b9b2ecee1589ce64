(* Concrete cases for Props11. *)
From Verif Require Import Base Num MathUtils Knn SearchSpec Env Centroid CManager DataSpec MgrSpec Wp NumFacts KnnProofs MathSpec
  TestEnv Proc Owns Server ServerSpec ServerFacts TestWorld Core EventLoop CoreSpec QuerySpec Props03Lemmas LockCase LinearCase.
From Coq.Init Require Import Byte.
Local Open Scope nat_scope.

Definition rank_ok (v u : vec f64) : bool :=
  match cosine_similarity v u with Some s => better false s (sentinel false) | None => false end.
Definition lasting (d : DataPoint f64) : bool := negb (dp_expire_enabled d).
Definition sight_ok (v : vec f64) (m : CM f64) : bool :=
  forallb lasting (stored (cm_cs m)) && forallb (rank_ok v) (map c_vec (cm_cs m)) &&
  forallb (fun c => match c_dps c with [] => false | _ => true end && forallb (rank_ok v) (map dp_vec (c_dps c))) (cm_cs m).
Definition mgr_ok (v : vec f64) (m : CM f64) : bool :=
  match cm_vec m with [] => false | _ => rank_ok v (cm_vec m) end && sight_ok v m.
Definition sees_ok (w : World f64) (addrs : list str) (o : query_opts f64) : bool :=
  (Z.of_nat (length (data_on w addrs (qo_ns o))) <=? qo_n o)%Z && negb (qo_accurate o) &&
  forallb (fun a => match manager w a (qo_ns o) with None => true | Some m => mgr_ok (qo_vec o) m end) addrs &&
  forallb (fun e => forallb (fun d => encodable (of_dp d)) (data_at w (fst e) (qo_ns o))) (w_nodes w).

Lemma rank_all v pool : forallb (rank_ok v) pool = true -> ranks_all (e_knn cosE) v pool.
Proof.
  intros H. apply all_rankable_check in H. intros k idx Hk Hi.
  destruct (knn_brute_bestk (N := f64) f64_ord cosine_similarity false v pool k Hk) as (idx' & Hi' & Hb).
  change (knn_brute cosine_similarity false v pool k = Ok idx) in Hi. rewrite Hi in Hi'. injection Hi' as ->. apply (bestk_length _ _ _ _ _ _ Hb H).
Qed.
Lemma lasting_ok l : forallb lasting l = true -> never_expired cosE l.
Proof.
  intros H k d Hd. apply (proj1 (forallb_forall _ _) H) in Hd. unfold lasting in Hd. unfold expired_at.
  destruct (dp_expire_enabled d); [discriminate|reflexivity].
Qed.
Lemma sight_check v m : sight_ok v m = true -> in_sight cosE v m.
Proof.
  unfold sight_ok. intros H. apply andb_prop in H. destruct H as (H & H3). apply andb_prop in H. destruct H as (H1 & H2).
  split; [apply lasting_ok; auto|]. split; [apply rank_all; auto|]. apply Forall_forall. intros c Hc.
  apply (proj1 (forallb_forall _ _) H3) in Hc. apply andb_prop in Hc. destruct Hc as (K1 & K2).
  split; [destruct (c_dps c); congruence|apply rank_all; auto].
Qed.
Lemma sees_check w addrs o : sees_ok w addrs o = true -> sees_all cosE w addrs o.
Proof.
  unfold sees_ok. intros H. apply andb_prop in H. destruct H as (H & H4). apply andb_prop in H. destruct H as (H & H3).
  apply andb_prop in H. destruct H as (H1 & H2). split; [apply Z.leb_le; auto|]. split.
  - intros a m Ha Hm. apply (proj1 (forallb_forall _ _) H3) in Ha. rewrite Hm in Ha. unfold mgr_ok in Ha.
    apply andb_prop in Ha. destruct Ha as (K1 & K2). split; [|apply sight_check; auto].
    destruct (qo_accurate o); [discriminate|]. destruct (cm_vec m) as [|x u] eqn:Hv; [discriminate|]. unfold rank_ok in K1.
    destruct (cosine_similarity (qo_vec o) (x :: u)) as [s|] eqn:Hs; [|discriminate].
    exists (x :: u), s. splits; auto. exists m. splits; auto. congruence.
  - intros a. unfold data_at, centroids_at. destruct (manager w a (qo_ns o)) as [m|] eqn:Hm; [|constructor].
    assert (Hn : exists nd, In (a, nd) (w_nodes w)).
    { unfold manager, node_at in Hm. destruct (assoc a (w_nodes w)) as [nd|] eqn:Ha; [|discriminate]. exists nd. apply assoc_in; auto. }
    destruct Hn as (nd & Hn). apply (proj1 (forallb_forall _ _) H4) in Hn. cbn [fst] in Hn. unfold data_at, centroids_at in Hn.
    rewrite Hm in Hn. apply Forall_forall. intros d Hd. apply (proj1 (forallb_forall _ _) Hn) in Hd. exact Hd.
Qed.

(* Two nodes; the third does not exist. *)
Definition five : World f64 := after cosE
  (map (fun l => (nA, QAdd ns2 (dp l))) [[9;1]; [8;1]; [7;2]]%Z ++ map (fun l => (nB, QAdd ns2 (dp l))) [[1;7]; [1;9]]%Z)
  (fresh [(nA, 3%Z); (nB, 3%Z)]).
Definition everywhere : list str := [nB; ns1; nA].
Definition wanted (n : Z) (drain : bool) : query_opts f64 := MkQuery ns2 false (fv [3;4]%Z) n drain.

(* The answers of a call, and how many datapoints node A has afterwards, with each fate. *)
Definition with_fate (f : fate) : Env f64 := plain_env (fun _ => 0%Z) (fun _ => f) knn_cos kfn_cos.
Definition then_len {R} (c : proc' f64 R) : outcome (R * nat) :=
  match exec c five 0 with Ok ((r, w), _) => Ok (r, length (data_at w nA ns2)) | Panic => Panic | OutOfFuel => OutOfFuel end.
Definition counted_call (f : fate) := then_len (pbind (c_drain_u (with_fate f) nA ns2 2) (fun ds => Ret (length ds))).

(* One centroid with three datapoints. *)
Definition single : World f64 := after cosE (map (fun l => (nA, QAdd ns2 (dp l))) [[1;9]; [8;1]; [3;5]]%Z) (fresh [(nA, 4%Z)]).
Definition the_cm (w : World f64) : CM f64 := match manager w nA ns2 with Some m => m | None => MkCM [] [] 0%Z end.
Definition the_c (w : World f64) : Centroid f64 := match cm_cs (the_cm w) with c :: _ => c | [] => MkC [] [] end.
Definition single_ok (w : World f64) : bool :=
  match manager w nA ns2 with Some m => match cm_cs m with [_] => true | _ => false end | None => false end.
Lemma single_check w : single_ok w = true -> manager w nA ns2 = Some (the_cm w) /\ cm_cs (the_cm w) = [the_c w].
Proof.
  unfold single_ok, the_c, the_cm. destruct (manager w nA ns2) as [m|]; [|discriminate].
  destruct (cm_cs m) as [|c [|c' l]]; try discriminate. auto.
Qed.

(* The vectors in an answer. *)
Definition body (h : http f64) : option (list (vec f64)) :=
  match h with Http 200 (Some ds) => Some (map wi_vec ds) | _ => None end.
Definition status (h : http f64) : option Z := match h with Http z _ => Some z | Aborted => None end.
Definition vecs (l : list (DataPoint f64)) : list (vec f64) := map dp_vec l.

Definition takers_ok (w : World f64) (addrs : list str) (ns : str) (d : DataPoint f64) : bool :=
  forallb (fun a => match manager w a ns with None => true | Some m =>
    match cm_cs m with [] => true | _ => match knn_cos (dp_vec d) (map c_vec (cm_cs m)) 1%Z with Ok (_ :: _) => true | _ => false end end end) addrs.
Lemma takers_check w addrs ns d : takers_ok w addrs ns d = true -> takers cosE w addrs ns d.
Proof.
  intros H a m Ha Hm. apply (proj1 (forallb_forall _ _) H) in Ha. rewrite Hm in Ha.
  destruct (cm_cs m) as [|c l]; [auto|]. right. change (e_knn cosE) with (knn_cos (N := f64)).
  destruct (knn_cos _ _ _) as [[|i idx]| |]; try discriminate. eauto.
Qed.

(* A datapoint to put. *)
Definition newcomer : put_opts f64 := MkPut ns2 false (of_dp (dp [4;4]%Z)).
Definition joined : World f64 := match exec (put_http cosE everywhere (Some newcomer)) five 0 with Ok ((_, w), _) => w | _ => five end.

Lemma not_nearest : exists (E : Env f64) (w : World f64) a (o : query_opts f64) (d d' : DataPoint f64) s s',
  EnvOk E /\ all_delivered E /\ WorldOk w /\ DimsOk (dims_are dim2) w /\ qo_n o = 1%Z /\
  In d (data_on w [a] (qo_ns o)) /\
  wp (exec (query_http E [a] (Some o)) w) 0 (fun r _ => body (fst (fst r)) = Some [dp_vec d']) /\
  cosine_similarity (qo_vec o) (dp_vec d) = Some s /\ cosine_similarity (qo_vec o) (dp_vec d') = Some s' /\
  better false s s' = true.
Proof.
  exists cosE, threes, nA, (MkQuery ns2 false (fv [8;1]%Z) 1 false), (dp [8;1]%Z), (dp [9;1]%Z).
  destruct (cosine_similarity (N := f64) (fv [8;1]%Z) (fv [8;1]%Z)) as [s|] eqn:H1; [|exfalso; vm_compute in H1; discriminate].
  destruct (cosine_similarity (N := f64) (fv [8;1]%Z) (fv [9;1]%Z)) as [s'|] eqn:H2; [|exfalso; vm_compute in H2; discriminate].
  exists s, s'.
  assert (H3 : match cosine_similarity (N := f64) (fv [8;1]%Z) (fv [8;1]%Z), cosine_similarity (N := f64) (fv [8;1]%Z) (fv [9;1]%Z) with
               | Some x, Some y => better false x y | _, _ => false end = true) by (vm_compute; reflexivity).
  rewrite H1, H2 in H3.
  splits; [apply cosE_ok|intros k; reflexivity|apply world_check; vm_compute; reflexivity|apply dims_check; vm_compute; reflexivity|
    reflexivity|apply has_dp_in; vm_compute; reflexivity|vm_compute; reflexivity|exact H1|exact H2|exact H3].
Qed.
