(* Lemmas behind the theorems of Props05: the HTTP interface and whole systems. *)
From Verif Require Import Base Num MathUtils Knn SearchSpec Env Centroid CManager DataSpec MgrSpec Wp DataFacts NumFacts
  KnnProofs MathSpec TestEnv Proc Owns Server ServerSpec ServerFacts ServerProofs ClusterProofs
  SeqProofs SeqProofs2 StealProofs Alone TestWorld Core EventLoop CoreSpec CoreProofs SystemProofs CoreSeq.
From Coq.Init Require Import Byte.
Local Open Scope nat_scope.

Section Facts.
Context {N : Num} (E : Env N) (HE : EnvOk E) (HO : NumOrd N).
Notation DP := (DataPoint N).
Notation World := (World N).

(* ---- ranking ---- *)
Lemma ranked_answers dist asc answers addrs v l a : Ranked E dist asc answers addrs v l -> In a l -> exists u, answers a u.
Proof.
  intros (resp & rest & idx & _ & H1 & _ & _ & H2) Ha. assert (K : In a (map fst resp)).
  { clear - H2 Ha. induction H2 as [|i b idx l Hi H2 IH]; [destruct Ha|]. destruct Ha as [->|Ha]; auto. eapply nth_error_In; eauto. }
  apply in_map_iff in K. destruct K as ((b & u) & <- & K). exists u. rewrite Forall_forall in H1. apply (H1 _ K).
Qed.

(* Everyone that can be ranked is there. *)
Lemma ranked_all dist asc answers addrs v l a : Ranked E dist asc answers addrs v l -> all_delivered E ->
  (forall b u u', answers b u -> answers b u' -> u = u') ->
  In a addrs -> (exists u s, answers a u /\ dist v u = Some s /\ better asc s (sentinel asc) = true) -> In a l.
Proof.
  intros (resp & rest & idx & H1 & H2 & H3 & HB & H4) Hd Hu Ha (u & s & Hau & Hs & Hb).
  apply (Permutation_in _ (Permutation_sym H1)), in_app_iff in Ha. destruct Ha as [Ha|Ha].
  2:{ specialize (H3 Hd). rewrite Forall_forall in H3. exfalso. eapply H3; eauto. }
  apply In_nth_error in Ha. destruct Ha as (i & Hi). rewrite nth_error_map in Hi.
  destruct (nth_error resp i) as [[b u']|] eqn:Er; [|discriminate]. injection Hi as Hi. cbn [fst] in Hi. subst b.
  assert (u' = u). { rewrite Forall_forall in H2. eapply Hu; [|exact Hau]. apply (H2 _ (nth_error_In _ _ Er)). } subst u'.
  assert (Hin : In i idx).
  { destruct (in_dec Nat.eq_dec i idx); auto. exfalso.
    assert (Hl : length idx < length resp).
    { assert (Hnd := bk_nodup _ _ _ _ _ _ HB).
      assert (K : length (i :: idx) <= length (seq 0 (length resp))).
      { apply NoDup_incl_length; [constructor; auto|]. intros j Hj. apply in_seq. split; [lia|]. destruct Hj as [<-|Hj].
        - apply nth_error_Some. congruence.
        - destruct (bk_rankable _ _ _ _ _ _ HB j Hj) as (s' & x & Hx & _). cbn [plus]. rewrite <- (map_length snd).
          apply nth_error_Some. congruence. }
      rewrite seq_length in K. cbn [length] in K. lia. }
    apply n. apply (bk_all _ _ _ _ _ _ HB Hl i s). exists u. split; auto. rewrite nth_error_map, Er. auto. }
  clear - H4 Hin Er. induction H4 as [|j b idx l Hj H4 IH]; [destruct Hin|]. destruct Hin as [->|Hin]; [left|right; auto].
  rewrite nth_error_map, Er in Hj. cbn [option_map fst] in Hj. congruence.
Qed.

Lemma fast_vec_node (w : World) ns a u : fast_vec w ns a u -> node_at w a <> None.
Proof. intros (m & Hm & _) Hn. unfold manager in Hm. rewrite Hn in Hm. discriminate. Qed.
Lemma accurate_vec_node (w : World) ns v a u : accurate_vec E w ns v a u -> node_at w a <> None.
Proof. intros (m & i & idx & c & Hm & _) Hn. unfold manager in Hm. rewrite Hn in Hm. discriminate. Qed.
Lemma nodes_ranked_node (w : World) accurate addrs ns v l a : nodes_ranked E w accurate addrs ns v l -> In a l -> node_at w a <> None.
Proof.
  unfold nodes_ranked. intros H Ha.
  destruct accurate; destruct (ranked_answers _ _ _ _ _ _ _ H Ha) as (u & Hu); [eapply accurate_vec_node|eapply fast_vec_node]; eauto.
Qed.
Lemma nodes_ranked_incl (w : World) accurate addrs ns v l : nodes_ranked E w accurate addrs ns v l -> incl l addrs.
Proof. unfold nodes_ranked. intros H. destruct accurate; eapply ranked_incl; eauto. Qed.

Lemma best_fit_nodes dist asc (w : World) (accurate : bool) addrs ns v t : WorldOk w ->
  wp (exec (if accurate then best_fit_accurate E (knn_brute dist asc) addrs ns v
            else best_fit_fast E (knn_brute dist asc) addrs ns v) w) t
    (fun r _ => snd r = w /\
      Ranked E dist asc (if accurate then accurate_vec E w ns v else fast_vec w ns) addrs v (fst r) /\
      incl (fst r) addrs /\ (NoDup addrs -> NoDup (fst r)) /\
      (all_delivered E -> forall a, In a addrs ->
         (exists u s, (if accurate then accurate_vec E w ns v a u else fast_vec w ns a u) /\ dist v u = Some s /\ better asc s (sentinel asc) = true) -> In a (fst r))).
Proof.
  intros Hw. destruct accurate.
  - eapply wp_mono; [apply best_fit_accurate_spec; auto|]. intros [l w'] t' (_ & Hw' & H). cbn [fst snd] in *. splits; auto.
    + eapply ranked_incl; eauto.
    + eapply ranked_nodup; eauto.
    + intros Hd a Ha Hs. eapply ranked_all; eauto. intros b u u' (m & i & idx & c & H1 & H2 & H3 & -> & _) (m' & i' & idx' & c' & H1' & H2' & H3' & -> & _).
      congruence.
  - eapply wp_mono; [apply best_fit_fast_spec; auto|]. intros [l w'] t' (_ & Hw' & H). cbn [fst snd] in *. splits; auto.
    + eapply ranked_incl; eauto.
    + eapply ranked_nodup; eauto.
    + intros Hd a Ha Hs. eapply ranked_all; eauto. intros b u u' (m & H1 & -> & _) (m' & H1' & -> & _). congruence.
Qed.

(* ---- put ---- *)
Lemma added_only D addrs ns d (w : World) t w' t' : WorldOk w -> DimsOk D w -> D ns (length (dp_vec d)) ->
  added_once E addrs ns d w t w' t' -> exists a, In a addrs /\ node_at w a <> None /\ only w w' a ns.
Proof.
  intros Hw Hd Hns (pre & a & post & -> & _ & Hr & He). exists a. splits.
  - apply in_app_iff. right. left. auto.
  - apply Hr.
  - intros b n Hb. apply (alone_isolated E HE HO D a (QAdd ns d) w _ _ _ _ b n Hw Hd (proj1 Hr) I Hns) in He; auto.
    cbn. intros [H|[]]. congruence.
Qed.

Lemma put_once D addrs ns d (w : World) t : answers_arrive E -> WorldOk w -> DimsOk D w -> D ns (length (dp_vec d)) ->
  wp (exec (put_dp E addrs ns d) w) t (fun r t' =>
    if fst r then added_once E addrs ns d w t (snd r) t' /\ exists a, In a addrs /\ only w (snd r) a ns
    else snd r = w /\ forall i b, nth_error addrs i = Some b -> ~ reached E w b (t + i)).
Proof.
  intros Ha Hw Hd Hns. eapply wp_mono; [apply (put_dp_spec E HE HO D); auto|].
  intros [ok w'] t' [(H1 & H2)|(H1 & H2 & _ & H3)]; cbn [fst snd] in *; subst ok; auto.
  split; auto. destruct (added_only D addrs ns d w t w' t' Hw Hd Hns H2) as (a & K1 & _ & K2). eauto.
Qed.

Lemma all_arrive : all_delivered E -> answers_arrive E.
Proof. intros H k. rewrite H. discriminate. Qed.

Lemma put_reachable D addrs (o : put_opts N) (w : World) t : all_delivered E -> WorldOk w -> DimsOk D w ->
  D (po_ns o) (length (wi_vec (po_dp o))) -> (exists a, In a addrs /\ node_at w a <> None) ->
  wp (exec (put_http E addrs (Some o)) w) t (fun r t' => fst r = Http 200 None /\
    exists l t1 a, nodes_ranked E w (po_accurate o) addrs (po_ns o) (wi_vec (po_dp o)) l /\
      match l with
      | b :: _ => a = b
      | [] => In a addrs /\ node_at w a <> None
      end /\
      exec (serve E a (QAdd (po_ns o) (to_dp (po_dp o)))) w t1 = Ok ((ABool true, snd r), t')).
Proof.
  intros Hall Hw Hd Hns (a0 & Ha0 & Hn0). eapply wp_mono; [apply (put_http_spec E HE HO D); auto using all_arrive|].
  intros [h w'] t' (code & Hh & l & t1 & Hl & H). cbn [fst snd] in *. subst h.
  assert (Hre : forall b k, node_at w b <> None -> reached E w b k) by (intros b k Hb; split; auto).
  destruct H as [(-> & pre & a & post & Hp & H1 & H2 & H3)|(H1 & l' & t2 & Hl' & H2)].
  - split; auto. exists l, (S (t1 + length pre)), a. splits; auto. destruct pre as [|b pre].
    + cbn [app] in Hp. subst l. auto.
    + exfalso. apply (H1 0 b eq_refl). apply Hre. eapply nodes_ranked_node; eauto. subst l. left. auto.
  - assert (l = []).
    { destruct l as [|b l]; auto. exfalso. apply (H1 0 b eq_refl). apply Hre. eapply nodes_ranked_node; eauto. left; auto. }
    subst l. destruct H2 as [(-> & pre & a & post & Hp & K1 & K2 & K3)|(-> & _ & K)].
    + split; auto. exists [], (S (t2 + length pre)), a. split; [exact Hl|]. split; [split; [|apply K2]|exact K3].
      apply (Permutation_in _ Hl'). subst l'. apply in_app_iff. right. left. auto.
    + exfalso. apply (Permutation_in _ (Permutation_sym Hl')) in Ha0. apply In_nth_error in Ha0. destruct Ha0 as (i & Hi).
      apply (K i a0 Hi). auto.
Qed.

Lemma bad_body addrs (w : World) t :
  exec (put_http E addrs None) w t = Ok ((Http 400 None, w), t) /\
  exec (query_http E addrs None) w t = Ok ((Http 400 None, [], w), t).
Proof. split; reflexivity. Qed.

(* ---- query ---- *)
Lemma gather_dps D addrs ns v n drain (w : World) t : answers_arrive E -> WorldOk w -> DimsOk D w -> (0 <= n)%Z ->
  wp (exec (get_dps E addrs ns v n drain) w) t (fun r t' =>
    gathers E ns v drain addrs n w t (fst r) (snd r) t' /\
    (Z.of_nat (length (fst r)) <= n)%Z /\
    Forall (fun d => seen_live E t t' d /\ exists a, In a addrs /\ In d (data_at w a ns)) (fst r) /\
    keeps E t t' (all_data w) (all_data (snd r) ++ tag ns (if drain then fst r else []))).
Proof.
  intros Ha Hw Hd Hn. eapply wp_mono; [apply (get_dps_spec E HE HO D); auto|].
  intros [ds w'] t' (H1 & H2 & H3 & H4 & H5 & H6 & H7 & _). cbn [fst snd] in *. splits; auto.
  - rewrite Forall_forall in *. auto.
  - apply (gathers_conserves E HE HO D) in H2; auto. apply H2.
Qed.

Lemma negative_get addrs ns v n drain (w : World) t : (n < 0)%Z -> exec (get_dps E addrs ns v n drain) w t = Panic.
Proof. intros H. unfold get_dps. destruct (Z.ltb_spec n 0); [reflexivity|lia]. Qed.

Lemma negative_query addrs (o : query_opts N) (w : World) t : WorldOk w -> (qo_n o < 0)%Z ->
  wp (exec (query_http E addrs (Some o)) w) t (fun r _ => fst r = (Aborted, []) /\ snd r = w).
Proof.
  intros Hw Hn. cbn [query_http]. apply wp_exec_bind. eapply wp_mono; [apply (ranking_spec E HE HO); auto|].
  intros [l w1] t1 (_ & Hw1 & _). cbn [fst snd] in *. destruct (Z.ltb_spec (qo_n o) 0); [|lia]. apply wp_exec_ret. auto.
Qed.

Lemma marshal_some ds : Forall (@carries N) ds -> marshal (of_dps ds) = Some (of_dps ds).
Proof.
  intros H. unfold marshal. rewrite (proj2 (forallb_forall _ _)); auto. intros x Hx. apply in_map_iff in Hx.
  destruct Hx as (d & <- & Hd). rewrite Forall_forall in H. apply H; auto.
Qed.

Lemma query_answer D addrs (o : query_opts N) (w : World) t : answers_arrive E -> WorldOk w -> DimsOk D w -> (0 <= qo_n o)%Z ->
  (forall a, Forall carries (data_at w a (qo_ns o))) ->
  wp (exec (query_http E addrs (Some o)) w) t (fun r t' => exists found,
    fst (fst r) = Http 200 (Some (of_dps found)) /\
    (exists l t1, nodes_ranked E w (qo_accurate o) addrs (qo_ns o) (qo_vec o) l /\ t <= t1 /\
       gathers E (qo_ns o) (qo_vec o) (qo_drain o) l (qo_n o) w t1 found (snd r) t') /\
    (Z.of_nat (length found) <= qo_n o)%Z /\
    Forall (fun d => exists a, In a addrs /\ In d (data_at w a (qo_ns o))) found).
Proof.
  intros Ha Hw Hd Hn Hc. eapply wp_mono; [apply (query_http_spec E HE HO D); auto|].
  intros [[h ds] w'] t' (H1 & (l & t1 & H2 & H3 & H4 & H5 & H6) & H7 & H8 & _). cbn [fst snd] in *. exists ds. splits; auto.
  - rewrite H1, marshal_some; auto. apply Forall_forall. intros d Hin. rewrite Forall_forall in H8.
    destruct (H8 d Hin) as (a & _ & Hda). specialize (Hc a). rewrite Forall_forall in Hc. auto.
  - exists l, t1. auto.
Qed.
End Facts.

(* ---- what goes wrong ---- *)
Definition lossy (f : nat -> fate) : Env f64 := plain_env (fun _ => 0%Z) f knn_euc kfn_euc.
Lemma lossy_ok f : EnvOk (lossy f).
Proof. apply plain_ok; [apply (knn_euc_ok f64_ord)|apply (kfn_euc_ok f64_ord)]. Qed.
Definition lose_first (k : nat) : fate := if k =? 0 then RespLost else Delivered.

Lemma put_twice_refuted : exists (E : Env f64) ths addrs ns d, EnvOk E /\ NoDup addrs /\
  wp (exec (put_dp E addrs ns d) (fresh ths)) 0 (fun r _ => fst r = true /\
    exists a b, a <> b /\ In d (data_at (snd r) a ns) /\ In d (data_at (snd r) b ns)).
Proof.
  exists (lossy lose_first), [(nA, 2%Z); (nB, 2%Z)], [nA; nB], ns1, (marked [1]%Z). splits.
  - apply lossy_ok.
  - apply distinct_nodup. reflexivity.
  - apply (check_wp _ _ _ (fun r => fst r && has_dp (marked [1]%Z) (data_at (snd r) nA ns1) && has_dp (marked [1]%Z) (data_at (snd r) nB ns1)));
      [|vm_compute; reflexivity].
    intros [ok w] H. cbn [fst snd] in *. apply andb_prop in H. destruct H as (H & H2). apply andb_prop in H. destruct H as (H0 & H1).
    split; auto. exists nA, nB. splits; [discriminate|apply has_dp_in; auto|apply has_dp_in; auto].
Qed.

(* Answered 500 although the datapoint has been stored. *)
Lemma failed_put_refuted : exists (E : Env f64) ths addrs (o : put_opts f64), EnvOk E /\
  wp (exec (put_http E addrs (Some o)) (fresh ths)) 0 (fun r _ => fst r = Http 500 None /\
    exists a, In (to_dp (po_dp o)) (data_at (snd r) a (po_ns o))).
Proof.
  exists (lossy (fun _ => RespLost)), [(nA, 2%Z)], [nA], (MkPut ns1 false (of_dp (marked [1]%Z))). split; [apply lossy_ok|].
  apply (check_wp _ _ _ (fun r => match fst r with Http s None => Z.eqb s 500 && has_dp (marked [1]%Z) (data_at (snd r) nA ns1) | _ => false end));
    [|vm_compute; reflexivity].
  intros [h w] H. cbn [fst snd] in *. destruct h as [s [b|]|]; try discriminate.
  apply andb_prop in H. destruct H as (H1 & H2). apply Z.eqb_eq in H1. subst s. split; auto. exists nA. apply has_dp_in. auto.
Qed.

(* A query whose answer is lost takes its datapoints with it. *)
Lemma drained_query_refuted : exists (E : Env f64) ths setup addrs ns v n d, EnvOk E /\ never_expired E [d] /\
  wp (serve_seq E setup (fresh ths)) 0 (fun r t => In d (data_at (snd r) nA ns) /\
    wp (exec (get_dps E addrs ns v n true) (snd r)) t (fun r' _ =>
      fst r' = [] /\ ~ In (ns, d) (all_data (snd r')) /\ ~ In (ns, d) (w_dropped (snd r')))).
Proof.
  exists (lossy (fun _ => RespLost)), [(nA, 2%Z)], [(nA, QAdd ns1 (marked [1]%Z))], [nA], ns1, (fv [1]%Z), 5%Z, (marked [1]%Z).
  splits; [apply lossy_ok|apply marked_lives|].
  set (b := fun (r : list (ans f64) * World f64) (t : nat) => has_dp (marked [1]%Z) (data_at (snd r) nA ns1) &&
    match exec (get_dps (lossy (fun _ => RespLost)) [nA] ns1 (fv [1]%Z) 5%Z true) (snd r) t with
    | Ok (([], w'), _) => forallb (fun e => unmarked (snd e)) (all_data w') && forallb (fun e => unmarked (snd e)) (w_dropped w')
    | _ => false end).
  assert (H : match serve_seq (lossy (fun _ => RespLost)) [(nA, QAdd ns1 (marked [1]%Z))] (fresh [(nA, 2%Z)]) 0 with
              | Ok (r, t) => b r t | _ => false end = true) by (vm_compute; reflexivity).
  unfold wp at 1. destruct (serve_seq _ _ _ _) as [[r t]| |]; try discriminate. unfold b in H. apply andb_prop in H. destruct H as (H1 & H2).
  split; [apply has_dp_in; auto|]. unfold wp. destruct (exec _ _ _) as [[[[|x ds] w'] t']| |]; try discriminate.
  apply andb_prop in H2. destruct H2 as (H2 & H3). cbn [fst snd]. splits; auto; apply unmarked_out2; auto.
Qed.

(* Of a datapoint whose expiry is past the year 9999 no JSON can be made: the answer is 200
   and empty, and the datapoint is gone. *)
Definition far : DataPoint f64 := MkDP (fv [1]%Z) [] (253402300800 * 10 ^ 9)%Z true.
Lemma unanswered_query_refuted : exists (E : Env f64) ths setup addrs (o : query_opts f64) d, EnvOk E /\ all_delivered E /\
  never_expired E [d] /\ qo_drain o = true /\
  wp (serve_seq E setup (fresh ths)) 0 (fun r t => In d (data_at (snd r) nA (qo_ns o)) /\
    wp (exec (query_http E addrs (Some o)) (snd r)) t (fun r' _ =>
      fst (fst r') = Http 200 None /\ all_data (snd r') = [] /\ w_dropped (snd r') = [])).
Proof.
  exists eucE, [(nA, 2%Z)], [(nA, QAdd ns1 far)], [nA], (MkQuery ns1 false (fv [1]%Z) 5%Z true), far.
  splits; [apply eucE_ok|intros k; reflexivity|intros k d [<-|[]]; reflexivity|reflexivity|].
  set (b := fun (r : list (ans f64) * World f64) (t : nat) => has_dp far (data_at (snd r) nA ns1) &&
    match exec (query_http eucE [nA] (Some (MkQuery ns1 false (fv [1]%Z) 5%Z true))) (snd r) t with
    | Ok ((h, _, w'), _) => match h with Http s None => Z.eqb s 200 | _ => false end &&
        match all_data w', w_dropped w' with [], [] => true | _, _ => false end
    | _ => false end).
  assert (H : match serve_seq eucE [(nA, QAdd ns1 far)] (fresh [(nA, 2%Z)]) 0 with
              | Ok (r, t) => b r t | _ => false end = true) by (vm_compute; reflexivity).
  unfold wp at 1. destruct (serve_seq _ _ _ _) as [[r t]| |]; try discriminate. unfold b in H. apply andb_prop in H. destruct H as (H1 & H2).
  split; [apply has_dp_in; auto|]. unfold wp. destruct (exec _ _ _) as [[[[h ds] w'] t']| |]; try discriminate.
  apply andb_prop in H2. destruct H2 as (H2 & H3). cbn [fst snd]. destruct h as [s [bd|]|]; try discriminate.
  apply Z.eqb_eq in H2. subst s. destruct (all_data w'), (w_dropped w'); try discriminate. auto.
Qed.

Lemma conversion (N : Num) : (forall x : wire N, of_dp (to_dp x) = x) /\
  (forall d : DataPoint N, to_dp (of_dp d) = d) /\
  (forall (ds : list (DataPoint N)) i d, nth_error ds i = Some d ->
     exists x, nth_error (of_dps ds) i = Some x /\ wi_vec x = dp_vec d /\ wi_payload x = dp_payload d /\
       wi_expires x = dp_expires d /\ wi_expire_enabled x = dp_expire_enabled d) /\
  (forall ds : list (DataPoint N), length (of_dps ds) = length ds).
Proof.
  splits.
  - intros []; reflexivity.
  - intros []; reflexivity.
  - intros ds i d H. unfold of_dps. rewrite nth_error_map, H. cbn [option_map]. eexists. splits; reflexivity.
  - intros ds. apply map_length.
Qed.
