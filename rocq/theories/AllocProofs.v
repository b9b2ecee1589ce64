(* Counts that are too large. *)
From Verif Require Import Base Num MathUtils Knn Env Centroid CManager DataSpec MgrSpec Wp NumFacts KnnProofs Proc Server ServerSpec ServerFacts SeqProofs Core EventLoop CoreSpec
  StealProofs SystemProofs Props05Lemmas Alloc AllocSpec.
From Coq Require Import Lia.

Section AllocProofs.
Context {N : Num}.

Lemma made_few n : few n -> made dp_size n = n.
Proof.
  unfold few, made, dp_size, max_alloc. intros H. destruct (Z.ltb_spec (2 ^ 48) (80 * n)); auto. change (2 ^ 48)%Z with 281474976710656%Z in *. lia.
Qed.
Lemma made_items n : few_items n -> made item_size n = n.
Proof.
  unfold few_items, made, item_size, max_alloc. intros H. destruct (Z.ltb_spec (2 ^ 48) (24 * n)); auto. change (2 ^ 48)%Z with 281474976710656%Z in *. lia.
Qed.
Lemma made_many n : ~ few n -> made dp_size n = (-1)%Z.
Proof.
  unfold few, made, dp_size, max_alloc. intros H. destruct (Z.ltb_spec (2 ^ 48) (80 * n)); auto. change (2 ^ 48)%Z with 281474976710656%Z in *. lia.
Qed.
Lemma made_many_items n : ~ few_items n -> made item_size n = (-1)%Z.
Proof.
  unfold few_items, made, item_size, max_alloc. intros H. destruct (Z.ltb_spec (2 ^ 48) (24 * n)); auto. change (2 ^ 48)%Z with 281474976710656%Z in *. lia.
Qed.

Lemma made_req_few (q : req N) : req_few q -> made_req q = q.
Proof. destruct q; cbn [req_few made_req]; intros H; rewrite ?made_few, ?made_items by auto; reflexivity. Qed.
Lemma made_job_few (j : job N) : job_few j -> made_job j = j.
Proof.
  destruct j as [a q|addrs b|addrs [[]|]|[] stop n]; cbn; intros H.
  - rewrite made_req_few; auto.
  - reflexivity.
  - rewrite made_few; auto.
  - reflexivity.
  - rewrite !made_few by tauto. reflexivity.
Qed.

Context (E : Env N).

Theorem within_limits : EnvOk E -> NumOrd N -> forall D w js sched t, WorldOk w -> DimsOk D w -> Jobs D w js -> Forall job_few js ->
  match interleave DIdle sched (map (run_made E) js) w t with
  | Ok ((_, w'), _) => WorldOk w' /\ DimsOk D w'
  | Panic => False
  | OutOfFuel => Exists may_steal js
  end.
Proof.
  intros HE HO D w js sched t Hw Hd Hj Hf.
  replace (map (run_made E) js) with (map (run_job E) js); [apply jobs_safe; auto|].
  apply map_ext_in. intros j Hi. unfold run_made. rewrite made_job_few; auto. rewrite Forall_forall in Hf. auto.
Qed.

Lemma panic_access {A B} a ns (f : CM N -> M (A * CM N)) g (k : option A -> proc' N B) (w : World N) t : WorldOk w ->
  manager w a ns <> None -> (forall m t, f m t = Panic) -> exec (call x <- access_g a ns f g; k x) w t = Panic.
Proof.
  intros Hw Hm Hf. rewrite exec_bind. unfold bind. rewrite exec_access_g by auto. destruct (manager w a ns); [|congruence]. rewrite Hf. reflexivity.
Qed.

Theorem too_large a q w t : (forall v pool k, (k < 0)%Z -> e_knn E v pool k = Panic) -> WorldOk w -> node_at w a <> None ->
  req_counts q -> ~ req_few q -> blind q \/ (exists ns, req_ns q = Some ns /\ manager w a ns <> None) -> exec (serve_made E a q) w t = Panic.
Proof.
  intros HE Hw Ha Hc Hf Hb. unfold serve_made.
  destruct q; cbn [req_few] in Hf; try (exfalso; apply Hf; exact I); cbn [made_req serve]; rewrite ?made_many, ?made_many_items by auto;
    unfold reply, h_drain_unordered, h_drain_ordered, h_knn_lookup, h_nearest, h_distribute_fast, h_distribute_accurate, access.
  3,4: unfold distribute_with; reflexivity.
  all: destruct Hb as [[]|(ns' & Hns & Hm)]; cbn [req_ns] in Hns; injection Hns as <-; apply panic_access; auto.
  intros m t'.   unfold cm_nearest, bind, lift. rewrite HE by lia. reflexivity.
Qed.

Theorem query_too_large : EnvOk E -> NumOrd N -> forall addrs o w t, WorldOk w -> ~ few (qo_n o) ->
  wp (exec (run_made E (JQuery addrs (Some o))) w) t (fun r _ => fst r = DQuery (Some (MkQuery (qo_ns o) (qo_accurate o) (qo_vec o) (-1) (qo_drain o))) Aborted [] /\ snd r = w).
Proof.
  intros HE HO addrs [ns acc v n drain] w t Hw Hf. unfold run_made. cbn [made_job] in *; cbn in Hf. rewrite made_many by auto. cbn [run_job].
  apply wp_exec_bind. eapply wp_mono; [apply (negative_query E HE HO); auto; cbn; lia|].
  intros [[r ds] w1] t1 (H1 & H2). cbn [fst snd] in *. injection H1 as -> ->. subst w1. apply wp_exec_ret. auto.
Qed.

End AllocProofs.
