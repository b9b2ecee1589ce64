(* Lemmas for Props06.v. *)
From Verif Require Import Base Num MathUtils Knn Env Centroid CManager DataSpec MgrSpec Wp NumFacts KnnProofs TestEnv Proc Owns
  Server ServerSpec ServerFacts TestWorld SeqProofs SeqProofs2 Core EventLoop CoreSpec CoreProofs SystemProofs Props04Lemmas Props05Lemmas
  LoopSpec LoopProofs LoopProofs2 Fetch FetchProofs Service.
From Coq.Init Require Import Byte.
Local Open Scope nat_scope.

(* ---- intervals ---- *)
Definition every (k : Z) : skips := MkSkips k k k k k k k k 1.

Lemma kth_loop_refuted : exists s k n, interval s k = 2%Z /\ (forall k', interval s k' <> 0%Z) /\
  runs k (schedule s (2 * n)) <> n.
Proof. exists (every 2), TExpire, 501. splits; [reflexivity|intros []; discriminate|vm_compute; discriminate]. Qed.

Lemma clamp1_range v : (1 <= clamp1 1 1000 v <= 1000)%Z.
Proof. unfold clamp1. cbv zeta. destruct (v <? 1)%Z eqn:H1; [cbn; lia|]. apply Z.ltb_ge in H1. destruct (1000 <? v)%Z eqn:H2; [|apply Z.ltb_ge in H2]; lia. Qed.
Lemma clamp1_id v : (1 <= v <= 1000)%Z -> clamp1 1 1000 v = v.
Proof. intros H. unfold clamp1. cbv zeta. rewrite (proj2 (Z.ltb_ge v 1)) by lia. rewrite (proj2 (Z.ltb_ge 1000 v)) by lia. auto. Qed.
Lemma clamp1_over v : (1000 < v)%Z -> clamp1 1 1000 v = 1000%Z.
Proof. intros H. unfold clamp1. cbv zeta. rewrite (proj2 (Z.ltb_ge v 1)) by lia. rewrite (proj2 (Z.ltb_lt 1000 v)) by lia. auto. Qed.
Lemma clamp1_under v : (v < 1)%Z -> clamp1 1 1000 v = 1%Z.
Proof. intros H. unfold clamp1. cbv zeta. rewrite (proj2 (Z.ltb_lt v 1)) by lia. auto. Qed.

Lemma validated c k : k <> TMeta ->
  let v := interval (el_skip c) k in let v' := interval (el_skip (validate c)) k in
  (1 <= v' <= 1000)%Z /\ ((1 <= v <= 1000)%Z -> v' = v) /\ ((v < 1)%Z -> v' = 1%Z) /\ ((1000 < v)%Z -> v' = 1000%Z).
Proof.
  intros Hk. destruct k; try congruence; cbn [interval validate el_skip clamp sk_expire sk_mem_trim sk_fast sk_accurate sk_internal sk_split sk_merge sk_balance];
    (splits; [apply clamp1_range|apply clamp1_range|apply clamp1_id|apply clamp1_under|apply clamp1_over]).
Qed.

Lemma validated_rest c : sk_meta (el_skip (validate c)) = sk_meta (el_skip c) /\
  el_local (validate c) = el_local c /\ el_remote (validate c) = el_remote c /\ validate (validate c) = validate c.
Proof.
  splits; auto. unfold validate, clamp. cbn [el_local el_remote el_skip el_fast_n el_accurate_n el_internal_n el_split_min el_split_max el_merge_min el_merge_max
    el_local_only el_fuel sk_expire sk_mem_trim sk_fast sk_accurate sk_internal sk_split sk_merge sk_balance sk_meta].
  rewrite !(clamp1_id (clamp1 1 1000 _)) by apply clamp1_range. auto.
Qed.

(* A task configured never to run is run in the first round. *)
Lemma over_1000_refuted : exists c k, (1000 < interval (el_skip c) k)%Z /\ forall n, runs k (schedule (el_skip (validate c)) (S n)) <> 0.
Proof.
  exists (MkEl nA [nA] (every 2000) 1 1 1 1 1 1 1 true 1), TExpire. split; [reflexivity|]. intros n.
  unfold schedule. rewrite <- cons_seq. cbn [flat_map]. unfold runs. rewrite filter_app, app_length. cbn. lia.
Qed.

(* No interval for Meta: the first round panics. *)
Lemma zero_meta {N : Num} (E : Env N) c stop n (w : World N) t : sk_meta (el_skip c) = 0%Z ->
  stop t = false -> stop (S t) = false -> stop (S (S t)) = false ->
  exec (event_loop E c stop (S n)) w t = Panic.
Proof.
  intros Hz H1 H2 H3. unfold event_loop. cbn [el_loop]. unfold read_stop. rewrite exec_bind. cbn [local exec].
  unfold bind, tick, ret. rewrite H1. rewrite exec_bind. unfold task_order at 1. cbn [el_steps]. rewrite exec_bind. unfold el_step at 1.
  rewrite exec_bind. cbn [local exec]. unfold bind, tick, ret. rewrite H2. rewrite exec_bind. cbn [local exec]. unfold bind, tick, ret. rewrite H3.
  unfold run_task, with_skip. cbn [interval validate el_skip clamp sk_meta]. rewrite Hz. reflexivity.
Qed.
Lemma zero_interval_refuted : exists (E : Env f64) c, EnvOk E /\ Forall (fun k => k <> TMeta -> interval (el_skip c) k = 1%Z) task_order /\
  forall w t, exec (event_loop E c (fun _ => false) 1) w t = Panic.
Proof.
  exists cosE, (MkEl nA [nA] (MkSkips 1 1 1 1 1 1 1 1 0) 1 1 1 1 1 1 1 true 1). splits; [apply cosE_ok| |].
  - repeat (apply Forall_cons || apply Forall_nil); intros H; auto; congruence.
  - intros w t. apply zero_meta; reflexivity.
Qed.

(* ---- stopping ---- *)
Lemma stopping (W L : Type) (body : Z -> task -> proc (LW W) L unit) B :
  (forall i k, quiet (body i k) /\ short B (body i k)) ->
  forall dflt before after n sched x t th x' t', Forall quiet before -> Forall quiet after ->
  interleave dflt sched (before ++ stoppable body n :: after) x t = Ok ((th, x'), t') ->
  late x' <= late x + (if flag x then 0 else 1) /\
  forall sched2 th2 x2 t2 p, flag x' = true -> nth_error th (length before) = Some p -> unfinished p ->
    interleave dflt sched2 th x' t' = Ok ((th2, x2), t2) ->
    (forall r, nth_error th2 (length before) = Some (Ret r) -> r = true) /\
    (B + 12 <= count_occ Nat.eq_dec sched2 (length before) -> nth_error th2 (length before) = Some (Ret true)).
Proof.
  intros Hb dflt before after n sched x t th x' t' H1 H2 Hr. eapply stop_ends; eauto.
  - intros i k. apply (Hb i k).
  - intros i k. apply (Hb i k).
Qed.

(* ---- balancing ---- *)
Lemma balance_pulls_ok got c naddrs mean todo lens t : el_remote c <> [] -> (0 <= mean)%Z -> NoDup (map fst todo) ->
  wp (exec (balance_loop (ask_log got) c naddrs mean (margin_of mean) todo lens) []) t
    (fun r _ => pulls c naddrs mean (margin_of mean) todo (len_at lens (el_local c)) (snd r) /\ NoDup (map asked_of (snd r))).
Proof. intros Hr Hm Hn. apply balance_asks; auto. apply margin_nonneg; auto. Qed.

Lemma namespace_table (N : Num) (E : Env N) : EnvOk E -> forall addrs (w : World N) t, WorldOk w ->
  wp (exec (poll E addrs []) w) t (fun r _ => snd r = w /\ exists answered, sublist answered addrs /\
    (all_delivered E -> answered = addrs) /\
    (forall ns, addrs_with (fst r) ns = filter (holds_ns w ns) answered) /\
    (forall ns, In ns (map fst (fst r)) <-> exists a, In a answered /\ holds_ns w ns a = true)).
Proof.
  intros HE addrs w t Hw. eapply wp_mono; [apply poll_alone; auto|]. intros r t' (H1 & ans & H2 & H3 & H4 & H5). split; auto.
  exists ans. splits; auto. intros ns. rewrite H5. cbn [map In]. split; [intros [[]|H]; auto|auto].
Qed.

(* ---- the shipped configuration ---- *)
Lemma fresh_ok {N : Num} (D : str -> nat -> Prop) ths : NoDup (map fst ths) -> WorldOk (fresh ths : World N) /\ DimsOk D (fresh ths : World N).
Proof.
  intros Hn. unfold WorldOk, DimsOk, fresh. cbn [w_nodes]. rewrite map_map. cbn [fst]. splits; auto.
  - intros a nd Hi. apply in_map_iff in Hi. destruct Hi as ([a' z] & He & _). injection He as <- <-. split; [constructor|]. intros ns p [].
  - intros a nd ns m Hi Hm. apply in_map_iff in Hi. destruct Hi as ([a' z] & He & _). injection He as <- <-. destruct Hm.
Qed.

Lemma shipped_runs now perm fates rnd addrs D fuel n stop hs sched t :
  (forall k m, Permutation (perm k m) (seq 0 m)) -> NoDup addrs -> one_dim D ->
  Forall (fun h => match h with HPut (Some o) => D (po_ns o) (length (wi_vec (po_dp o))) | _ => True end) hs ->
  match interleave DIdle sched
    (map (run_job (shipped_env now perm fates rnd)) (service_loops addrs fuel n stop ++ map (service_http addrs) hs)) (service_start addrs) t with
  | Ok ((_, w), _) => WorldOk w /\ DimsOk D w
  | Panic => False
  | OutOfFuel => addrs <> []
  end.
Proof.
  intros Hp Hn HD Hh. assert (HE : EnvOk (shipped_env now perm fates rnd)).
  { split; auto. split; [apply (knn_cos_ok f64_ord)|apply (kfn_cos_ok f64_ord)]. }
  assert (Hf : WorldOk (service_start addrs) /\ DimsOk D (service_start addrs)).
  { apply fresh_ok. rewrite map_map. cbn [fst]. rewrite map_id. auto. }
  destruct Hf as (Hw & Hd).
  pose proof (jobs_safe _ HE f64_ord D (service_start addrs) (service_loops addrs fuel n stop ++ map (service_http addrs) hs) sched t Hw Hd) as H.
  match type of H with ?P -> _ => assert (HJ : P) end.
  { unfold Jobs. apply Forall_app. split.
    - apply Forall_forall. intros j Hj. unfold service_loops in Hj. apply in_map_iff in Hj. destruct Hj as (a & <- & _). cbn [job_ok]. split; auto.
      unfold loop_ok. cbn. lia.
    - apply Forall_forall. intros j Hj. apply in_map_iff in Hj. destruct Hj as (h & <- & Hi). rewrite Forall_forall in Hh. specialize (Hh h Hi).
      destruct h as [[o|]|b]; cbn [service_http job_ok]; auto. }
  specialize (H HJ). destruct (interleave _ _ _ _ _) as [[[th w] t']| |]; auto.
  intros ->. apply Exists_exists in H. destruct H as (j & Hj & Hs). cbn [service_loops map app] in Hj. apply in_map_iff in Hj.
  destruct Hj as (h & <- & _). destruct h as [b|b]; exact Hs.
Qed.

Lemma shipped_valid a addrs fuel : validate (shipped a addrs fuel) = shipped a addrs fuel /\ loop_ok (shipped a addrs fuel).
Proof. split; [reflexivity|]. unfold loop_ok. cbn. lia. Qed.

Lemma shipped_period a addrs fuel :
  map (fun k => runs k (schedule (el_skip (shipped a addrs fuel)) 1001)) task_order = [1001; 51; 101; 334; 334; 334; 251; 126; 143].
Proof. vm_compute. reflexivity. Qed.

(* ---- a loop that does not list its own node ---- *)
Definition unlisted : el_cfg := MkEl nA [nB] (MkSkips 1 1 1 1 1 1 1 1 1) 1 1 1 1 3 (-1) 100 true 5.
Lemma unlisted_refuted : exists (E : Env f64) ths setup c sched d, EnvOk E /\ all_delivered E /\ never_expired E [d] /\ loop_ok c /\
  ~ In (el_local c) (el_remote c) /\
  wp (serve_seq E setup (fresh ths)) 0 (fun r t => In (ns1, d) (all_data (snd r)) /\
    wp (interleave DIdle sched [run_job E (JLoop c (fun _ => false) 1)] (snd r)) t (fun r' _ =>
      match fst r' with Ret (DLoop _) :: _ => True | _ => False end /\ all_data (snd r') = [] /\ w_dropped (snd r') = [(ns1, d)])).
Proof.
  set (sched := repeat 0 200). set (setup := [(nA, QAdd ns1 (marked [1]%Z))]). set (js := [run_job eucE (JLoop unlisted (fun _ => false) 1)]).
  exists eucE, [(nA, 2%Z); (nB, 2%Z)], setup, unlisted, sched, (marked [1]%Z).
  splits; [apply eucE_ok|intros k; reflexivity|apply marked_lives|unfold loop_ok; cbn; lia|intros [H|[]]; discriminate|].
  set (b := fun (r : list (ans f64) * World f64) (t : nat) => existsb (fun e => str_eqb ns1 (fst e) && has_dp (marked [1]%Z) [snd e]) (all_data (snd r)) &&
    match interleave DIdle sched js (snd r) t with
    | Ok ((Ret (DLoop _) :: _, w'), _) =>
        match all_data w', w_dropped w' with [], [(n, d)] => str_eqb ns1 n && has_dp (marked [1]%Z) [d] | _, _ => false end
    | _ => false end).
  assert (H : match serve_seq eucE setup (fresh [(nA, 2%Z); (nB, 2%Z)]) 0 with
              | Ok (r, t) => b r t | _ => false end = true) by (vm_compute; reflexivity).
  unfold wp at 1. destruct (serve_seq _ _ _ _) as [[r t]| |]; try discriminate. unfold b in H. apply andb_prop in H. destruct H as (H1 & H2). split.
  - apply existsb_exists in H1. destruct H1 as ([n d] & Hi & H1). apply andb_prop in H1. destruct H1 as (H1 & H3). cbn [fst snd] in *.
    apply str_eqb_eq in H1. apply has_dp_in in H3. destruct H3 as [<-|[]]. subst n. auto.
  - fold js. unfold wp. destruct (interleave DIdle sched js (snd r) t) as [[[th w'] t']| |]; try discriminate. cbn [fst snd].
    destruct th as [|[[q x|body h|body h ds|e|]| |] th]; try discriminate. split; auto.
    destruct (all_data w'); try discriminate. destruct (w_dropped w') as [|[n d] [|x l]]; try discriminate.
    apply andb_prop in H2. destruct H2 as (H2 & H3). apply str_eqb_eq in H2. apply has_dp_in in H3. destruct H3 as [<-|[]]. subst n. auto.
Qed.

Lemma over_1000_runs c k n : k <> TMeta -> (1000 < interval (el_skip c) k)%Z ->
  runs k (schedule (el_skip (validate c)) (1001 * n)) = 2 * n.
Proof.
  intros Hk H. destruct (validated c k Hk) as (Hv & _ & _ & H'). rewrite period_runs by auto. rewrite (H' H).
  change (Z.to_nat (1000 / 1000) + 1) with 2. lia.
Qed.
