(* Lemmas for the theorems of Props13. *)
From Verif Require Import Base Num MathUtils Knn Env Centroid CManager DataSpec MgrSpec Wp NumFacts KnnProofs MathSpec TestEnv Proc Owns
  Server ServerSpec ServerFacts TestWorld Core EventLoop CoreSpec Props05 Props06 LoopSpec Service TaskSpec TaskProofs ThreshProofs
  Log LogSpec LogProofs.
From Coq.Init Require Import Byte.
Local Open Scope nat_scope.

Lemma shipped_requests a addrs fuel ns to :
  map (fun k => upkeep (N := f64) (shipped a addrs fuel) k ns) [TExpire; TMemTrim; TMerge; TSplit; TInternal] =
    [Some (QExpire ns); Some (QMemTrim ns); Some (QMerge ns (-1) 100); Some (QSplit ns 1000 1000000); Some (QDistributeInternal ns 200)] /\
  map (fun k => sending (N := f64) (shipped a addrs fuel) k ns to) [TFast; TAccurate] =
    [Some (QDistributeFast ns 100 to); Some (QDistributeAccurate ns 50 to)] /\
  el_local_only (shipped a addrs fuel) = true /\ el_local (shipped a addrs fuel) = a /\ el_remote (shipped a addrs fuel) = addrs.
Proof. splits; reflexivity. Qed.

Lemma assoc_const {A} (x : A) a : forall addrs y, assoc a (map (fun b => (b, x)) addrs) = Some y -> y = x.
Proof. induction addrs as [|b r IH]; cbn [map assoc]; intros y; [discriminate|]. destruct (str_eqb a b); auto. intros H. congruence. Qed.

Lemma shipped_thresholds now perm fates rnd addrs fuel n stop hs sched t l w t' :
  interleave DIdle sched
    (map (run_job (shipped_env now perm fates rnd)) (service_loops addrs fuel n stop ++ map (service_http addrs) hs)) (service_start addrs) t = Ok ((l, w), t') ->
  forall a ns m, manager w a ns = Some m -> cm_thresh m = 10000%Z.
Proof.
  intros H a ns m Hm. pose proof (threshold_stays _ _ _ _ _ _ _ _ _ H a ns m Hm) as Ht. apply assoc_const in Ht. exact Ht.
Qed.

(* A node that is not in its own list of addresses. *)
Definition outside : el_cfg := MkEl nC [nA; nB] (MkSkips 1 1 1 1 1 1 1 1 1) 1 1 1 1 3 (-1) 100 true 5.
Lemma outside_silent : exists (E : Env f64) c w, EnvOk E /\ all_delivered E /\ WorldOk w /\ node_at w (el_local c) <> None /\
  wp (exec (metas E (pull_from c) []) w) 0 (fun r _ => forall s, log_task (log_meta (default_logger c) (fst r)) s = []).
Proof.
  exists cosE, outside, abc. splits; [exact cosE_ok|intros k; reflexivity|apply world_check; vm_compute; reflexivity|
    apply node_check; vm_compute; reflexivity|].
  assert (Hw : WorldOk abc) by (apply world_check; vm_compute; reflexivity).
  eapply wp_mono; [apply (metas_told cosE cosE_ok abc Hw (pull_from outside) [])|]. intros [items w] t (_ & Hi & _) s. cbn [fst] in *.
  rewrite lines_cons; [reflexivity|]. intros ->. specialize (Hi eq_refl). discriminate.
Qed.

(* The answer of node A is lost: the log shows it without namespaces. *)
Definition deafE : Env f64 := plain_env (fun _ => 0%Z) (fun k => if k =? 0 then ReqLost else Delivered) knn_cos kfn_cos.
Definition all_of : el_cfg := MkEl nA [nA; nB] (MkSkips 1 1 1 1 1 1 1 1 1) 1 1 1 1 3 (-1) 100 false 5.
Lemma deaf_untold : exists (E : Env f64) c w, EnvOk E /\ WorldOk w /\ NoDup (el_remote c) /\ In (el_local c) (el_remote c) /\
  wp (exec (metas E (pull_from c) []) w) 0 (fun r _ => snd r = w /\ forall s, exists l,
    In l (log_task (log_meta (default_logger c) (fst r)) s) /\ ~ tells w l).
Proof.
  exists deafE, all_of, abc.
  assert (Hm : match manager abc nA ns2 with Some _ => true | None => false end = true) by (vm_compute; reflexivity).
  assert (H : wp (exec (metas deafE (pull_from all_of) []) abc) 0 (fun r _ => match assoc nA (fst r) with Some [] => true | _ => false end = true))
    by (vm_compute; reflexivity).
  assert (Hw : WorldOk abc) by (apply world_check; vm_compute; reflexivity).
  assert (HE : EnvOk deafE) by (apply plain_ok; [apply (knn_cos_ok f64_ord)|apply (kfn_cos_ok f64_ord)]).
  splits; [exact HE|exact Hw|apply distinct_nodup; reflexivity|left; reflexivity|].
  pose proof (metas_told deafE HE abc Hw (pull_from all_of) [] 0) as Hs.
  eapply wp_mono; [apply (wp_conj _ _ _ _ H Hs)|]. clear H Hs. cbv beta. intros [items w] t (H & Hs). cbn [fst snd] in *.
  destruct Hs as (-> & _). split; auto. intros s. exists (NodeLine nA 0 0 0 (Some s)). split.
  - destruct items as [|e items]; [discriminate H|]. unfold log_task, log_meta, default_logger. cbn [lg_items lg_local_only lg_local lg_global all_of
      el_local_only el_local el_remote flat_map andb app]. left. destruct (assoc nA (e :: items)) as [[|]|]; [reflexivity|discriminate H|discriminate H].
  - intros (nss & _ & Hn & Hl & _). destruct (manager abc nA ns2) eqn:Hma; [|discriminate Hm].
    assert (Hi : In ns2 nss) by (apply Hn; congruence). destruct nss; [destruct Hi|discriminate Hl].
Qed.
