(* Property C108: emptying a node, or starting it again, while the system is at work. *)
From Verif Require Import Base Num MathUtils Knn Env Centroid CManager DataSpec MgrSpec Wp NumFacts MathSpec TestEnv Proc Owns
  Server ServerSpec ServerFacts TestWorld Core EventLoop CoreSpec Props05Lemmas Props05 MixCase OriginSpec OriginProofs CopiesProofs LossProofs
  Props15 Reset ResetProofs ResetCopies ResetCase.
Local Open Scope nat_scope.

(* ---- C108 ---- *)
(* Alone: the node has no namespace any more, the others have what they had. *)
Theorem C108_forgets : forall (N : Num) a (w : World N) t,
  wp (exec (run_reset a) w) t (fun r t' => t' = t /\ forall b ns,
    (b = a -> manager (snd r) b ns = None) /\ (b <> a -> manager (snd r) b ns = manager w b ns)).
Proof. exact @reset_alone. Qed.
Print Assumptions C108_forgets.

(* Whenever nodes are emptied, nothing panics, *)
Theorem C108_no_crash : forall (N : Num) (E : Env N), EnvOk E -> NumOrd N -> forall D w js rs sched t,
  WorldOk w -> OwnDims D w -> AnyJobs D w js ->
  match interleave DIdle sched (with_resets E js rs) w t with
  | Ok ((_, w'), _) => WorldOk w' /\ OwnDims D w'
  | Panic => False
  | OutOfFuel => Exists may_steal js
  end.
Proof. exact @r_safe. Qed.
Print Assumptions C108_no_crash.

(* everything that does not steal can end, *)
Theorem C108_complete : forall (N : Num) (E : Env N), EnvOk E -> NumOrd N -> forall D w js rs sched t,
  WorldOk w -> OwnDims D w -> AnyJobs D w js -> Forall (fun j => ~ may_steal j) js ->
  match interleave DIdle sched (with_resets E js rs) w t with
  | Ok ((th, w'), t') => exists sched2 ds w2 t2,
      interleave DIdle sched2 th w' t' = Ok ((map (fun d => Ret d) ds, w2), t2)
  | _ => False
  end.
Proof. exact @r_finish. Qed.
Print Assumptions C108_complete.

(* a place on another node that no job works on does not change, *)
Theorem C108_others : forall (N : Num) (E : Env N), EnvOk E -> NumOrd N -> forall D w js rs sched t th w' t' a ns,
  WorldOk w -> OwnDims D w -> AnyJobs D w js -> ~ In a rs -> Forall (fun j => ~ touches D j a ns) js ->
  interleave DIdle sched (with_resets E js rs) w t = Ok ((th, w'), t') ->
  manager w' a ns = manager w a ns.
Proof. exact @r_others. Qed.
Print Assumptions C108_others.

(* and on the other nodes all data stays in sight, if the namespaces that are worked on exist. *)
Theorem C108_visible : forall (N : Num) (E : Env N), EnvOk E -> NumOrd N -> forall D w js rs sched t th w' t' b nd,
  WorldOk w -> NoOrphans w -> OwnDims D w -> AnyJobs D w js ->
  Forall (fun j => forall b n, touches D j b n -> node_at w b <> None -> In b rs \/ manager w b n <> None) js ->
  interleave DIdle sched (with_resets E js rs) w t = Ok ((th, w'), t') ->
  ~ In b rs -> node_at w' b = Some nd -> Permutation (node_visible nd) (node_data nd).
Proof. exact @r_visible. Qed.
Print Assumptions C108_visible.

(* Data gets out of sight on the nodes that were emptied, but it does not get lost between nodes
   and is not mixed up. *)
Theorem C108_conservation : forall (N : Num) (E : Env N), EnvOk E -> NumOrd N -> forall D w js rs sched t ds w' t',
  WorldOk w -> OwnDims D w -> AnyJobs D w js -> answers_arrive E ->
  interleave DIdle sched (with_resets E js rs) w t = Ok ((map (fun d => Ret d) ds, w'), t') ->
  exists dropped, w_dropped w' = w_dropped w ++ dropped /\
    keeps E t t' (all_data w ++ jobs_in js) (all_data w' ++ jobs_out ds ++ dropped).
Proof. exact @r_conserve. Qed.
Print Assumptions C108_conservation.

(* The same with a network that loses messages, as it does when nodes go away. *)
Theorem C108_nothing_made_up : forall (N : Num) (E : Env N) jobs rs sched t w l w' t', WorldOk w ->
  interleave DIdle sched (with_resets E jobs rs) w t = Ok ((l, w'), t') ->
  let known := all_data w ++ w_dropped w ++ jobs_in jobs in
  incl (all_data w') known /\ incl (w_dropped w') known /\ (forall x, In (Ret x) l -> incl (shown x) known).
Proof. exact @reset_made_up. Qed.
Print Assumptions C108_nothing_made_up.

Theorem C108_copies : forall (N : Num) (E : Env N), EnvOk E -> forall f jobs rs sched t w l w' t',
  WorldOk w -> OwnDims any_dim w -> Forall job_counts jobs ->
  interleave DIdle sched (with_resets E jobs rs) w t = Ok ((l, w'), t') ->
  members f (all_data w') + members f (w_dropped w') + members f (jobs_out (ended l)) <=
  members f (all_data w) + members f (w_dropped w) + members f (jobs_in jobs) + answers_lost E t t'.
Proof. exact @reset_copies. Qed.
Print Assumptions C108_copies.

Theorem C108_nothing_lost : forall (N : Num) (E : Env N), EnvOk E -> forall f jobs rs sched t w l w' t', lives E f ->
  WorldOk w -> OwnDims any_dim w -> Forall job_counts jobs -> Forall nothing_drained jobs ->
  interleave DIdle sched (with_resets E jobs rs) w t = Ok ((l, w'), t') -> Forall is_ret l ->
  members f (all_data w) + members f (w_dropped w) + members f (jobs_in jobs) <=
  members f (all_data w') + members f (w_dropped w') + members f (jobs_out (ended l)).
Proof. exact @reset_nothing_lost. Qed.
Print Assumptions C108_nothing_lost.

(* A put, a query, a distribution and a draining lookup while node A is emptied and node B works on. *)
Definition jobs4 : list (job f64) := jobs3 ++ [JReq nB (QKnnLookup ns2 (fv [1;5]%Z) 1 true)].
Example C108_case : EnvOk lossy4 /\ WorldOk abc /\ NoOrphans abc /\ OwnDims any_dim abc /\ AnyJobs any_dim abc jobs4 /\
  Forall (fun j => ~ may_steal j) jobs4 /\ Forall job_counts jobs4 /\ Forall nothing_drained jobs4 /\ lives lossy4 is31 /\
  Forall (fun j => forall b n, touches any_dim j b n -> node_at abc b <> None -> In b [nA] \/ manager abc b n <> None) jobs4 /\
  wp (interleave DIdle (3 :: 4 :: turns) (with_resets lossy4 jobs4 [nA]) abc) 0 (fun r t' => forallb is_done (fst r) = true /\
    at_node (snd r) nA > 0 /\ length (visible (snd r)) < length (all_data (snd r)) /\ 0 < answers_lost lossy4 0 t').
Proof.
  splits; [apply lossy_ok|apply world_check; vm_compute; reflexivity|apply orphans_check; vm_compute; reflexivity|
    apply own_dims_check; vm_compute; reflexivity| |repeat constructor; cbn; auto|repeat constructor; cbn; lia|repeat constructor| | |].
  - repeat constructor; try (apply node_check; vm_compute; reflexivity); cbn; try lia; discriminate.
  - intros ns d k H. unfold is31 in H. apply dp_same_eq in H. subst d. reflexivity.
  - assert (HB : manager abc nB ns2 <> None)
      by (assert (H : match manager abc nB ns2 with Some _ => true | None => false end = true) by (vm_compute; reflexivity);
          destruct (manager abc nB ns2); congruence).
    revert HB. generalize abc. intros w HB. unfold jobs4, jobs3, put2. cbn [app].
    constructor; [|constructor; [|constructor; [|constructor; [|constructor]]]]; cbn [touches req_places po_ns qo_ns map In]; intros b n H _; cbn [In].
    + destruct H as ([<-|[<-|[]]] & ->); auto.
    + destruct H as [H|[H|[H|[]]]]; injection H as <- <-; auto.
    + destruct H as ([<-|[<-|[]]] & ->); auto.
    + destruct H as [H|[]]; injection H as <- <-; auto.
  - vm_compute. repeat split; lia.
Qed.

(* Full statement: what the service has accepted stays.  It does not survive the node, *)
Theorem C108_durable_refuted : exists (E : Env f64) w addrs a (o : put_opts f64) (q : query_opts f64), EnvOk E /\ all_delivered E /\ WorldOk w /\
  never_expired E [to_dp (po_dp o)] /\ po_ns o = qo_ns q /\
  wp (exec (put_http E addrs (Some o)) w) 0 (fun r t => status (fst r) = 200%Z /\ copies (po_ns o) (to_dp (po_dp o)) (visible (snd r)) = 1 /\
    wp (exec (run_reset a) (snd r)) t (fun r1 t1 =>
      wp (exec (query_http E addrs (Some q)) (snd r1)) t1 (fun r2 _ => length (snd (fst r2)) = 0))).
Proof. exact not_durable. Qed.
Print Assumptions C108_durable_refuted.

(* and Reset does not separate what is answered before from what is answered after it: an Add that
   is answered with true after Reset has returned can be out of sight already. *)
Theorem C108_separates_refuted : exists (E : Env f64) w a ns d sched, EnvOk E /\ all_delivered E /\ WorldOk w /\ NoOrphans w /\ never_expired E [d] /\
  wp (interleave DIdle (firstn 2 sched) (with_resets E [JReq a (QAdd ns d)] [a]) w) 0 (fun r _ => map is_done (fst r) = [false; true]) /\
  wp (interleave DIdle sched (with_resets E [JReq a (QAdd ns d)] [a]) w) 0 (fun r _ =>
    map acked (fst r) = [true; false] /\ copies ns d (all_data (snd r)) = 1 /\ copies ns d (visible (snd r)) = 0).
Proof. exact late_lost. Qed.
Print Assumptions C108_separates_refuted.

(* Nor does it concern one node only: a node that is emptied while it steals takes all the data of
   the other node, beyond the limit, and drops it. *)
Theorem C108_thief_refuted : exists (E : Env f64) w a b ns sched, EnvOk E /\ all_delivered E /\ WorldOk w /\ a <> b /\ at_node w b = 2 /\
  wp (interleave DIdle sched (with_resets E [JReq a (QSteal 10 b ns 1)] []) w) 0 (fun r _ => map is_done (fst r) = [true] /\
    at_node (snd r) b = 1 /\ length (w_dropped (snd r)) = 0) /\
  wp (interleave DIdle sched (with_resets E [JReq a (QSteal 10 b ns 1)] [a]) w) 0 (fun r _ => map is_done (fst r) = [true; true] /\
    at_node (snd r) b = 0 /\ length (w_dropped (snd r)) = 2).
Proof. exact thief_drops. Qed.
Print Assumptions C108_thief_refuted.
