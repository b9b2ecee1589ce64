(* Property C66: requests that run at the same time have the effect of requests one after the
   other; C78: what that effect is. *)
From Verif Require Import Base Num MathUtils Knn Env Centroid CManager DataSpec MgrSpec Wp NumFacts MathSpec
  TestEnv Proc Owns Server ServerSpec ServerFacts TestWorld LinearSpec Locks LockSpec LockCase LinearCase
  LinearProofs LinearProofs2 Props10Lemmas MgrSpec2 ReqSpec ReqProofs.
From Coq Require Import Permutation.
From Coq.Init Require Import Byte.
Local Open Scope nat_scope.

(* ---- C66 ---- *)
(* Each client sends any requests, depending on the answers so far.  The marked steps, one for
   each request, are taken when requests are one step; then every other step does nothing that
   anybody could notice: at every moment the world is the same. *)
Theorem C66_clients : forall (N : Num) (E : Env N) (R : Type) (dflt : R) (cs : list (client N R)) (w : World N) sched t,
  Forall (quiet w) cs ->
  exists marks, length marks = length sched /\ forall n,
    match interleave dflt (firstn n sched) (map (run_client E) cs) w t with
    | Ok ((th, w1), t1) => exists th',
        interleave dflt (select (firstn n marks) (firstn n sched)) (map (atom_client E) cs) w t = Ok ((th', w1), t1) /\
        Forall2 (fun p p' => forall r, p = Ret r -> p' = Ret r) th th'
    | Panic => interleave dflt (select (firstn n marks) (firstn n sched)) (map (atom_client E) cs) w t = Panic
    | OutOfFuel => interleave dflt (select (firstn n marks) (firstn n sched)) (map (atom_client E) cs) w t = OutOfFuel
    end.
Proof. exact @linear_run. Qed.
Print Assumptions C66_clients.

(* One request each: there is an order in which the requests, one after the other, give the same
   answers and the same world; a request that has its answer before another one begins comes
   before it. *)
Theorem C66_serial : forall (N : Num) (E : Env N) dflt reqs (w : World N) sched t xs w' t',
  Forall (fun e => quiet_req w (fst e) (snd e)) reqs ->
  interleave dflt sched (map (fun e => run_client E (ask e)) reqs) w t = Ok ((map Ret xs, w'), t') ->
  exists order, Permutation order (seq 0 (length reqs)) /\
    serve_seq E (pick order reqs) w t = Ok ((pick order xs, w'), t') /\
    forall i j n th w1 t1 x,
      interleave dflt (firstn n sched) (map (fun e => run_client E (ask e)) reqs) w t = Ok ((th, w1), t1) ->
      nth_error th i = Some (Ret x) -> ~ In j (firstn n sched) -> j < length reqs ->
      exists before after, order = before ++ after /\ In i before /\ In j after.
Proof. exact @serial_run. Qed.
Print Assumptions C66_serial.

(* The same one instruction at a time. *)
Theorem C66_locks : forall (N : Num) (E : Env N) dflt reqs (w : World N) sched t s' t' xs, NoDup (map fst (w_nodes w)) ->
  Forall (fun e => quiet_req w (fst e) (snd e)) reqs ->
  irun dflt sched (istart (map (fun e => run_client E (ask e)) reqs) w) t = Ok (s', t') -> all_ended s' xs ->
  exists order w', Permutation order (seq 0 (length reqs)) /\
    serve_seq E (pick order reqs) w t = Ok ((pick order xs, w'), t') /\ w_nodes (world_of s') = w_nodes w'.
Proof. exact @serial_locks. Qed.
Print Assumptions C66_locks.

(* Meta among such clients lists the namespaces of its node, each once, and the sizes it shows
   for a namespace are those that its manager had at one of Meta's own steps. *)
Theorem C66_meta : forall (N : Num) (E : Env N), EnvOk E -> forall dflt cs i a (w : World N) sched t th w' t' x,
  WorldOk w -> nth_error cs i = Some (CAsk a QMeta CRet) -> (forall j c, nth_error cs j = Some c -> j <> i -> quiet w c) ->
  interleave dflt sched (map (run_client E) cs) w t = Ok ((th, w'), t') -> nth_error th i = Some (Ret x) ->
  exists l, x = AMeta l /\ NoDup (map fst l) /\ (forall ns, In ns (map fst l) <-> manager w a ns <> None) /\
    forall ns c d, In (ns, (c, d)) l -> exists n th1 w1 t1 m, nth_error sched n = Some i /\
      interleave dflt (firstn (n + 1) sched) (map (run_client E) cs) w t = Ok ((th1, w1), t1) /\
      manager w1 a ns = Some m /\ c = length (cm_cs m) /\ d = length (stored (cm_cs m)).
Proof. exact @meta_run. Qed.
Print Assumptions C66_meta.

(* A client that counts, drains that many and puts one back, and an add that comes between its
   requests.  Both end; the second, fifth, sixth and eighth steps are those of C66_clients. *)
Example C66_case : Forall (quiet pair) couple /\ length (all_data pair) = 2 /\
  wp (interleave (ABool false) couple_steps (map (run_client cosE) couple) pair) 0 (fun r _ =>
    map answer_of (fst r) = [true; true] /\ length (all_data (snd r)) = 2) /\
  wp (interleave (ABool false) [0; 0; 1; 0] (map (atom_client cosE) couple) pair) 0 (fun r _ =>
    map answer_of (fst r) = [true; true] /\ length (all_data (snd r)) = 2).
Proof. splits; [exact couple_quiet|vm_compute; reflexivity|vm_compute; auto|vm_compute; auto]. Qed.

Example C66_meta_case : WorldOk two_ns /\ (forall j c, nth_error watched j = Some c -> j <> 0 -> quiet two_ns c) /\
  wp (interleave (ABool false) moved_meanwhile (map (run_client cosE) watched) two_ns) 0 (fun r _ =>
    map answer_of (fst r) = [true; true]).
Proof.
  splits; [apply world_check; vm_compute; reflexivity| |vm_compute; auto].
  intros [|[|j]] c Hj Hne; cbn in Hj; [congruence| |destruct j; discriminate]. injection Hj as <-.
  cbn [quiet mover]. split; [exact I|]. intros x. split; [|intros y; exact I]. apply quiet_check. vm_compute. reflexivity.
Qed.

(* Meta is not one step: here it shows three datapoints, but there were never more than two. *)
Theorem C66_meta_refuted : exists (E : Env f64) (w : World f64) (cs : list (client f64 (ans f64))) sched,
  EnvOk E /\ WorldOk w /\ nth_error cs 0 = Some (CAsk nA QMeta CRet) /\
  wp (interleave (ABool false) sched (map (run_client E) cs) w) 0 (fun r _ => option_map meta_total (nth_error (fst r) 0) = Some (Some 3)) /\
  forall n, wp (interleave (ABool false) (firstn n sched) (map (run_client E) cs) w) 0 (fun r _ => length (all_data (snd r)) <= 2).
Proof. exact meta_torn. Qed.
Print Assumptions C66_meta_refuted.

(* Nor is a distribution: the one datapoint is on A before it and on B after it, and a client
   that asks in between finds it on neither. *)
Theorem C66_transfer_refuted : exists (E : Env f64) (w : World f64) sched,
  EnvOk E /\ WorldOk w /\
  wp (exec (run_client E both) w) 0 (fun r _ => map counted (fst r) = [1; 0]%Z) /\
  wp (interleave [] sched (map (run_client E) [transfer; both]) w) 0 (fun r _ => map counts_of (fst r) = [Some [0%Z]; Some [0; 0]%Z]) /\
  wp (interleave [] sched (map (run_client E) [transfer; both]) w) 0 (fun r t =>
    wp (exec (run_client E both) (snd r)) t (fun r' _ => map counted (fst r') = [0; 1]%Z)).
Proof. exact transfer_seen. Qed.
Print Assumptions C66_transfer_refuted.

(* ---- C78 ---- *)
Theorem C78_effect : forall (N : Num) (E : Env N), EnvOk E -> forall (q : req N) a ns n (w : World N) m t,
  req_ns q = Some ns -> on_manager q -> req_counts q ->
  WorldOk w -> manager w a ns = Some m -> DimOk n m ->
  wp (exec (serve E a q) w) t (fun r t' => exists m', manager (snd r) a ns = Some m' /\
    Effect E n t t' m q (fst r) m' /\
    forall b ns', (b, ns') <> (a, ns) -> manager (snd r) b ns' = manager w b ns').
Proof. exact @effect_of. Qed.
Print Assumptions C78_effect.

(* Two centroids with three datapoints each: strictly between 2 and 4 they are split or merged,
   strictly between 3 and 5 not. *)
Example C78_case : WorldOk threes /\ option_map (mgr_dim 2) (manager threes nA ns2) = Some true /\
  wp (exec (serve cosE nA (QSplit ns2 2 4)) threes) 0 (fun r _ => groups (snd r) = [2; 2; 1; 1]) /\
  wp (exec (serve cosE nA (QMerge ns2 2 4)) threes) 0 (fun r _ => groups (snd r) = [6]) /\
  wp (exec (serve cosE nA (QSplit ns2 3 5)) threes) 0 (fun r _ => groups (snd r) = [3; 3]).
Proof. splits; [apply world_check; vm_compute; reflexivity|vm_compute; reflexivity|vm_compute; reflexivity|vm_compute; reflexivity|vm_compute; reflexivity]. Qed.
