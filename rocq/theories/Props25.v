(* Property C105: counts that are too large. *)
From Verif Require Import Base Num MathUtils Knn Env Centroid CManager DataSpec MgrSpec Wp NumFacts KnnProofs TestEnv Proc Owns Server ServerSpec ServerFacts TestWorld Core EventLoop
  CoreSpec MathSpec Props05 Alloc AllocSpec AllocProofs.

(* ---- C105 ---- *)
Theorem C105_within : forall (N : Num) (E : Env N), EnvOk E -> NumOrd N -> forall D w js sched t,
  WorldOk w -> DimsOk D w -> Jobs D w js -> Forall job_few js ->
  match interleave DIdle sched (map (run_made E) js) w t with
  | Ok ((_, w'), _) => WorldOk w' /\ DimsOk D w'
  | Panic => False
  | OutOfFuel => Exists may_steal js
  end.
Proof. exact @within_limits. Qed.
Print Assumptions C105_within.

Theorem C105_crash : forall (N : Num) (E : Env N) a q w t, (forall v pool k, (k < 0)%Z -> e_knn E v pool k = Panic) -> WorldOk w -> node_at w a <> None ->
  req_counts q -> ~ req_few q -> blind q \/ (exists ns, req_ns q = Some ns /\ manager w a ns <> None) -> exec (serve_made E a q) w t = Panic.
Proof. exact @too_large. Qed.
Print Assumptions C105_crash.

Theorem C105_query : forall (N : Num) (E : Env N), EnvOk E -> NumOrd N -> forall addrs o w t, WorldOk w -> ~ few (qo_n o) ->
  wp (exec (run_made E (JQuery addrs (Some o))) w) t (fun r _ =>
    fst r = DQuery (Some (MkQuery (qo_ns o) (qo_accurate o) (qo_vec o) (-1) (qo_drain o))) Aborted [] /\ snd r = w).
Proof. exact @query_too_large. Qed.
Print Assumptions C105_query.

(* The largest count that works, and the next one, which does not. *)
Definition lookup_of (n : Z) : req f64 := QKnnLookup ns2 (fv [1;5]%Z) n false.
Definition query_of (n : Z) : job f64 := JQuery [nA; nB] (Some (MkQuery ns2 false (fv [1;5]%Z) n true)).
Definition largest : list (job f64) := [JReq nA (lookup_of 3518437208883); query_of 3518437208883].
Example C105_case : WorldOk abc /\ DimsOk (dims_are dim2) abc /\ (forall v pool k, (k < 0)%Z -> e_knn cosE v pool k = Panic) /\
  Jobs (dims_are dim2) abc largest /\ Forall job_few largest /\
  ~ req_few (lookup_of 3518437208884) /\ (if manager abc nA ns2 then true else false) = true /\
  match exec (serve_made cosE nA (lookup_of 3518437208884)) abc 0 with Panic => true | _ => false end = true /\
  wp (exec (run_made cosE (query_of 3518437208884)) abc) 0 (fun r _ => match fst r with DQuery _ Aborted [] => true | _ => false end = true) /\
  wp (exec (run_made cosE (query_of 2)) abc) 0 (fun r _ => match fst r with DQuery _ (Http 200 (Some [_; _])) _ => true | _ => false end = true).
Proof.
  splits.
  - apply world_check; vm_compute; reflexivity.
  - apply dims_check; vm_compute; reflexivity.
  - intros v pool k H. apply knn_brute_negative. exact H.
  - unfold largest, Jobs. apply Forall_cons; [|apply Forall_cons; [exact I|apply Forall_nil]]. unfold lookup_of. cbn [job_ok req_counts req_dims].
    split; [|split; [intros H; discriminate H|exact I]]. apply node_check; vm_compute; reflexivity.
  - unfold largest, lookup_of, query_of. apply Forall_cons; [|apply Forall_cons; [|apply Forall_nil]]; cbn [job_few req_few]; unfold few; intros H; discriminate H.
  - unfold req_few, few, lookup_of. intros H. apply H. reflexivity.
  - vm_compute; reflexivity.
  - vm_compute; reflexivity.
  - vm_compute; reflexivity.
  - vm_compute; reflexivity.
Qed.
