(* A concrete case for Props09: a manager that comes to hold vectors of two lengths. *)
From Verif Require Import Base Num MathUtils Knn Env Centroid CManager DataSpec MgrSpec Wp NumFacts MathSpec
  TestEnv Proc Owns Server ServerSpec ServerFacts ServerProofs TestWorld Core EventLoop CoreSpec.
From Coq.Init Require Import Byte.
Local Open Scope nat_scope.

(* Any length for any namespace. *)
Definition any_dim (ns : str) (n : nat) : Prop := True.
Definition own_dims_ok (w : World f64) : bool :=
  forallb (fun e => forallb (fun s => forallb (fun c => forallb (fun d => length (dp_vec d) =? length (c_vec c)) (c_dps c))
    (cm_cs (snd s))) (nd_heap (snd e))) (w_nodes w).
Lemma own_dims_check (w : World f64) : own_dims_ok w = true -> OwnDims any_dim w.
Proof.
  intros H a nd ns m H1 H2. unfold own_dims_ok in H. rewrite forallb_forall in H. specialize (H _ H1). cbn [snd] in H.
  rewrite forallb_forall in H. specialize (H _ H2). split; [exists 0; exact I|]. cbn [snd] in H. rewrite forallb_forall in H.
  apply Forall_forall. intros c Hc. specialize (H c Hc). rewrite forallb_forall in H. exists (length (c_vec c)).
  split; [exact I|]. split; auto. apply Forall_forall. intros d Hd. apply Nat.eqb_eq. auto.
Qed.

(* Each node has one datapoint with two numbers.  While A steals from B, A's only centroid is
   taken out and a datapoint with three numbers is added. *)
Definition apart : World f64 := after cosE [(nA, QAdd ns2 (dp [9;1]%Z)); (nB, QAdd ns2 (dp [1;7]%Z))] (fresh [(nA, 9%Z); (nB, 9%Z)]).
Definition mixers : list (job f64) :=
  [JReq nA (QSteal 5 nB ns2 1%Z); JReq nA (QNearest ns2 (fv [1;1]%Z) 1 true); JReq nA (QAdd ns2 (dp [1;2;3]%Z))].
Lemma mixers_ok : AnyJobs any_dim apart mixers.
Proof. repeat constructor; try (apply node_check; vm_compute; reflexivity); try discriminate. Qed.
Definition lengths (w : World f64) (a ns : str) : list nat := map (fun c => length (c_vec c)) (centroids_at w a ns).
Definition mixing : list nat := repeat 0 2 ++ repeat 1 6 ++ repeat 2 6 ++ repeat 0 20.
Definition over (p : proc' f64 (done f64)) : bool := match p with Ret _ => true | _ => false end.

Lemma mixers_case : EnvOk cosE /\ NumOrd f64 /\ answers_arrive cosE /\
  WorldOk apart /\ NoOrphans apart /\ OwnDims any_dim apart /\ AnyJobs any_dim apart mixers /\
  Forall (fun j => ~ may_steal j) (tl mixers) /\
  (forall ns, ns <> ns2 -> Forall (fun j => ~ touches any_dim j nA ns) mixers) /\
  Forall (fun j => forall b n, touches any_dim j b n -> node_at apart b <> None -> manager apart b n <> None) mixers /\
  length (all_data apart) = 2 /\ lengths apart nA ns2 = [2] /\ lengths apart nB ns2 = [2] /\
  wp (interleave DIdle mixing (map (run_job cosE) mixers) apart) 0 (fun r _ =>
    forallb over (fst r) = true /\ lengths (snd r) nA ns2 = [3; 2] /\ lengths (snd r) nB ns2 = [] /\
    length (all_data (snd r)) = 2).
Proof.
  assert (Hm : forall b, In b [nA; nB] -> manager apart b ns2 <> None).
  { intros b Hb. assert (H : forallb (fun b => match manager apart b ns2 with Some _ => true | None => false end) [nA; nB] = true)
      by (vm_compute; reflexivity). rewrite forallb_forall in H. specialize (H b Hb). destruct (manager apart b ns2); [discriminate|discriminate H]. }
  splits.
  - apply cosE_ok.
  - apply f64_ord.
  - intros k; discriminate.
  - apply world_check; vm_compute; reflexivity.
  - apply orphans_check; vm_compute; reflexivity.
  - apply own_dims_check; vm_compute; reflexivity.
  - apply mixers_ok.
  - repeat apply Forall_cons; try apply Forall_nil; cbn; auto.
  - intros ns Hn. repeat apply Forall_cons; try apply Forall_nil; cbn; intuition congruence.
  - repeat apply Forall_cons; try apply Forall_nil; cbn; intros b n H _; repeat (destruct H as [H|H]; [injection H as <- <-; apply Hm; cbn; auto|]); contradiction.
  - vm_compute; reflexivity.
  - vm_compute; reflexivity.
  - vm_compute; reflexivity.
  - vm_compute; auto.
Qed.

(* One after the other: A, whose vectors have two numbers, cannot steal from B, whose vectors
   have three; once A is emptied and has taken in a datapoint with three numbers it can. *)
Definition differ : World f64 := after cosE [(nA, QAdd ns2 (dp [9;1]%Z)); (nB, QAdd ns2 (dp [1;2;3]%Z))] (fresh [(nA, 9%Z); (nB, 9%Z)]).
Definition one_by_one : list (str * req f64) :=
  [(nA, QSteal 5 nB ns2 1%Z); (nA, QNearest ns2 (fv [1;1]%Z) 1 true); (nA, QAdd ns2 (dp [3;2;1]%Z)); (nA, QSteal 5 nB ns2 1%Z)].
Definition total_of (x : ans f64) : option nat := match x with ASteal n _ => Some n | _ => None end.
Definition uniform_ok (w : World f64) : bool :=
  forallb (fun e => forallb (fun s => mgr_dim (length (cm_vec (snd s))) (snd s)) (nd_heap (snd e))) (w_nodes w).
Lemma uniform_check (w : World f64) : uniform_ok w = true -> DimsOk any_dim w.
Proof.
  intros H a nd ns m H1 H2. unfold uniform_ok in H. rewrite forallb_forall in H. specialize (H _ H1). cbn [snd] in H.
  rewrite forallb_forall in H. specialize (H _ H2). exists (length (cm_vec m)). split; [exact I|]. apply mgr_dim_ok. auto.
Qed.

Lemma one_by_one_case : EnvOk cosE /\ NumOrd f64 /\ WorldOk differ /\ DimsOk any_dim differ /\
  Forall (fun e => node_at differ (fst e) <> None /\ req_counts (snd e) /\ req_fits any_dim (snd e)) one_by_one /\
  lengths differ nA ns2 = [2] /\ lengths differ nB ns2 = [3] /\
  wp (serve_seq cosE one_by_one differ) 0 (fun r _ => map total_of (fst r) = [Some 0; None; None; Some 1] /\
    lengths (snd r) nA ns2 = [3; 3] /\ lengths (snd r) nB ns2 = []).
Proof.
  splits.
  - apply cosE_ok.
  - apply f64_ord.
  - apply world_check; vm_compute; reflexivity.
  - apply uniform_check; vm_compute; reflexivity.
  - repeat constructor; try (apply node_check; vm_compute; reflexivity); try discriminate.
  - vm_compute; reflexivity.
  - vm_compute; reflexivity.
  - vm_compute; auto.
Qed.

Lemma mixed_by_race : exists (E : Env f64) w js sched a ns, EnvOk E /\ WorldOk w /\ DimsOk any_dim w /\ AnyJobs any_dim w js /\
  wp (interleave DIdle sched (map (run_job E) js) w) 0 (fun r _ => forallb over (fst r) = true /\ lengths (snd r) a ns = [3; 2]).
Proof.
  exists cosE, apart, mixers, mixing, nA, ns2. splits.
  - apply cosE_ok.
  - apply world_check; vm_compute; reflexivity.
  - apply uniform_check; vm_compute; reflexivity.
  - apply mixers_ok.
  - vm_compute; auto.
Qed.
Definition nX : str := [x58].
Definition has_ns (w : World f64) (a ns : str) : bool := match manager w a ns with Some _ => true | None => false end.
