(* Concrete cases for Props10. *)
From Verif Require Import Base Num MathUtils Knn Env Centroid CManager DataSpec MgrSpec Wp NumFacts MathSpec
  TestEnv Proc Owns Server ServerSpec ServerFacts ServerProofs TestWorld LinearSpec Core EventLoop CoreSpec Locks LockSpec LockCase.
From Coq.Init Require Import Byte.
Local Open Scope nat_scope.

Definition quiet_ok (w : World f64) (a : str) (q : req f64) : bool :=
  match q with
  | QMeta | QDistributeFast _ _ _ | QDistributeAccurate _ _ _ | QSteal _ _ _ _ => false
  | QAdd ns _ => match manager w a ns with Some _ => true | None => false end
  | _ => true
  end.
Lemma quiet_check w a q : quiet_ok w a q = true -> quiet_req w a q.
Proof. destruct q; cbn; try discriminate; auto. destruct (manager w a ns); [discriminate|intros; discriminate]. Qed.

(* A client that counts, drains as much as there was, and puts the first one back. *)
Definition counted (x : ans f64) : Z := match x with ANat n => Z.of_nat n | _ => 0%Z end.
Definition drainer : client f64 (ans f64) :=
  CAsk nA (QLenDP ns2) (fun x => CAsk nA (QDrainUnordered ns2 (counted x)) (fun y =>
    match y with ADPs (d :: _) => CAsk nA (QAdd ns2 d) CRet | _ => CRet y end)).
Definition couple : list (client f64 (ans f64)) := [drainer; CAsk nA (QAdd ns2 (dp [3;3]%Z)) CRet].
Definition couple_steps : list nat := [0;0;1;0;0;1;0;0].
Lemma couple_quiet : Forall (quiet pair) couple.
Proof.
  assert (H : forall d, quiet_req pair nA (QAdd ns2 d)) by (intros d; apply quiet_check; vm_compute; reflexivity).
  repeat apply Forall_cons; try apply Forall_nil; unfold drainer; cbn [quiet]; repeat split; auto; try exact (H _).
  intros y. destruct y; cbn [quiet]; auto. destruct ds; cbn [quiet]; auto.
Qed.

(* Two namespaces with one datapoint each; one client asks for Meta while another takes the
   datapoint of the one and then adds one to the other. *)
Definition two_ns : World f64 := after cosE [(nA, QAdd ns1 (dp [9;1]%Z)); (nA, QAdd ns2 (dp [1;7]%Z))] (fresh [(nA, 2%Z)]).
Definition mover : client f64 (ans f64) :=
  CAsk nA (QDrainUnordered ns1 1) (fun _ => CAsk nA (QAdd ns2 (dp [3;3]%Z)) CRet).
Definition watched : list (client f64 (ans f64)) := [CAsk nA QMeta CRet; mover].

(* How many datapoints an answer to Meta shows. *)
Definition meta_total (p : proc' f64 (ans f64)) : option nat :=
  match p with Ret (AMeta l) => Some (list_sum (map (fun e => snd (snd e)) l)) | _ => None end.
(* The number of datapoints after each step. *)
Definition totals {R} (E : Env f64) (dflt : R) (sched : list nat) (th : list (proc' f64 R)) (w : World f64) : list (option nat) :=
  map (fun n => match interleave dflt (firstn n sched) th w 0 with Ok ((_, w1), _) => Some (length (all_data w1)) | _ => None end)
    (seq 0 (S (length sched))).

(* One datapoint, and it goes to another node; a client counts both nodes meanwhile. *)
Definition lone : World f64 := after cosE [(nA, QAdd ns2 (dp [9;1]%Z)); (nB, QAdd ns2 (dp [1;7]%Z)); (nB, QDrainUnordered ns2 1)] (fresh [(nA, 2%Z); (nB, 2%Z)]).
Definition both : client f64 (list (ans f64)) :=
  CAsk nA (QLenDP ns2) (fun x => CAsk nB (QLenDP ns2) (fun y => CRet [x; y])).
Definition transfer : client f64 (list (ans f64)) := CAsk nA (QDistributeFast ns2 1 [nB]) (fun x => CRet [x]).

(* The run in which Meta counts a datapoint that moved twice. *)
Definition moved_meanwhile : list nat := repeat 0 3 ++ repeat 1 4 ++ repeat 0 2.
(* The run in which the other client counts while the datapoint is on its way. *)
Definition on_its_way : list nat := repeat 0 5 ++ repeat 1 4 ++ repeat 0 8.
Definition counts_of (p : proc' f64 (list (ans f64))) : option (list Z) :=
  match p with Ret l => Some (map counted l) | _ => None end.
Definition answer_of {R} (p : proc' f64 R) : bool := match p with Ret _ => true | _ => false end.

Lemma totals_bound {R} E (dflt : R) sched th w b :
  forallb (fun o => match o with Some n => n <=? b | None => false end) (totals E dflt sched th w) = true ->
  forall n, wp (interleave dflt (firstn n sched) th w) 0 (fun r _ => length (all_data (snd r)) <= b).
Proof.
  intros H n. unfold totals in H. rewrite forallb_forall in H.
  assert (Hn : exists k, k <= length sched /\ firstn n sched = firstn k sched).
  { destruct (le_lt_dec n (length sched)); [exists n; auto|]. exists (length sched). split; auto. rewrite firstn_all, firstn_all2; auto. lia. }
  destruct Hn as (k & Hk & ->). assert (Hin : In k (seq 0 (S (length sched)))) by (apply in_seq; lia).
  specialize (H _ (in_map _ _ _ Hin)). cbv beta in H. unfold wp.
  destruct (interleave dflt (firstn k sched) th w 0) as [[[th1 w1] t1]| |]; try discriminate. apply Nat.leb_le. auto.
Qed.

Lemma meta_torn : exists (E : Env f64) (w : World f64) (cs : list (client f64 (ans f64))) sched,
  EnvOk E /\ WorldOk w /\ nth_error cs 0 = Some (CAsk nA QMeta CRet) /\
  wp (interleave (ABool false) sched (map (run_client E) cs) w) 0 (fun r _ => option_map meta_total (nth_error (fst r) 0) = Some (Some 3)) /\
  forall n, wp (interleave (ABool false) (firstn n sched) (map (run_client E) cs) w) 0 (fun r _ => length (all_data (snd r)) <= 2).
Proof.
  exists cosE, two_ns, watched, moved_meanwhile.
  splits; [apply cosE_ok|apply world_check; vm_compute; reflexivity|reflexivity|vm_compute; reflexivity|].
  apply (totals_bound cosE). vm_compute. reflexivity.
Qed.

Lemma transfer_seen : exists (E : Env f64) (w : World f64) sched,
  EnvOk E /\ WorldOk w /\
  wp (exec (run_client E both) w) 0 (fun r _ => map counted (fst r) = [1; 0]%Z) /\
  wp (interleave [] sched (map (run_client E) [transfer; both]) w) 0 (fun r _ => map counts_of (fst r) = [Some [0%Z]; Some [0; 0]%Z]) /\
  wp (interleave [] sched (map (run_client E) [transfer; both]) w) 0 (fun r t =>
    wp (exec (run_client E both) (snd r)) t (fun r' _ => map counted (fst r') = [0; 1]%Z)).
Proof.
  exists cosE, lone, on_its_way.
  splits; [apply cosE_ok|apply world_check; vm_compute; reflexivity|vm_compute; reflexivity|vm_compute; reflexivity|vm_compute; reflexivity].
Qed.

(* Two centroids with three datapoints each. *)
Definition groups (w : World f64) : list nat := map (fun c => length (c_dps c)) (centroids_at w nA ns2).
Definition threes : World f64 := after cosE
  (map (fun l => (nA, QAdd ns2 (dp l))) [[9;1]; [1;7]; [8;1]; [1;9]; [7;1]; [1;5]]%Z) (fresh [(nA, 4%Z)]).
