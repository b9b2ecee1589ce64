(* Witnesses for C108. *)
From Verif Require Import Base Num MathUtils Knn Env Centroid CManager DataSpec MgrSpec Wp NumFacts MathSpec TestEnv Proc Owns
  Server ServerSpec ServerFacts TestWorld Core EventLoop CoreSpec Props05Lemmas Props05 MixCase OriginSpec OriginProofs CopiesProofs LossProofs
  Props15 Reset.
Local Open Scope nat_scope.

(* How many copies of d in namespace ns there are in a list. *)
Definition copies (ns : str) (d : DataPoint f64) : list (str * DataPoint f64) -> nat := members (fun ns' d' => str_eqb ns ns' && dp_same d d').
Definition acked (p : proc' f64 (done f64)) : bool := match p with Ret (DReq _ (ABool true)) => true | _ => false end.

Definition p31 : put_opts f64 := MkPut ns2 false (of_dp (dp [3;1]%Z)).
Definition q31 : query_opts f64 := MkQuery ns2 false (fv [3;1]%Z) 5 false.

Lemma not_durable : exists (E : Env f64) w addrs a (o : put_opts f64) (q : query_opts f64), EnvOk E /\ all_delivered E /\ WorldOk w /\
  never_expired E [to_dp (po_dp o)] /\ po_ns o = qo_ns q /\
  wp (exec (put_http E addrs (Some o)) w) 0 (fun r t => status (fst r) = 200%Z /\ copies (po_ns o) (to_dp (po_dp o)) (visible (snd r)) = 1 /\
    wp (exec (run_reset a) (snd r)) t (fun r1 t1 =>
      wp (exec (query_http E addrs (Some q)) (snd r1)) t1 (fun r2 _ => length (snd (fst r2)) = 0))).
Proof.
  exists cosE, (fresh [(nA, 2%Z)]), [nA], nA, p31, q31.
  splits; [apply cosE_ok|intros k; reflexivity|apply world_check; vm_compute; reflexivity|intros k d [<-|[]]; reflexivity|reflexivity|vm_compute; auto].
Qed.

(* The add has found its slot; the node is emptied; the add ends. *)
Definition late : list nat := [0; 1; 0; 0; 0; 0; 0; 0].
Lemma late_lost : exists (E : Env f64) w a ns d sched, EnvOk E /\ all_delivered E /\ WorldOk w /\ NoOrphans w /\ never_expired E [d] /\
  wp (interleave DIdle (firstn 2 sched) (with_resets E [JReq a (QAdd ns d)] [a]) w) 0 (fun r _ => map is_done (fst r) = [false; true]) /\
  wp (interleave DIdle sched (with_resets E [JReq a (QAdd ns d)] [a]) w) 0 (fun r _ =>
    map acked (fst r) = [true; false] /\ copies ns d (all_data (snd r)) = 1 /\ copies ns d (visible (snd r)) = 0).
Proof.
  exists cosE, abc, nA, ns2, (dp [3;1]%Z), late.
  splits; [apply cosE_ok|intros k; reflexivity|apply world_check; vm_compute; reflexivity|apply orphans_check; vm_compute; reflexivity|
    intros k d [<-|[]]; reflexivity|vm_compute; auto|vm_compute; auto].
Qed.

(* Node A asks B for a centroid or two; A is emptied before it has stored the first.  Since A
   counts only what it has stored, it goes on until B has nothing left, and drops it all. *)
Definition split_up : list (str * req f64) := spread ++ [(nB, QSplit ns2 1 10)].
Definition abc2 : World f64 := after cosE split_up (fresh [(nA, 2%Z); (nB, 2%Z); (nC, 2%Z)]).
Definition thief : list nat := [0; 0; 0; 1] ++ repeat 0 60.
Definition at_node (w : World f64) (a : str) : nat := match node_at w a with Some nd => length (node_data nd) | None => 0 end.
Lemma thief_drops : exists (E : Env f64) w a b ns sched, EnvOk E /\ all_delivered E /\ WorldOk w /\ a <> b /\ at_node w b = 2 /\
  wp (interleave DIdle sched (with_resets E [JReq a (QSteal 10 b ns 1)] []) w) 0 (fun r _ => map is_done (fst r) = [true] /\
    at_node (snd r) b = 1 /\ length (w_dropped (snd r)) = 0) /\
  wp (interleave DIdle sched (with_resets E [JReq a (QSteal 10 b ns 1)] [a]) w) 0 (fun r _ => map is_done (fst r) = [true; true] /\
    at_node (snd r) b = 0 /\ length (w_dropped (snd r)) = 2).
Proof.
  exists cosE, abc2, nA, nB, ns2, thief.
  splits; [apply cosE_ok|intros k; reflexivity|apply world_check; vm_compute; reflexivity|discriminate|vm_compute; auto..].
Qed.
