(* A concrete case for Props08: two adds and a draining search on one manager. *)
From Verif Require Import Base Num MathUtils Knn Env Centroid CManager DataSpec MgrSpec Wp NumFacts MathSpec
  TestEnv Proc Owns Server ServerSpec ServerFacts ServerProofs TestWorld Core EventLoop CoreSpec Locks LockSpec.
From Coq.Init Require Import Byte.
Local Open Scope nat_scope.

Definition pair : World f64 := after cosE [(nA, QAdd ns2 (dp [9;1]%Z)); (nA, QAdd ns2 (dp [1;7]%Z))] (fresh [(nA, 2%Z)]).
Definition dim2 (ns : str) : nat := 2.
Definition adds : list (job f64) :=
  [JReq nA (QAdd ns2 (dp [3;3]%Z)); JReq nA (QAdd ns2 (dp [4;2]%Z)); JReq nA (QKnnLookup ns2 (fv [1;5]%Z) 1 true)].
Lemma adds_ok : Jobs (dims_are dim2) pair adds.
Proof. repeat constructor; try (apply node_check; vm_compute; reflexivity); try discriminate. Qed.

(* It has ended with the answer true. *)
Definition said_yes (e : list lock * iproc f64 (done f64)) : bool :=
  match snd e with IRet (DReq _ (ABool b)) => b | _ => false end.

Lemma without_locks : exists (E : Env f64) w js sched, EnvOk E /\ WorldOk w /\ Jobs (dims_are dim2) w js /\
  jobs_in js = tag ns2 [dp [3;3]%Z; dp [4;2]%Z] /\ length (all_data w) = 2 /\
  wp (irun DIdle sched (no_locks (istart (map (run_job E) js) w))) 0 (fun s _ =>
    map said_yes (threads s) = [true; true] /\
    length (all_data (world_of s)) = 3).
Proof.
  exists cosE, pair, (firstn 2 adds), (concat (repeat [0; 1] 8)).
  splits; [apply cosE_ok|apply world_check; vm_compute; reflexivity| | |vm_compute; reflexivity|].
  - repeat constructor; try (apply node_check; vm_compute; reflexivity); try discriminate.
  - reflexivity.
  - vm_compute. auto.
Qed.
