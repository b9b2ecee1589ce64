(* Property C114: whether the network comes to rest. *)
From Verif Require Import Base Num MathUtils Env Centroid CManager Wp DataSpec Proc Server ServerSpec CoreSpec EventLoop LoopSpec TestEnv TestWorld Settle.

(* That the loops of a network move the data into places where they then stay is false: from this
   state on, of two nodes whose loops take turns, every single turn moves a datapoint to the other
   node, forever, without any message lost, any request from outside, or any expiry.  Fast
   distribution sends it to the node whose vector is nearest and accurate distribution back to the
   one with the nearest centroid. *)
Theorem C114_rest_refuted : exists (E : Env f64) cs w,
  EnvOk E /\ all_delivered E /\ WorldOk w /\ never_expired E (data_at w nA ns1 ++ data_at w nB ns1) /\ length cs = 2 /\
  Forall (fun c => validate c = c /\ In (el_local c) (el_remote c) /\ NoDup (el_remote c)) cs /\
  forall k t, wp (exec (turns E cs 0 k) w) t (fun r t' =>
    wp (exec (turn E cs k) (snd r)) t' (fun r' _ => ~ same_places (snd r) (snd r'))).
Proof. exact no_rest. Qed.
Print Assumptions C114_rest_refuted.

Example C114_case : wp (exec (turns cosE movers 0 1) w_even) 0 (fun r t =>
    map (fun a => length (data_at w_even a ns1)) [nA; nB] = [4; 2] /\ map (fun a => length (data_at (snd r) a ns1)) [nA; nB] = [3; 3] /\
    wp (exec (turns cosE movers 1 1) (snd r)) t (fun r' _ => map (fun a => length (data_at (snd r') a ns1)) [nA; nB] = [4; 2])).
Proof. vm_compute. auto. Qed.
