(* Event loops of several nodes that take turns, and whether the data come to rest. *)
From Coq Require Import Permutation.
From Verif Require Import Base Num MathUtils Env Centroid CManager Wp DataSpec Proc Server ServerSpec EventLoop LoopSpec NumFacts KnnProofs MathSpec SeqProofs StealProofs CMProofs2 TestEnv TestWorld CoreSpec.

(* ---- specification ---- *)
Section Settle.
Context {N : Num} (E : Env N).

(* One round of the loop of a node, with the counter i. *)
Definition round (c : el_cfg) (i : Z) : proc' N unit :=
  el_steps (read_stop (fun _ => false)) (run_task E (validate c) i) task_order.

(* Turn number k is the round number k/m of loop number k mod m, if there are m loops. *)
Definition turn (cs : list el_cfg) (k : nat) : proc' N unit :=
  match nth_error cs (k mod length cs) with
  | Some c => round c (counter (k / length cs))
  | None => Ret tt
  end.
Fixpoint turns (cs : list el_cfg) (k n : nat) : proc' N unit :=
  match n with
  | O => Ret tt
  | S n' => call _ <- turn cs k; turns cs (S k) n'
  end.

(* Every node has the same datapoints. *)
Definition same_places (w w' : World N) : Prop := forall a ns, Permutation (data_at w a ns) (data_at w' a ns).
End Settle.

(* ---- a datapoint that is sent back and forth ---- *)

(* Two nodes with loops that do everything in every round; no centroid is to be split or merged. *)
Definition mover (a : str) : el_cfg := MkEl a [nA; nB] (MkSkips 1 1 1 1 1 1 1 1 1) 2 2 0 100 200 (-1) (-1) true 5.
Definition movers : list el_cfg := [mover nA; mover nB].

(* A has two centroids, at right angles, B one that is between the second of them and their mean.
   In [w_odd] one of A's datapoints is at B. *)
Definition node_with (v : vec f64) (cs : list (Centroid f64)) : Node f64 := MkNode [(ns1, MkCM v cs 100)] [(ns1, 0)] 100.
Definition half : F f64 := SpecFloat.S754_finite false 4503599627370496 (-53).
Definition w_even : World f64 := MkWorld
  [(nA, node_with [half; half] [MkC (fv [0;1]%Z) [dp [0;1]%Z; dp [0;1]%Z]; MkC (fv [1;0]%Z) [dp [1;0]%Z; dp [1;0]%Z]]);
   (nB, node_with (fv [2;1]%Z) [MkC (fv [2;1]%Z) [dp [2;1]%Z; dp [2;1]%Z]])] [].
Definition mean3 : vec f64 := [SpecFloat.S754_finite false 7505999378950827 (-52); SpecFloat.S754_finite false 6004799503160661 (-53)].
Definition w_odd : World f64 := MkWorld
  [(nA, node_with [half; half] [MkC (fv [0;1]%Z) [dp [0;1]%Z; dp [0;1]%Z]; MkC (fv [1;0]%Z) [dp [1;0]%Z]]);
   (nB, node_with mean3 [MkC mean3 [dp [2;1]%Z; dp [2;1]%Z; dp [1;0]%Z]])] [].
Definition spent (w : World f64) (a : str) : nat := match exec (round cosE (mover a) 0) w 0 with Ok (_, t) => t | _ => 0 end.
Definition tA : nat := Eval vm_compute in spent w_even nA.
Definition tB : nat := Eval vm_compute in spent w_odd nB.

Lemma round_any a i : round cosE (mover a) i = round cosE (mover a) 0.
Proof.
  unfold round. assert (H : forall l, el_steps (read_stop (fun _ => false)) (run_task cosE (validate (mover a)) i) l =
    el_steps (read_stop (fun _ => false)) (run_task cosE (validate (mover a)) 0) l).
  { induction l as [|k l IH]; cbn [el_steps]; [reflexivity|]. rewrite IH. f_equal. f_equal.
    unfold run_task. replace (interval (el_skip (validate (mover a))) k) with 1%Z by (destruct k; reflexivity).
    unfold with_skip. rewrite Z.rem_1_r. reflexivity. }
  apply H.
Qed.

Lemma even_odd t : exec (round cosE (mover nA) 0) w_even t = Ok ((tt, w_odd), tA + t).
Proof. vm_cast_no_check (eq_refl (Ok ((tt, w_odd), tA + t))). Qed.
Lemma odd_even t : exec (round cosE (mover nB) 0) w_odd t = Ok ((tt, w_even), tB + t).
Proof. vm_cast_no_check (eq_refl (Ok ((tt, w_even), tB + t))). Qed.

Definition w_at (k : nat) : World f64 := if Nat.even k then w_even else w_odd.

Lemma turn_moves k t : exists t', exec (turn cosE movers k) (w_at k) t = Ok ((tt, w_at (S k)), t').
Proof.
  unfold turn, w_at. rewrite Nat.even_succ, <- Nat.negb_even. change (length movers) with 2.
  destruct (Nat.even k) eqn:H.
  - apply Nat.even_spec in H. destruct H as (m & ->). rewrite (Nat.mul_comm 2), Nat.mod_mul by discriminate.
    cbn [nth_error movers]. rewrite round_any. eexists. apply even_odd.
  - assert (Ho : Nat.odd k = true) by (rewrite <- Nat.negb_even, H; reflexivity). apply Nat.odd_spec in Ho. destruct Ho as (m & ->).
    replace ((2 * m + 1) mod 2) with 1 by (rewrite Nat.add_comm, (Nat.mul_comm 2), Nat.mod_add by discriminate; reflexivity).
    cbn [nth_error movers]. rewrite round_any. eexists. apply odd_even.
Qed.

Lemma turns_move n : forall k t, exists t', exec (turns cosE movers k n) (w_at k) t = Ok ((tt, w_at (n + k)), t').
Proof.
  induction n as [|n IH]; intros k t; cbn [turns]; [eexists; reflexivity|].
  destruct (turn_moves k t) as (t1 & H1). destruct (IH (S k) t1) as (t2 & H2). exists t2.
  rewrite exec_bind. unfold bind. rewrite H1, H2. rewrite Nat.add_succ_r. reflexivity.
Qed.

Lemma sizes_apart k : length (data_at (w_at k) nA ns1) <> length (data_at (w_at (S k)) nA ns1).
Proof.
  unfold w_at. rewrite Nat.even_succ, <- Nat.negb_even.
  assert (H1 : length (data_at w_even nA ns1) = 4) by (vm_compute; reflexivity).
  assert (H2 : length (data_at w_odd nA ns1) = 3) by (vm_compute; reflexivity).
  destruct (Nat.even k); cbn [negb]; rewrite H1, H2; discriminate.
Qed.

Lemma no_rest : exists (E : Env f64) cs w,
  EnvOk E /\ all_delivered E /\ WorldOk w /\ never_expired E (data_at w nA ns1 ++ data_at w nB ns1) /\ length cs = 2 /\
  Forall (fun c => validate c = c /\ In (el_local c) (el_remote c) /\ NoDup (el_remote c)) cs /\
  forall k t, wp (exec (turns E cs 0 k) w) t (fun r t' =>
    wp (exec (turn E cs k) (snd r)) t' (fun r' _ => ~ same_places (snd r) (snd r'))).
Proof.
  exists cosE, movers, w_even. splits; [apply cosE_ok|intros k; reflexivity|apply world_check; vm_compute; reflexivity| |reflexivity| |].
  - intros k d Hd. cbn in Hd. repeat destruct Hd as [<-|Hd]; try reflexivity. destruct Hd.
  - repeat constructor; cbn; auto; intuition discriminate.
  - intros k t. destruct (turns_move k 0 t) as (t1 & H1). rewrite Nat.add_0_r in H1. unfold wp at 1. change w_even with (w_at 0). rewrite H1. cbn [snd].
    destruct (turn_moves k t1) as (t2 & H2). unfold wp. rewrite H2. cbn [snd]. intros H. apply (sizes_apart k). apply Permutation_length, H.
Qed.
