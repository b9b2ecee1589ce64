(* Property C100: stopping a node. *)
From Verif Require Import Base Listen ListenSpec ListenProofs ListenCase.
Local Open Scope nat_scope.

(* ---- C100 ---- *)
(* Full statement: stop() returns, and nothing is served after it has.  It can panic instead. *)
Theorem C100_stop_returns_refuted : exists es s, lrun listening es = Some s /\ dials es = 1 /\ l_stop s = Crashed.
Proof. exact stop_panics. Qed.
Print Assumptions C100_stop_returns_refuted.

(* After it has returned the connections accepted before the last one are served as before; and
   even the last one, when the accepting goroutine notices the end first. *)
Theorem C100_stop_ends_refuted : exists es s i s',
  lrun listening es = Some s /\ l_stop s = Stopped /\ dials es = 1 /\ lrun s [Request i] = Some s'.
Proof. exact stop_misses. Qed.
Print Assumptions C100_stop_ends_refuted.

Theorem C100_earlier_served_refuted : exists es s i s',
  lrun listening es = Some s /\ ~ In Failed es /\ l_stop s = Stopped /\ S i < dials es /\ lrun s [Request i] = Some s'.
Proof. exact stop_forgets. Qed.
Print Assumptions C100_earlier_served_refuted.

(* A node that nobody has stopped accepts no more connections after one failure. *)
Theorem C100_accepts_refuted : exists es s, lrun listening es = Some s /\ l_open s = true /\ l_stop s = NotCalled /\
  forall es' s', lrun s es' = Some s' -> dials es' = 0.
Proof. exact deaf. Qed.
Print Assumptions C100_accepts_refuted.

(* What holds: from the call of stop on nobody can connect, and requests are only served on
   connections that were open at that moment; *)
Theorem C100_nothing_new : forall es1 s1 es2 s2,
  lrun listening es1 = Some s1 -> stop_called s1 -> lrun s1 es2 = Some s2 ->
  dials es2 = 0 /\ forall i, In i (requests es2) -> i < dials es1 /\ live s1 i.
Proof. exact nothing_new. Qed.
Print Assumptions C100_nothing_new.

(* at most one request each, if clients send one request per connection, as this package's do; *)
Theorem C100_few_after : forall es1 s1 es2 s2,
  lrun listening es1 = Some s1 -> stop_called s1 -> lrun s1 es2 = Some s2 -> one_each es2 ->
  forall open, (forall i, live s1 i -> In i open) -> length (requests es2) <= length open.
Proof. exact few_after. Qed.
Print Assumptions C100_few_after.

(* stop does not panic as long as no Accept has failed; *)
Theorem C100_no_panic : forall es s, lrun listening es = Some s -> ~ In Failed es -> l_stop s <> Crashed.
Proof. exact no_panic. Qed.
Print Assumptions C100_no_panic.

(* and if stop is called while the accepting goroutine waits, and ends before it wakes up, the
   last connection is closed. *)
Theorem C100_last_closed : forall es1 s1 es2 s2,
  lrun listening es1 = Some s1 -> l_accept s1 = Waiting -> l_stop s1 = NotCalled ->
  lrun s1 (Stopper :: es2) = Some s2 -> ~ In Failed (es1 ++ es2) -> stop_over s2 ->
  l_stop s2 = Stopped /\ forall i, S i = dials es1 -> ~ live s2 i.
Proof. exact last_closed. Qed.
Print Assumptions C100_last_closed.

(* One failing Accept is the end of accepting. *)
Theorem C100_one_failure : forall es1 s1 es2 s2,
  lrun listening es1 = Some s1 -> In Failed es1 -> lrun s1 es2 = Some s2 -> dials es2 = 0.
Proof. exact one_failure. Qed.
Print Assumptions C100_one_failure.

(* Two clients; the second is cut off by stop, the first gets another answer. *)
Example C100_case : exists s1 s2,
  lrun listening two_clients = Some s1 /\ l_accept s1 = Waiting /\ l_stop s1 = NotCalled /\ l_served s1 = [1] /\
  lrun s1 (Stopper :: [Stopper; Stopper; Request 0]) = Some s2 /\ stop_over s2 /\ l_served s2 = [1; 0] /\ lstep s2 (Request 1) = None.
Proof. do 2 eexists. repeat (split; [vm_compute; reflexivity|]). split; [left; reflexivity|]. split; vm_compute; reflexivity. Qed.
