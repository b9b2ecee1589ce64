(* Runs of a listener that do not end as they should. *)
From Verif Require Import Base Listen ListenSpec ListenProofs.

(* A client connects and is served. *)
Definition arrives : list levent := [Dialled; Accepter; Accepter].
Definition two_clients : list levent := arrives ++ arrives ++ [Request 1].

(* Between the comparison with nil and the call of Close, Accept fails because the listener is
   closed, and conn becomes nil. *)
Lemma stop_panics : exists es s, lrun listening es = Some s /\ dials es = 1 /\ l_stop s = Crashed.
Proof. exists (arrives ++ [Stopper; Stopper; Failed; Accepter; Stopper]). eexists. repeat split. Qed.

(* The same before the comparison: stop finds nil and closes nothing. *)
Lemma stop_misses : exists es s i s',
  lrun listening es = Some s /\ l_stop s = Stopped /\ dials es = 1 /\ lrun s [Request i] = Some s'.
Proof. exists (arrives ++ [Stopper; Failed; Accepter; Stopper]). do 3 eexists. repeat split. cbn. instantiate (2 := 0). reflexivity. Qed.

Lemma stop_forgets : exists es s i s',
  lrun listening es = Some s /\ ~ In Failed es /\ l_stop s = Stopped /\ S i < dials es /\ lrun s [Request i] = Some s'.
Proof.
  exists (arrives ++ arrives ++ [Stopper; Stopper; Stopper]). eexists. exists 0. eexists. split; [reflexivity|].
  split; [cbn; intuition discriminate|]. split; [reflexivity|]. split; [cbn; lia|]. reflexivity.
Qed.

Lemma deaf : exists es s, lrun listening es = Some s /\ l_open s = true /\ l_stop s = NotCalled /\
  forall es' s', lrun s es' = Some s' -> dials es' = 0.
Proof.
  exists (arrives ++ [Failed]). eexists. split; [reflexivity|]. split; [reflexivity|]. split; [reflexivity|].
  intros es' s'. apply (one_failure (arrives ++ [Failed])); [reflexivity|]. cbn. auto.
Qed.
