(* The text of the log: concrete cases. *)
From Verif Require Import Base Num MathUtils Knn Env Centroid CManager DataSpec MgrSpec Proc Server ServerSpec Core CoreSpec EventLoop Log LogSpec LogText LogTextSpec Routes
  Wp TestEnv TestWorld.
From Coq.Init Require Import Byte.
From Coq Require Import Strings.String.
Local Open Scope nat_scope.

Definition stamp1 : str := text "2009/01/23 01:23:23 ".
Definition cfgA : el_cfg := MkEl nA [nA; nB] (MkSkips 1 1 1 1 1 1 1 1 1) 1 1 1 1 3 (-1) 100 true 5.
Definition false_line : log_line := NodeLine nB 1 1 9 None.
(* A namespace with two line breaks. *)
Definition forged : str :=
  text "x') expire" ++ [newline] ++ stamp1 ++ line_text false_line ++ [newline] ++ stamp1 ++ text "[A] task: (ns 'y".
Definition as_read : list (str * log_line) :=
  [(stamp1, TaskLine nA (note_text (NTask TExpire (text "x")))); (stamp1, false_line);
   (stamp1, TaskLine nA (note_text (NTask TExpire (text "y"))))].

Lemma without_check c s : existsb (Byte.eqb c) s = false -> without c s.
Proof.
  intros H Hi. assert (existsb (Byte.eqb c) s = true); [|congruence]. apply existsb_exists. exists c. split; auto.
  apply Byte.byte_dec_lb. reflexivity.
Qed.
Ltac plain := repeat match goal with
  | |- Forall _ (_ :: _) => apply Forall_cons
  | |- Forall _ [] => apply Forall_nil
  | |- plain_entry _ => unfold plain_entry; cbn [fst snd plain_line]
  | |- _ /\ _ => split
  | |- without _ _ => apply without_check; vm_compute; reflexivity
  | |- _ => exact I
  | |- _ => reflexivity
  end.

Lemma forged_log : exists (E : Env f64) ths addrs body c ns stamp l, EnvOk E /\ all_delivered E /\
  wp (exec (put_http E addrs body) (fresh ths)) 0 (fun r _ => status (fst r) = 200%Z /\ manager (snd r) (el_local c) ns <> None /\
    Forall plain_entry l /\
    transcript (map (pair stamp) (log_task (default_logger c) (note_text (NTask TExpire ns)))) = transcript l /\
    exists x, In (stamp, x) l /\ ~ tells (snd r) x /\ ~ blank x /\ line_task x = None).
Proof.
  exists cosE, [(nA, 20%Z)], [nA], (Some (MkPut forged false (of_dp (dp [1; 2]%Z)))), cfgA, forged, stamp1, as_read.
  split; [apply cosE_ok|]. split; [intros k; reflexivity|].
  assert (H : wp (exec (put_http cosE [nA] (Some (MkPut forged false (of_dp (dp [1; 2]%Z))))) (fresh [(nA, 20%Z)])) 0 (fun r _ =>
    status (fst r) = 200%Z /\ (if manager (snd r) (el_local cfgA) forged then true else false) = true /\
    (if node_at (snd r) nB then false else true) = true)).
  { vm_compute. auto. }
  eapply wp_mono; [exact H|]. clear H. intros r t' (H1 & H2 & H3). cbv beta. split; [exact H1|]. split; [destruct (manager (snd r) (el_local cfgA) forged); [intros; discriminate|discriminate H2]|]. split; [|split].
  - unfold as_read, false_line. plain.
  - vm_compute. reflexivity.
  - exists false_line. split; [right; left; reflexivity|]. split; [|split; [discriminate|reflexivity]].
    intros (nss & _ & Hn & Hl & _). destruct nss as [|ns nss]; [discriminate|].
    apply (proj1 (Hn ns)); [left; reflexivity|]. unfold manager. destruct (node_at (snd r) nB); [discriminate H3|reflexivity].
Qed.
