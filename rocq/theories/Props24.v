(* Property C104: the text of the log. *)
From Verif Require Import Base Num MathUtils Env Centroid CManager DataSpec MgrSpec Wp Proc Server ServerSpec Core CoreSpec EventLoop Log LogSpec LogText LogTextSpec
  LogTextProofs LogTextCase Routes TestEnv TestWorld.
From Coq.Init Require Import Byte.
From Coq Require Import Strings.String.
Local Open Scope nat_scope.

(* ---- C104 ---- *)
Theorem C104_readable : forall l l' : list (str * log_line), Forall plain_entry l -> Forall plain_entry l' -> transcript l = transcript l' -> l = l'.
Proof. exact readable. Qed.
Print Assumptions C104_readable.

(* Two lines and their text, of two lines with one line break each. *)
Definition two_lines : list (str * log_line) :=
  [(stamp1, NodeLine (text "localhost:3000") 12 345 678 (Some (note_text (NTask TMerge (text "images")))));
   (stamp1, NodeLine (text "localhost:3001") 0 0 0 None)].
Example C104_readable_case : Forall plain_entry two_lines /\ transcript two_lines =
  text "2009/01/23 01:23:23 [localhost:3000] namespaces:  12 | centroids:    345 | dps:    678 | task: (ns 'images') merging" ++ [newline] ++
  text "2009/01/23 01:23:23 [localhost:3001] namespaces:   0 | centroids:      0 | dps:      0 |" ++ [newline].
Proof. split; [unfold two_lines; plain|vm_compute; reflexivity]. Qed.

Theorem C104_notes : forall x x' : note, plain_note x -> plain_note x' -> note_text x = note_text x' -> x = x'.
Proof. exact notes_readable. Qed.
Print Assumptions C104_notes.

(* Namespaces may contain anything, also what looks like a note. *)
Example C104_notes_case :
  let x := NBalance (text "a') load balancing (want 1 dps, got 2 from b") 17 20 (text "c") in
  plain_note x /\ plain_note (NTask TFast (text "it's")) /\ note_text (NTask TFast (text "it's")) = text "(ns 'it's') distri fast" /\
  note_text x = text "(ns 'a') load balancing (want 1 dps, got 2 from b') load balancing (want 17 dps, got 20 from c)".
Proof.
  cbv zeta. split; [apply without_check; reflexivity|]. split; [intros [H|[H|[]]]; discriminate H|]. split; vm_compute; reflexivity.
Qed.

Theorem C104_aligned : forall a n cens dps a' n' cens' dps', List.length a = List.length a' -> without x7c a -> without x7c a' ->
  n < 10 ^ 3 -> n' < 10 ^ 3 -> cens < 10 ^ 6 -> cens' < 10 ^ 6 -> dps < 10 ^ 6 -> dps' < 10 ^ 6 ->
  bars (line_text (NodeLine a n cens dps None)) = bars (line_text (NodeLine a' n' cens' dps' None)).
Proof. exact aligned. Qed.
Print Assumptions C104_aligned.

Example C104_aligned_case : List.length nA = List.length nB /\ without x7c nA /\ without x7c nB /\ 12 < 10 ^ 3 /\ 345 < 10 ^ 6 /\
  line_text (NodeLine nA 12 345 7 None) = text "[A] namespaces:  12 | centroids:    345 | dps:      7 |" /\
  line_text (NodeLine nB 3 4 100 None) = text "[B] namespaces:   3 | centroids:      4 | dps:    100 |".
Proof.
  split; [reflexivity|]. split; [apply without_check; reflexivity|]. split; [apply without_check; reflexivity|].
  split; [apply Nat.ltb_lt; vm_compute; reflexivity|]. split; [change 6 with (3 + 3); rewrite Nat.pow_add_r; apply Nat.lt_le_trans with (10 ^ 3 * 1); [|apply Nat.mul_le_mono_l];
    [apply Nat.ltb_lt; vm_compute; reflexivity|apply Nat.leb_le; vm_compute; reflexivity]|]. split; vm_compute; reflexivity.
Qed.

(* A namespace that anybody can create with an HTTP put forges a line of the log: the text is that of three harmless lines, one of
   which says something false of another node. *)
Theorem C104_forged_refuted : exists (E : Env f64) ths addrs body c ns stamp l, EnvOk E /\ all_delivered E /\
  wp (exec (put_http E addrs body) (fresh ths)) 0 (fun r _ => status (fst r) = 200%Z /\ manager (snd r) (el_local c) ns <> None /\
    Forall plain_entry l /\
    transcript (map (pair stamp) (log_task (default_logger c) (note_text (NTask TExpire ns)))) = transcript l /\
    exists x, In (stamp, x) l /\ ~ tells (snd r) x /\ ~ blank x /\ line_task x = None).
Proof. exact forged_log. Qed.
Print Assumptions C104_forged_refuted.
