(* Cases for Zones.v. *)
From Coq Require Import SpecFloat.
From Verif Require Import Base Num MathUtils Knn Env Centroid CManager Wp TestEnv Proc Server ServerSpec TestWorld Core CoreSpec CoreSeq Props06Lemmas Routes
  JsonText TextSpec TextLoose TextCase Gob GobSpec Zones ZonesProofs.
From Coq.Init Require Import Byte.
From Coq Require Import Strings.Byte Strings.String.
Local Open Scope string_scope.
Local Open Scope list_scope.
Local Open Scope nat_scope.

Definition west_put : put_opts f64 := MkPut (text "ns") false (MkWire [S754_zero false : F f64] [] 1893456060000000000%Z false).
Definition west_world : World f64 := fresh [(nA, 2%Z)].
Definition west_text : str := quotes "{'namespace':'ns','dp':{'vec':[0],'expires':'2030-01-01T00:00:00-00:01'}}".

Lemma put_case : zone_ok (Some 60%Z) /\
  wp (exec (put_http_z cosE (Some 60%Z) [nA] (Some west_put)) west_world) 0 (fun r _ => status (fst r) = 200%Z /\ List.length (data_at (snd r) nA (text "ns")) = 1).
Proof.
  split; [cbn; lia|]. vm_compute. auto.
Qed.
Lemma west_refuted : exists (E : Env f64) s o zs w a, all_delivered E /\ EnvOk E /\ WorldOk w /\ node_at w a <> None /\
  text_put read_f64 s = Some o /\ (exists l r, s = l ++ zs ++ r) /\ Offset zs (-1) /\
  wp (exec (put_http_z E (Some (-1)%Z) [a] (Some o)) w) 0 (fun r _ => fst r = Http 500%Z None).
Proof.
  destruct (text_put read_f64 west_text) as [o|] eqn:Eo.
  2:{ assert (K : match text_put read_f64 west_text with Some _ => true | None => false end = true) by (vm_compute; reflexivity). rewrite Eo in K. discriminate. }
  exists cosE, west_text, o, (text "-00:01"), west_world, nA.
  assert (W : WorldOk west_world) by (apply (fresh_ok (fun _ _ => True)); constructor; [intros []|constructor]).
  split; [intros k; reflexivity|]. split; [exact cosE_ok|]. split; [exact W|]. split; [discriminate|]. split; [exact Eo|]. split.
  - exists (quotes "{'namespace':'ns','dp':{'vec':[0],'expires':'2030-01-01T00:00:00"), (quotes "'}}"). reflexivity.
  - split.
    + apply (off_west [x30; x30] [x30; x31] 0 1); try lia; apply dec_of; reflexivity.
    + eapply wp_mono; [apply put_west; [exact cosE_ok|exact NumFacts.f64_ord|exact W]|]. intros r t ->. reflexivity.
Qed.
