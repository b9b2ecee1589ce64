(* Whole answers with the numbers that are written, and cases. *)
From Coq Require Import ZArith QArith Qabs SpecFloat Lia.
From Verif Require Import Base Num Env Server Core Routes Json JsonSpec BodySpec MathSpec RoutesCase FloatSpec JsonText TextSpec TextNumSpec FloatText TextNum TextWholeSpec TextWhole ShowFloat ShowSpec ShowText TextCase.
From Coq.Init Require Import Byte.
From Coq Require Import Strings.Byte Strings.String.
Local Open Scope string_scope.
Local Open Scope list_scope.

Theorem answer_shown nil l : Forall (fun x : shown f64 => Forall (fun f => is_fin f = true) (wi_vec (sh_dp x)) /\ (-1440 < sh_zone x < 1440)%Z /\
    (year_begin 0 <= wi_expires (sh_dp x) + sh_zone x * 60000000000 < year_begin 10000)%Z) l ->
  exists j, body read_f64 (answer_text show_f64 nil l) = Some j /\
    (j = JNull /\ l = [] /\ nil = true \/
     exists js, j = JArr js /\ all_some (fun j => dec_dp parse_time b64_decode j zero_dp) js = Some (map sh_dp l)).
Proof.
  intros H. apply answer_read_back. eapply Forall_impl; [|exact H]. intros x (H1 & H2). split; [|exact H2].
  eapply Forall_impl; [|exact H1]. intros f Hf. apply show_reads. exact Hf.
Qed.

Lemma form_case : closest (round_decimal false 1 (-6)) (1 # 1000000) /\ Neat true (text "-9.99e-7") /\ Neat false (text "0.000001").
Proof.
  split; [|split].
  - destruct (round_decimal_ok false 1 (-6) ltac:(lia)) as (R & _). apply nearest_closest. apply R. vm_compute. reflexivity.
  - apply (neat_exponent (text "-") x39 (text ".99") (text "e-") x37 []); try (cbn; tauto); [|constructor].
    right. exists [x39], x39. split; [reflexivity|]. split; [|cbn; tauto]. constructor; [cbn; tauto|constructor].
  - apply (neat_plain [] (text "0") (text ".000001")); [cbn; auto|constructor|]. right. exists (text "00000"), x31. split; [reflexivity|]. split; [|cbn; tauto].
    cbn. repeat (apply Forall_cons; [left; reflexivity|]). apply Forall_nil.
Qed.

Definition number_sample : list (shown f64) :=
  [MkShown (MkWire (N:=f64) [S754_finite false 4503599627370496 (-54); S754_zero true; round_decimal false 1 (-7)] (text "hi") 1627813800250000000 true) false false 120].
Lemma sample_ok : Forall (fun x : shown f64 => Forall (fun f => is_fin f = true) (wi_vec (sh_dp x)) /\ (-1440 < sh_zone x < 1440)%Z /\
    (year_begin 0 <= wi_expires (sh_dp x) + sh_zone x * 60000000000 < year_begin 10000)%Z) number_sample.
Proof.
  apply Forall_cons; [|apply Forall_nil]. cbn [sh_dp wi_vec sh_zone wi_expires]. split; [|split; [lia|]].
  - apply Forall_cons; [reflexivity|]. apply Forall_cons; [reflexivity|]. apply Forall_cons; [vm_compute; reflexivity|apply Forall_nil].
  - change (year_begin 0) with (-62167219200000000000)%Z. change (year_begin 10000) with 253402300800000000000%Z. lia.
Qed.
Lemma sample_text : answer_text show_f64 false number_sample =
  quotes "[{'vec':[0.25,-0,1e-7],'payload':'aGk=','expires':'2021-08-01T12:30:00.25+02:00','expireEnabled':true}]".
Proof. vm_compute. reflexivity. Qed.
