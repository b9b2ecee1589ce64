(* Property C110: the numbers of answers. *)
From Coq Require Import QArith Qabs SpecFloat.
From Verif Require Import Base Num Env Server Core Routes Json JsonSpec BodySpec RoutesCase FloatSpec JsonText TextSpec TextNumSpec TextWholeSpec ShowFloat ShowSpec ShowShort ShowText TextCase ShowWhole.
From Coq.Init Require Import Byte.
From Coq Require Import Strings.Byte Strings.String.
Local Open Scope string_scope.
Local Open Scope list_scope.

(* Each number is written as a JSON number that is read back as this number ... *)
Theorem C110_read_back : forall z : F f64, is_fin z = true -> Number (show_f64 z) /\ read_f64 (show_f64 z) = Some z.
Proof. exact show_reads. Qed.
Print Assumptions C110_read_back.

Example C110_texts : map (fun s => option_map show_f64 (read_f64 (text s)))
    ["0.1"; "-0.0"; "2.50"; "1e21"; "9.99e-7"] =
  map (fun s => Some (text s)) ["0.1"; "-0"; "2.5"; "1e+21"; "9.99e-7"].
Proof. vm_compute. reflexivity. Qed.

(* ... so that different numbers have different texts. *)
Theorem C110_apart : forall x y : F f64, is_fin x = true -> is_fin y = true -> show_f64 x = show_f64 y -> x = y.
Proof. exact show_injective. Qed.
Print Assumptions C110_apart.

Example C110_signs : show_f64 (S754_zero true) <> show_f64 (S754_zero false).
Proof. discriminate. Qed.

(* It has at most seventeen digits.  No text of 9000 characters with fewer digits is read as the
   number, and none with as many stands for a number that is closer to it; if one is as close then the last
   digit of the text is even. *)
Theorem C110_shortest : forall z : F f64, is_fin z = true ->
  exists d k q, (0 <= d < 10 ^ 17)%Z /\ Stands (show_f64 z) (negative z) q /\ (q == inject_Z d * Qpower 10 k)%Q /\
    forall s neg q' c i n, Stands s neg q' -> (Z.of_nat (List.length s) <= 9000)%Z -> (q' == inject_Z c * Qpower 10 i)%Q -> (0 <= n)%Z -> (0 <= c < 10 ^ n)%Z -> read_f64 s = Some z ->
      (d < 10 ^ n)%Z /\ ((10 ^ (n - 1) <= d)%Z -> (Qabs (q - Qabs (val z)) <= Qabs (q' - Qabs (val z)))%Q /\
        ((Qabs (q' - Qabs (val z)) <= Qabs (q - Qabs (val z)))%Q -> (q' == q)%Q \/ Z.even d = true)).
Proof. exact show_shortest. Qed.
Print Assumptions C110_shortest.

(* Two texts of sixteen digits that are read as the same number; the closer one is chosen.  And a
   number for which all seventeen digits are necessary. *)
Example C110_closer : read_f64 (text "9007199254740993") = read_f64 (text "9007199254740992") /\
  read_f64 (text "5e-324") = read_f64 (text "4e-324") /\ option_map show_f64 (read_f64 (text "4e-324")) = Some (text "5e-324") /\
  option_map show_f64 (read_f64 (text "0.300000000000000044")) = Some (text "0.30000000000000004").
Proof. vm_compute. auto. Qed.

(* Numbers in the middle between two texts of seventeen digits. *)
Example C110_tie : map (fun s => option_map show_f64 (read_f64 (text s)))
    ["2.98023223876953125e-8"; "1.78813934326171875e-7"] =
  map (fun s => Some (text s)) ["2.9802322387695312e-8"; "1.7881393432617188e-7"].
Proof. vm_compute. reflexivity. Qed.

(* It has no needless zeros, and an exponent exactly if the number is not 0 and below 0.000001 or
   not below 10^21. *)
Theorem C110_form : forall z : F f64, is_fin z = true -> exists b, Neat b (show_f64 z) /\
  forall lo, closest lo (1 # 1000000) -> (b = true <-> ~ (val z == 0)%Q /\ ((Qabs (val z) < val lo)%Q \/ (inject_Z (10 ^ 21) <= Qabs (val z))%Q)).
Proof. exact show_neat. Qed.
Print Assumptions C110_form.

Example C110_form_case : closest (round_decimal false 1 (-6)) (1 # 1000000) /\ Neat true (text "-9.99e-7") /\ Neat false (text "0.000001").
Proof. exact form_case. Qed.

(* The text that answers a query is read back as the datapoints, if their numbers are finite and
   their times have years of four digits. *)
Theorem C110_answer : forall nil l, Forall (fun x : shown f64 => Forall (fun f => is_fin f = true) (wi_vec (sh_dp x)) /\ (-1440 < sh_zone x < 1440)%Z /\
    (year_begin 0 <= wi_expires (sh_dp x) + sh_zone x * 60000000000 < year_begin 10000)%Z) l ->
  exists j, body read_f64 (answer_text show_f64 nil l) = Some j /\
    (j = JNull /\ l = [] /\ nil = true \/
     exists js, j = JArr js /\ all_some (fun j => dec_dp parse_time b64_decode j zero_dp) js = Some (map sh_dp l)).
Proof. exact answer_shown. Qed.
Print Assumptions C110_answer.

Example C110_answer_case : Forall (fun x : shown f64 => Forall (fun f => is_fin f = true) (wi_vec (sh_dp x)) /\ (-1440 < sh_zone x < 1440)%Z /\
    (year_begin 0 <= wi_expires (sh_dp x) + sh_zone x * 60000000000 < year_begin 10000)%Z) number_sample /\
  answer_text show_f64 false number_sample =
    quotes "[{'vec':[0.25,-0,1e-7],'payload':'aGk=','expires':'2021-08-01T12:30:00.25+02:00','expireEnabled':true}]".
Proof. split; [exact sample_ok|exact sample_text]. Qed.
