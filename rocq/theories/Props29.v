(* Property C109: the texts of HTTP bodies and answers. *)
From Coq Require Import QArith SpecFloat.
From Verif Require Import Base Num MathUtils Knn Env Centroid CManager MathSpec Wp NumFacts TestEnv Proc Server ServerSpec ServerFacts TestWorld
  Core CoreSpec Routes RoutesProofs Json JsonSpec BodySpec BodyProofs RoutesCase FloatSpec
  JsonText TextSpec TextParse TextUtf8 TextBytes TextTime TextLoose TextNumSpec FloatText ShowFloat TextNum TextWholeSpec TextWhole TextCase.
From Coq.Init Require Import Byte.
From Coq Require Import Strings.Byte Strings.String.
Local Open Scope string_scope.
Local Open Scope list_scope.
Local Open Scope nat_scope.

(* Exactly the texts of RFC 8259 are parsed, up to 10000 levels deep. *)
Theorem C109_grammar : forall s t, parse s = Some t <-> Document t s.
Proof. exact parse_iff. Qed.
Print Assumptions C109_grammar.

Example C109_texts : Document put_tree put_sample /\ Document query_tree query_sample /\ parse (text "[1,]") = None /\ parse (text "01") = None.
Proof. repeat split; first [exact put_document | exact query_document | reflexivity]. Qed.

(* Strings mean what RFC 8259 says; whatever stands between the quotes, the result is UTF-8. *)
Theorem C109_strings : (forall raw s, Means raw s -> unquote raw = s) /\ (forall raw, Chars raw -> Utf8 (unquote raw)) /\
  (forall s, Utf8 s -> exists raw, Means raw s).
Proof. exact (conj means_read (conj (fun raw => unquote_utf8 (List.length raw) raw) utf8_written)). Qed.
Print Assumptions C109_strings.

(* What is not well-formed in them is replaced. *)
Theorem C109_strings_any : forall raw, Chars raw -> MeansLoose raw (unquote raw).
Proof. exact unquote_means. Qed.
Print Assumptions C109_strings_any.

Example C109_replaced : unquote (text "a" ++ [xff] ++ text "\ud800!") = text "a" ++ unknown ++ unknown ++ text "!" /\ Chars (text "a" ++ [xff] ++ text "\ud800!").
Proof. split; [reflexivity|exact surrogate_chars]. Qed.

(* Numbers of at most 9000 characters are rounded to the closest binary64 number, and refused when
   they are too large. *)
Theorem C109_numbers : forall s neg q, Stands s neg q -> (Z.of_nat (List.length s) <= 9000)%Z ->
  ((q < limit)%Q -> exists z, read_f64 s = Some z /\ closest z (signed neg q) /\ negative z = neg) /\
  ((limit <= q)%Q -> read_f64 s = None).
Proof. exact float_read. Qed.
Print Assumptions C109_numbers.

(* Without the limit this is false: the exponents of longer ones are cut off. *)
Theorem C109_numbers_refuted : exists s q, Stands s false q /\ (limit <= q)%Q /\ read_f64 s = Some (S754_finite false 6755399441055744 (-51)).
Proof. exact numbers_cut. Qed.
Print Assumptions C109_numbers_refuted.

Theorem C109_numbers_all : forall s, Number s <-> exists neg q, Stands s neg q.
Proof. exact number_iff. Qed.
Print Assumptions C109_numbers_all.

Example C109_rounded : read_f64 (text "0.1") = Some (S754_finite false 7205759403792794 (-56)) /\ read_f64 (text "1e309") = None /\
  read_f64 (text "-1e-400") = Some (S754_zero true) /\ read_f64 (text "9007199254740993") = read_f64 (text "9007199254740992").
Proof. vm_compute. auto 6. Qed.

(* The number of datapoints to find is whole and has 64 bits; bytes are at most 255. *)
Theorem C109_integers : forall s,
  (forall neg z, Whole s neg z -> read_int s = (if (- 2 ^ 63 <=? z)%Z && (z <? 2 ^ 63)%Z then Some z else None) /\
     read_byte s = (if negb neg && (z <=? 255)%Z then Some (nb z) else None)) /\
  (Number s -> (forall neg z, ~ Whole s neg z) -> read_int s = None /\ read_byte s = None).
Proof. exact (fun s => conj (fun neg z H => conj (int_read s neg z H) (byte_read s neg z H)) (not_whole s)). Qed.
Print Assumptions C109_integers.

(* Times are those of RFC 3339, and each instant can be written in each zone. *)
Theorem C109_times : (forall s t, DateTime s t -> parse_time s = Some t) /\
  forall off t, (-1440 < off < 1440)%Z -> (year_begin 0 <= t + off * 60000000000 < year_begin 10000)%Z -> DateTime (show_time off t) t.
Proof. exact (conj time_read time_written). Qed.
Print Assumptions C109_times.

Example C109_time : DateTime (text "2021-08-01T12:30:00.25+02:00") 1627813800250000000.
Proof. exact sample_time. Qed.

(* Some others are read too; this is all that is read. *)
Theorem C109_times_exactly : forall s t, parse_time s = Some t <-> TimeLoose s t.
Proof. exact time_iff. Qed.
Print Assumptions C109_times_exactly.

Example C109_no_time : parse_time (text "2021-02-29T00:00:00Z") = None /\ parse_time (text "2020-02-29T00:00:00Z") <> None /\
  parse_time (text "2021-02-28T24:00:00Z") = None /\ parse_time (text "2021-02-28t23:00:00Z") = None.
Proof. repeat split; discriminate. Qed.

Theorem C109_times_refuted : exists s t, parse_time s = Some t /\ forall t', ~ DateTime s t'.
Proof. exact short_hour. Qed.
Print Assumptions C109_times_refuted.

(* Payloads are base64 after RFC 4648, in which line ends are ignored. *)
Theorem C109_bytes : (forall l s, Base64 l (filter (fun c => negb (one_of [x0d; x0a] c)) s) -> b64_decode s = Some l) /\
  forall l, Base64 l (b64_encode l).
Proof. exact (conj bytes_read encode_ok). Qed.
Print Assumptions C109_bytes.

Theorem C109_bytes_exactly : forall s l, b64_decode s = Some l <-> Base64Loose l (filter (fun c => negb (one_of [x0d; x0a] c)) s).
Proof. exact bytes_iff. Qed.
Print Assumptions C109_bytes_exactly.

Example C109_payload : Base64 (text "hi") (text "aGk=") /\ b64_decode ([x0a] ++ text "aG" ++ [x0d; x0a] ++ text "k=") = Some (text "hi").
Proof. split; [exact (encode_ok (text "hi"))|reflexivity]. Qed.

(* So the text of a put means what it says ... *)
Theorem C109_put : forall s kn ka kd kv kp ke kx nraw ns acc vs praw p traw t b,
  Document (TObj [(kn, TStr nraw); (ka, TBool acc); (kd, TObj [(kv, TArr (map TNum vs)); (kp, TStr praw); (ke, TStr traw); (kx, TBool b)])]) s ->
  names kn "namespace" -> names ka "accurate" -> names kd "dp" ->
  names kv "vec" -> names kp "payload" -> names ke "expires" -> names kx "expireEnabled" ->
  Means nraw ns -> Forall small vs -> Bytes praw p -> DateTime traw t ->
  exists v, Forall2 rounds vs v /\ text_put read_f64 s = Some (MkPut ns acc (MkWire v p t b)).
Proof. exact put_text. Qed.
Print Assumptions C109_put.

(* ... and the text of a query. *)
Theorem C109_query : forall s kn ka kv kk kd nraw ns acc vs ks neg k drain,
  Document (TObj [(kn, TStr nraw); (ka, TBool acc); (kv, TArr (map TNum vs)); (kk, TNum ks); (kd, TBool drain)]) s ->
  names kn "namespace" -> names ka "accurate" -> names kv "queryVec" -> names kk "n" -> names kd "drain" ->
  Means nraw ns -> Forall small vs -> Whole ks neg k -> (- 2 ^ 63 <= k < 2 ^ 63)%Z ->
  exists v, Forall2 rounds vs v /\ text_query read_f64 s = Some (MkQuery ns acc v k drain).
Proof. exact query_text. Qed.
Print Assumptions C109_query.

Example C109_put_case : Document put_tree put_sample /\ Means (text "n\u00731") (text "ns1") /\
  Forall small [text "2.5e-1"; text "-0"; text "12"] /\ Bytes (text "aGk=") (text "hi") /\
  names (text "Namespace") "namespace" /\ names (text "EXPIREENABLED") "expireEnabled".
Proof. exact (conj put_document (conj ns1_means (conj (proj1 put_small) (conj payload_bytes (conj (proj1 put_names) (proj2 (proj2 (proj2 (proj2 (proj2 (proj2 put_names))))))))))). Qed.

(* A put, a query and the answer, all as texts. *)
Example C109_case :
  wp (texted put_route put_sample (fresh [(nA, 10%Z)])) 0 (fun r t => ok200 (fst r) = true /\
    wp (texted query_route query_sample (snd r)) t (fun r' _ =>
      match fst r' with
      | Answer (Http s (Some l)) => (s =? 200)%Z && str_eqb (answer_text show_f64 false (map (fun w => MkShown w false false 120) l))
          (quotes "[{'vec':[0.25,-0,12],'payload':'aGk=','expires':'2021-08-01T12:30:00.25+02:00','expireEnabled':true}]")
      | _ => false end = true)).
Proof. vm_compute. auto 6. Qed.

(* The text of an answer is read back as the datapoints that it was written for, whatever texts
   are chosen for numbers, as long as they are read back as these numbers ... *)
Theorem C109_answer : forall show_float nil l, Forall (showable show_float) l ->
  exists j, body read_f64 (answer_text show_float nil l) = Some j /\
    (j = JNull /\ l = [] /\ nil = true \/
     exists js, j = JArr js /\ all_some (fun j => dec_dp parse_time b64_decode j zero_dp) js = Some (map sh_dp l)).
Proof. exact answer_read_back. Qed.
Print Assumptions C109_answer.

(* ... which is possible. *)
Theorem C109_answer_exists : exists show_float, forall z : F f64, is_fin z = true -> Number (show_float z) /\ read_f64 (show_float z) = Some z.
Proof. exact texts_exist. Qed.
Print Assumptions C109_answer_exists.

Example C109_answer_case : Forall (showable show_exact) shown_sample.
Proof. exact sample_showable. Qed.

(* handler.go:38-39: it is not necessary to check the error of ReadAll, since a body that was cut
   short will not be accepted, unless nothing but white space is missing. *)
Theorem C109_cut : forall (N : Num) (read_float : str -> option (F N)) p q,
  (text_put read_float p <> None -> text_put read_float (p ++ q) <> None -> text_put read_float p = text_put read_float (p ++ q) /\ Ws q) /\
  (text_query read_float p <> None -> text_query read_float (p ++ q) <> None -> text_query read_float p = text_query read_float (p ++ q) /\ Ws q).
Proof. exact @cut_text. Qed.
Print Assumptions C109_cut.

Example C109_cut_case : text_put (fun _ : str => @None (F f64)) (quotes "{'namespace':'a'}") <> None /\
  text_put (fun _ : str => @None (F f64)) (quotes "{'namespace':'a'}" ++ text "  ") <> None.
Proof. split; discriminate. Qed.

(* The namespaces of requests are UTF-8. *)
Theorem C109_namespaces : forall (N : Num) (read_float : str -> option (F N)) s,
  (forall o, text_put read_float s = Some o -> Utf8 (po_ns o)) /\ (forall o, text_query read_float s = Some o -> Utf8 (qo_ns o)).
Proof. exact @namespaces_utf8. Qed.
Print Assumptions C109_namespaces.

(* So some namespaces cannot be named, and names that differ in other bytes are one. *)
Theorem C109_reach_refuted : exists ns, forall N (read_float : str -> option (F N)) s,
  (forall o, text_put read_float s = Some o -> po_ns o <> ns) /\ (forall o, text_query read_float s = Some o -> qo_ns o <> ns).
Proof. exact unreachable. Qed.
Print Assumptions C109_reach_refuted.

Theorem C109_apart_refuted : exists a b, a <> b /\ forall N (read_float : str -> option (F N)), exists o,
  text_put read_float (quotes "{'namespace':'" ++ [a] ++ quotes "'}") = Some o /\ text_put read_float (quotes "{'namespace':'" ++ [b] ++ quotes "'}") = Some o /\
  po_ns o = [xef; xbf; xbd].
Proof. exact collide. Qed.
Print Assumptions C109_apart_refuted.
