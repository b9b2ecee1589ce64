(* Property C112: a datapoint on its way from text to text. *)
From Coq Require Import SpecFloat ZArith.
From Verif Require Import Base Num MathUtils Env Centroid CManager Wp DataSpec Proc Server ServerSpec Core CoreSpec CoreSeq QuerySpec Routes RoutesCase Json JsonSpec BodySpec
  FloatSpec JsonText TextSpec TextNumSpec TextWholeSpec ShowFloat Gob GobWire GobSpec Zones Trip Sendable TestEnv TestWorld SeqProofs TextCase TripCase.
From Coq.Init Require Import Byte.
From Coq Require Import Strings.Byte Strings.String.
Local Open Scope string_scope.
Local Open Scope list_scope.

(* What the text of a put says is in the text of the answer to a later query, if no message is lost,
   there is a node, and the query overlooks nothing (C81).  The zone of the time is not one minute
   west (C111). *)
Theorem C112_trip : forall (E : Env f64), EnvOk E -> forall D put_first addrs m method z s kn ka kd kv kp ke kx nraw ns acc vs praw p traw tm b (w : World f64) t,
  api_start put_first (Some addrs) [] = Ok (m, true) ->
  Document (TObj [(kn, TStr nraw); (ka, TBool acc); (kd, TObj [(kv, TArr (map TNum vs)); (kp, TStr praw); (ke, TStr traw); (kx, TBool b)])]) s ->
  names kn "namespace" -> names ka "accurate" -> names kd "dp" ->
  names kv "vec" -> names kp "payload" -> names ke "expires" -> names kx "expireEnabled" ->
  Means nraw ns -> Forall small vs -> Bytes praw p -> DateTime traw tm -> zone_ok z ->
  all_delivered E -> WorldOk w -> DimsOk D w -> NoDup addrs -> D ns (List.length vs) -> (exists a, In a addrs /\ node_at w a <> None) ->
  exists v, Forall2 rounds vs v /\
    (never_expired E [MkDP v p tm b] -> takers E w addrs ns (MkDP v p tm b) ->
     wp (exec (serve_http_z E z m (text_request read_f64 method (text "/api/dp/put") false s)) w) t (fun r t1 => fst r = Answer (Http 200 None) /\
       forall method' s' o, text_query read_f64 s' = Some o -> qo_ns o = ns -> sees_all E (snd r) addrs o ->
       wp (exec (serve_http E m (text_request read_f64 method' (text "/api/dp/query") false s')) (snd r)) t1 (fun r' _ =>
         exists found, fst r' = Answer (Http 200 (Some found)) /\
         forall nil l, map sh_dp l = found ->
           Forall (fun x : shown f64 => Forall (fun f => is_fin f = true) (wi_vec (sh_dp x)) /\ (-1440 < sh_zone x < 1440)%Z /\
             (year_begin 0 <= wi_expires (sh_dp x) + sh_zone x * 60000000000 < year_begin 10000)%Z) l ->
           exists js ws, JsonText.body read_f64 (answer_text show_f64 nil l) = Some (JArr js) /\
             all_some (fun j => dec_dp parse_time b64_decode j zero_dp) js = Some ws /\ In (MkWire v p tm b) ws))).
Proof. exact trip. Qed.
Print Assumptions C112_trip.

Example C112_trip_case : Document trip_tree trip_sample /\ api_start true (Some [nA]) [] = Ok (routes [nA], true) /\
  (WorldOk trip_start /\ DimsOk (fun _ _ => True) trip_start) /\ node_at trip_start nA <> None /\
  (forall v, never_expired cosE [MkDP v (text "hi") 1627813800250000000 false] /\ takers cosE trip_start [nA] (text "ns1") (MkDP v (text "hi") 1627813800250000000 false)) /\
  text_query read_f64 trip_question = Some trip_query /\ qo_ns trip_query = text "ns1" /\ sees_all cosE trip_world [nA] trip_query.
Proof. exact trip_case. Qed.

Local Open Scope Z_scope.
(* Whatever body is accepted, the calls that are made for it can be sent: those of a put ... *)
Theorem C112_put_sent : forall s o z, text_put read_f64 s = Some o -> zone_ok z -> 15 * Z.of_nat (List.length s) + 200 <= 2 ^ 33 ->
  req_ok z (QAdd (po_ns o) (to_dp (po_dp o))) /\ req_ok z (QVec (po_ns o)) /\ req_ok z (QNearestVec (po_ns o) (wi_vec (po_dp o))).
Proof. exact put_sendable. Qed.
Print Assumptions C112_put_sent.

Example C112_sent_case : 15 * Z.of_nat (List.length trip_sample) + 200 <= 2 ^ 33 /\
  match text_put read_f64 trip_sample with
  | Some o => match send_call (65, 66) (Some 120) (QAdd (po_ns o) (to_dp (po_dp o))) with Some s => Z.of_nat (List.length s) | None => 0 end
  | None => 0
  end = 73.
Proof. exact sent_case. Qed.

(* ... and those of a query. *)
Theorem C112_query_sent : forall s o n z, text_query read_f64 s = Some o -> 0 <= n <= qo_n o -> 12 * Z.of_nat (List.length s) + 200 <= 2 ^ 33 ->
  req_ok z (QKnnLookup (qo_ns o) (qo_vec o) n (qo_drain o)) /\ req_ok z (QVec (qo_ns o)) /\ req_ok z (QNearestVec (qo_ns o) (qo_vec o)).
Proof. exact query_sendable. Qed.
Print Assumptions C112_query_sent.

Example C112_query_case : match text_query read_f64 trip_question with Some o => qo_n o | None => 0 end = 1.
Proof. vm_compute. reflexivity. Qed.
