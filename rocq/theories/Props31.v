(* Property C111: the bytes between nodes. *)
From Coq Require Import SpecFloat ZArith.
From Verif Require Import Base Num MathUtils Env Centroid Server Routes JsonText TextSpec Gob GobWire GobSpec GobProofs GobCalls GobCase ServerSpec NumFacts Core CoreSpec CoreSeq TestEnv TestWorld SeqProofs Wp Proc Zones ZonesProofs ZonesCase.
From Coq.Init Require Import Byte.
From Coq Require Import Strings.Byte Strings.String.
Local Open Scope string_scope.
Local Open Scope list_scope.
Local Open Scope Z_scope.

(* Each value of a type that is sent is read back from its bytes, whatever follows them ... *)
Theorem C111_values : forall id t v, int_ok id -> Has t v -> weight v + 20 <= 2 ^ 33 ->
  exists s, message id t v = Some s /\ forall r, receive id t (s ++ r) = Some (v, r).
Proof. exact message_read. Qed.
Print Assumptions C111_values.

(* The examples of the documentation of encoding/gob: 256, -129, 17.0 and Point{22, 33}. *)
Example C111_documented : put_uint 256 = [xfe; x01; x00] /\ put_int (-129) = [xfe; x01; x01] /\
  enc (VFloat seventeen) = Some [xfe; x31; x40] /\
  message 65 (GStruct [GInt; GInt]) (VStruct [VInt 22; VInt 33]) = Some [x07; xff; x82; x01; x2c; x01; x42; x00].
Proof. vm_compute. repeat split; discriminate. Qed.

(* ... so the node that is called has the call that was made ... *)
Theorem C111_calls : forall ids fuel z q, int_ok (fst ids) -> int_ok (snd ids) -> req_ok z q ->
  exists s, send_call ids z q = Some s /\ forall r, read_call ids fuel (s ++ r) = Some (with_fuel fuel q).
Proof. exact calls_read. Qed.
Print Assumptions C111_calls.

Example C111_call_case : req_ok (Some 60) a_call /\ req_ok None (QDistributeFast (text "ns") (-3) [text "a:1"; []]) /\
  match send_call (65, 66) (Some 60) a_call with Some s => Z.of_nat (List.length s) | None => 0 end = 76.
Proof. exact call_case. Qed.

(* ... and different calls are different bytes. *)
Theorem C111_calls_apart : forall ids z z' q q' s, int_ok (fst ids) -> int_ok (snd ids) -> req_ok z q -> req_ok z' q' ->
  send_call ids z q = Some s -> send_call ids z' q' = Some s -> with_fuel 0 q = with_fuel 0 q'.
Proof. exact calls_apart. Qed.
Print Assumptions C111_calls_apart.

Example C111_zero_case : let look (x : F f64) : req f64 := QNearestVec [] [x] in
  send_call (65, 66) None (look (S754_zero true)) <> send_call (65, 66) None (look (S754_zero false)).
Proof. vm_compute. discriminate. Qed.

(* The client has the answer of the node, but for empty vectors, the vectors of centroids and the
   order of maps. *)
Theorem C111_answers : forall ids m a v, int_ok (fst ids) -> int_ok (snd ids) -> is_ans a v -> answers m a -> Has (ans_type m) v -> weight v + 20 <= 2 ^ 33 ->
  exists s a', send_answer ids m [] v = Some s /\ arrives a a' /\
    forall r, match read_answer ids m (s ++ r) with Some x => ans_of m x | None => None end = Some a'.
Proof. exact answers_read. Qed.
Print Assumptions C111_answers.

Example C111_answer_case : exists v, is_ans an_answer v /\ answers MKnnLookup an_answer /\ Has (ans_type MKnnLookup) v /\ weight v + 20 <= 2 ^ 33.
Proof. exact answer_case. Qed.

(* What is lost on the way: the vectors of the centroids that NearestCentroids finds. *)
Theorem C111_answers_refuted : exists ids m a v s a', int_ok (fst ids) /\ int_ok (snd ids) /\ is_ans a v /\ answers m a /\ Has (ans_type m) v /\
  send_answer ids m [] v = Some s /\ (match read_answer ids m s with Some x => ans_of m x | None => None end) = Some a' /\ a' <> a.
Proof. exact vector_lost. Qed.
Print Assumptions C111_answers_refuted.

(* An unknown namespace is seen as such. *)
Theorem C111_errors : forall ids m ns v, int_ok (fst ids) -> int_ok (snd ids) -> Z.of_nat (List.length ns) + 250 <= 2 ^ 33 ->
  exists s, send_answer ids m (ns_error ns) v = Some s /\ forall r, read_answer ids m (s ++ r) = Some (RErr (ns_error ns)).
Proof. exact errors_read. Qed.
Print Assumptions C111_errors.

Example C111_error_case : ns_error (text "x") = text "namespace not found: 'x'".
Proof. reflexivity. Qed.

(* The times of bodies can be sent with the offsets that they have, but for one minute west. *)
Theorem C111_times : (forall s t, TimeLoose s t -> instant_ok t) /\ (forall zs off, OffsetLoose zs off -> off <> -1 -> zone_ok (Some off)).
Proof. exact (conj times_ok offsets_ok). Qed.
Print Assumptions C111_times.

Example C111_times_case : exists t, TimeLoose (text "2030-01-01T00:00:00" ++ text "-00:02") t /\ OffsetLoose (text "-00:02") (-2).
Proof. exact zone_case. Qed.

(* A datapoint with such a time is in a body that is read, and cannot be sent to any node. *)
Theorem C111_times_refuted : exists zs t, Offset zs (-1) /\ DateTime (text "2030-01-01T00:00:00" ++ zs) t /\ parse_time (text "2030-01-01T00:00:00" ++ zs) = Some t /\
  forall ids ns d, dp_expires d = t -> send_call ids (Some (-1)) (QAdd ns d) = None.
Proof. exact west. Qed.
Print Assumptions C111_times_refuted.

(* So putting datapoints is what C47 and C50 say, with all other zones ... *)
Theorem C111_put : forall (N : Num) (E : Env N) z addrs body w t, zone_ok z -> exec (put_http_z E z addrs body) w t = exec (put_http E addrs body) w t.
Proof. exact @put_same. Qed.
Print Assumptions C111_put.

Example C111_put_case : zone_ok (Some 60) /\ wp (exec (put_http_z cosE (Some 60) [nA] (Some west_put)) west_world) 0 (fun r _ => status (fst r) = 200 /\ List.length (data_at (snd r) nA (text "ns")) = 1%nat).
Proof. exact put_case. Qed.

(* ... and with this one it is answered 500 and changes nothing, though all nodes are there and all
   messages arrive. *)
Theorem C111_put_west : forall (N : Num) (E : Env N), EnvOk E -> NumOrd N -> forall addrs (o : put_opts N) w t, WorldOk w ->
  wp (exec (put_http_z E (Some (-1)) addrs (Some o)) w) t (fun r _ => r = (Http 500 None, w)).
Proof. exact @put_west. Qed.
Print Assumptions C111_put_west.

Theorem C111_put_refuted : exists (E : Env f64) s o zs w a, all_delivered E /\ EnvOk E /\ WorldOk w /\ node_at w a <> None /\
  text_put read_f64 s = Some o /\ (exists l r, s = l ++ zs ++ r) /\ Offset zs (-1) /\
  wp (exec (put_http_z E (Some (-1)) [a] (Some o)) w) 0 (fun r _ => fst r = Http 500 None).
Proof. exact west_refuted. Qed.
Print Assumptions C111_put_refuted.
