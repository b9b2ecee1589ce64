(* Properties C101 and C102: the HTTP interface from the request line to the handlers. *)
From Verif Require Import Base Num MathUtils Knn Env Centroid CManager MathSpec DataSpec MgrSpec Wp NumFacts TestEnv Proc Server ServerSpec ServerFacts TestWorld
  Core CoreSpec Routes RoutesProofs Json JsonSpec BodySpec BodyProofs RoutesCase.
From Coq.Init Require Import Byte.
From Coq Require Import Strings.Byte Strings.String.
Local Open Scope string_scope.
Local Open Scope list_scope.
Local Open Scope nat_scope.

(* ---- C101: the routes ---- *)
Theorem C101_put : forall (N : Num) (E : Env N) put_first addrs m r, api_start put_first (Some addrs) [] = Ok (m, true) ->
  rq_star r = false -> rq_path r = text "/api/dp/put" ->
  serve_http E m r = (call h <- put_http E addrs (rq_put r); Ret (Answer h)).
Proof. exact @serve_put. Qed.
Print Assumptions C101_put.

Theorem C101_query : forall (N : Num) (E : Env N) put_first addrs m r, api_start put_first (Some addrs) [] = Ok (m, true) ->
  rq_star r = false -> rq_path r = text "/api/dp/query" ->
  serve_http E m r = (call x <- query_http E addrs (rq_query r); Ret (Answer (fst x))).
Proof. exact @serve_query. Qed.
Print Assumptions C101_query.

(* Anything else is answered at once, and touches no node: 400 for a request line with "*", 404,
   or 301 to another path that will not be redirected again. *)
Theorem C101_other : forall (N : Num) (E : Env N) put_first addrs m (r : http_request N), api_start put_first (Some addrs) [] = Ok (m, true) ->
  rq_star r = true \/ (rq_path r <> text "/api/dp/put" /\ rq_path r <> text "/api/dp/query") ->
  exists a, serve_http E m r = Ret a /\
    (a = Answer (Http 400 None) /\ rq_star r = true \/
     a = Answer (Http 404 None) /\ rq_star r = false \/
     exists p, a = Redirect p /\ rq_star r = false /\ p <> rq_path r /\ clean_path p = p).
Proof. exact @serve_other. Qed.
Print Assumptions C101_other.

Theorem C101_starts : forall put_first addrs, exists m, api_start put_first (Some addrs) [] = Ok (m, true).
Proof. exact starts. Qed.
Print Assumptions C101_starts.

(* Without addresses nothing is registered and nothing listens. *)
Theorem C101_nil : forall put_first m, api_start put_first None m = Ok (m, false).
Proof. exact no_addresses. Qed.
Print Assumptions C101_nil.

(* A second call of Start in the same process panics, also after the first has returned an error
   (because the port was taken, say). *)
Theorem C101_again : forall put_first put_first' addrs addrs' m,
  api_start put_first (Some addrs) [] = Ok (m, true) -> api_start put_first' (Some addrs') m = Panic.
Proof. exact starts_again. Qed.
Print Assumptions C101_again.

Example C101_case :
  clean_path (text "//api/./dp/x/../put") = text "/api/dp/put" /\ clean_path (text "/api/dp/put/") = text "/api/dp/put/" /\
  serve_http cosE (routes [nA]) (MkReq (N := f64) (text "GET") (text "/api//dp/put") false None None) = Ret (Redirect (text "/api/dp/put")) /\
  serve_http cosE (routes [nA]) (MkReq (N := f64) (text "GET") (text "/api/dp/put/") false None None) = Ret (Answer (Http 404 None)) /\
  serve_http cosE (routes [nA]) (MkReq (N := f64) (text "GET") (text "/api/dp/put") false None None) = Ret (Answer (Http 400 None)).
Proof. repeat split. Qed.

(* ---- C102: the bodies ---- *)
(* Exactly the bodies that are JSON objects (or null) in which the members with the names of
   fields have values of the right kind are accepted. *)
Theorem C102_put_accepted : forall (N : Num) parse_time parse_bytes body,
  dec_put (N := N) parse_time parse_bytes body <> None <->
  exists j, body = Some j /\ put_ok (fun s => match parse_time s with Some _ => true | None => false end)
                                    (fun s => match parse_bytes s with Some _ => true | None => false end) j.
Proof. exact @dec_put_iff. Qed.
Print Assumptions C102_put_accepted.

Theorem C102_query_accepted : forall (N : Num) (parse_time : str -> option Z) (parse_bytes : str -> option (list byte)) body,
  dec_query (N := N) body <> None <->
  exists j, body = Some j /\ query_ok (fun s => match parse_time s with Some _ => true | None => false end)
                                      (fun s => match parse_bytes s with Some _ => true | None => false end) j.
Proof. exact @dec_query_iff. Qed.
Print Assumptions C102_query_accepted.

(* The documented layout means what it says. *)
Theorem C102_put_read : forall (N : Num) parse_time parse_bytes (num : F N -> json N) show_time show_bytes,
  (forall x, dec_float (num x) = Some x) ->
  (forall z, year_ok z = true -> parse_time (show_time z) = Some z) ->
  (forall l, dec_bytes parse_bytes (show_bytes l) = Some l) ->
  forall raw ns acc w, year_ok (wi_expires w) = true ->
  dec_put parse_time parse_bytes (Some (JObj [(text "namespace", JStr raw ns); (text "accurate", JBool acc);
    (text "dp", enc_dp num show_time show_bytes w)])) = Some (MkPut ns acc w).
Proof. exact @put_read. Qed.
Print Assumptions C102_put_read.

Theorem C102_query_read : forall (N : Num) (num : F N -> json N), (forall x, dec_float (num x) = Some x) ->
  forall raw ns acc v n drain shown, dec_int shown 0 = Some n ->
  dec_query (Some (JObj [(text "namespace", JStr raw ns); (text "accurate", JBool acc); (text "queryVec", JArr (map num v));
    (text "n", shown); (text "drain", JBool drain)])) = Some (MkQuery ns acc v n drain).
Proof. exact @query_read. Qed.
Print Assumptions C102_query_read.

(* What a query answers can be put again. *)
Theorem C102_answer_read : forall (N : Num) parse_time parse_bytes (num : F N -> json N) show_time show_bytes,
  (forall x, dec_float (num x) = Some x) ->
  (forall z, year_ok z = true -> parse_time (show_time z) = Some z) ->
  (forall l, dec_bytes parse_bytes (show_bytes l) = Some l) ->
  forall ds l, marshal (of_dps ds) = Some l ->
  all_some (fun j => option_map to_dp (dec_dp parse_time parse_bytes j zero_dp)) (map (enc_dp num show_time show_bytes) l) = Some ds.
Proof. exact @answer_read. Qed.
Print Assumptions C102_answer_read.

(* The order of members is irrelevant if no field is named twice; other members are skipped. *)
Theorem C102_any_order : forall (N : Num) parse_time parse_bytes (m m' : list (str * json N)),
  Permutation m m' -> no_twins m ->
  dec_put parse_time parse_bytes (Some (JObj m)) = dec_put parse_time parse_bytes (Some (JObj m')) /\
  dec_query (Some (JObj m)) = dec_query (Some (JObj m')) /\
  forall w, dec_dp parse_time parse_bytes (JObj m) w = dec_dp parse_time parse_bytes (JObj m') w.
Proof. exact @any_order. Qed.
Print Assumptions C102_any_order.

Theorem C102_strangers : forall (N : Num) parse_time parse_bytes (m1 m2 : list (str * json N)) x,
  (stranger ["namespace"; "accurate"; "dp"] x ->
     dec_put parse_time parse_bytes (Some (JObj (m1 ++ x :: m2))) = dec_put parse_time parse_bytes (Some (JObj (m1 ++ m2)))) /\
  (stranger ["namespace"; "accurate"; "queryVec"; "n"; "drain"] x ->
     dec_query (Some (JObj (m1 ++ x :: m2))) = dec_query (Some (JObj (m1 ++ m2)))) /\
  (stranger ["vec"; "payload"; "expires"; "expireEnabled"] x -> forall w,
     dec_dp parse_time parse_bytes (JObj (m1 ++ x :: m2)) w = dec_dp parse_time parse_bytes (JObj (m1 ++ m2)) w).
Proof. exact @strangers_skipped. Qed.
Print Assumptions C102_strangers.

(* Only the spelling of names that the specification allows matters. *)
Theorem C102_spelling : forall (N : Num) parse_time parse_bytes (m1 m2 : list (str * json N)) n f j,
  In f field_names -> spells n (text f) ->
  dec_put parse_time parse_bytes (Some (JObj (m1 ++ (n, j) :: m2))) = dec_put parse_time parse_bytes (Some (JObj (m1 ++ (text f, j) :: m2))) /\
  dec_query (Some (JObj (m1 ++ (n, j) :: m2))) = dec_query (Some (JObj (m1 ++ (text f, j) :: m2))) /\
  forall w, dec_dp parse_time parse_bytes (JObj (m1 ++ (n, j) :: m2)) w = dec_dp parse_time parse_bytes (JObj (m1 ++ (text f, j) :: m2)) w.
Proof. exact @any_spelling. Qed.
Print Assumptions C102_spelling.

Example C102_spellings : spells (text "ExpireEnabled") (text "expireEnabled") /\ spells (text "EXPIRE" ++ [xc5; xbf]) (text "expires").
Proof.
  split; cbn; repeat (apply spells_cons; [first [left; reflexivity|right; left; cbn; tauto]|]); [apply spells_nil|].
  apply spells_long_s; [left; reflexivity|apply spells_nil].
Qed.

(* Fields that do not occur are empty, false or 0; the time is the beginning of the year 1. *)
Theorem C102_defaults : forall (N : Num) parse_time parse_bytes m,
  (forall o, dec_put (N := N) parse_time parse_bytes (Some (JObj m)) = Some o ->
     (absent m "namespace" -> po_ns o = []) /\ (absent m "accurate" -> po_accurate o = false) /\
     (absent m "dp" -> po_dp o = MkWire [] [] (year_begin 1) false)) /\
  (forall o, dec_query (N := N) (Some (JObj m)) = Some o ->
     (absent m "namespace" -> qo_ns o = []) /\ (absent m "accurate" -> qo_accurate o = false) /\
     (absent m "queryVec" -> qo_vec o = []) /\ (absent m "n" -> qo_n o = 0%Z) /\ (absent m "drain" -> qo_drain o = false)).
Proof. exact @defaults. Qed.
Print Assumptions C102_defaults.

Theorem C102_dp_defaults : forall (N : Num) parse_time parse_bytes m o,
  dec_put (N := N) parse_time parse_bytes (Some (JObj [(text "dp", JObj m)])) = Some o ->
  (absent m "vec" -> wi_vec (po_dp o) = []) /\ (absent m "payload" -> wi_payload (po_dp o) = []) /\
  (absent m "expires" -> wi_expires (po_dp o) = year_begin 1) /\ (absent m "expireEnabled" -> wi_expire_enabled (po_dp o) = false).
Proof. exact @dp_in_put. Qed.
Print Assumptions C102_dp_defaults.

(* Full statement: a put that names no namespace or has no vector is refused.  It is stored. *)
Theorem C102_empty_refuted : forall parse_time parse_bytes, exists ths addrs m,
  api_start true (Some addrs) [] = Ok (m, true) /\
  wp (exec (serve_http cosE m (json_request parse_time parse_bytes (text "POST") (text "/api/dp/put") false (Some (JObj [])))) (fresh ths)) 0
     (fun r _ => fst r = Answer (Http 200 None) /\ exists a d, data_at (snd r) a [] = [d] /\ dp_vec d = []).
Proof. exact empty_put. Qed.
Print Assumptions C102_empty_refuted.

(* A put and a query for it, members in any order and case. *)
Example C102_case :
  wp (served put_route (body_put [2;0]%Z) (fresh [(nA, 10%Z)])) 0 (fun r t => ok200 (fst r) = true /\
    wp (served query_route (body_query 1) (snd r)) t (fun r' _ =>
      match fst r' with Answer (Http s (Some [w])) => (s =? 200)%Z && vec_eq (wi_vec w) [fz 2; fz 0] | _ => false end = true)).
Proof. vm_compute. auto. Qed.

(* The texts of numbers, times and bytes in C102_put_read exist. *)
Example C102_texts : exists (num : F f64 -> json f64) parse_time (show_time : Z -> str) parse_bytes (show_bytes : list byte -> json f64),
  (forall x, dec_float (num x) = Some x) /\ (forall z : Z, year_ok z = true -> parse_time (show_time z) = Some z) /\
  (forall l, dec_bytes parse_bytes (show_bytes l) = Some l).
Proof. exact texts. Qed.
