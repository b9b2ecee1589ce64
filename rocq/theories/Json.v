(* Model of the decoding of requests and the encoding of answers in core/api: the json tags of
   handler.go:51-55 and 94-100 and conv.go:9-14, handler.go:36-47 tryUnpackRequestOptions, 131
   json.Marshal.  A body is the value that its text denotes, or None if the text is no JSON; the
   texts are in JsonText.v.  What encoding/json (Go 1.16) does is modelled for these types only.
   Simplification: if a vector occurs twice in one object, null numbers in the later one are 0
   (in Go, what the earlier one had there).  The text forms of times and bytes are parameters. *)
From Verif Require Import Base Num MathUtils Knn Env Centroid CManager Proc Server Core Routes.
From Coq.Init Require Import Byte.
From Coq Require Import Strings.Byte Strings.String NArith.
Local Open Scope string_scope.
Local Open Scope list_scope.

Section Json.
Context {N : Num}.
(* RFC 3339 as time.Time.UnmarshalJSON reads it; base64. *)
Variable parse_time : str -> option Z.
Variable parse_bytes : str -> option (list byte).

(* A number has a value as a float64 (None: out of range), as an int (None: a fraction, an
   exponent, or out of range), and as a uint8 (None also: a minus sign).  A string has its text
   between the quotes, and what that denotes. *)
Inductive json :=
| JNull
| JBool (b : bool)
| JNum (f : option (F N)) (i : option Z) (u : option byte)
| JStr (raw s : str)
| JArr (l : list json)
| JObj (m : list (str * json)).

Definition lower (c : byte) : byte :=
  let n := Byte.to_N c in
  if ((65 <=? n) && (n <=? 90))%N then match Byte.of_N (n + 32) with Some c' => c' | None => c end else c.
(* encoding/json fold.go: U+017F (two bytes) is taken for an s.  (And U+212A for a k, which no
   field has.) *)
Fixpoint plain_s (a : str) : str :=
  match a with
  | [] => []
  | c :: r =>
      match r with
      | d :: r' => if Byte.eqb c xc5 && Byte.eqb d xbf then x73 :: plain_s r' else c :: plain_s r
      | [] => [c]
      end
  end.
Definition folded (a : str) : str := map lower (plain_s a).
Definition same_name (a : str) (b : string) : bool := str_eqb (folded a) (folded (text b)).

Fixpoint all_some {A B : Type} (f : A -> option B) (l : list A) : option (list B) :=
  match l with
  | [] => Some []
  | x :: r => match f x, all_some f r with Some y, Some ys => Some (y :: ys) | _, _ => None end
  end.

(* Values of the types that occur; the present value stays if the JSON value is null, except
   that slices become nil.  None: UnmarshalTypeError, after which Unmarshal fails. *)
Definition dec_bool (j : json) (b : bool) : option bool :=
  match j with JNull => Some b | JBool b' => Some b' | _ => None end.
Definition dec_str (j : json) (s : str) : option str :=
  match j with JNull => Some s | JStr _ s' => Some s' | _ => None end.
Definition dec_int (j : json) (n : Z) : option Z :=
  match j with JNull => Some n | JNum _ i _ => i | _ => None end.
Definition dec_float (j : json) : option (F N) :=
  match j with JNull => Some f0 | JNum f _ _ => f | _ => None end.
Definition dec_vec (j : json) : option (vec N) :=
  match j with JNull => Some [] | JArr l => all_some dec_float l | _ => None end.
Definition dec_byte (j : json) : option byte :=
  match j with JNull => Some x00 | JNum _ _ u => u | _ => None end.
Definition dec_bytes (j : json) : option (list byte) :=
  match j with JNull => Some [] | JStr _ s => parse_bytes s | JArr l => all_some dec_byte l | _ => None end.
(* Time.UnmarshalJSON gets the text itself. *)
Definition dec_time (j : json) (t : Z) : option Z :=
  match j with JNull => Some t | JStr raw _ => parse_time raw | _ => None end.

(* Members are taken in their order; names that belong to no field are skipped. *)
Fixpoint members {S : Type} (set : str -> json -> S -> option S) (m : list (str * json)) (s : S) : option S :=
  match m with
  | [] => Some s
  | (n, j) :: r => match set n j s with Some s' => members set r s' | None => None end
  end.
Definition dec_struct {S : Type} (set : str -> json -> S -> option S) (j : json) (s : S) : option S :=
  match j with JNull => Some s | JObj m => members set m s | _ => None end.

(* conv.go:9-14. *)
Definition set_dp (n : str) (j : json) (w : wire N) : option (wire N) :=
  let '(MkWire v p e b) := w in
  if same_name n "vec" then option_map (fun v' => MkWire v' p e b) (dec_vec j)
  else if same_name n "payload" then option_map (fun p' => MkWire v p' e b) (dec_bytes j)
  else if same_name n "expires" then option_map (fun e' => MkWire v p e' b) (dec_time j e)
  else if same_name n "expireEnabled" then option_map (fun b' => MkWire v p e b') (dec_bool j b)
  else Some w.
Definition dec_dp : json -> wire N -> option (wire N) := dec_struct set_dp.
(* The zero time.Time is the first of January of the year 1. *)
Definition zero_dp : wire N := MkWire [] [] ((-62135596800) * 10 ^ 9) false.

(* handler.go:51-55. *)
Definition set_put (n : str) (j : json) (o : put_opts N) : option (put_opts N) :=
  let '(MkPut ns a d) := o in
  if same_name n "namespace" then option_map (fun ns' => MkPut ns' a d) (dec_str j ns)
  else if same_name n "accurate" then option_map (fun a' => MkPut ns a' d) (dec_bool j a)
  else if same_name n "dp" then option_map (fun d' => MkPut ns a d') (dec_dp j d)
  else Some o.
Definition dec_put (body : option json) : option (put_opts N) :=
  match body with Some j => dec_struct set_put j (MkPut [] false zero_dp) | None => None end.

(* handler.go:94-100. *)
Definition set_query (n : str) (j : json) (o : query_opts N) : option (query_opts N) :=
  let '(MkQuery ns a v k d) := o in
  if same_name n "namespace" then option_map (fun ns' => MkQuery ns' a v k d) (dec_str j ns)
  else if same_name n "accurate" then option_map (fun a' => MkQuery ns a' v k d) (dec_bool j a)
  else if same_name n "queryVec" then option_map (fun v' => MkQuery ns a v' k d) (dec_vec j)
  else if same_name n "n" then option_map (fun k' => MkQuery ns a v k' d) (dec_int j k)
  else if same_name n "drain" then option_map (fun d' => MkQuery ns a v k d') (dec_bool j d)
  else Some o.
Definition dec_query (body : option json) : option (query_opts N) :=
  match body with Some j => dec_struct set_query j (MkQuery [] false [] 0 false) | None => None end.

(* A request with a body. *)
Definition json_request (method path : str) (star : bool) (body : option json) : http_request N :=
  MkReq method path star (dec_put body) (dec_query body).

(* ---- encoding ---- *)
(* json.Marshal of a DP; the text forms are parameters.  An empty payload is nil or empty, which
   the model does not tell apart: null or "". *)
Variables (num : F N -> json) (show_time : Z -> str) (show_bytes : list byte -> json).
Definition enc_dp (w : wire N) : json :=
  JObj [(text "vec", JArr (map num (wi_vec w))); (text "payload", show_bytes (wi_payload w));
        (text "expires", JStr (show_time (wi_expires w)) (show_time (wi_expires w))); (text "expireEnabled", JBool (wi_expire_enabled w))].
End Json.
Arguments json N : clear implicits.
