(* Model of core/api/handler.go:21-30 setRoutes and core/api/api.go:41-56 Start, with what they
   use of net/http (Go 1.16): DefaultServeMux with patterns that are plain paths (no host, no
   trailing slash).  Bodies other than those of the two handlers (error texts) are not
   modelled. *)
From Verif Require Import Base Num MathUtils Knn Env Centroid CManager Proc Server Core.
From Coq.Init Require Import Byte.
From Coq Require Import Strings.String.
Local Open Scope nat_scope.

Definition text (s : String.string) : str := list_byte_of_string s.
Definition slash : byte := x2f.
Definition put_route : str := text "/api/dp/put".
Definition query_route : str := text "/api/dp/query".

(* ---- net/http: cleaning of paths ---- *)

(* The parts between slashes. *)
Fixpoint segments (p : str) : list str :=
  match p with
  | [] => [[]]
  | c :: r => if Byte.eqb c slash then [] :: segments r
              else match segments r with s :: t => (c :: s) :: t | [] => [[c]] end
  end.
(* path.Clean of a rooted path: empty parts and "." vanish, ".." removes the part before. *)
Definition clean_step (stack : list str) (s : str) : list str :=
  if str_eqb s [] || str_eqb s (text ".") then stack
  else if str_eqb s (text "..") then tl stack else s :: stack.
Definition clean_segments (p : str) : list str := rev (fold_left clean_step (segments p) []).
Definition join (l : list str) : str := match l with [] => [slash] | _ => flat_map (fun s => slash :: s) l end.
Definition ends_in_slash (p : str) : bool := match rev p with c :: _ => Byte.eqb c slash | [] => false end.
(* net/http cleanPath: roots the path, cleans it, and keeps a slash at the end. *)
Definition rooted (p : str) : str :=
  match p with c :: _ => if Byte.eqb c slash then p else slash :: p | [] => [slash] end.
Definition clean_path (p : str) : str :=
  let np := join (clean_segments (rooted p)) in
  if ends_in_slash (rooted p) && negb (str_eqb np [slash]) then np ++ [slash] else np.

(* ---- net/http: the multiplexer ---- *)
Inductive endpoint := EPut | EQuery.
(* Registered patterns; each handler has the addresses of its APIConfig. *)
Definition mux : Type := list (str * (endpoint * list str)).

(* http.Handle panics on a pattern that is registered already. *)
Definition register (p : str) (h : endpoint * list str) (m : mux) : outcome mux :=
  match assoc p m with Some _ => Panic | None => Ok (m ++ [(p, h)]) end.

(* handler.go:21-30 setRoutes; the map is iterated in one of two orders. *)
Definition set_routes (put_first : bool) (addrs : list str) (m : mux) : outcome mux :=
  let put := register put_route (EPut, addrs) in
  let query := register query_route (EQuery, addrs) in
  let '(f, g) := if put_first then (put, query) else (query, put) in
  match f m with Ok m1 => g m1 | Panic => Panic | OutOfFuel => OutOfFuel end.

(* api.go:41-56 Start, with addresses None for nil.  The answer: the patterns that are then
   registered, and whether ListenAndServe is reached (if not, check's error is returned). *)
Definition api_start (put_first : bool) (addrs : option (list str)) (m : mux) : outcome (mux * bool) :=
  if api_check addrs then
    match addrs with
    | Some a => match set_routes put_first a m with Ok m' => Ok (m', true) | Panic => Panic | OutOfFuel => OutOfFuel end
    | None => Ok (m, false)
    end
  else Ok (m, false).

Section Serve.
Context {N : Num} (E : Env N).
Notation proc' := (proc' N).

(* A request: method, path of the URL, whether the request line says "*", and what its body
   decodes to as the options of either handler. *)
Record http_request := MkReq {
  rq_method : str;
  rq_path : str;
  rq_star : bool;
  rq_put : option (put_opts N);
  rq_query : option (query_opts N)
}.

Inductive reply := Answer (h : http N) | Redirect (location : str).

(* ServeMux.ServeHTTP, Handler and match.  No pattern ends in a slash, so nothing but the very
   path matches, and no slash is appended to a path.  The method is not looked at, except that
   CONNECT requests are not redirected.  The ghost of query_http is dropped. *)
Definition serve_http (m : mux) (r : http_request) : proc' reply :=
  if rq_star r then Ret (Answer (Http 400 None))
  else if negb (str_eqb (rq_method r) (text "CONNECT")) && negb (str_eqb (clean_path (rq_path r)) (rq_path r))
  then Ret (Redirect (clean_path (rq_path r)))
  else match assoc (rq_path r) m with
       | None => Ret (Answer (Http 404 None))
       | Some (EPut, addrs) => call h <- put_http E addrs (rq_put r); Ret (Answer h)
       | Some (EQuery, addrs) => call x <- query_http E addrs (rq_query r); Ret (Answer (fst x))
       end.
End Serve.
Arguments http_request N : clear implicits.
Arguments reply N : clear implicits.
