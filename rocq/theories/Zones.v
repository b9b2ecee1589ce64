(* Model of putting datapoints with the zones of their times, which Core.v leaves out: a call whose
   arguments gob cannot write never leaves the client. *)
From Verif Require Import Base Num MathUtils Env Centroid Knn CManager Proc Server Core Routes.
From Verif Require Gob.
From Coq Require Import Strings.String.
Local Open Scope Z_scope.

Section Zones.
Context {N : Num} (E : Env N).
Notation DP := (DataPoint N).
Notation proc' := (proc' N).

(* client.go:57-66 AddDataPoint: rc.Call fails if the time cannot be written (time.go MarshalBinary);
   the answer is false.  [z] is the zone of the time: UTC, or an offset in minutes. *)
Definition c_add_z (z : option Z) (a ns : str) (d : DP) : proc' bool :=
  match Gob.marshal (dp_expires d) z with
  | Some _ => c_add_dp E a ns d
  | None => Ret false
  end.
(* core/dps/putdps.go:33-42 putDataPoint. *)
Fixpoint put_dp_z (z : option Z) (addrs : list str) (ns : str) (d : DP) : proc' bool :=
  match addrs with
  | [] => Ret false
  | a :: r => call ok <- c_add_z z a ns d; if ok then Ret true else put_dp_z z r ns d
  end.
(* core/api/handler.go:50-90 putDataPoint, with core/dps/putdps.go:45-62. *)
Definition put_http_z (z : option Z) (addrs : list str) (body : option (put_opts N)) : proc' (http N) :=
  match body with
  | None => Ret (Http 400 None)
  | Some o =>
      let d := to_dp (po_dp o) in
      call ok1 <- (if po_accurate o then call l <- best_fit_accurate E knn_cos addrs (po_ns o) (dp_vec d); put_dp_z z l (po_ns o) d
                   else call l <- best_fit_fast E knn_cos addrs (po_ns o) (dp_vec d); put_dp_z z l (po_ns o) d);
      call ok2 <- (if ok1 then Ret true else call l <- local (shuffle E addrs); put_dp_z z l (po_ns o) d);
      Ret (Http (if ok2 then 200 else 500) None)
  end.
(* core/api/handler.go:21-30 and net/http (Routes.v serve_http), with the zone of the time of the datapoint that is put. *)
Definition serve_http_z (z : option Z) (m : mux) (r : http_request N) : proc' (reply N) :=
  if rq_star r then Ret (Answer (Http 400 None))
  else if negb (str_eqb (rq_method r) (text "CONNECT"%string)) && negb (str_eqb (clean_path (rq_path r)) (rq_path r))
  then Ret (Redirect (clean_path (rq_path r)))
  else match assoc (rq_path r) m with
       | None => Ret (Answer (Http 404 None))
       | Some (EPut, addrs) => call h <- put_http_z z addrs (rq_put r); Ret (Answer h)
       | Some (EQuery, addrs) => call x <- query_http E addrs (rq_query r); Ret (Answer (fst x))
       end.
End Zones.
