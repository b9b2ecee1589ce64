(* Model of core/nodes (nodes.go, vecs.go), core/dps (dps.go, getdps.go, putdps.go) and
   core/api (handler.go, conv.go, api.go).  An address is the string that is dialled
   (Addr.ToStr()). *)
From Verif Require Import Base Num MathUtils Knn Env Centroid CManager Proc Server.
From Coq.Init Require Import Byte.

Section Core.
Context {N : Num} (E : Env N).
Notation DP := (DataPoint N).
Notation proc' := (proc' N).

(* ---- core/nodes ---- *)

(* core/nodes/nodes.go:41-52 bestFitNodes: fetch, search among the vectors that arrived, and
   translate positions to addresses (vecs.go:18-36 intoVecGenerator, intoAddrs). *)
Definition best_fit (s : search N) (v : vec N) (fetch : proc' (list (str * vec N)))
  : proc' (list str) :=
  call rsl <- fetch;
  call idx <- local (lift (s v (map snd rsl) (Z.of_nat (length rsl))));
  local (index_all (map fst rsl) idx).

(* core/nodes/nodes.go:59-63 BestFitNodesFast, vecs.go:71-77 fetchVecsFast. *)
Definition best_fit_fast (s : search N) (addrs : list str) (ns : str) (v : vec N) : proc' (list str) :=
  best_fit s v (fetch_vecs E (fun b => c_vec_of E b ns) addrs).
(* core/nodes/nodes.go:72-76 BestFitNodesAccurate, vecs.go:84-91 fetchVecsAccurate. *)
Definition best_fit_accurate (s : search N) (addrs : list str) (ns : str) (v : vec N) : proc' (list str) :=
  best_fit s v (fetch_vecs E (fun b => c_nearest_vec E b ns v) addrs).

(* ---- core/dps ---- *)

(* core/dps/dps.go:29-33, the loop of shuffleAddrs; is = values of i still to come.
   rand.Intn(n) is any number below n. *)
Fixpoint shuffle_loop {A : Type} (is : list nat) (l : list A) : M (list A) :=
  match is with
  | [] => ret l
  | i :: r =>
      do k <- tick;
      let j := (e_rnd E k) mod (length l) in
      do x <- index l i;
      do y <- index l j;
      shuffle_loop r (list_set (list_set l i y) j x)
  end.
(* core/dps/dps.go:25-35 shuffleAddrs. *)
Definition shuffle {A : Type} (l : list A) : M (list A) := shuffle_loop (seq 0 (length l)) l.

(* core/dps/putdps.go:33-42 putDataPoint. *)
Fixpoint put_dp (addrs : list str) (ns : str) (d : DP) : proc' bool :=
  match addrs with
  | [] => Ret false
  | a :: r =>
      call ok <- c_add_dp E a ns d;
      if ok then Ret true else put_dp r ns d
  end.

(* core/dps/putdps.go:45-62 PutDataPointRand, PutDataPointFast, PutDataPointAccurate. *)
Definition put_rand (addrs : list str) (ns : str) (d : DP) : proc' bool :=
  call l <- local (shuffle addrs); put_dp l ns d.
Definition put_fast (s : search N) (addrs : list str) (ns : str) (d : DP) : proc' bool :=
  call l <- best_fit_fast s addrs ns (dp_vec d); put_dp l ns d.
Definition put_accurate (s : search N) (addrs : list str) (ns : str) (d : DP) : proc' bool :=
  call l <- best_fit_accurate s addrs ns (dp_vec d); put_dp l ns d.

(* core/dps/getdps.go:21-28, the loop of getDataPoints. *)
Fixpoint get_loop (addrs : list str) (ns : str) (v : vec N) (n : Z) (drain : bool) (res : list DP)
  : proc' (list DP) :=
  match addrs with
  | [] => Ret res
  | a :: r =>
      call ds <- c_lookup E a ns v (n - Z.of_nat (length res)) drain;
      let res' := res ++ ds in
      if (n <=? Z.of_nat (length res'))%Z then Ret res' else get_loop r ns v n drain res'
  end.
(* core/dps/getdps.go:19-30 getDataPoints: make(.., 0, args.n) panics for n < 0. *)
Definition get_dps (addrs : list str) (ns : str) (v : vec N) (n : Z) (drain : bool) : proc' (list DP) :=
  if (n <? 0)%Z then local panic else get_loop addrs ns v n drain [].

(* core/dps/getdps.go:65-88 GetDataPointsRand, GetDataPointsFast, GetDataPointsAccurate. *)
Definition get_rand (addrs : list str) (ns : str) (v : vec N) (n : Z) (drain : bool) : proc' (list DP) :=
  call l <- local (shuffle addrs); get_dps l ns v n drain.
Definition get_fast (s : search N) (addrs : list str) (ns : str) (v : vec N) (n : Z) (drain : bool)
  : proc' (list DP) :=
  call l <- best_fit_fast s addrs ns v; get_dps l ns v n drain.
Definition get_accurate (s : search N) (addrs : list str) (ns : str) (v : vec N) (n : Z) (drain : bool)
  : proc' (list DP) :=
  call l <- best_fit_accurate s addrs ns v; get_dps l ns v n drain.

(* ---- core/api ---- *)

(* core/api/conv.go:9-14 DP, the datapoint of the JSON interface. *)
Record wire := MkWire {
  wi_vec : vec N;
  wi_payload : list byte;
  wi_expires : Z;
  wi_expire_enabled : bool
}.

(* core/api/conv.go:17-24 toDataPoint. *)
Definition to_dp (x : wire) : DP :=
  MkDP (wi_vec x) (wi_payload x) (wi_expires x) (wi_expire_enabled x).
(* core/api/conv.go:27-38 DataPointsToDPs. *)
Definition of_dp (d : DP) : wire :=
  MkWire (dp_vec d) (dp_payload d) (dp_expires d) (dp_expire_enabled d).
Definition of_dps (ds : list DP) : list wire := map of_dp ds.

(* encoding/json.Marshal of the answer (handler.go:131) fails when a float is NaN or infinite
   and when a time's year is outside 0..9999.  Simplification: times are in UTC. *)
Definition finite (x : F N) : bool :=
  feqb x x && negb (fltb fmaxv x) && negb (fltb x (fsub f0 fmaxv)).
Definition year_ok (ns : Z) : bool :=
  ((-62167219200) * 10 ^ 9 <=? ns)%Z && (ns <? 253402300800 * 10 ^ 9)%Z.
Definition encodable (x : wire) : bool := forallb finite (wi_vec x) && year_ok (wi_expires x).
Definition marshal (l : list wire) : option (list wire) := if forallb encodable l then Some l else None.

(* The answer to a HTTP request: status and body (None: an empty body), or a connection that
   net/http closes because the handler panicked. *)
Inductive http := Http (status : Z) (body : option (list wire)) | Aborted.

(* handler.go:51-55 and 94-100, the decoded bodies. *)
Record put_opts := MkPut { po_ns : str; po_accurate : bool; po_dp : wire }.
Record query_opts := MkQuery { qo_ns : str; qo_accurate : bool; qo_vec : vec N; qo_n : Z; qo_drain : bool }.

(* handler.go:50-90 putDataPoint; [addrs] are h.RPCAddrs, the body is None when
   tryUnpackRequestOptions (36-47) fails to decode it. *)
Definition put_http (addrs : list str) (body : option put_opts) : proc' http :=
  match body with
  | None => Ret (Http 400 None)
  | Some o =>
      let d := to_dp (po_dp o) in
      call ok1 <- (if po_accurate o then put_accurate knn_cos addrs (po_ns o) d
                   else put_fast knn_cos addrs (po_ns o) d);
      call ok2 <- (if ok1 then Ret true else put_rand addrs (po_ns o) d);
      Ret (Http (if ok2 then 200 else 500) None)
  end.

(* handler.go:93-134 queryDataPoint.  The panic of getdps.go:20 for a negative n is recovered
   by net/http.  The second component is a ghost: the datapoints that were found. *)
Definition query_http (addrs : list str) (body : option query_opts) : proc' (http * list DP) :=
  match body with
  | None => Ret (Http 400 None, [])
  | Some o =>
      call l <- (if qo_accurate o then best_fit_accurate knn_cos addrs (qo_ns o) (qo_vec o)
                 else best_fit_fast knn_cos addrs (qo_ns o) (qo_vec o));
      if (qo_n o <? 0)%Z then Ret (Aborted, [])
      else
        call ds <- get_dps l (qo_ns o) (qo_vec o) (qo_n o) (qo_drain o);
        Ret (Http 200 (marshal (of_dps ds)), ds)
  end.

(* core/api/api.go:33-38 check: nil addresses are an error (None); Start (41-56) then does not
   listen. *)
Definition api_check (addrs : option (list str)) : bool := match addrs with Some _ => true | None => false end.

End Core.
Arguments wire N : clear implicits.
Arguments MkWire {N}.
Arguments http N : clear implicits.
Arguments Aborted {N}.
Arguments put_opts N : clear implicits.
Arguments query_opts N : clear implicits.
