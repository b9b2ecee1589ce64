(* Model of pkg/kmeans/rpc/rpc.go:215-243 StartListen: the goroutine that accepts connections,
   and the function that stops it.  Connections are numbered in the order in which they are
   accepted.  Simplifications: dialling and accepting are one event (a connection that waits to
   be accepted is served by nobody); reads and writes of the variable conn are indivisible (the
   Go memory model does not promise it, as nothing synchronises them); stop is called once. *)
From Verif Require Import Base.

(* A connection: handler.ServeConn runs on it (rpc.go:239); neither end has closed it. *)
Record link := MkLink { k_served : bool; k_open : bool }.

(* The goroutine of rpc.go:232-241: waits in Accept (234); Accept has returned a connection or
   an error, conn is about to be written (235); conn has been written (236); has ended (237). *)
Inductive accepter := Waiting | Returned (r : option nat) | Wrote (r : option nat) | Left.

(* The function of rpc.go:225-230: not called; the listener is closed (226); conn was not nil
   (227); has returned; has called Close on a nil interface (228), which panics. *)
Inductive stopper := NotCalled | Closed | NotNil | Stopped | Crashed.

(* The listener, the connections, the variable conn (224), the two goroutines, and a record of
   the requests that were served: on which connection. *)
Record listener := MkListener {
  l_open : bool;
  l_links : list link;
  l_conn : option nat;
  l_accept : accepter;
  l_stop : stopper;
  l_served : list nat
}.

(* rpc.go:216-224. *)
Definition listening : listener := MkListener true [] None Waiting NotCalled [].

Inductive levent :=
| Dialled           (* Accept returns a connection *)
| Failed            (* Accept returns an error: the listener is closed, or the system has run out of descriptors *)
| Accepter          (* the accepting goroutine goes on *)
| Stopper           (* the stopping goroutine goes on; its first step is the call *)
| Request (i : nat) (* connection i brings a request, which is served *)
| Hangup (i : nat). (* the client closes connection i, client.go:24 *)

Definition upd_link (i : nat) (f : link -> link) (ls : list link) : list link :=
  match nth_error ls i with Some k => firstn i ls ++ f k :: skipn (S i) ls | None => ls end.
Definition shut (k : link) : link := MkLink (k_served k) false.
Definition serve (k : link) : link := MkLink true (k_open k).

(* One event; None: it cannot happen in this state. *)
Definition lstep (s : listener) (e : levent) : option listener :=
  let '(MkListener o ls c a p sv) := s in
  match e with
  | Dialled =>
      match a with
      | Waiting => if o then Some (MkListener o (ls ++ [MkLink false true]) c (Returned (Some (length ls))) p sv) else None
      | _ => None
      end
  | Failed => match a with Waiting => Some (MkListener o ls c (Returned None) p sv) | _ => None end
  | Accepter =>
      match a with
      | Returned r => Some (MkListener o ls r (Wrote r) p sv)
      | Wrote None => Some (MkListener o ls c Left p sv)
      | Wrote (Some i) => Some (MkListener o (upd_link i serve ls) c Waiting p sv)
      | _ => None
      end
  | Stopper =>
      match p with
      | NotCalled => Some (MkListener false ls c a Closed sv)
      | Closed => Some (MkListener o ls c a (match c with Some _ => NotNil | None => Stopped end) sv)
      | NotNil =>
          Some match c with
               | Some i => MkListener o (upd_link i shut ls) c a Stopped sv
               | None => MkListener o ls c a Crashed sv
               end
      | _ => None
      end
  | Request i =>
      match nth_error ls i with
      | Some k => if k_served k && k_open k then Some (MkListener o ls c a p (sv ++ [i])) else None
      | None => None
      end
  | Hangup i => Some (MkListener o (upd_link i shut ls) c a p sv)
  end.

Fixpoint lrun (s : listener) (es : list levent) : option listener :=
  match es with
  | [] => Some s
  | e :: r => match lstep s e with Some s' => lrun s' r | None => None end
  end.
