(* What a listener has done, seen from outside. *)
From Verif Require Import Base Listen.

(* The connections, in the order of the requests that they brought. *)
Definition requests (es : list levent) : list nat :=
  flat_map (fun e => match e with Request i => [i] | _ => [] end) es.

(* How many connections were made. *)
Definition dials (es : list levent) : nat :=
  length (filter (fun e => match e with Dialled => true | _ => false end) es).

(* stop was called; stop has come to its end. *)
Definition stop_called (s : listener) : Prop := l_stop s <> NotCalled.
Definition stop_over (s : listener) : Prop := l_stop s = Stopped \/ l_stop s = Crashed.

(* Clients send one request on each connection (client.go:18-26). *)
Definition one_each (es : list levent) : Prop := NoDup (requests es).

(* Connections on which a request may come. *)
Definition live (s : listener) (i : nat) : Prop := exists k, nth_error (l_links s) i = Some k /\ k_open k = true.
