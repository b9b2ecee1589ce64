(* Model of the parallel fetch as goroutines and a channel: core/nodes/vecs.go:39-68,
   pkg/kmeans/rpc/serverutils.go:43-73 (the same code) and core/eventloop/eltaskutils.go:51-79
   (the same channel; its collector keeps the answers in a map).  The answers of the nodes are
   any that [answers] allows; None is ok = false. *)
From Verif Require Import Base.

Section Fetch.
Context {A V : Type} (answers : A -> option V -> Prop).

(* Goroutines still fetching, goroutines about to send, the channel, how many times the
   collector has received, and what it keeps. *)
Record fetch := MkFetch {
  f_busy : list A;
  f_ready : list (A * option V);
  f_chan : list (A * option V);
  f_got : nat;
  f_kept : list (A * V)
}.

(* vecs.go:60-61: a channel with capacity len(addrs), one goroutine per address. *)
Definition fetch_start (addrs : list A) : fetch := MkFetch addrs [] [] 0 [].

(* vecs.go:45-49, what the collector keeps of an answer. *)
Definition keep (x : A * option V) : list (A * V) := match snd x with Some v => [(fst x, v)] | None => [] end.

(* vecs.go:63 (the answer arrives), 64 (a send, if the channel has room), 46-49 (a receive, if
   there is something and chlen has not been reached). *)
Inductive fetch_step (n : nat) : fetch -> fetch -> Prop :=
| f_answer b1 a b2 rd ch g k r : answers a r ->
    fetch_step n (MkFetch (b1 ++ a :: b2) rd ch g k) (MkFetch (b1 ++ b2) ((a, r) :: rd) ch g k)
| f_send b r1 x r2 ch g k : length ch < n ->
    fetch_step n (MkFetch b (r1 ++ x :: r2) ch g k) (MkFetch b (r1 ++ r2) (ch ++ [x]) g k)
| f_receive b rd x ch g k : g < n ->
    fetch_step n (MkFetch b rd (x :: ch) g k) (MkFetch b rd ch (S g) (k ++ keep x)).

(* Runs of s steps. *)
Inductive fetch_run (n : nat) : nat -> fetch -> fetch -> Prop :=
| fr_none f : fetch_run n 0 f f
| fr_step s f f1 f2 : fetch_run n s f f1 -> fetch_step n f1 f2 -> fetch_run n (S s) f f2.

(* The collector has returned. *)
Definition fetch_done (n : nat) (f : fetch) : Prop := f_got f = n.
End Fetch.
Arguments MkFetch {A V}.
Arguments fetch : clear implicits.

(* pkg/arbiter/arbiter.go:54-61 CheckAll and 64-71 UniformStatus, on the entries of the map in
   the order of the iteration.  The rest of the package forwards to another module. *)
Fixpoint check_all {A Er : Type} (l : list (A * option Er)) : option (A * Er) :=
  match l with
  | [] => None
  | (a, Some e) :: _ => Some (a, e)
  | (_, None) :: r => check_all r
  end.
Fixpoint uniform_status {A : Type} (sc : Z) (l : list (A * Z)) : bool :=
  match l with
  | [] => true
  | (_, s) :: r => if negb (s =? sc)%Z then false else uniform_status sc r
  end.
