(* Model of core/eventloop/el.go with the state that is kept in the configuration, so that one
   configuration can be given to several calls of EventLoop, one after the other or at the same
   time.  EventLoop.v has the same loop with the counter and the flag as its own. *)
From Verif Require Import Base Num Env Proc Server EventLoop.

(* cfg.go:81-84 eventLoopInternal, in the configuration (cfg.go:152); Go's zero value. *)
Record internals := MkInternals { in_stopped : bool; in_iter : Z }.
Definition new_internals : internals := MkInternals false 0.

(* A process that does not touch another part of the world. *)
Fixpoint on_world {W I L R : Type} (p : proc W L R) : proc (W * I) L R :=
  match p with
  | Ret r => Ret r
  | Act l f k => Act l (fun x => do ' (a, w') <- f (fst x); ret (a, (w', snd x))) (fun a => on_world (k a))
  | Fork q k => Fork (on_world q) (on_world k)
  end.

Section Shared.
Context {W L : Type}.
Definition CW : Type := W * internals.

(* el.go:13,19,30 reading cfg.internal.stopped; el.go:55-57 setting it: nothing resets it. *)
Definition look : proc CW L bool := Act None (fun x => do _ <- tick; ret (in_stopped (snd x), x)) Ret.
Definition stop_cfg : proc CW L unit :=
  Act None (fun x => ret (tt, (fst x, MkInternals true (in_iter (snd x))))) Ret.

(* Reading and writing cfg.internal.iter. *)
Definition get_iter : proc CW L Z := Act None (fun x => ret (in_iter (snd x), x)) Ret.
Definition set_iter (i : Z) : proc CW L unit :=
  Act None (fun x => ret (tt, (fst x, MkInternals (in_stopped (snd x)) i))) Ret.

(* el.go:47-51.  Each read and each write is an action of its own; Go calls this a race if
   there are two loops, and the model takes memory to be sequentially consistent. *)
Definition count : proc CW L unit :=
  call i <- get_iter;
  call _ <- set_iter (i + 1);
  call j <- get_iter;
  if (1000 <? j)%Z then set_iter 0 else Ret tt.

(* eltask.go:9-13 withSkip with the counter of the configuration. *)
Definition skip_now (k : Z) (p : proc W L unit) : proc CW L unit :=
  call i <- get_iter; with_skip i k (on_world p).

(* el.go:30-52, at most n rounds. *)
Fixpoint cfg_loop (s : skips) (body : task -> proc W L unit) (n : nat) : proc CW L bool :=
  call b <- look;
  if b then Ret true
  else
    match n with
    | O => Ret false
    | S n' =>
        call _ <- el_steps look (fun k => skip_now (interval s k) (body k)) task_order;
        call _ <- count;
        cfg_loop s body n'
    end.
End Shared.
Arguments CW W : clear implicits.

(* el.go:25-53, the goroutine that a call of EventLoop starts.  [validate] (line 26) changes the
   configuration for good, and a second time nothing. *)
Definition start {N : Num} (E : Env N) (c : el_cfg) (n : nat) : proc (CW (World N)) _ bool :=
  cfg_loop (el_skip (validate c)) (task_body E (validate c)) n.
