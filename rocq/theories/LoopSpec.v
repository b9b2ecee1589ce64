(* What the event loop does when, independently of what its tasks do. *)
From Verif Require Import Base Num Env Proc Server EventLoop ServerSpec.

(* ---- which tasks run in which rounds ---- *)

(* A loop whose tasks only write down the counter and the task. *)
Definition note {A L : Type} (x : A) : proc (list A) L unit := Act None (fun w => ret (tt, w ++ [x])) Ret.
Definition logging (s : skips) (stop : nat -> bool) (n : nat) : proc (list (Z * task)) unit bool :=
  el_loop (read_stop stop) (fun iter k => with_skip iter (interval s k) (note (iter, k))) n 0.

(* Round j has the counter j mod 1001; the tasks whose interval divides it run. *)
Definition counter (j : nat) : Z := (Z.of_nat j mod 1001)%Z.
Definition due (s : skips) (j : nat) (k : task) : bool := (counter j mod interval s k =? 0)%Z.
Definition schedule (s : skips) (n : nat) : list (Z * task) :=
  flat_map (fun j => map (pair (counter j)) (filter (due s j) task_order)) (seq 0 n).

(* How often a task was run. *)
Definition is_task (k k' : task) : bool :=
  match k, k' with
  | TMeta, TMeta | TExpire, TExpire | TMemTrim, TMemTrim | TMerge, TMerge | TSplit, TSplit
  | TInternal, TInternal | TFast, TFast | TAccurate, TAccurate | TBalance, TBalance => true
  | _, _ => false
  end.
Definition runs (k : task) (l : list (Z * task)) : nat := length (filter (fun e => is_task k (snd e)) l).

(* ---- stopping ---- *)

(* Worlds with a stopped flag and a list of the tasks that have started, the last first, and
   whether the flag was set then. *)
Section Stop.
Context {W L : Type}.
Definition LW : Type := W * bool * list (task * bool).
Definition flag (x : LW) : bool := snd (fst x).
Definition starts (x : LW) : list (task * bool) := snd x.

(* Reading the flag; setting it (el.go:55-57); starting a task. *)
Definition read_flag : proc LW L bool := Act None (fun x => ret (flag x, x)) Ret.
Definition stopper : proc LW L unit := Act None (fun x => ret (tt, (fst (fst x), true, starts x))) Ret.
Definition begin (k : task) : proc LW L unit :=
  Act None (fun x => ret (tt, (fst x, (k, flag x) :: starts x))) Ret.

(* Processes that do not start tasks and do not reset the flag. *)
Fixpoint quiet {R : Type} (p : proc LW L R) : Prop :=
  match p with
  | Ret _ => True
  | Act _ f k =>
      (forall x t a x' t', f x t = Ok ((a, x'), t') -> starts x' = starts x /\ (flag x = true -> flag x' = true)) /\
      forall a, quiet (k a)
  | Fork q k => quiet q /\ quiet k
  end.

(* A process on the plain world. *)
Fixpoint lifted {R : Type} (p : proc W L R) : proc LW L R :=
  match p with
  | Ret r => Ret r
  | Act l f k => Act l (fun x => do ' (a, w') <- f (fst (fst x)); ret (a, (w', flag x, starts x))) (fun a => lifted (k a))
  | Fork q k => Fork (lifted q) (lifted k)
  end.

(* The event loop with tasks that tell when they start. *)
Definition stoppable (body : Z -> task -> proc LW L unit) (n : nat) : proc LW L bool :=
  el_loop read_flag (fun iter k => call _ <- begin k; body iter k) n 0.

(* At most m actions, on every path. *)
Fixpoint short {R : Type} (m : nat) (p : proc LW L R) {struct p} : Prop :=
  match p with
  | Ret _ => True
  | Act _ _ k => match m with O => False | S m' => forall a, short m' (k a) end
  | Fork _ k => match m with O => False | S m' => short m' k end
  end.
Definition unfinished {R : Type} (p : proc LW L R) : Prop := match p with Ret _ => False | _ => True end.

(* Tasks started when the flag was already set. *)
Definition late (x : LW) : nat := length (filter snd (starts x)).
End Stop.
Arguments LW W : clear implicits.

(* ---- load balancing ---- *)

(* A node asked for datapoints: its address, how many were wanted, how many came. *)
Definition asked : Type := str * Z * nat.
Definition asked_of (e : asked) : str := fst (fst e).

(* Taking datapoints that only writes down what was asked; the k-th answer is [got] k. *)
Definition ask_log (got : nat -> nat) (other : str) (want : Z) : proc (list asked) unit nat :=
  Act None (fun w => ret (got (length w), w ++ [(other, want, got (length w))])) Ret.

Definition gained (l : list asked) : Z := fold_right (fun e s => (Z.of_nat (snd e) + s)%Z) 0%Z l.

(* Every node asked is another one, at a moment when the local size (at first [here], and what
   has come since) is at most mean - margin; it is asked for a positive number, at most a third
   of the difference to the mean divided by the number of nodes; and it would keep mean + margin,
   unless it alone has the namespace. *)
Definition pulls (c : el_cfg) (naddrs : nat) (mean margin : Z) (sizes : list (str * Z)) (here : Z) (l : list asked) : Prop :=
  forall before other want n after, l = before ++ (other, want, n) :: after ->
    other <> el_local c /\ (here + gained before <= mean - margin)%Z /\ (0 < want)%Z /\
    (3 * (want * Z.of_nat (length (el_remote c))) <= mean - (here + gained before))%Z /\
    exists size, In (other, size) sizes /\ (naddrs = 1 \/ (mean + margin <= size - want)%Z).

(* The sizes of a namespace at some nodes, their mean, and which nodes have it. *)
Section Sizes.
Context {N : Num}.
Definition size_at (w : World N) (ns a : str) : Z := Z.of_nat (length (data_at w a ns)).
Definition mean_of (w : World N) (ns : str) (addrs : list str) : Z :=
  (fold_right Z.add 0 (map (size_at w ns) addrs) / Z.of_nat (length addrs))%Z.
Definition holds_ns (w : World N) (ns a : str) : bool := match manager w a ns with Some _ => true | None => false end.

(* xs is ys with some elements left out. *)
Inductive sublist {A : Type} : list A -> list A -> Prop :=
| sub_nil : sublist [] []
| sub_skip x xs ys : sublist xs ys -> sublist xs (x :: ys)
| sub_keep x xs ys : sublist xs ys -> sublist (x :: xs) (x :: ys).
End Sizes.
