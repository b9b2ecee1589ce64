(* Property C113: one configuration for several event loops. *)
From Verif Require Import Base Num MathUtils Env Centroid CManager Wp Proc Server ServerSpec EventLoop LoopSpec Shared SharedProofs SharedStop TestEnv TestWorld.

(* The first loop of a configuration is the one of EventLoop.v, while it is not stopped; the
   counter is kept in the configuration. *)
Theorem C113_first : forall (N : Num) (E : Env N) c n (w : World N) t,
  exec (start E c n) (w, new_internals) t =
  (do ' (b, w') <- exec (event_loop E c (fun _ => false) n) w; ret (b, (w', MkInternals false (counter n)))) t.
Proof. exact @start_alone. Qed.
Print Assumptions C113_first.

(* Once a loop was stopped, its configuration is of no use any more: whatever loops are started
   with it, they change nothing and ask no node for anything; each ends at its first step. *)
Theorem C113_stopped : forall (N : Num) (E : Env N) c ns dflt sched (w : World N) i t,
  wp (interleave dflt sched (map (start E c) ns) (w, MkInternals true i)) t (fun r _ =>
    snd r = (w, MkInternals true i) /\ Forall2 (fun n p => p = start E c n \/ p = Ret true) ns (fst r)).
Proof. exact @start_stopped. Qed.
Print Assumptions C113_stopped.

Theorem C113_again : forall (N : Num) (E : Env N) c n (w : World N) x t,
  wp (exec (call _ <- stop_cfg; start E c n) (w, x)) t (fun r _ => r = (true, (w, MkInternals true (in_iter x)))).
Proof. exact @start_again. Qed.
Print Assumptions C113_again.

(* A loop that splits centroids splits one in its first round, and, started again after a stop,
   does nothing although there is one to split. *)
Definition splitting : el_cfg := MkEl nA [nA; nB] (MkSkips 1 1 1 1 1 1 1 1 1) 1 1 1 2 9 (-1) (-1) true 5.
Definition to_split : World f64 := after cosE
  [(nA, QAdd ns1 (dp [1;7]%Z)); (nA, QAdd ns1 (dp [1;8]%Z)); (nA, QAdd ns1 (dp [9;2]%Z))] (fresh [(nA, 20%Z); (nB, 20%Z)]).
Example C113_case :
  map (fun c => length (c_dps c)) (centroids_at to_split nA ns1) = [3] /\
  wp (exec (start cosE splitting 1) (to_split, new_internals)) 0 (fun r _ =>
    fst r = false /\ snd (snd r) = MkInternals false 1 /\ map (fun c => length (c_dps c)) (centroids_at (fst (snd r)) nA ns1) = [1; 2]) /\
  wp (exec (call _ <- stop_cfg; start cosE splitting 1) (to_split, new_internals)) 0 (fun r _ =>
    fst r = true /\ snd (snd r) = MkInternals true 0 /\ map (fun c => length (c_dps c)) (centroids_at (fst (snd r)) nA ns1) = [3]).
Proof. vm_compute. auto 8. Qed.

(* That every loop runs its tasks at their intervals fails if two loops have one configuration:
   they share the counter.  With intervals of 2 and loops that take turns, one of them runs every
   task in each round and the other never runs any; a loop alone runs them in every other round. *)
Theorem C113_two_loops_refuted : exists s n sched (l : list (nat * task)) t,
  (forall k, interval s k = 2%Z) /\
  interleave true sched [cfg_loop s (named 0) n; cfg_loop s (named 1) n] ([], new_internals) 0 =
    Ok (([Ret false; Ret false], (l, MkInternals false (Z.of_nat (2 * n)))), t) /\
  tasks_of 0 l = concat (repeat task_order n) /\ tasks_of 1 l = [] /\
  map snd (schedule s n) <> tasks_of 0 l /\ map snd (schedule s n) <> tasks_of 1 l.
Proof. exact two_loops. Qed.
Print Assumptions C113_two_loops_refuted.

(* One call of the function that stops a loop stops all loops of its configuration: each starts at
   most one more task, whatever else goes on. *)
Theorem C113_stop_all : forall (V L : Type) s (q : task -> proc V L unit) ns (others : list (proc V L bool)) dflt sched sched2 (x : CW (V * nat)) t th1 x1 t1 th2 x2 t2,
  interleave dflt sched ((call _ <- stop_cfg; Ret true) :: map (cfg_loop s (counted q)) ns ++ map (fun p => on_world (on_world p)) others) x t =
    Ok ((th1, x1), t1) -> in_stopped (snd x1) = true ->
  interleave dflt sched2 th1 x1 t1 = Ok ((th2, x2), t2) ->
  in_stopped (snd x2) = true /\ started x2 <= started x1 + length ns.
Proof. exact @stop_all. Qed.
Print Assumptions C113_stop_all.

(* Two loops of which each has looked twice when the flag is set: both start a task, and end. *)
Definition idle_task (_ : task) : proc unit unit unit := Ret tt.
Definition two_more : list (proc (CW (unit * nat)) unit bool) := (call _ <- stop_cfg; Ret true) :: map (cfg_loop (MkSkips 1 1 1 1 1 1 1 1 1) (counted idle_task)) [5; 6].
Example C113_stop_case : wp (interleave true (repeat 1 3 ++ repeat 2 3 ++ [0]) two_more ((tt, 0), new_internals)) 0 (fun r t =>
  in_stopped (snd (snd r)) = true /\ started (snd r) = 0 /\
  wp (interleave true (repeat 1 20 ++ repeat 2 20) (fst r) (snd r)) t (fun r' _ =>
    started (snd r') = 2 /\ fst r' = [Ret true; Ret true; Ret true])).
Proof. vm_compute. auto. Qed.
