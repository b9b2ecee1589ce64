(* Property C99: the event loop's tasks end. *)
From Verif Require Import Base Num MathUtils Knn Env Centroid CManager DataSpec MgrSpec Wp NumFacts TestEnv Proc Owns Server ServerSpec ServerFacts TestWorld
  Core EventLoop CoreSpec SettleSpec SettleCase FuelSpec FuelProofs BalanceEnds LoopEnds Props18.
Local Open Scope nat_scope.

(* ---- C99 ---- *)
(* Every task ends on every network, if nobody else works in the meantime.  (Fuel bounds the loop of each steal in the model;
   there is a bound beyond which it has no effect.) *)
Theorem C99_task : forall (N : Num) (E : Env N), EnvOk E -> NumOrd N -> forall dim c k w t, (0 <= el_fast_n c)%Z -> (0 <= el_accurate_n c)%Z ->
  WorldOk w -> DimsOk (fun ns n => n = dim ns) w ->
  exists bound w' t', WorldOk w' /\ DimsOk (fun ns n => n = dim ns) w' /\
    forall f, bound <= f -> exec (task_body E (with_fuel c f) k) w t = Ok ((tt, w'), t').
Proof. exact @task_ends. Qed.
Print Assumptions C99_task.

Theorem C99_loop : forall (N : Num) (E : Env N), EnvOk E -> NumOrd N -> forall dim c stop n w t, loop_ok c ->
  WorldOk w -> DimsOk (fun ns n => n = dim ns) w ->
  exists bound r w' t', WorldOk w' /\ DimsOk (fun ns n => n = dim ns) w' /\
    forall f, bound <= f -> exec (event_loop E (with_fuel c f) stop n) w t = Ok ((r, w'), t').
Proof. exact @loop_ends. Qed.
Print Assumptions C99_loop.

(* For load balancing the bound is the number of centroids that a peer has of a namespace. *)
Theorem C99_balance : forall (N : Num) (E : Env N), EnvOk E -> NumOrd N -> forall dim c w t, WorldOk w -> DimsOk (fun ns n => n = dim ns) w ->
  (forall b ns, b <> el_local c -> length (centroids_at w b ns) < el_fuel c) ->
  exists w' t', exec (task_body E c TBalance) w t = Ok ((tt, w'), t') /\ WorldOk w' /\ DimsOk (fun ns n => n = dim ns) w'.
Proof. exact @balance_ends. Qed.
Print Assumptions C99_balance.

(* More fuel changes no run that ends. *)
Theorem C99_fuel : forall (N : Num) (E : Env N) c f stop n (w : World N) t x, el_fuel c <= f ->
  exec (event_loop E c stop n) w t = Ok x -> exec (event_loop E (with_fuel c f) stop n) w t = Ok x.
Proof. exact @fuel_loop. Qed.
Print Assumptions C99_fuel.

(* B pulls from A, whose centroids it must ask for one by one. *)
Definition ended (c : el_cfg) : option (list Z) :=
  match exec (event_loop cosE c (fun _ => false) 2) heaped 0 with Ok ((_, w), _) => Some (map (fun b => size_at w b ns1) [nA; nB]) | _ => None end.
Example C99_case : loop_ok loopB /\ WorldOk heaped /\ DimsOk (fun _ n => n = 2) heaped /\
  ended (with_fuel loopB 0) = None /\ ended (with_fuel loopB 20) = Some [30; 14]%Z /\ ended (with_fuel loopB 99) = Some [30; 14]%Z.
Proof.
  splits; [unfold loop_ok; cbn; lia|apply world_check; vm_compute; reflexivity|apply dims_check; vm_compute; reflexivity|
    vm_compute; reflexivity|vm_compute; reflexivity|vm_compute; reflexivity].
Qed.
