(* Properties C97 and C98: what load balancing does to the sizes of the nodes. *)
From Verif Require Import Base Num MathUtils MathSpec Knn Env Centroid CManager DataSpec MgrSpec Wp NumFacts TestEnv Proc Owns Server ServerSpec TestWorld
  EventLoop CoreSpec Core SettleSpec SettleMore SettleCase GainCase.
From Coq Require Import SpecFloat.
Local Open Scope nat_scope.

(* ---- C97 ---- *)
(* A node that has more than the mean less the margin takes nothing. *)
Theorem C97_at_rest : forall (N : Num) (E : Env N), EnvOk E -> NumOrd N -> forall dim c w t w' t', all_delivered E ->
  NoDup (el_remote c) -> In (el_local c) (el_remote c) ->
  WorldOk w -> DimsOk (fun ns n => n = dim ns) w -> (forall b ns, never_expired E (data_at w b ns)) ->
  (forall b ns, length (centroids_at w b ns) < el_fuel c) -> exec (task_body E c TBalance) w t = Ok ((tt, w'), t') ->
  forall ns, let mean := mean_size w (el_remote c) ns in
    (mean - margin_of mean < size_at w (el_local c) ns)%Z -> forall b, manager w' b ns = manager w b ns.
Proof. exact @rests. Qed.
Print Assumptions C97_at_rest.

(* The local node takes, the others give, and the bounds leave room for one centroid. *)
Theorem C97_bounded : forall (N : Num) (E : Env N), EnvOk E -> NumOrd N -> forall dim c w t w' t', all_delivered E ->
  NoDup (el_remote c) -> In (el_local c) (el_remote c) ->
  WorldOk w -> DimsOk (fun ns n => n = dim ns) w -> (forall b ns, never_expired E (data_at w b ns)) ->
  (forall b ns, length (centroids_at w b ns) < el_fuel c) -> exec (task_body E c TBalance) w t = Ok ((tt, w'), t') ->
  forall ns s, let mean := mean_size w (el_remote c) ns in let margin := margin_of mean in
  centroids_up_to w (el_remote c) ns s -> (0 <= s)%Z ->
    (forall b, ~ In b (el_remote c) -> manager w' b ns = manager w b ns) /\
    (size_at w' (el_local c) ns = size_at w (el_local c) ns \/
     (size_at w (el_local c) ns < size_at w' (el_local c) ns)%Z /\ (3 * size_at w' (el_local c) ns < 3 * mean - 2 * margin + 3 * s)%Z) /\
    forall b, b <> el_local c -> size_at w' b ns = size_at w b ns \/
      (size_at w' b ns < size_at w b ns)%Z /\ (2 <= length (having w (el_remote c) ns) -> (mean + margin - s < size_at w' b ns)%Z).
Proof. exact @SettleMore.bounded. Qed.
Print Assumptions C97_bounded.

(* No overshoot, if no centroid is larger than the margin. *)
Theorem C97_no_overshoot : forall (N : Num) (E : Env N), EnvOk E -> NumOrd N -> forall dim c w t w' t', all_delivered E ->
  NoDup (el_remote c) -> In (el_local c) (el_remote c) ->
  WorldOk w -> DimsOk (fun ns n => n = dim ns) w -> (forall b ns, never_expired E (data_at w b ns)) ->
  (forall b ns, length (centroids_at w b ns) < el_fuel c) -> exec (task_body E c TBalance) w t = Ok ((tt, w'), t') ->
  forall ns, let mean := mean_size w (el_remote c) ns in let margin := margin_of mean in
  centroids_up_to w (el_remote c) ns margin -> (0 <= margin)%Z -> 2 <= length (having w (el_remote c) ns) ->
    (size_at w' (el_local c) ns = size_at w (el_local c) ns \/
     (size_at w (el_local c) ns < size_at w' (el_local c) ns)%Z /\ (3 * (size_at w' (el_local c) ns - mean) < margin)%Z) /\
    forall b, b <> el_local c -> size_at w' b ns = size_at w b ns \/ (mean < size_at w' b ns < size_at w b ns)%Z.
Proof. exact @no_overshoot. Qed.
Print Assumptions C97_no_overshoot.

(* A has 41 datapoints in centroids of at most 5, B has 3; the mean is 22, the margin 8. *)
Definition heaped : World f64 := after cosE
  (repeat (nA, QAdd ns1 (dp [9;1]%Z)) 41 ++ repeat (nB, QAdd ns1 (dp [9;1]%Z)) 3 ++ repeat (nA, QSplit ns1 5 99) 3) (fresh [(nA, 99%Z); (nB, 99%Z)]).
Definition loopB : el_cfg := MkEl nB [nA; nB] (MkSkips 1 1 1 1 1 1 1 1 1) 1 1 1 1 9 0 3 true 20.
Example C97_case : NoDup (el_remote loopB) /\ In (el_local loopB) (el_remote loopB) /\ WorldOk heaped /\ DimsOk (fun _ n => n = 2) heaped /\
  all_delivered cosE /\ (forall b ns, never_expired cosE (data_at heaped b ns)) /\ (forall b ns, length (centroids_at heaped b ns) < el_fuel loopB) /\
  mean_size heaped (el_remote loopB) ns1 = 22%Z /\ margin_of 22 = 8%Z /\ length (having heaped (el_remote loopB) ns1) = 2 /\
  centroids_up_to heaped (el_remote loopB) ns1 6 /\ map (fun b => size_at heaped b ns1) [nA; nB] = [41; 3]%Z /\
  wp (exec (task_body cosE loopB TBalance) heaped) 0 (fun r _ => map (fun b => size_at (snd r) b ns1) [nA; nB] = [35; 9]%Z) /\
  wp (exec (task_body cosE (loop_at nA) TBalance) heaped) 0 (fun r _ => map (fun b => size_at (snd r) b ns1) [nA; nB] = [41; 3]%Z).
Proof.
  splits; [apply distinct_nodup; reflexivity|right; left; reflexivity|apply world_check; vm_compute; reflexivity|apply dims_check; vm_compute; reflexivity|
    intros k; reflexivity|apply lasting_check; vm_compute; reflexivity|apply few_check; [cbn; lia|vm_compute; reflexivity]|vm_compute; reflexivity|
    vm_compute; reflexivity|vm_compute; reflexivity|apply up_to_check; vm_compute; reflexivity|vm_compute; reflexivity|vm_compute; reflexivity|
    vm_compute; reflexivity].
Qed.

(* Larger centroids go to and fro for ever. *)
Theorem C97_settles_refuted : exists (E : Env f64) a b w ns, EnvOk E /\ all_delivered E /\ WorldOk w /\ DimsOk (fun _ n => n = 2) w /\
  (forall x ns, never_expired E (data_at w x ns)) /\
  forall n, exists w1 t1 w2 t2, in_turn E (concat (repeat [a; b] n)) w 0 = Ok (w1, t1) /\
    exec (task_body E a TBalance) w1 t1 = Ok ((tt, w2), t2) /\ size_at w1 (el_local a) ns = 1%Z /\ size_at w2 (el_local a) ns = 13%Z /\
    mean_size w1 (el_remote a) ns = 7%Z.
Proof. exact seesaw_refuted. Qed.
Print Assumptions C97_settles_refuted.

(* ---- C98 ---- *)
(* A poor node gains, if there is a rich one whose centroids its search can find. *)
Theorem C98_gains : forall (N : Num) (E : Env N), EnvOk E -> NumOrd N -> forall dim c w t w' t' ns, all_delivered E ->
  NoDup (el_remote c) -> In (el_local c) (el_remote c) ->
  WorldOk w -> DimsOk (fun ns n => n = dim ns) w -> (forall b ns, never_expired E (data_at w b ns)) ->
  (forall b ns, length (centroids_at w b ns) < el_fuel c) -> node_at w (el_local c) <> None -> 0 < dim ns ->
  exec (task_body E c TBalance) w t = Ok ((tt, w'), t') ->
  let mean := mean_size w (el_remote c) ns in let margin := margin_of mean in let here := size_at w (el_local c) ns in
  let want := ((mean - here) / (3 * Z.of_nat (length (el_remote c))))%Z in
  (here <= mean - margin)%Z -> (0 < want)%Z ->
  (forall b, In b (el_remote c) -> b <> el_local c -> offers E w (el_local c) b ns) ->
  (exists b, In b (el_remote c) /\ b <> el_local c /\ manager w b ns <> None /\
     (having w (el_remote c) ns = [b] \/ (mean + margin + want <= size_at w b ns)%Z)) ->
  (here < size_at w' (el_local c) ns)%Z.
Proof. exact @gains. Qed.
Print Assumptions C98_gains.

(* The case of C97: 3 at B, mean 22, margin 8, 3 wanted, 41 at A. *)
Example C98_case : node_at heaped nB <> None /\ offers cosE heaped nB nA ns1 /\ manager heaped nA ns1 <> None /\
  (size_at heaped nB ns1 <= 22 - 8 /\ (22 - size_at heaped nB ns1) / (3 * Z.of_nat (length (el_remote loopB))) = 3 /\ 22 + 8 + 3 <= size_at heaped nA ns1)%Z.
Proof.
  splits; [apply node_check; vm_compute; reflexivity|apply offers_check; vm_compute; reflexivity|apply manager_check; vm_compute; reflexivity| | |];
    apply Z.leb_le || idtac; vm_compute; reflexivity.
Qed.

(* A node whose last centroid was taken has a vector of NaNs (C28).  Its load balancing takes nothing, ... *)
Theorem C98_locked_out : forall (E : Env f64), EnvOk E -> e_knn E = knn_cos -> forall dim c w t w' t' ns m, all_delivered E ->
  NoDup (el_remote c) -> In (el_local c) (el_remote c) ->
  WorldOk w -> DimsOk (fun ns n => n = dim ns) w -> (forall b ns, never_expired E (data_at w b ns)) ->
  (forall b ns, length (centroids_at w b ns) < el_fuel c) -> exec (task_body E c TBalance) w t = Ok ((tt, w'), t') ->
  manager w (el_local c) ns = Some m -> cm_cs m = [] -> In S754_nan (cm_vec m) -> forall b, manager w' b ns = manager w b ns.
Proof. exact locked_out. Qed.
Print Assumptions C98_locked_out.

(* ... and it is not among the nodes that are chosen for a datapoint. *)
Theorem C98_not_chosen : forall (E : Env f64), EnvOk E -> forall (w : World f64) (accurate : bool) addrs ns v b m t, WorldOk w ->
  manager w b ns = Some m -> cm_cs m = [] -> In S754_nan (cm_vec m) ->
  wp (exec (if accurate then best_fit_accurate E knn_cos addrs ns v else best_fit_fast E knn_cos addrs ns v) w) t (fun r _ => ~ In b (fst r)).
Proof. exact not_chosen. Qed.
Print Assumptions C98_not_chosen.

Example C98_locked_case : WorldOk emptied /\ DimsOk (fun _ n => n = 2) emptied /\ (forall b ns, never_expired cosE (data_at emptied b ns)) /\
  (forall b ns, length (centroids_at emptied b ns) < el_fuel (loop_at nB)) /\ e_knn cosE = knn_cos /\
  (exists m, manager emptied nB ns1 = Some m /\ cm_cs m = [] /\ In S754_nan (cm_vec m)) /\
  chosen cosE emptied (fv [1;1]%Z) [nA] = true /\ chosen cosE heaped (fv [1;1]%Z) [nA; nB] = true.
Proof.
  splits; [apply world_check; vm_compute; reflexivity|apply dims_check; vm_compute; reflexivity|apply lasting_check; vm_compute; reflexivity|
    apply few_check; [cbn; lia|vm_compute; reflexivity]|reflexivity|apply vacant_check; vm_compute; reflexivity| |]; vm_compute; reflexivity.
Qed.

Theorem C98_fills_refuted : exists (E : Env f64) c setup w ns b, EnvOk E /\ all_delivered E /\ w = after E setup (fresh [(nA, 20%Z); (nB, 20%Z)]) /\
  WorldOk w /\ DimsOk (fun _ n => n = 2) w /\ (forall x ns, never_expired E (data_at w x ns)) /\
  let mean := mean_size w (el_remote c) ns in let here := size_at w (el_local c) ns in
  (here = 0 /\ here <= mean - margin_of mean /\ 3 * Z.of_nat (length (el_remote c)) <= mean - here)%Z /\ In b (el_remote c) /\
  (mean + margin_of mean + (mean - here) / (3 * Z.of_nat (length (el_remote c))) <= size_at w b ns)%Z /\
  forall n t, exists t', in_turn E (repeat c n) w t = Ok (w, t').
Proof. exact fills_refuted. Qed.
Print Assumptions C98_fills_refuted.
