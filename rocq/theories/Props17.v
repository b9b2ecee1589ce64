(* Property C96: what the upkeep tasks of the event loop do to the local node. *)
From Verif Require Import Base Num MathUtils Knn Env Centroid CManager DataSpec MgrSpec MgrSpec2 Wp NumFacts MathSpec TestEnv Proc Owns
  Server ServerSpec ServerFacts TestWorld Core EventLoop CoreSpec LoopSpec TaskSpec ReqSpec Props07Lemmas UpkeepSpec UpkeepProofs.
Local Open Scope nat_scope.

(* ---- C96 ---- *)
Theorem C96_upkeep : forall (N : Num) (E : Env N), EnvOk E -> NumOrd N -> forall D c k f w t,
  (forall ns, upkeep c k ns = Some (f ns)) -> WorldOk w -> DimsOk D w -> node_at w (el_local c) <> None ->
  exists w' t', exec (task_body E c k) w t = Ok ((tt, w'), t') /\ t <= t' /\ WorldOk w' /\ DimsOk D w' /\
    (forall b ns, b <> el_local c \/ manager w b ns = None -> manager w' b ns = manager w b ns) /\
    forall ns m, manager w (el_local c) ns = Some m -> exists m', manager w' (el_local c) ns = Some m' /\
      (m' = m \/ Tended E t t' (f ns) m m') /\ (all_delivered E -> Tended E t t' (f ns) m m').
Proof. exact @upkeep_tends. Qed.
Print Assumptions C96_upkeep.

(* On a perfect network.  Expiry: each namespace keeps what a sweep through its datapoints finds unexpired. *)
Theorem C96_expire : forall (N : Num) (E : Env N), EnvOk E -> NumOrd N -> forall D c w t,
  all_delivered E -> WorldOk w -> DimsOk D w -> node_at w (el_local c) <> None ->
  exists w' t', exec (task_body E c TExpire) w t = Ok ((tt, w'), t') /\
    (forall b ns, b <> el_local c -> manager w' b ns = manager w b ns) /\
    forall ns, exists t1, t <= t1 /\ data_at w' (el_local c) ns = live_from E t1 (data_at w (el_local c) ns).
Proof. exact @expire_clears. Qed.
Print Assumptions C96_expire.

(* Trimming: the same, and no centroid is empty. *)
Theorem C96_mem_trim : forall (N : Num) (E : Env N), EnvOk E -> NumOrd N -> forall D c w t,
  all_delivered E -> WorldOk w -> DimsOk D w -> node_at w (el_local c) <> None ->
  exists w' t', exec (task_body E c TMemTrim) w t = Ok ((tt, w'), t') /\
    (forall b ns, b <> el_local c -> manager w' b ns = manager w b ns) /\
    forall ns, (forall cen, In cen (centroids_at w' (el_local c) ns) -> c_dps cen <> []) /\
      exists t1, t <= t1 /\ data_at w' (el_local c) ns = live_from E t1 (data_at w (el_local c) ns).
Proof. exact @trim_clears. Qed.
Print Assumptions C96_mem_trim.

(* Merging: no namespace with two centroids has one that is to be merged. *)
Theorem C96_merge : forall (N : Num) (E : Env N), EnvOk E -> NumOrd N -> forall D c w t,
  all_delivered E -> finds_all E -> WorldOk w -> DimsOk D w -> node_at w (el_local c) <> None ->
  exists w' t', exec (task_body E c TMerge) w t = Ok ((tt, w'), t') /\
    (forall b ns, b <> el_local c -> manager w' b ns = manager w b ns) /\
    forall ns, length (centroids_at w' (el_local c) ns) <= 1 \/
      forall cen, In cen (centroids_at w' (el_local c) ns) ->
        (Z.of_nat (length (c_dps cen)) <= el_merge_min c)%Z \/ (el_merge_max c <= Z.of_nat (length (c_dps cen)))%Z.
Proof. exact @merge_clears. Qed.
Print Assumptions C96_merge.

(* At A, one of three datapoints of one namespace and the only one of another expire at 50. *)
Definition loopA : el_cfg := MkEl nA [nA; nB] (MkSkips 1 1 1 1 1 1 1 1 1) 1 1 1 1 9 0 3 true 5.
Definition aging (E : Env f64) : World f64 := after E
  [(nA, QAdd ns1 (dp [1;7]%Z)); (nA, QAdd ns1 (dpx [1;8]%Z 50)); (nA, QAdd ns1 (dp [9;2]%Z)); (nA, QAdd ns2 (dpx [9;1]%Z 50));
   (nB, QAdd ns1 (dpx [9;1]%Z 50)); (nA, QSplit ns1 1 9)] (fresh [(nA, 20%Z); (nB, 20%Z)]).
Definition lens (w : World f64) : list (list nat) :=
  map (fun e => map (fun c => length (c_dps c)) (centroids_at w (fst e) (snd e))) [(nA, ns1); (nA, ns2); (nB, ns1)].
Example C96_case : WorldOk (aging clockE) /\ DimsOk (fun _ n => n = 2) (aging clockE) /\ node_at (aging clockE) nA <> None /\
  all_delivered clockE /\ (forall ns, upkeep loopA TExpire ns = Some (QExpire (N := f64) ns)) /\ lens (aging clockE) = [[2; 1]; [1]; [1]] /\
  wp (exec (task_body clockE loopA TExpire) (aging clockE)) 100 (fun r _ => lens (snd r) = [[1; 1]; [0]; [1]]) /\
  wp (exec (task_body clockE loopA TMemTrim) (aging clockE)) 100 (fun r _ => lens (snd r) = [[1; 1]; []; [1]]) /\
  wp (exec (task_body clockE loopA TSplit) (aging clockE)) 10 (fun r _ => lens (snd r) = [[1; 1; 1]; [1]; [1]]).
Proof.
  splits; [apply world_check; vm_compute; reflexivity|apply dims_check; vm_compute; reflexivity|apply node_check; vm_compute; reflexivity|
    intros k; reflexivity|reflexivity|vm_compute; reflexivity|vm_compute; reflexivity|vm_compute; reflexivity|vm_compute; reflexivity].
Qed.
Example C96_merge_case : finds_all firstE /\ all_delivered firstE /\ WorldOk (aging firstE) /\ DimsOk (fun _ n => n = 2) (aging firstE) /\
  node_at (aging firstE) nA <> None /\ lens (aging firstE) = [[2; 1]; [1]; [1]] /\
  wp (exec (task_body firstE loopA TMerge) (aging firstE)) 100 (fun r _ => lens (snd r) = [[3]; [1]; [1]]).
Proof.
  splits; [exact firstE_finds_all|intros k; reflexivity|apply world_check; vm_compute; reflexivity|apply dims_check; vm_compute; reflexivity|
    apply node_check; vm_compute; reflexivity|vm_compute; reflexivity|vm_compute; reflexivity].
Qed.
