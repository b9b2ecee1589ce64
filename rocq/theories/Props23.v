(* Property C103: load balancing settles. *)
From Verif Require Import Base Num MathUtils MathSpec Knn Env Centroid CManager DataSpec MgrSpec Wp NumFacts TestEnv Proc Owns Server ServerSpec TestWorld
  EventLoop CoreSpec Core SettleSpec SettleCase GainCase RestSpec RestMore RestCase Props18.
From Coq Require Import SpecFloat Permutation.
Local Open Scope nat_scope.

(* ---- C103 ---- *)
(* A run of the load balancing task leaves every centroid as it is and only takes it elsewhere; an empty one may vanish. *)
Theorem C103_whole : forall (N : Num) (E : Env N), EnvOk E -> NumOrd N -> forall dim c w t w' t', all_delivered E ->
  NoDup (el_remote c) -> In (el_local c) (el_remote c) ->
  WorldOk w -> DimsOk (fun ns n => n = dim ns) w -> (forall b ns, never_expired E (data_at w b ns)) ->
  (forall b ns, length (centroids_at w b ns) < el_fuel c) -> (forall ns, length (all_groups w (el_remote c) ns) < el_fuel c) ->
  exec (task_body E c TBalance) w t = Ok ((tt, w'), t') ->
  forall ns, exists gone, Forall (eq []) gone /\ Permutation (all_groups w (el_remote c) ns) (all_groups w' (el_remote c) ns ++ gone).
Proof. exact @whole. Qed.
Print Assumptions C103_whole.

(* Any sequence of runs, by any of the nodes, can be carried out, *)
Theorem C103_runs : forall (N : Num) (E : Env N), EnvOk E -> NumOrd N -> forall dim fuel addrs ns cs w t, all_delivered E ->
  NoDup addrs -> peers fuel addrs cs -> ready E dim fuel addrs ns w -> exists ws, turns E cs w t ws.
Proof. exact @runs. Qed.
Print Assumptions C103_runs.

(* moves at most two thirds of the imbalance, and changes sizes at most half as many times as the imbalance says. *)
Theorem C103_bounded : forall (N : Num) (E : Env N), EnvOk E -> NumOrd N -> forall dim fuel addrs ns cs w t ws, all_delivered E ->
  NoDup addrs -> 2 <= length addrs -> peers fuel addrs cs -> ready E dim fuel addrs ns w -> turns E cs w t ws ->
  (3 * moved_in w ws addrs ns <= 2 * imbalance w addrs ns)%Z /\ (2 * Z.of_nat (changes w ws addrs ns) <= imbalance w addrs ns)%Z.
Proof. exact @bounded_turns. Qed.
Print Assumptions C103_bounded.

(* If every node takes its turn in every round, then after so many rounds no node can pull any more. *)
Theorem C103_balanced : forall (N : Num) (E : Env N), EnvOk E -> NumOrd N -> forall dim fuel addrs ns round k w t ws, all_delivered E ->
  NoDup addrs -> 2 <= length addrs -> 0 < dim ns -> peers fuel addrs round -> (forall b, In b addrs -> In b (map el_local round)) ->
  ready E dim fuel addrs ns w -> turns E (concat (repeat round k)) w t ws ->
  (forall w1 a b, In w1 (w :: ws) -> In a addrs -> In b addrs -> could_pull w1 addrs ns a b -> offers E w1 a b ns) ->
  (imbalance w addrs ns < 2 * Z.of_nat k)%Z -> balanced (last ws w) addrs ns.
Proof. exact @ends_balanced. Qed.
Print Assumptions C103_balanced.

(* The same, from the first state alone. *)
Theorem C103_balanced_found : forall (N : Num) (E : Env N), EnvOk E -> NumOrd N -> forall dim fuel addrs ns round k w t ws, all_delivered E ->
  NoDup addrs -> 2 <= length addrs -> 0 < dim ns -> peers fuel addrs round -> (forall b, In b addrs -> In b (map el_local round)) ->
  ready E dim fuel addrs ns w -> turns E (concat (repeat round k)) w t ws ->
  finds_some E (dim ns) -> Forall (fun g => g <> []) (all_groups w addrs ns) ->
  (imbalance w addrs ns < 2 * Z.of_nat k)%Z -> balanced (last ws w) addrs ns.
Proof. exact @ends_balanced_found. Qed.
Print Assumptions C103_balanced_found.

(* From then on load balancing changes nothing. *)
Theorem C103_stays : forall (N : Num) (E : Env N), EnvOk E -> NumOrd N -> forall dim fuel addrs ns cs w t ws, all_delivered E ->
  NoDup addrs -> 2 <= length addrs -> peers fuel addrs cs -> ready E dim fuel addrs ns w -> turns E cs w t ws -> balanced w addrs ns ->
  forall w', In w' ws -> balanced w' addrs ns /\ forall b, manager w' b ns = manager w b ns.
Proof. exact @stays_balanced. Qed.
Print Assumptions C103_stays.

(* A has 41 datapoints in centroids of at most 5, B has 3. *)
Definition both : list el_cfg := [loop_of nA; loop_of nB].
Example C103_case : NoDup [nA; nB] /\ all_delivered tieE /\ finds_some tieE 2 /\ peers 99 [nA; nB] both /\ (forall b, In b [nA; nB] -> In b (map el_local both)) /\
  ready tieE (fun _ => 2) 99 [nA; nB] ns1 heaped /\ Forall (fun g => g <> []) (all_groups heaped [nA; nB] ns1) /\
  map (fun b => size_at heaped b ns1) [nA; nB] = [41; 3]%Z /\ imbalance heaped [nA; nB] ns1 = 38%Z /\
  sizes_after (concat (repeat both 1)) heaped = Some [35; 9]%Z /\ sizes_after (concat (repeat both 2)) heaped = Some [30; 14]%Z /\
  sizes_after (concat (repeat both 20)) heaped = Some [30; 14]%Z.
Proof.
  splits; [apply distinct_nodup; reflexivity|intros k; reflexivity|apply tie_finds|
    apply Forall_forall; intros c [<-|[<-|[]]]; splits; cbn; auto|intros b [<-|[<-|[]]]; cbn; auto| |
    apply groups_check; vm_compute; reflexivity|vm_compute; reflexivity|vm_compute; reflexivity|vm_compute; reflexivity|vm_compute; reflexivity|vm_compute; reflexivity].
  assert (Hk : forall b ns, length (centroids_at heaped b ns) < 40) by (apply few_check; [lia|vm_compute; reflexivity]).
  unfold ready. splits; [apply world_check; vm_compute; reflexivity|apply dims_check; vm_compute; reflexivity|apply lasting_check; vm_compute; reflexivity|
    intros b ns; specialize (Hk b ns); lia| |intros b [<-|[<-|[]]]; apply manager_check; vm_compute; reflexivity|].
  - intros ns. pose proof (few_all 40 heaped [nA; nB] ns Hk) as Hf. cbn [length] in Hf. lia.
  - apply up_to_check. vm_compute. reflexivity.
Qed.
