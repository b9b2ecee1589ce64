(* Properties C36-C40, C42-C44 and C67: nodes, requests and the cluster. *)
From Verif Require Import Base Num MathUtils Knn Env Centroid CManager SearchSpec DataSpec MgrSpec Wp NumFacts
  MathSpec TestEnv Proc Owns Server ServerSpec ServerFacts ClusterProofs
  SeqProofs SeqProofs2 StealProofs SeqProofs3 Alone TestWorld Props04Lemmas.
Local Open Scope nat_scope.

(* Two nodes with one namespace each in common, and one more on node A. *)
Definition shared : list (str * req f64) :=
  [(nA, QAdd ns1 (dp [1]%Z)); (nA, QAdd ns1 (dp [2]%Z)); (nA, QAdd ns1 (dp [9]%Z));
   (nA, QAdd ns2 (dp [5;5]%Z)); (nB, QAdd ns1 (dp [3]%Z))].
Definition dim12 (ns : str) : nat := if str_eqb ns ns2 then 2 else 1.
Definition ab : World f64 := after eucE shared (fresh [(nA, 2%Z); (nB, 2%Z)]).

(* ---- C36 ---- *)
Theorem C36_metadata : forall (N : Num) (E : Env N), EnvOk E -> forall a w t, WorldOk w ->
  wp (exec (serve E a QMeta) w) t (fun r _ => snd r = w /\ exists l, fst r = AMeta l /\ NoDup (map fst l) /\
    forall ns, assoc ns l = option_map (fun m => (length (cm_cs m), length (stored (cm_cs m)))) (manager w a ns)).
Proof. exact @meta_spec. Qed.
Print Assumptions C36_metadata.

Theorem C36_namespaces : forall (N : Num) (E : Env N), EnvOk E -> forall a w t, WorldOk w ->
  wp (exec (serve E a QNamespaces) w) t (fun r _ => snd r = w /\ exists l, fst r = ANames l /\ NoDup l /\
    forall ns, In ns l <-> manager w a ns <> None).
Proof. exact @names_spec. Qed.
Print Assumptions C36_namespaces.

Theorem C36_server_len_dp : forall (N : Num) (E : Env N) a ns w m t, WorldOk w -> manager w a ns = Some m ->
  exec (serve E a (QLenDP ns)) w t = Ok ((ANat (length (stored (cm_cs m))), w), t).
Proof. exact @len_dp_spec. Qed.
Print Assumptions C36_server_len_dp.

Example C36_server_case : WorldOk ab /\
  wp (exec (serve eucE nA QMeta) ab) 0 (fun r _ => match fst r with AMeta l => l = [(ns1, (3, 3)); (ns2, (1, 1))] | _ => False end) /\
  wp (exec (serve eucE nA QNamespaces) ab) 0 (fun r _ => match fst r with ANames l => l = [ns1; ns2] | _ => False end) /\
  wp (exec (serve eucE nA (QLenDP ns1)) ab) 0 (fun r _ => match fst r with ANat n => n = 3 | _ => False end).
Proof. split; [apply world_check; vm_compute; reflexivity|]. vm_compute. auto. Qed.

(* ---- C37 ---- *)
Theorem C37_isolated : forall (N : Num) (E : Env N), EnvOk E -> NumOrd N -> forall D w reqs sched t th w' t' a ns,
  WorldOk w -> DimsOk D w -> Requests D w reqs ->
  Forall (fun aq => ~ In (a, ns) (req_places (fst aq) (snd aq))) reqs ->
  interleave idle sched (map (request E) reqs) w t = Ok ((th, w'), t') ->
  manager w' a ns = manager w a ns.
Proof. exact @pool_isolated. Qed.
Print Assumptions C37_isolated.

Theorem C37_independent : forall (N : Num) (E : Env N) ns a q w1 w2 t,
  WorldOk w1 -> WorldOk w2 -> same_ns ns w1 w2 -> req_ns q = Some ns ->
  match exec (serve E a q) w1 t, exec (serve E a q) w2 t with
  | Ok ((x1, w1'), t1), Ok ((x2, w2'), t2) => x1 = x2 /\ t1 = t2 /\ same_ns ns w1' w2'
  | Panic, Panic | OutOfFuel, OutOfFuel => True
  | _, _ => False
  end.
Proof. exact @independent. Qed.
Print Assumptions C37_independent.

(* Interleaved requests of all kinds to other places: (A, n) changes, (A, m) does not. *)
Definition busy : list (str * req f64) :=
  [(nA, QDistributeFast ns1 2 [nB]); (nB, QAdd ns1 (dp [4]%Z)); (nA, QSplit ns1 2 0); (nB, QSteal 9 nA ns1 2)].
Example C37_case : WorldOk ab /\
  DimsOk (dims_are dim12) ab /\ Requests (dims_are dim12) ab busy /\
  Forall (fun aq => ~ In (nA, ns2) (req_places (fst aq) (snd aq))) busy /\
  wp (interleave idle (concat (repeat [0;1;2;3;4;5] 40)) (map (request eucE) busy) ab) 0 (fun r _ =>
    forallb (fun p => match p with Ret _ => true | _ => false end) (fst r) = true /\
    length (data_at ab nA ns1) = 3 /\ length (data_at (snd r) nA ns1) = 0 /\ length (data_at (snd r) nB ns1) = 5).
Proof.
  splits; [apply world_check; vm_compute; reflexivity|apply dims_check; vm_compute; reflexivity|
    apply requests_check; vm_compute; reflexivity| |vm_compute; auto].
  repeat constructor; cbn; intuition discriminate.
Qed.

(* Two worlds that differ in another namespace only: the same answer. *)
Example C37_independent_case :
  let w1 := ab in let w2 := after eucE (firstn 3 shared ++ [(nB, QAdd ns1 (dp [3]%Z))]) (fresh [(nA, 2%Z); (nB, 2%Z)]) in
  WorldOk w2 /\ manager w1 nA ns2 <> manager w2 nA ns2 /\
  forall q, In q [QKnnLookup ns1 (fv [9]%Z) 2 true; QDrainOrdered ns1 2] ->
    wp (exec (serve eucE nA q) w1) 0 (fun r1 t1 => wp (exec (serve eucE nA q) w2) 0 (fun r2 t2 =>
      match fst r1, fst r2 with ADPs l1, ADPs l2 => length l1 = 2 /\ shows l1 = shows l2 | _, _ => False end /\ t1 = t2 /\
      holds (snd r1) nA ns1 = holds (snd r2) nA ns1)).
Proof.
  cbv zeta. splits; [apply world_check; vm_compute; reflexivity| |].
  - intros H. apply (f_equal (fun o => match o with Some _ => true | None => false end)) in H. vm_compute in H. discriminate.
  - intros q [<-|[<-|[]]]; vm_compute; auto.
Qed.

(* ---- C38 ---- *)
Theorem C38_unknown : forall (N : Num) (E : Env N) a q ns w t, WorldOk w -> req_counts q -> req_ns q = Some ns -> ~ creates q ->
  manager w a ns = None -> exec (serve E a q) w t = Ok ((ANsErr, w), t).
Proof. exact @unknown_namespace. Qed.
Print Assumptions C38_unknown.

Theorem C38_known : forall (N : Num) (E : Env N) a q ns w t x w' t', WorldOk w -> req_ns q = Some ns -> manager w a ns <> None ->
  exec (serve E a q) w t = Ok ((x, w'), t') -> x <> ANsErr.
Proof. exact @known_namespace. Qed.
Print Assumptions C38_known.

Example C38_case :
  wp (exec (serve eucE nB (QDrainUnordered ns2 1)) ab) 0 (fun r _ =>
    match fst r with ANsErr => True | _ => False end /\ length (data_at (snd r) nA ns2) = 1) /\
  wp (exec (serve eucE nA (QDrainUnordered ns2 1)) ab) 0 (fun r _ =>
    match fst r with ADPs [d] => dp_vec d = fv [5;5]%Z | _ => False end /\ length (data_at (snd r) nA ns2) = 0).
Proof. vm_compute. auto. Qed.

(* ---- C39 ---- *)
(* An add to an existing namespace is answered true in any case; the datapoint is stored
   exactly when it has not expired and the manager has no centroid or finds one for it. *)
Theorem C39_add_known : forall (N : Num) (E : Env N), EnvOk E -> forall n a ns d w m t,
  WorldOk w -> manager w a ns = Some m -> DimOk n m ->
  wp (exec (serve E a (QAdd ns d)) w) t (fun r t' => fst r = ABool true /\ only w (snd r) a ns /\
    let accepted := expired_at (e_now E t) d = false /\
       (cm_cs m = [] \/ expired_at (e_now E (S t)) d = false /\
          exists i idx, e_knn E (dp_vec d) (map c_vec (cm_cs m)) 1%Z = Ok (i :: idx)) in
    (accepted -> conserves E t t' (data_at w a ns ++ [d]) (data_at (snd r) a ns)) /\
    (~ accepted -> manager (snd r) a ns = Some m)).
Proof. exact @add_known_spec. Qed.
Print Assumptions C39_add_known.

(* An add to an unknown namespace creates it, even when the datapoint has expired. *)
Theorem C39_add_unknown : forall (N : Num) (E : Env N) a ns d w t,
  WorldOk w -> node_at w a <> None -> manager w a ns = None ->
  wp (exec (serve E a (QAdd ns d)) w) t (fun r t' => fst r = ABool true /\ only w (snd r) a ns /\
    exists m, manager (snd r) a ns = Some m /\ option_map nd_thresh (node_at w a) = Some (cm_thresh m) /\
      (expired_at (e_now E t) d = true -> m = new_cm (dp_vec d) (cm_thresh m)) /\
      (expired_at (e_now E t) d = false -> expired_at (e_now E (S t)) d = false -> data_at (snd r) a ns = [d])).
Proof. exact @add_unknown_spec. Qed.
Print Assumptions C39_add_unknown.

Example C39_case :
  wp (exec (serve eucE nA (QAdd ns1 (dp [8]%Z))) ab) 0 (fun r _ =>
    match fst r with ABool b => b = true | _ => False end /\
    holds (snd r) nA ns1 = map shows [[dp [8]%Z]; [dp [1]%Z]; [dp [2]%Z]; [dp [9]%Z]]) /\
  wp (exec (serve eucE nA (QAdd ns1 (dp [8;8]%Z))) ab) 0 (fun r _ =>
    match fst r with ABool b => b = true | _ => False end /\
    holds (snd r) nA ns1 = map shows [[dp [9]%Z]; [dp [1]%Z]; [dp [2]%Z]]) /\
  wp (exec (serve eucE nB (QAdd ns2 (dp [8;8]%Z))) ab) 0 (fun r _ => holds (snd r) nB ns2 = map shows [[dp [8;8]%Z]]) /\
  wp (exec (serve clockE nB (QAdd ns2 (dpx [8;8]%Z (-1)))) ab) 0 (fun r _ =>
    match manager (snd r) nB ns2 with Some m => cm_vec m = fv [8;8]%Z /\ length (cm_cs m) = 0 | None => False end).
Proof. vm_compute. auto. Qed.

(* Acknowledged, not expired, and stored nowhere: because the only centroid around has the
   zero vector (in the configuration of cmd/service), or because of the dimension. *)
Theorem C39_acknowledged_add_is_stored_refuted : exists (E : Env f64) ths setup a ns d, EnvOk E /\ never_expired E [d] /\
  wp (serve_seq E (setup ++ [(a, QAdd ns d)]) (fresh ths)) 0 (fun r _ =>
    last (fst r) ANsErr = ABool true /\ ~ In d (data_at (snd r) a ns) /\ ~ In (ns, d) (all_data (snd r))).
Proof. exact add_refuted. Qed.
Print Assumptions C39_acknowledged_add_is_stored_refuted.

Theorem C39_other_dimension_refuted : exists (E : Env f64) ths setup a ns d, EnvOk E /\ never_expired E [d] /\
  wp (serve_seq E (setup ++ [(a, QAdd ns d)]) (fresh ths)) 0 (fun r _ =>
    last (fst r) ANsErr = ABool true /\ ~ In d (data_at (snd r) a ns) /\ ~ In (ns, d) (all_data (snd r))).
Proof. exact add_dimension_refuted. Qed.
Print Assumptions C39_other_dimension_refuted.

(* ---- C40 ---- *)
(* Whatever the interleaving, everything brought in is afterwards in some slot, was answered
   to some request, has expired, or was dropped - which happens to expired datapoints only
   if no request is refused. *)
Theorem C40_pool_conserves : forall (N : Num) (E : Env N), EnvOk E -> NumOrd N -> forall D w reqs sched t rs w' t',
  WorldOk w -> DimsOk D w -> Requests D w reqs -> answers_arrive E ->
  interleave idle sched (map (request E) reqs) w t = Ok ((map (fun r => Ret r) rs, w'), t') ->
  exists dropped, w_dropped w' = w_dropped w ++ dropped /\
    keeps E t t' (all_data w ++ brought reqs) (all_data w' ++ answered rs ++ dropped) /\
    (nothing_refused E D reqs -> Forall (fun e => seen_expired E t t' (snd e)) dropped).
Proof. exact @pool_conserves. Qed.
Print Assumptions C40_pool_conserves.

(* If moreover no namespace has to be created, later requests can find all of it. *)
Theorem C40_pool_visible : forall (N : Num) (E : Env N), EnvOk E -> NumOrd N -> forall D w reqs sched t rs w' t',
  WorldOk w -> NoOrphans w -> DimsOk D w -> Requests D w reqs ->
  Forall (fun aq => forall b n, In (b, n) (req_places (fst aq) (snd aq)) -> node_at w b <> None -> manager w b n <> None) reqs ->
  answers_arrive E ->
  interleave idle sched (map (request E) reqs) w t = Ok ((map (fun r => Ret r) rs, w'), t') ->
  exists dropped, w_dropped w' = w_dropped w ++ dropped /\
    keeps E t t' (visible w ++ brought reqs) (visible w' ++ answered rs ++ dropped) /\
    (nothing_refused E D reqs -> Forall (fun e => seen_expired E t t' (snd e)) dropped).
Proof. exact @pool_visible. Qed.
Print Assumptions C40_pool_visible.

Definition pool : list (str * req f64) :=
  [(nA, QAdd ns1 (dp [4]%Z)); (nA, QAdd ns1 (dp [6]%Z)); (nB, QDistributeAccurate ns1 1 [nA]);
   (nA, QKnnLookup ns1 (fv [9]%Z) 1 true); (nA, QSteal 9 nB ns1 1)].
Example C40_case : WorldOk ab /\ NoOrphans ab /\ DimsOk (dims_are dim12) ab /\ Requests (dims_are dim12) ab pool /\
  nothing_refused tieE (dims_are dim12) pool /\ answers_arrive tieE /\
  wp (interleave idle (concat (repeat [4;3;2;1;0;5;6] 40)) (map (request tieE) pool) ab) 0 (fun r _ =>
    forallb (fun p => match p with Ret _ => true | _ => false end) (fst r) = true /\
    length (visible ab) = 5 /\ length (visible (snd r)) = 6 /\ length (w_dropped (snd r)) = 0).
Proof.
  splits; [apply world_check; vm_compute; reflexivity|apply orphans_check; vm_compute; reflexivity|
    apply dims_check; vm_compute; reflexivity|apply requests_check; vm_compute; reflexivity| | |vm_compute; auto].
  - unfold nothing_refused; splits; [unfold dims_are; intros; congruence|intros; apply tie_finds|repeat constructor; cbn; auto; discriminate].
  - intros k. discriminate.
Qed.

(* Two adds race to create a namespace: both are acknowledged, one datapoint is out of
   reach. *)
Theorem C40_racing_adds_refuted : exists (E : Env f64) ths reqs sched rs w' t' a ns d, EnvOk E /\
  Forall (fun aq => fst aq = a /\ exists d, snd aq = QAdd ns d /\ length (dp_vec d) = 2 /\ never_expired E [d]) reqs /\
  interleave idle sched (map (request E) reqs) (fresh ths) 0 = Ok ((map (fun r => Ret r) rs, w'), t') /\
  Forall (fun r => snd r = ABool true) rs /\
  In (ns, d) (brought reqs) /\ ~ In (ns, d) (visible w').
Proof. exact race_refuted. Qed.
Print Assumptions C40_racing_adds_refuted.

(* ---- C42 ---- *)
Theorem C42_distribute_conserves : forall (N : Num) (E : Env N), EnvOk E -> NumOrd N -> forall D a q ns addrs w t,
  WorldOk w -> DimsOk D w -> node_at w a <> None -> is_distribute q ns addrs -> answers_arrive E ->
  wp (exec (serve E a q) w) t (fun r t' => exists dropped, w_dropped (snd r) = w_dropped w ++ dropped /\
    keeps E t t' (all_data w) (all_data (snd r) ++ dropped) /\
    (nothing_refused E D [(a, q)] -> Forall (fun e => seen_expired E t t' (snd e)) dropped) /\
    (forall b ns2, ns2 <> ns \/ ~ In b (a :: addrs) -> manager (snd r) b ns2 = manager w b ns2)).
Proof. exact @distribute_conserves. Qed.
Print Assumptions C42_distribute_conserves.

Example C42_case : is_distribute (QDistributeFast (N := f64) ns1 2 [nB]) ns1 [nB] /\
  nothing_refused tieE (dims_are dim12) [(nA, QDistributeFast ns1 2 [nB])] /\
  wp (exec (serve eucE nA (QDistributeFast ns1 2 [nB])) ab) 0 (fun r _ =>
    length (data_at ab nA ns1) = 3 /\ length (data_at (snd r) nA ns1) = 1 /\ length (data_at (snd r) nB ns1) = 3 /\
    length (w_dropped (snd r)) = 0).
Proof.
  splits; [exists 2%Z; split; [lia|auto]| |vm_compute; auto].
  unfold nothing_refused; splits; [unfold dims_are; intros; congruence|intros; apply tie_finds|repeat constructor; cbn; auto; discriminate].
Qed.

(* With nobody to send to, the drained datapoints are dropped. *)
Theorem C42_no_addresses_refuted : exists (E : Env f64) ths setup a ns n d, EnvOk E /\ answers_arrive E /\ never_expired E [d] /\
  In (a, QAdd ns d) setup /\
  wp (serve_seq E setup (fresh ths)) 0 (fun r t => In (ns, d) (all_data (snd r)) /\
    wp (exec (serve E a (QDistributeFast ns n [])) (snd r)) t (fun r' _ =>
      fst r' = AOk /\ ~ In (ns, d) (all_data (snd r')))).
Proof. exact no_addresses_refuted. Qed.
Print Assumptions C42_no_addresses_refuted.

(* The receiving node acknowledges what it does not store. *)
Theorem C42_rejecting_node_refuted : exists (E : Env f64) ths setup a b ns n d, EnvOk E /\ (forall k, e_fate E k = Delivered) /\
  never_expired E [d] /\ a <> b /\
  wp (serve_seq E setup (fresh ths)) 0 (fun r t => In (ns, d) (all_data (snd r)) /\
    wp (exec (serve E a (QDistributeFast ns n [b])) (snd r)) t (fun r' _ =>
      fst r' = AOk /\ ~ In (ns, d) (all_data (snd r')))).
Proof. exact rejecting_node_refuted. Qed.
Print Assumptions C42_rejecting_node_refuted.

(* A lost answer leaves the datapoint on both nodes. *)
Theorem C42_lost_answer_refuted : exists (E : Env f64) ths setup a b ns n d, EnvOk E /\ never_expired E [d] /\ a <> b /\
  wp (serve_seq E setup (fresh ths)) 0 (fun r t => ~ In d (data_at (snd r) b ns) /\
    wp (exec (serve E a (QDistributeFast ns n [b])) (snd r)) t (fun r' _ =>
      fst r' = AOk /\ In d (data_at (snd r') a ns) /\ In d (data_at (snd r') b ns))).
Proof. exact lost_answer_refuted. Qed.
Print Assumptions C42_lost_answer_refuted.

(* ---- C43 ---- *)
(* parts: the contents of the stolen centroids, in order; fuel: a bound for the model's loop
   that is never reached; e: a centroid that was empty and stopped the loop. *)
Theorem C43_steal : forall (N : Num) (E : Env N), EnvOk E -> forall n fuel a from ns limit w t,
  WorldOk w -> a <> from -> node_at w a <> None ->
  (forall b m, b = a \/ b = from -> manager w b ns = Some m -> DimOk n m) ->
  length (centroids_at w from ns) < fuel ->
  wp (exec (serve E a (QSteal fuel from ns limit)) w) t (fun r t' => exists parts total ok k,
    let w' := snd r in
    fst r = ASteal total ok /\ total = length (concat parts) /\ t <= k <= t' /\
    (forall i, i < length parts -> (Z.of_nat (length (concat (firstn i parts))) < limit)%Z) /\
    data_at w' a ns = live_from E k (data_at w a ns ++ concat parts) /\
    (forall b ns2, (b, ns2) <> (a, ns) -> (b, ns2) <> (from, ns) -> manager w' b ns2 = manager w b ns2) /\
    (answers_arrive E -> conserves E t t' (data_at w from ns) (data_at w' from ns ++ concat parts) /\
      exists e, e <= 1 /\ length (centroids_at w from ns) = length (centroids_at w' from ns) + length parts + e /\
        (ok = true -> (Z.of_nat total < limit)%Z -> finds_some E n -> centroids_at w' from ns = [] \/ e = 1)) /\
    (node_at w from <> None -> manager w from ns <> None -> 0 < n -> (forall k, e_fate E k = Delivered) -> ok = true)).
Proof. exact @steal_spec. Qed.
Print Assumptions C43_steal.

Example C43_case :
  (forall b m, b = nB \/ b = nA -> manager ab b ns1 = Some m -> DimOk 1 m) /\
  wp (exec (serve eucE nB (QSteal 9 nA ns1 2)) ab) 0 (fun r _ =>
    match fst r with ASteal total ok => total = 2 /\ ok = true | _ => False end /\
    length (data_at (snd r) nA ns1) = 1 /\ length (data_at (snd r) nB ns1) = 3).
Proof.
  split; [|vm_compute; auto]. intros b m Hb Hm.
  assert (H : forall b, b = nA \/ b = nB -> match manager ab b ns1 with Some m => mgr_dim 1 m | None => false end = true).
  { intros b' [->| ->]; vm_compute; reflexivity. }
  specialize (H b). rewrite Hm in H. apply mgr_dim_ok, H. tauto.
Qed.

(* "=0 & true: No network err but remote is empty" (server.go:340-352): the answer is also
   given when the first centroid sent was empty and others are not. *)
Theorem C43_nothing_left_refuted : exists (E : Env f64) ths setup fuel a b ns limit d, EnvOk E /\ (forall k, e_fate E k = Delivered) /\
  never_expired E [d] /\ a <> b /\ (0 < limit)%Z /\
  wp (serve_seq E setup (fresh ths)) 0 (fun r t =>
    wp (exec (serve E a (QSteal fuel b ns limit)) (snd r)) t (fun r' _ =>
      fst r' = ASteal 0 true /\ In d (data_at (snd r') b ns))).
Proof. exact steal_doc_refuted. Qed.
Print Assumptions C43_nothing_left_refuted.

(* A lost answer takes the centroid with it. *)
Theorem C43_lost_answer_refuted : exists (E : Env f64) ths setup fuel a b ns limit d, EnvOk E /\ never_expired E [d] /\ a <> b /\
  wp (serve_seq E setup (fresh ths)) 0 (fun r t => In (ns, d) (all_data (snd r)) /\
    wp (exec (serve E a (QSteal fuel b ns limit)) (snd r)) t (fun r' _ =>
      fst r' = ASteal 0 false /\ ~ In (ns, d) (all_data (snd r')))).
Proof. exact steal_lost_refuted. Qed.
Print Assumptions C43_lost_answer_refuted.

(* ---- C44 ---- *)
Theorem C44_client_nearest : forall (N : Num) (E : Env N), EnvOk E -> forall n a ns v k drain w m t,
  WorldOk w -> manager w a ns = Some m -> DimOk n m -> (0 <= k)%Z -> e_fate E t = Delivered ->
  wp (exec (serve E a (QNearest ns v k drain)) w) (S t) (fun r _ => exists resp, fst r = ACens resp /\
    (no_adjacent_empties resp ->
       wp (exec (c_nearest E a ns v k drain) w) t (fun r' t' =>
         snd r' = snd r /\ snd (fst r') = true /\
         match resp with
         | [] => fst (fst r') = None
         | _ :: _ => exists cs, fst (fst r') = Some cs /\ Forall2 (remade E n t t') (filter nonempty resp) cs
         end)) /\
    (~ no_adjacent_empties resp -> exec (c_nearest E a ns v k drain) w t = Panic)).
Proof. exact @client_nearest. Qed.
Print Assumptions C44_client_nearest.

(* Three centroids, the nearest of which has been emptied. *)
Definition one_empty : list (str * req f64) :=
  shared ++ [(nA, QDrainUnordered ns1 1)].
Example C44_case : let w := after eucE one_empty (fresh [(nA, 2%Z); (nB, 2%Z)]) in
  match manager w nA ns1 with Some m => mgr_dim 1 m && (length (cm_cs m) =? 3) | None => false end = true /\
  wp (exec (serve eucE nA (QNearest ns1 (fv [9]%Z) 3 false)) w) 1 (fun r _ =>
    match fst r with ACens resp => map nonempty resp = [false; true; true] | _ => False end) /\
  wp (exec (c_nearest eucE nA ns1 (fv [9]%Z) 3 false) w) 0 (fun r _ =>
    match fst (fst r) with Some cs => map showc cs = [(fv [2]%Z, shows [dp [2]%Z]); (fv [1]%Z, shows [dp [1]%Z])] | None => False end).
Proof. vm_compute. auto. Qed.

Theorem C44_adjacent_empties_refuted : exists (E : Env f64) ths setup b ns v n, EnvOk E /\ (forall k, e_fate E k = Delivered) /\ (0 <= n)%Z /\
  wp (serve_seq E setup (fresh ths)) 0 (fun r t => exec (c_nearest E b ns v n false) (snd r) t = Panic).
Proof. exact client_panic_refuted. Qed.
Print Assumptions C44_adjacent_empties_refuted.

(* ---- C67 ---- *)
(* Requests with sensible arguments never crash a node, whatever the interleaving, and leave
   it in order; only the loop of a steal may run on for ever. *)
Theorem C67_no_crash : forall (N : Num) (E : Env N), EnvOk E -> NumOrd N -> forall D w reqs sched t,
  WorldOk w -> DimsOk D w -> Requests D w reqs ->
  match interleave idle sched (map (request E) reqs) w t with
  | Ok ((_, w'), _) => WorldOk w' /\ DimsOk D w'
  | Panic => False
  | OutOfFuel => Exists (fun aq => is_steal (snd aq)) reqs
  end.
Proof. exact @pool_safe. Qed.
Print Assumptions C67_no_crash.

(* Without steals every pool of requests can be run to its end from wherever it got to. *)
Theorem C67_requests_complete : forall (N : Num) (E : Env N), EnvOk E -> NumOrd N -> forall D w reqs sched t,
  WorldOk w -> DimsOk D w -> Requests D w reqs -> Forall (fun aq => ~ is_steal (snd aq)) reqs ->
  match interleave idle sched (map (request E) reqs) w t with
  | Ok ((th, w'), t') => exists sched2 rs w2 t2, interleave idle sched2 th w' t' = Ok ((map (fun r => Ret r) rs, w2), t2)
  | _ => False
  end.
Proof. exact @pool_finishes. Qed.
Print Assumptions C67_requests_complete.

(* C37_case and C40_case are also cases for C67. *)
Example C67_case : Requests (dims_are dim12) ab (firstn 3 busy) /\ Forall (fun aq => ~ is_steal (snd aq)) (firstn 3 busy) /\
  wp (interleave idle [0;2;1;0;2;1] (map (request eucE) (firstn 3 busy)) ab) 0 (fun r _ =>
    forallb (fun p => match p with Ret _ => true | _ => false end) (fst r) = false).
Proof. splits; [apply requests_check; vm_compute; reflexivity|repeat constructor; cbn; auto|vm_compute; auto]. Qed.
