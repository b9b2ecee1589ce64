(* Property C116: distribution sends each datapoint to the closest node. *)
From Verif Require Import Base Num MathUtils Knn SearchSpec Env Centroid CManager DataSpec MgrSpec Wp NumFacts
  MathSpec TestEnv Proc Owns Server ServerSpec ServerFacts TestWorld Core CoreSpec Settle Closest Handed.
Local Open Scope nat_scope.

(* The datapoints that are sent are those that DrainOrdered would give.  Fast distribution compares
   the vectors that the nodes have after that, accurate distribution, for each datapoint, those of
   all centroids at that moment. *)
Theorem C116_handed : forall (N : Num) (E : Env N), EnvOk E -> NumOrd N -> forall D, all_delivered E -> e_knn E = knn_cos ->
  forall (acc : bool) a ns n addrs w t, WorldOk w -> DimsOk D w -> manager w a ns <> None -> (0 <= n)%Z -> addrs <> [] ->
  (forall k, D ns k -> k <> 0) ->
  wp (exec (serve E a (if acc then QDistributeAccurate ns n addrs else QDistributeFast ns n addrs)) w) t (fun r t' => fst r = AOk /\
    exists ds w0 t0, exec (serve E a (QDrainOrdered ns n)) w t = Ok ((ADPs ds, w0), t0) /\
      handed E a ns addrs (fun w => if acc then centroid_vec w ns else node_vec w0 ns) ds w0 t0 (snd r) t').
Proof. exact @distribute_handed. Qed.
Print Assumptions C116_handed.

(* If nothing expires, accurate distribution puts each datapoint into a centroid whose vector is then as
   close to it as that of any centroid at any of the nodes. *)
Theorem C116_landed : forall (N : Num) (E : Env N), EnvOk E -> NumOrd N -> forall D, all_delivered E -> e_knn E = knn_cos ->
  forall a ns n addrs w t, WorldOk w -> DimsOk D w -> manager w a ns <> None -> (0 <= n)%Z -> addrs <> [] ->
  (forall k, D ns k -> k <> 0) -> (forall b, never_expired E (data_at w b ns)) ->
  wp (exec (serve E a (QDistributeAccurate ns n addrs)) w) t (fun r t' =>
    exists ds w0 t0, exec (serve E a (QDrainOrdered ns n)) w t = Ok ((ADPs ds, w0), t0) /\ landed E a ns addrs ds w0 (snd r)).
Proof. exact @distribute_landed. Qed.
Print Assumptions C116_landed.

(* A hands one datapoint of each centroid on: fast distribution sends (1, 0) to B and (0, 1) to itself,
   accurate distribution sends both to itself. *)
Definition two_long (ns : str) : nat := 2.
Definition after_distribution (q : req f64) : M (list (list nat)) := fun t =>
  match exec (serve cosE nA q) w_even t with
  | Ok ((_, w'), t') => Ok (map (fun a => map (fun c => length (c_dps c)) (centroids_at w' a ns1)) [nA; nB], t')
  | Panic => Panic
  | OutOfFuel => OutOfFuel
  end.
Example C116_case : EnvOk cosE /\ NumOrd f64 /\ all_delivered cosE /\ e_knn cosE = knn_cos /\ WorldOk w_even /\
  DimsOk (dims_are two_long) w_even /\ manager w_even nA ns1 <> None /\ (forall k, dims_are two_long ns1 k -> k <> 0) /\
  wp (after_distribution (QDistributeFast ns1 2 [nA; nB])) 0 (fun l _ => l = [[2; 1]; [3]]) /\
  wp (after_distribution (QDistributeAccurate ns1 2 [nA; nB])) 0 (fun l _ => l = [[2; 2]; [2]]).
Proof.
  split; [apply cosE_ok|]. split; [apply f64_ord|]. split; [intros k; reflexivity|]. split; [reflexivity|].
  split; [apply world_check; vm_compute; reflexivity|]. split; [apply dims_check; vm_compute; reflexivity|].
  split; [discriminate|]. split; [intros k ->; discriminate|]. vm_compute. auto.
Qed.

(* No datapoint of the case above expires. *)
Example C116_landed_case : forall b, never_expired cosE (data_at w_even b ns1).
Proof.
  intros b k d Hd. unfold data_at, centroids_at, manager, node_at in Hd. cbn [w_even w_nodes assoc] in Hd.
  destruct (str_eqb b nA); [|destruct (str_eqb b nB)]; cbn in Hd; repeat destruct Hd as [<-|Hd]; try reflexivity; destruct Hd.
Qed.
