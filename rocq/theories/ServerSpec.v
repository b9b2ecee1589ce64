(* Specification vocabulary for nodes and clusters. *)
From Verif Require Import Base Num MathUtils Env Centroid CManager DataSpec MgrSpec Proc Server.

Section ServerSpec.
Context {N : Num}.
Notation DP := (DataPoint N).

(* The manager that node a uses for namespace ns; None when it has no such namespace. *)
Definition node_at (w : World N) (a : str) : option (Node N) := assoc a (w_nodes w).
Definition manager (w : World N) (a ns : str) : option (CM N) :=
  match node_at w a with
  | None => None
  | Some nd =>
      match assoc ns (nd_tbl nd) with
      | None => None
      | Some p => option_map snd (nth_error (nd_heap nd) p)
      end
  end.


(* What requests find there. *)
Definition centroids_at (w : World N) (a ns : str) : list (Centroid N) :=
  match manager w a ns with Some m => cm_cs m | None => [] end.
Definition data_at (w : World N) (a ns : str) : list DP := stored (centroids_at w a ns).

(* Datapoints together with the namespace they belong to. *)
Definition tag (ns : str) (l : list DP) : list (str * DP) := map (pair ns) l.
Definition of_ns (ns : str) (l : list (str * DP)) : list DP :=
  map snd (filter (fun e => str_eqb ns (fst e)) l).

(* Everything in any slot of any node, whether its namespace still leads to it or not. *)
Definition node_data (nd : Node N) : list (str * DP) :=
  concat (map (fun s => tag (fst s) (stored (cm_cs (snd s)))) (nd_heap nd)).
Definition all_data (w : World N) : list (str * DP) :=
  concat (map (fun e => node_data (snd e)) (w_nodes w)).

(* Everything that requests can still find: the data of the managers in the tables. *)
Definition node_visible (nd : Node N) : list (str * DP) :=
  concat (map (fun e => match nth_error (nd_heap nd) (snd e) with
                        | Some (_, m) => tag (fst e) (stored (cm_cs m))
                        | None => []
                        end) (nd_tbl nd)).
Definition visible (w : World N) : list (str * DP) :=
  concat (map (fun e => node_visible (snd e)) (w_nodes w)).

(* As multisets of datapoints with their namespaces: before = after + lost, where everything
   lost was found expired during [t, t').  In particular nothing changes its namespace. *)
Definition keeps (E : Env N) (t t' : nat) (before after : list (str * DP)) : Prop :=
  exists lost, Permutation before (after ++ lost) /\ Forall (fun e => seen_expired E t t' (snd e)) lost.

(* A node in order: no namespace is listed twice, and each leads to a slot that was created
   for it. *)
Definition NodeOk (nd : Node N) : Prop :=
  NoDup (map fst (nd_tbl nd)) /\
  forall ns p, In (ns, p) (nd_tbl nd) -> exists m, nth_error (nd_heap nd) p = Some (ns, m).
Definition WorldOk (w : World N) : Prop :=
  NoDup (map fst (w_nodes w)) /\ forall a nd, In (a, nd) (w_nodes w) -> NodeOk nd.

(* Every slot of every node holds a manager whose vectors all have one dimension, one that D
   allows for its namespace. *)
Definition SlotOk (D : str -> nat -> Prop) (ns : str) (m : CM N) : Prop := exists n, D ns n /\ DimOk n m.
Definition DimsOk (D : str -> nat -> Prop) (w : World N) : Prop :=
  forall a nd ns m, In (a, nd) (w_nodes w) -> In (ns, m) (nd_heap nd) -> SlotOk D ns m.

(* Weaker: the vector of a manager says nothing about those of its centroids, and every
   centroid has a dimension of its own, which D allows for the namespace. *)
Definition CensOk (D : str -> nat -> Prop) (ns : str) (m : CM N) : Prop :=
  (exists n, D ns n) /\
  Forall (fun c => exists n, D ns n /\ length (c_vec c) = n /\ Forall (fun d => length (dp_vec d) = n) (c_dps c)) (cm_cs m).
Definition OwnDims (D : str -> nat -> Prop) (w : World N) : Prop :=
  forall a nd ns m, In (a, nd) (w_nodes w) -> In (ns, m) (nd_heap nd) -> CensOk D ns m.

(* No slot has been lost: every slot is the one its namespace leads to. *)
Definition NoOrphans (w : World N) : Prop :=
  forall a nd p ns m, In (a, nd) (w_nodes w) -> nth_error (nd_heap nd) p = Some (ns, m) ->
    assoc ns (nd_tbl nd) = Some p.

(* The namespace a request works on. *)
Definition req_ns (q : req N) : option str :=
  match q with
  | QNamespaces | QMeta => None
  | QVec ns | QAdd ns _ | QDrainUnordered ns _ | QDrainOrdered ns _ | QExpire ns | QLenDP ns
  | QMemTrim ns | QMoveVector ns | QDistributeFast ns _ _ | QDistributeAccurate ns _ _
  | QDistributeInternal ns _ | QKnnLookup ns _ _ _ | QNearest ns _ _ _ | QNearestVec ns _
  | QSplit ns _ _ | QMerge ns _ _ | QSteal _ _ ns _ => Some ns
  end.

(* The places (node and namespace) whose contents a request to node a may change. *)
Definition req_places (a : str) (q : req N) : list (str * str) :=
  match q with
  | QNamespaces | QMeta | QVec _ | QLenDP _ | QNearestVec _ _ => []
  | QAdd ns _ | QDrainUnordered ns _ | QDrainOrdered ns _ | QExpire ns | QMemTrim ns
  | QMoveVector ns | QDistributeInternal ns _ | QKnnLookup ns _ _ _
  | QSplit ns _ _ | QMerge ns _ _ => [(a, ns)]
  | QNearest ns _ _ drain => if drain then [(a, ns)] else []
  | QDistributeFast ns _ addrs | QDistributeAccurate ns _ addrs => map (fun b => (b, ns)) (a :: addrs)
  | QSteal _ from ns _ => [(a, ns); (from, ns)]
  end.

(* The datapoints a request brings in, and those its answer takes out of the cluster. *)
Definition req_in (q : req N) : list DP := match q with QAdd _ d => [d] | _ => [] end.
Definition ans_out (q : req N) (x : ans N) : list DP :=
  match q, x with
  | QDrainUnordered _ _, ADPs ds | QDrainOrdered _ _, ADPs ds | QKnnLookup _ _ _ true, ADPs ds => ds
  | QNearest _ _ _ true, ACens cs => stored cs
  | _, _ => []
  end.
Definition req_tin (q : req N) : list (str * DP) :=
  match req_ns q with Some ns => tag ns (req_in q) | None => [] end.
Definition ans_tout (q : req N) (x : ans N) : list (str * DP) :=
  match req_ns q with Some ns => tag ns (ans_out q x) | None => [] end.

(* Requests that ask for a non-negative number of things. *)
Definition req_counts (q : req N) : Prop :=
  match q with
  | QDrainUnordered _ n | QDrainOrdered _ n | QDistributeFast _ n _ | QDistributeAccurate _ n _
  | QKnnLookup _ _ n _ | QNearest _ _ n _ => (0 <= n)%Z
  | _ => True
  end.

(* Requests that fit the dimensions D: an added datapoint has an allowed one, and centroids
   are stolen only where there is just one. *)
Definition req_dims (D : str -> nat -> Prop) (q : req N) : Prop :=
  match q with
  | QAdd ns d => D ns (length (dp_vec d))
  | QSteal _ _ ns _ => forall n n', D ns n -> D ns n' -> n = n'
  | _ => True
  end.

(* The same without the condition on stolen centroids. *)
Definition req_fits (D : str -> nat -> Prop) (q : req N) : Prop :=
  match q with QAdd ns d => D ns (length (dp_vec d)) | _ => True end.

(* Requests that have somewhere to send what they drain. *)
Definition req_addrs (q : req N) : Prop :=
  match q with
  | QDistributeFast _ _ addrs | QDistributeAccurate _ _ addrs => addrs <> []
  | _ => True
  end.

(* Requests that steal centroids: the only ones with a loop whose length is not bounded by
   the data at its start. *)
Definition is_steal (q : req N) : Prop := match q with QSteal _ _ _ _ => True | _ => False end.

(* Requests that may create their namespace. *)
Definition creates (q : req N) : Prop := match q with QAdd _ _ | QSteal _ _ _ _ => True | _ => False end.

(* The nearest-neighbour search always finds something in a non-empty pool of the right
   dimension. *)
Definition finds_some (E : Env N) (n : nat) : Prop :=
  forall v pool, length v = n -> pool <> [] -> Forall (fun u => length u = n) pool ->
    exists i idx, e_knn E v pool 1%Z = Ok (i :: idx).

(* Every answer of the network arrives. *)
Definition answers_arrive (E : Env N) : Prop := forall k, e_fate E k <> RespLost.

(* One request to a node, as a process whose result also tells which request it was, and the
   result of goroutines that are not requests. *)
Definition request (E : Env N) (aq : str * req N) : proc' N (req N * ans N) :=
  call x <- serve E (fst aq) (snd aq); Ret (snd aq, x).
Definition idle : req N * ans N := (QNamespaces, AOk).

(* Requests to nodes that exist, with sensible arguments. *)
Definition Requests (D : str -> nat -> Prop) (w : World N) (reqs : list (str * req N)) : Prop :=
  Forall (fun aq => node_at w (fst aq) <> None /\ req_counts (snd aq) /\ req_dims D (snd aq)) reqs.

(* What requests bring in and what their answers take out. *)
Definition brought (reqs : list (str * req N)) : list (str * DP) :=
  concat (map (fun aq => req_tin (snd aq)) reqs).
Definition answered (rs : list (req N * ans N)) : list (str * DP) :=
  concat (map (fun r => ans_tout (fst r) (snd r)) rs).
Definition finished (th : list (proc' N (req N * ans N))) (rs : list (req N * ans N)) : Prop :=
  th = map (fun r => Ret r) rs.

(* Nothing is refused for a reason other than having expired: one dimension per namespace,
   a search that always finds something, and somewhere to send datapoints. *)
Definition nothing_refused (E : Env N) (D : str -> nat -> Prop) (reqs : list (str * req N)) : Prop :=
  (forall ns n n', D ns n -> D ns n' -> n = n') /\ (forall ns n, D ns n -> finds_some E n) /\
  Forall (fun aq => req_addrs (snd aq)) reqs.

(* Centroids as sent and received. *)
Definition empty_centroid (c : Centroid N) : Prop := c_dps c = [].
Definition nonempty (c : Centroid N) : bool := match c_dps c with [] => false | _ => true end.
Definition no_adjacent_empties (cs : list (Centroid N)) : Prop :=
  forall l c c' r, cs = l ++ c :: c' :: r -> ~ (empty_centroid c /\ empty_centroid c').

(* c' is made from the datapoints of c that have not expired, around their mean (if there is
   any and arithmetic is exact). *)
Definition remade (E : Env N) (n : nat) (t t' : nat) (c c' : Centroid N) : Prop :=
  exists k, t <= k /\ k + length (c_dps c) <= t' /\ c_dps c' = live_from E k (c_dps c) /\ length (c_vec c') = n /\
    (ExactNum N -> c_dps c' <> [] -> c_vec c' = mean_of n (map dp_vec (c_dps c'))).

(* The request changes no place other than (a, ns). *)
Definition only (w w' : World N) (a ns : str) : Prop :=
  forall b ns2, (b, ns2) <> (a, ns) -> manager w' b ns2 = manager w b ns2.

(* The two worlds agree on a namespace: the same nodes, with the same managers for it. *)
Definition same_ns (ns : str) (w1 w2 : World N) : Prop :=
  (forall a, option_map nd_thresh (node_at w1 a) = option_map nd_thresh (node_at w2 a)) /\
  (forall a, manager w1 a ns = manager w2 a ns).

(* Requests one after the other, each running alone, and nodes that have just started. *)
Fixpoint serve_seq (E : Env N) (l : list (str * req N)) (w : World N) : M (list (ans N) * World N) :=
  match l with
  | [] => ret ([], w)
  | (a, q) :: r =>
      do ' (x, w1) <- exec (serve E a q) w;
      do ' (xs, w2) <- serve_seq E r w1;
      ret (x :: xs, w2)
  end.
Definition fresh (ths : list (str * Z)) : World N := MkWorld (map (fun e => (fst e, MkNode [] [] (snd e))) ths) [].

End ServerSpec.
