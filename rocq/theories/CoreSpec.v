(* Specification vocabulary for the HTTP interface, the event loop and whole systems. *)
From Verif Require Import Base Num MathUtils SearchSpec Env Centroid CManager DataSpec MgrSpec Proc Server ServerSpec
  Core EventLoop.

Section CoreSpec.
Context {N : Num}.
Notation DP := (DataPoint N).

(* Everything that runs in a system of nodes: requests to a node, HTTP requests to a service
   that knows the nodes [addrs], and the event loop of a node (for at most n rounds). *)
Inductive job :=
| JReq (a : str) (q : req N)
| JPut (addrs : list str) (body : option (put_opts N))
| JQuery (addrs : list str) (body : option (query_opts N))
| JLoop (c : el_cfg) (stop : nat -> bool) (n : nat).

(* How a job ends.  [found] is the ghost of query_http. *)
Inductive done :=
| DReq (q : req N) (x : ans N)
| DPut (body : option (put_opts N)) (r : http N)
| DQuery (body : option (query_opts N)) (r : http N) (found : list DP)
| DLoop (ended : bool)
| DIdle.

Definition run_job (E : Env N) (j : job) : proc' N done :=
  match j with
  | JReq a q => call x <- serve E a q; Ret (DReq q x)
  | JPut addrs body => call r <- put_http E addrs body; Ret (DPut body r)
  | JQuery addrs body => call ' (r, ds) <- query_http E addrs body; Ret (DQuery body r ds)
  | JLoop c stop n => call b <- event_loop E c stop n; Ret (DLoop b)
  end.

(* The datapoints a job brings into the system, and those that are with its caller when it
   has ended: an HTTP put that does not answer 200 has stored nothing, a draining query has
   taken what it found. *)
Definition job_in (j : job) : list (str * DP) :=
  match j with
  | JReq _ q => req_tin q
  | JPut _ (Some o) => [(po_ns o, to_dp (po_dp o))]
  | _ => []
  end.
Definition status (r : http N) : Z := match r with Http s _ => s | Aborted => 0 end.
Definition job_out (d : done) : list (str * DP) :=
  match d with
  | DReq q x => ans_tout q x
  | DPut (Some o) r => if (status r =? 200)%Z then [] else [(po_ns o, to_dp (po_dp o))]
  | DQuery (Some o) _ ds => if qo_drain o then tag (qo_ns o) ds else []
  | _ => []
  end.
Definition jobs_in (js : list job) : list (str * DP) := concat (map job_in js).
Definition jobs_out (ds : list done) : list (str * DP) := concat (map job_out ds).

(* The places (node and namespace) whose contents a job may change.  D tells which namespaces
   there can be, with the dimensions of their vectors. *)
Definition touches (D : str -> nat -> Prop) (j : job) (b ns : str) : Prop :=
  match j with
  | JReq a q => In (b, ns) (req_places a q)
  | JPut addrs (Some o) => In b addrs /\ ns = po_ns o
  | JQuery addrs (Some o) => In b addrs /\ ns = qo_ns o
  | JPut _ None | JQuery _ None => False
  | JLoop c _ _ => In b (el_local c :: el_remote c) /\ exists n, D ns n
  end.

(* One vector dimension per namespace. *)
Definition one_dim (D : str -> nat -> Prop) : Prop := forall ns n n', D ns n -> D ns n' -> n = n'.

(* Sensible jobs: requests as in [Requests], added datapoints of an allowed dimension, event
   loops with an interval for the Meta task and non-negative batch sizes. *)
Definition loop_ok (c : el_cfg) : Prop :=
  sk_meta (el_skip c) <> 0%Z /\ (0 <= el_fast_n c)%Z /\ (0 <= el_accurate_n c)%Z.
Definition job_ok (D : str -> nat -> Prop) (w : World N) (j : job) : Prop :=
  match j with
  | JReq a q => node_at w a <> None /\ req_counts q /\ req_dims D q
  | JPut _ (Some o) => D (po_ns o) (length (wi_vec (po_dp o)))
  | JPut _ None | JQuery _ _ => True
  | JLoop c _ _ => loop_ok c /\ one_dim D
  end.
Definition Jobs D w js := Forall (job_ok D w) js.

(* The same without the conditions on stolen centroids, and the namespaces a job may steal
   in. *)
Definition job_fits (D : str -> nat -> Prop) (w : World N) (j : job) : Prop :=
  match j with
  | JReq a q => node_at w a <> None /\ req_counts q /\ req_fits D q
  | JPut _ (Some o) => D (po_ns o) (length (wi_vec (po_dp o)))
  | JPut _ None | JQuery _ _ => True
  | JLoop c _ _ => loop_ok c
  end.
Definition AnyJobs D w js := Forall (job_fits D w) js.
Definition steals_in (D : str -> nat -> Prop) (j : job) (ns : str) : Prop :=
  match j with
  | JReq _ (QSteal _ _ ns' _) => ns = ns'
  | JLoop _ _ _ => exists n, D ns n
  | _ => False
  end.

(* What lasts: the nodes, their thresholds, and every namespace on every node. *)
Definition Lasts (w w' : World N) : Prop :=
  (forall a, option_map nd_thresh (node_at w' a) = option_map nd_thresh (node_at w a)) /\
  (forall a ns, manager w a ns <> None -> manager w' a ns <> None).

(* Jobs that steal centroids. *)
Definition may_steal (j : job) : Prop :=
  match j with JReq _ q => is_steal q | JLoop _ _ _ => True | _ => False end.

(* Every message of the network arrives. *)
Definition all_delivered (E : Env N) : Prop := forall k, e_fate E k = Delivered.

(* Jobs that have somewhere to send what they drain: an event loop finds its own node among
   those it asks for their namespaces. *)
Definition job_addrs (E : Env N) (w : World N) (j : job) : Prop :=
  match j with
  | JReq _ q => req_addrs q
  | JLoop c _ _ => all_delivered E /\ node_at w (el_local c) <> None /\ In (el_local c) (el_remote c)
  | _ => True
  end.
Definition none_refused (E : Env N) (D : str -> nat -> Prop) (w : World N) (js : list job) : Prop :=
  one_dim D /\ (forall ns n, D ns n -> finds_some E n) /\ Forall (job_addrs E w) js.

(* ---- one call at a time ---- *)

(* The vector by which node a is ranked: that of its manager, or that of the centroid it
   finds nearest.  An empty vector cannot be told from no answer. *)
Definition fast_vec (w : World N) (ns a : str) (u : vec N) : Prop :=
  exists m, manager w a ns = Some m /\ u = cm_vec m /\ u <> [].
Definition accurate_vec (E : Env N) (w : World N) (ns : str) (v : vec N) (a : str) (u : vec N) : Prop :=
  exists m i idx c, manager w a ns = Some m /\ e_knn E v (map c_vec (cm_cs m)) 1%Z = Ok (i :: idx) /\
    nth_error (cm_cs m) i = Some c /\ u = c_vec c /\ u <> [].

(* l is a best-first list of all rankable addresses among those that answered; if every
   message arrives, the others have no answer to give. *)
Definition Ranked (E : Env N) (dist : vec N -> vec N -> option (F N)) (asc : bool)
  (answers : str -> vec N -> Prop) (addrs : list str) (v : vec N) (l : list str) : Prop :=
  exists resp rest idx,
    Permutation (map fst resp ++ rest) addrs /\
    Forall (fun e => answers (fst e) (snd e)) resp /\
    (all_delivered E -> Forall (fun a => forall u, ~ answers a u) rest) /\
    BestK dist asc v (map snd resp) (length resp) idx /\
    Forall2 (fun i a => nth_error (map fst resp) i = Some a) idx l.

(* A request that is made at tick k reaches node a and is answered. *)
Definition reached (E : Env N) (w : World N) (a : str) (k : nat) : Prop :=
  node_at w a <> None /\ e_fate E k = Delivered.

(* The datapoint has been added by one request to the first node of addrs that was reached. *)
Definition added_once (E : Env N) (addrs : list str) (ns : str) (d : DP) (w : World N) (t : nat)
  (w' : World N) (t' : nat) : Prop :=
  exists pre a post, addrs = pre ++ a :: post /\
    (forall i b, nth_error pre i = Some b -> ~ reached E w b (t + i)) /\
    reached E w a (t + length pre) /\
    exec (serve E a (QAdd ns d)) w (S (t + length pre)) = Ok ((ABool true, w'), t').

(* Asking one node for k datapoints. *)
Definition found_in (x : ans N) : list DP := match x with ADPs ds => ds | _ => [] end.
Definition asks (E : Env N) (ns : str) (v : vec N) (drain : bool) (a : str) (k : Z)
  (w : World N) (t : nat) (ds : list DP) (w' : World N) (t' : nat) : Prop :=
  (reached E w a t /\ exists x, exec (serve E a (QKnnLookup ns v k drain)) w (S t) = Ok ((x, w'), t') /\ ds = found_in x) \/
  (~ reached E w a t /\ ds = [] /\ w' = w /\ t' = S t).

(* Asking node after node, each for what is still missing, until nothing is missing. *)
Inductive gathers (E : Env N) (ns : str) (v : vec N) (drain : bool)
  : list str -> Z -> World N -> nat -> list DP -> World N -> nat -> Prop :=
| g_none k w t : gathers E ns v drain [] k w t [] w t
| g_enough a r k w t ds w' t' :
    asks E ns v drain a k w t ds w' t' -> (k <= Z.of_nat (length ds))%Z ->
    gathers E ns v drain (a :: r) k w t ds w' t'
| g_more a r k w t ds w1 t1 ds' w' t' :
    asks E ns v drain a k w t ds w1 t1 -> (Z.of_nat (length ds) < k)%Z ->
    gathers E ns v drain r (k - Z.of_nat (length ds)) w1 t1 ds' w' t' ->
    gathers E ns v drain (a :: r) k w t (ds ++ ds') w' t'.

(* Datapoints that the JSON interface can carry. *)
Definition carries (d : DP) : Prop := encodable (of_dp d) = true.

(* The nodes as the HTTP handlers rank them, by cosine similarity to v, best first. *)
Definition nodes_ranked (E : Env N) (w : World N) (accurate : bool) (addrs : list str) (ns : str) (v : vec N)
  (l : list str) : Prop :=
  if accurate then Ranked E cosine_similarity false (accurate_vec E w ns v) addrs v l
  else Ranked E cosine_similarity false (fast_vec w ns) addrs v l.

(* What a PUT of datapoint d does: it adds d to the first node it reaches in the order of the
   ranking; when it reaches none, in some order of all nodes; answers 500 when it reaches none
   then, and has changed nothing. *)
Definition put_effect (E : Env N) (w : World N) (accurate : bool) (addrs : list str) (ns : str) (d : DP)
  (code : Z) (w' : World N) (t' : nat) : Prop :=
  exists l t1, nodes_ranked E w accurate addrs ns (dp_vec d) l /\
    (code = 200%Z /\ added_once E l ns d w t1 w' t' \/
     (forall i b, nth_error l i = Some b -> ~ reached E w b (t1 + i)) /\
     exists l' t2, Permutation l' addrs /\
       (code = 200%Z /\ added_once E l' ns d w t2 w' t' \/
        code = 500%Z /\ w' = w /\ forall i b, nth_error l' i = Some b -> ~ reached E w b (t2 + i))).

End CoreSpec.
Arguments job N : clear implicits.
Arguments done N : clear implicits.
