(* Specification vocabulary: the requests that the tasks of the event loop make. *)
From Verif Require Import Base Num MathUtils Env Centroid CManager Proc Server ServerSpec EventLoop LoopSpec.
From Coq Require Import Permutation.

Section TaskSpec.
Context {N : Num} (E : Env N).

(* Requests made one after the other, from world w and tick t on, with what comes back: nothing
   if there is no such node, or the request or its answer is lost.  A lost request changes
   nothing; any other is served, alone. *)
Inductive Made : list (str * req N) -> World N -> nat -> list (option (ans N)) -> World N -> nat -> Prop :=
| Made_none w t : Made [] w t [] w t
| Made_lost a q r w t xs w' t' : node_at w a = None \/ e_fate E t = ReqLost ->
    Made r w (S t) xs w' t' -> Made ((a, q) :: r) w t (None :: xs) w' t'
| Made_hidden a q r w t x w1 t1 xs w' t' : node_at w a <> None -> e_fate E t = RespLost ->
    exec (serve E a q) w (S t) = Ok ((x, w1), t1) ->
    Made r w1 t1 xs w' t' -> Made ((a, q) :: r) w t (None :: xs) w' t'
| Made_answered a q r w t x w1 t1 xs w' t' : node_at w a <> None -> e_fate E t = Delivered ->
    exec (serve E a q) w (S t) = Ok ((x, w1), t1) ->
    Made r w1 t1 xs w' t' -> Made ((a, q) :: r) w t (Some x :: xs) w' t'.

(* The namespaces that an answer lists. *)
Definition listed (o : option (ans N)) : list str := match o with Some (ANames l) => l | _ => [] end.

(* The tasks that make one request per namespace, to the local node. *)
Definition upkeep (c : el_cfg) (k : task) (ns : str) : option (req N) :=
  match k with
  | TExpire => Some (QExpire ns)
  | TMemTrim => Some (QMemTrim ns)
  | TMerge => Some (QMerge ns (el_merge_min c) (el_merge_max c))
  | TSplit => Some (QSplit ns (el_split_min c) (el_split_max c))
  | TInternal => Some (QDistributeInternal ns (el_internal_n c))
  | TMeta | TFast | TAccurate | TBalance => None
  end.

(* The tasks that have the local node send datapoints to others. *)
Definition sending (c : el_cfg) (k : task) (ns : str) (addrs : list str) : option (req N) :=
  match k with
  | TFast => Some (QDistributeFast ns (el_fast_n c) addrs)
  | TAccurate => Some (QDistributeAccurate ns (el_accurate_n c) addrs)
  | _ => None
  end.

(* The addresses whose answers list ns, in order. *)
Definition holders (addrs : list str) (os : list (option (ans N))) (ns : str) : list str :=
  flat_map (fun e => map (fun _ => fst e) (filter (str_eqb ns) (listed (snd e)))) (combine addrs os).

(* For each namespace: all remote nodes are asked for theirs, then the request is made with the
   addresses of those that have it. *)
Inductive Sent (c : el_cfg) (f : str -> list str -> req N) : list str -> World N -> nat -> World N -> nat -> Prop :=
| Sent_none w t : Sent c f [] w t w t
| Sent_next ns r w t os w1 t1 x w2 t2 w' t' :
    Made (map (fun a => (a, QNamespaces)) (el_remote c)) w t os w1 t1 ->
    Made [(el_local c, f ns (holders (el_remote c) os ns))] w1 t1 [x] w2 t2 ->
    Sent c f r w2 t2 w' t' -> Sent c f (ns :: r) w t w' t'.

(* ---- load balancing ---- *)

(* The numbers in the answers to QLenDP and QSteal; 0 if nothing came back. *)
Definition size_of (o : option (ans N)) : Z := match o with Some (ANat n) => Z.of_nat n | _ => 0%Z end.
Definition came (o : option (ans N)) : nat := match o with Some (ASteal n _) => n | _ => 0 end.
Definition sum_of (l : list Z) : Z := fold_right Z.add 0%Z l.
Definition here_of (sizes : list (str * Z)) (a : str) : Z :=
  fold_right (fun e s => if str_eqb (fst e) a then snd e else s) 0%Z sizes.

(* How many are wanted; and when a node is passed over: it is the local one, the local one has
   more than mean - margin, nothing is wanted, or the node would be left with less than
   mean + margin and is not the only one. *)
Definition want_of (c : el_cfg) (mean here : Z) : Z := ((mean - here) / (3 * Z.of_nat (length (el_remote c))))%Z.
Definition passed (c : el_cfg) (only : bool) (mean margin here : Z) (other : str) (size : Z) : Prop :=
  other = el_local c \/ (mean - margin < here)%Z \/ want_of c mean here = 0%Z \/
  (only = false /\ (size - want_of c mean here < mean + margin)%Z).

(* The nodes are visited in order; [here] is the size of the local one. *)
Inductive Pulled (c : el_cfg) (only : bool) (mean margin : Z) : list (str * Z) -> Z -> list asked -> Prop :=
| Pulled_none here : Pulled c only mean margin [] here []
| Pulled_past other size r here l : passed c only mean margin here other size ->
    Pulled c only mean margin r here l -> Pulled c only mean margin ((other, size) :: r) here l
| Pulled_ask other size r here n l : ~ passed c only mean margin here other size ->
    Pulled c only mean margin r (here + Z.of_nat n)%Z l ->
    Pulled c only mean margin ((other, size) :: r) here ((other, want_of c mean here, n) :: l).

(* For each namespace: the nodes that have it are asked for the number of datapoints, then the
   local node is told to steal.  A step in any order costs one tick. *)
Inductive Balanced (c : el_cfg) (who : str -> list str) : list str -> World N -> nat -> World N -> nat -> Prop :=
| Balanced_none w t : Balanced c who [] w t w t
| Balanced_next ns r w t order xs w1 t1 mean todo l ys w2 t2 w' t' :
    Permutation order (who ns) ->
    Made (map (fun a => (a, QLenDP ns)) order) w (S t) xs w1 t1 ->
    mean = (sum_of (map size_of xs) / Z.of_nat (length order))%Z ->
    Permutation todo (combine order (map size_of xs)) ->
    Pulled c (length order =? 1) mean (margin_of mean) todo (here_of todo (el_local c)) l ->
    Made (map (fun e => (el_local c, QSteal (el_fuel c) (asked_of e) ns (snd (fst e)))) l) w1 (S (S t1)) ys w2 t2 ->
    map snd l = map came ys ->
    Balanced c who r w2 t2 w' t' -> Balanced c who (ns :: r) w t w' t'.

End TaskSpec.
