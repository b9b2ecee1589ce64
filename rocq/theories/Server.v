(* Model of pkg/kmeans/rpc: rpc.go (slots and tables), server.go, client.go and
   serverutils.go.  Requests are processes over the world of all nodes. *)
From Verif Require Import Base Num MathUtils Knn Env Centroid CManager Proc.
From Coq.Init Require Import Byte.

(* Namespaces and addresses: Go strings, only ever compared. *)
Definition str : Type := list byte.
Fixpoint str_eqb (a b : str) : bool :=
  match a, b with
  | [], [] => true
  | x :: a', y :: b' => Byte.eqb x y && str_eqb a' b'
  | _, _ => false
  end.

(* A Go map as a list of pairs: m[k], m[k] = v. *)
Fixpoint assoc {V : Type} (k : str) (m : list (str * V)) : option V :=
  match m with
  | [] => None
  | (k', v) :: r => if str_eqb k k' then Some v else assoc k r
  end.
Fixpoint upsert {V : Type} (k : str) (v : V) (m : list (str * V)) : list (str * V) :=
  match m with
  | [] => [(k, v)]
  | (k', v') :: r => if str_eqb k k' then (k', v) :: r else (k', v') :: upsert k v r
  end.

Section Server.
Context {N : Num} (E : Env N).
Notation DP := (DataPoint N).
Notation Cen := (Centroid N).

(* One running node.  rpc.go:102-105 CManagerSlot and 121-124 CManagerTable: the table maps
   a namespace to a pointer; the slots themselves live in [nd_heap] (a pointer is a position,
   slots are never freed).  Each slot carries the namespace it was created for: a ghost, no
   definition reads it.  [nd_thresh] is the configuration captured by
   CentroidManagerFactoryFunc (rpc.go:185-197, cmd/service/service.go:15-28). *)
Record Node := MkNode {
  nd_heap : list (str * CM N);
  nd_tbl : list (str * nat);
  nd_thresh : Z
}.

(* All nodes, by address.  [w_dropped] is a ghost that no definition reads: the datapoints
   some request took out of the system (drained, or received with an acknowledgement) and
   then failed to store, with their namespaces. *)
Record World := MkWorld {
  w_nodes : list (str * Node);
  w_dropped : list (str * DP)
}.

(* The mutexes: one per table, one per slot. *)
Inductive lock := LTable (a : str) | LSlot (a : str) (p : nat).

Definition proc' : Type -> Type := proc World lock.

Definition set_node (w : World) (a : str) (nd : Node) : World :=
  MkWorld (upsert a nd (w_nodes w)) (w_dropped w).

(* Ghost: record datapoints of a namespace that are being dropped. *)
Definition drop (ns : str) (ds : list DP) (w : World) : World :=
  MkWorld (w_nodes w) (w_dropped w ++ map (pair ns) ds).
Definition drop_dps (ns : str) (ds : list DP) : proc' unit :=
  Act None (fun w => ret (tt, drop ns ds w)) Ret.

(* rpc.go:159-161, the table part of Access: under the table's mutex, fetch the slot
   pointer. *)
Definition lookup (a ns : str) : proc' (option nat) :=
  Act (Some (LTable a))
    (fun w => ret (match assoc a (w_nodes w) with
                   | None => None
                   | Some nd => assoc ns (nd_tbl nd)
                   end, w)) Ret.

(* rpc.go:110-115 CManagerSlot.Access: run f on the manager under the slot's mutex.  A
   pointer that leads nowhere is a nil dereference.  g: the datapoints dropped (ghost). *)
Definition slot_access {A : Type} (a : str) (p : nat) (f : CM N -> M (A * CM N)) (g : A -> list DP)
  : proc' A :=
  Act (Some (LSlot a p))
    (fun w =>
       match assoc a (w_nodes w) with
       | None => panic
       | Some nd =>
           match nth_error (nd_heap nd) p with
           | None => panic
           | Some (ns, m) =>
               do ' (x, m') <- f m;
               ret (x, drop ns (g x) (set_node w a (MkNode (list_set (nd_heap nd) p (ns, m'))
                                                        (nd_tbl nd) (nd_thresh nd))))
           end
       end) Ret.

(* rpc.go:156-168 CManagerTable.Access; None is the returned false. *)
Definition access_g {A : Type} (a ns : str) (f : CM N -> M (A * CM N)) (g : A -> list DP)
  : proc' (option A) :=
  call o <- lookup a ns;
  match o with
  | None => Ret None
  | Some p => call x <- slot_access a p f g; Ret (Some x)
  end.
Definition access {A : Type} (a ns : str) (f : CM N -> M (A * CM N)) : proc' (option A) :=
  access_g a ns f (fun _ => []).

(* rpc.go:173-182 AddSlot with a slot whose manager is not nil. *)
Definition add_slot (a ns : str) (m : CM N) : proc' unit :=
  Act (Some (LTable a))
    (fun w =>
       match assoc a (w_nodes w) with
       | None => panic
       | Some nd =>
           ret (tt, set_node w a (MkNode (nd_heap nd ++ [(ns, m)])
                                         (upsert ns (length (nd_heap nd)) (nd_tbl nd)) (nd_thresh nd)))
       end) Ret.

(* rpc.go:197, CentroidManagerFactoryFunc of the node: cmd/service/service.go:15-28. *)
Definition factory (a : str) (v : vec N) : proc' (CM N) :=
  Act None
    (fun w => match assoc a (w_nodes w) with
              | None => panic
              | Some nd => ret (new_cm v (nd_thresh nd), w)
              end) Ret.

(* ---- server.go: the handlers; [a] is the node that serves the request, None a
   NamespaceErr (server.go:14-20 handleNamespaceErr). ---- *)

(* server.go:23-33 Namespaces (the same loop as rpc.go:135-145): the keys of the map, in
   any order. *)
Definition h_namespaces (a : str) : proc' (list str) :=
  Act (Some (LTable a))
    (fun w => match assoc a (w_nodes w) with
              | None => ret ([], w)
              | Some nd => do ks <- any_order E (map fst (nd_tbl nd)); ret (ks, w)
              end) Ret.

(* server.go:38-42 Vec. *)
Definition h_vec (a ns : str) : proc' (option (vec N)) :=
  access a ns (fun m => ret (cm_vec m, m)).

(* Ghost: the datapoint is dropped if it was refused. *)
Definition unless (d : DP) (ok : bool) : list DP := if ok then [] else [d].

(* server.go:59, filling the manager of a new namespace. *)
Definition first_add (ns : str) (m : CM N) (d : DP) : proc' (CM N) :=
  Act None (fun w => do ' (ok, m') <- cm_add E m d; ret (m', drop ns (unless d ok) w)) Ret.

(* server.go:52-68 AddDataPoint: answers true whatever the manager said (line 66). *)
Definition h_add (a ns : str) (d : DP) : proc' bool :=
  call o <- access_g a ns (fun m => cm_add E m d) (unless d);
  match o with
  | Some _ => Ret true
  | None =>
      call m <- factory a (dp_vec d);
      call m' <- first_add ns m d;
      call _ <- add_slot a ns m';
      Ret true
  end.

(* server.go:79-92 DrainUnordered, DrainOrdered. *)
Definition h_drain_unordered (a ns : str) (n : Z) : proc' (option (list DP)) :=
  access a ns (fun m => cm_drain_unordered E m n).
Definition h_drain_ordered (a ns : str) (n : Z) : proc' (option (list DP)) :=
  access a ns (fun m => cm_drain_ordered E m n).

(* server.go:97-128 Expire, LenDP, MemTrim, MoveVector. *)
Definition h_expire (a ns : str) : proc' (option unit) :=
  access a ns (fun m => do m' <- cm_expire E m; ret (tt, m')).
Definition h_len_dp (a ns : str) : proc' (option nat) :=
  access a ns (fun m => ret (cm_len_dp m, m)).
Definition h_mem_trim (a ns : str) : proc' (option unit) :=
  access a ns (fun m => do m' <- cm_mem_trim E m; ret (tt, m')).
Definition h_move_vector (a ns : str) : proc' (option bool) :=
  access a ns (fun m => cm_move_vector E m).

(* server.go:240-244 DistributeDataPointsInternal. *)
Definition h_distribute_internal (a ns : str) (n : Z) : proc' (option unit) :=
  access a ns (fun m => do m' <- cm_distribute_internal E m n; ret (tt, m')).

(* server.go:256-260 KNNLookup. *)
Definition h_knn_lookup (a ns : str) (v : vec N) (k : Z) (drain : bool) : proc' (option (list DP)) :=
  access a ns (fun m => cm_knn_lookup E m v k drain).

(* server.go:272-276 NearestCentroids: (nil, false) leaves the answer nil. *)
Definition h_nearest (a ns : str) (v : vec N) (n : Z) (drain : bool) : proc' (option (list Cen)) :=
  access a ns (fun m =>
    do ' (o, m') <- cm_nearest E m v n drain;
    ret (match o with Some cs => cs | None => [] end, m')).

(* server.go:286-293 NearestCentroidVec: nil when nothing is found. *)
Definition h_nearest_vec (a ns : str) (v : vec N) : proc' (option (option (vec N))) :=
  access a ns (fun m =>
    do ' (o, m') <- cm_nearest E m v 1%Z false;
    ret (match o with Some (c :: _) => Some (c_vec c) | _ => None end, m')).

(* server.go:306-308 and 323-325, the predicates. *)
Definition in_range (lo hi : Z) (c : Cen) : bool :=
  (lo <? Z.of_nat (c_len c))%Z && (Z.of_nat (c_len c) <? hi)%Z.

(* server.go:304-310 SplitCentroids and 321-327 MergeCentroids. *)
Definition h_split (a ns : str) (lo hi : Z) : proc' (option unit) :=
  access a ns (fun m => do m' <- cm_split E m (in_range lo hi); ret (tt, m')).
Definition h_merge (a ns : str) (lo hi : Z) : proc' (option unit) :=
  access a ns (fun m => do m' <- cm_merge E m (in_range lo hi); ret (tt, m')).

(* server.go:409-431 Meta: per namespace the number of centroids and of datapoints.  The
   table is locked only while its keys are copied. *)
Fixpoint meta_loop (a : str) (nss : list str) : proc' (list (str * (nat * nat))) :=
  match nss with
  | [] => Ret []
  | ns :: r =>
      call o <- access a ns (fun m => ret ((length (cm_cs m), cm_len_dp m), m));
      call l <- meta_loop a r;
      Ret (match o with Some x => (ns, x) :: l | None => l end)
  end.
Definition h_meta (a : str) : proc' (list (str * (nat * nat))) :=
  call nss <- h_namespaces a; meta_loop a nss.

(* ---- client.go ---- *)

(* client.go:18-26 client, net/rpc's Dial and Call: one remote call of the handler h at node
   a.  None is an error of the network.  A call whose answer is lost may still be running
   when the caller goes on. *)
Definition rpc {A : Type} (a : str) (h : proc' A) : proc' (option A) :=
  call f <- Act None (fun w => do k <- tick;
                        ret (match assoc a (w_nodes w) with
                             | None => ReqLost
                             | Some _ => e_fate E k
                             end, w)) Ret;
  match f with
  | Delivered => call x <- h; Ret (Some x)
  | ReqLost => Ret None
  | RespLost => Fork (call _ <- h; Ret tt) (Ret None)
  end.

(* The answer and "err == nil" of a call to a handler that may return a NamespaceErr. *)
Definition join {A : Type} (r : option (option A)) : option A :=
  match r with Some (Some x) => Some x | _ => None end.

(* client.go:29-37 Namespaces: nil on an error. *)
Definition c_namespaces (a : str) : proc' (list str) :=
  call r <- rpc a (h_namespaces a); Ret (match r with Some l => l | None => [] end).

(* client.go:42-50 Vec; None is an error.  The callers treat nil like an error, and gob
   decodes an empty vector as nil. *)
Definition c_vec_of (a ns : str) : proc' (option (vec N)) :=
  call r <- rpc a (h_vec a ns);
  Ret (match join r with Some [] => None | o => o end).

(* client.go:57-66 AddDataPoint: false on an error. *)
Definition c_add_dp (a ns : str) (d : DP) : proc' bool :=
  call r <- rpc a (h_add a ns d); Ret (match r with Some b => b | None => false end).

(* client.go:71-94 DrainUnordered, DrainOrdered: nil on an error. *)
Definition c_drain_u (a ns : str) (n : Z) : proc' (list DP) :=
  call r <- rpc a (h_drain_unordered a ns n); Ret (match join r with Some l => l | None => [] end).
Definition c_drain_o (a ns : str) (n : Z) : proc' (list DP) :=
  call r <- rpc a (h_drain_ordered a ns n); Ret (match join r with Some l => l | None => [] end).

(* client.go:99-103 Expire, 121-125 MemTrim, 171-178 DistributeDataPointsInternal,
   263-291 SplitCentroids and MergeCentroids: no result. *)
Definition c_expire_of (a ns : str) : proc' unit := call _ <- rpc a (h_expire a ns); Ret tt.
Definition c_mem_trim_of (a ns : str) : proc' unit := call _ <- rpc a (h_mem_trim a ns); Ret tt.
Definition c_distribute_internal (a ns : str) (n : Z) : proc' unit :=
  call _ <- rpc a (h_distribute_internal a ns n); Ret tt.
Definition c_split (a ns : str) (lo hi : Z) : proc' unit := call _ <- rpc a (h_split a ns lo hi); Ret tt.
Definition c_merge (a ns : str) (lo hi : Z) : proc' unit := call _ <- rpc a (h_merge a ns lo hi); Ret tt.

(* client.go:130-138 MoveVector: false on an error. *)
Definition c_move_vector_of (a ns : str) : proc' bool :=
  call r <- rpc a (h_move_vector a ns); Ret (match join r with Some b => b | None => false end).

(* client.go:108-116 LenDP: 0 on an error. *)
Definition c_len_dp (a ns : str) : proc' nat :=
  call r <- rpc a (h_len_dp a ns); Ret (match join r with Some n => n | None => 0 end).

(* client.go:183-192 KNNLookup: make(.., 0, k) panics for k < 0; empty on an error. *)
Definition c_lookup (a ns : str) (v : vec N) (k : Z) (drain : bool) : proc' (list DP) :=
  if (k <? 0)%Z then local panic
  else
    call r <- rpc a (h_knn_lookup a ns v k drain);
    Ret (match join r with Some l => l | None => [] end).

(* client.go:218-222, removing empty centroids: the index advances also after a removal. *)
Fixpoint drop_empty (cs : list Cen) : list Cen :=
  match cs with
  | [] => []
  | c :: r =>
      if c_len c =? 0
      then match r with
           | [] => []
           | c' :: r' => c' :: drop_empty r'
           end
      else c :: drop_empty r
  end.

(* client.go:228-235, re-initialising the received centroids: only the datapoints survive
   the encoding (the vector is an unexported field); the client's default CentroidFactory
   (lines 73-81) makes a fresh centroid.  Its search functions are the cosine ones; the model
   has one pair of search functions per environment. *)
Fixpoint reinit (cs : list Cen) : M (list Cen) :=
  match cs with
  | [] => ret []
  | c :: r =>
      do d <- index (c_dps c) 0;
      do ' (_, c') <- c_move_vector E (MkC (dp_vec d) (c_dps c));
      do r' <- reinit r;
      ret (c' :: r')
  end.

(* client.go:213-237, what NearestCentroids makes of the answer; None is (nil, false). *)
Definition post_nearest (resp : list Cen) : M (option (list Cen)) :=
  match resp with
  | [] => ret None
  | _ :: _ => do cs <- reinit (drop_empty resp); ret (Some cs)
  end.

(* client.go:203-238 NearestCentroids: the result and "err == nil". *)
Definition c_nearest (a ns : str) (v : vec N) (n : Z) (drain : bool)
  : proc' (option (list Cen) * bool) :=
  call r <- rpc a (h_nearest a ns v n drain);
  call cs <- local (post_nearest (match join r with Some l => l | None => [] end));
  Ret (cs, match join r with Some _ => true | None => false end).

(* client.go:244-253 NearestCentroidVec; None is an error or nil. *)
Definition c_nearest_vec (a ns : str) (v : vec N) : proc' (option (vec N)) :=
  call r <- rpc a (h_nearest_vec a ns v);
  Ret (match join r with Some (Some (x :: u)) => Some (x :: u) | _ => None end).

(* client.go:327-333 Meta: empty on an error. *)
Definition c_meta (a : str) : proc' (list (str * (nat * nat))) :=
  call r <- rpc a (h_meta a); Ret (match r with Some l => l | None => [] end).

(* ---- serverutils.go ---- *)

(* serverutils.go:51-73 fetchVecs and collect (also core/nodes/vecs.go:42-66): one goroutine
   per address, results in order of arrival, failures left out.  Simplification: the fetches
   happen one after the other, in any order, and the results arrive in any order; what a
   fetch reads is not affected by other fetches, which change nothing. *)
Fixpoint fetch_each (f : str -> proc' (option (vec N))) (addrs : list str)
  : proc' (list (str * vec N)) :=
  match addrs with
  | [] => Ret []
  | a :: r =>
      call o <- f a;
      call l <- fetch_each f r;
      Ret (match o with Some v => (a, v) :: l | None => l end)
  end.
Definition fetch_vecs (f : str -> proc' (option (vec N))) (addrs : list str)
  : proc' (list (str * vec N)) :=
  call order <- local (any_order E addrs);
  call l <- fetch_each f order;
  local (any_order E l).

(* ---- server.go: the handlers that call other nodes ---- *)

(* server.go:140-145, the loop of distributeDP over the found indexes. *)
Fixpoint try_add (addrs : list str) (idx : list nat) (ns : str) (d : DP) : proc' bool :=
  match idx with
  | [] => Ret false
  | i :: r =>
      call a <- local (index addrs i);
      call ok <- c_add_dp a ns d;
      if ok then Ret true else try_add addrs r ns d
  end.

(* server.go:139-147 distributeDP. *)
Definition distribute_dp (d : DP) (rsl : list (str * vec N)) (ns : str) : proc' bool :=
  call idx <- local (lift (knn_cos (dp_vec d) (map snd rsl) (Z.of_nat (length rsl))));
  try_add (map fst rsl) idx ns d.

(* server.go:182-184 and 224-226, putting a datapoint back. *)
Definition put_back_dp (a ns : str) (d : DP) : proc' unit :=
  call o <- access_g a ns (fun m => cm_add E m d) (unless d);
  match o with
  | Some _ => Ret tt
  | None => drop_dps ns [d]
  end.

(* server.go:178-186, the loop of DistributeDataPointsFast. *)
Fixpoint distribute_fast_loop (a ns : str) (rsl : list (str * vec N)) (ds : list DP) : proc' unit :=
  match ds with
  | [] => Ret tt
  | d :: r =>
      call ok <- distribute_dp d rsl ns;
      call _ <- (if ok then Ret tt else put_back_dp a ns d);
      distribute_fast_loop a ns rsl r
  end.

(* server.go:209-228, the loop of DistributeDataPointsAccurate. *)
Fixpoint distribute_accurate_loop (a ns : str) (addrs : list str) (ds : list DP) : proc' unit :=
  match ds with
  | [] => Ret tt
  | d :: r =>
      call rsl <- fetch_vecs (fun b => c_nearest_vec b ns (dp_vec d)) addrs;
      call ok <- distribute_dp d rsl ns;
      call _ <- (if ok then Ret tt else put_back_dp a ns d);
      distribute_accurate_loop a ns addrs r
  end.

(* server.go:156-165 and 198-207, the common first part: make(.., 0, args.N) panics for
   N < 0; the drained datapoints, or None for the NamespaceErr; nothing is put back when
   there are no addresses. *)
Definition distribute_with (a ns : str) (n : Z) (addrs : list str)
  (loop : list DP -> proc' unit) : proc' (option unit) :=
  if (n <? 0)%Z then local panic
  else
    call o <- access_g a ns (fun m => cm_drain_ordered E m n)
                (fun ds => match addrs with [] => ds | _ :: _ => [] end);
    match o, addrs with
    | None, _ => Ret None
    | Some [], _ | Some _, [] => Ret (Some tt)
    | Some ds, _ :: _ => call _ <- loop ds; Ret (Some tt)
    end.

(* server.go:155-188 DistributeDataPointsFast. *)
Definition h_distribute_fast (a ns : str) (n : Z) (addrs : list str) : proc' (option unit) :=
  distribute_with a ns n addrs (fun ds =>
    call rsl <- fetch_vecs (fun b => c_vec_of b ns) addrs;
    distribute_fast_loop a ns rsl ds).

(* server.go:197-230 DistributeDataPointsAccurate. *)
Definition h_distribute_accurate (a ns : str) (n : Z) (addrs : list str) : proc' (option unit) :=
  distribute_with a ns n addrs (fun ds => distribute_accurate_loop a ns addrs ds).

(* server.go:376-390, the loop of StealCentroid: the total so far and the final
   "clientErr == nil".  If the local namespace is gone (see Reset.v) the centroids are
   lost. *)
Fixpoint steal_loop (fuel : nat) (a from ns : str) (v : vec N) (limit : Z) (total : nat)
  : proc' (nat * bool) :=
  if (Z.of_nat total <? limit)%Z then
    match fuel with
    | O => local out_of_fuel
    | S fuel' =>
        call ' (o, ok) <- c_nearest from ns v 1%Z true;
        match o with
        | None | Some [] => Ret (total, ok)
        | Some (c :: cs) =>
            call r <- access a ns (fun m => ret (tt, MkCM (cm_vec m) (cm_cs m ++ c :: cs) (cm_thresh m)));
            call total' <- match r with
                           | Some _ => Ret (total + c_len c)
                           | None => call _ <- drop_dps ns (concat (map c_dps (c :: cs))); Ret total
                           end;
            if ok then steal_loop fuel' a from ns v limit total' else Ret (total', ok)
        end
    end
  else Ret (total, true).

(* server.go:353-398 StealCentroid: (TransferredN, OK).  [fuel] bounds the loop.
   Simplification: line 367 tests for nil; a stored manager's vector is taken to be non-nil. *)
Definition h_steal (fuel : nat) (a from ns : str) (limit : Z) : proc' (nat * bool) :=
  call lv <- h_vec a ns;
  call ov <- match lv with
             | Some v => Ret (Some v)
             | None =>
                 call rv <- c_vec_of from ns;
                 match rv with
                 | None => Ret None
                 | Some v =>
                     call m <- factory a v;
                     call _ <- add_slot a ns m;
                     Ret (Some v)
                 end
             end;
  match ov with
  | None => Ret (0, false)
  | Some v =>
      call ' (total, ok) <- steal_loop fuel a from ns v limit 0;
      call _ <- access a ns (fun m => cm_move_vector E m);
      Ret (total, ok)
  end.

(* client.go:147-166 DistributeDataPointsFast, DistributeDataPointsAccurate. *)
Definition c_distribute_fast (a ns : str) (addrs : list str) (n : Z) : proc' unit :=
  call _ <- rpc a (h_distribute_fast a ns n addrs); Ret tt.
Definition c_distribute_accurate (a ns : str) (addrs : list str) (n : Z) : proc' unit :=
  call _ <- rpc a (h_distribute_accurate a ns n addrs); Ret tt.

(* client.go:309-324 StealCentroids: (0, false) on an error. *)
Definition c_steal (fuel : nat) (a from ns : str) (limit : Z) : proc' (nat * bool) :=
  call r <- rpc a (h_steal fuel a from ns limit);
  Ret (match r with Some x => x | None => (0, false) end).

(* ---- net/rpc's dispatch of a request to the method it names (rpc.go:215-243 StartListen
   registers the server; every request runs in a goroutine of its own). ---- *)
Inductive req :=
| QNamespaces
| QVec (ns : str)
| QAdd (ns : str) (d : DP)
| QDrainUnordered (ns : str) (n : Z)
| QDrainOrdered (ns : str) (n : Z)
| QExpire (ns : str)
| QLenDP (ns : str)
| QMemTrim (ns : str)
| QMoveVector (ns : str)
| QDistributeFast (ns : str) (n : Z) (addrs : list str)
| QDistributeAccurate (ns : str) (n : Z) (addrs : list str)
| QDistributeInternal (ns : str) (n : Z)
| QKnnLookup (ns : str) (v : vec N) (k : Z) (drain : bool)
| QNearest (ns : str) (v : vec N) (n : Z) (drain : bool)
| QNearestVec (ns : str) (v : vec N)
| QSplit (ns : str) (lo hi : Z)
| QMerge (ns : str) (lo hi : Z)
| QSteal (fuel : nat) (from ns : str) (limit : Z)
| QMeta.

(* The answers; ANsErr is the NamespaceErr. *)
Inductive ans :=
| ANsErr
| AOk
| ABool (b : bool)
| ANat (n : nat)
| AVec (v : option (vec N))
| ADPs (ds : list DP)
| ACens (cs : list Cen)
| ASteal (n : nat) (ok : bool)
| ANames (l : list str)
| AMeta (l : list (str * (nat * nat))).

Definition reply {A : Type} (f : A -> ans) (p : proc' (option A)) : proc' ans :=
  call o <- p; Ret (match o with Some x => f x | None => ANsErr end).

Definition serve (a : str) (q : req) : proc' ans :=
  match q with
  | QNamespaces => call l <- h_namespaces a; Ret (ANames l)
  | QVec ns => reply (fun v => AVec (Some v)) (h_vec a ns)
  | QAdd ns d => call b <- h_add a ns d; Ret (ABool b)
  | QDrainUnordered ns n => reply ADPs (h_drain_unordered a ns n)
  | QDrainOrdered ns n => reply ADPs (h_drain_ordered a ns n)
  | QExpire ns => reply (fun _ => AOk) (h_expire a ns)
  | QLenDP ns => reply ANat (h_len_dp a ns)
  | QMemTrim ns => reply (fun _ => AOk) (h_mem_trim a ns)
  | QMoveVector ns => reply ABool (h_move_vector a ns)
  | QDistributeFast ns n addrs => reply (fun _ => AOk) (h_distribute_fast a ns n addrs)
  | QDistributeAccurate ns n addrs => reply (fun _ => AOk) (h_distribute_accurate a ns n addrs)
  | QDistributeInternal ns n => reply (fun _ => AOk) (h_distribute_internal a ns n)
  | QKnnLookup ns v k drain => reply ADPs (h_knn_lookup a ns v k drain)
  | QNearest ns v n drain => reply ACens (h_nearest a ns v n drain)
  | QNearestVec ns v => reply AVec (h_nearest_vec a ns v)
  | QSplit ns lo hi => reply (fun _ => AOk) (h_split a ns lo hi)
  | QMerge ns lo hi => reply (fun _ => AOk) (h_merge a ns lo hi)
  | QSteal fuel from ns limit => call ' (n, ok) <- h_steal fuel a from ns limit; Ret (ASteal n ok)
  | QMeta => call l <- h_meta a; Ret (AMeta l)
  end.

End Server.
Arguments Node N : clear implicits.
Arguments MkNode {N}.
Arguments World N : clear implicits.
Arguments MkWorld {N}.
Arguments proc' N : clear implicits.
Arguments req N : clear implicits.
Arguments ans N : clear implicits.
