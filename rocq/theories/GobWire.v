(* The calls of pkg/kmeans/rpc/client.go and the answers of server.go as values of Gob.v, and the
   two messages that each of them is on a connection (net/rpc client.go, server.go: a header and a
   body).  A client makes one call on a connection (client.go:18-26), so its number is 0. *)
From Coq Require Import SpecFloat.
From Verif Require Import Base Num MathUtils Env Centroid Server Routes JsonText Gob.
From Coq.Init Require Import Byte.
From Coq Require Import Strings.Byte Strings.String.
Local Open Scope string_scope.
Local Open Scope list_scope.
Local Open Scope Z_scope.

(* ---- types ---- *)
Definition t_vec : gty := GSlice 8 GFloat.
(* pkg/kmeans/common/datapoint.go:6-11; 80 bytes in memory. *)
Definition t_dp : gty := GStruct [t_vec; GBytes; GTime; GBool].
Definition t_dps : gty := GSlice 80 t_dp.
(* pkg/kmeans/centroid/centroid.go:21-26: of a Centroid only the datapoints are exported; []*Centroid. *)
Definition t_cens : gty := GSlice 8 (GStruct [t_dps]).
(* net/rpc Request, Response. *)
Definition t_request : gty := GStruct [GBytes; GUint].
Definition t_response : gty := GStruct [GBytes; GUint; GBytes].

(* The methods of server.go. *)
Inductive method :=
| MNamespaces | MVec | MAdd | MDrainUnordered | MDrainOrdered | MExpire | MLenDP | MMemTrim | MMoveVector
| MDistributeFast | MDistributeAccurate | MDistributeInternal | MKnnLookup | MNearest | MNearestVec | MSplit | MMerge | MSteal | MMeta.
Definition methods : list (method * string) :=
  [(MNamespaces, "Namespaces"); (MVec, "Vec"); (MAdd, "AddDataPoint"); (MDrainUnordered, "DrainUnordered"); (MDrainOrdered, "DrainOrdered");
   (MExpire, "Expire"); (MLenDP, "LenDP"); (MMemTrim, "MemTrim"); (MMoveVector, "MoveVector"); (MDistributeFast, "DistributeDataPointsFast");
   (MDistributeAccurate, "DistributeDataPointsAccurate"); (MDistributeInternal, "DistributeDataPointsInternal"); (MKnnLookup, "KNNLookup");
   (MNearest, "NearestCentroids"); (MNearestVec, "NearestCentroidVec"); (MSplit, "SplitCentroids"); (MMerge, "MergeCentroids");
   (MSteal, "StealCentroid"); (MMeta, "Meta")].
Definition named (m : method) : str :=
  match m with
  | MNamespaces => text "KMeansServer.Namespaces"
  | MVec => text "KMeansServer.Vec"
  | MAdd => text "KMeansServer.AddDataPoint"
  | MDrainUnordered => text "KMeansServer.DrainUnordered"
  | MDrainOrdered => text "KMeansServer.DrainOrdered"
  | MExpire => text "KMeansServer.Expire"
  | MLenDP => text "KMeansServer.LenDP"
  | MMemTrim => text "KMeansServer.MemTrim"
  | MMoveVector => text "KMeansServer.MoveVector"
  | MDistributeFast => text "KMeansServer.DistributeDataPointsFast"
  | MDistributeAccurate => text "KMeansServer.DistributeDataPointsAccurate"
  | MDistributeInternal => text "KMeansServer.DistributeDataPointsInternal"
  | MKnnLookup => text "KMeansServer.KNNLookup"
  | MNearest => text "KMeansServer.NearestCentroids"
  | MNearestVec => text "KMeansServer.NearestCentroidVec"
  | MSplit => text "KMeansServer.SplitCentroids"
  | MMerge => text "KMeansServer.MergeCentroids"
  | MSteal => text "KMeansServer.StealCentroid"
  | MMeta => text "KMeansServer.Meta"
  end.
(* net/rpc server.go Register, readRequestHeader: the exported methods, by name; a name is what
   comes after the last dot. *)
Definition find_method (s : str) : option method := option_map fst (find (fun x => str_eqb s (text "KMeansServer." ++ text (snd x))) methods).

(* server.go:44-47, 70-74, 130-134, 232-235, 246-251, 262-267, 278-281, 295-299, 329-334 and the
   first parameters of the methods. *)
Definition arg_type (m : method) : gty :=
  match m with
  | MNamespaces | MMeta => GInt
  | MVec | MExpire | MLenDP | MMemTrim | MMoveVector => GBytes
  | MAdd => GStruct [GBytes; t_dp]
  | MDrainUnordered | MDrainOrdered => GStruct [GBytes; GInt; GBool]
  | MDistributeFast | MDistributeAccurate => GStruct [GBytes; GInt; GSlice 16 GBytes]
  | MDistributeInternal => GStruct [GBytes; GInt]
  | MKnnLookup | MNearest => GStruct [GBytes; t_vec; GInt; GBool]
  | MNearestVec => GStruct [GBytes; t_vec]
  | MSplit | MMerge => GStruct [GBytes; GInt; GInt]
  | MSteal => GStruct [GBytes; GBytes; GInt]
  end.
(* The second parameters of the methods; server.go:336-339, 403-406. *)
Definition ans_type (m : method) : gty :=
  match m with
  | MNamespaces => GSlice 16 GBytes
  | MVec | MNearestVec => t_vec
  | MAdd | MMoveVector => GBool
  | MDrainUnordered | MDrainOrdered | MKnnLookup => t_dps
  | MExpire | MMemTrim | MDistributeFast | MDistributeAccurate | MDistributeInternal | MSplit | MMerge | MLenDP => GInt
  | MNearest => t_cens
  | MSteal => GStruct [GInt; GBool]
  | MMeta => GStruct [GMap; GMap]
  end.

(* ---- calls ---- *)
Section Wire.
Notation DP := (DataPoint f64).

Definition v_vec (v : vec f64) : gval := VSlice (map VFloat v).
(* The zone of the time of a datapoint is not in the model of a datapoint. *)
Definition v_dp (z : option Z) (d : DP) : gval := VStruct [v_vec (dp_vec d); VBytes (dp_payload d); VTime (dp_expires d) z; VBool (dp_expire_enabled d)].

(* The arguments that client.go gives to rc.Call, in the lines cited in Server.v. *)
Definition call_of (z : option Z) (q : req f64) : method * gval :=
  match q with
  | QNamespaces => (MNamespaces, VInt 0)
  | QVec ns => (MVec, VBytes ns)
  | QAdd ns d => (MAdd, VStruct [VBytes ns; v_dp z d])
  | QDrainUnordered ns n => (MDrainUnordered, VStruct [VBytes ns; VInt n; VBool false])
  | QDrainOrdered ns n => (MDrainOrdered, VStruct [VBytes ns; VInt n; VBool false])
  | QExpire ns => (MExpire, VBytes ns)
  | QLenDP ns => (MLenDP, VBytes ns)
  | QMemTrim ns => (MMemTrim, VBytes ns)
  | QMoveVector ns => (MMoveVector, VBytes ns)
  | QDistributeFast ns n addrs => (MDistributeFast, VStruct [VBytes ns; VInt n; VSlice (map VBytes addrs)])
  | QDistributeAccurate ns n addrs => (MDistributeAccurate, VStruct [VBytes ns; VInt n; VSlice (map VBytes addrs)])
  | QDistributeInternal ns n => (MDistributeInternal, VStruct [VBytes ns; VInt n])
  | QKnnLookup ns v k drain => (MKnnLookup, VStruct [VBytes ns; v_vec v; VInt k; VBool drain])
  | QNearest ns v n drain => (MNearest, VStruct [VBytes ns; v_vec v; VInt n; VBool drain])
  | QNearestVec ns v => (MNearestVec, VStruct [VBytes ns; v_vec v])
  | QSplit ns lo hi => (MSplit, VStruct [VBytes ns; VInt lo; VInt hi])
  | QMerge ns lo hi => (MMerge, VStruct [VBytes ns; VInt lo; VInt hi])
  | QSteal _ from ns limit => (MSteal, VStruct [VBytes from; VBytes ns; VInt limit])
  | QMeta => (MMeta, VInt 0)
  end.

Fixpoint all_of {A B : Type} (f : A -> option B) (l : list A) : option (list B) :=
  match l with
  | [] => Some []
  | a :: r => match f a, all_of f r with Some b, Some bs => Some (b :: bs) | _, _ => None end
  end.
Definition float_of (v : gval) : option (F f64) := match v with VFloat x => Some x | _ => None end.
Definition bytes_of (v : gval) : option str := match v with VBytes l => Some l | _ => None end.
Definition vec_of (v : gval) : option (vec f64) := match v with VSlice l => all_of float_of l | _ => None end.
Definition dp_of (v : gval) : option DP :=
  match v with
  | VStruct [vs; VBytes p; VTime t _; VBool b] => match vec_of vs with Some x => Some (MkDP x p t b) | None => None end
  | _ => None
  end.

(* What the method is called with; the fuel of the model of StealCentroid is not sent. *)
Definition req_of (fuel : nat) (m : method) (v : gval) : option (req f64) :=
  match m, v with
  | MNamespaces, VInt _ => Some QNamespaces
  | MMeta, VInt _ => Some QMeta
  | MVec, VBytes ns => Some (QVec ns)
  | MExpire, VBytes ns => Some (QExpire ns)
  | MLenDP, VBytes ns => Some (QLenDP ns)
  | MMemTrim, VBytes ns => Some (QMemTrim ns)
  | MMoveVector, VBytes ns => Some (QMoveVector ns)
  | MAdd, VStruct [VBytes ns; d] => option_map (QAdd ns) (dp_of d)
  | MDrainUnordered, VStruct [VBytes ns; VInt n; VBool _] => Some (QDrainUnordered ns n)
  | MDrainOrdered, VStruct [VBytes ns; VInt n; VBool _] => Some (QDrainOrdered ns n)
  | MDistributeFast, VStruct [VBytes ns; VInt n; VSlice l] => option_map (QDistributeFast ns n) (all_of bytes_of l)
  | MDistributeAccurate, VStruct [VBytes ns; VInt n; VSlice l] => option_map (QDistributeAccurate ns n) (all_of bytes_of l)
  | MDistributeInternal, VStruct [VBytes ns; VInt n] => Some (QDistributeInternal ns n)
  | MKnnLookup, VStruct [VBytes ns; v; VInt k; VBool b] => option_map (fun v => QKnnLookup ns v k b) (vec_of v)
  | MNearest, VStruct [VBytes ns; v; VInt n; VBool b] => option_map (fun v => QNearest ns v n b) (vec_of v)
  | MNearestVec, VStruct [VBytes ns; v] => option_map (QNearestVec ns) (vec_of v)
  | MSplit, VStruct [VBytes ns; VInt lo; VInt hi] => Some (QSplit ns lo hi)
  | MMerge, VStruct [VBytes ns; VInt lo; VInt hi] => Some (QMerge ns lo hi)
  | MSteal, VStruct [VBytes from; VBytes ns; VInt limit] => Some (QSteal fuel from ns limit)
  | _, _ => None
  end.

(* net/rpc client.go send, WriteRequest; ids are the numbers of the types of header and body. *)
Definition send_call (ids : Z * Z) (z : option Z) (q : req f64) : option str :=
  let '(m, v) := call_of z q in
  match message (fst ids) t_request (VStruct [VBytes (named m); VUint 0]), message (snd ids) (arg_type m) v with
  | Some a, Some b => Some (a ++ b)
  | _, _ => None
  end.
(* net/rpc server.go readRequest. *)
Definition read_call (ids : Z * Z) (fuel : nat) (s : str) : option (req f64) :=
  match receive (fst ids) t_request s with
  | Some (VStruct [VBytes name; VUint _], r) =>
      match find_method name with
      | Some m => match receive (snd ids) (arg_type m) r with Some (v, _) => req_of fuel m v | None => None end
      | None => None
      end
  | _ => None
  end.

(* ---- answers ---- *)
(* The two messages of an answer.  server.go:12-19, rpc.go:29-33: an unknown namespace is an error,
   and then the body is an empty struct. *)
Definition ns_error (ns : str) : str := text "namespace not found: '" ++ ns ++ text "'".
Definition send_answer (ids : Z * Z) (m : method) (err : str) (v : gval) : option str :=
  match message (fst ids) t_response (VStruct [VBytes (named m); VUint 0; VBytes err]),
        (match err with [] => message (snd ids) (ans_type m) v | _ => message (snd ids) (GStruct []) (VStruct []) end) with
  | Some a, Some b => Some (a ++ b)
  | _, _ => None
  end.
Inductive received := RErr (e : str) | RVal (v : gval).
(* net/rpc client.go input: the body of an error is skipped. *)
Definition read_answer (ids : Z * Z) (m : method) (s : str) : option received :=
  match receive (fst ids) t_response s with
  | Some (VStruct [VBytes _; VUint _; VBytes err], r) =>
      match err with
      | [] => match receive (snd ids) (ans_type m) r with Some (v, _) => Some (RVal v) | None => None end
      | _ => Some (RErr err)
      end
  | _ => None
  end.

(* The value as client.go has it.  An empty slice is nil; a centroid has no vector. *)
Definition cen_of (v : gval) : option (Centroid f64) :=
  match v with VStruct [VSlice l] => option_map (MkC []) (all_of dp_of l) | _ => None end.
Definition ans_of (m : method) (r : received) : option (ans f64) :=
  match r with
  | RErr _ => Some ANsErr
  | RVal v =>
      match m, v with
      | MNamespaces, VSlice l => option_map ANames (all_of bytes_of l)
      | (MVec | MNearestVec), v => option_map (fun l => AVec (match l with [] => None | _ => Some l end)) (vec_of v)
      | (MAdd | MMoveVector), VBool b => Some (ABool b)
      | (MDrainUnordered | MDrainOrdered | MKnnLookup), VSlice l => option_map ADPs (all_of dp_of l)
      | (MExpire | MMemTrim | MDistributeFast | MDistributeAccurate | MDistributeInternal | MSplit | MMerge), _ => Some AOk
      | MLenDP, VInt n => Some (ANat (Z.to_nat n))
      | MNearest, VSlice l => option_map ACens (all_of cen_of l)
      | MSteal, VStruct [VInt n; VBool b] => Some (ASteal (Z.to_nat n) b)
      | MMeta, VStruct [VMap l1; VMap l2] =>
          option_map AMeta (all_of (fun x => option_map (fun d => (fst x, (Z.to_nat (snd x), Z.to_nat d))) (assoc (fst x) l2)) l1)
      | _, _ => None
      end
  end.
End Wire.
