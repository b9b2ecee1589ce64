(* What is to be sent between nodes. *)
From Coq Require Import SpecFloat.
From Verif Require Import Base Num MathUtils Env Centroid Server Routes JsonText Gob GobWire.
From Coq.Init Require Import Byte.
From Coq Require Import Strings.Byte Strings.String.
Local Open Scope list_scope.
Local Open Scope Z_scope.

(* A binary64 number. *)
Definition is_f64 (x : F f64) : Prop := match x with S754_finite _ m e => bounded prec64 emax64 m e = true | _ => True end.
(* Offsets that fit into 16 bits and are not one minute west. *)
Definition zone_ok (z : option Z) : Prop := match z with None => True | Some m => -32768 <= m <= 32767 /\ m <> -1 end.
Definition instant_ok (t : Z) : Prop := - 2 ^ 63 <= t / 10 ^ 9 - year_1 < 2 ^ 63.

(* The values of a type.  Slices are not larger than 8 GiB. *)
Inductive Has : gty -> gval -> Prop :=
| has_bool b : Has GBool (VBool b)
| has_uint z : 0 <= z < 2 ^ 64 -> Has GUint (VUint z)
| has_int z : - 2 ^ 63 <= z < 2 ^ 63 -> Has GInt (VInt z)
| has_float x : is_f64 x -> Has GFloat (VFloat x)
| has_bytes l : Z.of_nat (List.length l) < 2 ^ 64 -> Has GBytes (VBytes l)
| has_time t z : instant_ok t -> zone_ok z -> Has GTime (VTime t z)
| has_slice size t l : 1 <= size -> Z.of_nat (List.length l) * size <= 2 ^ 33 -> Forall (Has t) l -> Has (GSlice size t) (VSlice l)
| has_map l : Z.of_nat (List.length l) < 2 ^ 64 -> Forall (fun x => Z.of_nat (List.length (fst x)) < 2 ^ 64 /\ - 2 ^ 63 <= snd x < 2 ^ 63) l -> Has GMap (VMap l)
| has_struct ts l : Z.of_nat (List.length ts) < 2 ^ 63 -> Forall2 Has ts l -> Forall (fun v => v <> VFloat (S754_zero true)) l -> Has (GStruct ts) (VStruct l).

(* No more bytes than this stand for a value. *)
Fixpoint weight (v : gval) : Z :=
  match v with
  | VBytes l => 9 + Z.of_nat (List.length l)
  | VTime _ _ => 24
  | VSlice l => 9 + fold_right (fun v n => weight v + n) 0 l
  | VMap l => 9 + fold_right (fun x n => 18 + Z.of_nat (List.length (fst x)) + n) 0 l
  | VStruct l => 9 + fold_right (fun v n => 9 + weight v + n) 0 l
  | _ => 9
  end.

Section Wires.
Notation DP := (DataPoint f64).
Notation len l := (Z.of_nat (List.length l)).
(* The calls that can be made: 64 bits for each number, all in all less than 8 GiB. *)
Definition int_ok (z : Z) : Prop := - 2 ^ 63 <= z < 2 ^ 63.
Definition dp_ok (z : option Z) (d : DP) : Prop := Forall is_f64 (dp_vec d) /\ instant_ok (dp_expires d) /\ zone_ok z.
Definition req_ok (z : option Z) (q : req f64) : Prop :=
  let small n := n + 200 <= 2 ^ 33 in
  match q with
  | QNamespaces | QMeta => True
  | QVec ns | QExpire ns | QLenDP ns | QMemTrim ns | QMoveVector ns => small (len ns)
  | QAdd ns d => dp_ok z d /\ small (len ns + len (dp_payload d) + 9 * len (dp_vec d))
  | QDrainUnordered ns n | QDrainOrdered ns n | QDistributeInternal ns n => int_ok n /\ small (len ns)
  | QDistributeFast ns n addrs | QDistributeAccurate ns n addrs => int_ok n /\ small (len ns + fold_right (fun a n => 16 + len a + n) 0 addrs)
  | QKnnLookup ns v n _ | QNearest ns v n _ => Forall is_f64 v /\ int_ok n /\ small (len ns + 9 * len v)
  | QNearestVec ns v => Forall is_f64 v /\ small (len ns + 9 * len v)
  | QSplit ns lo hi | QMerge ns lo hi => int_ok lo /\ int_ok hi /\ small (len ns)
  | QSteal _ from ns n => int_ok n /\ small (len from + len ns)
  end.
(* The method that a call is for; the fuel of a call of StealCentroid is the server's. *)
Definition with_fuel (fuel : nat) (q : req f64) : req f64 := match q with QSteal _ from ns n => QSteal fuel from ns n | _ => q end.

(* What server.go leaves in the reply.  Datapoints have times of any zone, maps any order. *)
Definition is_dp (d : DP) (v : gval) : Prop := exists z, v = v_dp z d.
Inductive is_ans : ans f64 -> gval -> Prop :=
| is_names l : is_ans (ANames l) (VSlice (map VBytes l))
| is_vec v : is_ans (AVec (Some v)) (v_vec v)
| is_nil : is_ans (AVec None) (VSlice [])
| is_bool b : is_ans (ABool b) (VBool b)
| is_nat n : is_ans (ANat n) (VInt (Z.of_nat n))
| is_ok : is_ans AOk (VInt 0)
| is_dps ds l : Forall2 is_dp ds l -> is_ans (ADPs ds) (VSlice l)
| is_cens cs l : Forall2 (fun c v => exists ds, v = VStruct [VSlice ds] /\ Forall2 is_dp (c_dps c) ds) cs l -> is_ans (ACens cs) (VSlice l)
| is_steal n b : is_ans (ASteal n b) (VStruct [VInt (Z.of_nat n); VBool b])
| is_meta l l1 l2 : NoDup (map fst l) -> Permutation l1 (map (fun x => (fst x, Z.of_nat (fst (snd x)))) l) -> Permutation l2 (map (fun x => (fst x, Z.of_nat (snd (snd x)))) l) ->
    is_ans (AMeta l) (VStruct [VMap l1; VMap l2]).
(* The answers of each method. *)
Definition answers (m : method) (a : ans f64) : Prop :=
  match m, a with
  | MNamespaces, ANames _ | (MVec | MNearestVec), AVec _ | (MAdd | MMoveVector), ABool _
  | (MDrainUnordered | MDrainOrdered | MKnnLookup), ADPs _ | MLenDP, ANat _ | MNearest, ACens _ | MSteal, ASteal _ _ | MMeta, AMeta _
  | (MExpire | MMemTrim | MDistributeFast | MDistributeAccurate | MDistributeInternal | MSplit | MMerge), AOk => True
  | _, _ => False
  end.
(* What comes of an answer: an empty vector is none, a centroid is its datapoints, the order of the
   namespaces is not kept. *)
Inductive arrives : ans f64 -> ans f64 -> Prop :=
| same_vec : arrives (AVec (Some [])) (AVec None)
| same_cens cs cs' : Forall2 (fun c c' => c' = MkC [] (c_dps c)) cs cs' -> arrives (ACens cs) (ACens cs')
| same_meta l l' : Permutation l l' -> arrives (AMeta l) (AMeta l')
| same a : match a with AVec (Some []) | ACens _ | AMeta _ => False | _ => True end -> arrives a a.
End Wires.
