(* Property C106: MoveVector in binary64 arithmetic. *)
From Coq Require Import QArith Qabs SpecFloat.
From Verif Require Import Base Num MathUtils Env Centroid CManager DataSpec Wp TestEnv MathSpec Owns FloatSpec FloatRepairSpec FloatRepair.
Local Open Scope nat_scope.

(* ---- C106 ---- *)
Theorem C106_vec_mean : forall (B : Q) dim (vs : list (vec f64)) t, (p2 (-1022) <= B)%Q -> (B <= p2 990)%Q ->
  vs <> [] -> boxed B dim vs ->
  wp (vec_mean (N := f64) (S (length vs)) list_gen vs) t (fun r _ => snd (fst r) = true /\ mean_of_float B dim vs (fst (fst r))).
Proof. exact vec_mean_float. Qed.
Print Assumptions C106_vec_mean.

Theorem C106_centroid : forall (E : Env f64) (B : Q), (p2 (-1022) <= B)%Q -> (B <= p2 990)%Q -> forall dim (c : Centroid f64) t,
  boxed B dim (map dp_vec (c_dps c)) ->
  wp (c_move_vector E c) t (fun r t' =>
    let l := live_from E t (c_dps c) in
    c_dps (snd r) = l /\ t' = t + length (c_dps c) /\
    (fst r = true <-> l <> []) /\ (l <> [] -> mean_of_float B dim (map dp_vec l) (c_vec (snd r)))).
Proof. exact c_move_float. Qed.
Print Assumptions C106_centroid.

Theorem C106_manager : forall (E : Env f64) (B : Q) dim (m : CM f64) t, (p2 (-1022) <= B)%Q -> (2 * B <= p2 990)%Q ->
  (Z.of_nat (length (cm_cs m)) <= 2 ^ 24)%Z ->
  Forall (fun c => boxed B dim (map dp_vec (c_dps c))) (cm_cs m) ->
  wp (cm_move_vector E m) t (fun r _ =>
    let m' := snd r in
    concat (map c_dps (cm_cs m')) = live_from E t (concat (map c_dps (cm_cs m))) /\
    Forall (fun c => c_dps c <> [] -> mean_of_float B dim (map dp_vec (c_dps c)) (c_vec c)) (cm_cs m') /\
    (cm_cs m <> [] -> Forall (fun c => c_dps c <> []) (cm_cs m') ->
      fst r = true /\ mean_of_float (2 * B) dim (map c_vec (cm_cs m')) (cm_vec m'))).
Proof. exact cm_move_float. Qed.
Print Assumptions C106_manager.

Theorem C106_bound_needed : exists (vs : list (vec f64)) (x y : F f64),
  wp (vec_mean (N := f64) (S (length vs)) list_gen vs) 0 (fun r _ => fst r = ([x], true)) /\
  Forall (Forall (fun z => is_fin z = true)) vs /\ vs <> [] /\
  is_fin y = true /\ (val y == total 0 vs / count vs)%Q /\ is_fin x = false.
Proof. exact vec_mean_overflows. Qed.
Print Assumptions C106_bound_needed.

(* A tenth, two tenths, three tenths, and one that has expired, under a vector that is not a number. *)
Definition tenth (k : Z) : DataPoint f64 := MkDP [@fdiv f64 (f64_of_Z k) (f64_of_Z 10)] [] 0 false.
Definition stale : DataPoint f64 := MkDP (fv [1]%Z) [] 3 true.
Definition lost : Centroid f64 := MkC ([S754_nan] : vec f64) [tenth 1; tenth 2; stale; tenth 3].
Definition lost2 : CM f64 := MkCM ([S754_nan] : vec f64) [lost; MkC ([S754_infinity true] : vec f64) [tenth 7]] 2.
Definition off (x : spec_float) (y : Q) : Q := (val x - y)%Q.
Example C106_case :
  boxed 1 1 (map dp_vec (c_dps lost)) /\ Forall (fun c => boxed 1 1 (map dp_vec (c_dps c))) (cm_cs lost2) /\
  wp (c_move_vector clockE lost) 9 (fun r _ => length (c_dps (snd r)) = 3 /\
    let x := nth 0 (c_vec (snd r)) S754_nan in
    is_fin x = true /\ Qeq_bool (off x (total 0 (map dp_vec [tenth 1; tenth 2; tenth 3]) / 3)) 0 = false) /\
  wp (cm_move_vector clockE lost2) 9 (fun r _ => fst r = true /\ forallb is_fin (cm_vec (snd r)) = true /\
    forallb (fun c => negb (length (c_dps c) =? 0)) (cm_cs (snd r)) = true).
Proof.
  assert (Hb : boxed 1 1 (map dp_vec (c_dps lost))).
  { split; [vm_compute; discriminate|]. cbn [lost c_dps map dp_vec tenth stale].
    repeat (constructor; [split; [reflexivity|repeat constructor; vm_compute; discriminate]|]). constructor. }
  splits; auto.
  - constructor; [exact Hb|]. constructor; [|constructor]. split; [vm_compute; discriminate|]. cbn [c_dps map dp_vec tenth].
    repeat (constructor; [split; [reflexivity|repeat constructor; vm_compute; discriminate]|]). constructor.
  - vm_compute. auto.
  - vm_compute. auto.
Qed.
