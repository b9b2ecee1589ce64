(* Property C107: machines with a fused multiply-add. *)
From Coq Require Import QArith Qabs Reals SpecFloat.
From Verif Require Import Base Num MathUtils MathSpec Knn Env FloatSpec DistSpec Fused FloatCos FloatFind.
Local Open Scope nat_scope.

(* ---- C107 ---- *)
Theorem C107_cosine : forall fn fd (a b : vec f64), length a = length b -> moderate a -> moderate b ->
  exists c, cosine_f fn fd a b = Some c /\ is_fin c = true /\
    (Rabs (real c - inner a b / (size a * size b)) <= (4 * IZR (Z.of_nat (length a)) + 16) * Q2R ulp)%R.
Proof. exact cosine_fused. Qed.
Print Assumptions C107_cosine.

Theorem C107_search : forall fn fd (near : bool) (target : vec f64) (pool : list (vec f64)) k, (0 <= k)%Z -> moderate target ->
  Forall (fun v => length v = length target /\ moderate v) pool ->
  exists idx, knn_brute (cosine_f fn fd) (negb near) target pool k = Ok idx /\
    NoDup idx /\ length idx = Nat.min (Z.to_nat k) (length pool) /\ (forall i, In i idx -> i < length pool) /\
    forall i j v w, In i idx -> ~ In j idx -> nth_error pool i = Some v -> nth_error pool j = Some w ->
      let cosine x := (inner target x / (size target * size x))%R in
      let worse := if near then cosine w else cosine v in let better := if near then cosine v else cosine w in
      (worse <= better + 2 * (4 * IZR (Z.of_nat (length target)) + 16) * Q2R ulp)%R.
Proof. exact fused_search. Qed.
Print Assumptions C107_search.

(* So every theorem that assumes EnvOk applies. *)
Theorem C107_contract : forall fn fd asc, SearchOk (knn_brute (cosine_f fn fd) asc).
Proof. exact fused_contract. Qed.
Print Assumptions C107_contract.

Theorem C107_machines_refuted : exists target v w : vec f64, moderate target /\ moderate v /\ moderate w /\
  knn_brute (cosine_f (fun _ => false) (fun _ => false)) false target [v; w] 1 = Ok [0] /\
  knn_brute (cosine_f (fun _ => true) (fun _ => true)) false target [v; w] 1 = Ok [1].
Proof. exact fused_differs. Qed.
Print Assumptions C107_machines_refuted.

(* (2^27 + 1)^2 - 2^54 - 2^28 is 1; with two roundings it is 0. *)
Example C107_case : let x := fz 134217729 in let r := fz (-18014398777917440) in
  mul_add true r x x = fz 1 /\ mul_add false r x x = fz 0 /\
  let target := fv [1; 2]%Z in let pool := [fv [5; 1]%Z; fv [1; 3]%Z; fv [-1; -1]%Z] in
  moderate target /\ Forall (fun v => length v = length target /\ moderate v) pool /\
  knn_brute (cosine_f Nat.even Nat.odd) false target pool 2 = Ok [1; 0].
Proof.
  assert (M : forall x y, within (p2 450) (fz x) -> within (p2 450) (fz y) -> (p2 (-200) <= Qabs (val (fz x)))%Q -> moderate (fv [x; y])).
  { intros x y Hx Hy H. split; [discriminate|]. split; [repeat constructor; try apply Hx; apply Hy|]. exists (fz x). split; [left; reflexivity|exact H]. }
  cbv zeta. split; [vm_compute; reflexivity|]. split; [vm_compute; reflexivity|].
  split; [apply M; vm_compute; try split; try reflexivity; discriminate|]. split; [|vm_compute; reflexivity].
  repeat (constructor; [split; [reflexivity|apply M; vm_compute; try split; try reflexivity; discriminate]|]). constructor.
Qed.
