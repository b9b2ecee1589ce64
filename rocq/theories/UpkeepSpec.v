(* Specification vocabulary: a manager to which one request has been made. *)
From Verif Require Import Base Num MathUtils Env Centroid CManager DataSpec MgrSpec Proc Server ServerSpec ReqSpec.

Section UpkeepSpec.
Context {N : Num} (E : Env N).

(* Between the ticks t and t', the request q has made m' of m. *)
Definition Tended (t t' : nat) (q : req N) (m m' : CM N) : Prop :=
  exists x t1 t2, t <= t1 <= t2 /\ t2 <= t' /\ Effect E (length (cm_vec m)) t1 t2 m q x m'.
End UpkeepSpec.
