(* Specification vocabulary for counts that are too large. *)
From Verif Require Import Base Num MathUtils Env Centroid CManager DataSpec Proc Server ServerSpec Core EventLoop CoreSpec.

Section AllocSpec.
Context {N : Num}.

(* 3 518 437 208 883 datapoints of 80 bytes are 2^48 bytes, but for 16; 24 is the size of what a
   search keeps of a candidate. *)
Definition few (n : Z) : Prop := (n <= 3518437208883)%Z.
Definition few_items (n : Z) : Prop := (n <= 11728124029610)%Z.
(* Jobs whose numbers are not too large. *)
Definition req_few (q : req N) : Prop :=
  match q with
  | QDrainUnordered _ n | QDrainOrdered _ n | QDistributeFast _ n _ | QDistributeAccurate _ n _ | QKnnLookup _ _ n _ => few n
  | QNearest _ _ n _ => few_items n
  | _ => True
  end.
Definition job_few (j : job N) : Prop :=
  match j with
  | JReq _ q => req_few q
  | JPut _ _ | JQuery _ None => True
  | JQuery _ (Some o) => few (qo_n o)
  | JLoop c _ _ => few (el_fast_n c) /\ few (el_accurate_n c)
  end.
(* Requests that need nothing but a node to do harm, and those that need a namespace. *)
Definition blind (q : req N) : Prop := match q with QDistributeFast _ _ _ | QDistributeAccurate _ _ _ => True | _ => False end.

End AllocSpec.
