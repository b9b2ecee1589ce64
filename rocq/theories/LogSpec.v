(* Specification vocabulary: what the lines of the log should tell. *)
From Verif Require Import Base Num MathUtils Env Centroid CManager DataSpec Proc Server ServerSpec EventLoop Log.

Section LogSpec.
Context {N : Num}.

Definition line_addr (l : log_line) : str := match l with TaskLine a _ | NodeLine a _ _ _ _ => a end.
Definition line_task (l : log_line) : option str := match l with TaskLine _ s => Some s | NodeLine _ _ _ _ o => o end.

(* The number of namespaces of a node, and of its centroids and datapoints in all of them. *)
Definition counts (w : World N) (a : str) (n cens dps : nat) : Prop :=
  exists nss, NoDup nss /\ (forall ns, In ns nss <-> manager w a ns <> None) /\ n = length nss /\
    cens = list_sum (map (fun ns => length (centroids_at w a ns)) nss) /\
    dps = list_sum (map (fun ns => length (data_at w a ns)) nss).
Definition tells (w : World N) (l : log_line) : Prop :=
  match l with NodeLine a n cens dps _ => counts w a n cens dps | TaskLine _ _ => False end.
(* A line without any. *)
Definition blank (l : log_line) : Prop := match l with NodeLine _ n cens dps _ => (n, cens, dps) = (0, 0, 0) | TaskLine _ _ => False end.

(* The nodes that the log shows: all of the list, or the local one. *)
Definition shown (c : el_cfg) (a : str) : bool := negb (el_local_only c) || str_eqb a (el_local c).

End LogSpec.
