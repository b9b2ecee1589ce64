(* Clients that send requests to nodes, one after the other, each depending on the answers so
   far; and the same clients when every request is one step. *)
From Verif Require Import Base Num MathUtils Knn Env Centroid CManager Proc Server ServerSpec.

Section LinearSpec.
Context {N : Num} (E : Env N).
Notation World := (World N).

Inductive client (R : Type) : Type :=
| CRet (r : R)
| CAsk (a : str) (q : req N) (k : ans N -> client R).
Arguments CRet {R} r.
Arguments CAsk {R} a q k.

(* The client with the steps of Server.v. *)
Fixpoint run_client {R : Type} (c : client R) : proc' N R :=
  match c with
  | CRet r => Ret r
  | CAsk a q k => call x <- serve E a q; run_client (k x)
  end.

(* The client when nothing else happens during a request. *)
Fixpoint atom_client {R : Type} (c : client R) : proc' N R :=
  match c with
  | CRet r => Ret r
  | CAsk a q k => Act None (exec (serve E a q)) (fun x => atom_client (k x))
  end.

(* Requests to one manager that do not create it.  Excluded are Meta, distribution to other
   nodes, stealing, and adding to a namespace that does not exist. *)
Definition quiet_req (w : World) (a : str) (q : req N) : Prop :=
  match q with
  | QMeta | QDistributeFast _ _ _ | QDistributeAccurate _ _ _ | QSteal _ _ _ _ => False
  | QAdd ns _ => manager w a ns <> None
  | _ => True
  end.
Fixpoint quiet {R : Type} (w : World) (c : client R) : Prop :=
  match c with
  | CRet _ => True
  | CAsk a q k => quiet_req w a q /\ forall x, quiet w (k x)
  end.

(* A client with one request. *)
Definition ask (e : str * req N) : client (ans N) := CAsk (fst e) (snd e) CRet.
End LinearSpec.
Arguments client N R : clear implicits.
Arguments CRet {N R} r.
Arguments CAsk {N R} a q k.

(* The entries of a list that are marked. *)
Fixpoint select {A : Type} (marks : list bool) (l : list A) : list A :=
  match marks, l with
  | b :: marks', x :: l' => if b then x :: select marks' l' else select marks' l'
  | _, _ => []
  end.
