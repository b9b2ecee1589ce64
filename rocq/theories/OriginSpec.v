(* Specification vocabulary: what the answer to a job shows to its caller. *)
From Verif Require Import Base Num MathUtils Env Centroid CManager DataSpec MgrSpec Proc Server ServerSpec Core EventLoop CoreSpec.

Section OriginSpec.
Context {N : Num}.

(* The datapoints in the answer of a node. *)
Definition ans_shows (x : ans N) : list (DataPoint N) :=
  match x with
  | ADPs ds => ds
  | ACens cs => stored cs
  | _ => []
  end.
(* ... in the body of an HTTP answer. *)
Definition http_shows (r : http N) : list (DataPoint N) :=
  match r with
  | Http _ (Some l) => map to_dp l
  | _ => []
  end.
(* ... of any job, with the namespace that was asked for. *)
Definition shown (d : done N) : list (str * DataPoint N) :=
  match d with
  | DReq q x => match req_ns q with Some ns => tag ns (ans_shows x) | None => map (pair []) (ans_shows x) end
  | DPut (Some o) r => tag (po_ns o) (http_shows r)
  | DPut None r => map (pair []) (http_shows r)
  | DQuery (Some o) r found => tag (qo_ns o) (http_shows r ++ found)
  | DQuery None r found => map (pair []) (http_shows r ++ found)
  | DLoop _ | DIdle => []
  end.
End OriginSpec.

Section Copies.
Context {N : Num}.

(* How many members of a list are in the set f. *)
Definition members (f : str -> DataPoint N -> bool) (l : list (str * DataPoint N)) : nat :=
  length (filter (fun e => f (fst e) (snd e)) l).

(* How many answers get lost between the ticks t and t'. *)
Definition is_lost (x : fate) : bool := match x with RespLost => true | _ => false end.
Definition answers_lost (E : Env N) (t t' : nat) : nat := length (filter is_lost (map (e_fate E) (seq t (t' - t)))).

(* Requests for a negative number of centroids are left out: what a search function does then
   is not specified. *)
Definition job_counts (j : job N) : Prop := match j with JReq _ (QNearest _ _ n _) => (0 <= n)%Z | _ => True end.
Definition any_dim : str -> nat -> Prop := fun _ _ => True.
(* The jobs that have ended. *)
Definition ended (l : list (proc' N (done N))) : list (done N) :=
  concat (map (fun p => match p with Ret d => [d] | _ => [] end) l).

(* A set of datapoints that never expire. *)
Definition lives (E : Env N) (f : str -> DataPoint N -> bool) : Prop := forall ns d k, f ns d = true -> expired_at (e_now E k) d = false.
(* Jobs that do not drain another node over the network: that excludes stealing centroids, draining HTTP queries and
   event loops, which steal. *)
Definition nothing_drained (j : job N) : Prop :=
  match j with
  | JReq _ (QSteal _ _ _ _) => False
  | JQuery _ (Some o) => qo_drain o = false
  | JLoop _ _ _ => False
  | _ => True
  end.
Definition is_ret (p : proc' N (done N)) : Prop := match p with Ret _ => True | _ => False end.
End Copies.
