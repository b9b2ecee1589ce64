(* Specification vocabulary: a call of the client library. *)
From Verif Require Import Base Num MathUtils Env Centroid CManager Proc Server ServerSpec.

Section ClientSpec.
Context {N : Num} (E : Env N).
Notation DP := (DataPoint N).

(* The request q, made at node a, and what the client makes of the answer. *)
Definition answered_with {R : Type} (a : str) (q : req N) (f : ans N -> R) (w : World N) (t : nat)
  : outcome ((R * World N) * nat) :=
  match exec (serve E a q) w t with
  | Ok ((x, w'), t') => Ok ((f x, w'), t')
  | Panic => Panic
  | OutOfFuel => OutOfFuel
  end.

(* The call c makes the request q at node a, once.  A lost request has no effect, a lost answer
   hides the effect; in both cases, and when there is no such node, the result is [failed]. *)
Definition Calls {R : Type} (c : proc' N R) (a : str) (q : req N) (f : ans N -> R) (failed : R) : Prop :=
  forall w t, exec c w t =
    match node_at w a, e_fate E t with
    | None, _ | Some _, ReqLost => Ok ((failed, w), S t)
    | Some _, Delivered => answered_with a q f w (S t)
    | Some _, RespLost => answered_with a q (fun _ => failed) w (S t)
    end.

(* What is made of the answers. *)
Definition to_names (x : ans N) : list str := match x with ANames l => l | _ => [] end.
Definition to_vec (x : ans N) : option (vec N) := match x with AVec (Some (y :: u)) => Some (y :: u) | _ => None end.
Definition to_bool (x : ans N) : bool := match x with ABool b => b | _ => false end.
Definition to_dps (x : ans N) : list DP := match x with ADPs ds => ds | _ => [] end.
Definition to_nat (x : ans N) : nat := match x with ANat n => n | _ => 0 end.
Definition to_steal (x : ans N) : nat * bool := match x with ASteal n ok => (n, ok) | _ => (0, false) end.
Definition to_meta (x : ans N) : list (str * (nat * nat)) := match x with AMeta l => l | _ => [] end.
Definition to_unit (x : ans N) : unit := tt.

End ClientSpec.
