(* Specification vocabulary for stored data: what may disappear, what is kept, what a mean
   is.  Nothing here refers to the operations of the model. *)
From Verif Require Import Base Num MathUtils Env.

Section DataSpec.
Context {N : Num} (E : Env N).
Notation DP := (DataPoint N).

(* Examine the datapoints of l one after the other at consecutive clock readings starting
   with reading t; keep the ones that are not expired at their reading. *)
Fixpoint live_from (t : nat) (l : list DP) : list DP :=
  match l with
  | [] => []
  | d :: r => if expired_at (e_now E t) d then live_from (S t) r else d :: live_from (S t) r
  end.

(* d was found expired / unexpired by a clock reading made in [t, t'). *)
Definition seen_expired (t t' : nat) (d : DP) : Prop :=
  exists k, t <= k < t' /\ expired_at (e_now E k) d = true.
Definition seen_live (t t' : nat) (d : DP) : Prop :=
  exists k, t <= k < t' /\ expired_at (e_now E k) d = false.

(* As multisets: before = after + lost, where everything lost was found expired during
   [t, t'). *)
Definition conserves (t t' : nat) (before after : list DP) : Prop :=
  exists lost, Permutation before (after ++ lost) /\ Forall (seen_expired t t') lost.

(* The elements of l whose position (counted from i) is not listed in idx, in order. *)
Fixpoint without_from {A : Type} (i : nat) (idx : list nat) (l : list A) : list A :=
  match l with
  | [] => []
  | x :: r =>
      if existsb (Nat.eqb i) idx then without_from (S i) idx r
      else x :: without_from (S i) idx r
  end.
Definition without {A : Type} (idx : list nat) (l : list A) : list A := without_from 0 idx l.

(* Coordinate-wise arithmetic mean of vectors of dimension n. *)
Definition coord_sum (j : nat) (vs : list (vec N)) : F N :=
  fold_right (fun v s => fadd (nth j v f0) s) f0 vs.
Definition mean_of (n : nat) (vs : list (vec N)) : vec N :=
  map (fun j => fdiv (coord_sum j vs) (fofnat (length vs))) (seq 0 n).

(* No clock reading ever finds one of these datapoints expired. *)
Definition never_expired (l : list DP) : Prop :=
  forall k d, In d l -> expired_at (e_now E k) d = false.

End DataSpec.

Definition sum (l : list nat) : nat := fold_right plus 0 l.

(* An even division of n over holders of [lens] datapoints. *)
Record EvenPortions (lens : list nat) (n : nat) (ps : list nat) : Prop := {
  ep_length : length ps = length lens;
  ep_bound : forall i p l, nth_error ps i = Some p -> nth_error lens i = Some l -> p <= l;
  ep_total : sum ps = min n (sum lens);
  ep_even : forall i j p q l, nth_error ps i = Some p -> nth_error ps j = Some q ->
              nth_error lens i = Some l -> p + 1 < q -> p = l
}.
