(* The environment: everything the Go code reads from outside (clock, map iteration order,
   goroutine arrival order, network fate, random numbers) and the configured search
   functions. *)
From Verif Require Import Base Num MathUtils.
From Coq.Init Require Import Byte.

(* What happens to one RPC: executed and answered; never executed (dial failure or lost
   request); executed but the answer is lost. *)
Inductive fate := Delivered | ReqLost | RespLost.

(* func(targetVec []float64, vecs vecGenerator, k int) []int *)
Definition search (N : Num) : Type := vec N -> list (vec N) -> Z -> outcome (list nat).

Record Env (N : Num) := MkEnv {
  e_now : nat -> Z;                    (* clock reading at a tick *)
  e_perm : nat -> nat -> list nat;     (* at a tick: an order of n things *)
  e_fate : nat -> fate;
  e_rnd : nat -> nat;
  e_knn : search N;                    (* NewCentroidManagerArgs.KNNSearchFunc *)
  e_kfn : search N                     (* NewCentroidManagerArgs.KFNSearchFunc *)
}.
Arguments e_now {N}.
Arguments e_perm {N}.
Arguments e_fate {N}.
Arguments e_rnd {N}.
Arguments e_knn {N}.
Arguments e_kfn {N}.

(* Visit a list in the order the environment dictates at this tick (Go map range,
   goroutine completion order). *)
Definition any_order {N : Num} {A : Type} (E : Env N) (l : list A) : M (list A) :=
  do k <- tick;
  ret (pick (e_perm E k (length l)) l).

(* The contract of a search function used by the data structures: for k >= 0 it returns
   distinct positions of the pool, at most k of them, each holding a vector of the
   target's dimension. *)
Definition SearchOk {N : Num} (s : search N) : Prop :=
  forall tgt pool k, (0 <= k)%Z ->
    exists idx, s tgt pool k = Ok idx /\ NoDup idx /\ (Z.of_nat (length idx) <= k)%Z /\
      forall i, In i idx -> exists v, nth_error pool i = Some v /\ length v = length tgt.

Definition EnvOk {N : Num} (E : Env N) : Prop :=
  (forall k n, Permutation (e_perm E k n) (seq 0 n)) /\
  SearchOk (e_knn E) /\ SearchOk (e_kfn E).

(* pkg/kmeans/common/datapoint.go:6-11 DataPoint; time.Time is a Z (nanoseconds). *)
Record DataPoint (N : Num) := MkDP {
  dp_vec : vec N;
  dp_payload : list byte;
  dp_expires : Z;
  dp_expire_enabled : bool
}.
Arguments MkDP {N}.
Arguments dp_vec {N}.
Arguments dp_payload {N}.
Arguments dp_expires {N}.
Arguments dp_expire_enabled {N}.

(* pkg/kmeans/common/datapoint.go:15-17 Expired, at a given clock value. *)
Definition expired_at {N : Num} (now : Z) (d : DataPoint N) : bool :=
  dp_expire_enabled d && (dp_expires d <? now)%Z.

(* ... reading the clock. (Go skips the reading when expiry is disabled; the extra tick is
   not observable.) *)
Definition expired {N : Num} (E : Env N) (d : DataPoint N) : M bool :=
  do k <- tick;
  ret (expired_at (e_now E k) d).
