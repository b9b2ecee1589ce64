(* What a K-nearest / K-furthest search has to deliver, independently of how it is done. *)
From Verif Require Import Base Num MathUtils.
From Coq Require Import Sorted.

Section SearchSpec.
Context {N : Num}.

(* Score a ranks strictly before score b. *)
Definition better (ascending : bool) (a b : F N) : bool :=
  if ascending then fltb a b else fltb b a.

(* The score beyond which nothing is ranked: +MaxFloat64 when small scores are good,
   -MaxFloat64 when large ones are. *)
Definition sentinel (ascending : bool) : F N :=
  if ascending then fmaxv else fmul fmaxv (fsub f0 f1).

(* Position i of the pool can be ranked, with score s. *)
Definition rankable (dist : vec N -> vec N -> option (F N)) (ascending : bool)
  (target : vec N) (pool : list (vec N)) (i : nat) (s : F N) : Prop :=
  exists v, nth_error pool i = Some v /\ dist target v = Some s /\
            better ascending s (sentinel ascending) = true.

(* Every position of the pool can be ranked. *)
Definition all_rankable dist ascending target (pool : list (vec N)) : Prop :=
  forall i, i < length pool -> exists s, rankable dist ascending target pool i s.

(* idx is a best-first list of the k best rankable positions. *)
Record BestK (dist : vec N -> vec N -> option (F N)) (ascending : bool)
  (target : vec N) (pool : list (vec N)) (k : nat) (idx : list nat) : Prop := {
  bk_nodup : NoDup idx;
  bk_rankable : forall i, In i idx -> exists s, rankable dist ascending target pool i s;
  bk_at_most : length idx <= k;
  bk_all : length idx < k ->
           forall j s, rankable dist ascending target pool j s -> In j idx;
  bk_sorted : StronglySorted (fun i j => forall si sj,
                rankable dist ascending target pool i si ->
                rankable dist ascending target pool j sj ->
                better ascending sj si = false) idx;
  bk_best : forall i j si sj, In i idx -> ~ In j idx ->
              rankable dist ascending target pool i si ->
              rankable dist ascending target pool j sj ->
              better ascending sj si = false
}.

End SearchSpec.
