(* The bounds of SettleProofs.v as statements about one namespace. *)
From Verif Require Import Base Num MathUtils Knn Env Centroid CManager DataSpec MgrSpec Wp DataFacts NumFacts
  Proc Server ServerSpec ServerFacts Owns EventLoop CoreSpec LoopSpec LoopProofs2 SettleSpec SettleProofs GainProofs.

Section SettleMore.
Context {N : Num} (E : Env N) (HE : EnvOk E) (HO : NumOrd N).

Lemma rests : forall dim c (w : World N) t w' t', all_delivered E -> NoDup (el_remote c) -> In (el_local c) (el_remote c) ->
  WorldOk w -> DimsOk (fun ns n => n = dim ns) w -> (forall b ns, never_expired E (data_at w b ns)) ->
  (forall b ns, length (centroids_at w b ns) < el_fuel c) -> exec (task_body E c TBalance) w t = Ok ((tt, w'), t') ->
  forall ns, let mean := mean_size w (el_remote c) ns in
    (mean - margin_of mean < size_at w (el_local c) ns)%Z -> forall b, manager w' b ns = manager w b ns.
Proof.
  intros dim c w t w' t' Had H1 H2 H3 H4 H5 H6 Hx ns mean Hr.
  destruct (balance_settles E HE HO Had dim c w t w' t' H1 H2 (conj H3 (conj H4 H5)) H6 Hx ns) as (_ & _ & _ & K & _). exact (K Hr).
Qed.

Lemma bounded : forall dim c (w : World N) t w' t', all_delivered E -> NoDup (el_remote c) -> In (el_local c) (el_remote c) ->
  WorldOk w -> DimsOk (fun ns n => n = dim ns) w -> (forall b ns, never_expired E (data_at w b ns)) ->
  (forall b ns, length (centroids_at w b ns) < el_fuel c) -> exec (task_body E c TBalance) w t = Ok ((tt, w'), t') ->
  forall ns s, let mean := mean_size w (el_remote c) ns in let margin := margin_of mean in centroids_up_to w (el_remote c) ns s -> (0 <= s)%Z ->
    (forall b, ~ In b (el_remote c) -> manager w' b ns = manager w b ns) /\
    (size_at w' (el_local c) ns = size_at w (el_local c) ns \/
     (size_at w (el_local c) ns < size_at w' (el_local c) ns)%Z /\ (3 * size_at w' (el_local c) ns < 3 * mean - 2 * margin + 3 * s)%Z) /\
    forall b, b <> el_local c -> size_at w' b ns = size_at w b ns \/
      (size_at w' b ns < size_at w b ns)%Z /\ (2 <= length (having w (el_remote c) ns) -> (mean + margin - s < size_at w' b ns)%Z).
Proof.
  intros dim c w t w' t' Had H1 H2 H3 H4 H5 H6 Hx ns s mean margin Hs H0.
  destruct (balance_settles E HE HO Had dim c w t w' t' H1 H2 (conj H3 (conj H4 H5)) H6 Hx ns) as (K1 & K2 & K3 & _ & K5).
  rewrite <- (Z2Nat.id s H0) in Hs. destruct (K5 _ Hs) as (L1 & L2). rewrite (Z2Nat.id s H0) in *. splits; auto.
  - destruct (Z.eq_dec (size_at w' (el_local c) ns) (size_at w (el_local c) ns)) as [He|He]; [left; exact He|right].
    destruct L1 as [L1|L1]; [contradiction|]. split; [lia|exact L1].
  - intros b Hb. destruct (Z.eq_dec (size_at w' b ns) (size_at w b ns)) as [He|He]; [left; exact He|right].
    destruct (L2 b Hb) as [L|L]; [contradiction|]. specialize (K3 b Hb). split; [lia|exact L].
Qed.

Lemma no_overshoot : forall dim c (w : World N) t w' t', all_delivered E -> NoDup (el_remote c) -> In (el_local c) (el_remote c) ->
  WorldOk w -> DimsOk (fun ns n => n = dim ns) w -> (forall b ns, never_expired E (data_at w b ns)) ->
  (forall b ns, length (centroids_at w b ns) < el_fuel c) -> exec (task_body E c TBalance) w t = Ok ((tt, w'), t') ->
  forall ns, let mean := mean_size w (el_remote c) ns in let margin := margin_of mean in
  centroids_up_to w (el_remote c) ns margin -> (0 <= margin)%Z -> 2 <= length (having w (el_remote c) ns) ->
    (size_at w' (el_local c) ns = size_at w (el_local c) ns \/
     (size_at w (el_local c) ns < size_at w' (el_local c) ns)%Z /\ (3 * (size_at w' (el_local c) ns - mean) < margin)%Z) /\
    forall b, b <> el_local c -> size_at w' b ns = size_at w b ns \/ (mean < size_at w' b ns < size_at w b ns)%Z.
Proof.
  intros dim c w t w' t' Had H1 H2 H3 H4 H5 H6 Hx ns mean margin Hs H0 Hh.
  destruct (bounded dim c w t w' t' Had H1 H2 H3 H4 H5 H6 Hx ns margin Hs H0) as (_ & K1 & K2). fold mean in K1, K2. fold margin in K1, K2. split.
  - destruct K1 as [K|(K & L)]; [left; exact K|right]. split; [exact K|lia].
  - intros b Hb. destruct (K2 b Hb) as [K|(K & L)]; [left; exact K|right]. specialize (L Hh). lia.
Qed.
Lemma gains : forall dim c (w : World N) t w' t' ns, all_delivered E -> NoDup (el_remote c) -> In (el_local c) (el_remote c) ->
  WorldOk w -> DimsOk (fun ns n => n = dim ns) w -> (forall b ns, never_expired E (data_at w b ns)) ->
  (forall b ns, length (centroids_at w b ns) < el_fuel c) -> node_at w (el_local c) <> None -> 0 < dim ns ->
  exec (task_body E c TBalance) w t = Ok ((tt, w'), t') ->
  let mean := mean_size w (el_remote c) ns in let margin := margin_of mean in let here := size_at w (el_local c) ns in
  let want := ((mean - here) / (3 * Z.of_nat (length (el_remote c))))%Z in
  (here <= mean - margin)%Z -> (0 < want)%Z ->
  (forall b, In b (el_remote c) -> b <> el_local c -> offers E w (el_local c) b ns) ->
  (exists b, In b (el_remote c) /\ b <> el_local c /\ manager w b ns <> None /\
     (having w (el_remote c) ns = [b] \/ (mean + margin + want <= size_at w b ns)%Z)) ->
  (here < size_at w' (el_local c) ns)%Z.
Proof.
  intros dim c w t w' t' ns Had H1 H2 H3 H4 H5 H6 H7 H8 Hx mean margin here want Hle Hw Ho Hb.
  apply (balance_gains E HE HO Had dim c w t w' t' ns H1 H2 (conj H3 (conj H4 H5)) H6 H7 H8 Hx); auto.
  apply Z.nlt_ge. intros Hlt. unfold want in Hw. fold mean here in Hlt. pose proof (mean_nonneg w (el_remote c) ns) as Hm.
  destruct (Z.ltb_spec (mean - here) 0) as [Hneg|Hneg].
  - assert (Hmar := margin_nonneg _ Hm). fold mean margin in Hmar. lia.
  - rewrite Z.div_small in Hw; lia.
Qed.
End SettleMore.
