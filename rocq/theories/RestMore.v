(* The facts of RestProofs.v as statements about sequences of load balancing tasks. *)
From Verif Require Import Base Num MathUtils Knn Env Centroid CManager DataSpec MgrSpec Wp DataFacts NumFacts
  Proc Server ServerSpec ServerFacts Owns EventLoop CoreSpec SettleSpec SettleProofs RestSpec RestProofs.
From Coq Require Import Permutation.

Section RestMore.
Context {N : Num} (E : Env N) (HE : EnvOk E) (HO : NumOrd N).
Notation World := (World N).

Lemma ready_fine dim fuel R ns (w : World) : ready E dim fuel R ns w <-> fine E dim R ns fuel w.
Proof. unfold ready, fine, calm. tauto. Qed.

Lemma whole dim c (w : World) t w' t' : all_delivered E -> NoDup (el_remote c) -> In (el_local c) (el_remote c) ->
  WorldOk w -> DimsOk (fun ns n => n = dim ns) w -> (forall b ns, never_expired E (data_at w b ns)) ->
  (forall b ns, length (centroids_at w b ns) < el_fuel c) -> (forall ns, length (all_groups w (el_remote c) ns) < el_fuel c) ->
  exec (task_body E c TBalance) w t = Ok ((tt, w'), t') ->
  forall ns, exists gone, Forall (eq []) gone /\ Permutation (all_groups w (el_remote c) ns) (all_groups w' (el_remote c) ns ++ gone).
Proof.
  intros Had H1 H2 H3 H4 H5 H6 H7 Hx ns. destruct (balance_kept E HE HO Had dim c w t w' t' H1 H2 (conj H3 (conj H4 H5)) H6 H7 Hx ns) as (_ & H). exact H.
Qed.

Lemma runs dim fuel R ns cs (w : World) t : all_delivered E -> NoDup R -> peers fuel R cs -> ready E dim fuel R ns w ->
  exists ws, turns E cs w t ws.
Proof. intros Had H1 H3 H4. apply ready_fine in H4. apply (turns_exist E HE HO Had dim R ns fuel H1 cs w t H3 H4). Qed.

Lemma bounded_turns dim fuel R ns cs (w : World) t ws : all_delivered E -> NoDup R -> 2 <= length R -> peers fuel R cs -> ready E dim fuel R ns w ->
  turns E cs w t ws ->
  (3 * moved_in w ws R ns <= 2 * imbalance w R ns)%Z /\ (2 * Z.of_nat (changes w ws R ns) <= imbalance w R ns)%Z.
Proof.
  intros Had H1 H2 H3 H4 HT. apply ready_fine in H4. destruct (settle_turns E HE HO Had dim R ns fuel H1 H2 cs w t ws HT H3 H4) as (K1 & K2 & _).
  pose proof (imbalance_nonneg R ns (last ws w)). lia.
Qed.

Lemma ends_balanced dim fuel R ns round k (w : World) t ws : all_delivered E -> NoDup R -> 2 <= length R -> 0 < dim ns ->
  peers fuel R round -> (forall b, In b R -> In b (map el_local round)) -> ready E dim fuel R ns w ->
  turns E (concat (repeat round k)) w t ws ->
  (forall w1 a b, In w1 (w :: ws) -> In a R -> In b R -> could_pull w1 R ns a b -> offers E w1 a b ns) ->
  (imbalance w R ns < 2 * Z.of_nat k)%Z -> balanced (last ws w) R ns.
Proof.
  intros Had H1 H2 H3 H4 H5 H6 HT Hoff Hk. apply ready_fine in H6.
  apply (rounds_balance E HE HO Had dim R ns fuel H1 H2 H3 round H5 H4 k w t ws HT H6); auto.
Qed.

Lemma ends_balanced_found dim fuel R ns round k (w : World) t ws : all_delivered E -> NoDup R -> 2 <= length R -> 0 < dim ns ->
  peers fuel R round -> (forall b, In b R -> In b (map el_local round)) -> ready E dim fuel R ns w ->
  turns E (concat (repeat round k)) w t ws ->
  finds_some E (dim ns) -> Forall (fun g => g <> []) (all_groups w R ns) ->
  (imbalance w R ns < 2 * Z.of_nat k)%Z -> balanced (last ws w) R ns.
Proof.
  intros Had H1 H2 H3 H4 H5 H6 HT Hfs Hne Hk. apply (ends_balanced dim fuel R ns round k w t ws); auto. intros w1 a b Hw1.
  revert w1 Hw1 a b. apply ready_fine in H6. apply (turns_offer E HE HO Had dim R ns fuel H1 H3 Hfs (concat (repeat round k)) w t ws HT); auto.
  clear -H4. induction k as [|k IHk]; cbn [repeat concat]; [constructor|]. apply Forall_app. split; auto.
Qed.

Lemma stays_balanced dim fuel R ns cs (w : World) t ws : all_delivered E -> NoDup R -> 2 <= length R -> peers fuel R cs -> ready E dim fuel R ns w ->
  turns E cs w t ws -> balanced w R ns -> forall w', In w' ws -> balanced w' R ns /\ forall b, manager w' b ns = manager w b ns.
Proof. intros Had H1 H2 H3 H4 HT Hb. apply ready_fine in H4. apply (stays E HE HO Had dim R ns fuel H1 H2 cs w t ws HT H3 H4 Hb). Qed.
End RestMore.
