(* Proofs of the statements collected in Props07.v. *)
From Verif Require Import Base Num MathUtils Knn Env Centroid CManager MgrSpec MgrSpec2 SearchSpec DataSpec DataFacts Wp NumFacts
  Exact KnnProofs CentroidProofs CMProofs2 CMProofs4 CMProofs5 Props03Lemmas TestEnv.
Local Open Scope nat_scope.

Lemma expires_when {N : Num} now (d : DataPoint N) :
  expired_at now d = true <-> dp_expire_enabled d = true /\ (dp_expires d < now)%Z.
Proof. unfold expired_at. rewrite andb_true_iff, Z.ltb_lt. tauto. Qed.

Lemma ordered_even_worst (E : Env f64) (HE : EnvOk E) dist asc n m k t : e_kfn E = knn_brute dist asc ->
  (1 <= k)%Z -> DimOk n m -> never_expired E (stored (cm_cs m)) ->
  wp (cm_drain_ordered E m k) t (fun r _ =>
    exists ps, EvenPortions (map (fun c => length (c_dps c)) (cm_cs m)) (Z.to_nat k) ps /\
      forall i c p, nth_error (cm_cs m) i = Some c -> nth_error ps i = Some p ->
        exists c' idx, nth_error (cm_cs (snd r)) i = Some c' /\
          BestK dist asc (c_vec c) (map dp_vec (c_dps c)) p idx /\ c_dps c' = without idx (c_dps c)).
Proof.
  intros Hk Hn Hm Hne. eapply wp_mono; [apply (cm_drain_ordered_even E HE n m k t); auto|]. cbn beta.
  intros r t' (ps & H1 & _ & _ & H2). exists ps. split; auto. intros i c p Hc Hp.
  destruct (H2 i c p Hc Hp) as (c' & H3 & H4 & H5). exists c'. destruct (Nat.eq_dec p 0) as [->|H0].
  - rewrite (H4 eq_refl) in *. destruct (knn_brute_bestk f64_ord dist asc (c_vec c) (map dp_vec (c_dps c)) 0 ltac:(lia)) as (idx & _ & HB).
    exists idx. splits; auto. assert (idx = []) as ->.
    { apply length_zero_iff_nil. pose proof (bk_at_most _ _ _ _ _ _ HB) as Hl. cbn in Hl. lia. }
    unfold without. symmetry. apply without_from_none. intros j _ [].
  - destruct (H5 ltac:(lia)) as (idx & H6 & H7). exists idx. splits; auto. rewrite Hk in H6.
    destruct (knn_brute_bestk f64_ord dist asc (c_vec c) (map dp_vec (c_dps c)) (Z.of_nat p) ltac:(lia)) as (idx' & H8 & HB).
    rewrite H6 in H8. injection H8 as <-. rewrite Nat2Z.id in HB. exact HB.
Qed.

Lemma merge_none {N : Num} (E : Env N) m p t : Forall (fun c => p c = false) (cm_cs m) ->
  wp (cm_merge E m p) t (fun m' _ => m' = m).
Proof. intros H. eapply wp_mono; [apply cm_merge_none; auto|]. intros m' t' [-> _]. auto. Qed.

(* A search that returns the first positions. *)
Definition first_search {N : Num} : search N := fun tgt pool k =>
  Ok (firstn (Z.to_nat k) (filter (fun i => match nth_error pool i with Some v => length v =? length tgt | None => false end) (seq 0 (length pool)))).
Lemma NoDup_firstn {A} k (l : list A) : NoDup l -> NoDup (firstn k l).
Proof.
  intros H. revert k. induction H as [|x l Hx H IH]; intros [|k]; cbn [firstn]; constructor; auto.
  intros Hi. apply Hx. eapply firstn_In; eauto.
Qed.
Lemma first_search_ok {N : Num} : SearchOk (N := N) first_search.
Proof.
  intros tgt pool k Hk. eexists. split; [reflexivity|]. splits.
  - apply NoDup_firstn, NoDup_filter, seq_NoDup.
  - rewrite firstn_length. lia.
  - intros i Hi. assert (Hi' := firstn_In _ _ _ Hi). apply filter_In in Hi'. destruct Hi' as [_ Hi'].
    destruct (nth_error pool i) as [v|]; [|discriminate]. exists v. split; auto. apply Nat.eqb_eq; auto.
Qed.
Definition firstE : Env f64 := plain_env (fun _ => 0%Z) (fun _ => Delivered) first_search first_search.
Lemma firstE_ok : EnvOk firstE.
Proof. apply plain_ok; apply first_search_ok. Qed.
Lemma filter_all {A} (f : A -> bool) l : (forall x, In x l -> f x = true) -> filter f l = l.
Proof. induction l as [|x l IH]; intros H; cbn [filter]; auto. rewrite H, IH by (auto using in_eq, in_cons). auto. Qed.
Lemma first_search_all {N : Num} (v : vec N) pool : Forall (fun w => length w = length v) pool -> ranks_all first_search v pool.
Proof.
  intros Hf k idx Hk. unfold first_search. rewrite filter_all.
  - intros [= <-]. rewrite firstn_length, seq_length. auto.
  - unfold vec in *. intros i Hi. apply in_seq in Hi.
    destruct (nth_error_lt pool i) as (w & Hw); [apply Hi|]. rewrite Hw.
    rewrite Forall_forall in Hf. apply Nat.eqb_eq, Hf. eapply nth_error_In; eauto.
Qed.
Lemma firstE_finds_all : finds_all firstE.
Proof. exact (@first_search_all f64). Qed.
