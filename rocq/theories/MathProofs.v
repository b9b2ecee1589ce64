From Verif Require Import Base Num MathUtils Knn Env SearchSpec MathSpec DataSpec DataFacts Wp NumFacts KnnProofs
  Exact CMProofs.

Section MathProofs.
Context {N : Num}.

Lemma distance_error_iff (a b : vec N) :
  (cosine_similarity a b = None <-> length a <> length b) /\
  (euclidean_distance a b = None <-> length a <> length b).
Proof.
  unfold cosine_similarity, euclidean_distance.
  destruct (Nat.eqb_spec (length a) (length b)) as [He|He]; split; split; intros H; auto; try contradiction;
    try discriminate; destruct (feqb (norm a) f0 && feqb (norm b) f0); discriminate.
Qed.

Lemma enumerate_rankable (HN : NumOrd N) dist asc tgt (pool : list (vec N)) :
  exists l, enumerates (fun i => exists s, rankable dist asc tgt pool i s) l.
Proof.
  exists (map ri_index (rank_items dist asc tgt 0 pool)). split.
  - apply rank_items_nodup.
  - intros i. rewrite in_map_iff. split.
    + intros (x & <- & Hx). apply in_rank_items in Hx. destruct Hx as (j & s & -> & Hr). exists s. exact Hr.
    + intros (s & Hr). exists (RItem i s true). split; auto. apply in_rank_items. exists i, s. auto.
Qed.

Lemma bestk_length dist asc tgt (pool : list (vec N)) k idx l :
  BestK dist asc tgt pool k idx -> enumerates (fun i => exists s, rankable dist asc tgt pool i s) l ->
  length idx = min k (length l).
Proof.
  intros HB [Hnd Hl].
  assert (H1 : length idx <= length l).
  { apply NoDup_incl_length; [apply (bk_nodup _ _ _ _ _ _ HB)|]. intros i Hi. apply Hl.
    apply (bk_rankable _ _ _ _ _ _ HB); auto. }
  pose proof (bk_at_most _ _ _ _ _ _ HB) as H2.
  destruct (Nat.lt_ge_cases (length idx) k) as [Hlt|Hge]; [|lia].
  assert (H3 : length l <= length idx).
  { apply NoDup_incl_length; auto. intros i Hi. apply Hl in Hi. destruct Hi as (s & Hs).
    eapply (bk_all _ _ _ _ _ _ HB); eauto. }
  lia.
Qed.

Lemma bestk_all dist asc tgt (pool : list (vec N)) k idx i :
  length pool <= k -> BestK dist asc tgt pool k idx ->
  (In i idx <-> exists s, rankable dist asc tgt pool i s).
Proof.
  intros Hk HB. split; [apply (bk_rankable _ _ _ _ _ _ HB)|]. intros (s & Hs).
  destruct (Nat.lt_ge_cases (length idx) k) as [Hlt|Hge]; [eapply (bk_all _ _ _ _ _ _ HB); eauto|].
  apply (NoDup_length_incl (bk_nodup _ _ _ _ _ _ HB) (l' := seq 0 (length pool))).
  - rewrite seq_length. lia.
  - intros j Hj. destruct (bk_rankable _ _ _ _ _ _ HB j Hj) as (s' & v & Hn & _).
    apply in_seq. apply nth_error_len in Hn. lia.
  - destruct Hs as (v & Hn & _). apply in_seq. apply nth_error_len in Hn. lia.
Qed.

Lemma vec_mean_exact (HX : ExactNum N) n (vs : list (vec N)) t :
  vs <> [] -> Forall (fun v => length v = n) vs ->
  wp (vec_mean (S (length vs)) list_gen vs) t (fun r _ => fst r = (mean_of n vs, true)).
Proof.
  intros Hne Hf. eapply wp_mono; [apply vec_mean_list|]. cbn beta.
  intros [[v' ok] s] t' [_ H]. destruct vs as [|v rest]; [contradiction|]. cbn [fst snd] in *.
  inversion Hf as [|? ? Hv Hr]; subst v. subst.
  destruct H as [Hok Hm].
  assert (Ht : ok = true).
  { rewrite Hok. apply forallb_forall. intros w Hw. rewrite Forall_forall in Hr. apply Nat.eqb_eq. apply Hr; auto. }
  rewrite Hm by auto. rewrite Ht. f_equal. apply (mean_fold HX); auto.
Qed.

Lemma vec_mean_fails_iff (vs : list (vec N)) t :
  wp (vec_mean (S (length vs)) list_gen vs) t (fun r _ =>
    snd (fst r) = false <->
    vs = [] \/ exists v w, In v vs /\ In w vs /\ length v <> length w).
Proof.
  eapply wp_mono; [apply vec_mean_list|]. cbn beta.
  intros [[v' ok] s] t' [_ H]. cbn [fst snd] in *. destruct vs as [|v rest].
  - injection H as _ ->. split; auto.
  - destruct H as [Hok _]. rewrite Hok. split.
    + intros Hf. right.
      destruct (existsb (fun w => negb (length w =? length v)) rest) eqn:He.
      * apply existsb_exists in He. destruct He as (w & Hw & Hl). apply negb_true_iff, Nat.eqb_neq in Hl.
        exists v, w. simpl. auto.
      * exfalso. assert (Ht : forallb (fun w => length w =? length v) rest = true).
        { apply forallb_forall. intros w Hw. destruct (length w =? length v) eqn:Hl; auto.
          assert (existsb (fun w => negb (length w =? length v)) rest = true).
          { apply existsb_exists. exists w. rewrite Hl. auto. } congruence. }
        congruence.
    + intros [Hn|(a & b & Ha & Hb & Hd)]; [discriminate|].
      destruct (forallb (fun w => length w =? length v) rest) eqn:Ht; auto.
      rewrite forallb_forall in Ht.
      assert (HH : forall w, In w (v :: rest) -> length w = length v).
      { intros w [<-|Hw]; auto. apply Nat.eqb_eq; auto. }
      rewrite (HH a Ha), (HH b Hb) in Hd. contradiction.
Qed.

Lemma vec_add_sub_dims (a b : vec N) :
  (vec_add a b <> None <-> length a = length b) /\
  (vec_sub a b <> None <-> length a = length b) /\
  (forall c, vec_add a b = Some c -> length c = length a) /\
  (forall c, vec_sub a b = Some c -> length c = length a) /\
  (forall s, length (vec_mul_scalar a s) = length a) /\
  (forall s, length (vec_div_scalar a s) = length a).
Proof.
  unfold vec_add, vec_sub.
  destruct (Nat.eqb_spec (length a) (length b)) as [He|He]; repeat split; intros; auto;
    try congruence; try (apply mul_length); try (apply div_length);
    match goal with H : Some _ = Some _ |- _ => injection H as <- end; rewrite zipw_length; lia.
Qed.

(* coordinates *)
Lemma vec_ops_coords (a b : vec N) j :
  length a = length b -> j < length a ->
  (forall c, vec_add a b = Some c -> nth j c f0 = fadd (nth j a f0) (nth j b f0)) /\
  (forall c, vec_sub a b = Some c -> nth j c f0 = fsub (nth j a f0) (nth j b f0)) /\
  (forall s, nth j (vec_mul_scalar a s) f0 = fmul (nth j a f0) s) /\
  (forall s, nth j (vec_div_scalar a s) f0 = fdiv (nth j a f0) s).
Proof.
  intros Hl Hj. unfold vec_add, vec_sub. rewrite Hl, Nat.eqb_refl. repeat split.
  - intros c [= <-]. apply nth_zipw; auto.
  - intros c [= <-]. apply nth_zipw; auto.
  - intros s. apply nth_scale_mul; auto.
  - intros s. apply nth_scale_div; auto.
Qed.

Lemma add_sub_inverse (HX : ExactNum N) (a b c : vec N) :
  vec_add a b = Some c -> vec_sub c b = Some a.
Proof.
  unfold vec_add, vec_sub. destruct (Nat.eqb_spec (length a) (length b)) as [Hl|]; [|discriminate].
  intros [= <-]. assert (Hz : length (zipw fadd a b) = length b) by (rewrite zipw_length; lia).
  rewrite Hz, Nat.eqb_refl. f_equal. apply vec_ext; [rewrite zipw_length; lia|].
  rewrite zipw_length. intros j Hj. rewrite nth_zipw by lia. rewrite nth_zipw by lia.
  apply (ex_sub N HX). reflexivity.
Qed.
Lemma sub_add_inverse (HX : ExactNum N) (a b c : vec N) :
  vec_sub a b = Some c -> vec_add c b = Some a.
Proof.
  unfold vec_add, vec_sub. destruct (Nat.eqb_spec (length a) (length b)) as [Hl|]; [|discriminate].
  intros [= <-]. assert (Hz : length (zipw fsub a b) = length b) by (rewrite zipw_length; lia).
  rewrite Hz, Nat.eqb_refl. f_equal. apply vec_ext; [rewrite zipw_length; lia|].
  rewrite zipw_length. intros j Hj. rewrite nth_zipw by lia. rewrite nth_zipw by lia.
  apply ex_sub_eq; auto.
Qed.
Lemma mul_div_inverse (HX : ExactNum N) (a : vec N) s :
  s <> f0 -> vec_div_scalar (vec_mul_scalar a s) s = a /\ vec_mul_scalar (vec_div_scalar a s) s = a.
Proof.
  intros Hs. unfold vec_div_scalar, vec_mul_scalar. rewrite !map_map. split.
  - rewrite <- (map_id a) at 2. apply map_ext. intros x. apply (ex_div N HX); auto.
  - rewrite <- (map_id a) at 2. apply map_ext. intros x. apply ex_div_eq; auto.
Qed.

Lemma vec_eq_iff (a : vec N) : forall b,
  vec_eq a b = true <-> length a = length b /\ forall j, j < length a -> feqb (nth j a f0) (nth j b f0) = true.
Proof.
  unfold vec_eq. induction a as [|x a IH]; intros [|y b]; cbn [length combine forallb Nat.eqb andb fst snd].
  - split; auto. intros _. split; auto. intros j Hj; lia.
  - split; [discriminate|]. intros [H _]; discriminate.
  - split; [discriminate|]. intros [H _]; discriminate.
  - specialize (IH b). split.
    + intros H. apply andb_true_iff in H. destruct H as [H1 H2]. apply andb_true_iff in H2. destruct H2 as [H2 H3].
      destruct (proj1 IH) as [Hl Hj]; [apply andb_true_iff; auto|]. split; [lia|].
      intros [|j] Hlt; cbn [nth]; auto. apply Hj. lia.
    + intros [Hl Hj].
      assert (Hr : (length a =? length b) && forallb (fun p => feqb (fst p) (snd p)) (combine a b) = true).
      { apply IH. split; [lia|]. intros j Hlt. apply (Hj (S j)). lia. }
      apply andb_true_iff in Hr. destruct Hr as [Hr1 Hr2]. rewrite Hr1, Hr2.
      pose proof (Hj 0 ltac:(lia)) as H0. cbn [nth] in H0. rewrite H0. reflexivity.
Qed.

Lemma vec_in_iff (v : vec N) vs : vec_in v vs = true <-> exists w, In w vs /\ vec_eq v w = true.
Proof. unfold vec_in. apply existsb_exists. Qed.

End MathProofs.
