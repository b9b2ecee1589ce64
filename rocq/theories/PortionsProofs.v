(* How a drain is divided over the centroids (cmanager.go:128-155). *)
From Verif Require Import Base Num MathUtils Env Centroid CManager DataSpec Wp.

Lemma sum_app a b : sum (a ++ b) = sum a + sum b.
Proof. induction a as [|x a IH]; simpl; lia. Qed.
Lemma sum_cons a b : sum (a :: b) = a + sum b.
Proof. reflexivity. Qed.
Lemma sum_perm a b : Permutation a b -> sum a = sum b.
Proof. induction 1; rewrite ?sum_cons; simpl in *; lia. Qed.

Definition level (r : nat) (lens : list nat) : list nat := map (fun l => min r l) lens.

Lemma level_cons r l lens : level r (l :: lens) = min r l :: level r lens.
Proof. reflexivity. Qed.
Lemma level_length r lens : length (level r lens) = length lens.
Proof. apply map_length. Qed.
Lemma sum_level_le r lens : sum (level r lens) <= sum lens.
Proof. induction lens as [|l lens IH]; [auto|]. rewrite level_cons, !sum_cons. lia. Qed.
Lemma sum_level_S r lens : sum (level r lens) <= sum (level (S r) lens).
Proof. induction lens as [|l lens IH]; [auto|]. rewrite !level_cons, !sum_cons. lia. Qed.
Lemma level_stuck r lens : sum (level r lens) = sum (level (S r) lens) -> level r lens = lens.
Proof.
  induction lens as [|l lens IH]; intros H; auto. rewrite !level_cons in *. rewrite !sum_cons in H.
  pose proof (sum_level_S r lens). f_equal; [lia|]. apply IH. lia.
Qed.

(* One pass over [lens] at level r, stopping after position j. *)
Lemma portions_pass_spec n r : forall lens a,
  exists j a' done, portions_pass lens (level r lens) a n =
    (level (S r) (firstn j lens) ++ level r (skipn j lens), a', done) /\
    j <= length lens /\
    a' + sum (level r lens) = a + sum (level (S r) (firstn j lens) ++ level r (skipn j lens)) /\
    (done = true -> (n <= Z.of_nat a')%Z /\ 0 < j) /\
    (done = false -> j = length lens /\ (lens = [] \/ (Z.of_nat a' < n)%Z)) /\
    ((1 <= n)%Z -> (Z.of_nat a < n)%Z -> (Z.of_nat a' <= n)%Z).
Proof.
  induction lens as [|l lens IH]; intros a.
  - exists 0, a, false. simpl. repeat split; auto; try discriminate; lia.
  - cbn [portions_pass level map]. fold (level r lens).
    set (st := if min r l + 1 <=? l then (min r l + 1, a + 1) else (min r l, a)).
    assert (Hst : st = (min (S r) l, a + (min (S r) l - min r l))).
    { unfold st. destruct (Nat.leb_spec (min r l + 1) l); f_equal; lia. }
    rewrite Hst. clear Hst st. set (a1 := a + (min (S r) l - min r l)).
    destruct (Z.leb_spec n (Z.of_nat a1)) as [Hn|Hn].
    + exists 1, a1, true. cbn [firstn skipn level map app]. fold (level r lens).
      split; auto. simpl length. split; [lia|]. split.
      { rewrite !sum_cons. unfold a1. lia. }
      split; [intros; split; auto; lia|]. split; [discriminate|]. unfold a1 in *. lia.
    + destruct (IH a1) as (j & a' & done & Heq & Hj & Hsum & Ht & Hf & Hle). rewrite Heq.
      exists (S j), a', done. cbn [firstn skipn level map app]. fold (level (S r) (firstn j lens)).
      fold (level r (skipn j lens)).
      split; auto. simpl length. split; [lia|]. split.
      { rewrite !sum_cons. unfold a1 in Hsum. lia. }
      split; [intros Hd; destruct (Ht Hd); split; auto; lia|]. split.
      * intros Hd. destruct (Hf Hd) as [-> Hor]. split; auto. right. destruct Hor as [->|Hor]; auto.
        simpl in Heq. inversion Heq; subst. auto.
      * intros H1 H2. apply Hle; auto.
Qed.

Lemma nth_level_mix r lens j : j <= length lens -> forall i p l,
  nth_error (level (S r) (firstn j lens) ++ level r (skipn j lens)) i = Some p ->
  nth_error lens i = Some l -> p = min (S r) l /\ i < j \/ p = min r l /\ j <= i.
Proof.
  revert j; induction lens as [|x lens IH]; intros j Hj i p l Hp Hl; [destruct i; discriminate|].
  destruct j as [|j]; cbn [firstn skipn level map app] in Hp.
  - right. split; [|lia]. change (nth_error (level r (x :: lens)) i = Some p) in Hp. unfold level in Hp.
    rewrite (map_nth_error (fun l => min r l) i (x :: lens) Hl) in Hp. congruence.
  - destruct i as [|i]; cbn [nth_error] in *.
    + left. split; [congruence|lia].
    + destruct (IH j ltac:(simpl in Hj; lia) i p l Hp Hl) as [[? ?]|[? ?]]; [left|right]; split; auto; lia.
Qed.

Lemma mix_ok r lens j n :
  j <= length lens ->
  let ps := level (S r) (firstn j lens) ++ level r (skipn j lens) in
  sum ps = min n (sum lens) -> EvenPortions lens n ps.
Proof.
  intros Hj ps Hs. split; auto.
  - unfold ps. rewrite app_length, !level_length, firstn_length, skipn_length. lia.
  - intros i p l Hp Hl. destruct (nth_level_mix r lens j Hj i p l Hp Hl); lia.
  - intros i k p q l Hp Hq Hl Hlt.
    destruct (nth_error_lt lens k) as (lk & Hlk).
    { apply nth_error_len in Hq. unfold ps in Hq. rewrite app_length, !level_length, firstn_length, skipn_length in Hq. lia. }
    destruct (nth_level_mix r lens j Hj i p l Hp Hl); destruct (nth_level_mix r lens j Hj k q lk Hq Hlk); lia.
Qed.

Lemma portions_loop_spec n : (1 <= n)%Z -> forall fuel r lens,
  (Z.of_nat (sum (level r lens)) < n)%Z ->
  sum lens - sum (level r lens) <= fuel ->
  exists ps, portions_loop fuel lens (level r lens) (sum (level r lens)) n = Ok ps /\
             EvenPortions lens (Z.to_nat n) ps.
Proof.
  intros Hn. induction fuel as [|fuel IH]; intros r lens Hlt Hf;
  destruct (portions_pass_spec n r lens (sum (level r lens)))
    as (j & a' & done & Heq & Hj & Hsum & Ht & Hfl & Hle);
  cbn [portions_loop]; rewrite Heq;
  assert (Ha : a' = sum (level (S r) (firstn j lens) ++ level r (skipn j lens))) by lia;
  (destruct done;
   [ eexists; split; [reflexivity|]; apply mix_ok; auto; rewrite <- Ha;
     destruct (Ht eq_refl) as [H1 _]; specialize (Hle Hn Hlt);
     assert (Hs : sum (level (S r) (firstn j lens) ++ level r (skipn j lens)) <= sum lens);
     [ rewrite <- (firstn_skipn j lens) at 3; rewrite !sum_app;
       pose proof (sum_level_le (S r) (firstn j lens)); pose proof (sum_level_le r (skipn j lens)); lia
     | lia ]
   | destruct (Hfl eq_refl) as [Hjl Hor]; rewrite Hjl in *;
     rewrite firstn_all, skipn_all in *; cbn [level map] in *; rewrite app_nil_r in *;
     fold (level (S r) lens) in * ]).
  - (* fuel 0 *)
    assert (Hst : sum (level r lens) = sum (level (S r) lens)).
    { pose proof (sum_level_S r lens). pose proof (sum_level_le (S r) lens). lia. }
    rewrite Ha, <- Hst, Nat.eqb_refl. eexists; split; [reflexivity|].
    pose proof (level_stuck r lens Hst) as Hl.
    assert (EvenPortions lens (Z.to_nat n) (level (S r) (firstn (length lens) lens) ++ level r (skipn (length lens) lens))) as HE.
    { apply mix_ok; auto. rewrite firstn_all, skipn_all. cbn [level map]. rewrite app_nil_r. fold (level (S r) lens).
      rewrite <- Hst, Hl. rewrite Hl in Hlt. lia. }
    rewrite firstn_all, skipn_all in HE. cbn [level map] in HE. rewrite app_nil_r in HE. exact HE.
  - destruct (Nat.eqb_spec (sum (level r lens)) a') as [Hst|Hst].
    + rewrite Ha in Hst. eexists; split; [reflexivity|].
      pose proof (level_stuck r lens Hst) as Hl.
      assert (EvenPortions lens (Z.to_nat n) (level (S r) (firstn (length lens) lens) ++ level r (skipn (length lens) lens))) as HE.
      { apply mix_ok; auto. rewrite firstn_all, skipn_all. cbn [level map]. rewrite app_nil_r. fold (level (S r) lens).
        rewrite <- Hst, Hl. rewrite Hl in Hlt. lia. }
      rewrite firstn_all, skipn_all in HE. cbn [level map] in HE. rewrite app_nil_r in HE. exact HE.
    + rewrite Ha. apply IH.
      * destruct Hor as [->|Hor]; [simpl in *; lia|]. rewrite <- Ha. auto.
      * pose proof (sum_level_S r lens). pose proof (sum_level_le (S r) lens). lia.
Qed.

Lemma level_0 lens : level 0 lens = repeat 0 (length lens).
Proof. induction lens as [|l lens IH]; simpl; f_equal; auto. Qed.
Lemma sum_level_0 lens : sum (level 0 lens) = 0.
Proof. induction lens as [|l lens IH]; simpl; auto. Qed.

(* n <= 0: at most one datapoint of the first centroid. *)
Lemma portions_loop_nonpos n fuel lens :
  (n <= 0)%Z ->
  exists ps, portions_loop fuel lens (repeat 0 (length lens)) 0 n = Ok ps /\
    length ps = length lens /\
    (forall i p l, nth_error ps i = Some p -> nth_error lens i = Some l -> p <= l) /\ sum ps <= 1.
Proof.
  intros Hn. destruct lens as [|l lens].
  - exists []. destruct fuel; simpl; repeat split; auto; destruct i; discriminate.
  - assert (Hp : portions_pass (l :: lens) (repeat 0 (length (l :: lens))) 0 n
       = (min 1 l :: repeat 0 (length lens), min 1 l, true)).
    { cbn [length repeat portions_pass]. destruct l as [|l]; cbn [Nat.leb plus min].
      - replace (n <=? Z.of_nat 0)%Z with true by (symmetry; apply Z.leb_le; lia). auto.
      - replace (n <=? Z.of_nat 1)%Z with true by (symmetry; apply Z.leb_le; lia).
        replace (min 1 (S l)) with 1 by lia. auto. }
    exists (min 1 l :: repeat 0 (length lens)). split.
    { destruct fuel; cbn [portions_loop]; rewrite Hp; reflexivity. }
    split; [simpl; rewrite repeat_length; auto|]. split.
    + intros [|i] p x H1 H2; cbn [nth_error] in *; [injection H1 as <-; injection H2 as <-; destruct l; lia|].
      apply nth_error_In, repeat_spec in H1. lia.
    + rewrite sum_cons. assert (Hr : sum (repeat 0 (length lens)) = 0).
      { clear. induction (length lens); simpl; auto. }
      rewrite Hr. destruct l; simpl; lia.
Qed.

(* ---- the map entries ---- *)
Lemma combine_seq_In {A} (l : list A) : forall s i x, In (i, x) (combine (seq s (length l)) l) <->
  s <= i /\ nth_error l (i - s) = Some x.
Proof.
  induction l as [|y l IH]; intros s i x; cbn [length seq combine].
  - split; [contradiction|]. intros [_ H]. destruct (i - s); discriminate.
  - cbn [In]. rewrite IH. split.
    + intros [H|[H1 H2]].
      * inversion H; subst. rewrite Nat.sub_diag. auto.
      * split; [lia|]. replace (i - s) with (S (i - S s)) by lia. auto.
    + intros [H1 H2]. destruct (Nat.eq_dec i s) as [->|Hne].
      * rewrite Nat.sub_diag in H2. inversion H2; auto.
      * right. split; [lia|]. replace (i - s) with (S (i - S s)) in H2 by lia. auto.
Qed.
Lemma map_fst_combine_seq {A} (l : list A) : forall s, map fst (combine (seq s (length l)) l) = seq s (length l).
Proof. induction l as [|y l IH]; intros s; simpl; f_equal; auto. Qed.
Lemma map_snd_combine_seq {A} (l : list A) : forall s, map snd (combine (seq s (length l)) l) = l.
Proof. induction l as [|y l IH]; intros s; simpl; f_equal; auto. Qed.

Lemma NoDup_map_filter {A B} (f : A -> B) p (l : list A) : NoDup (map f l) -> NoDup (map f (filter p l)).
Proof.
  induction l as [|x l IH]; simpl; intros H; auto. inversion H; subst.
  destruct (p x); simpl; auto. constructor; auto. rewrite in_map_iff in *.
  intros (y & Hy & Hin). apply filter_In in Hin. destruct Hin. eauto.
Qed.

Lemma portions_entries_spec ps :
  NoDup (map fst (portions_entries ps)) /\
  sum (map snd (portions_entries ps)) = sum ps /\
  (forall i p, In (i, p) (portions_entries ps) <-> nth_error ps i = Some p /\ p <> 0).
Proof.
  unfold portions_entries. split; [|split].
  - apply NoDup_map_filter. rewrite map_fst_combine_seq. apply seq_NoDup.
  - rewrite <- (map_snd_combine_seq ps 0) at 3.
    generalize (combine (seq 0 (length ps)) ps) as l.
    induction l as [|[i p] l IH]; auto. cbn [filter snd map].
    destruct (Nat.eqb_spec p 0); cbn [negb map snd]; rewrite !sum_cons; lia.
  - intros i p. rewrite filter_In, combine_seq_In, Nat.sub_0_r. cbn [snd].
    destruct (Nat.eqb_spec p 0) as [Hp|Hp]; cbn [negb].
    + split; [intros [_ H]; discriminate|intros [_ H]; contradiction].
    + split; intros [H1 H2]; split; auto; [tauto|split; auto; lia].
Qed.
