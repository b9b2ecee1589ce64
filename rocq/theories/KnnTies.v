(* What is settled about a search whose pool contains equally good vectors: the scores of the
   answer, whatever the order of the pool; and the answer itself when there are no ties. *)
From Verif Require Import Base Num NumFacts MathUtils Knn SearchSpec KnnProofs.
From Coq Require Import Sorted.

Section Best.
Context {A : Type} (lt : A -> A -> bool) (good : A -> Prop).
Hypothesis irr : forall a, lt a a = false.
Hypothesis cot : forall a b x, good x -> lt a b = true -> lt a x = true \/ lt x b = true.

Notation before := (fun a b => lt b a = false).

Lemma sorted_split l1 a l2 : StronglySorted before (l1 ++ a :: l2) ->
  (forall x, In x l1 -> lt a x = false) /\ (forall y, In y l2 -> lt y a = false).
Proof.
  intros H. destruct (SSorted_app _ _ _ H) as (_ & H2 & H3). split.
  - intros x Hx. apply (H3 x a Hx). simpl; auto.
  - inversion H2 as [|? ? _ Hf]; subst. rewrite Forall_forall in Hf. exact Hf.
Qed.

Lemma at_place l1 a l2 d l1' b l2' d' :
  Forall good (l1 ++ a :: l2) ->
  StronglySorted before (l1 ++ a :: l2) -> StronglySorted before (l1' ++ b :: l2') ->
  (forall y, In y d' -> lt y b = false) ->
  Permutation ((l1 ++ a :: l2) ++ d) ((l1' ++ b :: l2') ++ d') ->
  length l1 = length l1' -> lt a b = false.
Proof.
  intros Hg Hs Hs' Hd Hp Hl. destruct (lt a b) eqn:E; auto. exfalso.
  destruct (sorted_split _ _ _ Hs) as [H1 _]. destruct (sorted_split _ _ _ Hs') as [_ H2].
  apply (filter_perm (fun x => lt x b)), Permutation_length in Hp.
  rewrite !filter_app in Hp. cbn [filter] in Hp. rewrite E, irr in Hp.
  rewrite (filter_all _ l1) in Hp.
  2:{ intros x Hx. destruct (cot a b x) as [H|H]; auto.
      - rewrite Forall_forall in Hg. apply Hg, in_or_app; auto.
      - rewrite H1 in H by auto. discriminate. }
  rewrite (filter_none _ l2' H2), (filter_none _ d' Hd) in Hp.
  rewrite !app_length in Hp. cbn [length] in Hp.
  assert (length (filter (fun x => lt x b) l1') <= length l1').
  { clear. induction l1' as [|x l IH]; simpl; auto. destruct (lt x b); simpl; lia. }
  lia.
Qed.

Lemma forall2_split {B C} (R : B -> C -> Prop) l : forall l', length l = length l' ->
  (forall l1 a l2 l1' b l2', l = l1 ++ a :: l2 -> l' = l1' ++ b :: l2' -> length l1 = length l1' -> R a b) ->
  Forall2 R l l'.
Proof.
  induction l as [|x l IH]; intros [|y l'] Hl H; try discriminate; constructor.
  - apply (H [] x l [] y l'); auto.
  - apply IH; [simpl in Hl; lia|]. intros l1 a l2 l1' b l2' -> -> E.
    apply (H (x :: l1) a l2 (y :: l1') b l2'); simpl; auto.
Qed.

Lemma same_best l d l' d' :
  Forall good l -> Forall good l' ->
  StronglySorted before l -> StronglySorted before l' ->
  (forall a y, In a l -> In y d -> lt y a = false) ->
  (forall a y, In a l' -> In y d' -> lt y a = false) ->
  Permutation (l ++ d) (l' ++ d') -> length l = length l' ->
  Forall2 (fun a b => lt a b = false /\ lt b a = false) l l'.
Proof.
  intros G G' S S' D D' P L. apply forall2_split; auto.
  intros l1 a l2 l1' b l2' -> -> E. split.
  - eapply (at_place l1 a l2 d l1' b l2' d'); eauto.
    intros y Hy. apply D'; auto. apply in_or_app; simpl; auto.
  - eapply (at_place l1' b l2' d' l1 a l2 d); eauto.
    + intros y Hy. apply D; auto. apply in_or_app; simpl; auto.
    + apply Permutation_sym; auto.
Qed.
End Best.

Section Ties.
Context {N : Num} (HN : NumOrd N).
Variables (dist : vec N -> vec N -> option (F N)) (asc : bool) (target : vec N).
Notation rk := (rankable dist asc target).

Definition vec_scores (v : vec N) : list (F N) :=
  match dist target v with
  | Some s => if better asc s (sentinel asc) then [s] else []
  | None => []
  end.

Lemma rank_scores pool : forall i,
  map ri_score (rank_items dist asc target i pool) = flat_map vec_scores pool.
Proof.
  induction pool as [|v r IH]; intros i; cbn [rank_items flat_map]; auto.
  rewrite map_app, IH. f_equal. unfold vec_scores.
  destruct (dist target v) as [s|]; auto. destruct (better asc s (sentinel asc)); auto.
Qed.

Definition score_at (pool : list (vec N)) (i : nat) : F N :=
  match nth_error pool i with
  | Some v => match dist target v with Some s => s | None => f0 end
  | None => f0
  end.

Lemma score_at_rk pool i s : rk pool i s -> score_at pool i = s.
Proof. intros (v & H1 & H2 & _). unfold score_at. rewrite H1, H2. auto. Qed.

Definition places pool := map ri_index (rank_items dist asc target 0 pool).

Lemma in_places pool i : In i (places pool) <-> exists s, rk pool i s.
Proof.
  unfold places. rewrite in_map_iff. split.
  - intros (x & <- & H). apply in_rank_items in H. destruct H as (j & s & -> & H). exists s. exact H.
  - intros (s & H). exists (RItem i s true). split; auto. apply in_rank_items. exists i, s; auto.
Qed.

Lemma places_scores pool : map (score_at pool) (places pool) = flat_map vec_scores pool.
Proof.
  rewrite <- (rank_scores pool 0). unfold places. rewrite map_map. apply map_ext_in.
  intros x H. apply in_rank_items in H. destruct H as (j & s & -> & H). apply score_at_rk, H.
Qed.

Lemma rest_perm (idx all : list nat) : NoDup idx -> NoDup all -> incl idx all ->
  exists rest, Permutation (idx ++ rest) all /\ forall j, In j rest -> ~ In j idx.
Proof.
  intros H1 H2 H3.
  exists (filter (fun j => negb (existsb (Nat.eqb j) idx)) all).
  assert (Hr : forall j, In j (filter (fun j => negb (existsb (Nat.eqb j) idx)) all) <-> In j all /\ ~ In j idx).
  { intros j. rewrite filter_In, negb_true_iff. split; intros [Ha Hb]; split; auto.
    - intros Hi. rewrite <- not_true_iff_false in Hb. apply Hb, existsb_exists.
      exists j. split; auto. apply Nat.eqb_refl.
    - apply not_true_iff_false. intros He. apply existsb_exists in He.
      destruct He as (x & Hx & E). apply Nat.eqb_eq in E. subst x. auto. }
  split; [|intros j Hj; apply Hr in Hj; tauto].
  apply NoDup_Permutation; auto.
  - clear H3. induction idx as [|x l IH]; cbn [app].
    + apply NoDup_filter; auto.
    + inversion H1; subst.
      assert (Hnd : NoDup (l ++ filter (fun j => negb (existsb (Nat.eqb j) (x :: l))) all)).
      { assert (Hd : forall j, In j (filter (fun j => negb (existsb (Nat.eqb j) (x :: l))) all) -> ~ In j l).
        { intros j Hj. apply Hr in Hj. simpl in Hj; tauto. }
        revert Hd H4. generalize (NoDup_filter (fun j => negb (existsb (Nat.eqb j) (x :: l))) H2).
        generalize (filter (fun j => negb (existsb (Nat.eqb j) (x :: l))) all). intros r Hrr Hd Hl. clear - Hrr Hd Hl.
        induction l as [|y l IH]; cbn [app]; auto. inversion Hl; subst. constructor.
        - rewrite in_app_iff. intros [?|Hy]; [tauto|]. apply (Hd y); simpl; auto.
        - apply IH; auto. intros j Hj Hin. apply (Hd j); simpl; auto. }
      constructor; auto. rewrite in_app_iff. intros [?|Hx]; [tauto|]. apply Hr in Hx. simpl in Hx; tauto.
  - intros j. rewrite in_app_iff, Hr. split; [intros [?|?]; [apply H3; auto|tauto]|].
    intros Hj. destruct (in_dec Nat.eq_dec j idx); auto.
Qed.

Lemma bestk_count pool k idx : BestK dist asc target pool k idx ->
  length idx = min k (length (places pool)).
Proof.
  intros H. assert (Hi : incl idx (places pool)).
  { intros i Hi. apply in_places, (bk_rankable _ _ _ _ _ _ H), Hi. }
  pose proof (NoDup_incl_length (bk_nodup _ _ _ _ _ _ H) Hi) as H1.
  pose proof (bk_at_most _ _ _ _ _ _ H) as H2.
  destruct (Nat.eq_dec (length idx) k) as [E|E]; [lia|].
  assert (H3 : incl (places pool) idx).
  { intros i Hp. apply in_places in Hp. destruct Hp as (s & Hs).
    eapply (bk_all _ _ _ _ _ _ H); eauto. lia. }
  pose proof (NoDup_incl_length (rank_items_nodup dist asc target pool 0) H3) as H4.
  fold (places pool) in H4. lia.
Qed.

Lemma forall2_map {B C D E} (f : B -> D) (g : C -> E) (R : D -> E -> Prop) l : forall l',
  Forall2 R (map f l) (map g l') -> Forall2 (fun a b => R (f a) (g b)) l l'.
Proof.
  induction l as [|x l IH]; intros [|y l'] H; inversion H; subst; constructor; auto.
Qed.

Lemma forall2_weaken {B C} (R R' : B -> C -> Prop) l l' :
  (forall a b, R a b -> R' a b) -> Forall2 R l l' -> Forall2 R' l l'.
Proof. intros H F. induction F; constructor; auto. Qed.

Theorem same_scores pool pool' k idx idx' :
  Permutation pool pool' ->
  BestK dist asc target pool k idx -> BestK dist asc target pool' k idx' ->
  Forall2 (fun i j => forall s s', rk pool i s -> rk pool' j s' ->
             better asc s s' = false /\ better asc s' s = false) idx idx'.
Proof.
  intros P B B'.
  assert (PS : Permutation (map (score_at pool) (places pool)) (map (score_at pool') (places pool'))).
  { rewrite !places_scores. apply Permutation_flat_map, P. }
  assert (L : length idx = length idx').
  { rewrite (bestk_count _ _ _ B), (bestk_count _ _ _ B').
    apply Permutation_length in PS. rewrite !map_length in PS. congruence. }
  assert (part : forall p ix, BestK dist asc target p k ix -> exists rest,
     Permutation (ix ++ rest) (places p) /\
     Forall (fun s => better asc s (sentinel asc) = true) (map (score_at p) ix) /\
     StronglySorted (fun a b => better asc b a = false) (map (score_at p) ix) /\
     (forall a y, In a (map (score_at p) ix) -> In y (map (score_at p) rest) -> better asc y a = false)).
  { intros p ix H.
    assert (Hi : incl ix (places p)).
    { intros i Hi. apply in_places, (bk_rankable _ _ _ _ _ _ H), Hi. }
    destruct (rest_perm ix (places p) (bk_nodup _ _ _ _ _ _ H) (rank_items_nodup dist asc target p 0) Hi)
      as (rest & Hp & Hn).
    exists rest. split; auto.
    assert (Hk : forall j, In j (ix ++ rest) -> rk p j (score_at p j)).
    { intros j Hj. eapply Permutation_in in Hj; [|exact Hp]. apply in_places in Hj.
      destruct Hj as (s & Hs). rewrite (score_at_rk _ _ _ Hs). auto. }
    split; [|split].
    - apply Forall_forall. intros s Hs. apply in_map_iff in Hs. destruct Hs as (i & <- & Hii).
      destruct (Hk i) as (v & _ & _ & Hb); auto. apply in_or_app; auto.
    - apply SSorted_map. eapply SSorted_impl_in; [|apply (bk_sorted _ _ _ _ _ _ H)].
      intros a b Ha Hb Hr. apply Hr; apply Hk, in_or_app; auto.
    - intros a y Ha Hy. apply in_map_iff in Ha, Hy. destruct Ha as (i & <- & Ha). destruct Hy as (j & <- & Hy).
      apply (bk_best _ _ _ _ _ _ H i j); auto; apply Hk, in_or_app; auto. }
  destruct (part _ _ B) as (r & R1 & R2 & R3 & R4). destruct (part _ _ B') as (r' & R1' & R2' & R3' & R4').
  assert (F2 := same_best (better asc) (fun s => better asc s (sentinel asc) = true)
     (better_irrefl HN asc) (fun a b x Hx H => better_cotrans HN asc a x b H (better_is_num asc _ _ Hx))
     (map (score_at pool) idx) (map (score_at pool) r) (map (score_at pool') idx') (map (score_at pool') r')
     R2 R2' R3 R3' R4 R4').
  eapply forall2_weaken; [|apply (forall2_map (score_at pool) (score_at pool')), F2].
  - intros i j H s s' Hs Hs'. rewrite <- (score_at_rk _ _ _ Hs), <- (score_at_rk _ _ _ Hs'). exact H.
  - rewrite <- !map_app. rewrite R1, PS. symmetry. apply Permutation_map, R1'.
  - rewrite !map_length; auto.
Qed.

(* A search of the same pool in another order. *)
Theorem knn_scores pool pool' k : (0 <= k)%Z -> Permutation pool pool' ->
  exists idx idx', knn_brute dist asc target pool k = Ok idx /\ knn_brute dist asc target pool' k = Ok idx' /\
    Forall2 (fun i j => exists s s', rk pool i s /\ rk pool' j s' /\
               better asc s s' = false /\ better asc s' s = false) idx idx'.
Proof.
  intros Hk P.
  destruct (knn_brute_bestk HN dist asc target pool k Hk) as (idx & E & B).
  destruct (knn_brute_bestk HN dist asc target pool' k Hk) as (idx' & E' & B').
  exists idx, idx'. split; [|split]; auto.
  pose proof (same_scores _ _ _ _ _ P B B') as F.
  pose proof (bk_rankable _ _ _ _ _ _ B) as R. pose proof (bk_rankable _ _ _ _ _ _ B') as R'.
  clear - F R R'. induction F as [|i j l l' H F IH]; constructor.
  - destruct (R i) as (s & Hs); [simpl; auto|]. destruct (R' j) as (s' & Hs'); [simpl; auto|].
    exists s, s'. destruct (H s s' Hs Hs'). auto.
  - apply IH; intros; [apply R|apply R']; simpl; auto.
Qed.

Lemma perm_place (pool pool' : list (vec N)) j v : Permutation pool pool' -> nth_error pool' j = Some v ->
  exists i, nth_error pool i = Some v.
Proof.
  intros P H. apply nth_error_In in H. apply In_nth_error.
  eapply Permutation_in; [apply Permutation_sym; exact P|exact H].
Qed.

(* Without ties the vectors found do not depend on the order of the pool. *)
Theorem knn_no_ties pool pool' k : (0 <= k)%Z -> Permutation pool pool' ->
  (forall i j s s', rk pool i s -> rk pool j s' -> i <> j -> better asc s s' = true \/ better asc s' s = true) ->
  exists idx idx', knn_brute dist asc target pool k = Ok idx /\ knn_brute dist asc target pool' k = Ok idx' /\
    map (nth_error pool) idx = map (nth_error pool') idx'.
Proof.
  intros Hk P Hd. destruct (knn_scores pool pool' k Hk P) as (idx & idx' & E & E' & F).
  exists idx, idx'. split; [|split]; auto. clear - F P Hd.
  induction F as [|i j l l' (s & s' & Hs & Hs' & H1 & H2) F IH]; cbn [map]; auto.
  f_equal; auto. destruct Hs' as (v' & N' & D' & B'). rewrite N'.
  destruct (perm_place _ _ _ _ P N') as (i' & Ni).
  destruct (Nat.eq_dec i i') as [->|Hne]; auto.
  destruct (Hd i i' s s' Hs) as [X|X]; auto; try congruence. exists v'; auto.
Qed.

(* A pool whose vectors come best first is searched in its own order. *)
Notation unset := (RItem (N := N) 0 (sentinel asc) false).

Lemma bubble_blank m : bubble unset (repeat unset m) asc = repeat unset m.
Proof.
  induction m as [|m IH]; cbn [repeat bubble]; auto.
  cbn [ri_score ri_set negb]. rewrite orb_true_r.
  destruct asc; cbn [negb andb ri_score ri_set]; rewrite ?orb_true_r; cbn [andb]; rewrite ?andb_false_r; f_equal; exact IH.
Qed.

Lemma bubble_last (ins : result_item N) items m :
  (forall x, In x items -> ri_set x = true /\ better asc (ri_score ins) (ri_score x) = false) ->
  bubble ins (items ++ repeat unset m) asc =
  items ++ match m with 0 => [] | S m' => ins :: repeat unset m' end.
Proof.
  induction items as [|it r IH]; intros H; cbn [app].
  - destruct m as [|m]; cbn [repeat bubble]; auto.
    cbn [ri_score ri_set negb]. rewrite orb_true_r.
    pose proof (bubble_blank m) as Hb.
    destruct asc; cbn [negb andb ri_score ri_set]; rewrite ?orb_true_r; cbn [andb]; rewrite ?andb_false_r; f_equal; exact Hb.
  - cbn [bubble]. destruct (H it) as [Hs Hb]; [simpl; auto|]. rewrite Hs. cbn [negb]. rewrite !orb_false_r.
    assert (IH' := IH (fun x Hx => H x (or_intror Hx))).
    unfold better in Hb. destruct asc; cbn [negb andb].
    + rewrite andb_false_r. rewrite Hs. cbn [negb]. rewrite orb_false_r, andb_true_r, Hb. f_equal. exact IH'.
    + rewrite andb_true_r, Hb. rewrite andb_false_r. f_equal. exact IH'.
Qed.

Lemma loop_sorted pool : forall i R k,
  StronglySorted (fun a b => better asc (ri_score b) (ri_score a) = false)
    (R ++ rank_items dist asc target i pool) ->
  Forall (fun x => ri_set x = true) R ->
  knn_loop dist target asc (sentinel asc) i pool (firstn k R ++ repeat unset (k - length R)) =
  firstn k (R ++ rank_items dist asc target i pool) ++
    repeat unset (k - length (R ++ rank_items dist asc target i pool)).
Proof.
  induction pool as [|v r IH]; intros i R k HS HR; cbn [knn_loop rank_items].
  - rewrite app_nil_r; auto.
  - cbn [rank_items] in HS.
    destruct (dist target v) as [s|] eqn:Hd; [|apply IH; auto].
    assert (E : forall res, (let res1 := if asc && fltb s (sentinel asc) then bubble (RItem i s true) res true else res in
                 if negb asc && fltb (sentinel asc) s then bubble (RItem i s true) res1 false else res1)
                = if better asc s (sentinel asc) then bubble (RItem i s true) res asc else res).
    { intros res. unfold better. destruct asc; cbn [andb negb]; reflexivity. }
    cbv zeta in E. rewrite E. clear E.
    destruct (better asc s (sentinel asc)) eqn:Hb; [|apply IH; auto].
    rewrite app_assoc in HS |- *. rewrite <- IH; auto.
    2:{ apply Forall_app; auto. }
    rewrite bubble_last.
    + f_equal. rewrite app_length. cbn [length]. rewrite firstn_app.
      destruct (Nat.le_gt_cases k (length R)) as [L|L].
      * replace (k - length R) with 0 by lia. replace (k - (length R + 1)) with 0 by lia.
        cbn [firstn repeat]. rewrite !app_nil_r; auto.
      * replace (k - length R) with (S (k - (length R + 1))) by lia. cbn [firstn].
        rewrite firstn_nil, <- app_assoc. auto.
    + intros x Hx. assert (Hin : In x R).
      { rewrite <- (firstn_skipn k R). apply in_or_app; auto. }
      split; [rewrite Forall_forall in HR; auto|].
      destruct (SSorted_app _ _ _ HS) as (H1 & _ & _). destruct (SSorted_app _ _ _ H1) as (_ & _ & H2).
      apply (H2 x (RItem i s true)); simpl; auto.
Qed.

Lemma places_sorted pool : forall i,
  StronglySorted (fun a b => ri_index a < ri_index b) (rank_items dist asc target i pool).
Proof.
  induction pool as [|v r IH]; intros i; cbn [rank_items]; [constructor|].
  destruct (dist target v) as [s|]; [|apply IH].
  destruct (better asc s (sentinel asc)); [|apply IH]. cbn [app]. constructor; [apply IH|].
  apply Forall_forall. intros x Hx. apply in_rank_items in Hx. destruct Hx as (j & s' & -> & _). simpl. lia.
Qed.

Lemma knn_sorted_items pool k : (0 <= k)%Z ->
  StronglySorted (fun a b => better asc (ri_score b) (ri_score a) = false) (rank_items dist asc target 0 pool) ->
  knn_brute dist asc target pool k = Ok (firstn (Z.to_nat k) (places pool)).
Proof.
  intros Hk HS. unfold knn_brute. replace (k <? 0)%Z with false by (symmetry; apply Z.ltb_ge; auto).
  change (worst asc) with (@sentinel N asc). cbv zeta.
  pose proof (loop_sorted pool 0 [] (Z.to_nat k) HS (Forall_nil _)) as H.
  rewrite firstn_nil, Nat.sub_0_r in H. cbn [app] in H. rewrite H. f_equal.
  unfold res_items_2_indexes. rewrite filter_app, (filter_none _ (repeat _ _)), app_nil_r.
  - rewrite filter_all; [unfold places; symmetry; apply firstn_map|].
    intros x Hx. assert (Hin : In x (rank_items dist asc target 0 pool)).
    { rewrite <- (firstn_skipn (Z.to_nat k)). apply in_or_app; auto. }
    apply in_rank_items in Hin. destruct Hin as (? & ? & -> & _); auto.
  - intros x Hx. apply repeat_spec in Hx. subst x; auto.
Qed.

Theorem knn_in_order pool k : (0 <= k)%Z ->
  (forall i j s s', i < j -> rk pool i s -> rk pool j s' -> better asc s' s = false) ->
  exists idx, knn_brute dist asc target pool k = Ok idx /\ StronglySorted lt idx /\
    (forall i j s, rk pool i s -> In j idx -> i < j -> In i idx).
Proof.
  intros Hk H. exists (firstn (Z.to_nat k) (places pool)).
  assert (HP : StronglySorted lt (places pool)) by apply SSorted_map, places_sorted.
  split; [|split].
  - apply knn_sorted_items; auto.
    eapply SSorted_impl_in; [|apply places_sorted]. intros a b Ha Hb Hlt.
    apply in_rank_items in Ha, Hb. destruct Ha as (i & s & -> & Ha). destruct Hb as (j & s' & -> & Hb).
    simpl in Hlt |- *. eapply H; eauto.
  - rewrite <- (firstn_skipn (Z.to_nat k)) in HP. apply SSorted_app in HP. tauto.
  - intros i j s Hi Hj Hlt.
    assert (Hin : In i (places pool)) by (apply in_places; eauto).
    rewrite <- (firstn_skipn (Z.to_nat k)) in HP, Hin. apply in_app_or in Hin. destruct Hin as [?|Hin]; auto.
    destruct (SSorted_app _ _ _ HP) as (_ & _ & H3). specialize (H3 j i Hj Hin). lia.
Qed.
End Ties.
