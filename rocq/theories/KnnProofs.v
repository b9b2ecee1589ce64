From Verif Require Import Base Num NumFacts MathUtils Knn SearchSpec Wp Env.
From Coq Require Import Sorted.

Section KnnProofs.
Context {N : Num} (HN : NumOrd N).
Notation item := (result_item N).

Lemma better_irrefl asc (a : F N) : better asc a a = false.
Proof. unfold better; destruct asc; apply (lt_irrefl N HN). Qed.

Lemma better_asym asc (a b : F N) : better asc a b = true -> better asc b a = false.
Proof.
  intros H. destruct (better asc b a) eqn:H2; auto.
  assert (better asc a a = true).
  { unfold better in *; destruct asc; eapply (lt_trans N HN); eauto. }
  rewrite better_irrefl in H0; discriminate.
Qed.

Lemma better_cotrans asc (a b c : F N) :
  better asc a c = true -> is_num b -> better asc a b = true \/ better asc b c = true.
Proof.
  unfold better; destruct asc; intros H Hb; destruct (lt_cotrans N HN _ _ _ H Hb); auto.
Qed.

(* a may stand before b in a best-first list *)
Definition nb (asc : bool) (a b : item) : Prop :=
  ri_set b = true -> ri_set a = true /\ better asc (ri_score b) (ri_score a) = false.
Definition good (asc : bool) (a : item) : Prop :=
  if ri_set a then better asc (ri_score a) (sentinel asc) = true
  else ri_score a = sentinel asc.

Lemma better_is_num asc (a b : F N) : better asc a b = true -> is_num a.
Proof. unfold better, is_num; destruct asc; exists b; auto. Qed.

Lemma nb_trans asc a b c : good asc b -> nb asc a b -> nb asc b c -> nb asc a c.
Proof.
  unfold nb, good. intros Hb H1 H2 Hc. destruct (H2 Hc) as [Sb B2].
  destruct (H1 Sb) as [Sa B1]. split; auto.
  destruct (better asc (ri_score c) (ri_score a)) eqn:H; auto.
  rewrite Sb in Hb.
  destruct (better_cotrans asc _ _ _ H (better_is_num _ _ _ Hb)); congruence.
Qed.

Lemma bubble_spec asc items : forall ins,
  good asc ins -> Forall (good asc) items -> StronglySorted (nb asc) items ->
  exists out, Permutation (ins :: items) (bubble ins items asc ++ [out]) /\
              StronglySorted (nb asc) (bubble ins items asc ++ [out]).
Proof.
  induction items as [|it rest IH]; intros ins Hi Hg Hs; cbn [bubble].
  - exists ins; split; simpl; auto. repeat constructor.
  - inversion Hg as [|? ? Hgit Hgrest]; subst. inversion Hs as [|? ? Hsr Hf]; subst.
    assert (Hcase : exists ins' it',
      (let '(ins1, it1) :=
        if (fltb (ri_score it) (ri_score ins) || negb (ri_set it)) && negb asc
        then (it, ins) else (ins, it) in
      let '(ins2, it2) :=
        if (fltb (ri_score ins1) (ri_score it1) || negb (ri_set it1)) && asc
        then (it1, ins1) else (ins1, it1) in
      it2 :: bubble ins2 rest asc) = it' :: bubble ins' rest asc /\
      ((ins' = it /\ it' = ins /\ (better asc (ri_score ins) (ri_score it) = true \/ ri_set it = false))
       \/ (ins' = ins /\ it' = it /\ better asc (ri_score ins) (ri_score it) = false /\ ri_set it = true))).
    { destruct asc; unfold better; cbn [negb].
      - rewrite andb_false_r. rewrite andb_true_r.
        destruct (fltb (ri_score ins) (ri_score it)) eqn:E1; cbn [orb].
        + exists it, ins; split; auto.
        + destruct (ri_set it) eqn:E2; cbn [negb].
          * exists ins, it; split; auto.
          * exists it, ins; split; auto.
      - rewrite andb_true_r.
        destruct (fltb (ri_score it) (ri_score ins)) eqn:E1; cbn [orb].
        + rewrite andb_false_r. exists it, ins; split; auto.
        + destruct (ri_set it) eqn:E2; cbn [negb]; rewrite andb_false_r.
          * exists ins, it; split; auto.
          * exists it, ins; split; auto. }
    destruct Hcase as (ins' & it' & -> & Hc).
    assert (Hg' : good asc ins') by (destruct Hc as [(-> & _)|(-> & _)]; auto).
    destruct (IH ins' Hg' Hgrest Hsr) as (out & Hp & Hso).
    exists out. split.
    + change (it' :: bubble ins' rest asc) with ([it'] ++ bubble ins' rest asc).
      rewrite <- app_assoc. rewrite <- Hp.
      destruct Hc as [(-> & -> & _)|(-> & -> & _)]; perm.
    + cbn [app]. constructor; auto.
      eapply Permutation_Forall; [exact Hp|].
      assert (Hh : nb asc it' ins').
      { unfold nb. destruct Hc as [(-> & -> & Hc)|(-> & -> & Hc)].
        - intros Hset. destruct Hc as [Hc|Hc]; [|congruence]. split.
          + destruct (ri_set ins) eqn:E; auto. exfalso.
            unfold good in Hi, Hgit. rewrite E in Hi. rewrite Hset in Hgit.
            rewrite Hi in Hc. apply better_asym in Hc. congruence.
          + apply better_asym; auto.
        - intros Hset. tauto. }
      constructor; auto.
      destruct Hc as [(-> & -> & Hc)|(-> & -> & Hc)]; auto.
      eapply Forall_impl; [|exact Hf]. intros x Hx. eapply nb_trans; eauto.
Qed.

Lemma bubble_length asc (items : list item) : forall ins, length (bubble ins items asc) = length items.
Proof.
  induction items as [|it rest IH]; intros ins; cbn [bubble]; auto.
  destruct ((fltb (ri_score it) (ri_score ins) || negb (ri_set it)) && negb asc);
  destruct (( _ || _) && _); simpl; f_equal; auto.
Qed.

(* The rankable items of a pool whose first position is i. *)
Fixpoint rank_items (dist : vec N -> vec N -> option (F N)) (asc : bool) (target : vec N)
  (i : nat) (pool : list (vec N)) : list item :=
  match pool with
  | [] => []
  | v :: r =>
      match dist target v with
      | Some s => if better asc s (sentinel asc) then [RItem i s true] else []
      | None => []
      end ++ rank_items dist asc target (S i) r
  end.

Lemma rank_items_good dist asc target pool : forall i,
  Forall (good asc) (rank_items dist asc target i pool).
Proof.
  induction pool as [|v r IH]; intros i; cbn [rank_items]; auto.
  apply Forall_app; split; auto.
  destruct (dist target v) as [s|]; auto. destruct (better asc s (sentinel asc)) eqn:H; auto.
Qed.

Lemma in_rank_items dist asc target pool : forall i x,
  In x (rank_items dist asc target i pool) <->
  exists j s, x = RItem (i + j) s true /\ rankable dist asc target pool j s.
Proof.
  induction pool as [|v r IH]; intros i x; cbn [rank_items].
  - split; [contradiction|]. intros (j & s & _ & w & Hn & _). destruct j; discriminate.
  - rewrite in_app_iff, IH. split.
    + intros [H|(j & s & -> & w & Hn & Hd & Hb)].
      * destruct (dist target v) as [s|] eqn:Hd; [|contradiction].
        destruct (better asc s (sentinel asc)) eqn:Hb; [|contradiction].
        destruct H as [<-|[]]. exists 0, s. rewrite Nat.add_0_r. split; auto.
        exists v; simpl; auto.
      * exists (S j), s. split; [f_equal; lia|]. exists w; simpl; auto.
    + intros (j & s & -> & w & Hn & Hd & Hb). destruct j as [|j]; simpl in Hn.
      * left. inversion Hn; subst. rewrite Hd, Hb, Nat.add_0_r. simpl; auto.
      * right. exists j, s. split; [f_equal; lia|]. exists w; auto.
Qed.

Lemma rank_items_nodup dist asc target pool : forall i,
  NoDup (map ri_index (rank_items dist asc target i pool)).
Proof.
  induction pool as [|v r IH]; intros i; cbn [rank_items]; [constructor|].
  rewrite map_app. destruct (dist target v) as [s|]; simpl; auto.
  destruct (better asc s (sentinel asc)); simpl; auto.
  constructor; auto. rewrite in_map_iff. intros (x & Hx & Hin).
  apply in_rank_items in Hin. destruct Hin as (j & s' & -> & _). simpl in Hx. lia.
Qed.

(* State of the search after part of the pool: res holds the best, dropped the others. *)
Definition Inv (asc : bool) (R : list item) (k : nat) (res : list item) : Prop :=
  length res = k /\ StronglySorted (nb asc) res /\
  exists dropped, Permutation (R ++ repeat (RItem 0 (sentinel asc) false) k) (res ++ dropped) /\
                  forall a b, In a res -> In b dropped -> nb asc a b.

Lemma SSorted_app {A} (R : A -> A -> Prop) l1 l2 :
  StronglySorted R (l1 ++ l2) ->
  StronglySorted R l1 /\ StronglySorted R l2 /\ forall a b, In a l1 -> In b l2 -> R a b.
Proof.
  induction l1 as [|x l1 IH]; simpl; intros H.
  - repeat split; auto; [constructor|contradiction].
  - inversion H as [|? ? Hs Hf]; subst. destruct (IH Hs) as (H1 & H2 & H3).
    apply Forall_app in Hf. destruct Hf as [Hf1 Hf2]. repeat split; auto.
    + constructor; auto.
    + intros a b [->|Ha] Hb; auto. rewrite Forall_forall in Hf2; auto.
Qed.

Lemma Inv_good asc R k res : Forall (good asc) R -> Inv asc R k res -> Forall (good asc) res.
Proof.
  intros HR (_ & _ & dr & Hp & _).
  assert (H : Forall (good asc) (res ++ dr)).
  { eapply Permutation_Forall; [exact Hp|]. apply Forall_app; split; auto.
    clear. induction k; simpl; constructor; auto. reflexivity. }
  apply Forall_app in H; tauto.
Qed.

Lemma Inv_step asc R k res slot :
  Forall (good asc) R -> good asc slot -> Inv asc R k res ->
  Inv asc (R ++ [slot]) k (bubble slot res asc).
Proof.
  intros HR Hg HI. pose proof (Inv_good _ _ _ _ HR HI) as Hgr.
  destruct HI as (Hl & Hs & dr & Hp & Hd).
  destruct (bubble_spec asc res slot Hg Hgr Hs) as (out & Hp2 & Hs2).
  destruct (SSorted_app _ _ _ Hs2) as (Hs3 & _ & Hout).
  split; [rewrite bubble_length; auto|]. split; auto.
  exists (out :: dr). split.
  - transitivity (slot :: (res ++ dr)).
    + rewrite <- Hp. perm.
    + transitivity ((slot :: res) ++ dr); [reflexivity|]. rewrite Hp2. perm.
  - intros a b Ha [<-|Hb].
    + apply Hout; simpl; auto.
    + (* a is slot or one of res; b was already after all of res *)
      assert (Hin : In a (slot :: res)).
      { eapply Permutation_in; [apply Permutation_sym; exact Hp2|]. apply in_or_app; auto. }
      destruct Hin as [<-|Hin]; auto.
      (* slot stayed in res, so something left (or everything is shorter) *)
      assert (Hoin : In out (slot :: res)).
      { eapply Permutation_in; [apply Permutation_sym; exact Hp2|]. apply in_or_app; simpl; auto. }
      destruct Hoin as [<-|Hoin].
      * (* out = slot *)
        destruct (bubble slot res asc) as [|y ys] eqn:Eb; [contradiction|].
        assert (Hyin : In y (slot :: res)).
        { eapply Permutation_in; [apply Permutation_sym; exact Hp2|]. simpl; auto. }
        (* slot occurs in the bubbled list and is also out: some occurrence comes from res *)
        assert (Hinres : In slot res).
        { assert (P : Permutation (slot :: res) (slot :: (y :: ys))).
          { rewrite Hp2. perm. }
          apply Permutation_cons_inv in P. eapply Permutation_in; [apply Permutation_sym; exact P|auto]. }
        apply Hd; auto.
      * eapply nb_trans; [|apply Hout; [exact Ha|simpl; auto]|apply Hd; auto].
        rewrite Forall_forall in Hgr. apply Hgr; auto.
Qed.

Lemma knn_loop_inv dist asc target : forall pool i R res k,
  Forall (good asc) R -> Inv asc R k res ->
  Inv asc (R ++ rank_items dist asc target i pool) k
      (knn_loop dist target asc (sentinel asc) i pool res).
Proof.
  induction pool as [|v r IH]; intros i R res k HR HI; cbn [knn_loop rank_items].
  - rewrite app_nil_r; auto.
  - destruct (dist target v) as [s|] eqn:Hd; [|apply IH; auto].
    assert (E : (let res1 := if asc && fltb s (sentinel asc) then bubble (RItem i s true) res true else res in
                 if negb asc && fltb (sentinel asc) s then bubble (RItem i s true) res1 false else res1)
                = if better asc s (sentinel asc) then bubble (RItem i s true) res asc else res).
    { unfold better. destruct asc; cbn [andb negb]; reflexivity. }
    cbv zeta in E. rewrite E. clear E.
    destruct (better asc s (sentinel asc)) eqn:Hb.
    + rewrite app_assoc. apply IH.
      * apply Forall_app; split; auto.
      * apply Inv_step; auto.
    + apply IH; auto.
Qed.

Lemma filter_perm {A} (f : A -> bool) l l' : Permutation l l' -> Permutation (filter f l) (filter f l').
Proof.
  induction 1 as [|x l l' H IH|x y l|l1 l2 l3 H1 IH1 H2 IH2]; simpl; auto.
  - destruct (f x); auto.
  - destruct (f x), (f y); auto. apply perm_swap.
  - etransitivity; eauto.
Qed.

Lemma filter_all {A} (f : A -> bool) l : (forall x, In x l -> f x = true) -> filter f l = l.
Proof. induction l as [|x l IH]; simpl; intros H; auto. rewrite H by auto. f_equal; auto. Qed.
Lemma filter_none {A} (f : A -> bool) l : (forall x, In x l -> f x = false) -> filter f l = [].
Proof. induction l as [|x l IH]; simpl; intros H; auto. rewrite H by auto. auto. Qed.

Lemma SSorted_filter {A} (R : A -> A -> Prop) f l :
  StronglySorted R l -> StronglySorted R (filter f l).
Proof.
  induction 1 as [|x l Hs IH Hf]; simpl; [constructor|].
  destruct (f x); auto. constructor; auto.
  rewrite Forall_forall in *. intros y Hy. apply filter_In in Hy. apply Hf; tauto.
Qed.

Lemma SSorted_map {A B} (g : A -> B) (R : B -> B -> Prop) l :
  StronglySorted (fun a b => R (g a) (g b)) l -> StronglySorted R (map g l).
Proof.
  induction 1 as [|x l Hs IH Hf]; simpl; constructor; auto.
  rewrite Forall_forall in *. intros y Hy. apply in_map_iff in Hy. destruct Hy as (z & <- & Hz); auto.
Qed.

Lemma SSorted_impl_in {A} (R R' : A -> A -> Prop) l :
  (forall a b, In a l -> In b l -> R a b -> R' a b) -> StronglySorted R l -> StronglySorted R' l.
Proof.
  intros H Hs. induction Hs as [|x l Hs IH Hf]; constructor.
  - apply IH. intros a b Ha Hb; apply H; simpl; auto.
  - rewrite Forall_forall in *. intros y Hy. apply H; simpl; auto.
Qed.

Lemma rankable_fun (dist : vec N -> vec N -> option (F N)) asc target pool i s s' :
  rankable dist asc target pool i s -> rankable dist asc target pool i s' -> s = s'.
Proof. intros (v & H1 & H2 & _) (v' & H1' & H2' & _). congruence. Qed.

Theorem knn_brute_bestk (dist : vec N -> vec N -> option (F N)) asc target pool k :
  (0 <= k)%Z ->
  exists idx, knn_brute dist asc target pool k = Ok idx /\
              BestK dist asc target pool (Z.to_nat k) idx.
Proof.
  intros Hk. unfold knn_brute. replace (k <? 0)%Z with false by (symmetry; apply Z.ltb_ge; auto).
  change (worst asc) with (@sentinel N asc). cbv zeta.
  set (n := Z.to_nat k).
  set (U := RItem 0 (sentinel asc) false).
  set (R := rank_items dist asc target 0 pool).
  set (res := knn_loop dist target asc (sentinel asc) 0 pool (repeat U n)).
  assert (HI : Inv asc ([] ++ R) n res).
  { apply knn_loop_inv; auto. split; [apply repeat_length|]. split.
    - generalize n as m. clear. induction m; simpl; constructor; auto.
      apply Forall_forall. intros x Hx. apply repeat_spec in Hx. subst x. unfold nb; simpl; discriminate.
    - exists []. split; [simpl; rewrite app_nil_r; auto|contradiction]. }
  cbn [app] in HI. destruct HI as (Hlen & Hsort & dr & Hp & Hdr).
  fold U in Hp.
  assert (HRset : forall x, In x R -> ri_set x = true).
  { intros x Hx. apply in_rank_items in Hx. destruct Hx as (? & ? & -> & _); auto. }
  assert (HPset : Permutation (filter ri_set res ++ filter ri_set dr) R).
  { rewrite <- filter_app. rewrite <- (filter_perm ri_set _ _ Hp), filter_app.
    rewrite (filter_all ri_set R) by auto.
    rewrite (filter_none ri_set (repeat U n)); [rewrite app_nil_r; auto|].
    intros x Hx. apply repeat_spec in Hx. subst x; auto. }
  set (S := filter ri_set res) in *.
  assert (HSR : forall x, In x S -> In x R).
  { intros x Hx. eapply Permutation_in; [exact HPset|]. apply in_or_app; auto. }
  assert (HS : forall x, In x S -> exists s, x = RItem (ri_index x) s true /\
                                      rankable dist asc target pool (ri_index x) s).
  { intros x Hx. apply HSR, in_rank_items in Hx. destruct Hx as (j & s & -> & Hr). simpl. eauto. }
  assert (HNR : NoDup (map ri_index (S ++ filter ri_set dr))).
  { eapply Permutation_NoDup; [|apply (rank_items_nodup dist asc target pool 0)].
    apply Permutation_map, Permutation_sym; auto. }
  exists (map ri_index S). split; [reflexivity|]. split.
  - rewrite map_app in HNR. clear - HNR. induction (map ri_index S) as [|x l IH]; [constructor|].
    simpl in HNR. inversion HNR; subst. constructor; [rewrite in_app_iff in *; tauto|]. auto.
  - intros i Hi. apply in_map_iff in Hi. destruct Hi as (x & <- & Hx).
    destruct (HS x Hx) as (s & _ & Hr). eauto.
  - rewrite map_length. unfold S. rewrite <- Hlen. clear. induction res as [|x l IH]; simpl; auto.
    destruct (ri_set x); simpl; lia.
  - rewrite map_length. intros Hlt j s Hr.
    assert (Hun : exists u, In u res /\ ri_set u = false).
    { unfold S in Hlt. rewrite <- Hlen in Hlt. clear - Hlt. induction res as [|x l IH]; simpl in *; [lia|].
      destruct (ri_set x) eqn:E; [|eauto]. simpl in Hlt. destruct IH as (u & ? & ?); [lia|]. eauto. }
    destruct Hun as (u & Hu & Hset).
    assert (Hdr0 : filter ri_set dr = []).
    { apply filter_none. intros b Hb. destruct (ri_set b) eqn:E; auto.
      destruct (Hdr u b Hu Hb E) as [? _]. congruence. }
    rewrite Hdr0, app_nil_r in HPset.
    apply in_map_iff. exists (RItem j s true). split; auto.
    eapply Permutation_in; [apply Permutation_sym; exact HPset|].
    apply in_rank_items. exists j, s. auto.
  - apply SSorted_map.
    eapply SSorted_impl_in; [|apply (SSorted_filter (nb asc) ri_set res Hsort)].
    fold S. intros a b Ha Hb Hnb si sj Hri Hrj.
    destruct (HS a Ha) as (sa & Ea & Hra). destruct (HS b Hb) as (sb & Eb & Hrb).
    rewrite (rankable_fun _ _ _ _ _ _ _ Hri Hra), (rankable_fun _ _ _ _ _ _ _ Hrj Hrb).
    destruct Hnb as [_ H]; [rewrite Eb; auto|]. rewrite Ea, Eb in H. exact H.
  - intros i j si sj Hi Hj Hri Hrj.
    apply in_map_iff in Hi. destruct Hi as (a & <- & Ha).
    destruct (HS a Ha) as (sa & Ea & Hra).
    assert (Hb : In (RItem j sj true) (S ++ filter ri_set dr)).
    { eapply Permutation_in; [apply Permutation_sym; exact HPset|].
      apply in_rank_items. exists j, sj; auto. }
    apply in_app_iff in Hb. destruct Hb as [Hb|Hb].
    + exfalso. apply Hj. apply in_map_iff. exists (RItem j sj true); auto.
    + apply filter_In in Hb. destruct Hb as [Hb _]. apply filter_In in Ha. destruct Ha as [Ha _].
      destruct (Hdr _ _ Ha Hb) as [_ H]; [reflexivity|]. rewrite Ea in H. simpl in H.
      rewrite (rankable_fun _ _ _ _ _ _ _ Hri Hra). exact H.
Qed.

Lemma euclidean_some (a b : vec N) s : euclidean_distance a b = Some s -> length a = length b.
Proof. unfold euclidean_distance. destruct (Nat.eqb_spec (length a) (length b)); auto; discriminate. Qed.
Lemma cosine_some (a b : vec N) s : cosine_similarity a b = Some s -> length a = length b.
Proof. unfold cosine_similarity. destruct (Nat.eqb_spec (length a) (length b)); auto; discriminate. Qed.

Lemma knn_brute_ok dist asc :
  (forall a b s, dist a b = Some s -> length a = length b) ->
  SearchOk (knn_brute (N:=N) dist asc).
Proof.
  intros Hd tgt pool k Hk.
  destruct (knn_brute_bestk dist asc tgt pool k Hk) as (idx & -> & HB).
  exists idx. split; auto. split; [apply HB|]. split.
  - pose proof (bk_at_most _ _ _ _ _ _ HB). lia.
  - intros i Hi. destruct (bk_rankable _ _ _ _ _ _ HB i Hi) as (s & v & Hn & Hs & _).
    exists v. split; auto. symmetry. eapply Hd; eauto.
Qed.

Lemma knn_brute_negative dist asc tgt pool k : (k < 0)%Z -> knn_brute (N:=N) dist asc tgt pool k = Panic.
Proof. unfold knn_brute. intros H. apply Z.ltb_lt in H. rewrite H. auto. Qed.

Lemma knn_cos_ok : SearchOk (@knn_cos N).
Proof. apply knn_brute_ok, cosine_some. Qed.
Lemma kfn_cos_ok : SearchOk (@kfn_cos N).
Proof. apply knn_brute_ok, cosine_some. Qed.
Lemma knn_euc_ok : SearchOk (@knn_euc N).
Proof. apply knn_brute_ok, euclidean_some. Qed.
Lemma kfn_euc_ok : SearchOk (@kfn_euc N).
Proof. apply knn_brute_ok, euclidean_some. Qed.

End KnnProofs.
