(* A put goes to the closest node. *)
From Coq Require Import Permutation Sorted.
From Verif Require Import Base Num MathUtils Knn SearchSpec Env Centroid CManager DataSpec MgrSpec Wp DataFacts NumFacts
  KnnProofs MathSpec Proc Owns Server ServerSpec SeqProofs SeqProofs2 Core CoreSpec Props03Lemmas Props04Lemmas Props05Lemmas QueryProofs.
Local Open Scope nat_scope.

Section Closest.
Context {N : Num}.
Notation World := (World N).

(* ---- specification ---- *)

(* The vectors that speak for node a: the one of its manager; those of its centroids. *)
Definition node_vec (w : World) (ns a : str) (u : vec N) : Prop := exists m, manager w a ns = Some m /\ u = cm_vec m.
Definition centroid_vec (w : World) (ns a : str) (u : vec N) : Prop :=
  exists m c, manager w a ns = Some m /\ In c (cm_cs m) /\ u = c_vec c.

(* Its similarity is a number that can be ranked (not NaN). *)
Definition similar (v u : vec N) (s : F N) : Prop := cosine_similarity v u = Some s /\ fltb (sentinel false) s = true.

(* Some vector of a is as similar to v as any vector of any of the nodes. *)
Definition closest (vecs : str -> vec N -> Prop) (addrs : list str) (v : vec N) (a : str) : Prop :=
  exists u s, vecs a u /\ similar v u s /\
    forall b u' s', In b addrs -> vecs b u' -> cosine_similarity v u' = Some s' -> fltb s s' = false.

(* The datapoint d has been added to centroid i of node a, which may have been split then. *)
Definition lands (w w' : World) (ns a : str) (i : nat) (c : Centroid N) (d : DataPoint N) : Prop :=
  exists m m' c' extra, manager w a ns = Some m /\ manager w' a ns = Some m' /\ only w w' a ns /\
    nth_error (cm_cs m) i = Some c /\ cm_cs m' = list_set (cm_cs m) i c' ++ extra /\ length extra <= 1 /\
    Permutation (c_dps c ++ [d]) (c_dps c' ++ stored extra).

(* ---- proofs ---- *)
Context (E : Env N) (HE : EnvOk E) (HO : NumOrd N).

Lemma below s s' : fltb (sentinel (N := N) false) s = true -> fltb (sentinel false) s' = false -> fltb s s' = false.
Proof. intros H1 H2. destruct (fltb s s') eqn:H; auto. rewrite (lt_trans _ HO _ _ _ H1 H) in H2. discriminate. Qed.

Section Answers.
Context (answers : str -> vec N -> Prop) (Hfun : forall a u u', answers a u -> answers a u' -> u = u').

Lemma ranked_head addrs v a l : all_delivered E -> Ranked E cosine_similarity false answers addrs v (a :: l) ->
  In a addrs /\ exists u s, answers a u /\ similar v u s /\
    forall b u' s', In b addrs -> answers b u' -> similar v u' s' -> fltb s s' = false.
Proof.
  intros Hall (resp & rest & idx & HP & HF & HR & HB & H2). specialize (HR Hall). inversion H2 as [|i a' idx' l' Hi H2' E1 E2]; subst.
  assert (Ha : In a addrs).
  { apply (Permutation_in _ HP), in_app_iff. left. eapply nth_error_In; eauto. }
  split; [exact Ha|]. destruct (bk_rankable _ _ _ _ _ _ HB i (or_introl eq_refl)) as (s & u & Hu & Hs & Hb).
  assert (Hau : answers a u).
  { rewrite nth_error_map in Hi, Hu. destruct (nth_error resp i) as [[b x]|] eqn:Er; try discriminate. cbn in Hi, Hu. injection Hi as ->. injection Hu as ->.
    apply nth_error_In in Er. rewrite Forall_forall in HF. apply (HF _ Er). }
  exists u, s. split; [exact Hau|]. split; [split; assumption|]. intros b u' s' Hin Hb' (Hc & Hr).
  apply (Permutation_in _ (Permutation_sym HP)), in_app_iff in Hin. destruct Hin as [Hin|Hin].
  2: { rewrite Forall_forall in HR. destruct (HR _ Hin _ Hb'). }
  apply In_nth_error in Hin. destruct Hin as (j & Hj). rewrite nth_error_map in Hj. destruct (nth_error resp j) as [[b' x]|] eqn:Er; try discriminate.
  cbn in Hj. injection Hj as ->. assert (x = u').
  { apply (Hfun b); auto. rewrite Forall_forall in HF. apply (HF (b, x)). eapply nth_error_In; eauto. }
  subst x. assert (Rj : rankable cosine_similarity false v (map snd resp) j s').
  { exists u'. split; [rewrite nth_error_map, Er; reflexivity|]. split; assumption. }
  assert (Ri : rankable cosine_similarity false v (map snd resp) i s) by (exists u; auto).
  destruct (in_dec Nat.eq_dec j (i :: idx')) as [[<-|Hin]|Hn].
  - assert (s' = s) by (destruct Ri as (y & Y1 & Y2 & _), Rj as (z & Z1 & Z2 & _); congruence). subst s'. apply (lt_irrefl _ HO).
  - pose proof (bk_sorted _ _ _ _ _ _ HB) as Hs'. apply StronglySorted_inv in Hs'. destruct Hs' as (_ & Hs'). rewrite Forall_forall in Hs'.
    apply (Hs' j Hin s s' Ri Rj).
  - apply (bk_best _ _ _ _ _ _ HB i j s s'); auto. left; auto.
Qed.

Lemma ranked_some addrs v : all_delivered E -> Ranked E cosine_similarity false answers addrs v [] ->
  forall b u s, In b addrs -> answers b u -> ~ similar v u s.
Proof.
  intros Hall (resp & rest & idx & HP & HF & HR & HB & H2) b u s Hin Hb (Hc & Hr). specialize (HR Hall). inversion H2; subst.
  apply (Permutation_in _ (Permutation_sym HP)), in_app_iff in Hin. destruct Hin as [Hin|Hin].
  2: { rewrite Forall_forall in HR. destruct (HR _ Hin _ Hb). }
  apply In_nth_error in Hin. destruct Hin as (j & Hj). rewrite nth_error_map in Hj. destruct (nth_error resp j) as [[b' x]|] eqn:Er; try discriminate.
  cbn in Hj. injection Hj as ->. assert (x = u).
  { apply (Hfun b); auto. rewrite Forall_forall in HF. apply (HF (b, x)). eapply nth_error_In; eauto. }
  subst x. apply (bk_all _ _ _ _ _ _ HB) with (j := j) (s := s).
  - cbn. assert (j < length resp) by (apply nth_error_Some; congruence). lia.
  - exists u. split; [rewrite nth_error_map, Er; reflexivity|]. split; assumption.
Qed.
End Answers.

Lemma fast_fun (w : World) ns a u u' : fast_vec w ns a u -> fast_vec w ns a u' -> u = u'.
Proof. intros (m & H1 & -> & _) (m' & H2 & -> & _). congruence. Qed.
Lemma accurate_fun (w : World) ns v a u u' : accurate_vec E w ns v a u -> accurate_vec E w ns v a u' -> u = u'.
Proof. intros (m & i & idx & c & H1 & H2 & H3 & -> & _) (m' & i' & idx' & c' & K1 & K2 & K3 & -> & _). congruence. Qed.

Lemma same_length (v u : vec N) s : v <> [] -> cosine_similarity v u = Some s -> u <> [].
Proof. intros Hv H ->. apply cosine_some in H. destruct v; auto. discriminate. Qed.

(* Centroids that can be ranked, and the one that a node names. *)
Lemma named_best (w : World) ns v a u s : e_knn E = knn_cos -> v <> [] -> centroid_vec w ns a u -> similar v u s ->
  exists u0 s0, accurate_vec E w ns v a u0 /\ similar v u0 s0 /\ fltb s0 s = false.
Proof.
  intros HK Hv (m & c & Hm & Hc & ->) (Hs & Hr).
  destruct (knn_brute_bestk HO cosine_similarity false v (map c_vec (cm_cs m)) 1 ltac:(lia)) as (idx & Hi & HB).
  apply In_nth_error in Hc. destruct Hc as (j & Hj).
  assert (Rj : rankable cosine_similarity false v (map c_vec (cm_cs m)) j s).
  { exists (c_vec c). split; [rewrite nth_error_map, Hj; reflexivity|]. split; assumption. }
  destruct idx as [|i idx]; [exfalso; apply (bk_all _ _ _ _ _ _ HB) with (j := j) (s := s); [cbn; lia|exact Rj]|].
  destruct (bk_rankable _ _ _ _ _ _ HB i (or_introl eq_refl)) as (s0 & u0 & Hu & Hs0 & Hr0).
  pose proof Hu as Hu'. rewrite nth_error_map in Hu'. destruct (nth_error (cm_cs m) i) as [c0|] eqn:E0; try discriminate. cbn in Hu'. injection Hu' as <-.
  exists (c_vec c0), s0. split; [|split; [split; assumption|]].
  - exists m, i, idx, c0. rewrite HK. unfold knn_cos. split; auto. split; auto. split; auto. split; auto. eapply same_length; eauto.
  - destruct (in_dec Nat.eq_dec j (i :: idx)) as [[<-|Hin]|Hn].
    + assert (s = s0) by (destruct Rj as (z & Z1 & Z2 & _); congruence). subst. apply (lt_irrefl _ HO).
    + pose proof (bk_sorted _ _ _ _ _ _ HB) as Hs'. apply StronglySorted_inv in Hs'. destruct Hs' as (_ & Hs'). rewrite Forall_forall in Hs'.
      apply (Hs' j Hin s0 s); auto. exists (c_vec c0). auto.
    + apply (bk_best _ _ _ _ _ _ HB i j s0 s); auto; [left; auto|]. exists (c_vec c0). auto.
Qed.

Lemma num_of s : fltb (sentinel (N := N) false) s = true -> is_num s.
Proof. intros H. unfold is_num. eauto. Qed.

Lemma ranked_closest (w : World) (acc : bool) addrs ns v l : all_delivered E -> e_knn E = knn_cos -> v <> [] ->
  let vecs := (if acc then centroid_vec w ns else node_vec w ns) in
  (exists a u s, In a addrs /\ vecs a u /\ similar v u s) -> nodes_ranked E w acc addrs ns v l ->
  exists a l', l = a :: l' /\ In a addrs /\ closest vecs addrs v a.
Proof.
  intros Hall HK Hv vecs (a0 & u0 & s0 & Ha0 & Hu0 & Hs0) Hl. unfold nodes_ranked in Hl. unfold vecs in *. clear vecs. destruct acc.
  - destruct l as [|a l].
    + exfalso. destruct (named_best _ _ _ _ _ _ HK Hv Hu0 Hs0) as (u1 & s1 & K1 & K2 & _).
      eapply (ranked_some _ (accurate_fun w ns v)); eauto.
    + exists a, l. destruct (ranked_head _ (accurate_fun w ns v) _ _ _ _ Hall Hl) as (Hin & u & s & K1 & K2 & K3).
      split; auto. split; auto. exists u, s. split; [|split; [exact K2|]].
      * destruct K1 as (m & i & idx & c & X1 & X2 & X3 & -> & _). exists m, c. split; auto. split; auto. eapply nth_error_In; eauto.
      * intros b u' s' Hb Hu' Hc. destruct (fltb (sentinel false) s') eqn:Hr; [|eapply below; [apply K2|exact Hr]].
        destruct (named_best _ _ _ _ _ _ HK Hv Hu' (conj Hc Hr)) as (u1 & s1 & Y1 & Y2 & Y3).
        pose proof (K3 _ _ _ Hb Y1 Y2) as Y4. destruct (fltb s s') eqn:Hlt; auto.
        destruct (lt_cotrans _ HO _ s1 _ Hlt (num_of _ (proj2 Y2))); congruence.
  - assert (Hfast : forall b u' s', node_vec w ns b u' -> cosine_similarity v u' = Some s' -> fast_vec w ns b u').
    { intros b u' s' (m & X1 & ->) Hc. exists m. split; auto. split; auto. eapply same_length; eauto. }
    destruct l as [|a l].
    + exfalso. eapply (ranked_some _ (fast_fun w ns)); eauto. eapply Hfast; [exact Hu0|apply Hs0].
    + exists a, l. destruct (ranked_head _ (fast_fun w ns) _ _ _ _ Hall Hl) as (Hin & u & s & K1 & K2 & K3).
      split; auto. split; auto. exists u, s. split; [|split; [exact K2|]].
      * destruct K1 as (m & X1 & -> & _). exists m. auto.
      * intros b u' s' Hb Hu' Hc. destruct (fltb (sentinel false) s') eqn:Hr; [|eapply below; [apply K2|exact Hr]].
        eapply K3; eauto. split; auto.
Qed.

Lemma put_closest D addrs (o : put_opts N) (w : World) t : all_delivered E -> WorldOk w -> DimsOk D w ->
  D (po_ns o) (length (wi_vec (po_dp o))) -> e_knn E = knn_cos -> wi_vec (po_dp o) <> [] ->
  let vecs := (if po_accurate o then centroid_vec w (po_ns o) else node_vec w (po_ns o)) in
  (exists a u s, In a addrs /\ vecs a u /\ similar (wi_vec (po_dp o)) u s) ->
  wp (exec (put_http E addrs (Some o)) w) t (fun r t' => fst r = Http 200 None /\
    exists a t1, In a addrs /\ closest vecs addrs (wi_vec (po_dp o)) a /\
      exec (serve E a (QAdd (po_ns o) (to_dp (po_dp o)))) w t1 = Ok ((ABool true, snd r), t')).
Proof.
  intros Hall Hw Hd Hns HK Hv vecs Hex.
  assert (Hn0 : exists a0, In a0 addrs /\ node_at w a0 <> None).
  { destruct Hex as (a0 & u0 & s0 & Ha0 & Hu0 & Hs0). exists a0. split; auto.
    assert (Hm : exists m, manager w a0 (po_ns o) = Some m) by (unfold vecs in Hu0; destruct (po_accurate o); [destruct Hu0 as (m & c & H & _)|destruct Hu0 as (m & H & _)]; eauto).
    destruct Hm as (m & Hm). unfold manager in Hm. intros Hn. rewrite Hn in Hm. discriminate. }
  eapply wp_mono; [apply (put_reachable E HE HO D); eauto|]. intros [h w'] t' (Hh & l & t1 & a & Hl & Ha & He). cbn [fst snd] in *. split; auto.
  destruct (ranked_closest _ _ _ _ _ _ Hall HK Hv Hex Hl) as (a' & l' & -> & Hin & Hc). subst a'. exists a, t1. auto.
Qed.

Lemma query_closest D addrs (o : query_opts N) (w : World) t : all_delivered E -> WorldOk w -> DimsOk D w -> (0 <= qo_n o)%Z ->
  (forall a, Forall carries (data_at w a (qo_ns o))) -> e_knn E = knn_cos -> qo_vec o <> [] ->
  let vecs := (if qo_accurate o then centroid_vec w (qo_ns o) else node_vec w (qo_ns o)) in
  (exists a u s, In a addrs /\ vecs a u /\ similar (qo_vec o) u s) ->
  wp (exec (query_http E addrs (Some o)) w) t (fun r t' =>
    exists a t1 t2 w2 x rest, In a addrs /\ closest vecs addrs (qo_vec o) a /\
      exec (serve E a (QKnnLookup (qo_ns o) (qo_vec o) (qo_n o) (qo_drain o))) w t1 = Ok ((x, w2), t2) /\
      fst (fst r) = Http 200 (Some (of_dps (found_in x ++ rest))) /\
      ((qo_n o <= Z.of_nat (length (found_in x)))%Z -> rest = [] /\ snd r = w2)).
Proof.
  intros Hall Hw Hd Hn Hc HK Hv vecs Hex. eapply wp_mono; [apply (query_answer E HE HO D); eauto using all_arrive|].
  intros [[h dr] w'] t' (found & Hh & (l & t1 & Hl & _ & Hg) & _). cbn [fst snd] in *.
  destruct (ranked_closest _ _ _ _ _ _ Hall HK Hv Hex Hl) as (a & l' & -> & Hin & Hcl).
  assert (Hnode : node_at w a <> None).
  { destruct Hcl as (u & s & Hu & _). assert (Hm : exists m, manager w a (qo_ns o) = Some m) by (unfold vecs in Hu; destruct (qo_accurate o); [destruct Hu as (m & c & H & _)|destruct Hu as (m & H & _)]; eauto).
    destruct Hm as (m & Hm). unfold manager in Hm. intros X. rewrite X in Hm. discriminate. }
  assert (Hask : forall ds w2 t2, asks E (qo_ns o) (qo_vec o) (qo_drain o) a (qo_n o) w t1 ds w2 t2 ->
    exists x, exec (serve E a (QKnnLookup (qo_ns o) (qo_vec o) (qo_n o) (qo_drain o))) w (S t1) = Ok ((x, w2), t2) /\ ds = found_in x).
  { intros ds w2 t2 [(_ & H)|(H & _)]; auto. exfalso. apply H. split; auto. }
  inversion Hg; subst.
  - match goal with H : asks _ _ _ _ _ _ _ _ _ _ _ |- _ => destruct (Hask _ _ _ H) as (x & Hx & ->) end. exists a, (S t1), t', w', x, []. rewrite app_nil_r. auto 10.
  - match goal with H : asks _ _ _ _ _ _ _ _ _ _ _ |- _ => destruct (Hask _ _ _ H) as (x & Hx & ->) end. do 6 eexists. split; [exact Hin|]. split; [exact Hcl|]. split; [exact Hx|]. split; [reflexivity|]. intros X. lia.
Qed.

Lemma closest_named (w : World) ns v a addrs : e_knn E = knn_cos -> v <> [] -> closest (centroid_vec w ns) addrs v a ->
  exists u s, accurate_vec E w ns v a u /\ similar v u s /\
    forall b u' s', In b addrs -> centroid_vec w ns b u' -> cosine_similarity v u' = Some s' -> fltb s s' = false.
Proof.
  intros HK Hv (u & s & H1 & H2 & H3). destruct (named_best _ _ _ _ _ _ HK Hv H1 H2) as (u0 & s0 & K1 & K2 & K3).
  exists u0, s0. split; auto. split; auto. intros b u' s' Hb Hu Hs. destruct (fltb s0 s') eqn:Hlt; auto.
  pose proof (H3 b u' s' Hb Hu Hs). destruct (lt_cotrans _ HO _ s _ Hlt (num_of _ (proj2 H2))); congruence.
Qed.

(* An addition at a node with a closest centroid. *)
Lemma add_lands D addrs ns d a (w : World) t1 x w' t' : WorldOk w -> DimsOk D w -> e_knn E = knn_cos -> dp_vec d <> [] ->
  never_expired E (data_at w a ns ++ [d]) -> closest (centroid_vec w ns) addrs (dp_vec d) a ->
  exec (serve E a (QAdd ns d)) w t1 = Ok ((x, w'), t') ->
  exists i c s, similar (dp_vec d) (c_vec c) s /\
    (forall b u' s', In b addrs -> centroid_vec w ns b u' -> cosine_similarity (dp_vec d) u' = Some s' -> fltb s s' = false) /\
    lands w w' ns a i c d.
Proof.
  intros Hw Hd HK Hv Hlive Hc He.
  destruct (closest_named _ _ _ _ _ HK Hv Hc) as (u & s & (m & i & idx & c & Hm & Hk & Hi & -> & _) & Hs & Hbest).
  exists i, c, s. split; auto. split; auto.
  rewrite (add_known E a _ _ w m t1 Hw Hm) in He. destruct (manager_dim D w a _ m Hw Hd Hm) as (n & Hn).
  assert (Hnd : forall k, expired_at (e_now E k) d = false) by (intros k; apply (Hlive k), in_app_iff; right; left; auto).
  assert (Hne : cm_cs m <> []) by (intros X; rewrite X in Hi; destruct i; discriminate).
  pose proof (wp_conj _ _ _ _ (cm_add_accepts E HE n m d t1 Hn) (cm_add_where E HE n m d t1 Hn Hne)) as H. unfold wp in H.
  destruct (cm_add E m d t1) as [[[ok m'] t2]| |]; try discriminate. cbn [fst snd] in *. destruct H as (H1 & H2).
  assert (ok = true) by (apply H1; split; auto; right; split; eauto). subst ok.
  injection He as <- <- <-. destruct (H2 eq_refl) as (i' & idx' & c0 & K1 & K2 & c' & extra & K3 & K4).
  assert (i' = i) by congruence. subst i'. assert (c0 = c) by congruence. subst c0. clear idx' K1.
  assert (Hmn : manager w a ns <> None) by congruence.
  exists m, m', c', extra. split; auto. split; [apply put_at; auto|]. split; [apply put_only; auto|]. split; auto. split; auto.
  destruct K4 as [(-> & K4 & _)|(fresh & -> & _ & _ & K4)].
  - split; [cbn; lia|]. rewrite K4. cbn. rewrite app_nil_r. auto.
  - split; [cbn; lia|]. destruct K4 as (K4 & K5).
    { intros k y Hy. apply (Hlive k). apply in_app_iff in Hy. apply in_app_iff. destruct Hy as [Hy|Hy]; auto. left.
      unfold data_at, centroids_at. rewrite Hm. unfold stored. apply in_concat. exists (c_dps c). split; auto. apply in_map. eapply nth_error_In; eauto. }
    unfold stored. cbn [map concat]. rewrite app_nil_r, K4, K5.
    rewrite <- (firstn_skipn (Z.to_nat (cm_thresh m / 2)) (c_dps c ++ [d])) at 1. apply Permutation_app_comm.
Qed.

Lemma put_lands D addrs (o : put_opts N) (w : World) t : all_delivered E -> WorldOk w -> DimsOk D w ->
  D (po_ns o) (length (wi_vec (po_dp o))) -> e_knn E = knn_cos -> wi_vec (po_dp o) <> [] -> po_accurate o = true ->
  (exists a u s, In a addrs /\ centroid_vec w (po_ns o) a u /\ similar (wi_vec (po_dp o)) u s) ->
  (forall a, In a addrs -> never_expired E (data_at w a (po_ns o) ++ [to_dp (po_dp o)])) ->
  wp (exec (put_http E addrs (Some o)) w) t (fun r t' => fst r = Http 200 None /\
    exists a i c s, In a addrs /\ similar (wi_vec (po_dp o)) (c_vec c) s /\
      (forall b u' s', In b addrs -> centroid_vec w (po_ns o) b u' -> cosine_similarity (wi_vec (po_dp o)) u' = Some s' -> fltb s s' = false) /\
      lands w (snd r) (po_ns o) a i c (to_dp (po_dp o))).
Proof.
  intros Hall Hw Hd Hns HK Hv Hacc Hex Hlive. pose proof (put_closest D addrs o w t Hall Hw Hd Hns HK Hv) as H.
  rewrite Hacc in H. eapply wp_mono; [apply H, Hex|]. clear H. intros [h w'] t' (-> & a & t1 & Ha & Hc & He). cbn [fst snd] in *. split; auto.
  destruct (add_lands D addrs (po_ns o) (to_dp (po_dp o)) a w t1 _ w' t' Hw Hd HK Hv (Hlive a Ha) Hc He) as (i & c & s & K1 & K2 & K3).
  exists a, i, c, s. auto.
Qed.
End Closest.
