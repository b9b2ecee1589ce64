(* StealCentroid and the client's NearestCentroids, running alone. *)
From Verif Require Import Base Num MathUtils Knn Env Centroid CManager DataSpec MgrSpec Wp DataFacts NumFacts
  CentroidProofs DistributeProofs CMProofs CMProofs2 CMProofs3 HistoryProofs Proc Owns Server ServerSpec ServerFacts
  SeqProofs SeqProofs2.

Section Steal.
Context {N : Num} (E : Env N) (HE : EnvOk E).
Notation DP := (DataPoint N).
Notation Cen := (Centroid N).
Notation World := (World N).

Lemma post_nearest_one n (c : Cen) t : cwf n c ->
  wp (post_nearest E [c]) t (fun o t' =>
    (c_dps c = [] /\ o = Some [] /\ t' = t) \/
    (c_dps c <> [] /\ exists c', o = Some [c'] /\ cwf n c' /\ t' = t + length (c_dps c) /\ c_dps c' = live_from E t (c_dps c))).
Proof.
  intros Hc. cbn [post_nearest drop_empty]. unfold c_len. destruct (c_dps c) as [|d ds] eqn:Hd; cbn [length Nat.eqb].
  - apply wp_bind, wp_ret, wp_ret. left; auto.
  - apply wp_bind. cbn [reinit]. apply wp_bind. eapply wp_index; [rewrite Hd; reflexivity|]. apply wp_bind.
    eapply wp_mono; [apply (cwf_move E n (MkC (dp_vec d) (c_dps c)))|].
    { destruct Hc as (_ & Hc). rewrite Hd in Hc. split; cbn [c_vec c_dps]; [inversion Hc; auto|rewrite Hd; auto]. }
    intros [ok c'] t' (H1 & H2 & ->). cbn [snd c_dps] in *. rewrite Hd in H2. apply wp_bind, wp_ret, wp_ret, wp_ret. right.
    split; [discriminate|]. exists c'. rewrite Hd. splits; auto; try apply H1.
Qed.

Lemma wp_exec_bind {R S} (p : proc' N R) (k : R -> proc' N S) (w : World) t Q :
  wp (exec p w) t (fun r t' => wp (exec (k (fst r)) (snd r)) t' Q) -> wp (exec (pbind p k) w) t Q.
Proof.
  unfold wp. rewrite exec_bind. destruct (exec p w t) as [[[r w'] t']| |]; auto.
Qed.
Lemma wp_exec_ret {R} (r : R) (w : World) t (Q : R * World -> nat -> Prop) : Q (r, w) t -> wp (exec (Ret r : proc' N R) w) t Q.
Proof. auto. Qed.
Lemma wp_exec_local {A} (m : M A) (w : World) t Q : wp m t (fun a t' => Q (a, w) t') -> wp (exec (local m : proc' N A) w) t Q.
Proof. unfold wp. cbn [local exec]. unfold bind. destruct (m t) as [[a t']| |]; auto. Qed.
Lemma wp_exec_access {A} a ns (f : CM N -> M (A * CM N)) g (w : World) m t Q : WorldOk w -> manager w a ns = Some m ->
  wp (f m) t (fun r t' => Q (Some (fst r), put_mgr w a ns (snd r) (g (fst r))) t') -> wp (exec (access_g a ns f g) w) t Q.
Proof.
  intros Hw Hm. unfold wp. rewrite exec_access_g by auto. rewrite Hm. destruct (f m t) as [[[x m'] t']| |]; auto.
Qed.

Lemma nearest_one n from ns v (w : World) t mr : WorldOk w -> manager w from ns = Some mr -> DimOk n mr ->
  wp (exec (c_nearest E from ns v 1 true) w) t (fun r t' =>
    let o := fst (fst r) in let ok := snd (fst r) in
    exists mr', snd r = put_mgr w from ns mr' [] /\ DimOk n mr' /\ t <= t' /\
      (node_at w from <> None -> e_fate E t = Delivered -> ok = true) /\
      ((o = None /\ (answers_arrive E -> mr' = mr) /\ length (cm_cs mr') <= length (cm_cs mr) /\
          (ok = true -> mr' = mr /\ (finds_some E n -> length v = n -> cm_cs mr = []))) \/
       exists c, Permutation (cm_cs mr) (c :: cm_cs mr') /\ ok = true /\
         (c_dps c = [] /\ o = Some [] \/
          c_dps c <> [] /\ exists c' k, o = Some [c'] /\ cwf n c' /\ t <= k /\ t' = k + length (c_dps c) /\
            c_dps c' = live_from E k (c_dps c)))).
Proof.
  intros Hw Hm Hd.
  (* what the handler does *)
  assert (Hh : forall t, wp (exec (h_nearest E from ns v 1 true) w) t (fun r t' => exists mr' cs,
    fst r = Some cs /\ snd r = put_mgr w from ns mr' [] /\ DimOk n mr' /\ t' = t /\
    ((cs = [] /\ mr' = mr /\ (finds_some E n -> length v = n -> cm_cs mr = [])) \/
     exists c, cs = [c] /\ cwf n c /\ Permutation (cm_cs mr) (c :: cm_cs mr')))).
  { clear t. intros t. unfold h_nearest, access. apply (wp_exec_access _ _ _ _ _ mr); auto. apply wp_bind.
    eapply wp_mono; [apply (cm_nearest_spec E HE cwf cwf_id n mr v 1 true t); [lia|auto]|].
    intros [o m'] t' (-> & Hm' & _ & idx & He & _ & Hf & Hl & Ho). apply wp_ret. cbn [fst snd] in *.
    exists m'. destruct o as [cs|].
    - destruct Ho as (Hne & -> & _ & H2). destruct (H2 eq_refl) as (_ & Hp). destruct idx as [|i [|j idx]]; [congruence| |cbn [length] in Hl; lia].
      inversion Hf as [|? ? Hi _]; subst. destruct (nth_error_lt _ i Hi) as (c & Hc).
      assert (Hpk : pick [i] (cm_cs mr) = [c]) by (unfold pick; cbn [map concat flat_map]; rewrite Hc; auto). rewrite Hpk in *.
      exists [c]. splits; auto; try apply Hm'. right. exists c. splits; auto; try (apply (cs_length_P cwf n mr i c Hd Hc)).
      rewrite Hp. apply Permutation_sym, Permutation_cons_append.
    - destruct Ho as (-> & ->). exists []. splits; auto; try apply Hm'. left. splits; auto.
      intros Hfs Hv. destruct (cm_cs mr) as [|c0 cs0] eqn:Hcs; auto. exfalso.
      destruct (Hfs v (map c_vec (cm_cs mr))) as (i & idx & Hi); auto.
      + rewrite Hcs. discriminate.
      + rewrite Forall_map. destruct Hd as (_ & Hd). eapply Forall_impl; [|exact Hd]. intros c (H1 & _). auto.
      + unfold cm_vecs in He. congruence. }
  unfold c_nearest. apply wp_exec_bind. unfold wp at 1. rewrite exec_rpc.
  destruct (node_at w from) as [nd|] eqn:Hn.
  2:{ cbn [fst snd join]. apply wp_exec_bind, wp_exec_local. cbn [post_nearest]. apply wp_ret. cbn [fst snd]. apply wp_exec_ret. cbn [fst snd].
      exists mr. rewrite (put_same w from ns mr); auto. splits; auto; try apply Hd; try congruence.
      left. splits; auto; discriminate. }
  specialize (Hh (S t)). destruct (e_fate E t) eqn:Hf.
  - unfold wp in Hh. destruct (exec (h_nearest E from ns v 1 true) w (S t)) as [[[o1 w1] t1]| |]; try contradiction. cbn [fst snd] in Hh.
    destruct Hh as (mr' & cs & Ho & -> & Hd' & -> & Hc). cbn [fst snd] in *. subst o1. cbn [join].
    apply wp_exec_bind, wp_exec_local. destruct Hc as [(-> & -> & Hfs)|(c & -> & Hcw & Hp)].
    + cbn [post_nearest]. apply wp_ret. apply wp_exec_ret. cbn [fst snd]. exists mr. splits; auto; try apply Hd. left. splits; auto.
    + eapply wp_mono; [apply (post_nearest_one n c (S t) Hcw)|]. intros o t' Ho. apply wp_exec_ret. cbn [fst snd].
      exists mr'. splits; auto; try apply Hd'.
      * destruct Ho as [(_ & _ & ->)|(_ & c' & _ & _ & -> & _)]; lia.
      * right. exists c. splits; auto. destruct Ho as [(H1 & -> & _)|(H1 & c' & -> & H3 & -> & H5)]; [left; auto|right].
        split; auto. exists c', (S t). splits; auto; apply H3.
  - cbn [fst snd join]. apply wp_exec_bind, wp_exec_local. cbn [post_nearest]. apply wp_ret. apply wp_exec_ret. cbn [fst snd].
    exists mr. rewrite (put_same w from ns mr); auto. splits; auto; try apply Hd; try discriminate.
    left. splits; auto; discriminate.
  - unfold wp in Hh. destruct (exec (h_nearest E from ns v 1 true) w (S t)) as [[[o1 w1] t1]| |]; try contradiction. cbn [fst snd] in Hh.
    destruct Hh as (mr' & cs & Ho & -> & Hd' & -> & Hc). cbn [fst snd join].
    apply wp_exec_bind, wp_exec_local. cbn [post_nearest]. apply wp_ret. apply wp_exec_ret. cbn [fst snd].
    exists mr'. splits; auto; try apply Hd'; try discriminate. left. splits; auto; try discriminate.
    + intros Ha. exfalso. apply (Ha t); auto.
    + destruct Hc as [(_ & -> & _)|(c & _ & _ & Hp)]; auto. apply Permutation_length in Hp. cbn [length] in Hp. lia.
Qed.

Lemma nearest_none from ns v (w : World) t : WorldOk w -> manager w from ns = None ->
  exists t', t <= t' /\ exec (c_nearest E from ns v 1 true) w t = Ok (((None, false), w), t').
Proof.
  intros Hw Hm. assert (Hh : forall t, exec (h_nearest E from ns v 1 true) w t = Ok ((None, w), t)).
  { intros t'. unfold h_nearest, access. rewrite exec_access_g by auto. rewrite Hm. auto. }
  unfold c_nearest. rewrite exec_bind, exec_rpc. destruct (node_at w from); [|exists (S t); split; auto].
  destruct (e_fate E t); rewrite ?Hh; exists (S t); split; auto.
Qed.

Lemma data_put (w : World) a ns m x : WorldOk w -> manager w a ns <> None -> centroids_at (put_mgr w a ns m x) a ns = cm_cs m.
Proof. intros H1 H2. unfold centroids_at. rewrite put_at; auto. Qed.
Lemma node_put (w : World) a ns m x b : node_at w b <> None -> node_at (put_mgr w a ns m x) b <> None.
Proof.
  intros H. pose proof (put_mgr_node w a ns m x b) as K. destruct (node_at w b); [|congruence].
  destruct (node_at (put_mgr w a ns m x) b); [discriminate|discriminate].
Qed.

(* What a run of the loop has done so far. *)
Definition loop_post (n : nat) (a from ns : str) (limit : Z) (w : World) (m : CM N) (t total : nat)
  (r : (nat * bool) * World) (t' : nat) : Prop :=
  exists parts m', t <= t' /\ WorldOk (snd r) /\ fst (fst r) = total + length (concat parts) /\
   (forall k, k < length parts -> (Z.of_nat (total + length (concat (firstn k parts))) < limit)%Z) /\
   manager (snd r) a ns = Some m' /\ DimOk n m' /\ stored (cm_cs m') = stored (cm_cs m) ++ concat parts /\
   (forall b ns2, (b, ns2) <> (a, ns) -> (b, ns2) <> (from, ns) -> manager (snd r) b ns2 = manager w b ns2) /\
   (answers_arrive E -> conserves E t t' (data_at w from ns) (data_at (snd r) from ns ++ concat parts) /\
      exists e, e <= 1 /\ length (centroids_at w from ns) = length (centroids_at (snd r) from ns) + length parts + e /\
        (snd (fst r) = true -> (Z.of_nat (fst (fst r)) < limit)%Z -> finds_some E n -> centroids_at (snd r) from ns = [] \/ e = 1)) /\
   (node_at w from <> None -> manager w from ns <> None -> (forall k, e_fate E k = Delivered) -> snd (fst r) = true).

Lemma loop_stop n a from ns limit (w : World) m t total ok t' :
  t <= t' -> WorldOk w -> manager w a ns = Some m -> DimOk n m ->
  (answers_arrive E -> ok = true -> (Z.of_nat total < limit)%Z -> finds_some E n -> centroids_at w from ns = []) ->
  (node_at w from <> None -> manager w from ns <> None -> (forall k, e_fate E k = Delivered) -> ok = true) ->
  loop_post n a from ns limit w m t total ((total, ok), w) t'.
Proof.
  intros Ht Hw Hm Hd H1 H2. exists [], m. cbn [fst snd concat length]. splits; auto; try apply Hd.
  - intros k Hk. lia.
  - rewrite app_nil_r; auto.
  - intros Ha. split; [rewrite app_nil_r; apply conserves_refl|]. exists 0. splits; auto; try lia.
Qed.

Lemma steal_loop_spec n a from ns v limit : a <> from -> length v = n -> forall fuel (w : World) t total m,
  WorldOk w -> manager w a ns = Some m -> DimOk n m -> (forall mr, manager w from ns = Some mr -> DimOk n mr) ->
  length (centroids_at w from ns) < fuel ->
  wp (exec (steal_loop E fuel a from ns v limit total) w) t (loop_post n a from ns limit w m t total).
Proof.
  intros Hne Hv. assert (Hne1 : (a, ns) <> (from, ns)) by congruence. assert (Hne2 : (from, ns) <> (a, ns)) by congruence.
  induction fuel as [|fuel IH]; intros w t total m Hw Hm Hd Hr Hf; [lia|]. cbn [steal_loop].
  destruct (Z.ltb_spec (Z.of_nat total) limit) as [Hlim|Hlim].
  2:{ apply wp_exec_ret. apply loop_stop; auto. intros. lia. }
  apply wp_exec_bind. destruct (manager w from ns) as [mr|] eqn:Hmr.
  2:{ destruct (nearest_none from ns v w t Hw Hmr) as (t' & Ht & He). unfold wp at 1. rewrite He. cbn [fst snd].
      apply wp_exec_ret. apply loop_stop; auto; intros; congruence. }
  specialize (Hr mr eq_refl).
  eapply wp_mono; [apply (nearest_one n from ns v w t mr Hw Hmr Hr)|]. intros [[o ok] w1] t1 H. cbn [fst snd] in H.
  destruct H as (mr' & -> & Hd' & Ht & Hok & Ho). cbn [fst snd].
  set (w1 := put_mgr w from ns mr' []) in *.
  assert (Hmrn : manager w from ns <> None) by congruence.
  assert (Hw1 : WorldOk w1) by (apply put_mgr_ok; auto).
  assert (Hm1 : manager w1 a ns = Some m) by (unfold w1; rewrite (put_only w from ns); auto).
  assert (Hr1 : manager w1 from ns = Some mr') by (unfold w1; apply put_at; auto).
  assert (Hc1 : centroids_at w1 from ns = cm_cs mr') by (unfold centroids_at; rewrite Hr1; auto).
  assert (Hc0 : centroids_at w from ns = cm_cs mr) by (unfold centroids_at; rewrite Hmr; auto).
  assert (Hoth : forall b ns2, (b, ns2) <> (a, ns) -> (b, ns2) <> (from, ns) -> manager w1 b ns2 = manager w b ns2).
  { intros b ns2 _ Hb. unfold w1. apply (put_only w from ns); auto. }
  destruct Ho as [(-> & Ha & Hlen & Hfs)|(c & Hp & -> & Hc)].
  - (* nothing heard *)
    apply wp_exec_ret. exists [], m. cbn [fst snd concat length]. splits; auto; try apply Hd.
    + intros k Hk. lia.
    + rewrite app_nil_r; auto.
    + intros Haa. split; [rewrite app_nil_r; unfold data_at; rewrite Hc1, Hc0, (Ha Haa); apply conserves_refl|].
      exists 0. rewrite Hc1, Hc0, (Ha Haa). splits; auto; try lia.
      intros Hk _ Hx. left. apply Hfs; auto.
  - destruct Hc as [(Hce & ->)|(Hce & c' & k & -> & Hcw & Hk1 & -> & Hk3)].
    + (* an empty centroid *)
      apply wp_exec_ret. exists [], m. cbn [fst snd concat length]. splits; auto; try apply Hd.
      * intros k Hk. lia.
      * rewrite app_nil_r; auto.
      * intros _. split.
        { rewrite app_nil_r. apply conserves_perm. unfold data_at. rewrite Hc1, Hc0, (stored_perm _ _ Hp), stored_cons, Hce. auto. }
        exists 1. rewrite Hc1, Hc0, (Permutation_length Hp). cbn [length]. splits; auto; try lia.
    + apply wp_exec_bind. unfold access.
      apply (wp_exec_access _ _ _ _ _ m); auto. apply wp_ret. cbn [fst snd].
      set (m2 := MkCM (cm_vec m) (cm_cs m ++ [c']) (cm_thresh m)). set (w2 := put_mgr w1 a ns m2 []).
      cbn [pbind]. assert (Hm1n : manager w1 a ns <> None) by congruence.
      assert (Hw2 : WorldOk w2) by (apply put_mgr_ok; auto).
      assert (Hm2 : manager w2 a ns = Some m2) by (unfold w2; apply put_at; auto).
      assert (Hr2 : manager w2 from ns = Some mr') by (unfold w2; rewrite (put_only w1 a ns); auto).
      assert (Hd2 : DimOk n m2).
      { destruct Hd as (D1 & D2). split; auto. cbn [m2 cm_cs]. apply Forall_app. split; auto. }
      eapply wp_mono; [apply (IH w2 (k + length (c_dps c)) (total + c_len c') m2 Hw2 Hm2 Hd2)|].
      { intros mr2 H2. rewrite Hr2 in H2. injection H2 as <-. auto. }
      { unfold centroids_at in *. rewrite Hr2. rewrite Hmr in Hf. rewrite (Permutation_length Hp) in Hf. cbn [length] in Hf. lia. }
      intros r t' (parts & m' & L1 & L2 & L3 & L4 & L5 & L6 & L7 & L8 & L9 & L10).
      assert (Hcl : c_len c' = length (c_dps c')) by reflexivity.
      exists (c_dps c' :: parts), m'. cbn [concat length]. rewrite app_length. splits; auto; try apply L6; try lia.
      * intros j Hj. destruct j as [|j]; cbn [firstn concat]; [cbn [length]; lia|]. rewrite app_length.
        specialize (L4 j ltac:(lia)). lia.
      * rewrite L7. cbn [m2 cm_cs]. rewrite stored_app, stored_cons, <- app_assoc. unfold stored at 2. cbn [map concat].
        rewrite app_nil_r. auto.
      * intros b ns2 Hb1 Hb2. rewrite L8 by auto. unfold w2. rewrite (put_only w1 a ns) by auto. auto.
      * intros Ha. destruct (L9 Ha) as (C1 & e & C2 & C3 & C4). split.
        -- assert (Hdw : data_at w2 from ns = stored (cm_cs mr')) by (unfold data_at, centroids_at; rewrite Hr2; auto).
           rewrite Hdw in C1. unfold data_at at 1. rewrite Hc0.
           eapply conserves_seq with (t' := k + length (c_dps c)) (b := stored (cm_cs mr') ++ c_dps c'); [lia|auto| |].
           ++ eapply conserves_widen with (t := k); [auto|reflexivity|].
              eapply conserves_proper; [| |apply (conserves_frame_l E _ _ _ _ (stored (cm_cs mr')) (conserves_live E k (c_dps c)))].
              ** rewrite (stored_perm _ _ Hp), stored_cons. perm.
              ** rewrite Hk3. auto.
           ++ eapply conserves_proper; [| |apply (conserves_frame E _ _ _ _ (c_dps c') C1)]; perm.
        -- exists e. rewrite Hc0, (Permutation_length Hp). assert (Hcw2 : centroids_at w2 from ns = cm_cs mr') by (unfold centroids_at; rewrite Hr2; auto).
           rewrite Hcw2 in C3. cbn [length]. splits; auto; try lia.
      * intros Hn1 Hn2 Hal. apply L10; auto; [|congruence]. unfold w2, w1. apply node_put, node_put; auto.
Qed.

Lemma steal_spec n fuel a from ns limit (w : World) t : WorldOk w -> a <> from -> node_at w a <> None ->
  (forall b m, b = a \/ b = from -> manager w b ns = Some m -> DimOk n m) ->
  length (centroids_at w from ns) < fuel ->
  wp (exec (serve E a (QSteal fuel from ns limit)) w) t (fun r t' => exists parts total ok k,
    let w' := snd r in
    fst r = ASteal total ok /\ total = length (concat parts) /\ t <= k <= t' /\
    (forall i, i < length parts -> (Z.of_nat (length (concat (firstn i parts))) < limit)%Z) /\
    data_at w' a ns = live_from E k (data_at w a ns ++ concat parts) /\
    (forall b ns2, (b, ns2) <> (a, ns) -> (b, ns2) <> (from, ns) -> manager w' b ns2 = manager w b ns2) /\
    (answers_arrive E -> conserves E t t' (data_at w from ns) (data_at w' from ns ++ concat parts) /\
      exists e, e <= 1 /\ length (centroids_at w from ns) = length (centroids_at w' from ns) + length parts + e /\
        (ok = true -> (Z.of_nat total < limit)%Z -> finds_some E n -> centroids_at w' from ns = [] \/ e = 1)) /\
    (node_at w from <> None -> manager w from ns <> None -> 0 < n -> (forall k, e_fate E k = Delivered) -> ok = true)).
Proof.
  intros Hw Hne Hna Hd Hf. assert (Hne1 : (a, ns) <> (from, ns)) by congruence. assert (Hne2 : (from, ns) <> (a, ns)) by congruence.
  (* the rest once the local namespace exists *)
  assert (Hrest : forall v w1 t1 m1, WorldOk w1 -> length v = n -> manager w1 a ns = Some m1 -> DimOk n m1 ->
    stored (cm_cs m1) = data_at w a ns -> t <= t1 -> (forall b, node_at w b <> None -> node_at w1 b <> None) ->
    (forall b ns2, (b, ns2) <> (a, ns) -> manager w1 b ns2 = manager w b ns2) ->
    wp (exec (call ' (total, ok) <- steal_loop E fuel a from ns v limit 0;
              call _ <- access a ns (fun m => cm_move_vector E m); Ret (total, ok)) w1) t1
      (fun r t' => exists parts k, let w' := snd r in let total := fst (fst r) in let ok := snd (fst r) in
        total = length (concat parts) /\ t <= k <= t' /\
        (forall i, i < length parts -> (Z.of_nat (length (concat (firstn i parts))) < limit)%Z) /\
        data_at w' a ns = live_from E k (data_at w a ns ++ concat parts) /\
        (forall b ns2, (b, ns2) <> (a, ns) -> (b, ns2) <> (from, ns) -> manager w' b ns2 = manager w b ns2) /\
        (answers_arrive E -> conserves E t t' (data_at w from ns) (data_at w' from ns ++ concat parts) /\
          exists e, e <= 1 /\ length (centroids_at w from ns) = length (centroids_at w' from ns) + length parts + e /\
            (ok = true -> (Z.of_nat total < limit)%Z -> finds_some E n -> centroids_at w' from ns = [] \/ e = 1)) /\
        (node_at w from <> None -> manager w from ns <> None -> (forall k, e_fate E k = Delivered) -> ok = true))).
  { intros v w1 t1 m1 Hw1 Hv Hm1 Hd1 Hs1 Ht1 Hn1 Ho1.
    assert (Hfr : manager w1 from ns = manager w from ns) by (apply Ho1; auto).
    assert (Hcf : centroids_at w1 from ns = centroids_at w from ns) by (unfold centroids_at; rewrite Hfr; auto).
    assert (Hdf : data_at w1 from ns = data_at w from ns) by (unfold data_at; rewrite Hcf; auto).
    apply wp_exec_bind. eapply wp_mono.
    { apply (steal_loop_spec n a from ns v limit Hne Hv fuel w1 t1 0 m1); auto.
      - intros mr Hmr. apply (Hd from); auto. congruence.
      - rewrite Hcf; auto. }
    intros [[total ok] w2] t2 (parts & m2 & L1 & L2 & L3 & L4 & L5 & L6 & L7 & L8 & L9 & L10). cbn [fst snd] in *.
    apply wp_exec_bind. unfold access. apply (wp_exec_access _ _ _ _ _ m2); auto.
    eapply wp_mono; [apply (cm_move_vector_spec E cwf cwf_id (cwf_move E) n m2 t2 L6)|].
    intros [b m3] t3 (-> & M1 & M2 & M3 & M4 & _). cbn [fst snd] in *. apply wp_exec_ret. cbn [fst snd].
    assert (Hm2n : manager w2 a ns <> None) by congruence.
    assert (Hcf3 : centroids_at (put_mgr w2 a ns m3 []) from ns = centroids_at w2 from ns).
    { unfold centroids_at. rewrite (put_only w2 a ns); auto. }
    exists parts, t2. splits; auto; try lia.
    - unfold data_at at 1. rewrite data_put by auto. rewrite M4. f_equal. rewrite L7, Hs1. auto.
    - intros b0 ns2 Hb1 Hb2. rewrite (put_only w2 a ns) by auto. rewrite L8 by auto. auto.
    - intros Ha. destruct (L9 Ha) as (C1 & e & C2 & C3 & C4). unfold data_at in *. rewrite Hcf3, <- Hcf. split.
      + eapply conserves_widen; [| |exact C1]; lia.
      + exists e. splits; auto.
    - intros H1 H2 H3. apply L10; auto. congruence. }
  cbn [serve]. apply wp_exec_bind. unfold h_steal.
  assert (Hend : forall p t1 w1, wp (exec p w1) t1 (fun r t' => exists parts k, let w' := snd r in let total := fst (fst r) in let ok := snd (fst r) in
        total = length (concat parts) /\ t <= k <= t' /\
        (forall i, i < length parts -> (Z.of_nat (length (concat (firstn i parts))) < limit)%Z) /\
        data_at w' a ns = live_from E k (data_at w a ns ++ concat parts) /\
        (forall b ns2, (b, ns2) <> (a, ns) -> (b, ns2) <> (from, ns) -> manager w' b ns2 = manager w b ns2) /\
        (answers_arrive E -> conserves E t t' (data_at w from ns) (data_at w' from ns ++ concat parts) /\
          exists e, e <= 1 /\ length (centroids_at w from ns) = length (centroids_at w' from ns) + length parts + e /\
            (ok = true -> (Z.of_nat total < limit)%Z -> finds_some E n -> centroids_at w' from ns = [] \/ e = 1)) /\
        (node_at w from <> None -> manager w from ns <> None -> 0 < n -> (forall k, e_fate E k = Delivered) -> ok = true)) ->
    wp (exec (p : proc' N (nat * bool)) w1) t1 (fun r t' => wp (exec ((fun x : nat * bool => let (n0, ok) := x in Ret (ASteal n0 ok) : proc' N (ans N)) (fst r)) (snd r)) t' (fun r t' => exists parts total ok k,
    let w' := snd r in
    fst r = ASteal total ok /\ total = length (concat parts) /\ t <= k <= t' /\
    (forall i, i < length parts -> (Z.of_nat (length (concat (firstn i parts))) < limit)%Z) /\
    data_at w' a ns = live_from E k (data_at w a ns ++ concat parts) /\
    (forall b ns2, (b, ns2) <> (a, ns) -> (b, ns2) <> (from, ns) -> manager w' b ns2 = manager w b ns2) /\
    (answers_arrive E -> conserves E t t' (data_at w from ns) (data_at w' from ns ++ concat parts) /\
      exists e, e <= 1 /\ length (centroids_at w from ns) = length (centroids_at w' from ns) + length parts + e /\
        (ok = true -> (Z.of_nat total < limit)%Z -> finds_some E n -> centroids_at w' from ns = [] \/ e = 1)) /\
    (node_at w from <> None -> manager w from ns <> None -> 0 < n -> (forall k, e_fate E k = Delivered) -> ok = true)))).
  { intros p t1 w1 H. eapply wp_mono; [exact H|]. intros [[total ok] w2] t2 (parts & k & H1). cbn [fst snd] in *.
    apply wp_exec_ret. cbn [fst snd]. exists parts, total, ok, k. split; auto. }
  apply Hend. clear Hend. apply wp_exec_bind. destruct (manager w a ns) as [m|] eqn:Hm.
  - unfold h_vec, access. apply (wp_exec_access _ _ _ _ _ m); auto. apply wp_ret. cbn [fst snd].
    rewrite put_same by auto. cbn [pbind].
    assert (Hdm : DimOk n m) by (apply (Hd a); auto).
    eapply wp_mono; [apply (Hrest (cm_vec m) w t m); auto|].
    + apply Hdm.
    + unfold data_at, centroids_at. rewrite Hm; auto.
    + intros r t' (parts & k & H1 & H2 & H3 & H4 & H5 & H6 & H7). exists parts, k. cbv zeta. splits; auto; apply H2.
  - unfold h_vec, access. unfold wp at 1. rewrite exec_access_g by auto. rewrite Hm. cbn [fst snd].
    assert (Hnil : forall t1, t <= t1 -> wp (exec (Ret (0, false) : proc' N (nat * bool)) w) t1 (fun r t' => exists parts k, let w' := snd r in let total := fst (fst r) in let ok := snd (fst r) in
        total = length (concat parts) /\ t <= k <= t' /\
        (forall i, i < length parts -> (Z.of_nat (length (concat (firstn i parts))) < limit)%Z) /\
        data_at w' a ns = live_from E k (data_at w a ns ++ concat parts) /\
        (forall b ns2, (b, ns2) <> (a, ns) -> (b, ns2) <> (from, ns) -> manager w' b ns2 = manager w b ns2) /\
        (answers_arrive E -> conserves E t t' (data_at w from ns) (data_at w' from ns ++ concat parts) /\
          exists e, e <= 1 /\ length (centroids_at w from ns) = length (centroids_at w' from ns) + length parts + e /\
            (ok = true -> (Z.of_nat total < limit)%Z -> finds_some E n -> centroids_at w' from ns = [] \/ e = 1)))).
    { intros t1 Ht1. apply wp_exec_ret. cbn [fst snd]. exists [], t. cbn [concat length]. splits; auto.
      - intros i Hi. lia.
      - unfold data_at, centroids_at. rewrite Hm. auto.
      - intros Ha. rewrite app_nil_r. split; [apply conserves_refl|]. exists 0. splits; auto; try lia; try discriminate. }
    apply wp_exec_bind. unfold c_vec_of. apply wp_exec_bind. apply wp_exec_bind.
    unfold wp at 1. rewrite exec_rpc.
    assert (Hhv : forall t1, exec (h_vec from ns) w t1 = Ok ((match manager w from ns with Some mr => Some (cm_vec mr) | None => None end, w), t1)).
    { intros t1. unfold h_vec, access. rewrite exec_access_g by auto. destruct (manager w from ns) as [mr|] eqn:Hmr; auto.
      unfold ret. cbn [fst snd]. rewrite put_same by auto. auto. }
    destruct (node_at w from) as [ndf|] eqn:Hnf.
    2:{ cbn [fst snd join]. apply wp_exec_ret. cbn [fst snd]. apply wp_exec_ret. cbn [fst snd].
        eapply wp_mono; [apply Hnil; auto|]. intros r t' (parts & k & H1 & H2 & H3 & H4 & H5 & H6). exists parts, k. cbv zeta. splits; auto; try apply H2; try congruence. }
    assert (Hgone : e_fate E t <> Delivered \/ manager w from ns = None \/ (exists mr, manager w from ns = Some mr /\ cm_vec mr = []) ->
      wp (exec (Ret (0, false) : proc' N (nat * bool)) w) (S t) (fun r t' => exists parts k, let w' := snd r in let total := fst (fst r) in let ok := snd (fst r) in
        total = length (concat parts) /\ t <= k <= t' /\
        (forall i, i < length parts -> (Z.of_nat (length (concat (firstn i parts))) < limit)%Z) /\
        data_at w' a ns = live_from E k (data_at w a ns ++ concat parts) /\
        (forall b ns2, (b, ns2) <> (a, ns) -> (b, ns2) <> (from, ns) -> manager w' b ns2 = manager w b ns2) /\
        (answers_arrive E -> conserves E t t' (data_at w from ns) (data_at w' from ns ++ concat parts) /\
          exists e, e <= 1 /\ length (centroids_at w from ns) = length (centroids_at w' from ns) + length parts + e /\
            (ok = true -> (Z.of_nat total < limit)%Z -> finds_some E n -> centroids_at w' from ns = [] \/ e = 1)) /\
        (Some ndf <> None -> manager w from ns <> None -> 0 < n -> (forall k, e_fate E k = Delivered) -> ok = true))).
    { intros Hg. eapply wp_mono; [apply Hnil; auto|]. intros r t' (parts & k & H1 & H2 & H3 & H4 & H5 & H6).
      exists parts, k. cbv zeta. splits; auto; try apply H2. intros _ Hmn Hn Hall. exfalso. destruct Hg as [Hg|[Hg|(mr & Hg & Hv)]]; auto.
      destruct (Hd from mr) as (Hd1 & _); auto. rewrite Hv in Hd1. cbn in Hd1. lia. }
    destruct (e_fate E t) eqn:Hft.
    + rewrite Hhv. cbn [fst snd join]. destruct (manager w from ns) as [mr|] eqn:Hmr.
      2:{ do 2 (apply wp_exec_ret; cbn [fst snd]). apply Hgone. auto. }
      assert (Hdr : DimOk n mr) by (apply (Hd from); auto).
      destruct (cm_vec mr) as [|x0 xs] eqn:Hcv.
      { do 2 (apply wp_exec_ret; cbn [fst snd]). apply Hgone. right. right. exists mr. auto. }
      rewrite <- Hcv in *. apply wp_exec_ret. cbn [fst snd]. destruct (node_at w a) as [nda|] eqn:Hnda; [|congruence].
      apply wp_exec_bind. unfold wp at 1. rewrite (exec_factory a (cm_vec mr) w (S t) nda Hnda). cbn [fst snd].
      apply wp_exec_bind. unfold wp at 1. rewrite exec_add_slot by congruence. cbn [fst snd]. apply wp_exec_ret. cbn [fst snd].
      set (m1 := new_cm (cm_vec mr) (nd_thresh nda)). 
      assert (Hnn : node_at w a <> None) by congruence.
      eapply wp_mono; [apply (Hrest (cm_vec mr) (new_mgr w a ns m1) (S t) m1); auto|].
      * apply new_mgr_ok; auto.
      * apply Hdr.
      * apply new_at; auto.
      * split; [apply Hdr|]. constructor.
      * unfold data_at, centroids_at. rewrite Hm. auto.
      * intros b Hb. pose proof (new_mgr_node w a ns m1 b) as K. destruct (node_at w b); [|congruence].
        destruct (node_at (new_mgr w a ns m1) b); discriminate.
      * intros b ns2 Hb. apply (new_only w a ns); auto.
      * intros r t' (parts & k & H1 & H2 & H3 & H4 & H5 & H6 & H7). exists parts, k. cbv zeta. splits; auto; apply H2.
    + do 2 (apply wp_exec_ret; cbn [fst snd join]). apply Hgone. left. discriminate.
    + rewrite Hhv. cbn [fst snd join]. do 2 (apply wp_exec_ret; cbn [fst snd]). apply Hgone. left. discriminate.
Qed.

End Steal.
