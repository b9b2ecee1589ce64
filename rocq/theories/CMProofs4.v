From Verif Require Import Base Num MathUtils Env Centroid CManager MgrSpec MgrSpec2 DataSpec DataFacts Wp Exact
  CentroidProofs DistributeProofs PortionsProofs CMProofs CMProofs2 CMProofs3 Props03Lemmas.
Local Open Scope nat_scope.

Section CMProofs4.
Context {N : Num} (E : Env N) (HE : EnvOk E).
Notation DP := (DataPoint N).
Notation Cen := (Centroid N).
Notation ms m := (stored (cm_cs m)).
Notation cmW := (cmP (N := N) cwf).

Lemma stored_in (cs : list Cen) i c d : nth_error cs i = Some c -> In d (c_dps c) -> In d (stored cs).
Proof. intros Hc Hd. unfold stored. apply in_concat. exists (c_dps c). split; auto. apply in_map. eapply nth_error_In; eauto. Qed.
Lemma in_stored (cs : list Cen) d : In d (stored cs) -> exists i c, nth_error cs i = Some c /\ In d (c_dps c).
Proof.
  unfold stored. rewrite in_concat. intros (l & Hl & Hd). apply in_map_iff in Hl. destruct Hl as (c & <- & Hc).
  apply In_nth_error in Hc. destruct Hc as (i & Hi). eauto.
Qed.
Lemma in_without {A} (idx : list nat) (l : list A) x : In x (without idx l) -> In x l.
Proof.
  unfold without. generalize 0. induction l as [|y l IH]; intros k; cbn [without_from]; auto.
  destruct (existsb (Nat.eqb k) idx); cbn; intros H; [right; eauto|]. destruct H; eauto.
Qed.
Lemma in_without_pos {A} (idx : list nat) (l : list A) x :
  In x (without idx l) -> exists j, ~ In j idx /\ nth_error l j = Some x.
Proof.
  unfold without. enough (forall k, In x (without_from k idx l) -> exists j, ~ In (k + j) idx /\ nth_error l j = Some x) as H.
  { intros Hx. destruct (H 0 Hx) as (j & Hj). exists j. auto. }
  induction l as [|y l IH]; intros k; cbn [without_from]; [intros []|].
  destruct (existsb (Nat.eqb k) idx) eqn:Hk.
  - intros Hx. destruct (IH _ Hx) as (j & H1 & H2). exists (S j). split; auto.
    replace (k + S j) with (S k + j) by lia. auto.
  - intros [<-|Hx].
    + exists 0. split; auto. rewrite Nat.add_0_r. intros H. assert (existsb (Nat.eqb k) idx = true); [|congruence].
      apply existsb_exists. exists k. split; auto. apply Nat.eqb_refl.
    + destruct (IH _ Hx) as (j & H1 & H2). exists (S j). split; auto.
      replace (k + S j) with (S k + j) by lia. auto.
Qed.
Lemma without_one {A} (idx : list nat) k : forall (l : list A), 
  (forall j, j < length l -> j <> k -> In j idx) -> length (without idx l) <= 1.
Proof.
  intros l H. unfold without.
  enough (G : forall s, (forall j, s <= j < s + length l -> j <> k -> In j idx) ->
    length (without_from s idx l) <= if (s <=? k) then 1 else 0).
  { specialize (G 0). cbn in G. apply G. intros j Hj. apply H. lia. }
  clear H. induction l as [|y l IH]; intros s H; cbn [without_from length]; [destruct (s <=? k); lia|].
  assert (IH' := IH (S s)). specialize (IH' ltac:(intros j Hj; apply H; cbn; lia)).
  destruct (existsb (Nat.eqb s) idx) eqn:Hs.
  - destruct (Nat.leb_spec s k), (Nat.leb_spec (S s) k); lia.
  - assert (s = k).
    { destruct (Nat.eq_dec s k); auto. exfalso. assert (existsb (Nat.eqb s) idx = true); [|congruence].
      apply existsb_exists. exists s. split; [apply H; cbn; lia|apply Nat.eqb_refl]. }
    subst s. cbn [length]. destruct (Nat.leb_spec k k), (Nat.leb_spec (S k) k); lia.
Qed.

(* ---- ordered drains ---- *)
Lemma drain_ordered_each : forall ps n m res t,
  cmW n m -> portions_for m ps -> never_expired E (ms m) ->
  wp (drain_portions (c_drain_ordered E) m ps res) t (fun r t' =>
    length (cm_cs (snd r)) = length (cm_cs m) /\
    forall i c, nth_error (cm_cs m) i = Some c -> exists c', nth_error (cm_cs (snd r)) i = Some c' /\
      (forall p, In (i, p) ps -> exists idx, e_kfn E (c_vec c) (map dp_vec (c_dps c)) (Z.of_nat p) = Ok idx /\
         c_dps c' = without idx (c_dps c)) /\ (~ In i (map fst ps) -> c' = c)).
Proof.
  induction ps as [|[i p] ps IH]; intros n m res t Hm Hpf Hne; cbn [drain_portions].
  - apply wp_ret. split; auto. intros i c Hc. exists c. splits; auto. intros p [].
  - destruct Hpf as [Hnd Hf]. inversion Hf as [|? ? (c & Hc & Hp) Hf']; subst. cbn [fst snd] in *.
    inversion Hnd as [|? ? Hni Hnd']; subst.
    pose proof (cs_length_P cwf _ _ _ _ Hm Hc) as HPc.
    apply wp_bind. eapply wp_index; [exact Hc|]. apply wp_bind.
    eapply wp_mono; [apply (c_drain_ordered_spec E (cwf n) (cwf_rm n) c _ t HE); auto; lia|].
    intros [r c'] t1 (HPc' & -> & idx & Hidx & _ & _ & _ & _ & Hd). cbn [fst snd] in *.
    assert (Hinc : never_expired E (c_dps c)) by (intros k x Hx; apply Hne; eapply stored_in; eauto).
    rewrite (never_expired_live E t _ Hinc) in *.
    eapply wp_mono; [apply (IH n (update_centroid m i c c') (res ++ r))|].
    + apply (update_centroid_P cwf cwf_id); auto.
    + split; auto. cbn [update_centroid cm_cs]. rewrite Forall_forall in *. intros [j q] Hin.
      destruct (Hf' _ Hin) as (cj & Hcj & Hq). exists cj. cbn [fst snd] in *. split; auto.
      rewrite list_set_other; auto. intros <-. apply Hni. apply in_map_iff. exists (i, q); auto.
    + intros k d Hin. cbn [update_centroid cm_cs] in Hin. apply in_stored in Hin. destruct Hin as (j & cj & Hj & Hdj).
      destruct (Nat.eq_dec i j) as [<-|Hij].
      * rewrite list_set_same in Hj by (eapply nth_error_len; eauto). injection Hj as <-. rewrite Hd in Hdj.
        apply in_without in Hdj. auto.
      * rewrite list_set_other in Hj by auto. apply Hne. eapply stored_in; eauto.
    + cbn beta. intros [res2 m2] t2 [H1 H2]. cbn [snd update_centroid cm_cs map fst] in *.
      rewrite list_set_length in H1. split; auto. intros j cj Hj.
      destruct (Nat.eq_dec i j) as [<-|Hij].
      * rewrite Hj in Hc. injection Hc as ->.
        destruct (H2 i c') as (c'' & H3 & H4 & H5).
        { apply list_set_same. eapply nth_error_len; eauto. }
        exists c''. splits; auto.
        -- rewrite (H5 Hni). intros q [Hq|Hq]; [injection Hq as <-; eauto|].
           exfalso. apply Hni. apply in_map_iff. exists (i, q); auto.
        -- intros Hn. exfalso. apply Hn. left; auto.
      * destruct (H2 j cj) as (c'' & H3 & H4 & H5).
        { rewrite list_set_other; auto. }
        exists c''. splits; auto.
        -- intros q [Hq|Hq]; [congruence|auto].
        -- intros Hn. apply H5. intros Hin. apply Hn. right; auto.
Qed.

Lemma entries_shares ps full : Permutation ps (portions_entries full) -> same_shares ps full.
Proof.
  intros Hp. destruct (portions_entries_spec full) as (H1 & _ & H3). split.
  - eapply Permutation_NoDup; [|exact H1]. apply Permutation_map, Permutation_sym; auto.
  - intros i p. rewrite <- H3. split; apply Permutation_in; auto. apply Permutation_sym; auto.
Qed.

Lemma cm_drain_ordered_even n m k t : (1 <= k)%Z -> DimOk n m -> never_expired E (ms m) ->
  wp (cm_drain_ordered E m k) t (fun r _ =>
    exists ps, EvenPortions (map (fun c => length (c_dps c)) (cm_cs m)) (Z.to_nat k) ps /\
      length (cm_cs (snd r)) = length (cm_cs m) /\ Permutation (ms m) (ms (snd r) ++ fst r) /\
      forall i c p, nth_error (cm_cs m) i = Some c -> nth_error ps i = Some p ->
        exists c', nth_error (cm_cs (snd r)) i = Some c' /\ (p = 0 -> c' = c) /\
          (0 < p -> exists idx, e_kfn E (c_vec c) (map dp_vec (c_dps c)) (Z.of_nat p) = Ok idx /\
                                c_dps c' = without idx (c_dps c))).
Proof.
  intros Hk Hm Hne.
  pose proof (proj2 (cm_drain_bound E HE n m k t Hk Hm)) as Hb.
  enough (Hg : wp (cm_drain_ordered E m k) t (fun r _ =>
    exists ps, EvenPortions (map (fun c => length (c_dps c)) (cm_cs m)) (Z.to_nat k) ps /\
      length (cm_cs (snd r)) = length (cm_cs m) /\
      forall i c p, nth_error (cm_cs m) i = Some c -> nth_error ps i = Some p ->
        exists c', nth_error (cm_cs (snd r)) i = Some c' /\ (p = 0 -> c' = c) /\
          (0 < p -> exists idx, e_kfn E (c_vec c) (map dp_vec (c_dps c)) (Z.of_nat p) = Ok idx /\
                                c_dps c' = without idx (c_dps c)))).
  { eapply wp_mono; [exact (wp_conj _ _ _ _ Hb Hg)|]. cbn beta.
    intros r t' [(_ & (lost & Hp & Hl) & _) (ps & H1 & H2 & H3)]. exists ps. splits; auto.
    destruct lost as [|d lost]; [rewrite app_nil_r in Hp; auto|]. exfalso.
    inversion Hl as [|? ? (s & _ & Hs) _]; subst. rewrite Hne in Hs; [discriminate|].
    eapply Permutation_in; [apply Permutation_sym; exact Hp|]. apply in_or_app; right; left; auto. }
  unfold cm_drain_ordered. replace (k <? 0)%Z with false by (symmetry; apply Z.ltb_ge; lia).
  apply wp_bind. eapply wp_mono; [apply (cm_portions_spec E HE)|].
  intros ps t1 (-> & Hpf & Hfull & _). destruct (Hfull Hk) as (full & HEP & Hp).
  eapply wp_mono; [apply (drain_ordered_each ps n m [] (S t)); auto|].
  intros r t2 [H1 H2]. exists full. splits; auto. intros i c p Hc Hfp.
  destruct (H2 i c Hc) as (c' & H3 & H4 & H5). exists c'. split; auto.
  destruct (entries_shares _ _ Hp) as (_ & Hin). split.
  - intros ->. apply H5. intros Hi. apply in_map_iff in Hi. destruct Hi as ([j q] & Hj & Hq). cbn [fst] in Hj. subst j.
    apply Hin in Hq. destruct Hq; congruence.
  - intros Hp0. apply H4. apply Hin. split; auto. lia.
Qed.

(* ---- Expire and MemTrim ---- *)
Lemma expire_loop_lists : forall todo done n m t,
  cmW n m -> cm_cs m = done ++ todo ->
  wp (cm_expire_loop E m (seq (length done) (length todo))) t (fun m' _ =>
    exists todo', cm_cs m' = done ++ todo' /\ map c_dps todo' = live_lists E t (map c_dps todo)).
Proof.
  induction todo as [|c todo IH]; intros done n m t Hm Hcs; cbn [length seq cm_expire_loop].
  - apply wp_ret. exists []. auto.
  - assert (Hc : nth_error (cm_cs m) (length done) = Some c) by (rewrite Hcs; apply nth_mid).
    pose proof (cs_length_P cwf _ _ _ _ Hm Hc) as HPc.
    apply wp_bind. eapply wp_index; [exact Hc|]. apply wp_bind.
    eapply wp_mono; [apply (c_expire_spec E (cwf n) (cwf_rm n) c t HPc)|].
    cbn beta. intros c' t1 (HPc' & Hd & ->).
    replace (S (length done)) with (length (done ++ [c'])) by (rewrite app_length; simpl; lia).
    eapply wp_mono; [apply (IH (done ++ [c']) n (update_centroid m (length done) c c'))|].
    + apply (update_centroid_P cwf cwf_id); auto.
    + cbn [update_centroid cm_cs]. rewrite Hcs, set_mid, <- app_assoc. reflexivity.
    + cbn beta. intros m' t' (todo' & H1 & H2). exists (c' :: todo'). split; [rewrite H1, <- app_assoc; auto|].
      cbn [map live_lists]. rewrite Hd, H2. auto.
Qed.
Lemma cm_expire_lists n m t : DimOk n m ->
  wp (cm_expire E m) t (fun m' _ => map c_dps (cm_cs m') = live_lists E t (map c_dps (cm_cs m))).
Proof.
  intros Hm. unfold cm_expire. eapply wp_mono; [apply (expire_loop_lists (cm_cs m) [] n m t Hm eq_refl)|].
  cbn beta. intros m' t' (cs & -> & H). auto.
Qed.

Lemma mem_trim_loop_lists : forall todo done n m kept t,
  cmW n m -> cm_cs m = done ++ todo ->
  wp (cm_mem_trim_loop E m (seq (length done) (length todo)) kept) t (fun r _ =>
    map c_dps (snd r) = map c_dps kept ++ filter holds_data (live_lists E t (map c_dps todo))).
Proof.
  induction todo as [|c todo IH]; intros done n m kept t Hm Hcs; cbn [length seq cm_mem_trim_loop].
  - apply wp_ret. cbn. rewrite app_nil_r. auto.
  - assert (Hc : nth_error (cm_cs m) (length done) = Some c) by (rewrite Hcs; apply nth_mid).
    pose proof (cs_length_P cwf _ _ _ _ Hm Hc) as HPc.
    apply wp_bind. eapply wp_index; [exact Hc|]. apply wp_bind.
    eapply wp_mono; [apply (cwf_mem_trim E n c t HPc)|].
    cbn beta. intros c' t1 (HPc' & Hd & ->). cbv zeta.
    set (m1 := update_centroid m (length done) c c').
    assert (Hm1 : cmW n m1) by (apply (update_centroid_P cwf cwf_id); auto).
    match goal with |- wp (cm_mem_trim_loop _ ?m2 _ ?k2) _ _ => set (m2' := m2); set (k2' := k2) end.
    assert (Hm2 : cmW n m2').
    { unfold m2'. destruct ((c_len c' =? 1) && (1 <? length (cm_cs m1))); auto.
      split; [|apply Hm1]. cbn [set_vec cm_vec]. rewrite div_length. apply sub_length; auto.
      - rewrite mul_length. apply Hm1.
      - apply HPc'. }
    assert (Hcs2 : cm_cs m2' = (done ++ [c']) ++ todo).
    { transitivity (cm_cs m1).
      - unfold m2'. destruct ((c_len c' =? 1) && (1 <? length (cm_cs m1))); auto.
      - unfold m1; cbn [update_centroid cm_cs]. rewrite Hcs, set_mid, <- app_assoc. reflexivity. }
    replace (S (length done)) with (length (done ++ [c'])) by (rewrite app_length; simpl; lia).
    eapply wp_mono; [apply (IH (done ++ [c']) n m2' k2' _ Hm2 Hcs2)|]. cbn beta. intros r t2 ->.
    cbn [map live_lists filter]. rewrite <- Hd. unfold k2', c_len.
    destruct (c_dps c') as [|d ds] eqn:Hds; cbn [length Nat.eqb negb holds_data]; auto.
    rewrite map_app, <- app_assoc. cbn [map app]. rewrite Hds. auto.
Qed.
Lemma cm_mem_trim_lists n m t : DimOk n m ->
  wp (cm_mem_trim E m) t (fun m' _ =>
    map c_dps (cm_cs m') = filter holds_data (live_lists E t (map c_dps (cm_cs m)))).
Proof.
  intros Hm. unfold cm_mem_trim. apply wp_bind.
  eapply wp_mono; [apply (mem_trim_loop_lists (cm_cs m) [] n m [] t Hm eq_refl)|].
  intros [m' kept] t' H. apply wp_ret. exact H.
Qed.

(* ---- distribution ---- *)
Lemma recv_vecs_exact (pool : list Cen) recv t (Q : list (vec N) -> nat -> Prop) :
  Forall (fun r => r < length pool) recv ->
  Q (map c_vec (pick recv pool)) t -> wp (recv_vecs pool recv) t Q.
Proof.
  intros Hf. revert Q. induction Hf as [|r rs Hr Hf IH]; intros Q HQ; cbn [recv_vecs].
  - apply wp_ret. auto.
  - destruct (nth_error_lt pool r Hr) as (c & Hc). apply wp_bind. eapply wp_index; [exact Hc|].
    apply wp_bind, IH. apply wp_ret. rewrite (pick_cons r rs pool c Hc) in HQ. auto.
Qed.
Lemma add_live c d t : length (dp_vec d) = length (c_vec c) -> expired_at (e_now E t) d = false ->
  wp (c_add E c d) t (fun r t' => r = (true, add_dp_raw c d) /\ t' = S t).
Proof.
  intros Hl He. eapply wp_mono; [apply c_add_spec|]. cbn beta.
  intros r t' (_ & [(_ & H2 & _ & H4)|[(_ & _ & H & _)|(H & _)]]); [auto|congruence|congruence].
Qed.
Lemma add_raw_data c d : c_dps (N := N) (add_dp_raw c d) = c_dps c ++ [d].
Proof. reflexivity. Qed.

Lemma nth_pick (pool : list Cen) recv i v : Forall (fun r => r < length pool) recv ->
  nth_error (map c_vec (pick recv pool)) i = Some v ->
  exists r c, nth_error recv i = Some r /\ nth_error pool r = Some c /\ c_vec c = v.
Proof.
  intros Hf. revert i. induction Hf as [|r rs Hr Hf IH]; intros i; [destruct i; discriminate|].
  destruct (nth_error_lt pool r Hr) as (c & Hc). rewrite (pick_cons r rs pool c Hc). destruct i as [|i]; cbn [map nth_error].
  - intros [= <-]. exists r, c. auto.
  - apply IH.
Qed.

Lemma distribute_hands : forall data dims pool self recv n t,
  Forall2 cwf dims pool -> nth_error dims self = Some n ->
  Forall (fun d => length (dp_vec d) = n) data -> Forall (fun r => r < length pool) recv -> never_expired E data ->
  wp (distribute_loop E pool self recv data) t (fun pool' t' => handed E recv self pool data pool' /\ Forall2 cwf dims pool').
Proof.
  induction data as [|d data IH]; intros dims pool self recv n t HF Hn Hd Hr Hne; cbn [distribute_loop].
  - apply wp_ret. split; auto. constructor.
  - inversion Hd as [|? ? Hd0 Hd']; subst.
    apply wp_bind. apply recv_vecs_exact; auto.
    destruct (proj1 (proj2 HE) (dp_vec d) (map c_vec (pick recv pool)) 1%Z ltac:(lia)) as (idx & He & _ & _ & Hin).
    apply wp_bind. eapply wp_lift; [exact He|]. apply wp_bind.
    assert (Hone : wp (match idx with
        | [] => put_back E pool self d
        | i :: _ =>
            do r <- index recv i;
            do c <- index pool r;
            do ' (ok, c') <- c_add E c d;
            if ok then ret (list_set pool r c') else put_back E pool self d
        end) t (fun pool' t' => exists c, nth_error pool (taker E recv self pool d) = Some c /\
           pool' = list_set pool (taker E recv self pool d) (add_dp_raw c d) /\ Forall2 cwf dims pool')).
    { unfold taker. rewrite He. destruct idx as [|i idx].
      - unfold put_back. destruct (nth_error_lt pool self) as (c & Hc).
        { rewrite <- (Forall2_len _ _ _ HF). eapply nth_error_len; eauto. }
        destruct (Forall2_nth _ _ _ _ _ HF Hc) as (m & Hm & HPc). rewrite Hn in Hm. injection Hm as <-.
        apply wp_bind. eapply wp_index; [exact Hc|]. apply wp_bind.
        eapply wp_mono; [apply add_live|]; [symmetry; apply HPc|apply Hne; left; auto|].
        intros r t' [-> ->]. apply wp_ret. exists c. splits; auto. eapply Forall2_set; eauto. apply cwf_add; auto. symmetry; apply HPc.
      - destruct (Hin i) as (v & Hv & Hlv); [left; auto|].
        destruct (nth_pick _ _ _ _ Hr Hv) as (r & c & Hri & Hc & <-).
        rewrite (nth_error_nth _ _ self Hri).
        apply wp_bind. eapply wp_index; [exact Hri|]. apply wp_bind. eapply wp_index; [exact Hc|].
        apply wp_bind. eapply wp_mono; [apply add_live|]; [auto|apply Hne; left; auto|].
        intros x t' [-> ->]. apply wp_ret. exists c. splits; auto.
        destruct (Forall2_nth _ _ _ _ _ HF Hc) as (m & Hm & HPc). eapply Forall2_set; eauto. apply cwf_add; auto. }
    eapply wp_mono; [exact Hone|]. clear Hone. cbn beta. intros pool1 t1 (c & Hc & -> & HF1).
    eapply wp_mono; [apply (IH dims _ self recv (length (dp_vec d)) t1); auto|].
    + rewrite list_set_length. auto.
    + intros k x Hx. apply Hne. right; auto.
    + cbn beta. intros pool2 t2 (H2 & HF2). split; auto. econstructor; [exact Hc| |exact H2]. apply add_raw_data.
Qed.

Lemma c_distribute_hands dims pool self k recv t :
  Forall2 cwf dims pool -> self < length pool -> (0 <= k)%Z -> recv <> [] ->
  Forall (fun r => r < length pool) recv -> never_expired E (stored pool) ->
  wp (c_distribute E pool self k recv) t (fun pool' t' => Forall2 cwf dims pool' /\
    exists c idx c1, nth_error pool self = Some c /\ e_kfn E (c_vec c) (map dp_vec (c_dps c)) k = Ok idx /\
      c_dps c1 = without idx (c_dps c) /\ handed E recv self (list_set pool self c1) (pick idx (c_dps c)) pool').
Proof.
  intros HF Hs Hk Hne Hr Hex. unfold c_distribute. destruct recv as [|r0 recv0]; [congruence|].
  set (recv := r0 :: recv0) in *.
  destruct (nth_error_lt pool self Hs) as (c & Hc).
  destruct (Forall2_nth _ _ _ _ _ HF Hc) as (n & Hn & HPc).
  assert (Hexc : never_expired E (c_dps c)) by (intros s d Hd; apply Hex; eapply stored_in; eauto).
  apply wp_bind. eapply wp_index; [exact Hc|]. apply wp_bind.
  eapply wp_mono; [apply (c_drain_ordered_spec E (cwf n) (cwf_rm n) c k t HE Hk HPc)|].
  intros [data c'] t1 (HP1 & -> & idx & He & Hnd & Hl & Hf & Hdata & Hd1). cbn [fst snd] in *.
  rewrite (never_expired_live E t _ Hexc) in *. subst data.
  assert (Hpick : forall x, In x (pick idx (c_dps c)) -> In x (c_dps c)).
  { intros x Hx. apply in_pick in Hx. destruct Hx as (i & _ & Hi). eapply nth_error_In; eauto. }
  eapply wp_mono; [eapply (distribute_hands _ dims (list_set pool self c') self recv n)|].
  - eapply Forall2_set; eauto.
  - auto.
  - rewrite Forall_forall. intros x Hx. apply Hpick in Hx. destruct HPc as [_ HPc]. rewrite Forall_forall in HPc. auto.
  - rewrite list_set_length. auto.
  - intros s x Hx. apply Hexc. auto.
  - cbn beta. intros pool2 t2 (H2 & HF2). split; auto. exists c, idx, c'. auto.
Qed.

Lemma distribute_spreads dims : forall ps pool recv t,
  Forall2 cwf dims pool -> Forall (fun ip => fst ip < length pool) ps -> recv <> [] ->
  Forall (fun r => r < length pool) recv -> never_expired E (stored pool) ->
  wp (cm_distribute_loop E pool ps recv) t (fun pool' t' => spread E recv ps pool pool' /\ Forall2 cwf dims pool' /\
    conserves E t t' (stored pool) (stored pool')).
Proof.
  induction ps as [|[i p] ps IH]; intros pool recv t HF Hps Hrn Hr Hex; cbn [cm_distribute_loop].
  - apply wp_ret. splits; auto; [constructor|apply conserves_refl].
  - inversion Hps as [|? ? Hi Hps']; subst. cbn [fst] in Hi. apply wp_bind.
    eapply wp_mono; [apply (wp_conj _ _ _ _ (c_distribute_spec E HE cwf cwf_add cwf_rm cwf_id dims pool i (Z.of_nat p) recv t HF Hi ltac:(lia) Hr)
      (c_distribute_hands dims pool i (Z.of_nat p) recv t HF Hi ltac:(lia) Hrn Hr Hex))|].
    cbn beta. intros pool1 t1 ((Ht1 & _ & [Hl1 _] & _ & Hc1) & HF1 & c & idx & c1 & H1 & H2 & H3 & H4).
    eapply wp_mono; [apply (wp_conj _ _ _ _ (cm_distribute_loop_spec E HE cwf cwf_add cwf_rm cwf_id dims ps pool1 recv t1 HF1
      ltac:(rewrite Hl1; auto) ltac:(rewrite Hl1; auto)) (IH pool1 recv t1 HF1 ltac:(rewrite Hl1; auto) Hrn ltac:(rewrite Hl1; auto)
      ltac:(intros s d Hd; apply Hex; exact (conserves_in _ _ _ _ _ _ Hc1 Hd))))|].
    cbn beta. intros pool2 t2 ((Ht2 & _) & H5 & H6 & H7). splits; auto.
    + econstructor; eauto.
    + eapply conserves_seq; eauto.
Qed.

Lemma live_lists_id t ls : never_expired E (concat ls) -> live_lists E t ls = ls.
Proof.
  revert t. induction ls as [|l ls IH]; intros t H; cbn [live_lists]; auto.
  rewrite IH, never_expired_live; auto; intros k d Hd; apply H; cbn [concat]; apply in_or_app; auto.
Qed.
Lemma move_all_lists n : forall cs t, Forall (cwf n) cs ->
  wp (move_all E cs) t (fun cs' t' => map c_dps cs' = live_lists E t (map c_dps cs)).
Proof.
  induction cs as [|c cs IH]; intros t Hf; cbn [move_all].
  - apply wp_ret. auto.
  - inversion Hf as [|? ? Hc Hf']; subst. apply wp_bind. eapply wp_mono; [apply (cwf_move E n c t Hc)|].
    intros [ok c'] t1 (HPc & Hd & ->). cbn [snd] in *. apply wp_bind.
    eapply wp_mono; [apply (IH _ Hf')|]. cbn beta. intros cs' t2 H. apply wp_ret. cbn [map live_lists]. rewrite Hd, H. auto.
Qed.
Lemma move_vector_lists n m t : cmW n m ->
  wp (cm_move_vector E m) t (fun r _ => map c_dps (cm_cs (snd r)) = live_lists E t (map c_dps (cm_cs m))).
Proof.
  intros [_ Hf]. unfold cm_move_vector. apply wp_bind. eapply wp_mono; [apply (move_all_lists n (cm_cs m) t Hf)|].
  cbn beta. intros cs t1 H. apply wp_bind. replace (length cs) with (length (map c_vec cs)) by apply map_length.
  eapply wp_mono; [apply vec_mean_list|]. intros [[v ok] s] t2 _. apply wp_ret. exact H.
Qed.

Lemma distribute_internal_spreads n m k t : (1 <= k)%Z -> DimOk n m -> cm_cs m <> [] -> never_expired E (ms m) ->
  wp (cm_distribute_internal E m k) t (fun m' _ => exists full ps pool,
    EvenPortions (map (fun c => length (c_dps c)) (cm_cs m)) (Z.to_nat k) full /\ same_shares ps full /\
    spread E (seq 0 (length (cm_cs m))) ps (cm_cs m) pool /\ map c_dps (cm_cs m') = map c_dps pool).
Proof.
  intros Hk Hm Hcs Hne. unfold cm_distribute_internal, cm_distribute. apply wp_bind.
  assert (Hsq : seq 0 (length (cm_cs m)) <> []) by (destruct (cm_cs m); [congruence|discriminate]).
  assert (Hrange : Forall (fun r => r < length (cm_cs m)) (seq 0 (length (cm_cs m)))).
  { apply Forall_forall. intros i Hi. apply in_seq in Hi. lia. }
  destruct (seq 0 (length (cm_cs m))) as [|r0 recv0]; [congruence|]. set (recv := r0 :: recv0) in *.
  apply wp_bind. eapply wp_mono; [apply (cm_portions_spec E HE)|].
  intros ps t1 (-> & Hpf & Hfull & _). destruct (Hfull Hk) as (full & HEP & Hp). rewrite app_nil_r.
  assert (HF : Forall2 cwf (repeat n (length (cm_cs m))) (cm_cs m)).
  { destruct Hm as [_ Hm]. clear -Hm. induction (cm_cs m) as [|c cs IH]; cbn; constructor; inversion Hm; auto. }
  apply wp_bind. eapply wp_mono; [apply (distribute_spreads (repeat n (length (cm_cs m))) ps (cm_cs m) recv (S t) HF); auto|].
  { eapply portions_for_range; eauto. }
  cbn beta. intros pool t2 (H1 & HF2 & H3).
  assert (Hlen : length pool = length (cm_cs m)) by (rewrite <- (Forall2_len _ _ _ HF2), repeat_length; auto).
  rewrite <- Hlen, firstn_all.
  apply wp_bind. eapply wp_mono; [apply (move_vector_lists n)|].
  { split; [apply Hm|]. cbn [cm_cs]. clear -HF2. revert HF2. generalize (length (cm_cs m)) as l.
    induction pool as [|c pool IH]; intros [|l] H; cbn in H; inversion H; subst; constructor; eauto. }
  intros [ok m'] t3 H4. cbn [snd cm_cs] in H4. apply wp_ret. cbn [fst]. apply wp_ret.
  exists full, ps, pool. splits; auto; [apply entries_shares; auto|]. rewrite H4. apply live_lists_id.
  intros s d Hd. apply Hne. exact (conserves_in _ _ _ _ _ _ H3 Hd).
Qed.

End CMProofs4.
