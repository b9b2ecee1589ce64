From Verif Require Import Base Num MathUtils Env Centroid DataSpec DataFacts Wp Exact.

Section CentroidProofs.
Context {N : Num} (E : Env N).
Notation DP := (DataPoint N).
Notation Cen := (Centroid N).
Implicit Types (c : Cen) (d : DP).

Definition rm_pure c (i : nat) d : Cen :=
  MkC (if 1 <? length (c_dps c) then
         vec_div_scalar
           (or_nil (vec_sub (vec_mul_scalar (c_vec c) (fofnat (length (c_dps c)))) (dp_vec d)))
           (fofnat (length (c_dps c) - 1))
       else c_vec c) (remove_at i (c_dps c)).

Lemma wp_rm_dp c i d t (Q : Cen -> nat -> Prop) :
  nth_error (c_dps c) i = Some d -> Q (rm_pure c i d) t -> wp (rm_dp c i) t Q.
Proof. intros Hn HQ. unfold rm_dp. apply wp_bind. eapply wp_index; eauto. Qed.

(* Predicates on centroids kept by the two primitive steps. *)
Definition AddClosed (P : Cen -> Prop) : Prop :=
  forall c d, P c -> length (dp_vec d) = length (c_vec c) -> P (add_dp_raw c d).
Definition RmClosed (P : Cen -> Prop) : Prop :=
  forall c i d, P c -> nth_error (c_dps c) i = Some d -> P (rm_pure c i d).
Definition Rm0Closed (P : Cen -> Prop) : Prop :=
  forall c d r, P c -> c_dps c = d :: r -> P (rm_pure c 0 d).

Lemma RmClosed_0 P : RmClosed P -> Rm0Closed P.
Proof. intros H c d r Hc He. apply H; auto. rewrite He; auto. Qed.

(* All datapoints and the centroid have dimension n. *)
Definition cwf (n : nat) c : Prop :=
  length (c_vec c) = n /\ Forall (fun d => length (dp_vec d) = n) (c_dps c).

Lemma rm_pure_length c i d n :
  length (c_vec c) = n -> length (dp_vec d) = n -> length (c_vec (rm_pure c i d)) = n.
Proof.
  intros Hc Hd. unfold rm_pure; cbn [c_vec]. destruct (1 <? length (c_dps c)); auto.
  rewrite div_length. apply sub_length; auto. rewrite mul_length; auto.
Qed.
Lemma add_raw_length c d n :
  length (c_vec c) = n -> length (dp_vec d) = n -> length (c_vec (add_dp_raw c d)) = n.
Proof.
  intros Hc Hd. unfold add_dp_raw; cbn [c_vec]. rewrite div_length. apply add_length; auto.
  rewrite mul_length; auto.
Qed.
Lemma cwf_add n : AddClosed (cwf n).
Proof.
  intros c d [H1 H2] Hl. split.
  - apply add_raw_length; auto. congruence.
  - cbn [c_dps add_dp_raw]. apply Forall_app; split; auto. constructor; auto. congruence.
Qed.
Lemma cwf_rm n : RmClosed (cwf n).
Proof.
  intros c i d [H1 H2] Hn. split.
  - apply rm_pure_length; auto. exact (Forall_nth_error _ _ _ _ H2 Hn).
  - cbn [c_dps rm_pure]. apply Forall_remove_at; auto.
Qed.
Lemma cwf_new n (v : vec N) : length v = n -> cwf n (new_centroid v).
Proof. intros; split; simpl; auto. Qed.

(* ---- AddDataPoint ---- *)
Lemma c_add_spec c d t :
  wp (c_add E c d) t (fun r t' =>
    t <= t' <= S t /\
    ((length (dp_vec d) = length (c_vec c) /\ t' = S t /\ expired_at (e_now E t) d = false
      /\ r = (true, add_dp_raw c d))
     \/ (length (dp_vec d) = length (c_vec c) /\ t' = S t /\ expired_at (e_now E t) d = true
         /\ r = (false, c))
     \/ (length (dp_vec d) <> length (c_vec c) /\ t' = t /\ r = (false, c)))).
Proof.
  unfold c_add. destruct (Nat.eqb_spec (length (dp_vec d)) (length (c_vec c))) as [He|He]; cbn [negb].
  - apply wp_bind, wp_expired. destruct (expired_at (e_now E t) d) eqn:Hx; apply wp_ret; split; auto 6; lia.
  - apply wp_ret; split; auto 6; lia.
Qed.

(* Adding a datapoint of the right dimension: kept, or seen expired. *)
Lemma c_add_cons n c d t P :
  AddClosed P -> P c -> (forall c, P c -> length (c_vec c) = n) -> length (dp_vec d) = n ->
  wp (c_add E c d) t (fun r t' => t' = S t /\ P (snd r) /\
    (fst r = true /\ snd r = add_dp_raw c d /\ expired_at (e_now E t) d = false \/
     fst r = false /\ snd r = c /\ expired_at (e_now E t) d = true) /\
    conserves E t t' (c_dps c ++ [d]) (c_dps (snd r))).
Proof.
  intros HA HP Hlen Hd. eapply wp_mono; [apply c_add_spec|].
  intros r t' (Ht & [(H1 & H2 & H3 & ->)|[(H1 & H2 & H3 & ->)|(H1 & _)]]); cbn [fst snd].
  - split; auto. split; [apply HA; auto|]. split; [left; auto|].
    apply conserves_refl.
  - split; auto. split; auto. split; [right; auto|].
    exists [d]. split; auto. constructor; auto. exists t; split; auto; lia.
  - exfalso. apply H1. rewrite Hd. symmetry. auto.
Qed.

(* ---- the datapoint generator ---- *)
Lemma skip_expired_spec P (HP : RmClosed P) : forall l fuel c pre t,
  P c -> c_dps c = pre ++ l -> length l <= fuel ->
  wp (skip_expired E fuel c (length pre)) t (fun c' t' => P c' /\
    exists rest, c_dps c' = pre ++ rest /\
      match rest with
      | [] => live_from E t l = [] /\ t' = t + length l
      | d :: rest' => live_from E t l = d :: live_from E t' rest' /\ t' + length rest' = t + length l /\ t < t'
      end).
Proof.
  induction l as [|d l IH]; intros fuel c pre t Hc Hd Hf.
  - assert (Hlt : (length pre <? length (c_dps c)) = false).
    { apply Nat.ltb_ge. rewrite Hd, app_nil_r; auto. }
    destruct fuel; cbn [skip_expired]; rewrite Hlt; apply wp_ret; split; auto; exists []; simpl; auto.
  - assert (Hlt : (length pre <? length (c_dps c)) = true).
    { apply Nat.ltb_lt. rewrite Hd, app_length. simpl; lia. }
    assert (Hn : nth_error (c_dps c) (length pre) = Some d).
    { rewrite Hd, nth_error_app2, Nat.sub_diag by lia. reflexivity. }
    destruct fuel as [|fuel]; [simpl in Hf; lia|]. cbn [skip_expired]. rewrite Hlt.
    apply wp_bind. eapply wp_index; [exact Hn|]. apply wp_bind, wp_expired.
    cbn [live_from length].
    destruct (expired_at (e_now E t) d) eqn:Hx.
    + apply wp_bind. eapply wp_rm_dp; [exact Hn|].
      eapply wp_mono; [apply (IH fuel (rm_pure c (length pre) d) pre (S t))|].
      * apply HP; auto.
      * cbn [c_dps rm_pure]. rewrite Hd. unfold remove_at.
        rewrite firstn_app, Nat.sub_diag, firstn_all, firstn_O, app_nil_r.
        replace (S (length pre)) with (length pre + 1) by lia.
        rewrite skipn_app. rewrite skipn_all2 by lia.
        replace (length pre + 1 - length pre) with 1 by lia. reflexivity.
      * simpl in Hf; lia.
      * cbn beta. intros c' t' (Hc' & rest & Hr & Hm). split; auto. exists rest. split; auto.
        destruct rest; [destruct Hm; split; auto; lia|].
        destruct Hm as (? & ? & ?); repeat split; auto; lia.
    + apply wp_ret. split; auto. exists (d :: l). split; auto. repeat split; auto; lia.
Qed.

Lemma dp_vec_gen_spec P (HP : RmClosed P) l c pre t :
  P c -> c_dps c = pre ++ l ->
  wp (dp_vec_gen E (c, length pre)) t (fun r t' =>
    let '(o, (c', i)) := r in
    P c' /\ exists rest, c_dps c' = pre ++ rest /\
      match rest with
      | [] => o = None /\ live_from E t l = [] /\ t' = t + length l
      | d :: rest' => o = Some (dp_vec d) /\ i = S (length pre) /\
                      live_from E t l = d :: live_from E t' rest' /\
                      t' + length rest' = t + length l /\ t < t'
      end).
Proof.
  intros Hc Hd. unfold dp_vec_gen. apply wp_bind.
  eapply wp_mono; [apply (skip_expired_spec P HP l); eauto|].
  { rewrite Hd, app_length. lia. }
  cbn beta. intros c' t' (Hc' & rest & Hr & Hm).
  destruct rest as [|d rest']; rewrite Hr.
  - rewrite app_nil_r. replace (nth_error pre (length pre)) with (@None DP)
      by (symmetry; apply nth_error_None; lia).
    apply wp_ret. split; auto. exists []. rewrite app_nil_r in *. tauto.
  - rewrite nth_error_app2, Nat.sub_diag by lia. cbn [nth_error]. apply wp_ret.
    split; auto. exists (d :: rest'). repeat split; try tauto.
Qed.


Lemma exhaust_gen_spec P (HP : RmClosed P) : forall fuel l c pre t,
  P c -> c_dps c = pre ++ l -> length l < fuel ->
  wp (exhaust fuel (dp_vec_gen E) (c, length pre)) t (fun r t' =>
    let '(vs, (c', _)) := r in
    P c' /\ c_dps c' = pre ++ live_from E t l /\ vs = map dp_vec (live_from E t l) /\
    t' = t + length l).
Proof.
  induction fuel as [|fuel IH]; intros l c pre t Hc Hd Hf; [lia|].
  cbn [exhaust]. apply wp_bind. eapply wp_mono; [apply (dp_vec_gen_spec P HP l); eauto|].
  intros [o [c' i]] t' (Hc' & rest & Hr & Hm). destruct rest as [|d rest'].
  - destruct Hm as (-> & Hl & ->). apply wp_ret. rewrite Hl. auto.
  - destruct Hm as (-> & -> & Hl & Ht & Hlt). apply wp_bind.
    replace (S (length pre)) with (length (pre ++ [d])) by (rewrite app_length; simpl; lia).
    eapply wp_mono; [apply (IH rest' c' (pre ++ [d]) t' Hc')|].
    + rewrite Hr, <- app_assoc. reflexivity.
    + lia.
    + intros [vs [c'' j]] t'' (Hc'' & Hd'' & -> & ->). apply wp_ret.
      rewrite Hl. repeat split; auto.
      rewrite Hd'', <- app_assoc. reflexivity.
Qed.

Lemma search_dps_spec P (HP : RmClosed P) (s : search N) tgt c k t :
  SearchOk s -> (0 <= k)%Z -> P c ->
  wp (search_dps E s tgt c k) t (fun r t' =>
    let l := live_from E t (c_dps c) in
    let '(idx, c') := r in
    P c' /\ c_dps c' = l /\ t' = t + length (c_dps c) /\
    s tgt (map dp_vec l) k = Ok idx /\ NoDup idx /\ (Z.of_nat (length idx) <= k)%Z /\
    Forall (fun i => i < length l) idx).
Proof.
  intros Hs Hk Hc. unfold search_dps. apply wp_bind.
  eapply wp_mono; [apply (exhaust_gen_spec P HP _ (c_dps c) c [] t); auto|].
  intros [vs [c' j]] t' (Hc' & Hd & -> & ->). cbn [app] in Hd.
  destruct (Hs tgt (map dp_vec (live_from E t (c_dps c))) k Hk) as (idx & He & Hnd & Hl & Hin).
  apply wp_bind. eapply wp_lift; [exact He|]. apply wp_ret. repeat split; auto.
  apply Forall_forall. intros i Hi. destruct (Hin i Hi) as (v & Hv & _).
  apply nth_error_len in Hv. rewrite map_length in Hv. auto.
Qed.

(* ---- reading and removing positions ---- *)
Lemma index_all_spec {A} (l : list A) idx t (Q : list A -> nat -> Prop) :
  Forall (fun i => i < length l) idx -> Q (pick idx l) t -> wp (index_all l idx) t Q.
Proof.
  intros Hf. revert Q; induction Hf as [|i idx Hi Hf IH]; intros Q HQ; cbn [index_all].
  - apply wp_ret; auto.
  - destruct (nth_error_lt l i Hi) as (x & Hx). apply wp_bind. eapply wp_index; [exact Hx|].
    apply wp_bind, IH. apply wp_ret. rewrite (pick_cons i idx l x Hx) in HQ. auto.
Qed.

Lemma rm_all_desc P (HP : RmClosed P) : forall js c t,
  desc js -> Forall (fun i => i < length (c_dps c)) js -> P c ->
  wp (rm_all c js) t (fun c' t' => P c' /\ c_dps c' = without js (c_dps c) /\ t' = t).
Proof.
  induction js as [|j js IH]; intros c t Hd Hf Hc; cbn [rm_all].
  - apply wp_ret. split; auto. unfold without. rewrite without_from_none; auto.
  - inversion Hd as [|? ? Hlt Hd']; subst. inversion Hf as [|? ? Hj Hf']; subst.
    destruct (nth_error_lt _ j Hj) as (d & Hn). apply wp_bind. eapply wp_rm_dp; [exact Hn|].
    eapply wp_mono; [apply IH; auto|].
    + cbn [c_dps rm_pure]. rewrite remove_at_length by auto.
      eapply Forall_impl; [|exact Hlt]. simpl; intros; lia.
    + cbn beta. intros c' t' (H1 & H2 & H3). split; auto. split; auto.
      rewrite H2. cbn [c_dps rm_pure]. symmetry. eapply without_step; eauto.
Qed.

Lemma rm_all_spec P (HP : RmClosed P) idx c t :
  NoDup idx -> Forall (fun i => i < length (c_dps c)) idx -> P c ->
  wp (rm_all c (rev (sort_ints idx))) t (fun c' t' =>
     P c' /\ c_dps c' = without idx (c_dps c) /\ t' = t).
Proof.
  intros Hn Hf Hc. eapply wp_mono; [apply (rm_all_desc P HP); auto|].
  - apply desc_rev_sort; auto.
  - eapply Permutation_Forall; [apply Permutation_sym, rev_sort_perm|auto].
  - cbn beta. intros c' t' (H1 & H2 & H3). split; auto. split; auto. rewrite H2.
    apply without_perm_idx, rev_sort_perm.
Qed.

(* ---- DrainUnordered ---- *)
(* res comes from a prefix of l, the smallest one containing n live datapoints. *)
Definition drained_prefix (t t' : nat) (l : list DP) (n : nat) (res post : list DP) : Prop :=
  exists pre, l = pre ++ post /\ res = live_from E t pre /\ t' = t + length pre /\
    length res <= n /\ (length res < n -> post = []) /\
    (forall a b, pre = a ++ b -> b <> [] -> length (live_from E t a) < n).

Lemma drain_unordered_loop_spec P (HP : Rm0Closed P) : forall l fuel c n res t,
  P c -> c_dps c = l -> length l <= fuel ->
  wp (drain_unordered_loop E fuel c n res) t (fun r t' =>
    P (snd r) /\ exists out, fst r = res ++ out /\
      drained_prefix t t' l n out (c_dps (snd r))).
Proof.
  induction l as [|d l IH]; intros fuel c n res t Hc Hd Hf.
  - destruct fuel; cbn [drain_unordered_loop]; rewrite Hd; apply wp_ret; cbn [fst snd]; (split; auto);
      exists []; rewrite app_nil_r; (split; auto); rewrite Hd; exists []; simpl; repeat split; auto; try lia;
      intros a b Hab; symmetry in Hab; apply app_eq_nil in Hab; destruct Hab; congruence.
  - destruct fuel as [|fuel]; [simpl in Hf; lia|]. cbn [drain_unordered_loop]. rewrite Hd.
    destruct n as [|n].
    + apply wp_ret; cbn [fst snd]; split; auto. exists []; rewrite app_nil_r; split; auto.
      rewrite Hd. exists []; simpl; repeat split; auto; try lia.
      intros a b Hab; symmetry in Hab; apply app_eq_nil in Hab; destruct Hab; congruence.
    + apply wp_bind, wp_expired. apply wp_bind.
      eapply wp_rm_dp; [rewrite Hd; reflexivity|].
      assert (Hc' : P (rm_pure c 0 d)) by (eapply HP; eauto).
      assert (Hd' : c_dps (rm_pure c 0 d) = l) by (cbn [c_dps rm_pure]; rewrite Hd; reflexivity).
      destruct (expired_at (e_now E t) d) eqn:Hx.
      * eapply wp_mono; [apply (IH fuel _ (S n) res (S t) Hc' Hd'); simpl in Hf; lia|].
        cbn beta. intros [r1 c1] t' (H1 & out & H2 & pre & Hl & Ho & Ht & Hle & Hlt & Hmin).
        cbn [fst snd] in *. split; auto. exists out. split; auto.
        exists (d :: pre). cbn [live_from length app]. rewrite Hx. repeat split; auto; try lia.
        { rewrite Hl; auto. }
        intros a b Hab Hb. destruct a as [|a0 a]; [simpl; lia|].
        cbn [app] in Hab. inversion Hab; subst a0. cbn [live_from]. rewrite Hx.
        apply (Hmin a b); auto.
      * eapply wp_mono; [apply (IH fuel _ n (res ++ [d]) (S t) Hc' Hd'); simpl in Hf; lia|].
        cbn beta. intros [r1 c1] t' (H1 & out & H2 & pre & Hl & Ho & Ht & Hle & Hlt & Hmin).
        cbn [fst snd] in *. split; auto. exists (d :: out). split.
        { rewrite H2, <- app_assoc; auto. }
        exists (d :: pre). cbn [live_from length app]. rewrite Hx. repeat split; auto; try lia.
        { rewrite Hl; auto. }
        { subst out; auto. }
        { intros. apply Hlt. lia. }
        intros a b Hab Hb. destruct a as [|a0 a]; [simpl; lia|].
        cbn [app] in Hab. inversion Hab; subst a0. cbn [live_from]. rewrite Hx.
        cbn [length]. apply -> Nat.succ_lt_mono. apply (Hmin a b); auto.
Qed.

Lemma c_drain_unordered_spec P (HP : Rm0Closed P) c n t :
  (0 <= n)%Z -> P c ->
  wp (c_drain_unordered E c n) t (fun r t' =>
    P (snd r) /\ drained_prefix t t' (c_dps c) (Z.to_nat n) (fst r) (c_dps (snd r))).
Proof.
  intros Hn Hc. unfold c_drain_unordered.
  replace (n <? 0)%Z with false by (symmetry; apply Z.ltb_ge; auto).
  eapply wp_mono; [apply (drain_unordered_loop_spec P HP (c_dps c)); auto|].
  cbn beta. intros r t' (H1 & out & H2 & H3). rewrite H2. auto.
Qed.

Lemma drained_prefix_conserves t t' l n res post :
  drained_prefix t t' l n res post -> t <= t' /\ conserves E t t' l (post ++ res).
Proof.
  intros (pre & -> & -> & -> & _). split; [lia|].
  eapply conserves_proper; [apply Permutation_refl|apply Permutation_app_comm|].
  apply conserves_app; [apply conserves_live|apply conserves_refl].
Qed.

Lemma drained_prefix_live t t' l n res post :
  drained_prefix t t' l n res post -> Forall (seen_live E t t') res.
Proof. intros (pre & _ & -> & -> & _). apply live_from_seen. Qed.

(* ---- DrainOrdered and KNNLookup ---- *)
Lemma c_drain_ordered_spec P (HP : RmClosed P) c n t :
  EnvOk E -> (0 <= n)%Z -> P c ->
  wp (c_drain_ordered E c n) t (fun r t' =>
    let l := live_from E t (c_dps c) in
    P (snd r) /\ t' = t + length (c_dps c) /\
    exists idx, e_kfn E (c_vec c) (map dp_vec l) n = Ok idx /\ NoDup idx /\
      (Z.of_nat (length idx) <= n)%Z /\ Forall (fun i => i < length l) idx /\
      fst r = pick idx l /\ c_dps (snd r) = without idx l).
Proof.
  intros (_ & _ & Hk) Hn Hc. unfold c_drain_ordered.
  replace (n <? 0)%Z with false by (symmetry; apply Z.ltb_ge; auto).
  apply wp_bind. eapply wp_mono; [apply (search_dps_spec P HP _ (c_vec c) c n t Hk Hn Hc)|].
  intros [idx c1] t1 (Hc1 & Hd1 & -> & He & Hnd & Hl & Hf).
  apply wp_bind. rewrite Hd1. apply index_all_spec; auto.
  apply wp_bind. eapply wp_mono; [apply (rm_all_spec P HP idx c1)|]; auto.
  { rewrite Hd1; auto. }
  cbn beta. intros c2 t2 (Hc2 & Hd2 & ->). apply wp_ret. cbn [fst snd]. split; auto. split; auto.
  exists idx. rewrite Hd2, Hd1. repeat split; auto.
Qed.

Lemma c_knn_lookup_spec P (HP : RmClosed P) c v k drain t :
  EnvOk E -> (0 <= k)%Z -> P c ->
  wp (c_knn_lookup E c v k drain) t (fun r t' =>
    let l := live_from E t (c_dps c) in
    P (snd r) /\ t' = t + length (c_dps c) /\
    exists idx, e_knn E v (map dp_vec l) k = Ok idx /\ NoDup idx /\
      (Z.of_nat (length idx) <= k)%Z /\ Forall (fun i => i < length l) idx /\
      fst r = pick idx l /\ c_dps (snd r) = if drain then without idx l else l).
Proof.
  intros (_ & Hk & _) Hn Hc. unfold c_knn_lookup.
  replace (k <? 0)%Z with false by (symmetry; apply Z.ltb_ge; auto).
  apply wp_bind. eapply wp_mono; [apply (search_dps_spec P HP _ v c k t Hk Hn Hc)|].
  intros [idx c1] t1 (Hc1 & Hd1 & -> & He & Hnd & Hl & Hf).
  apply wp_bind. rewrite Hd1. apply index_all_spec; auto.
  destruct drain.
  - apply wp_bind. eapply wp_mono; [apply (rm_all_spec P HP idx c1)|]; auto.
    { rewrite Hd1; auto. }
    cbn beta. intros c2 t2 (Hc2 & Hd2 & ->). apply wp_ret. cbn [fst snd]. split; auto. split; auto.
    exists idx. rewrite Hd2, Hd1. repeat split; auto.
  - apply wp_ret. cbn [fst snd]. split; auto. split; auto. exists idx. repeat split; auto.
Qed.

Lemma picked_conserves t l idx n :
  n = length l ->
  NoDup idx -> Forall (fun i => i < length (live_from E t l)) idx ->
  conserves E t (t + n) l (without idx (live_from E t l) ++ pick idx (live_from E t l)).
Proof.
  intros -> Hn Hf. eapply conserves_trans; [apply conserves_live|].
  apply conserves_perm. rewrite (pick_without idx (live_from E t l) Hn Hf) at 1.
  apply Permutation_app_comm.
Qed.

Lemma picked_live t l idx :
  Forall (seen_live E t (t + length l)) (pick idx (live_from E t l)).
Proof.
  pose proof (live_from_seen E t l) as H. rewrite Forall_forall in *.
  intros x Hx. apply in_pick in Hx. destruct Hx as (i & _ & Hi). apply H. eapply nth_error_In; eauto.
Qed.

(* ---- Expire ---- *)
Lemma expire_loop_spec P (HP : RmClosed P) : forall l fuel c pre t,
  P c -> c_dps c = pre ++ l -> length l <= fuel ->
  wp (expire_loop E fuel c (length pre)) t (fun c' t' =>
    P c' /\ c_dps c' = pre ++ live_from E t l /\ t' = t + length l).
Proof.
  induction l as [|d l IH]; intros fuel c pre t Hc Hd Hf.
  - assert (Hlt : (length pre <? length (c_dps c)) = false).
    { apply Nat.ltb_ge. rewrite Hd, app_nil_r; auto. }
    destruct fuel; cbn [expire_loop]; rewrite Hlt; apply wp_ret; simpl; auto.
  - assert (Hlt : (length pre <? length (c_dps c)) = true).
    { apply Nat.ltb_lt. rewrite Hd, app_length. simpl; lia. }
    assert (Hn : nth_error (c_dps c) (length pre) = Some d).
    { rewrite Hd, nth_error_app2, Nat.sub_diag by lia. reflexivity. }
    destruct fuel as [|fuel]; [simpl in Hf; lia|]. cbn [expire_loop]. rewrite Hlt.
    apply wp_bind. eapply wp_index; [exact Hn|]. apply wp_bind, wp_expired.
    cbn [live_from length].
    destruct (expired_at (e_now E t) d) eqn:Hx.
    + apply wp_bind. eapply wp_rm_dp; [exact Hn|].
      eapply wp_mono; [apply (IH fuel (rm_pure c (length pre) d) pre (S t))|].
      * apply HP; auto.
      * cbn [c_dps rm_pure]. rewrite Hd. unfold remove_at.
        rewrite firstn_app, Nat.sub_diag, firstn_all, firstn_O, app_nil_r.
        replace (S (length pre)) with (length pre + 1) by lia.
        rewrite skipn_app. rewrite skipn_all2 by lia.
        replace (length pre + 1 - length pre) with 1 by lia. reflexivity.
      * simpl in Hf; lia.
      * cbn beta. intros c' t' (Hc' & Hr & ->). split; auto. split; auto. lia.
    + replace (S (length pre)) with (length (pre ++ [d])) by (rewrite app_length; simpl; lia).
      eapply wp_mono; [apply (IH fuel c (pre ++ [d]) (S t) Hc)|].
      * rewrite Hd, <- app_assoc. reflexivity.
      * simpl in Hf; lia.
      * cbn beta. intros c' t' (Hc' & Hr & ->). split; auto. split; [|lia].
        rewrite Hr, <- app_assoc. reflexivity.
Qed.

Lemma c_expire_spec P (HP : RmClosed P) c t :
  P c -> wp (c_expire E c) t (fun c' t' =>
    P c' /\ c_dps c' = live_from E t (c_dps c) /\ t' = t + length (c_dps c)).
Proof. intros Hc. apply (expire_loop_spec P HP (c_dps c) _ c [] t); auto. Qed.

(* ---- MemTrim ---- *)
Lemma mem_trim_loop_spec P (HP : Rm0Closed P) : forall fuel c acc t,
  P c -> length (c_dps c) <= fuel ->
  wp (mem_trim_loop E fuel c acc) t (fun r t' =>
    P (snd r) /\ c_dps (snd r) = [] /\ fst r = acc ++ live_from E t (c_dps c) /\
    t' = t + length (c_dps c)).
Proof.
  induction fuel as [|fuel IH]; intros c acc t Hc Hf.
  - cbn [mem_trim_loop]. destruct (c_dps c) as [|d r] eqn:Hd; [|simpl in Hf; lia].
    apply wp_ret. cbn [fst snd live_from length]. rewrite app_nil_r. repeat split; auto.
  - cbn [mem_trim_loop]. destruct (c_dps c) as [|d r] eqn:Hd.
    + apply wp_ret. cbn [fst snd live_from length]. rewrite app_nil_r. repeat split; auto.
    + apply wp_bind. eapply wp_mono; [apply (c_drain_unordered_spec P HP c 1 t); auto; lia|].
      intros [res c'] t' (Hc' & pre & Hl & Hr & Ht & Hle & Hlt & Hmin). cbn [fst snd] in *.
      change (Z.to_nat 1) with 1 in *.
      assert (Hpre : 0 < length pre).
      { destruct pre as [|p pre]; [|simpl; lia]. cbn [live_from] in Hr. subst res.
        cbn [length] in Hlt. specialize (Hlt ltac:(lia)). rewrite Hlt in Hl. rewrite Hd in Hl. discriminate. }
      rewrite Hd in Hl. rewrite Hl in Hf |- *.
      eapply wp_mono; [apply (IH c' (acc ++ res) t' Hc')|].
      * rewrite app_length in Hf. lia.
      * cbn beta. intros [res2 c2] t2 (H1 & H2 & H3 & H4). cbn [fst snd] in *.
        repeat split; auto.
        -- rewrite H3, live_from_app, <- Ht, Hr, <- app_assoc. auto.
        -- rewrite app_length. lia.
Qed.

Lemma c_mem_trim_spec P (HP : Rm0Closed P) c t :
  P c -> wp (c_mem_trim E c) t (fun c' t' =>
    (exists v, P (MkC v []) /\ c_vec c' = v) /\
    c_dps c' = live_from E t (c_dps c) /\ t' = t + length (c_dps c)).
Proof.
  intros Hc. unfold c_mem_trim. apply wp_bind.
  eapply wp_mono; [apply (mem_trim_loop_spec P HP); auto|].
  intros [dps [v ds]] t' (H1 & H2 & H3 & H4). cbn [fst snd c_dps] in *. subst ds.
  apply wp_ret. cbn [c_vec c_dps]. repeat split; auto. exists v; auto.
Qed.

(* ---- MoveVector ---- *)
Lemma vec_mean_loop_gen_spec n P (HP : RmClosed P) (HW : forall c, P c -> Forall (fun d => length (dp_vec d) = n) (c_dps c)) :
  forall fuel l c pre t (res : vec N) k,
  P c -> c_dps c = pre ++ l -> length l < fuel -> length res = n ->
  wp (vec_mean_loop fuel (dp_vec_gen E) (c, length pre) res k) t (fun r t' =>
    let vs := map dp_vec (live_from E t l) in
    let '((res', k', ok), (c', _)) := r in
    P c' /\ c_dps c' = pre ++ live_from E t l /\ t' = t + length l /\
    ok = true /\ res' = fold_left (zipw fadd) vs res /\
    k' = fold_left (fun k _ => fadd k f1) vs k).
Proof.
  induction fuel as [|fuel IH]; intros l c pre t res k Hc Hd Hf Hres; [lia|].
  cbn [vec_mean_loop]. apply wp_bind. eapply wp_mono; [apply (dp_vec_gen_spec P HP l); eauto|].
  intros [o [c' i]] t' (Hc' & rest & Hr & Hm). destruct rest as [|d rest'].
  - destruct Hm as (-> & Hl & ->). apply wp_ret. rewrite Hl. cbn [map fold_left]. auto 10.
  - destruct Hm as (-> & -> & Hl & Ht & Hlt).
    assert (Hdl : length (dp_vec d) = n).
    { pose proof (HW _ Hc') as Hfa. rewrite Hr in Hfa. apply Forall_app in Hfa.
      destruct Hfa as [_ Hfa]. inversion Hfa; auto. }
    rewrite Hdl, Hres, Nat.eqb_refl.
    replace (S (length pre)) with (length (pre ++ [d])) by (rewrite app_length; simpl; lia).
    eapply wp_mono; [apply (IH rest' c' (pre ++ [d]) t' (zipw fadd res (dp_vec d)) (fadd k f1) Hc')|].
    + rewrite Hr, <- app_assoc. reflexivity.
    + lia.
    + rewrite zipw_length. lia.
    + intros [[[res' k'] ok] [c'' j]] t'' (H1 & H2 & H3 & H4 & H5 & H6). rewrite Hl.
      cbn [map fold_left]. repeat split; auto; try lia.
      rewrite H2, <- app_assoc. reflexivity.
Qed.

Lemma c_move_vector_spec n P (HP : RmClosed P) (HW : forall c, P c -> Forall (fun d => length (dp_vec d) = n) (c_dps c)) c t :
  P c ->
  wp (c_move_vector E c) t (fun r t' =>
    let l := live_from E t (c_dps c) in
    let '(ok, c') := r in
    c_dps c' = l /\ t' = t + length (c_dps c) /\
    match map dp_vec l with
    | [] => ok = false /\ P c'
    | v :: vs => ok = true /\ (exists v0, P (MkC v0 l)) /\
        c_vec c' = map (fun x => fdiv x (fold_left (fun k _ => fadd k f1) vs f1))
                       (fold_left (zipw fadd) vs v)
    end).
Proof.
  intros Hc. unfold c_move_vector, vec_mean. apply wp_bind. apply wp_bind.
  eapply wp_mono; [apply (dp_vec_gen_spec P HP (c_dps c) c [] t); eauto|].
  intros [o [c' i]] t' (Hc' & rest & Hr & Hm). destruct rest as [|d rest'].
  - destruct Hm as (-> & Hl & ->). apply wp_ret. apply wp_ret. rewrite Hl. cbn [app map] in *. auto.
  - destruct Hm as (-> & -> & Hl & Ht & Hlt). cbn [app length] in Hr. apply wp_bind.
    change 1 with (length [d]).
    assert (Hdl : length (dp_vec d) = n).
    { pose proof (HW _ Hc') as Hfa. rewrite Hr in Hfa. inversion Hfa; auto. }
    eapply wp_mono; [apply (vec_mean_loop_gen_spec n P HP HW _ rest' c' [d] t' (dp_vec d) f1 Hc' Hr); auto; lia|].
    intros [[[res' k'] ok] [c'' j]] t'' (H1 & H2 & H3 & -> & H5 & H6).
    apply wp_ret. apply wp_ret. rewrite Hl. cbn [map c_dps c_vec app] in *.
    split; auto. split; [lia|]. split; auto. split.
    + exists (c_vec c''). destruct c'' as [v0 ds0]; cbn [c_vec c_dps] in *. subst; auto.
    + subst; auto.
Qed.

(* ---- MoveVector repairs and means in exact arithmetic ---- *)
Definition cmean (n : nat) c : Prop :=
  cwf n c /\ (c_dps c <> [] -> c_vec c = mean_of n (map dp_vec (c_dps c))).

Lemma map_remove_at {A B} (f : A -> B) i (l : list A) : map f (remove_at i l) = remove_at i (map f l).
Proof. unfold remove_at. rewrite map_app, firstn_map, skipn_map. auto. Qed.

Lemma cmean_add n (HX : ExactNum N) : AddClosed (cmean n).
Proof.
  intros c d [Hw Hm] Hl. split; [apply cwf_add; auto|]. intros _.
  destruct Hw as [Hv Hf].
  cbn [add_dp_raw c_vec c_dps]. rewrite map_app. cbn [map].
  rewrite <- (map_length dp_vec (c_dps c)).
  apply (mean_add HX); auto; [congruence|]. intros H. apply Hm. intros H0. apply H. rewrite H0; auto.
Qed.
Lemma cmean_rm n (HX : ExactNum N) : RmClosed (cmean n).
Proof.
  intros c i d [Hw Hm] Hn. split; [apply cwf_rm; auto|]. intros Hne.
  assert (Hi : i < length (c_dps c)) by (eapply nth_error_len; eauto).
  cbn [rm_pure c_vec c_dps] in *.
  destruct (Nat.ltb_spec 1 (length (c_dps c))) as [Hl|Hl].
  - destruct Hw as [Hv Hf]. rewrite map_remove_at, <- (map_length dp_vec (c_dps c)).
    apply (mean_sub HX); auto.
    + exact (Forall_nth_error _ _ _ _ Hf Hn).
    + apply map_nth_error; auto.
    + rewrite map_length; auto.
    + apply Hm. intros H0. rewrite H0 in Hi. simpl in Hi. lia.
  - exfalso. apply Hne. apply length_zero_iff_nil. rewrite remove_at_length by auto. lia.
Qed.
Lemma cmean_new n (v : vec N) : length v = n -> cmean n (new_centroid v).
Proof. intros H. split; [apply cwf_new; auto|]. simpl. congruence. Qed.

Lemma c_move_vector_exact n (HX : ExactNum N) c t :
  cwf n c ->
  wp (c_move_vector E c) t (fun r t' =>
    let l := live_from E t (c_dps c) in
    c_dps (snd r) = l /\ t' = t + length (c_dps c) /\ cwf n (snd r) /\
    (l <> [] -> fst r = true /\ c_vec (snd r) = mean_of n (map dp_vec l)) /\
    (l = [] -> fst r = false)).
Proof.
  intros Hw. eapply wp_mono; [apply (c_move_vector_spec n (cwf n) (cwf_rm n) (fun c H => proj2 H)); auto|].
  intros [ok c'] t' (H1 & H2 & H3). cbn [fst snd].
  assert (Hlf : Forall (fun d => length (dp_vec d) = n) (live_from E t (c_dps c)))
    by (apply live_from_Forall; apply Hw).
  split; auto. split; auto.
  destruct (live_from E t (c_dps c)) as [|d l] eqn:Hl; cbn [map] in *.
  - destruct H3 as (-> & H3). repeat split; auto; try congruence; apply H3.
  - destruct H3 as (-> & _ & Hv). inversion Hlf as [|? ? Hd Hfl]; subst.
    rewrite (mean_fold HX (length (dp_vec d)) (map dp_vec l) (dp_vec d)) in Hv; auto.
    + repeat split; auto; try discriminate.
      * rewrite Hv, mean_of_length. auto.
      * rewrite H1; auto.
    + apply Forall_forall. intros w Hin. apply in_map_iff in Hin. destruct Hin as (x & <- & Hx).
      rewrite Forall_forall in Hfl; auto.
Qed.

(* The centroid's own vector may be anything. *)
Lemma c_move_vector_repairs n (HX : ExactNum N) c t :
  Forall (fun d => length (dp_vec d) = n) (c_dps c) ->
  wp (c_move_vector E c) t (fun r t' =>
    let l := live_from E t (c_dps c) in
    c_dps (snd r) = l /\
    (l <> [] -> fst r = true /\ c_vec (snd r) = mean_of n (map dp_vec l)) /\
    (l = [] -> fst r = false)).
Proof.
  set (P := fun c : Cen => Forall (fun d => length (dp_vec d) = n) (c_dps c)).
  assert (HP : RmClosed P).
  { intros c0 i d H Hn. unfold P in *. cbn [c_dps rm_pure]. apply Forall_remove_at; auto. }
  intros Hw. eapply wp_mono; [apply (c_move_vector_spec n P HP (fun c H => H)); auto|].
  intros [ok c'] t' (H1 & H2 & H3). cbn [fst snd].
  assert (Hlf : Forall (fun d => length (dp_vec d) = n) (live_from E t (c_dps c)))
    by (apply live_from_Forall; apply Hw).
  split; auto.
  destruct (live_from E t (c_dps c)) as [|d l] eqn:Hl; cbn [map] in *.
  - destruct H3 as (-> & H3). split; auto; try congruence.
  - destruct H3 as (-> & _ & Hv). inversion Hlf as [|? ? Hd Hfl]; subst.
    rewrite (mean_fold HX (length (dp_vec d)) (map dp_vec l) (dp_vec d)) in Hv; auto.
    + split; auto; try discriminate.
    + apply Forall_forall. intros w Hin. apply in_map_iff in Hin. destruct Hin as (x & <- & Hx).
      rewrite Forall_forall in Hfl; auto.
Qed.
End CentroidProofs.
