From Verif Require Import Base Num MathUtils Env Centroid MgrSpec DataSpec DataFacts Wp Exact CentroidProofs.

Section DistributeProofs.
Context {N : Num} (E : Env N) (HE : EnvOk E).
Notation DP := (DataPoint N).
Notation Cen := (Centroid N).
Notation stored := (@stored N).

Lemma stored_app (a b : list Cen) : stored (a ++ b) = stored a ++ stored b.
Proof. unfold stored. rewrite map_app, concat_app; auto. Qed.
Lemma stored_cons c b : stored (c :: b) = c_dps c ++ stored b.
Proof. reflexivity. Qed.

Lemma stored_set (pool : list Cen) i c c' t t' more :
  nth_error pool i = Some c ->
  conserves E t t' (c_dps c ++ more) (c_dps c') ->
  conserves E t t' (stored pool ++ more) (stored (list_set pool i c')).
Proof.
  intros Hn Hc. destruct (concat_set_perm c_dps pool i c c' Hn) as (rest & H1 & H2).
  eapply conserves_proper; [| |apply (conserves_frame E t t' _ _ rest Hc)].
  - unfold stored. rewrite H1. perm.
  - unfold stored. rewrite H2. perm.
Qed.
Lemma stored_set_out (pool : list Cen) i c c' t t' out :
  nth_error pool i = Some c ->
  conserves E t t' (c_dps c) (c_dps c' ++ out) ->
  conserves E t t' (stored pool) (stored (list_set pool i c') ++ out).
Proof.
  intros Hn Hc. destruct (concat_set_perm c_dps pool i c c' Hn) as (rest & H1 & H2).
  eapply conserves_proper; [| |apply (conserves_frame E t t' _ _ rest Hc)].
  - unfold stored. rewrite H1. perm.
  - unfold stored. rewrite H2. perm.
Qed.

(* A family of predicates, one per dimension. *)
Context (P : nat -> Cen -> Prop).
Context (PA : forall n, AddClosed (P n)) (PR : forall n, RmClosed (P n)).
Context (PW : forall n c, P n c -> cwf n c).

Lemma Forall2_nth {A B} (R : A -> B -> Prop) l l' i y :
  Forall2 R l l' -> nth_error l' i = Some y -> exists x, nth_error l i = Some x /\ R x y.
Proof.
  intros H; revert i; induction H as [|a b l l' Hab H IH]; intros [|i]; simpl; intros Hn; try discriminate.
  - inversion Hn; subst. eauto.
  - eauto.
Qed.
Lemma Forall2_set {A B} (R : A -> B -> Prop) l l' i x y :
  Forall2 R l l' -> nth_error l i = Some x -> R x y -> Forall2 R l (list_set l' i y).
Proof.
  intros H; revert i; induction H as [|a b l l' Hab H IH]; intros [|i]; simpl; intros Hn Hxy; try discriminate; constructor; auto.
  inversion Hn; subst; auto.
Qed.
Lemma Forall2_len {A B} (R : A -> B -> Prop) l l' : Forall2 R l l' -> length l = length l'.
Proof. induction 1; simpl; auto. Qed.

(* only the positions in [is] differ *)
Definition frame (is : list nat) (pool pool' : list Cen) : Prop :=
  length pool' = length pool /\
  forall j, ~ In j is -> nth_error pool' j = nth_error pool j.
Lemma frame_refl is pool : frame is pool pool.
Proof. split; auto. Qed.
Lemma frame_trans is a b c : frame is a b -> frame is b c -> frame is a c.
Proof. intros [H1 H2] [H3 H4]. split; [congruence|]. intros j Hj. rewrite H4, H2; auto. Qed.
Lemma frame_set is a i x : In i is -> frame is a (list_set a i x).
Proof.
  intros H. split; [apply list_set_length|]. intros j Hj. apply list_set_other. intros ->; auto.
Qed.
Lemma frame_mono is is' a b : incl is is' -> frame is a b -> frame is' a b.
Proof. intros H [H1 H2]. split; auto. Qed.

Lemma recv_vecs_spec (pool : list Cen) recv t (Q : list (vec N) -> nat -> Prop) :
  Forall (fun r => r < length pool) recv -> 
  (forall vs, length vs = length recv -> Q vs t) -> wp (recv_vecs pool recv) t Q.
Proof.
  intros Hf. revert Q. induction Hf as [|r rs Hr Hf IH]; intros Q HQ; cbn [recv_vecs].
  - apply wp_ret. apply HQ; auto.
  - destruct (nth_error_lt pool r Hr) as (c & Hc). apply wp_bind. eapply wp_index; [exact Hc|].
    apply wp_bind, IH. intros vs Hvs. apply wp_ret, HQ. simpl; auto.
Qed.

(* adding to position i of the pool *)
Lemma pool_add_spec dims pool i c d n t :
  Forall2 P dims pool -> nth_error pool i = Some c -> nth_error dims i = Some n ->
  length (dp_vec d) = n ->
  wp (c_add E c d) t (fun r t' => t <= t' /\
    Forall2 P dims (list_set pool i (snd r)) /\
    conserves E t t' (stored pool ++ [d]) (stored (list_set pool i (snd r)))).
Proof.
  intros HF Hc Hn Hd. destruct (Forall2_nth _ _ _ _ _ HF Hc) as (n' & Hn' & HP).
  assert (n' = n) by congruence; subst n'.
  eapply wp_mono; [apply (c_add_cons E n c d t (P n)); auto|].
  { intros c0 H0. apply PW; auto. }
  cbn beta. intros [ok c'] t' (H1 & H2 & H3 & H4). cbn [snd] in *.
  split; [lia|]. split; [eapply Forall2_set; eauto|]. eapply stored_set; eauto.
Qed.

Lemma put_back_spec dims pool self d n t :
  Forall2 P dims pool -> nth_error dims self = Some n -> length (dp_vec d) = n ->
  wp (put_back E pool self d) t (fun pool' t' => t <= t' /\
    Forall2 P dims pool' /\ frame [self] pool pool' /\
    conserves E t t' (stored pool ++ [d]) (stored pool')).
Proof.
  intros HF Hn Hd. unfold put_back.
  destruct (nth_error_lt pool self) as (c & Hc).
  { rewrite <- (Forall2_len _ _ _ HF). eapply nth_error_len; eauto. }
  apply wp_bind. eapply wp_index; [exact Hc|]. apply wp_bind.
  eapply wp_mono; [eapply (pool_add_spec dims pool self); eauto|].
  intros [ok c'] t' (H1 & H2 & H3). cbn [snd] in *. apply wp_ret.
  repeat split; auto.
  - apply list_set_length.
  - intros j Hj. apply list_set_other. intros ->; apply Hj; simpl; auto.
Qed.

Lemma distribute_loop_spec : forall data dims pool self recv n t,
  Forall2 P dims pool -> nth_error dims self = Some n ->
  Forall (fun d => length (dp_vec d) = n) data ->
  Forall (fun r => r < length pool) recv ->
  wp (distribute_loop E pool self recv data) t (fun pool' t' => t <= t' /\
    Forall2 P dims pool' /\ frame (self :: recv) pool pool' /\
    conserves E t t' (stored pool ++ data) (stored pool')).
Proof.
  induction data as [|d data IH]; intros dims pool self recv n t HF Hn Hd Hr; cbn [distribute_loop].
  - apply wp_ret. split; auto. split; auto. split; [apply frame_refl|].
    rewrite app_nil_r. apply conserves_refl.
  - inversion Hd as [|? ? Hd0 Hd']; subst.
    apply wp_bind. apply recv_vecs_spec; auto. intros vs Hvs.
    destruct HE as (_ & Hk & _).
    destruct (Hk (dp_vec d) vs 1%Z ltac:(lia)) as (idx & He & _ & _ & Hin).
    apply wp_bind. eapply wp_lift; [exact He|]. apply wp_bind.
    assert (Hone : wp (match idx with
        | [] => put_back E pool self d
        | i :: _ =>
            do r <- index recv i;
            do c <- index pool r;
            do ' (ok, c') <- c_add E c d;
            if ok then ret (list_set pool r c') else put_back E pool self d
        end) t (fun pool' t' => t <= t' /\
        Forall2 P dims pool' /\ frame (self :: recv) pool pool' /\
        conserves E t t' (stored pool ++ [d]) (stored pool'))).
    { destruct idx as [|i idx].
      - eapply wp_mono; [eapply put_back_spec; eauto|]. cbn beta.
        intros p' t' (? & ? & Hfr & ?). repeat split; auto; try apply Hfr.
        intros j Hj. apply Hfr. intros [->|[]]; apply Hj; simpl; auto.
      - destruct (Hin i) as (v & Hv & Hlv); [simpl; auto|].
        apply nth_error_len in Hv. rewrite Hvs in Hv.
        destruct (nth_error_lt recv i Hv) as (r & Hri).
        assert (Hrp : r < length pool) by exact (Forall_nth_error _ _ _ _ Hr Hri).
        destruct (nth_error_lt pool r Hrp) as (c & Hc).
        apply wp_bind. eapply wp_index; [exact Hri|]. apply wp_bind. eapply wp_index; [exact Hc|].
        apply wp_bind. eapply wp_mono; [apply c_add_spec|].
        destruct (Forall2_nth _ _ _ _ _ HF Hc) as (m & Hm & HPc).
        destruct (PW _ _ HPc) as [Hlen _].
        intros r0 t1 (Ht1 & [(H1 & H2 & H3 & ->)|[(H1 & H2 & H3 & ->)|(H1 & H2 & ->)]]).
        + apply wp_ret. split; [lia|]. split.
          * eapply Forall2_set; eauto. apply PA; auto.
          * split; [apply frame_set; simpl; right; eapply nth_error_In; eauto|].
            eapply stored_set; [exact Hc|]. apply conserves_refl.
        + eapply wp_mono; [eapply put_back_spec; eauto|]. cbn beta.
          intros p' t' (? & ? & Hfr & Hcons). split; [lia|]. split; auto. split.
          * eapply frame_mono; [|exact Hfr]. intros j [->|[]]; simpl; auto.
          * eapply conserves_widen; [| |exact Hcons]; lia.
        + eapply wp_mono; [eapply put_back_spec; eauto|]. cbn beta.
          intros p' t' (? & ? & Hfr & Hcons). split; [lia|]. split; auto. split.
          * eapply frame_mono; [|exact Hfr]. intros j [->|[]]; simpl; auto.
          * eapply conserves_widen; [| |exact Hcons]; lia. }
    eapply wp_mono; [exact Hone|]. clear Hone. cbn beta.
    intros pool1 t1 (Ht1 & HF1 & Hfr1 & Hc1).
    eapply wp_mono; [apply (IH dims pool1 self recv (length (dp_vec d)) t1); auto|].
    + destruct Hfr1 as [-> _]; auto.
    + cbn beta. intros pool2 t2 (Ht2 & HF2 & Hfr2 & Hc2).
      split; [lia|]. split; auto. split; [eapply frame_trans; eauto|].
      eapply conserves_seq; [exact Ht1|exact Ht2| |exact Hc2].
      eapply conserves_proper; [|apply Permutation_refl|apply (conserves_frame E _ _ _ _ data Hc1)].
      perm.
Qed.

Lemma c_distribute_spec dims pool self k recv t :
  Forall2 P dims pool -> self < length pool -> (0 <= k)%Z ->
  Forall (fun r => r < length pool) recv ->
  wp (c_distribute E pool self k recv) t (fun pool' t' => t <= t' /\
    Forall2 P dims pool' /\ frame (self :: recv) pool pool' /\
    (recv = [] -> pool' = pool) /\
    conserves E t t' (stored pool) (stored pool')).
Proof.
  intros HF Hs Hk Hr. unfold c_distribute. destruct recv as [|r0 recv0].
  { apply wp_ret. split; auto. split; auto. split; [apply frame_refl|]. split; auto. apply conserves_refl. }
  set (recv := r0 :: recv0) in *.
  destruct (nth_error_lt pool self Hs) as (c & Hc).
  destruct (Forall2_nth _ _ _ _ _ HF Hc) as (n & Hn & HPc).
  apply wp_bind. eapply wp_index; [exact Hc|]. apply wp_bind.
  eapply wp_mono; [apply (c_drain_ordered_spec E (P n) (PR n) c k t HE Hk HPc)|].
  intros [data c'] t1 (HP1 & -> & idx & He & Hnd & Hl & Hf & Hdata & Hd1). cbn [fst snd] in *.
  eapply wp_mono; [eapply (distribute_loop_spec data dims (list_set pool self c') self recv n)|].
  - eapply Forall2_set; eauto.
  - auto.
  - assert (Hw : cwf n c) by (apply PW; auto). destruct Hw as [_ Hw].
    apply (live_from_Forall E _ t) in Hw. subst data. rewrite Forall_forall in *.
    intros x Hx. apply in_pick in Hx. destruct Hx as (i & _ & Hi). apply Hw. eapply nth_error_In; eauto.
  - rewrite list_set_length. auto.
  - cbn beta. intros pool2 t2 (Ht2 & HF2 & Hfr2 & Hc2).
    split; [lia|]. split; auto. split; [|split; [discriminate|]].
    + eapply frame_trans; [|exact Hfr2]. apply frame_set; simpl; auto.
    + eapply conserves_seq with (t' := t + length (c_dps c)); [lia|exact Ht2| |exact Hc2].
      eapply stored_set_out; [exact Hc|]. subst data. rewrite Hd1.
      apply picked_conserves; auto.
Qed.

End DistributeProofs.
