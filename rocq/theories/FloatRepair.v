(* MoveVector in binary64 arithmetic: the vector is the mean up to rounding, whatever it was before. *)
From Coq Require Import List ZArith QArith Qabs SpecFloat Lia Lqa Setoid.
From Verif Require Import Base Num MathUtils Env Centroid CManager DataSpec DataFacts Wp Exact CentroidProofs CMProofs FloatSpec FloatRound FloatOps FloatMean FloatRepairSpec.
Local Open Scope Q_scope.

Lemma fold_mean_ok B dim (v : vec f64) vs : p2 (-1022) <= B -> B <= p2 990 -> boxed B dim (v :: vs) ->
  mean_of_float B dim (v :: vs)
    (map (fun x : F f64 => fdiv x (fold_left (fun k (_ : vec f64) => fadd k f1) vs f1)) (fold_left (zipw fadd) vs v)).
Proof.
  intros HB1 HB2 (Hn & Hf). split.
  { rewrite map_length. apply fold_zipw_length; [apply (Forall_inv Hf)|].
    eapply Forall_impl; [|exact (Forall_inv_tail Hf)]. intros w Hw. apply Hw. }
  intros j Hj.
  assert (Hg : Forall (fun w : vec f64 => Forall (within B) w /\ length w = dim) (v :: vs)).
  { eapply Forall_impl; [|exact Hf]. intros w (H1 & H2). auto. }
  destruct (fold_mean B HB1 HB2 dim j v vs Hj Hg Hn) as (H1 & H2). split; [exact H1|].
  cbn [length]. pose proof (u_pos B HB1) as UP. pose proof (NQ_0 (length vs)) as L0. pose proof (NQ_S (length vs)) as LS.
  match type of H2 with Qabs (_ * val ?z - _) <= _ => set (y := val z) in * end.
  change (nth j _ _) with y. fold y. unfold u in *.
  set (T := inject_Z (Z.of_nat (S (length vs)))) in *. set (L := inject_Z (Z.of_nat (length vs))) in *.
  set (S := total j (v :: vs)) in *. set (U := ulp * B) in *.
  assert (Hy : y - S / T == (T * y - S) / T) by (field; lra).
  rewrite Hy. unfold Qdiv. rewrite Qabs_Qmult, (Qabs_pos (/ T)) by (apply Qinv_le_0_compat; lra).
  apply Qle_shift_div_r; [lra|]. eapply Qle_trans; [exact H2|].
  setoid_replace ((T + 3) * U * T) with ((T + 3) * T * U) by ring. apply Qmult_le_compat_r; [|lra]. rewrite LS. nra.
Qed.

Lemma vec_mean_float B dim vs t : p2 (-1022) <= B -> B <= p2 990 -> vs <> [] -> boxed B dim vs ->
  wp (vec_mean (N := f64) (S (length vs)) list_gen vs) t (fun r _ => snd (fst r) = true /\ mean_of_float B dim vs (fst (fst r))).
Proof.
  intros HB1 HB2 Hne Hb. eapply wp_mono; [apply vec_mean_list|]. cbn beta. intros r t' (_ & H).
  destruct vs as [|v vs]; [congruence|]. destruct H as (H1 & H2).
  assert (Hok : snd (fst r) = true).
  { rewrite H1. destruct Hb as (_ & Hf). apply forallb_forall. intros w Hw. apply Nat.eqb_eq.
    rewrite (proj1 (Forall_inv Hf)). apply (proj1 (Forall_forall _ _) (Forall_inv_tail Hf) w Hw). }
  split; auto. rewrite (H2 Hok). apply fold_mean_ok; auto.
Qed.

Section Move.
Context (E : Env f64).
Notation Cen := (Centroid f64).
Context (B : Q) (HB1 : p2 (-1022) <= B) (HB2 : B <= p2 990) (dim : nat).
Definition boxed_c (c : Cen) : Prop := boxed B dim (map dp_vec (c_dps c)).

Lemma boxed_rm : RmClosed boxed_c.
Proof.
  intros c i d (Hn & Hf) Hi. unfold boxed_c, boxed in *. cbn [c_dps rm_pure].
  rewrite map_length in *. apply Forall_map in Hf. split.
  - rewrite remove_at_length by (eapply nth_error_len; eauto). lia.
  - apply Forall_map. apply Forall_remove_at; auto.
Qed.

Lemma c_move_float (c : Cen) t : boxed_c c ->
  wp (c_move_vector E c) t (fun r t' =>
    let l := live_from E t (c_dps c) in
    c_dps (snd r) = l /\ t' = (t + length (c_dps c))%nat /\
    (fst r = true <-> l <> []) /\ (l <> [] -> mean_of_float B dim (map dp_vec l) (c_vec (snd r)))).
Proof using HB1 HB2.
  intros Hc.
  assert (HW : forall c0, boxed_c c0 -> Forall (fun d : DataPoint f64 => length (dp_vec d) = dim) (c_dps c0)).
  { intros c0 (_ & H). apply Forall_map in H. eapply Forall_impl; [|exact H]. intros d Hd. apply Hd. }
  eapply wp_mono; [apply (c_move_vector_spec E dim boxed_c boxed_rm HW c t Hc)|].
  intros [ok c'] t' H. cbv zeta in *. cbn [fst snd] in *. destruct H as (H1 & H2 & H3). split; auto. split; auto.
  destruct (live_from E t (c_dps c)) as [|d l] eqn:Hl; cbn [map] in *.
  - destruct H3 as (-> & _). split; [split; congruence|]. congruence.
  - destruct H3 as (-> & (v0 & Hb) & Hv). split; [split; congruence|]. intros _. rewrite Hv.
    apply fold_mean_ok; auto.
Qed.

Lemma move_all_float : forall (cs : list Cen) t, Forall boxed_c cs ->
  wp (move_all E cs) t (fun cs' _ => length cs' = length cs /\
    concat (map c_dps cs') = live_from E t (concat (map c_dps cs)) /\
    Forall boxed_c cs' /\
    Forall (fun c' => c_dps c' <> [] -> mean_of_float B dim (map dp_vec (c_dps c')) (c_vec c')) cs').
Proof using HB1 HB2.
  induction cs as [|c cs IH]; intros t Hf; cbn [move_all].
  - apply wp_ret. cbn. auto.
  - inversion Hf as [|? ? Hc Hf']; subst. apply wp_bind. eapply wp_mono; [apply (c_move_float c t Hc)|].
    cbv zeta. intros [ok c'] t1 (H1 & H2 & _ & H4). cbn [fst snd] in *. apply wp_bind.
    eapply wp_mono; [apply (IH t1 Hf')|]. cbn beta. intros cs' t2 (J1 & J2 & J3 & J4). apply wp_ret.
    cbn [length map concat]. rewrite live_from_app, <- H2, <- H1, J2, J1. split; auto. split; auto. split.
    + constructor; auto. destruct Hc as (Hn & Hd). apply Forall_map in Hd. split.
      * rewrite map_length in *. rewrite H1. pose proof (live_from_length E t (c_dps c)). lia.
      * apply Forall_map. rewrite H1. apply live_from_Forall. exact Hd.
    + constructor; auto. rewrite H1. exact H4.
Qed.
End Move.

(* The mean of vectors within B is within 2B. *)
Lemma mean_within B dim vs v : p2 (-1022) <= B -> vs <> [] -> boxed B dim vs -> mean_of_float B dim vs v ->
  Forall (within (2 * B)) v.
Proof.
  intros HB1 Hne (Hn & Hf) (Hl & Hm). apply Forall_forall. intros x Hx.
  destruct (In_nth _ _ (S754_zero false) Hx) as (j & Hj0 & <-).
  assert (Hj : (j < dim)%nat) by exact (eq_ind _ (fun k => (j < k)%nat) Hj0 _ Hl). clear Hj0. destruct (Hm j Hj) as (H1 & H2). split; [exact H1|].
  assert (Ht : Qabs (total j vs) <= count vs * B).
  { apply total_bound. eapply Forall_impl; [|exact Hf]. intros w (W1 & W2). split; auto.
    exact (eq_ind_r (fun k => (j < k)%nat) Hj W1). }
  pose proof (u_small B) as US. pose proof (u_pos B HB1) as UP. unfold u in *. pose proof (NQ_max _ Hn) as Hmax.
  assert (H0 : 1 <= count vs).
  { destruct vs as [|w vs]; [congruence|]. rewrite len_S. pose proof (NQ_0 (length vs)). lra. }
  assert (Hq : Qabs (total j vs / count vs) <= B).
  { unfold Qdiv. rewrite Qabs_Qmult, (Qabs_pos (/ count vs)) by (apply Qinv_le_0_compat; lra).
    apply Qle_shift_div_r; [lra|]. rewrite Qmult_comm. exact Ht. }
  set (y := val (nth j v (S754_zero false))) in *. set (U := ulp * B) in *. set (C := count vs) in *.
  assert ((C + 3) * U <= 9007199254740992 * U) by (apply Qmult_le_compat_r; lra).
  change (Qabs y <= 2 * B). apply abs_le in Hq, H2. apply abs_le. set (q := total j vs / C) in *. split; lra.
Qed.

Lemma cm_move_float (E : Env f64) B dim (m : CM f64) t : p2 (-1022) <= B -> 2 * B <= p2 990 ->
  (Z.of_nat (length (cm_cs m)) <= 2 ^ 24)%Z ->
  Forall (fun c => boxed B dim (map dp_vec (c_dps c))) (cm_cs m) ->
  wp (cm_move_vector E m) t (fun r _ =>
    let m' := snd r in
    concat (map c_dps (cm_cs m')) = live_from E t (concat (map c_dps (cm_cs m))) /\
    Forall (fun c => c_dps c <> [] -> mean_of_float B dim (map dp_vec (c_dps c)) (c_vec c)) (cm_cs m') /\
    (cm_cs m <> [] -> Forall (fun c => c_dps c <> []) (cm_cs m') ->
      fst r = true /\ mean_of_float (2 * B) dim (map c_vec (cm_cs m')) (cm_vec m'))).
Proof.
  intros HB1 HB2 Hlen Hb. pose proof (B_pos B HB1) as BP. unfold cm_move_vector. apply wp_bind.
  eapply wp_mono; [apply (move_all_float E B HB1 ltac:(lra) dim (cm_cs m) t Hb)|].
  cbn beta. intros cs t1 (H1 & H2 & H3 & H4). apply wp_bind.
  replace (length cs) with (length (map c_vec cs)) by apply map_length.
  destruct cs as [|c cs].
  { eapply wp_mono; [apply vec_mean_list|]. intros [[v ok] s] t2 _. apply wp_ret. cbv zeta. cbn [fst snd cm_cs].
    split; auto. split; auto. intros Hne. destruct (cm_cs m); [congruence|discriminate]. }
  destruct (forallb (fun c => negb (length (c_dps c) =? 0)%nat) (c :: cs)) eqn:Hall.
  - assert (Hne : Forall (fun c : Centroid f64 => c_dps c <> []) (c :: cs)).
    { apply Forall_forall. intros x Hx. pose proof (proj1 (forallb_forall _ _) Hall x Hx) as Hx'. cbn beta in Hx'.
      intros Hz. rewrite Hz in Hx'. discriminate. }
    assert (Hbox : boxed (2 * B) dim (map c_vec (c :: cs))).
    { split; [rewrite map_length, H1; exact Hlen|]. apply Forall_map. rewrite Forall_forall in *. intros x Hx.
      specialize (H4 x Hx (Hne x Hx)). split; [apply H4|].
      apply (mean_within B dim (map dp_vec (c_dps x))); auto.
      - intros Hz. apply (Hne x Hx). destruct (c_dps x); [auto|discriminate].
      - exact (H3 x Hx). }
    eapply wp_mono; [apply (vec_mean_float (2 * B) dim); auto; [lra|discriminate]|].
    intros [[v ok] s] t2 (Hok & Hv). cbn [fst snd] in Hok, Hv. subst ok. apply wp_ret. cbv zeta. cbn [fst snd cm_cs cm_vec]. auto.
  - eapply wp_mono; [apply vec_mean_list|]. intros [[v ok] s] t2 _. apply wp_ret. cbv zeta. cbn [fst snd cm_cs].
    split; auto. split; auto. intros _ Hne. exfalso.
    assert (Ht : forallb (fun c : Centroid f64 => negb (length (c_dps c) =? 0)%nat) (c :: cs) = true).
    { apply forallb_forall. intros x Hx. rewrite Forall_forall in Hne. specialize (Hne x Hx). destruct (c_dps x); [congruence|reflexivity]. }
    congruence.
Qed.

(* Without a bound on the coordinates: the sum is infinite although the mean is not. *)
Definition huge : F f64 := S754_finite false 4503599627370496 971.
Lemma vec_mean_overflows : exists (vs : list (vec f64)) (x y : F f64),
  wp (vec_mean (N := f64) (S (length vs)) list_gen vs) 0 (fun r _ => fst r = ([x], true)) /\
  Forall (Forall (fun z => is_fin z = true)) vs /\ vs <> [] /\
  is_fin y = true /\ val y == total 0 vs / count vs /\ is_fin x = false.
Proof.
  exists [[huge]; [huge]], (S754_infinity false), huge. split; [vm_compute; reflexivity|].
  split; [repeat constructor|]. split; [discriminate|]. split; [vm_compute; reflexivity|]. split; [vm_compute; reflexivity|reflexivity].
Qed.
