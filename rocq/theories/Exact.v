(* Exact arithmetic: field reasoning and the algebra of means. *)
From Verif Require Import Base Num MathUtils Env DataSpec Wp.
From Coq Require Import Field.

Section Exact.
Context {N : Num} (HX : ExactNum N).

Lemma ex_sub_eq (a b : F N) : fadd (fsub a b) b = a.
Proof. symmetry. apply (ex_sub N HX). reflexivity. Qed.
Lemma ex_add0r (a : F N) : fadd a f0 = a.
Proof. rewrite (ex_addC N HX). apply (ex_add0 N HX). Qed.
Lemma ex_add_cancel (a b c : F N) : fadd a c = fadd b c -> a = b.
Proof.
  intros H. assert (H1 : fsub (fadd a c) c = a) by (apply (ex_sub N HX); auto).
  rewrite <- H1, H. apply (ex_sub N HX). auto.
Qed.
Lemma ex_mul0 (a : F N) : fmul f0 a = f0.
Proof.
  apply (ex_add_cancel _ _ (fmul f0 a)). rewrite <- (ex_distr N HX), (ex_add0 N HX).
  symmetry. apply (ex_add0 N HX).
Qed.
Lemma ex_f1_f0 : (f1 : F N) <> f0.
Proof. apply (ex_char0 N HX 0). Qed.
Lemma ex_div_eq (a b : F N) : b <> f0 -> fmul (fdiv a b) b = a.
Proof. intros H. symmetry. apply (ex_div N HX); auto. Qed.

Definition fopp (a : F N) : F N := fsub f0 a.
Definition finv (a : F N) : F N := fdiv f1 a.

(* fdiv by 0 is unconstrained, so the field tactics get a division that agrees with fdiv
   on non-zero divisors. *)
Lemma ex_ring : ring_theory (f0 : F N) f1 fadd fmul fsub fopp eq.
Proof.
  constructor.
  - apply (ex_add0 N HX).
  - apply (ex_addC N HX).
  - apply (ex_addA N HX).
  - apply (ex_mul1 N HX).
  - apply (ex_mulC N HX).
  - apply (ex_mulA N HX).
  - apply (ex_distr N HX).
  - intros x y. unfold fopp. apply (ex_sub N HX).
    rewrite <- (ex_addA N HX), ex_sub_eq. symmetry. apply ex_add0r.
  - intros x. unfold fopp. rewrite (ex_addC N HX). apply ex_sub_eq.
Qed.
Add Ring exring : ex_ring.

Lemma ex_div_inv (a b : F N) : b <> f0 -> fdiv a b = fmul a (finv b).
Proof.
  intros H. apply (ex_div N HX); auto. unfold finv.
  rewrite <- (ex_mulA N HX), ex_div_eq by auto. ring.
Qed.
Lemma ex_inv_l (b : F N) : b <> f0 -> fmul (finv b) b = f1.
Proof. intros H. unfold finv. apply ex_div_eq; auto. Qed.
Definition fdiv' (a b : F N) : F N := fmul a (finv b).
Lemma ex_field : field_theory (f0 : F N) f1 fadd fmul fsub fopp fdiv' finv eq.
Proof.
  constructor.
  - apply ex_ring.
  - apply ex_f1_f0.
  - reflexivity.
  - apply ex_inv_l.
Qed.
Add Field exfield : ex_field.
Lemma ex_div' (a b : F N) : b <> f0 -> fdiv a b = fdiv' a b.
Proof. apply ex_div_inv. Qed.

Lemma ofnat_S n : (fofnat (S n) : F N) = fadd (fofnat n) f1.
Proof. apply (ex_ofnatS N HX). Qed.
Lemma ofnat_nz n : 0 < n -> (fofnat n : F N) <> f0.
Proof. destruct n; [lia|]. intros _. apply (ex_char0 N HX). Qed.

(* ---- coordinate sums ---- *)
Lemma coord_sum_cons j (v : vec N) b : coord_sum j (v :: b) = fadd (nth j v f0) (coord_sum j b).
Proof. reflexivity. Qed.
Lemma coord_sum_nil j : coord_sum j (@nil (vec N)) = f0.
Proof. reflexivity. Qed.
Lemma coord_sum_app j (a b : list (vec N)) :
  coord_sum j (a ++ b) = fadd (coord_sum j a) (coord_sum j b).
Proof.
  induction a as [|v a IH]; cbn [app].
  - rewrite coord_sum_nil. ring.
  - rewrite !coord_sum_cons, IH. ring.
Qed.
Lemma coord_sum_perm j (a b : list (vec N)) : Permutation a b -> coord_sum j a = coord_sum j b.
Proof.
  induction 1; auto.
  - rewrite !coord_sum_cons. congruence.
  - rewrite !coord_sum_cons. ring.
  - congruence.
Qed.

Lemma mean_of_length n (vs : list (vec N)) : length (mean_of n vs) = n.
Proof. unfold mean_of. rewrite map_length, seq_length; auto. Qed.
Lemma nth_mean_of n (vs : list (vec N)) j :
  j < n -> nth j (mean_of n vs) f0 = fdiv (coord_sum j vs) (fofnat (length vs)).
Proof.
  intros H. unfold mean_of.
  set (f := fun j => fdiv (coord_sum j vs) (fofnat (length vs))).
  rewrite nth_indep with (d' := f 0) by (rewrite map_length, seq_length; auto).
  rewrite (map_nth f), seq_nth by auto. reflexivity.
Qed.
Lemma mean_of_perm n (a b : list (vec N)) : Permutation a b -> mean_of n a = mean_of n b.
Proof.
  intros H. unfold mean_of. rewrite (Permutation_length H).
  apply map_ext. intros j. rewrite (coord_sum_perm j _ _ H). auto.
Qed.

(* vectors are determined by their coordinates *)
Lemma vec_ext (a b : vec N) :
  length a = length b -> (forall j, j < length a -> nth j a f0 = nth j b f0) -> a = b.
Proof. intros. eapply nth_ext; eauto. Qed.

Lemma nth_scale_mul (v : vec N) s j : j < length v -> nth j (vec_mul_scalar v s) f0 = fmul (nth j v f0) s.
Proof.
  intros H. unfold vec_mul_scalar.
  set (f := fun x : F N => fmul x s).
  rewrite nth_indep with (d' := f f0) by (rewrite map_length; auto).
  rewrite (map_nth f); auto.
Qed.
Lemma nth_scale_div (v : vec N) s j : j < length v -> nth j (vec_div_scalar v s) f0 = fdiv (nth j v f0) s.
Proof.
  intros H. unfold vec_div_scalar.
  set (f := fun x : F N => fdiv x s).
  rewrite nth_indep with (d' := f f0) by (rewrite map_length; auto).
  rewrite (map_nth f); auto.
Qed.
End Exact.

Section Zip.
Context {N : Num}.
Lemma zipw_length f (a b : vec N) : length (zipw f a b) = min (length a) (length b).
Proof. unfold zipw. rewrite map_length, combine_length; auto. Qed.
Lemma nth_zipw f (a b : vec N) j :
  length a = length b -> j < length a -> nth j (zipw f a b) f0 = f (nth j a f0) (nth j b f0).
Proof.
  revert b j; induction a as [|x a IH]; intros [|y b] j Hl Hj; simpl in *; try lia.
  destruct j as [|j]; auto. apply IH; lia.
Qed.
Lemma mul_length (v : vec N) s : length (vec_mul_scalar v s) = length v.
Proof. apply map_length. Qed.
Lemma div_length (v : vec N) s : length (vec_div_scalar v s) = length v.
Proof. apply map_length. Qed.
Lemma vec_add_eq (a b : vec N) : length a = length b -> or_nil (vec_add a b) = zipw fadd a b.
Proof. intros H. unfold vec_add. rewrite H, Nat.eqb_refl. reflexivity. Qed.
Lemma vec_sub_eq (a b : vec N) : length a = length b -> or_nil (vec_sub a b) = zipw fsub a b.
Proof. intros H. unfold vec_sub. rewrite H, Nat.eqb_refl. reflexivity. Qed.
Lemma add_length (a b : vec N) n : length a = n -> length b = n -> length (or_nil (vec_add a b)) = n.
Proof. intros Ha Hb. rewrite vec_add_eq by lia. rewrite zipw_length. lia. Qed.
Lemma sub_length (a b : vec N) n : length a = n -> length b = n -> length (or_nil (vec_sub a b)) = n.
Proof. intros Ha Hb. rewrite vec_sub_eq by lia. rewrite zipw_length. lia. Qed.
End Zip.

Section ExactVec.
Context {N : Num} (HX : ExactNum N).
Add Ring exring2 : (ex_ring HX).
Add Field exfield2 : (ex_field HX).

(* Weighted incremental updates of a mean, coordinate-wise. *)
Lemma mean_add n (vs : list (vec N)) (v w : vec N) :
  length v = n -> length w = n ->
  (vs <> [] -> v = mean_of n vs) ->
  vec_div_scalar (or_nil (vec_add (vec_mul_scalar v (fofnat (length vs))) w))
                 (fadd (fofnat (length vs)) f1) = mean_of n (vs ++ [w]).
Proof.
  intros Hv Hw Hm.
  rewrite vec_add_eq by (rewrite mul_length; lia).
  apply vec_ext.
  - rewrite div_length, zipw_length, mul_length, mean_of_length. lia.
  - intros j Hj. rewrite div_length, zipw_length, mul_length in Hj.
    rewrite nth_scale_div by (rewrite zipw_length, mul_length; lia).
    rewrite nth_zipw by (rewrite ?mul_length; lia).
    rewrite nth_scale_mul by lia.
    rewrite nth_mean_of by lia.
    rewrite (coord_sum_app HX), coord_sum_cons, coord_sum_nil.
    rewrite app_length. cbn [length]. rewrite Nat.add_1_r, (ofnat_S HX).
    f_equal.
    destruct vs as [|v0 vs'].
    + cbn [length]. rewrite coord_sum_nil. change (fofnat 0) with (f0 : F N). ring.
    + rewrite Hm by discriminate. rewrite nth_mean_of by lia.
      set (L := fofnat (length (v0 :: vs'))).
      assert (HL : L <> f0) by (apply (ofnat_nz HX); simpl; lia).
      rewrite (ex_div_eq HX) by auto. ring.
Qed.

Lemma mean_sub n (vs : list (vec N)) (v w : vec N) i :
  length v = n -> length w = n -> nth_error vs i = Some w -> 1 < length vs ->
  v = mean_of n vs ->
  vec_div_scalar (or_nil (vec_sub (vec_mul_scalar v (fofnat (length vs))) w))
                 (fofnat (length vs - 1)) = mean_of n (remove_at i vs).
Proof.
  intros Hv Hw Hi Hl Hm.
  rewrite vec_sub_eq by (rewrite mul_length; lia).
  apply vec_ext.
  - rewrite div_length, zipw_length, mul_length, mean_of_length. lia.
  - intros j Hj. rewrite div_length, zipw_length, mul_length in Hj.
    rewrite nth_scale_div by (rewrite zipw_length, mul_length; lia).
    rewrite nth_zipw by (rewrite ?mul_length; lia).
    rewrite nth_scale_mul by lia.
    rewrite nth_mean_of by lia.
    rewrite remove_at_length by (eapply nth_error_len; eauto).
    f_equal. rewrite Hm, nth_mean_of by lia.
    rewrite (ex_div_eq HX) by (apply (ofnat_nz HX); lia).
    rewrite (coord_sum_perm HX j _ _ (remove_at_perm vs i w Hi)), coord_sum_cons. ring.
Qed.

(* Replacing one of the vectors (the manager's prepVecUpdate). *)
Lemma mean_replace n (vs : list (vec N)) (v old new : vec N) i :
  length v = n -> length old = n -> length new = n -> nth_error vs i = Some old ->
  v = mean_of n vs ->
  vec_div_scalar (or_nil (vec_add (or_nil (vec_sub (vec_mul_scalar v (fofnat (length vs))) old)) new))
                 (fofnat (length vs)) = mean_of n (list_set vs i new).
Proof.
  intros Hv Ho Hn Hi Hm.
  assert (Hil : i < length vs) by (eapply nth_error_len; eauto).
  rewrite vec_sub_eq by (rewrite mul_length; lia).
  rewrite vec_add_eq by (rewrite zipw_length, mul_length; lia).
  apply vec_ext.
  - rewrite div_length, !zipw_length, mul_length, mean_of_length. lia.
  - intros j Hj. rewrite div_length, !zipw_length, mul_length in Hj.
    rewrite nth_scale_div by (rewrite !zipw_length, mul_length; lia).
    rewrite nth_zipw by (rewrite ?zipw_length, ?mul_length; lia).
    rewrite nth_zipw by (rewrite ?mul_length; lia).
    rewrite nth_scale_mul by lia.
    rewrite nth_mean_of by lia. rewrite list_set_length.
    f_equal. rewrite Hm, nth_mean_of by lia.
    rewrite (ex_div_eq HX) by (apply (ofnat_nz HX); lia).
    destruct (list_set_split vs i old new Hi) as [H1 H2].
    rewrite H2. rewrite H1 at 1.
    rewrite !(coord_sum_app HX), !coord_sum_cons. ring.
Qed.

(* The running sum of VecMean. *)
Lemma fold_zipw_nth n (vs : list (vec N)) : forall v : vec N,
  length v = n -> Forall (fun w => length w = n) vs ->
  length (fold_left (zipw fadd) vs v) = n /\
  forall j, j < n -> nth j (fold_left (zipw fadd) vs v) f0 = coord_sum j (v :: vs).
Proof.
  induction vs as [|w vs IH]; intros v Hv Hf; cbn [fold_left].
  - split; auto. intros j Hj. rewrite coord_sum_cons, coord_sum_nil. ring.
  - inversion Hf as [|? ? Hw Hvs]; subst. destruct (IH (zipw fadd v w)) as [H1 H2]; auto.
    { rewrite zipw_length. lia. }
    split; auto. intros j Hj. rewrite H2 by auto. rewrite !coord_sum_cons.
    rewrite nth_zipw by lia. ring.
Qed.
Lemma fold_count (vs : list (vec N)) : forall k,
  fold_left (fun (c : F N) _ => fadd c f1) vs (fofnat k) = fofnat (k + length vs).
Proof.
  induction vs as [|w vs IH]; intros k; cbn [fold_left length].
  - f_equal; lia.
  - rewrite <- (ofnat_S HX), IH. f_equal; lia.
Qed.
Lemma mean_fold n (vs : list (vec N)) (v : vec N) :
  length v = n -> Forall (fun w => length w = n) vs ->
  map (fun x => fdiv x (fold_left (fun (c : F N) _ => fadd c f1) vs f1)) (fold_left (zipw fadd) vs v)
  = mean_of n (v :: vs).
Proof.
  intros Hv Hf. destruct (fold_zipw_nth n vs v Hv Hf) as [H1 H2].
  change (f1 : F N) with (@fofnat N 1) at 2. rewrite fold_count.
  apply vec_ext.
  - rewrite map_length, mean_of_length; auto.
  - intros j Hj. rewrite map_length, H1 in Hj.
    pose proof (nth_scale_div (fold_left (zipw fadd) vs v) (fofnat (1 + length vs)) j ltac:(lia)) as H3.
    unfold vec_div_scalar in H3. rewrite H3, H2 by auto.
    rewrite nth_mean_of by auto. reflexivity.
Qed.
Lemma mean_singleton n (v : vec N) : length v = n -> mean_of n [v] = v.
Proof.
  intros Hv. apply vec_ext; [rewrite mean_of_length; auto|].
  rewrite mean_of_length. intros j Hj. rewrite nth_mean_of by auto.
  rewrite coord_sum_cons, coord_sum_nil. cbn [length].
  apply (ex_div N HX); [apply (ofnat_nz HX); lia|].
  change (fofnat 1) with (f1 : F N). ring.
Qed.
End ExactVec.
