(* Slices that are not shared behave like lists. *)
From Verif Require Import Base Num MathUtils Env Wp Memory.

Ltac splits := repeat match goal with |- _ /\ _ => split end.

Section Ops.
Context {A : Type} (zero : A) (room : nat -> nat -> nat).
Notation mem := (mem A).

Lemma nodup_set {B} (l : list B) i x y : NoDup l -> nth_error l i = Some x -> ~ In y l \/ y = x -> NoDup (list_set l i y).
Proof.
  intros Hn Hi [Hy| ->]; [|rewrite list_set_id; auto].
  destruct (nth_error_split l i Hi) as (l1 & l2 & -> & <-).
  assert (E : list_set (l1 ++ x :: l2) (length l1) y = l1 ++ y :: l2).
  { clear. induction l1; simpl; congruence. }
  rewrite E. apply NoDup_remove in Hn. destruct Hn as (Hn & Hx).
  apply NoDup_Add with (a := y) (l := l1 ++ l2); [apply Add_app|]. split; auto.
  intros Hin. apply Hy. rewrite in_app_iff in *. simpl. tauto.
Qed.

Lemma list_set_comm {B} (l : list B) i j x y : i <> j -> list_set (list_set l i x) j y = list_set (list_set l j y) i x.
Proof.
  revert i j. induction l as [|z l IH]; intros [|i] [|j] H; simpl; auto; try congruence. f_equal. apply IH. congruence.
Qed.

Lemma list_ext {B} (l l' : list B) : (forall i, nth_error l i = nth_error l' i) -> l = l'.
Proof.
  revert l'. induction l as [|x l IH]; intros [|y l'] H; auto.
  - specialize (H 0). discriminate.
  - specialize (H 0). discriminate.
  - f_equal; [specialize (H 0); simpl in H; congruence|]. apply IH. intros i. apply (H (S i)).
Qed.

Lemma arr_inj (m : mem) v w s s' : unshared m -> nth_error (m_vars m) v = Some s -> nth_error (m_vars m) w = Some s' ->
  sl_arr s = sl_arr s' -> v = w.
Proof.
  intros (Hn & _) Hv Hw He. apply (proj1 (NoDup_nth_error _) Hn).
  - rewrite map_length. apply nth_error_Some. congruence.
  - rewrite !nth_error_map, Hv, Hw. simpl. congruence.
Qed.

Lemma valid (m : mem) v s : unshared m -> nth_error (m_vars m) v = Some s ->
  exists a, nth_error (m_arrs m) (sl_arr s) = Some a /\ sl_len s <= length a.
Proof. intros (_ & H) Hv. rewrite Forall_forall in H. apply H. eapply nth_error_In; eauto. Qed.

Lemma fresh_arr (m : mem) : unshared m -> ~ In (length (m_arrs m)) (map sl_arr (m_vars m)).
Proof.
  intros Hu Hin. apply in_map_iff in Hin. destruct Hin as (s0 & He & Hs0).
  apply In_nth_error in Hs0. destruct Hs0 as (w & Hw). destruct (valid m w s0 Hu Hw) as (a & Hn & _).
  assert (sl_arr s0 < length (m_arrs m)) by (apply nth_error_Some; congruence). lia.
Qed.

Lemma put_var (m : mem) v s arrs s' : unshared m -> nth_error (m_vars m) v = Some s ->
  (forall a, a < length (m_arrs m) -> a <> sl_arr s -> nth_error arrs a = nth_error (m_arrs m) a) ->
  sl_arr s' = sl_arr s \/ ~ In (sl_arr s') (map sl_arr (m_vars m)) ->
  (exists a, nth_error arrs (sl_arr s') = Some a /\ sl_len s' <= length a) ->
  let m' := MkMem arrs (list_set (m_vars m) v s') in
  unshared m' /\ contents m' = list_set (contents m) v (shown m' s').
Proof.
  intros Hu Hv Hf Ha Hok m'. split.
  - split; cbn [m' m_vars m_arrs].
    + rewrite map_list_set. apply nodup_set with (x := sl_arr s).
      * apply Hu.
      * rewrite nth_error_map, Hv. reflexivity.
      * destruct Ha as [->|Ha]; auto.
    + apply Forall_forall. intros s0 Hs0. apply In_nth_error in Hs0. destruct Hs0 as (w & Hw).
      destruct (Nat.eq_dec v w) as [<-|Hne].
      * rewrite list_set_same in Hw by (apply nth_error_Some; congruence). injection Hw as <-. exact Hok.
      * rewrite list_set_other in Hw by auto. destruct (valid m w s0 Hu Hw) as (a & Hn & Hl). exists a. split; auto.
        rewrite Hf; auto; [apply nth_error_Some; congruence|]. intros He. apply Hne. eapply arr_inj; eauto.
  - unfold contents at 1. cbn [m' m_vars]. apply list_ext. intros w. rewrite nth_error_map.
    destruct (Nat.eq_dec v w) as [<-|Hne].
    + assert (v < length (m_vars m)) by (apply nth_error_Some; congruence).
      rewrite !list_set_same; auto. unfold contents. rewrite map_length. auto.
    + rewrite !list_set_other by auto. unfold contents. rewrite nth_error_map.
      destruct (nth_error (m_vars m) w) as [s0|] eqn:Hw; [|reflexivity]. simpl. f_equal. unfold shown. f_equal.
      cbn [m' m_arrs]. destruct (valid m w s0 Hu Hw) as (a & Hn & _).

      assert (Ho : nth_error arrs (sl_arr s0) = Some a).
      { rewrite Hf; auto; [apply nth_error_Some; congruence|]. intros He. apply Hne. eapply arr_inj; eauto. }
      rewrite (nth_error_nth _ _ _ Ho), (nth_error_nth _ _ _ Hn). reflexivity.
Qed.

(* append in place or in a new array. *)
Lemma append_ok (m : mem) v s a n xs : unshared m -> nth_error (m_vars m) v = Some s -> nth_error (m_arrs m) (sl_arr s) = Some a ->
  n <= sl_len s -> sl_len s <= length a ->
  let m' := append_to zero room m v (MkSlice (sl_arr s) n) a xs in
  unshared m' /\ contents m' = list_set (contents m) v (firstn n a ++ xs).
Proof.
  intros Hu Hv Hn Hln Hl. unfold append_to. cbn [sl_len sl_arr].
  assert (Hb : sl_arr s < length (m_arrs m)) by (apply nth_error_Some; congruence).
  assert (Hfl : length (firstn n a) = n) by (apply firstn_length_le; lia).
  destruct (n + length xs <=? length a) eqn:Hc.
  - apply Nat.leb_le in Hc.
    edestruct (put_var m v s (list_set (m_arrs m) (sl_arr s) (overwrite a n xs)) (MkSlice (sl_arr s) (n + length xs)))
      as (H1 & H2); auto.
    + intros b Hbl Hbn. apply list_set_other. auto.
    + cbn [sl_arr sl_len]. exists (overwrite a n xs). rewrite list_set_same by auto. split; auto.
      unfold overwrite. rewrite !app_length, Hfl, skipn_length. lia.
    + split; auto. rewrite H2. f_equal. unfold shown. cbn [sl_arr sl_len m_arrs].
      erewrite nth_error_nth by (rewrite list_set_same by auto; reflexivity). unfold overwrite.
      rewrite app_assoc, firstn_app, !app_length, Hfl. rewrite Nat.sub_diag. cbn [firstn]. rewrite app_nil_r.
      apply firstn_all2. rewrite app_length. lia.
  - edestruct (put_var m v s (m_arrs m ++ [firstn n a ++ xs ++ repeat zero (room (length a) (n + length xs))]) (MkSlice (length (m_arrs m)) (n + length xs)))
      as (H1 & H2); auto.
    + intros b Hbl Hbn. apply nth_error_app1. auto.
    + right. apply fresh_arr. auto.
    + cbn [sl_arr sl_len]. eexists. split; [rewrite nth_error_app2, Nat.sub_diag by auto; reflexivity|].
      rewrite !app_length, Hfl. lia.
    + split; auto. rewrite H2. f_equal. unfold shown. cbn [sl_arr sl_len m_arrs].
      erewrite nth_error_nth by (rewrite nth_error_app2, Nat.sub_diag by auto; reflexivity).
      rewrite app_assoc, firstn_app, !app_length, Hfl, Nat.sub_diag. cbn [firstn]. rewrite app_nil_r.
      apply firstn_all2. rewrite app_length. lia.
Qed.

(* The same outcome, with related results. *)
Definition same_run {X Y} (R : X -> Y -> Prop) (x : outcome (X * nat)) (y : outcome (Y * nat)) : Prop :=
  match x, y with
  | Ok (a, t), Ok (b, u) => t = u /\ R a b
  | Panic, Panic | OutOfFuel, OutOfFuel => True
  | _, _ => False
  end.

Lemma new_var (m : mem) arr : unshared m -> 
  let m' := MkMem (m_arrs m ++ [arr]) (m_vars m ++ [MkSlice (length (m_arrs m)) 0]) in
  unshared m' /\ contents m' = contents m ++ [[]].
Proof.
  intros Hu m'.
  assert (Hb : forall s, In s (m_vars m) -> sl_arr s < length (m_arrs m)).
  { intros s Hs. apply In_nth_error in Hs. destruct Hs as (w & Hw). destruct (valid m w s Hu Hw) as (a & Hn & _).
    apply nth_error_Some. congruence. }
  split; [split; cbn [m' m_vars m_arrs]|].
  - rewrite map_app. apply NoDup_Add with (a := length (m_arrs m)) (l := map sl_arr (m_vars m)).
    + rewrite <- (app_nil_r (map sl_arr (m_vars m))) at 1. apply Add_app.
    + split; [apply Hu|]. intros Hin. apply in_map_iff in Hin. destruct Hin as (s & He & Hs). apply Hb in Hs. lia.
  - apply Forall_app. split.
    + apply Forall_forall. intros s Hs. pose proof (Hb s Hs). destruct Hu as (_ & Hu). rewrite Forall_forall in Hu.
      destruct (Hu s Hs) as (a & Hn & Hl). exists a. split; auto. rewrite nth_error_app1; auto.
    + constructor; [|constructor]. exists arr. cbn [sl_arr sl_len]. rewrite nth_error_app2, Nat.sub_diag by auto. split; [reflexivity|lia].
  - unfold contents. cbn [m' m_vars]. rewrite map_app. f_equal.
    apply map_ext_in. intros s Hs. apply Hb in Hs. unfold shown. cbn [m' m_arrs]. rewrite app_nth1; auto.
Qed.

Lemma op_ok {B} (o : op A B) m t : unshared m ->
  same_run (fun x y => fst x = fst y /\ unshared (snd x) /\ contents (snd x) = snd y)
    (exec_op zero room o m t) (list_op o (contents m) t).
Proof.
  intros Hu.
  assert (HX : forall v, nth_error (contents m) v = option_map (shown m) (nth_error (m_vars m) v))
    by (intros v; apply nth_error_map).
  assert (HV : forall v s, nth_error (m_vars m) v = Some s -> exists a, nth_error (m_arrs m) (sl_arr s) = Some a /\
    sl_len s <= length a /\ shown m s = firstn (sl_len s) a /\ length (shown m s) = sl_len s).
  { intros v s Hv. destruct (valid m v s Hu Hv) as (a & Hn & Hl). exists a. unfold shown.
    rewrite (nth_error_nth _ _ _ Hn). splits; auto. apply firstn_length_le; auto. }
  destruct o; cbn [exec_op list_op]; unfold bind, index.
  - cbn. destruct (new_var m (repeat zero cap) Hu) as (H1 & H2). unfold contents at 1. rewrite map_length. auto.
  - rewrite HX. destruct (nth_error (m_vars m) v) as [s|] eqn:Hv; [|exact I]; cbn [option_map ret].
    destruct (HV v s Hv) as (a & _ & _ & _ & ->). cbn. auto.
  - rewrite HX. destruct (nth_error (m_vars m) v) as [s|] eqn:Hv; [|exact I]; cbn [option_map ret].
    destruct (HV v s Hv) as (a & -> & Hl & Hs & _). rewrite Hs. cbn [ret].
    destruct (i <? sl_len s) eqn:Hi.
    + apply Nat.ltb_lt in Hi. 
      assert (He : nth_error (firstn (sl_len s) a) i = nth_error a i).
      { rewrite <- (firstn_skipn (sl_len s) a) at 2. symmetry. apply nth_error_app1. rewrite firstn_length_le; auto. }
      rewrite He. destruct (nth_error a i); cbn; auto.
    + apply Nat.ltb_ge in Hi. rewrite (proj2 (nth_error_None (firstn (sl_len s) a) i)); [cbn; auto|].
      rewrite firstn_length_le; auto.
  - rewrite HX. destruct (nth_error (m_vars m) v) as [s|] eqn:Hv; [|exact I]; cbn [option_map ret].
    destruct (HV v s Hv) as (a & -> & Hl & Hs & _). cbn. rewrite Hs. auto.
  - rewrite HX. destruct (nth_error (m_vars m) v) as [s|] eqn:Hv; [|exact I]; cbn [option_map ret].
    destruct (HV v s Hv) as (a & Hn & Hl & Hs & _). rewrite Hn. cbn.
    destruct (append_ok m v s a (sl_len s) xs Hu Hv Hn) as (H1 & H2); auto.
    replace (MkSlice (sl_arr s) (sl_len s)) with s in * by (destruct s; reflexivity). rewrite Hs. auto.
  - rewrite HX. destruct (nth_error (m_vars m) v) as [s|] eqn:Hv; [|exact I]; cbn [option_map ret].
    destruct (HV v s Hv) as (a & Hn & Hl & Hs & Hsl). rewrite Hn. cbn [ret]. rewrite Hsl.
    destruct (i <? sl_len s) eqn:Hi; [|cbn; auto]. apply Nat.ltb_lt in Hi.
    destruct (append_ok m v s a i (skipn (S i) (firstn (sl_len s) a)) Hu Hv Hn) as (H1 & H2); try lia.
    cbv beta iota zeta delta [same_run ret fst snd]. splits; auto. rewrite H2. f_equal. rewrite Hs. unfold remove_at. f_equal.
    rewrite firstn_firstn. f_equal. lia.
  - rewrite !HX. destruct (nth_error (m_vars m) w) as [s|] eqn:Hw; [|exact I]; cbn [option_map ret].
    destruct (nth_error (m_vars m) v) as [s0|] eqn:Hv; [|exact I]; cbn [option_map ret]. 
    destruct (HV w s Hw) as (a & Hn & Hl & Hs & _).
    destruct (put_var m w s (m_arrs m ++ [[]]) (MkSlice (length (m_arrs m)) 0)) as (H1 & H2); auto.
    { intros b Hb _. apply nth_error_app1. auto. }
    { right. apply fresh_arr. auto. }
    { exists []. cbn [sl_arr sl_len]. rewrite nth_error_app2, Nat.sub_diag by auto. split; [reflexivity|simpl; lia]. }
    cbv zeta in *. set (m1 := MkMem (m_arrs m ++ [[]]) (list_set (m_vars m) w (MkSlice (length (m_arrs m)) 0))) in *.
    cbv beta iota delta [same_run ret fst snd].
    destruct (Nat.eq_dec v w) as [<-|Hne].
    + rewrite !list_set_set. splits; auto.
    + rewrite (list_set_comm (m_vars m)), (list_set_comm (contents m)) by auto.
      assert (Hv1 : nth_error (m_vars m1) v = Some s0) by (cbn [m1 m_vars]; rewrite list_set_other; auto).
      assert (Hb : sl_arr s < length (m_arrs m)) by (apply nth_error_Some; congruence).
      destruct (put_var m1 v s0 (m_arrs m1) s H1 Hv1) as (H3 & H4); auto.
      { right. intros Hin. apply in_map_iff in Hin. destruct Hin as (s2 & He & Hs2).
        apply In_nth_error in Hs2. destruct Hs2 as (u & Hu2). cbn [m1 m_vars] in Hu2.
        destruct (Nat.eq_dec w u) as [<-|Hne2].
        - rewrite list_set_same in Hu2 by (apply nth_error_Some; congruence). injection Hu2 as <-. cbn in He. lia.
        - rewrite list_set_other in Hu2 by auto. apply Hne2. apply (arr_inj m w u s s2); auto. }
      { exists a. cbn [m1 m_arrs]. rewrite nth_error_app1 by auto. auto. }
      cbv zeta in *. splits; auto. cbn [m1 m_arrs m_vars] in H4. rewrite H4. fold m1. rewrite H2. f_equal.
      unfold shown. cbn [m_arrs]. rewrite app_nth1; auto.
Qed.
End Ops.

Section Progs.
Context {N : Num} (room : nat -> nat -> nat).

(* What code does on a heap without shared arrays is what it does on lists. *)
Lemma prog_ok {R} (p : prog N R) : forall h t, heap_ok h ->
  same_run (fun x y => fst x = fst y /\ heap_ok (snd x) /\ lists_of (snd x) = snd y)
    (run_heap room p h t) (run_lists p (lists_of h) t).
Proof.
  induction p as [r|X m k IH|X o k IH|X o k IH|v x k IH|p k IH|p v k IH]; intros h t Hh; cbn [run_heap run_lists].
  - cbn. auto.
  - unfold bind. destruct (m t) as [[a u]| |]; cbn; auto.
  - pose proof (op_ok zero_dp room o (h_data h) t (proj1 Hh)) as H. unfold bind. cbn [lists_of l_data l_ptrs l_objs].
    destruct (exec_op zero_dp room o (h_data h) t) as [[[a d] u]| |],
      (list_op o (contents (h_data h)) t) as [[[a' d'] u']| |]; cbn in H |- *; auto; try contradiction.
    destruct H as (<- & <- & Hu & <-). apply (IH a (MkHeap d (h_ptrs h) (h_objs h))). split; [auto|apply Hh].
  - pose proof (op_ok 0 room o (h_ptrs h) t (proj2 Hh)) as H. unfold bind. cbn [lists_of l_data l_ptrs l_objs].
    destruct (exec_op 0 room o (h_ptrs h) t) as [[[a d] u]| |],
      (list_op o (contents (h_ptrs h)) t) as [[[a' d'] u']| |]; cbn in H |- *; auto; try contradiction.
    destruct H as (<- & <- & Hu & <-). apply (IH a (MkHeap (h_data h) d (h_objs h))). split; [apply Hh|auto].
  - cbn [lists_of l_objs l_data l_ptrs]. apply (IH _ (MkHeap (h_data h) (h_ptrs h) (h_objs h ++ [(v, x)]))). auto.
  - cbn [lists_of l_objs]. unfold bind, index. destruct (nth_error (h_objs h) p); cbn; auto.
  - cbn [lists_of l_objs l_data l_ptrs]. unfold bind, index. destruct (nth_error (h_objs h) p) as [o|]; cbn; auto.
    apply (IH (MkHeap (h_data h) (h_ptrs h) (list_set (h_objs h) p (v, snd o)))). auto.
Qed.
End Progs.
