(* Capacities: which variables a program writes, and what MemTrim leaves. *)
From Verif Require Import Base Num MathUtils Env Wp Centroid CManager History Memory MemProofs MemCentroid MemSim MemCenProofs
  MemManager MemMgrProofs MemMgrProofs2 MemSpec MemTop.

(* Capacity k for n elements, where append leaves at most K spare places per element. *)
Definition tight (K : nat) (r : option (nat * nat)) : Prop :=
  exists n k, r = Some (n, k) /\ k <= (K + 1) * n.

Section Keeps.
Context {A : Type} (zero : A) (room : nat -> nat -> nat).
Notation mem := (mem A).

(* The variables in X may have changed. *)
Definition keeps (X : list nat) (m m' : mem) : Prop :=
  length (m_vars m) <= length (m_vars m') /\
  (forall i a, nth_error (m_arrs m) i = Some a -> exists a', nth_error (m_arrs m') i = Some a' /\ length a' = length a) /\
  (forall w, w < length (m_vars m) -> ~ In w X -> nth_error (m_vars m') w = nth_error (m_vars m) w).

Lemma keeps0 X m : keeps X m m.
Proof. unfold keeps. splits; eauto. Qed.
Lemma keeps_mono X Y m m' : keeps X m m' -> (forall w, In w X -> w < length (m_vars m) -> In w Y) -> keeps Y m m'.
Proof. intros (H1 & H2 & H3) HX. unfold keeps. splits; auto. Qed.
Lemma keeps_trans X m m1 m2 : keeps X m m1 -> keeps X m1 m2 -> keeps X m m2.
Proof.
  intros (H1 & H2 & H3) (K1 & K2 & K3). unfold keeps. splits; [lia| |].
  - intros i a Hi. destruct (H2 i a Hi) as (b & Hb & Hl). destruct (K2 i b Hb) as (c & Hc & Hm). exists c. split; auto. congruence.
  - intros w Hw Hx. rewrite K3, H3; auto. lia.
Qed.
Lemma keeps_room X m m' w n k : keeps X m m' -> ~ In w X -> room_of m w = Some (n, k) -> room_of m' w = Some (n, k).
Proof.
  intros (H1 & H2 & H3) Hw. unfold room_of. destruct (nth_error (m_vars m) w) as [s|] eqn:Es; cbv beta iota; [|discriminate].
  assert (w < length (m_vars m)) by (apply nth_error_Some; congruence). rewrite H3, Es by auto.
  destruct (nth_error (m_arrs m) (sl_arr s)) as [a|] eqn:Ea; cbv beta iota; [|discriminate]. destruct (H2 _ _ Ea) as (a' & -> & ->). auto.
Qed.

Definition writes {B} (o : op A B) : list nat :=
  match o with App v _ => [v] | Del v _ => [v] | Move v w => [v; w] | _ => [] end.
Definition grows {B} (o : op A B) : B -> list nat := match o with New _ => fun y => [y] | _ => fun _ => [] end.

Definition reads {B} (o : op A B) : bool := match o with Len _ | Get _ _ | All _ => true | _ => false end.

Lemma overwrite_length (a : list A) i xs : i + length xs <= length a -> length (overwrite a i xs) = length a.
Proof. intros H. unfold overwrite. rewrite !app_length, firstn_length, skipn_length. lia. Qed.

Lemma append_keeps m v s a xs : nth_error (m_arrs m) (sl_arr s) = Some a ->
  keeps [v] m (append_to zero room m v s a xs).
Proof.
  intros Ha. unfold append_to, keeps. destruct (Nat.leb_spec (sl_len s + length xs) (length a)) as [Hl|Hl]; splits; cbn [m_vars m_arrs].
  - rewrite list_set_length. auto.
  - intros i b Hb. destruct (Nat.eq_dec i (sl_arr s)) as [->|Hi].
    + rewrite list_set_same by (apply nth_error_Some; congruence). eexists. split; eauto.
      rewrite overwrite_length by auto. congruence.
    + rewrite list_set_other by auto. eauto.
  - intros w Hw Hx. rewrite list_set_other; auto. intros <-. apply Hx. simpl. auto.
  - rewrite list_set_length. auto.
  - intros i b Hb. exists b. split; auto. rewrite nth_error_app1; auto. apply nth_error_Some. congruence.
  - intros w Hw Hx. rewrite list_set_other; auto. intros <-. apply Hx. simpl. auto.
Qed.

Lemma exec_keeps {B} (o : op A B) m t b m' t' : exec_op zero room o m t = Ok ((b, m'), t') ->
  keeps (writes o) m m' /\ (forall y, In y (grows o b) -> y = length (m_vars m)).
Proof.
  destruct o as [c|v|v i|v|v xs|v i|v w]; cbn [exec_op writes grows]; unfold bind, index, ret, panic; cbv beta iota.
  - intros H. injection H as <- <- <-. split; [|intros y [<-|[]]; auto]. unfold keeps; splits; cbn [m_vars m_arrs].
    + rewrite app_length. lia.
    + intros i a Hi. exists a. split; auto. rewrite nth_error_app1; auto. apply nth_error_Some. congruence.
    + intros w Hw _. rewrite nth_error_app1; auto.
  - destruct (nth_error _ v); cbv beta iota; [|discriminate]. intros H. injection H as <- <- <-. split; [apply keeps0|intros y []].
  - destruct (nth_error _ v); cbv beta iota; [|discriminate]. destruct (nth_error (m_arrs m) (sl_arr s)); cbv beta iota; [|discriminate].
    destruct (i <? sl_len s); cbv beta iota; [|discriminate]. destruct (nth_error l i); cbv beta iota; [|discriminate].
    intros H. injection H as <- <- <-. split; [apply keeps0|intros y []].
  - destruct (nth_error _ v); cbv beta iota; [|discriminate]. destruct (nth_error (m_arrs m) (sl_arr s)); cbv beta iota; [|discriminate].
    intros H. injection H as <- <- <-. split; [apply keeps0|intros y []].
  - destruct (nth_error _ v) as [s|]; cbv beta iota; [|discriminate]. destruct (nth_error (m_arrs m) (sl_arr s)) as [a|] eqn:Ea; cbv beta iota; [|discriminate].
    intros H. injection H as <- <- <-. split; [|intros y []]. apply append_keeps. auto.
  - destruct (nth_error _ v) as [s|]; cbv beta iota; [|discriminate]. destruct (nth_error (m_arrs m) (sl_arr s)) as [a|] eqn:Ea; cbv beta iota; [|discriminate].
    destruct (i <? sl_len s); cbv beta iota; [|discriminate].
    intros H. injection H as <- <- <-. split; [|intros y []]. apply append_keeps. auto.
  - destruct (nth_error _ w) as [s|]; cbv beta iota; [|discriminate]. destruct (nth_error (m_vars m) v) as [s0|]; cbv beta iota; [|discriminate].
    intros H. injection H as <- <- <-. split; [|intros y []]. unfold keeps; splits; cbn [m_vars m_arrs].
    + rewrite !list_set_length. auto.
    + intros i a Hi. exists a. split; auto. rewrite nth_error_app1; auto. apply nth_error_Some. congruence.
    + intros u Hu Hx. rewrite !list_set_other; auto; intros <-; apply Hx; simpl; auto.
Qed.

Lemma exec_reads {B} (o : op A B) m t b m' t' : reads o = true -> exec_op zero room o m t = Ok ((b, m'), t') -> m' = m.
Proof.
  destruct o as [c|v|v i|v|v xs|v i|v w]; cbn [exec_op reads]; try discriminate; intros _; unfold bind, index, ret, panic; cbv beta iota.
  - destruct (nth_error _ v); cbv beta iota; [|discriminate]. congruence.
  - destruct (nth_error _ v); cbv beta iota; [|discriminate]. destruct (nth_error (m_arrs m) (sl_arr s)); cbv beta iota; [|discriminate].
    destruct (i <? sl_len s); [|discriminate]. destruct (nth_error l i); [|discriminate]. congruence.
  - destruct (nth_error _ v); cbv beta iota; [|discriminate]. destruct (nth_error (m_arrs m) (sl_arr s)); cbv beta iota; [|discriminate].
    congruence.
Qed.

End Keeps.

Section Foot.
Context {N : Num} (room : nat -> nat -> nat).
Notation heap := (heap N).

(* A program that writes to no variables of datapoints but those in X and its own, reads
   variables of pointers, and makes no centroids; os are the slices of the centroids. *)
Fixpoint foot (os X : list nat) {R} (p : prog N R) : Prop :=
  match p with
  | Done _ => True
  | Eff m k => forall x, foot os X (k x)
  | Data o k => incl (writes o) X /\ forall x, foot os (grows o x ++ X) (k x)
  | Ptrs o k => reads o = true /\ forall x, foot os X (k x)
  | NewObj v x k => False
  | GetObj p k => match nth_error os p with Some x => forall v, foot os X (k (v, x)) | None => True end
  | SetVec p v k => foot os X k
  end.

Definition slices (h : heap) : list nat := map snd (h_objs h).
Definition framed (X : list nat) (h h' : heap) : Prop :=
  keeps X (h_data h) (h_data h') /\ h_ptrs h' = h_ptrs h /\ slices h' = slices h.

Lemma framed_trans X h h1 h2 : framed X h h1 -> framed X h1 h2 -> framed X h h2.
Proof.
  intros (H1 & H2 & H3) (K1 & K2 & K3). unfold framed. splits; try congruence. eapply keeps_trans; eauto.
Qed.

Lemma foot_mono os {R} (p : prog N R) : forall X Y, foot os X p -> incl X Y -> foot os Y p.
Proof.
  induction p as [r|B m k IH|B o k IH|B o k IH|v x k IH|p k IH|p v k IH]; intros X Y; cbn [foot]; auto.
  - intros H HX x. eauto.
  - intros (H1 & H2) HX. split; [eapply incl_tran; eauto|]. intros x. eapply IH; eauto.
    intros y. rewrite !in_app_iff. intros [?|?]; auto.
  - intros (H1 & H2) HX. split; auto. intros x. eapply IH; eauto.
  - destruct (nth_error os p); auto. intros H HX v. eauto.
  - intros H HX. eauto.
Qed.
Lemma foot_bind os X {R S} (p : prog N R) (f : R -> prog N S) : foot os X p -> (forall r, foot os X (f r)) -> foot os X (mbind p f).
Proof.
  intros H Hf. assert (HX : incl X X) by apply incl_refl. revert H HX. generalize X at 1 3 4 as Y. 
  induction p as [r|B m k IH|B o k IH|B o k IH|v x k IH|p k IH|p v k IH]; intros Y; cbn [foot mbind]; auto.
  - intros _ HX. eapply foot_mono; eauto.
  - intros (H1 & H2) HX. split; auto. intros x. apply IH; auto. intros y Hy. apply in_or_app. auto.
  - intros (H1 & H2) HX. split; auto.
  - destruct (nth_error os p); auto.
Qed.

Lemma run_bind {R S} (p : prog N R) (f : R -> prog N S) : forall h t,
  run_heap room (mbind p f) h t = match run_heap room p h t with
    | Ok ((r, h1), t1) => run_heap room (f r) h1 t1 | Panic => Panic | OutOfFuel => OutOfFuel end.
Proof.
  induction p as [r|B m k IH|B o k IH|B o k IH|v x k IH|p k IH|p v k IH]; intros h t; cbn [run_heap mbind]; unfold bind; auto.
  - destruct (m t) as [[x u]| |]; auto.
  - destruct (exec_op zero_dp room o (h_data h) t) as [[[x d] u]| |]; auto.
  - destruct (exec_op 0 room o (h_ptrs h) t) as [[[x d] u]| |]; auto.
  - destruct (index (h_objs h) p t) as [[x u]| |]; auto.
  - destruct (index (h_objs h) p t) as [[x u]| |]; auto.
Qed.

Lemma foot_frame {R} (p : prog N R) : forall X h t r h' t', foot (slices h) X p ->
  run_heap room p h t = Ok ((r, h'), t') -> framed X h h'.
Proof.
  induction p as [r0|B m k IH|B o k IH|B o k IH|v x k IH|p k IH|p v k IH]; intros X h t r h' t'; cbn [foot run_heap]; unfold bind.
  - intros _ H. injection H as <- <- <-. unfold framed. splits; auto. apply keeps0.
  - intros H. destruct (m t) as [[x u]| |]; try discriminate. apply IH. auto.
  - intros (H1 & H2). destruct (exec_op zero_dp room o (h_data h) t) as [[[x d] u]| |] eqn:Eo; try discriminate. intros Hr.
    destruct (exec_keeps _ _ _ _ _ _ _ _ Eo) as (Hk & Hg).
    destruct (IH x (grows o x ++ X) (MkHeap d (h_ptrs h) (h_objs h)) _ _ _ _ (H2 x) Hr) as (K1 & K2 & K3). unfold framed. splits; auto.
    destruct K1 as (L1 & L2 & L3), Hk as (M1 & M2 & M3). cbn [h_data] in *. unfold keeps. splits; [lia| |].
    + intros i a Hi. destruct (M2 i a Hi) as (b & Hb & Hl). destruct (L2 i b Hb) as (c & Hc & Hm). exists c. split; auto. congruence.
    + intros w Hw Hx. rewrite L3, M3; auto; [lia|]. rewrite in_app_iff. intros [Hi|Hi]; auto. apply Hg in Hi. lia.
  - intros (H1 & H2). destruct (exec_op 0 room o (h_ptrs h) t) as [[[x d] u]| |] eqn:Eo; try discriminate. intros Hr.
    apply exec_reads in Eo; auto. subst d. apply (IH x X (MkHeap (h_data h) (h_ptrs h) (h_objs h)) _ _ _ _ (H2 x) Hr).
  - intros [].
  - unfold index. unfold slices at 1. rewrite nth_error_map. destruct (nth_error (h_objs h) p) as [[v x]|] eqn:Eo; try discriminate.
    cbn [option_map snd]. unfold ret. intros H. apply IH. apply H.
  - unfold index. destruct (nth_error (h_objs h) p) as [o|] eqn:Eo; try discriminate. cbn. unfold ret. intros H Hr.
    assert (Hs : slices (MkHeap (h_data h) (h_ptrs h) (list_set (h_objs h) p (v, snd o))) = slices h).
    { unfold slices. cbn [h_objs]. rewrite map_list_set. cbn [snd]. apply list_set_id. rewrite nth_error_map, Eo. reflexivity. }
    rewrite <- Hs in H. destruct (IH _ _ _ _ _ _ H Hr) as (K1 & K2 & K3). unfold framed. splits; auto. congruence.
Qed.

(* What holds if a program ends. *)
Definition hp {R} (p : prog N R) (h : heap) (Q : R -> heap -> Prop) : Prop :=
  forall t r h' t', run_heap room p h t = Ok ((r, h'), t') -> Q r h'.
Lemma hp_bind {R S} (p : prog N R) (f : R -> prog N S) h Q1 Q : hp p h Q1 -> (forall r h', Q1 r h' -> hp (f r) h' Q) ->
  hp (mbind p f) h Q.
Proof.
  intros Hp Hf t r h' t'. rewrite run_bind. destruct (run_heap room p h t) as [[[r1 h1] t1]| |] eqn:Er; try discriminate.
  apply Hf. eapply Hp; eauto.
Qed.
Lemma hp_foot {R S} X (p : prog N R) (f : R -> prog N S) h Q : foot (slices h) X p ->
  (forall r h', framed X h h' -> hp (f r) h' Q) -> hp (mbind p f) h Q.
Proof. intros Hp Hf. eapply hp_bind; [|exact Hf]. intros t r h' t' Hr. eapply foot_frame; eauto. Qed.
Lemma hp_done {R} (r : R) h (Q : R -> heap -> Prop) : Q r h -> hp (Done r) h Q.
Proof. intros H t r' h' t' Hr. cbn in Hr. injection Hr as <- <- <-. auto. Qed.
Lemma hp_mono {R} (p : prog N R) h (Q Q' : R -> heap -> Prop) : hp p h Q -> (forall r h', Q r h' -> Q' r h') -> hp p h Q'.
Proof. intros H HQ t r h' t' Hr. eauto. Qed.
End Foot.

(* ---- the footprints ---- *)
Section CenFoot.
Context {N : Num} (E : Env N).
Variable os : list nat.

Ltac ft := cbn [foot mbind data get_obj set_obj eff writes grows app]; auto.

Lemma foot_obj {R} X p (f : vec N * nat -> prog N R) : (forall v x, nth_error os p = Some x -> foot os X (f (v, x))) ->
  foot os X (mbind (get_obj p) f).
Proof. intros H. cbn. destruct (nth_error os p); auto. Qed.
Lemma foot_read {R B} X (o : op (DataPoint N) B) (f : B -> prog N R) : writes o = [] -> (forall x, grows o x = []) ->
  (forall x, foot os X (f x)) -> foot os X (mbind (data o) f).
Proof. intros Hw Hg H. cbn. rewrite Hw. split; [intros ? []|]. intros x. rewrite Hg. apply H. Qed.

Lemma foot_len X p : foot os X (len_m (N := N) p).
Proof. apply foot_obj. intros v x _. ft. split; [intros ? []|ft]. Qed.
Lemma foot_vec X p : foot os X (vec_m (N := N) p).
Proof. apply foot_obj. ft. Qed.
Lemma foot_dp X p i : foot os X (dp_m (N := N) p i).
Proof. apply foot_obj. intros v x _. ft. split; [intros ? []|ft]. Qed.
Lemma foot_rm X p i : (forall x, nth_error os p = Some x -> In x X) -> foot os X (rm_m (N := N) p i).
Proof.
  intros HX. apply foot_obj. intros v x Hx. apply foot_read; auto. intros n. apply foot_bind.
  - destruct (1 <? n); [|ft]. apply foot_read; auto. ft.
  - intros []. ft. split; auto. intros y [<-|[]]. auto.
Qed.
Lemma foot_drain_loop p y n fuel : forall X, In y X -> (forall x, nth_error os p = Some x -> In x X) ->
  foot os X (drain_loop_m E fuel p y n).
Proof.
  induction fuel as [|fuel IH]; intros X Hy HX; cbn [drain_loop_m]; (apply foot_bind; [apply foot_len|intros l]);
    (apply foot_read; auto; intros r); destruct (negb (l =? 0) && (r <? n)); ft.
  apply foot_bind; [apply foot_dp|]. intros d. cbn [foot]. intros e. apply foot_bind.
  - destruct e; ft. apply foot_bind; [apply foot_dp|]. intros d'. ft. split; auto. intros z [<-|[]]. auto.
  - intros []. apply foot_bind; [apply foot_rm; auto|]. intros []. apply IH; auto.
Qed.
Lemma foot_drain X p n : (forall x, nth_error os p = Some x -> In x X) -> foot os X (drain_unordered_m E p n).
Proof.
  intros HX. unfold drain_unordered_m. destruct (n <? 0)%Z; ft. split; [intros ? []|]. intros y.
  apply foot_bind; [apply foot_len|]. intros l. apply foot_bind; ft. apply foot_drain_loop; simpl; auto.
Qed.
Lemma foot_lens X : forall ps, foot os X (lens_m (N := N) ps).
Proof.
  induction ps as [|p ps IH]; cbn [lens_m]; ft. apply foot_bind; [apply foot_len|]. intros l. apply foot_bind; ft.
Qed.
End CenFoot.

Section Trim.
Context {N : Num} (E : Env N) (room : nat -> nat -> nat) (K : nat) (Hroom : forall c n, c < n -> room c n <= K * n).
Notation heap := (heap N).
Notation hp := (hp room).

(* A tight slice: the capacity suffices for the length. *)
Definition tight_var (h : heap) (y : nat) : Prop :=
  exists s a, nth_error (m_vars (h_data h)) y = Some s /\ nth_error (m_arrs (h_data h)) (sl_arr s) = Some a /\
    sl_len s <= length a /\ length a <= (K + 1) * sl_len s.
Lemma tight_room h y : tight_var h y -> tight K (room_of (h_data h) y).
Proof. intros (s & a & Hs & Ha & _ & Hk). unfold tight, room_of. rewrite Hs, Ha. eauto. Qed.
Lemma tight_framed X h h' y : framed X h h' -> ~ In y X -> tight_var h y -> tight_var h' y.
Proof.
  intros ((H1 & H2 & H3) & _) Hy (s & a & Hs & Ha & Hl & Hk). destruct (H2 _ _ Ha) as (a' & Ha' & Hl').
  exists s, a'. rewrite Hl'. splits; auto. rewrite H3; auto. apply nth_error_Some. congruence.
Qed.

Lemma app_tight h y ds : tight_var h y -> hp (data (App y ds)) h (fun _ h' => tight_var h' y /\ framed [y] h h').
Proof.
  intros (s & a & Hs & Ha & Hl & Hk) t r h' t' Hr. split.
  - cbn in Hr. unfold bind, index, ret in Hr. rewrite Hs in Hr. rewrite Ha in Hr. injection Hr as <- <- <-.
    unfold tight_var, append_to. cbn [h_data].
    assert (Hy : y < length (m_vars (h_data h))) by (apply nth_error_Some; congruence).
    destruct (Nat.leb_spec (sl_len s + length ds) (length a)) as [Hle|Hle]; cbn [m_vars m_arrs].
    + rewrite list_set_same by auto. eexists _, _. split; eauto. cbn [sl_arr sl_len].
      rewrite list_set_same by (apply nth_error_Some; congruence). split; eauto. rewrite overwrite_length by auto. split; nia.
    + rewrite list_set_same by auto. eexists _, _. split; eauto. cbn [sl_arr sl_len].
      rewrite nth_error_app2, Nat.sub_diag by auto. cbn [nth_error]. split; eauto.
      rewrite !app_length, firstn_length, repeat_length. specialize (Hroom (length a) (sl_len s + length ds) Hle). split; nia.
  - eapply foot_frame; eauto. cbn. split; auto. apply incl_refl.
Qed.

Lemma trim_loop_tight p x y fuel : forall h : heap, nth_error (slices h) p = Some x -> x <> y -> x < length (m_vars (h_data h)) -> tight_var h y ->
  hp (trim_loop_m E fuel p y) h (fun _ h' => tight_var h' y /\ framed [x; y] h h').
Proof.
  assert (Hf : forall (h : heap) X, nth_error (slices h) p = Some x -> In x X -> forall x', nth_error (slices h) p = Some x' -> In x' X).
  { intros h X Hx Hi x' Hx'. congruence. }
  induction fuel as [|fuel IH]; intros h Hx Hne Hlt Ht; cbn [trim_loop_m].
  - eapply (hp_foot room [] _ _ h); [apply foot_len|]. intros n h1 F1. destruct (0 <? n).
    + intros t r h' t' Hr. discriminate.
    + apply hp_done. split; [eapply tight_framed; eauto|]. destruct F1 as (F1 & F2 & F3). unfold framed. splits; auto. eapply keeps_mono; eauto. intros ? [].
  - eapply (hp_foot room [] _ _ h); [apply foot_len|]. intros n h1 F1. 
    assert (G1 : framed [x; y] h h1) by (destruct F1 as (F1 & F2 & F3); unfold framed; splits; auto; eapply keeps_mono; eauto; intros ? []).
    assert (T1 : tight_var h1 y) by (eapply tight_framed; [exact F1|intros []|auto]).
    destruct (0 <? n).
    2:{ apply hp_done. auto. }
    assert (Hx1 : nth_error (slices h1) p = Some x) by (destruct F1 as (_ & _ & ->); auto).
    eapply (hp_foot room [x] _ _ h1); [apply foot_drain; eapply Hf; simpl; eauto|]. intros z h2 F2.
    assert (G2 : framed [x; y] h h2).
    { eapply framed_trans; eauto. destruct F2 as (F2 & F3 & F4). unfold framed. splits; auto. eapply keeps_mono; eauto. intros w [<-|[]]; simpl; auto. }
    assert (T2 : tight_var h2 y) by (eapply tight_framed; [exact F2|intros [?|[]]; auto|auto]).
    eapply (hp_foot room [] _ _ h2); [cbn; split; auto; apply incl_refl|]. intros ds h3 F3.
    assert (G3 : framed [x; y] h h3).
    { eapply framed_trans; eauto. destruct F3 as (F3 & F4 & F5). unfold framed. splits; auto. eapply keeps_mono; eauto. intros w []. }
    assert (T3 : tight_var h3 y) by (eapply tight_framed; [exact F3|intros []|auto]).
    eapply hp_bind; [apply app_tight; exact T3|]. intros [] h4 (T4 & F4).
    assert (G4 : framed [x; y] h h4).
    { eapply framed_trans; eauto. destruct F4 as (F4 & F5 & F6). unfold framed. splits; auto. eapply keeps_mono; eauto. intros w [<-|[]]; simpl; auto. }
    eapply hp_mono; [apply IH; auto|].
    + destruct G4 as (_ & _ & ->). auto.
    + destruct G4 as ((G4 & _) & _). lia.
    + intros [] h5 (T5 & F5). split; auto. eapply framed_trans; eauto.
Qed.

Lemma mem_trim_tight (h : heap) p x : nth_error (slices h) p = Some x -> x < length (m_vars (h_data h)) ->
  hp (mem_trim_m E p) h (fun _ h' => tight_var h' x /\ framed [x] h h').
Proof.
  intros Hx Hlt. unfold mem_trim_m.
  eapply hp_bind with (Q1 := fun y h1 => y = length (m_vars (h_data h)) /\ tight_var h1 y /\ framed [] h h1 /\ y < length (m_vars (h_data h1))).
  { intros t r h' t' Hr. assert (F : framed [] h h'). { eapply (foot_frame room (data (New 0))); eauto. cbn. split; auto. intros ? []. }
    cbn in Hr. injection Hr as <- <- <-. split; auto. split; [|split; auto].
    - unfold tight_var. cbn [h_data m_vars m_arrs]. rewrite nth_error_app2, Nat.sub_diag by auto. cbn [nth_error].
      eexists _, _. split; eauto. cbn [sl_arr sl_len]. rewrite nth_error_app2, Nat.sub_diag by auto. cbn [nth_error]. split; eauto.
      cbn. split; lia.
    - cbn. rewrite app_length. simpl. lia. }
  intros y h1 (Hy & T1 & F1 & Hl1). eapply (hp_foot room [] _ _ h1); [apply foot_len|]. intros n h2 F2.
  assert (T2 : tight_var h2 y) by (eapply tight_framed; [exact F2|intros []|auto]).
  assert (G2 : framed [] h h2) by (eapply framed_trans; eauto).
  eapply hp_bind; [apply (trim_loop_tight p x y)|].
  { destruct G2 as (_ & _ & ->). auto. } { lia. } { destruct G2 as ((G2 & _) & _). lia. } { auto. }
  intros [] h3 (T3 & F3).
  assert (Hx3 : nth_error (slices h3) p = Some x). { destruct F3 as (_ & _ & ->), G2 as (_ & _ & ->). auto. }
  intros t r h' t' Hr. rewrite run_bind in Hr. cbn in Hr. unfold bind, index, ret in Hr. unfold slices in Hx3. rewrite nth_error_map in Hx3.
  destruct (nth_error (h_objs h3) p) as [[v x']|] eqn:Eo; [|discriminate]. cbn in Hx3. injection Hx3 as ->. cbn [snd] in Hr.
  destruct T3 as (s & a & Hs & Ha & Hsl & Hk). rewrite Hs in Hr.
  assert (Hl3 : length (m_vars (h_data h)) < length (m_vars (h_data h3))).
  { destruct F3 as ((F3 & _) & _), F2 as ((F2 & _) & _). lia. }
  destruct (nth_error (m_vars (h_data h3)) x) as [s0|] eqn:Es0; [|discriminate]. injection Hr as <- <- <-.
  split.
  - unfold tight_var. cbn [h_data m_vars m_arrs]. rewrite list_set_other by lia. rewrite list_set_same by lia.
    exists s, a. splits; auto. rewrite nth_error_app1; auto. apply nth_error_Some. congruence.
  - destruct F3 as ((A1 & A2 & A3) & A4 & A5), G2 as ((B1 & B2 & B3) & B4 & B5). unfold framed, keeps. cbn [h_data h_ptrs h_objs m_vars m_arrs].
    splits; try congruence.
    + rewrite !list_set_length. lia.
    + intros i b Hb. destruct (B2 i b Hb) as (c & Hc & Hcl). destruct (A2 i c Hc) as (d & Hd & Hdl). exists d. split; [|congruence].
      rewrite nth_error_app1; auto. apply nth_error_Some. congruence.
    + intros w Hw Hwx. assert (w <> x) by (intros ->; apply Hwx; simpl; auto).
      rewrite !list_set_other by lia. rewrite A3, B3; auto; [lia|]. simpl. intros [?|[?|[]]]; lia.
    + unfold slices in *. cbn [h_objs]. congruence.
Qed.

(* ---- the manager ---- *)
Lemma foot_update os X g old p : foot os X (update_m (N := N) g old p).
Proof. unfold update_m. apply foot_bind; [apply foot_vec|]. intros v. cbn. auto. Qed.

Lemma hp_update (h : heap) g old p : hp (update_m g old p) h (fun g1 h' => g_cs g1 = g_cs g /\ framed [] h h').
Proof.
  intros t r h' t' Hr. split; [|eapply foot_frame; [apply foot_update|exact Hr]].
  unfold update_m in Hr. rewrite run_bind in Hr. destruct (run_heap room (vec_m p) h t) as [[[v h1] t1]| |]; try discriminate.
  rewrite run_bind in Hr. destruct (run_heap room (ptrs (Len (g_cs g))) h1 t1) as [[[k h2] t2]| |]; try discriminate.
  injection Hr as <- <- <-. reflexivity.
Qed.

Lemma framed_incl X Y (h h' : heap) : framed X h h' -> incl X Y -> framed Y h h'.
Proof. intros (F1 & F2 & F3) Hi. unfold framed. splits; auto. eapply keeps_mono; eauto. Qed.

Definition in_range (h : heap) (p : nat) : Prop := exists x, nth_error (slices h) p = Some x /\ x < length (m_vars (h_data h)).
Definition trimmed (h : heap) (p : nat) : Prop := exists x, nth_error (slices h) p = Some x /\ tight_var h x.
(* The new slice of centroids, made for n of them. *)
Definition gathered (h : heap) (u n : nat) (left : nat) (done : list nat) : Prop :=
  exists s a, nth_error (m_vars (h_ptrs h)) u = Some s /\ nth_error (m_arrs (h_ptrs h)) (sl_arr s) = Some a /\
    length a = n /\ sl_len s + left <= n /\ (forall p, In p (firstn (sl_len s) a) -> In p done).

Lemma gathered_same (h h' : heap) u n left done : h_ptrs h' = h_ptrs h -> gathered h u n left done -> gathered h' u n left done.
Proof. intros He (s & a & H). exists s, a. rewrite He. exact H. Qed.
Lemma range_framed X (h h' : heap) p : framed X h h' -> in_range h p -> in_range h' p.
Proof. intros ((F1 & _) & _ & F3) (x & Hx & Hl). exists x. rewrite F3. split; auto. lia. Qed.
Lemma trimmed_framed (h h' : heap) p : framed [] h h' -> trimmed h p -> trimmed h' p.
Proof. intros F (x & Hx & Ht). exists x. split; [destruct F as (_ & _ & ->); auto|]. eapply tight_framed; eauto. Qed.

Lemma pick_gathered (h : heap) u n left done p : gathered h u n (S left) done ->
  hp (ptrs (App u [p])) h (fun _ h' => gathered h' u n left (p :: done) /\ h_data h' = h_data h /\ h_objs h' = h_objs h /\
    length (m_vars (h_ptrs h')) = length (m_vars (h_ptrs h)) /\
    (forall w, w <> u -> nth_error (m_vars (h_ptrs h')) w = nth_error (m_vars (h_ptrs h)) w)).
Proof.
  intros (s & a & Hs & Ha & Hn & Hl & Hin) t r h' t' Hr. cbn in Hr. unfold bind, index, ret in Hr. rewrite Hs in Hr. rewrite Ha in Hr.
  injection Hr as <- <- <-. cbn [h_data h_objs h_ptrs]. unfold gathered, append_to. cbn [h_data h_objs h_ptrs length].
  assert (Hu : u < length (m_vars (h_ptrs h))) by (apply nth_error_Some; congruence).
  destruct (Nat.leb_spec (sl_len s + 1) (length a)) as [Hle|Hle]; [|lia]. cbn [m_vars m_arrs]. splits; auto.
  - rewrite list_set_same by auto. eexists _, _. split; eauto. cbn [sl_arr sl_len].
    rewrite list_set_same by (apply nth_error_Some; congruence). split; eauto. rewrite overwrite_length by (cbn; auto). splits; auto; [lia|].
    intros q. unfold overwrite. cbn [length app]. rewrite firstn_app, firstn_firstn, firstn_length, in_app_iff.
    replace (Nat.min (sl_len s + 1) (sl_len s)) with (sl_len s) by lia.
    replace (sl_len s + 1 - Nat.min (sl_len s) (length a)) with 1 by lia. cbn. intros [Hq|[<-|[]]]; auto.
  - apply list_set_length.
  - intros w Hw. apply list_set_other. auto.
Qed.

Lemma trim_all_room u n ps : forall (g : mgr N) (h : heap) done, Forall (in_range h) ps -> Forall (trimmed h) done ->
  gathered h u n (length ps) done ->
  hp (trim_all_m E g ps u) h (fun g' h' => g_cs g' = g_cs g /\ gathered h' u n 0 (ps ++ done) /\ Forall (trimmed h') (ps ++ done) /\
    length (m_vars (h_ptrs h')) = length (m_vars (h_ptrs h))).
Proof.
  induction ps as [|p ps IH]; intros g h done Hr Ht Hg; cbn [trim_all_m].
  { apply hp_done. auto. }
  inversion Hr as [|? ? (x & Hx & Hxl) Hr' Heq]; subst.
  eapply (hp_foot room [] _ _ h); [apply foot_vec|]. intros old h1 F1.
  eapply hp_bind; [apply (mem_trim_tight h1 p x)|].
  { destruct F1 as (_ & _ & ->). auto. } { destruct F1 as ((F1 & _) & _). lia. }
  intros [] h2 (T2 & F2).
  assert (G2 : framed [x] h h2) by (eapply framed_trans; [eapply framed_incl; [exact F1|intros ? []]|exact F2]).
  assert (D2 : Forall (trimmed h2) (p :: done)).
  { constructor; [exists x; split; auto; destruct G2 as (_ & _ & ->); auto|]. apply Forall_forall. intros q Hq.
    rewrite Forall_forall in Ht. destruct (Ht q Hq) as (y & Hy & Hty). exists y. split; [destruct G2 as (_ & _ & ->); auto|].
    destruct (Nat.eq_dec x y) as [->|Hne]; auto. eapply tight_framed; [exact G2| |exact Hty]. intros [?|[]]. auto. }
  eapply hp_bind; [apply hp_update|]. intros g1 h3 (Hg1 & F3).
  eapply (hp_foot room [] _ _ h3); [apply foot_len|]. intros l h4 F4.
  assert (G4 : framed [] h2 h4) by (eapply framed_trans; eauto).
  eapply hp_bind with (Q1 := fun _ h5 => gathered h5 u n (length ps) (p :: done) /\ h_data h5 = h_data h4 /\ h_objs h5 = h_objs h4 /\
    length (m_vars (h_ptrs h5)) = length (m_vars (h_ptrs h4))).
  { assert (Hg4 : gathered h4 u n (S (length ps)) done).
    { eapply gathered_same; [|exact Hg]. destruct G4 as (_ & -> & _), G2 as (_ & -> & _). auto. }
    destruct (negb (l =? 0)).
    - eapply hp_mono; [apply pick_gathered; exact Hg4|]. intros [] h5 (A1 & A2 & A3 & A4 & _). auto.
    - apply hp_done. splits; auto. destruct Hg4 as (s & a & B1 & B2 & B3 & B4 & B5). exists s, a. splits; auto; [lia|].
      intros q Hq. right. auto. }
  intros [] h5 (Hg5 & Hd5 & Ho5 & Hl5).
  eapply (hp_foot room [] _ _ h5); [cbn; auto|]. intros k h6 F6.
  eapply (hp_foot room [] _ _ h6); [apply foot_vec|]. intros v h7 F7.
  assert (G7 : framed [] h5 h7) by (eapply framed_trans; eauto).
  assert (G45 : framed [] h4 (MkHeap (h_data h5) (h_ptrs h4) (h_objs h5))).
  { unfold framed, slices. cbn. rewrite Hd5, Ho5. splits; auto. apply keeps0. }
  assert (S45 : forall q, (in_range h4 q -> in_range h5 q) /\ (trimmed h4 q -> trimmed h5 q)).
  { intros q. unfold in_range, trimmed, tight_var, slices. rewrite Hd5, Ho5. auto. }
  cbv zeta. eapply hp_mono; [apply (IH _ h7 (p :: done))|].
  - apply Forall_forall. intros q Hq. rewrite Forall_forall in Hr'. eapply range_framed; [exact G7|]. apply S45.
    eapply range_framed; [exact G4|]. eapply range_framed; [exact G2|]. auto.
  - apply Forall_forall. intros q Hq. rewrite Forall_forall in D2. eapply trimmed_framed; [exact G7|]. apply S45.
    eapply trimmed_framed; [exact G4|]. auto.
  - eapply gathered_same; [|exact Hg5]. destruct G7 as (_ & -> & _). auto.
  - intros g' h' (A1 & A2 & A3 & A4). splits.
    + rewrite A1. destruct ((l =? 1) && (1 <? k)); auto.
    + destruct A2 as (s & a & B1 & B2 & B3 & B4 & B5). exists s, a. splits; auto. intros q Hq. apply B5 in Hq.
      rewrite in_app_iff in Hq. simpl in Hq |- *. rewrite in_app_iff. tauto.
    + rewrite Forall_forall in *. intros q Hq. apply A3. rewrite in_app_iff. simpl in Hq |- *. rewrite in_app_iff in Hq. tauto.
    + rewrite A4. destruct G7 as (_ & -> & _). rewrite Hl5. destruct G4 as (_ & -> & _), G2 as (_ & -> & _). auto.
Qed.

Lemma mgr_trim_room (g : mgr N) (h : heap) ps : read_var (h_ptrs h) (g_cs g) = Some ps -> heap_ok h -> Forall (in_range h) ps ->
  hp (mgr_trim_m E g) h (fun g' h' => (exists k, room_of (h_ptrs h') (g_cs g') = Some (k, length ps)) /\
    Forall (tight K) (rooms h' g')).
Proof.
  intros Hps Hok Hr. unfold mgr_trim_m. unfold read_var in Hps.
  destruct (nth_error (m_vars (h_ptrs h)) (g_cs g)) as [s|] eqn:Es; [|discriminate]. cbn in Hps. injection Hps as <-.
  destruct (valid _ _ _ (proj2 Hok) Es) as (a & Ha & Hl). unfold shown in *. rewrite (nth_error_nth _ _ _ Ha) in *.
  assert (Hlen : length (firstn (sl_len s) a) = sl_len s) by (rewrite firstn_length; lia).
  eapply hp_bind with (Q1 := fun n h1 => n = sl_len s /\ h1 = h).
  { intros t r h' t' Hr1. cbn in Hr1. unfold bind, index, ret in Hr1. rewrite Es in Hr1. injection Hr1 as <- <- <-. split; auto. destruct h; auto. }
  intros n h1 (-> & ->).
  eapply hp_bind with (Q1 := fun u h1 => u = length (m_vars (h_ptrs h)) /\ h_data h1 = h_data h /\ h_objs h1 = h_objs h /\
    nth_error (m_vars (h_ptrs h1)) (g_cs g) = Some s /\ nth_error (m_arrs (h_ptrs h1)) (sl_arr s) = Some a /\
    length (m_vars (h_ptrs h1)) = S u /\ gathered h1 u (sl_len s) (sl_len s) []).
  { intros t r h' t' Hr1. cbn in Hr1. injection Hr1 as <- <- <-. cbn [h_data h_objs h_ptrs m_vars m_arrs].
    splits; auto.
    - rewrite nth_error_app1; auto. apply nth_error_Some. congruence.
    - rewrite nth_error_app1; auto. apply nth_error_Some. congruence.
    - rewrite app_length. simpl. lia.
    - unfold gathered. cbn [h_ptrs m_vars m_arrs]. rewrite nth_error_app2, Nat.sub_diag by auto. cbn [nth_error].
      eexists _, _. split; eauto. cbn [sl_arr sl_len]. rewrite nth_error_app2, Nat.sub_diag by auto. cbn [nth_error]. split; eauto.
      rewrite repeat_length. splits; auto. }
  intros u h1 (Hu & Hd1 & Ho1 & Hs1 & Ha1 & Hl1 & Hg1).
  eapply hp_bind with (Q1 := fun ps h2 => ps = firstn (sl_len s) a /\ h2 = h1).
  { intros t r h' t' Hr1. cbn in Hr1. unfold bind, index, ret in Hr1. rewrite Hs1 in Hr1. rewrite Ha1 in Hr1. injection Hr1 as <- <- <-. split; auto. destruct h1; auto. }
  intros ps h2 (-> & ->).
  eapply hp_bind; [apply (trim_all_room u (sl_len s) (firstn (sl_len s) a) g h1 [])|].
  { eapply Forall_impl; [|exact Hr]. intros p. unfold in_range, slices. rewrite Hd1, Ho1. auto. }
  { constructor. } { rewrite Hlen. exact Hg1. }
  rewrite app_nil_r. intros g' h2 (Hg2 & (s2 & a2 & Hs2 & Ha2 & Hn2 & Hle2 & Hin2) & Ht2 & Hl2).
  intros t r h' t' Hr1. rewrite run_bind in Hr1. cbn in Hr1. unfold bind, index, ret in Hr1. rewrite Hs2 in Hr1.
  assert (Hgl : g_cs g < length (m_vars (h_ptrs h))) by (apply nth_error_Some; congruence).
  destruct (nth_error (m_vars (h_ptrs h2)) (g_cs g)) as [s0|] eqn:Es0; [|discriminate]. injection Hr1 as <- <- <-.
  rewrite Hg2. unfold room_of, rooms, read_var. rewrite Hg2. cbn [h_ptrs h_data h_objs m_vars m_arrs].
  rewrite list_set_other by lia. rewrite list_set_same by lia. cbn [option_map]. unfold shown. cbn [m_arrs].
  rewrite nth_error_app1 by (apply nth_error_Some; congruence). rewrite Ha2.
  rewrite app_nth1 by (apply nth_error_Some; congruence). rewrite (nth_error_nth _ _ _ Ha2). split.
  { exists (sl_len s2). congruence. }
  apply Forall_forall. intros o Ho. apply in_map_iff in Ho. destruct Ho as (p & <- & Hp). apply Hin2 in Hp.
  rewrite Forall_forall in Ht2. destruct (Ht2 p Hp) as (x & Hx & Htx). unfold slices in Hx. rewrite nth_error_map in Hx.
  destruct (nth_error (h_objs h2) p) as [o|]; [|discriminate]. cbn in Hx. injection Hx as ->. apply tight_room in Htx. exact Htx.
Qed.
End Trim.

Section Top.
Context {N : Num} (E : Env N) (room : nat -> nat -> nat).
Notation heap := (heap N).

Lemma calls_snoc o ops : forall (g : mgr N) (h : heap) t xs g' h' t',
  run_heap room (calls_m E g (ops ++ [o])) h t = Ok (((xs, g'), h'), t') ->
  exists ys g1 h1 t1 x, run_heap room (calls_m E g ops) h t = Ok (((ys, g1), h1), t1) /\
    run_heap room (step_m E g1 o) h1 t1 = Ok (((x, g'), h'), t').
Proof.
  induction ops as [|o' ops IH]; intros g h t xs g' h' t'; cbn [calls_m app].
  - rewrite run_bind. destruct (run_heap room (step_m E g o) h t) as [[[[x g1] h1] t1]| |] eqn:Es; try discriminate.
    cbn. intros H. injection H as <- <- <- <-. exists [], g, h, t, x. auto.
  - rewrite run_bind. destruct (run_heap room (step_m E g o') h t) as [[[[x g1] h1] t1]| |] eqn:Es; try discriminate.
    rewrite run_bind. destruct (run_heap room (calls_m E g1 (ops ++ [o])) h1 t1) as [[[[zs g2] h2] t2]| |] eqn:Ec; try discriminate.
    cbn. intros H. injection H as <- <- <- <-. destruct (IH _ _ _ _ _ _ _ Ec) as (ys & g3 & h3 & t3 & x3 & H1 & H2).
    exists (x :: ys), g3, h3, t3, x3. split; auto. rewrite run_bind, Es, run_bind, H1. reflexivity.
Qed.

Lemma life_rep init thresh cap ops t xs g (h : heap) u :
  run_heap room (life E init thresh cap ops) empty_heap t = Ok (((xs, g), h), u) ->
  heap_ok h /\ exists l m ps, answers E (new_cm init thresh) ops t = Ok ((l, m), u) /\ rep (lists_of h) g ps m.
Proof.
  intros Hrun. assert (Hok : heap_ok (@empty_heap N)) by (repeat split; constructor).
  pose proof (prog_ok room (life E init thresh cap ops) empty_heap t Hok) as H1.
  assert (H2 : sim (life E init thresh cap ops) (lists_of empty_heap) (answers E (new_cm init thresh) ops)
    (fun r h' s => exists ps, rep h' (snd r) ps (snd s))).
  { unfold life, new_mgr_m. apply sim_assoc. eapply sim_pnew. cbn [mbind].
    eapply sim_mono; [eapply (calls_sim E ops _ _ [] (new_cm init thresh))|].
    - constructor; cbn; auto; try (split; constructor); constructor.
    - intros r h' s (ps & R & _). eauto. }
  specialize (H2 t). rewrite Hrun in H1.
  destruct (run_lists (life E init thresh cap ops) (lists_of empty_heap) t) as [[[r' h'] u']| |],
    (answers E (new_cm init thresh) ops t) as [[[l m] u'']| |]; cbn in *; try contradiction; auto.
  destruct H1 as (-> & <- & H1 & <-), H2 as (-> & ps & R). split; auto. exists l, m, ps. auto.
Qed.

Theorem trim_bound K : (forall c n, c < n -> room c n <= K * n) -> forall init thresh cap ops t xs g h u,
  run_heap room (life E init thresh cap (ops ++ [OMemTrim])) empty_heap t = Ok (((xs, g), h), u) ->
  exists l m u', answers E (new_cm init thresh) ops t = Ok ((l, m), u') /\
    (exists n, room_of (h_ptrs h) (g_cs g) = Some (n, length (cm_cs m))) /\
    Forall (fun r => exists n k, r = Some (n, k) /\ k <= (K + 1) * n) (rooms h g).
Proof.
  intros Hroom init thresh cap ops t xs g h u Hrun.
  assert (Hlife : forall g0 (h0 : heap) t0, run_heap room (new_mgr_m init thresh cap) empty_heap t = Ok ((g0, h0), t0) ->
    exists ys g1 h1 t1 x, run_heap room (calls_m E g0 ops) h0 t0 = Ok (((ys, g1), h1), t1) /\
    run_heap room (step_m E g1 OMemTrim) h1 t1 = Ok (((x, g), h), u)).
  { intros g0 h0 t0 H0. unfold life in Hrun. rewrite run_bind, H0 in Hrun. eapply calls_snoc; eauto. }
  destruct (run_heap room (new_mgr_m init thresh cap) empty_heap t) as [[[g0 h0] t0]| |] eqn:H0;
    try (unfold life in Hrun; rewrite run_bind, H0 in Hrun; discriminate).
  destruct (Hlife _ _ _ eq_refl) as (ys & g1 & h1 & t1 & x & Hc & Hs).
  assert (Hl : run_heap room (life E init thresh cap ops) empty_heap t = Ok (((ys, g1), h1), t1)).
  { unfold life. rewrite run_bind, H0. exact Hc. }
  destruct (life_rep _ _ _ _ _ _ _ _ _ Hl) as (Hok & l & m & ps & Ha & R).
  exists l, m, t1. split; auto.
  cbn [step_m] in Hs. rewrite run_bind in Hs. destruct (run_heap room (mgr_trim_m E g1) h1 t1) as [[[g2 h2] t2]| |] eqn:Et; try discriminate.
  injection Hs as <- <- <- <-. rewrite <- (cens_length _ _ _ (rep_cens _ _ _ _ R)).
  refine (mgr_trim_room E room K Hroom g1 h1 ps _ Hok _ t1 g2 h2 t2 Et).
  - apply read_of_lists. apply (rep_cs _ _ _ _ R).
  - pose proof (rep_cens _ _ _ _ R) as Hcs. clear - Hcs. induction Hcs as [|p c ps cs (x & Ho & Hx) Hcs IH]; constructor; auto.
    exists x. unfold obj, dvar in *. cbn in *. split.
    + unfold slices. rewrite nth_error_map, Ho. reflexivity.
    + assert (x < length (contents (h_data h1))) by (apply nth_error_Some; congruence). unfold contents in *. rewrite map_length in *. auto.
Qed.
End Top.
