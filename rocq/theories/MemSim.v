(* Relating code on the heap to code on values. *)
From Verif Require Import Base Num MathUtils Env Wp Centroid CManager Memory MemProofs.

Section Sim.
Context {N : Num}.
Notation DP := (DataPoint N).
Notation Cen := (Centroid N).
Notation lheap := (lheap N).

(* The same outcome and the same number of ticks, with related results. *)
Definition sim {R S} (p : prog N R) (h : lheap) (m : M S) (Q : R -> lheap -> S -> Prop) : Prop :=
  forall t, same_run (fun x s => Q (fst x) (snd x) s) (run_lists p h t) (m t).

Lemma run_mbind {R S} (p : prog N R) (f : R -> prog N S) : forall h t,
  run_lists (mbind p f) h t = bind (run_lists p h) (fun x => run_lists (f (fst x)) (snd x)) t.
Proof.
  induction p as [r|X m k IH|X o k IH|X o k IH|v x k IH|p k IH|p v k IH]; intros h t; cbn [mbind run_lists]; auto.
  - unfold bind. destruct (m t) as [[a u]| |]; auto. apply IH.
  - unfold bind. destruct (list_op o (l_data h) t) as [[[a d] u]| |]; auto. apply IH.
  - unfold bind. destruct (list_op o (l_ptrs h) t) as [[[a d] u]| |]; auto. apply IH.
  - unfold bind. destruct (index (l_objs h) p t) as [[a u]| |]; auto. apply IH.
  - unfold bind. destruct (index (l_objs h) p t) as [[a u]| |]; auto. apply IH.
Qed.

Lemma sim_mono {R S} (p : prog N R) h (m : M S) (Q Q' : R -> lheap -> S -> Prop) :
  sim p h m Q -> (forall r h' s, Q r h' s -> Q' r h' s) -> sim p h m Q'.
Proof.
  intros H HQ t. specialize (H t). destruct (run_lists p h t) as [[[a d] u]| |], (m t) as [[s u']| |]; cbn in *; auto.
  destruct H; auto.
Qed.

Lemma sim_bind {R R' S S'} (p : prog N R) (f : R -> prog N R') h (m : M S) (g : S -> M S') Q Q' :
  sim p h m Q -> (forall r h' s, Q r h' s -> sim (f r) h' (g s) Q') -> sim (mbind p f) h (bind m g) Q'.
Proof.
  intros H Hf t. rewrite run_mbind. specialize (H t). unfold bind.
  destruct (run_lists p h t) as [[[a d] u]| |], (m t) as [[s u']| |]; cbn in *; try contradiction; auto.
  destruct H as (<- & H). apply Hf; auto.
Qed.

(* Steps that only the heap takes. *)
Lemma sim_left {R R' S} (p : prog N R) (f : R -> prog N R') h (m : M S) Q r h' :
  (forall t, run_lists p h t = Ok ((r, h'), t)) -> sim (f r) h' m Q -> sim (mbind p f) h m Q.
Proof. intros H Hf t. rewrite run_mbind. unfold bind. rewrite H. apply Hf. Qed.

(* Steps that only the values take. *)
Lemma sim_right {R S S'} (p : prog N R) h (m : M S) (g : S -> M S') Q s :
  (forall t, m t = Ok (s, t)) -> sim p h (g s) Q -> sim p h (bind m g) Q.
Proof. intros H Hf t. unfold bind. rewrite H. apply Hf. Qed.

Lemma sim_ret {R S} (r : R) h (s : S) (Q : R -> lheap -> S -> Prop) : Q r h s -> sim (Done r) h (ret s) Q.
Proof. intros H t. cbn. auto. Qed.

Lemma sim_panic {R S} (p : prog N R) h (m : M S) Q :
  (forall t, run_lists p h t = Panic) -> (forall t, m t = Panic) -> sim p h m Q.
Proof. intros H1 H2 t. rewrite H1, H2. cbn. auto. Qed.

Lemma sim_eff {X R S} (m : M X) (f : X -> prog N R) h (g : X -> M S) Q :
  (forall x, sim (f x) h (g x) Q) -> sim (mbind (eff m) f) h (bind m g) Q.
Proof.
  intros Hf. eapply sim_bind with (Q := fun r h' s => r = s /\ h' = h).
  - intros t. cbn. unfold bind. destruct (m t) as [[a u]| |]; cbn; auto.
  - intros r h' s (-> & ->). apply Hf.
Qed.

Lemma sim_out_of_fuel {R S} h (Q : R -> lheap -> S -> Prop) :
  sim (eff out_of_fuel) h out_of_fuel Q.
Proof. intros t. cbn. auto. Qed.

(* Variables and objects of the heap. *)
Definition dvar (h : lheap) (x : nat) (l : list DP) : Prop := nth_error (l_data h) x = Some l.
Definition pvar (h : lheap) (u : nat) (ps : list nat) : Prop := nth_error (l_ptrs h) u = Some ps.
Definition obj (h : lheap) (p : nat) (o : vec N * nat) : Prop := nth_error (l_objs h) p = Some o.

Definition set_data (h : lheap) (x : nat) (l : list DP) : lheap := MkLHeap (list_set (l_data h) x l) (l_ptrs h) (l_objs h).
Definition add_data (h : lheap) : lheap := MkLHeap (l_data h ++ [[]]) (l_ptrs h) (l_objs h).
Definition set_ptrs (h : lheap) (u : nat) (l : list nat) : lheap := MkLHeap (l_data h) (list_set (l_ptrs h) u l) (l_objs h).
Definition add_ptrs (h : lheap) : lheap := MkLHeap (l_data h) (l_ptrs h ++ [[]]) (l_objs h).
Definition set_vec_of (h : lheap) (p : nat) (v : vec N) (x : nat) : lheap :=
  MkLHeap (l_data h) (l_ptrs h) (list_set (l_objs h) p (v, x)).
Definition add_obj (h : lheap) (v : vec N) (x : nat) : lheap := MkLHeap (l_data h) (l_ptrs h) (l_objs h ++ [(v, x)]).

Lemma eta (h : lheap) : MkLHeap (l_data h) (l_ptrs h) (l_objs h) = h.
Proof. destruct h; reflexivity. Qed.

Ltac left1 := intros; eapply sim_left; [intros ?; cbn; unfold bind, index, dvar, pvar, obj in *;
  repeat match goal with H : nth_error _ _ = _ |- _ => rewrite H; cbn end; rewrite ?eta; reflexivity|]; auto.

Lemma sim_new {R S} cap (f : nat -> prog N R) h (m : M S) Q :
  sim (f (length (l_data h))) (add_data h) m Q -> sim (mbind (data (New cap)) f) h m Q.
Proof. left1. Qed.
Lemma sim_len {R S} x l (f : nat -> prog N R) h (m : M S) Q : dvar h x l ->
  sim (f (length l)) h m Q -> sim (mbind (data (Len x)) f) h m Q.
Proof. left1. Qed.
Lemma sim_all {R S} x l (f : list DP -> prog N R) h (m : M S) Q : dvar h x l ->
  sim (f l) h m Q -> sim (mbind (data (All x)) f) h m Q.
Proof. left1. Qed.
Lemma sim_get {R S} x l i d (f : DP -> prog N R) h (m : M S) Q : dvar h x l -> nth_error l i = Some d ->
  sim (f d) h m Q -> sim (mbind (data (Get x i)) f) h m Q.
Proof. left1. Qed.
Lemma sim_app {R S} x l ds (f : unit -> prog N R) h (m : M S) Q : dvar h x l ->
  sim (f tt) (set_data h x (l ++ ds)) m Q -> sim (mbind (data (App x ds)) f) h m Q.
Proof. left1. Qed.
Lemma sim_del {R S} x l i (f : unit -> prog N R) h (m : M S) Q : dvar h x l -> i < length l ->
  sim (f tt) (set_data h x (remove_at i l)) m Q -> sim (mbind (data (Del x i)) f) h m Q.
Proof.
  intros Hx Hi. eapply sim_left. intros t. unfold data, ptrs. cbn [run_lists list_op]. unfold bind, index, dvar in *. rewrite Hx. cbn [ret].
  apply Nat.ltb_lt in Hi. rewrite Hi. reflexivity.
Qed.
Lemma sim_move {R S} x l y l' (f : unit -> prog N R) h (m : M S) Q : dvar h x l -> dvar h y l' ->
  sim (f tt) (set_data (set_data h x l') y []) m Q -> sim (mbind (data (Move x y)) f) h m Q.
Proof.
  intros Hx Hy. eapply sim_left. intros t. unfold data, ptrs. cbn [run_lists list_op]. unfold bind, index, dvar in *. rewrite Hx, Hy. reflexivity.
Qed.

Lemma sim_pnew {R S} cap (f : nat -> prog N R) h (m : M S) Q :
  sim (f (length (l_ptrs h))) (add_ptrs h) m Q -> sim (mbind (ptrs (New cap)) f) h m Q.
Proof. left1. Qed.
Lemma sim_plen {R S} x l (f : nat -> prog N R) h (m : M S) Q : pvar h x l ->
  sim (f (length l)) h m Q -> sim (mbind (ptrs (Len x)) f) h m Q.
Proof. left1. Qed.
Lemma sim_pall {R S} x l (f : list nat -> prog N R) h (m : M S) Q : pvar h x l ->
  sim (f l) h m Q -> sim (mbind (ptrs (All x)) f) h m Q.
Proof. left1. Qed.
Lemma sim_pget {R S} x l i d (f : nat -> prog N R) h (m : M S) Q : pvar h x l -> nth_error l i = Some d ->
  sim (f d) h m Q -> sim (mbind (ptrs (Get x i)) f) h m Q.
Proof. left1. Qed.
Lemma sim_papp {R S} x l ds (f : unit -> prog N R) h (m : M S) Q : pvar h x l ->
  sim (f tt) (set_ptrs h x (l ++ ds)) m Q -> sim (mbind (ptrs (App x ds)) f) h m Q.
Proof. left1. Qed.
Lemma sim_pdel {R S} x l i (f : unit -> prog N R) h (m : M S) Q : pvar h x l -> i < length l ->
  sim (f tt) (set_ptrs h x (remove_at i l)) m Q -> sim (mbind (ptrs (Del x i)) f) h m Q.
Proof.
  intros Hx Hi. eapply sim_left. intros t. unfold data, ptrs. cbn [run_lists list_op]. unfold bind, index, pvar in *. rewrite Hx. cbn [ret].
  apply Nat.ltb_lt in Hi. rewrite Hi. reflexivity.
Qed.
Lemma sim_pmove {R S} x l y l' (f : unit -> prog N R) h (m : M S) Q : pvar h x l -> pvar h y l' ->
  sim (f tt) (set_ptrs (set_ptrs h x l') y []) m Q -> sim (mbind (ptrs (Move x y)) f) h m Q.
Proof.
  intros Hx Hy. eapply sim_left. intros t. unfold data, ptrs. cbn [run_lists list_op]. unfold bind, index, pvar in *. rewrite Hx, Hy. reflexivity.
Qed.

Lemma sim_new_obj {R S} v x (f : nat -> prog N R) h (m : M S) Q :
  sim (f (length (l_objs h))) (add_obj h v x) m Q -> sim (mbind (new_obj v x) f) h m Q.
Proof. left1. Qed.
Lemma sim_get_obj {R S} p o (f : vec N * nat -> prog N R) h (m : M S) Q : obj h p o ->
  sim (f o) h m Q -> sim (mbind (get_obj p) f) h m Q.
Proof. left1. Qed.
Lemma sim_set_obj {R S} p o v (f : unit -> prog N R) h (m : M S) Q : obj h p o ->
  sim (f tt) (set_vec_of h p v (snd o)) m Q -> sim (mbind (set_obj p v) f) h m Q.
Proof. left1. Qed.

(* The last step. *)
Lemma sim_last {R S} (p : prog N R) h (m : M S) Q : sim (mbind p Done) h m Q -> sim p h m Q.
Proof.
  intros H t. specialize (H t). rewrite run_mbind in H. unfold bind in H.
  destruct (run_lists p h t) as [[[a d] u]| |]; exact H.
Qed.
Lemma sim_assoc {R R' R'' S} (p : prog N R) (f : R -> prog N R') (g : R' -> prog N R'') h (m : M S) Q :
  sim (mbind p (fun x => mbind (f x) g)) h m Q -> sim (mbind (mbind p f) g) h m Q.
Proof.
  intros H t. specialize (H t). rewrite !run_mbind in *. unfold bind in *. rewrite run_mbind. unfold bind.
  destruct (run_lists p h t) as [[[a d] u]| |]; auto. cbn [fst snd] in *. rewrite run_mbind in H. exact H.
Qed.

Lemma sim_unassoc {R R' R'' S} (p : prog N R) (f : R -> prog N R') (g : R' -> prog N R'') h (m : M S) Q :
  sim (mbind (mbind p f) g) h m Q -> sim (mbind p (fun x => mbind (f x) g)) h m Q.
Proof.
  intros H t. specialize (H t). rewrite !run_mbind in *. unfold bind in *. rewrite run_mbind in H. unfold bind in H.
  destruct (run_lists p h t) as [[[a d] u]| |]; auto. cbn [fst snd] in *. rewrite run_mbind. exact H.
Qed.

(* ---- which parts of the heap may change ---- *)

(* No two centroids have the same field DataPoints. *)
Definition wf (h : lheap) : Prop :=
  NoDup (map snd (l_objs h)) /\ Forall (fun o => snd o < length (l_data h)) (l_objs h).

(* At most the centroids S, the slices Y of datapoints and W of pointers change; new centroids
   have new slices. *)
Record fr (S Y W : list nat) (h h' : lheap) : Prop := MkFr {
  fr_wf : wf h';
  fr_data : forall x l, dvar h x l -> ~ In x Y -> (forall p o, In p S -> obj h p o -> snd o <> x) -> dvar h' x l;
  fr_len : length (l_data h) <= length (l_data h');
  fr_ptrs : forall u l, pvar h u l -> ~ In u W -> pvar h' u l;
  fr_plen : length (l_ptrs h) <= length (l_ptrs h');
  fr_obj : forall p o, obj h p o -> exists v, obj h' p (v, snd o) /\ (~ In p S -> v = fst o);
  fr_new : forall p o, obj h' p o -> length (l_objs h) <= p -> length (l_data h) <= snd o }.

Lemma fr_refl h : wf h -> fr [] [] [] h h.
Proof.
  intros Hw. constructor; auto.
  - intros p [v x] H. exists v. auto.
  - intros p o H Hp. unfold obj in H. apply nth_error_len in H. lia.
Qed.

Lemma obj_lt h p o : obj h p o -> p < length (l_objs h).
Proof. apply nth_error_len. Qed.
Lemma dvar_lt h x l : dvar h x l -> x < length (l_data h).
Proof. apply nth_error_len. Qed.
Lemma pvar_lt h x l : pvar h x l -> x < length (l_ptrs h).
Proof. apply nth_error_len. Qed.
Lemma dvar_ex h x : x < length (l_data h) -> exists l, dvar h x l.
Proof. apply nth_error_lt. Qed.

Lemma fr_olen S Y W h h' : fr S Y W h h' -> length (l_objs h) <= length (l_objs h').
Proof.
  intros F. destruct (length (l_objs h)) as [|n] eqn:E; [lia|].
  destruct (nth_error_lt (l_objs h) n) as (o & Ho); [lia|].
  destruct (fr_obj _ _ _ _ _ F n o Ho) as (v & Hv & _). apply obj_lt in Hv. lia.
Qed.

Lemma fr_trans S Y W S1 Y1 W1 S2 Y2 W2 h h1 h2 : fr S1 Y1 W1 h h1 -> fr S2 Y2 W2 h1 h2 ->
  (forall p, In p S1 -> In p S) -> (forall p, In p S2 -> In p S \/ length (l_objs h) <= p) ->
  (forall x, In x Y1 -> In x Y) -> (forall x, In x Y2 -> In x Y \/ length (l_data h) <= x) ->
  (forall u, In u W1 -> In u W) -> (forall u, In u W2 -> In u W \/ length (l_ptrs h) <= u) ->
  fr S Y W h h2.
Proof.
  intros F1 F2 HS1 HS2 HY1 HY2 HW1 HW2. constructor.
  - apply F2.
  - intros x l Hx Hy HS. eapply (fr_data _ _ _ _ _ F2).
    + eapply (fr_data _ _ _ _ _ F1); eauto.
    + intros Hin. destruct (HY2 x Hin); auto. apply dvar_lt in Hx. lia.
    + intros p o Hp Ho He. subst x. destruct (HS2 p Hp) as [Hin|Hge].
      * destruct (Nat.ltb_spec p (length (l_objs h))) as [Hlt|Hge].
        -- destruct (nth_error_lt _ _ Hlt) as (o1 & Ho1). destruct (fr_obj _ _ _ _ _ F1 p o1 Ho1) as (v & Hv & _).
           unfold obj in *. assert (o = (v, snd o1)) by congruence. subst o. apply (HS p o1); auto.
        -- pose proof (fr_new _ _ _ _ _ F1 p o Ho Hge). apply dvar_lt in Hx. lia.
      * pose proof (fr_new _ _ _ _ _ F1 p o Ho Hge). apply dvar_lt in Hx. lia.
  - pose proof (fr_len _ _ _ _ _ F1). pose proof (fr_len _ _ _ _ _ F2). lia.
  - intros u l Hu Hw. eapply (fr_ptrs _ _ _ _ _ F2); [eapply (fr_ptrs _ _ _ _ _ F1); eauto|].
    intros Hin. destruct (HW2 u Hin); auto. apply pvar_lt in Hu. lia.
  - pose proof (fr_plen _ _ _ _ _ F1). pose proof (fr_plen _ _ _ _ _ F2). lia.
  - intros p o Ho. destruct (fr_obj _ _ _ _ _ F1 p o Ho) as (v & Hv & Hs).
    destruct (fr_obj _ _ _ _ _ F2 p _ Hv) as (v' & Hv' & Hs'). exists v'. split; auto.
    intros Hn. rewrite Hs' by (intros Hin; destruct (HS2 p Hin); auto; apply obj_lt in Ho; lia). cbn. apply Hs. auto.
  - intros p o Ho Hp. pose proof (fr_olen _ _ _ _ _ F1).
    destruct (Nat.ltb_spec p (length (l_objs h1))) as [Hlt|Hge].
    + destruct (nth_error_lt _ _ Hlt) as (o1 & Ho1). destruct (fr_obj _ _ _ _ _ F2 p o1 Ho1) as (v & Hv & _).
      unfold obj in *. assert (o = (v, snd o1)) by congruence. subst o. cbn. eapply (fr_new _ _ _ _ _ F1); eauto.
    + pose proof (fr_new _ _ _ _ _ F2 p o Ho Hge). pose proof (fr_len _ _ _ _ _ F1). lia.
Qed.

(* Object p shows the centroid c. *)
Definition cen (h : lheap) (p : nat) (c : Cen) : Prop :=
  exists x, obj h p (c_vec c, x) /\ dvar h x (c_dps c).
(* x is not a field of a centroid. *)
Definition loose (h : lheap) (x : nat) (l : list DP) : Prop :=
  dvar h x l /\ forall p o, obj h p o -> snd o <> x.

Lemma wf_inj h p q o o' : wf h -> obj h p o -> obj h q o' -> snd o = snd o' -> p = q.
Proof.
  intros (Hn & _) Hp Hq He. apply (proj1 (NoDup_nth_error _) Hn).
  - rewrite map_length. eapply obj_lt; eauto.
  - unfold obj in *. rewrite !nth_error_map, Hp, Hq. simpl. congruence.
Qed.

Lemma cen_fr S Y W h h' p c : wf h -> fr S Y W h h' -> cen h p c -> ~ In p S ->
  (forall x o, In x Y -> obj h p o -> snd o <> x) -> cen h' p c.
Proof.
  intros Hw F (x & Ho & Hx) Hp HY. destruct (fr_obj _ _ _ _ _ F p _ Ho) as (v & Hv & Hs). cbn in *.
  rewrite (Hs Hp) in Hv. exists x. split; auto. eapply (fr_data _ _ _ _ _ F); eauto.
  - intros Hin. apply (HY x _ Hin Ho). reflexivity.
  - intros q o Hq Hoq He. apply Hp. replace p with q; auto. eapply wf_inj; eauto.
Qed.

Lemma loose_fr S Y W h h' x l : fr S Y W h h' -> loose h x l -> ~ In x Y -> loose h' x l.
Proof.
  intros F (Hx & Hl) HY. split.
  - eapply (fr_data _ _ _ _ _ F); eauto.
  - intros p o Ho He. destruct (Nat.ltb_spec p (length (l_objs h))) as [Hlt|Hge].
    + destruct (nth_error_lt _ _ Hlt) as (o1 & Ho1). destruct (fr_obj _ _ _ _ _ F p o1 Ho1) as (v & Hv & _).
      unfold obj in *. assert (o = (v, snd o1)) by congruence. subst o. apply (Hl p o1); auto.
    + pose proof (fr_new _ _ _ _ _ F p o Ho Hge). apply dvar_lt in Hx. lia.
Qed.

(* A slice that is changed but stays loose. *)
Lemma loose_any S Y W h h' x l l' : fr S Y W h h' -> loose h x l -> dvar h' x l' -> loose h' x l'.
Proof.
  intros F (Hx & Hl) Hx'. split; auto.
  intros p o Ho He. destruct (Nat.ltb_spec p (length (l_objs h))) as [Hlt|Hge].
  + destruct (nth_error_lt _ _ Hlt) as (o1 & Ho1). destruct (fr_obj _ _ _ _ _ F p o1 Ho1) as (v & Hv & _).
    unfold obj in *. assert (o = (v, snd o1)) by congruence. subst o. apply (Hl p o1); auto.
  + pose proof (fr_new _ _ _ _ _ F p o Ho Hge). apply dvar_lt in Hx. lia.
Qed.

(* ---- the elementary changes ---- *)
Lemma dvar_set h x l l' : dvar h x l' -> dvar (set_data h x l) x l.
Proof. intros H. unfold dvar. cbn. apply list_set_same. eapply dvar_lt; eauto. Qed.
Lemma dvar_set_other h x y l l' : x <> y -> dvar h y l' -> dvar (set_data h x l) y l'.
Proof. intros Hn H. unfold dvar. cbn. rewrite list_set_other; auto. Qed.

Lemma fr_set_data h x l : wf h -> fr [] [x] [] h (set_data h x l).
Proof.
  intros (H1 & H2). constructor.
  - split; cbn; auto. rewrite list_set_length. auto.
  - intros y l' Hy Hn _. apply dvar_set_other; auto. intros ->. apply Hn. simpl. auto.
  - cbn. rewrite list_set_length. auto.
  - auto.
  - auto.
  - intros p [v y] Ho. exists v. auto.
  - intros p o Ho Hp. apply obj_lt in Ho. cbn in Ho. lia.
Qed.
Lemma fr_add_data h : wf h -> fr [] [] [] h (add_data h) /\ loose (add_data h) (length (l_data h)) [].
Proof.
  intros (H1 & H2). split; [constructor|].
  - split; cbn; auto. rewrite app_length. eapply Forall_impl; [|exact H2]. intros o Ho. simpl in *. lia.
  - intros y l' Hy Hn _. unfold dvar in *. cbn. rewrite nth_error_app1; auto. apply nth_error_len in Hy. auto.
  - cbn. rewrite app_length. lia.
  - auto.
  - auto.
  - intros p [v y] Ho. exists v. auto.
  - intros p o Ho Hp. apply obj_lt in Ho. cbn in Ho. lia.
  - split.
    + unfold dvar. cbn. rewrite nth_error_app2, Nat.sub_diag by lia. reflexivity.
    + intros p o Ho He. unfold obj in Ho. cbn in Ho. pose proof (Forall_nth_error _ _ _ _ H2 Ho) as Hl. cbn in Hl. lia.
Qed.
Lemma fr_set_ptrs h u l : wf h -> fr [] [] [u] h (set_ptrs h u l).
Proof.
  intros Hw. constructor; auto.
  - intros y l' Hy Hn. unfold pvar in *. cbn. rewrite list_set_other; auto. intros ->. apply Hn. simpl. auto.
  - cbn. rewrite list_set_length. auto.
  - intros p [v y] Ho. exists v. auto.
  - intros p o Ho Hp. apply obj_lt in Ho. cbn in Ho. lia.
Qed.
Lemma pvar_set h x l l' : pvar h x l' -> pvar (set_ptrs h x l) x l.
Proof. intros H. unfold pvar. cbn. apply list_set_same. eapply pvar_lt; eauto. Qed.
Lemma pvar_set_other h x y l l' : x <> y -> pvar h y l' -> pvar (set_ptrs h x l) y l'.
Proof. intros Hn H. unfold pvar. cbn. rewrite list_set_other; auto. Qed.
Lemma fr_add_ptrs h : wf h -> fr [] [] [] h (add_ptrs h) /\ pvar (add_ptrs h) (length (l_ptrs h)) [].
Proof.
  intros Hw. split; [constructor; auto|].
  - intros y l' Hy Hn. unfold pvar in *. cbn. rewrite nth_error_app1; auto. apply nth_error_len in Hy. auto.
  - cbn. rewrite app_length. lia.
  - intros p [v y] Ho. exists v. auto.
  - intros p o Ho Hp. apply obj_lt in Ho. cbn in Ho. lia.
  - unfold pvar. cbn. rewrite nth_error_app2, Nat.sub_diag by lia. reflexivity.
Qed.
Lemma obj_set h p v x o : obj h p o -> obj (set_vec_of h p v x) p (v, x).
Proof. intros H. unfold obj. cbn. apply list_set_same. eapply obj_lt; eauto. Qed.
Lemma fr_set_vec h p v o : wf h -> obj h p o -> fr [p] [] [] h (set_vec_of h p v (snd o)).
Proof.
  intros (H1 & H2) Hp. constructor.
  - split; cbn.
    + rewrite map_list_set. cbn. rewrite list_set_id; auto. unfold obj in Hp. rewrite nth_error_map, Hp. reflexivity.
    + apply Forall_list_set; auto. cbn. apply (Forall_nth_error _ _ _ _ H2 Hp).
  - auto.
  - auto.
  - auto.
  - auto.
  - intros q o' Ho. destruct (Nat.eq_dec p q) as [<-|Hn].
    + exists v. unfold obj in *. assert (o' = o) by congruence. subst o'. split.
      * cbn. apply list_set_same. eapply obj_lt; eauto.
      * intros Hin. exfalso. apply Hin. simpl. auto.
    + exists (fst o'). unfold obj in *. cbn. rewrite list_set_other by auto. destruct o'; auto.
  - intros q o' Ho Hq. apply obj_lt in Ho. cbn in Ho. rewrite list_set_length in Ho. lia.
Qed.
(* A centroid around a slice that is loose. *)
Lemma fr_add_obj h v : wf h ->
  fr [] [] [] h (add_obj (add_data h) v (length (l_data h))) /\
  cen (add_obj (add_data h) v (length (l_data h))) (length (l_objs h)) (MkC v []).
Proof.
  intros Hw. destruct (fr_add_data h Hw) as (F & Hl & Hn).
  split; [constructor|].
  - split; cbn.
    + rewrite map_app. cbn. apply NoDup_Add with (a := length (l_data h)) (l := map snd (l_objs h)).
      * rewrite <- (app_nil_r (map snd (l_objs h))) at 1. apply Add_app.
      * split; [apply Hw|]. intros Hin. apply in_map_iff in Hin. destruct Hin as (o & He & Ho).
        destruct Hw as (_ & Hw). rewrite Forall_forall in Hw. apply Hw in Ho. lia.
    + rewrite app_length. cbn. apply Forall_app. split; [|constructor; [cbn; lia|constructor]].
      destruct Hw as (_ & Hw). eapply Forall_impl; [|exact Hw]. intros o Ho. simpl in *. lia.
  - intros x l Hx _ _. cbn. apply (fr_data _ _ _ _ _ F x l Hx); simpl; auto.
  - cbn. rewrite app_length. lia.
  - auto.
  - auto.
  - intros p [w x] Ho. exists w. split; auto. unfold obj in *. cbn. rewrite nth_error_app1; auto. eapply nth_error_len; eauto.
  - intros p o Ho Hp. unfold obj in Ho. cbn in Ho. rewrite nth_error_app2 in Ho by auto.
    destruct (p - length (l_objs h)) as [|k]; cbn in Ho; [injection Ho as <-; cbn; lia|destruct k; discriminate].
  - exists (length (l_data h)). split; [|exact Hl]. unfold obj. cbn. rewrite nth_error_app2, Nat.sub_diag by auto. reflexivity.
Qed.
End Sim.
