(* Requests that run one after the other leave each manager with vectors of one length. *)
From Verif Require Import Base Num MathUtils Knn Env Centroid CManager DataSpec MgrSpec Wp DataFacts NumFacts
  CentroidProofs DistributeProofs CMProofs CMProofs2 CMProofs3 HistoryProofs Proc Owns Server ServerSpec ServerFacts
  SeqProofs SeqProofs2 StealProofs ServerProofs Alone.

Section Uniform.
Context {N : Num} (E : Env N) (HE : EnvOk E) (HO : NumOrd N) (D : str -> nat -> Prop).
Notation DP := (DataPoint N).
Notation Cen := (Centroid N).
Notation World := (World N).

(* As [wp], and the loop of a steal may run out of fuel. *)
Definition wf {A} (m : M A) (t : nat) (Q : A -> nat -> Prop) : Prop :=
  match m t with Ok (x, t') => Q x t' | Panic => False | OutOfFuel => True end.
Lemma wp_wf {A} (m : M A) t Q : wp m t Q -> wf m t Q.
Proof. unfold wp, wf. destruct (m t) as [[x t']| |]; auto. Qed.
Lemma wf_mono {A} (m : M A) t (P Q : A -> nat -> Prop) : wf m t P -> (forall x t', P x t' -> Q x t') -> wf m t Q.
Proof. unfold wf. destruct (m t) as [[x t']| |]; auto. Qed.
Lemma wf_exec_bind {R S} (p : proc' N R) (k : R -> proc' N S) (w : World) t Q :
  wf (exec p w) t (fun r t' => wf (exec (k (fst r)) (snd r)) t' Q) -> wf (exec (pbind p k) w) t Q.
Proof. unfold wf. rewrite exec_bind. destruct (exec p w t) as [[[r w'] t']| |]; auto. Qed.
Lemma wf_ret {R} (r : R) (w : World) t (Q : R * World -> nat -> Prop) : Q (r, w) t -> wf (exec (Ret r : proc' N R) w) t Q.
Proof. auto. Qed.

Definition inv (w : World) : Prop := WorldOk w /\ DimsOk D w.
Lemma inv_slot (w : World) a ns m : inv w -> manager w a ns = Some m -> exists n, D ns n /\ DimOk n m.
Proof.
  intros (Hw & Hd) Hm. destruct (manager_slot _ _ _ _ Hw Hm) as (nd & p & Ha & _ & Hn).
  apply (Hd a nd); [apply assoc_in; auto|eapply nth_error_In; eauto].
Qed.
Lemma dims_set (w : World) a nd ns x : WorldOk w -> DimsOk D w ->
  (forall ns2 m, In (ns2, m) (nd_heap nd) -> SlotOk D ns2 m) -> DimsOk D (drop ns x (set_node w a nd)).
Proof.
  intros Hw Hd H b nb ns2 m Hb Hi. cbn [drop set_node w_nodes] in Hb. destruct Hw as (Hw & _).
  assert (Hn : assoc b (upsert a nd (w_nodes w)) = Some nb) by (apply in_assoc; auto; apply upsert_nodup; auto).
  destruct (str_dec b a) as [->|Hne].
  - rewrite assoc_upsert_same in Hn. injection Hn as <-. auto.
  - rewrite assoc_upsert_other in Hn by auto. eapply Hd; [apply assoc_in|]; eauto.
Qed.
Lemma inv_put (w : World) a ns m' x : inv w -> SlotOk D ns m' -> inv (put_mgr w a ns m' x).
Proof.
  intros (Hw & Hd) Hs. split; [apply put_mgr_ok; auto|]. unfold put_mgr. destruct (node_at w a) as [nd|] eqn:Ha; auto.
  destruct (assoc ns (nd_tbl nd)) as [p|]; auto. apply dims_set; auto. cbn [nd_heap]. intros ns2 m Hi.
  apply In_nth_error in Hi. destruct Hi as (q & Hq). rewrite nth_list_set in Hq. destruct ((q =? p) && _).
  - injection Hq as <- <-. auto.
  - eapply Hd; [apply assoc_in; exact Ha|]. eapply nth_error_In; eauto.
Qed.
Lemma inv_new (w : World) a ns m : inv w -> SlotOk D ns m -> inv (new_mgr w a ns m).
Proof.
  intros (Hw & Hd) Hs. split; [apply new_mgr_ok; auto|]. unfold new_mgr. destruct (node_at w a) as [nd|] eqn:Ha; auto.
  rewrite set_node_drop. apply dims_set; auto. cbn [nd_heap]. intros ns2 m2 Hi. apply in_app_or in Hi.
  destruct Hi as [Hi|[Hi|[]]]; [|congruence]. eapply Hd; [apply assoc_in; exact Ha|]; auto.
Qed.

(* The manager of ns at a is there, and fits v. *)
Definition here (a ns : str) (v : vec N) (w : World) : Prop := exists m, manager w a ns = Some m /\ DimOk (length v) m.

Lemma nearest_fit a from ns v (w : World) t : inv w -> here a ns v w ->
  wp (exec (c_nearest E from ns v 1 true) w) t (fun r t' => inv (snd r) /\ here a ns v (snd r) /\
    forall cs, fst (fst r) = Some cs -> Forall (cwf (length v)) cs).
Proof.
  intros Hi Hh. destruct (manager w from ns) as [mr|] eqn:Hmr.
  2:{ destruct (nearest_none E from ns v w t (proj1 Hi) Hmr) as (t' & _ & He). unfold wp. rewrite He. cbn [fst snd].
      splits; auto. discriminate. }
  destruct (inv_slot _ _ _ _ Hi Hmr) as (n & Hn & Hd).
  assert (Hp : forall m', DimOk n m' -> inv (put_mgr w from ns m' []) /\ here a ns v (put_mgr w from ns m' [])).
  { intros m' Hm'. split; [apply inv_put; auto; exists n; auto|]. destruct Hh as (m & Hm & Hv). unfold here.
    rewrite put_mgr_get; [|apply Hi|congruence]. destruct (str_eqb a from && str_eqb ns ns) eqn:Hx; [|exists m; auto].
    exists m'. split; auto. apply andb_prop in Hx. destruct Hx as (Hx & _). apply str_eqb_eq in Hx. subst from.
    assert (length v = n) by (destruct Hd as (Hd & _), Hv as (Hv & _); congruence). subst n. auto. }
  assert (Hhd : forall t, wp (exec (h_nearest E from ns v 1 true) w) t (fun r t' => exists mr' cs,
    fst r = Some cs /\ snd r = put_mgr w from ns mr' [] /\ DimOk n mr' /\
    (cs = [] \/ exists c, cs = [c] /\ cwf (length v) c))).
  { clear t. intros t. unfold h_nearest, access. apply (wp_exec_access _ _ _ _ _ mr); [apply Hi|auto|]. apply wp_bind.
    eapply wp_mono; [apply (cm_nearest_spec E HE cwf cwf_id n mr v 1 true t); [lia|auto]|].
    intros [o m'] t' (-> & Hm' & _ & idx & He & _ & Hf & Hl & Ho). apply wp_ret. cbn [fst snd] in *.
    exists m'. destruct o as [cs|].
    - destruct Ho as (Hne & -> & _). destruct idx as [|i [|j idx]]; [congruence| |cbn [length] in Hl; lia].
      inversion Hf as [|? ? Hlt _]; subst. destruct (nth_error_lt _ i Hlt) as (c & Hc).
      assert (Hpk : pick [i] (cm_cs mr) = [c]) by (unfold pick; cbn [map concat flat_map]; rewrite Hc; auto). rewrite Hpk in *.
      exists [c]. splits; auto; try apply Hm'. right. exists c. split; auto.
      assert (Hlen : length (c_vec c) = length v).
      { assert (K : wp (lift (e_knn E v (cm_vecs mr) 1%Z)) 0 (fun idx _ => idx = [i] -> length (c_vec c) = length v)).
        { apply (wp_knn E HE); [lia|]. intros idx _ _ _ _ HH ->. eapply HH; [left; reflexivity|auto]. }
        unfold wp, lift in K. rewrite He in K. apply K; auto. }
      pose proof (cs_length_P cwf n mr i c Hd Hc) as Hcw. assert (length v = n) by (destruct Hcw; congruence). subst n. auto.
    - exists []. splits; auto; try apply Hm'. }
  unfold c_nearest. apply wp_exec_bind. unfold wp at 1. rewrite exec_rpc.
  destruct (node_at w from) as [nd|] eqn:Hnd.
  2:{ cbn [fst snd join]. apply wp_exec_bind, wp_exec_local. cbn [post_nearest]. apply wp_ret. cbn [fst snd]. apply wp_exec_ret. cbn [fst snd].
      splits; auto. discriminate. }
  specialize (Hhd (S t)). destruct (e_fate E t) eqn:Hf.
  - unfold wp in Hhd. destruct (exec (h_nearest E from ns v 1 true) w (S t)) as [[[o1 w1] t1]| |]; try contradiction. cbn [fst snd] in Hhd.
    destruct Hhd as (mr' & cs & Ho & -> & Hd' & Hc). cbn [fst snd] in *. subst o1. cbn [join].
    apply wp_exec_bind, wp_exec_local. destruct (Hp mr' Hd') as (P1 & P2). destruct Hc as [->|(c & -> & Hcw)].
    + cbn [post_nearest]. apply wp_ret. apply wp_exec_ret. cbn [fst snd]. splits; auto. discriminate.
    + eapply wp_mono; [apply (post_nearest_one E (length v) c t1 Hcw)|]. intros o t' Ho. apply wp_exec_ret. cbn [fst snd].
      splits; auto. intros cs ->. destruct Ho as [(_ & Hx & _)|(_ & c' & Hx & Hc' & _)]; injection Hx as ->; auto.
  - cbn [fst snd join]. apply wp_exec_bind, wp_exec_local. cbn [post_nearest]. apply wp_ret. apply wp_exec_ret. cbn [fst snd].
    splits; auto. discriminate.
  - unfold wp in Hhd. destruct (exec (h_nearest E from ns v 1 true) w (S t)) as [[[o1 w1] t1]| |]; try contradiction. cbn [fst snd] in Hhd.
    destruct Hhd as (mr' & cs & Ho & -> & Hd' & Hc). cbn [fst snd join].
    apply wp_exec_bind, wp_exec_local. cbn [post_nearest]. apply wp_ret. apply wp_exec_ret. cbn [fst snd].
    destruct (Hp mr' Hd') as (P1 & P2). splits; auto. discriminate.
Qed.

Lemma steal_loop_fit a from ns v limit : D ns (length v) -> forall fuel (w : World) t total, inv w -> here a ns v w ->
  wf (exec (steal_loop E fuel a from ns v limit total) w) t (fun r _ => inv (snd r) /\ here a ns v (snd r)).
Proof.
  intros HD. induction fuel as [|fuel IH]; intros w t total Hi Hh; cbn [steal_loop];
    (destruct (Z.of_nat total <? limit)%Z; [|apply wf_ret; auto]); [exact I|].
  apply wf_exec_bind. eapply wf_mono; [apply wp_wf, (nearest_fit a); auto|]. intros [[o ok] w1] t1 (Hi1 & Hh1 & Ho). cbn [fst snd] in *.
  destruct o as [[|c cs]|]; [apply wf_ret; auto| |apply wf_ret; auto].
  specialize (Ho _ eq_refl). apply wf_exec_bind. destruct Hh1 as (m & Hm & Hd). unfold access. apply wp_wf.
  apply (wp_exec_access _ _ _ _ _ m); [apply Hi1|auto|]. apply wp_ret. cbn [fst snd].
  set (m2 := MkCM (cm_vec m) (cm_cs m ++ c :: cs) (cm_thresh m)).
  assert (Hd2 : DimOk (length v) m2).
  { destruct Hd as (D1 & D2). split; auto. cbn [m2 cm_cs]. apply Forall_app. split; auto. }
  assert (Hi2 : inv (put_mgr w1 a ns m2 [])) by (apply inv_put; auto; exists (length v); auto).
  assert (Hh2 : here a ns v (put_mgr w1 a ns m2 [])).
  { exists m2. split; auto. apply put_at; [apply Hi1|congruence]. }
  cbn [pbind]. destruct ok; [apply IH; auto|apply wf_ret; auto].
Qed.

Lemma steal_fit fuel a from ns limit (w : World) t : inv w -> node_at w a <> None ->
  wf (exec (h_steal E fuel a from ns limit) w) t (fun r _ => inv (snd r)).
Proof.
  intros Hi Hna.
  assert (Hrest : forall v w1 t1, inv w1 -> D ns (length v) -> here a ns v w1 ->
    wf (exec (call ' (total, ok) <- steal_loop E fuel a from ns v limit 0;
              call _ <- access a ns (fun m => cm_move_vector E m); Ret (total, ok)) w1) t1 (fun r _ => inv (snd r))).
  { intros v w1 t1 Hi1 HD Hh1. apply wf_exec_bind. eapply wf_mono; [apply steal_loop_fit; auto|].
    intros [[total ok] w2] t2 (Hi2 & m & Hm & Hd). cbn [fst snd] in *. apply wf_exec_bind. unfold access. apply wp_wf.
    apply (wp_exec_access _ _ _ _ _ m); [apply Hi2|auto|].
    eapply wp_mono; [apply (cm_move_vector_spec E cwf cwf_id (cwf_move E) (length v) m t2 Hd)|].
    intros [b m3] t3 (-> & M1 & _). cbn [fst snd] in *. apply wf_ret. cbn [fst snd]. apply inv_put; auto. exists (length v). auto. }
  unfold h_steal. apply wf_exec_bind. unfold h_vec at 1, access at 1. destruct (manager w a ns) as [m|] eqn:Hm.
  - apply wp_wf. apply (wp_exec_access _ _ _ _ _ m); [apply Hi|auto|]. apply wp_ret. cbn [fst snd].
    rewrite put_same by (auto; apply Hi). cbn [pbind]. destruct (inv_slot _ _ _ _ Hi Hm) as (n & Hn & Hd).
    assert (Hv : length (cm_vec m) = n) by apply Hd. subst n. apply Hrest; auto. exists m. auto.
  - unfold wf at 1. rewrite exec_access_g by apply Hi. rewrite Hm. cbn [fst snd].
    apply wf_exec_bind. apply wf_exec_bind. unfold c_vec_of. apply wf_exec_bind. unfold wf at 1. rewrite exec_rpc.
    assert (Hhv : forall t1, exec (h_vec from ns) w t1 = Ok ((match manager w from ns with Some mr => Some (cm_vec mr) | None => None end, w), t1)).
    { intros t1. unfold h_vec, access. rewrite exec_access_g by apply Hi. destruct (manager w from ns) as [mr|] eqn:Hmr; auto.
      unfold ret. cbn [fst snd]. rewrite put_same by (auto; apply Hi). auto. }
    destruct (match node_at w from with None => ReqLost | Some _ => e_fate E t end); rewrite ?Hhv; cbn [fst snd join];
      [|do 2 (apply wf_ret; cbn [fst snd]); apply wf_ret; auto|do 2 (apply wf_ret; cbn [fst snd]); apply wf_ret; auto].
    destruct (manager w from ns) as [mr|] eqn:Hmr; [|do 2 (apply wf_ret; cbn [fst snd]); apply wf_ret; auto].
    destruct (cm_vec mr) as [|x0 xs] eqn:Hcv; [do 2 (apply wf_ret; cbn [fst snd]); apply wf_ret; auto|].
    rewrite <- Hcv. apply wf_ret. cbn [fst snd]. destruct (node_at w a) as [nda|] eqn:Hnda; [|congruence].
    apply wf_exec_bind. unfold wf at 1. rewrite (exec_factory a (cm_vec mr) w (S t) nda Hnda). cbn [fst snd].
    apply wf_exec_bind. unfold wf at 1. rewrite exec_add_slot by congruence. cbn [fst snd]. apply wf_ret. cbn [fst snd].
    destruct (inv_slot _ _ _ _ Hi Hmr) as (n & Hn & Hd).
    assert (Hv : length (cm_vec mr) = n) by apply Hd. subst n.
    assert (Hdn : DimOk (length (cm_vec mr)) (new_cm (cm_vec mr) (nd_thresh nda))) by (split; [reflexivity|constructor]).
    apply Hrest; auto.
    + apply inv_new; auto. eexists. split; eauto.
    + eexists. split; [apply new_at; [apply Hi|congruence]|auto].
Qed.

Lemma uniform_alone a q (w : World) t : WorldOk w -> DimsOk D w -> node_at w a <> None -> req_counts q -> req_fits D q ->
  match exec (serve E a q) w t with
  | Ok ((_, w'), _) => WorldOk w' /\ DimsOk D w'
  | Panic => False
  | OutOfFuel => is_steal q
  end.
Proof.
  intros H1 H2 H3 H4 H5. destruct q; try (apply (alone_safe E HE HO D a _ w t H1 H2 H3 H4); exact H5).
  pose proof (steal_fit fuel a from ns limit w t (conj H1 H2) H3) as K. cbn [serve]. rewrite exec_bind. unfold wf in K.
  destruct (exec (h_steal E fuel a from ns limit) w t) as [[[[x ok] w'] t']| |]; auto; try exact I.
Qed.
End Uniform.
