(* Clock readings of a centroid and a manager: time goes on, and what is handed out was found
   unexpired. *)
From Verif Require Import Base Num MathUtils Env Centroid CManager DataSpec ThreshProofs OriginMgr.

Section ExpiryMgr.
Context {N : Num} (E : Env N).
Notation DP := (DataPoint N).
Notation Cen := (Centroid N).
Notation CM := (CM N).

(* ---- ticks only grow ---- *)
Definition grows {A} (m : M A) : Prop := forall t x t', m t = Ok (x, t') -> t <= t'.
Lemma grows_ret {A} (x : A) : grows (ret x).
Proof. intros t y t' H. unfold ret in H. inversion H; subst. auto. Qed.
Lemma grows_bind {A B} (m : M A) (k : A -> M B) : grows m -> (forall x, grows (k x)) -> grows (bind m k).
Proof.
  intros Hm Hk t x t'. unfold bind. destruct (m t) as [[a t1]| |] eqn:He; try discriminate. intros H.
  apply Hm in He. apply Hk in H. lia.
Qed.
Lemma grows_panic {A} : grows (panic : M A). Proof. intros t x t' H. discriminate. Qed.
Lemma grows_fuel {A} : grows (out_of_fuel : M A). Proof. intros t x t' H. discriminate. Qed.
Lemma grows_tick : grows tick. Proof. intros t x t' H. unfold tick in H. inversion H; subst. lia. Qed.
Lemma grows_lift {A} (o : outcome A) : grows (lift o).
Proof. intros t x t'. unfold lift. destruct o; try discriminate. intros H. inversion H; subst. auto. Qed.
Lemma grows_index {A} (l : list A) i : grows (index l i).
Proof. unfold index. destruct (nth_error l i); [apply grows_ret|apply grows_panic]. Qed.
Lemma grows_expired d : grows (expired E d).
Proof. intros t x t' H. unfold expired, bind, tick, ret in H. inversion H; subst. lia. Qed.
Create HintDb grow.
Hint Resolve @grows_ret @grows_panic @grows_fuel grows_tick @grows_lift @grows_index grows_expired : grow.
Ltac gr :=
  repeat first
    [ progress cbn beta
    | progress cbv zeta
    | solve [auto with grow]
    | match goal with
      | |- forall _, _ => intro
      | |- grows (bind _ _) => apply grows_bind
      | |- grows (match ?x with _ => _ end) => destruct x
      | |- grows (let (_, _) := ?x in _) => destruct x
      end ].
Lemma grows_order {A} (l : list A) : grows (any_order E l). Proof. unfold any_order. gr. Qed.
Hint Resolve @grows_order : grow.

Lemma grows_add c d : grows (c_add E c d). Proof. unfold c_add. gr. Qed.
Lemma grows_rm (c : Cen) i : grows (rm_dp c i). Proof. unfold rm_dp. gr. Qed.
Hint Resolve grows_add grows_rm : grow.
Lemma grows_skip : forall fuel c i, grows (skip_expired E fuel c i). Proof. induction fuel; intros; cbn [skip_expired]; gr. Qed.
Hint Resolve grows_skip : grow.
Lemma grows_gen s : grows (dp_vec_gen E s). Proof. destruct s. cbn [dp_vec_gen]. gr. Qed.
Hint Resolve grows_gen : grow.
Lemma grows_exhaust {S} (g : Gen S) : (forall s, grows (g s)) -> forall fuel s, grows (exhaust (N := N) fuel g s).
Proof. intros Hg. induction fuel; intros; cbn [exhaust]; gr. Qed.
Lemma grows_mean_loop {S} (g : Gen S) : (forall s, grows (g s)) -> forall fuel s res n, grows (vec_mean_loop (N := N) fuel g s res n).
Proof. intros Hg. induction fuel; intros; cbn [vec_mean_loop]; gr. Qed.
Hint Resolve @grows_exhaust @grows_mean_loop : grow.
Lemma grows_mean {S} (g : Gen S) : (forall s, grows (g s)) -> forall fuel s, grows (vec_mean (N := N) fuel g s).
Proof. intros Hg fuel s. unfold vec_mean. gr. Qed.
Hint Resolve @grows_mean : grow.
Lemma grows_search s v c k : grows (search_dps E s v c k). Proof. unfold search_dps. gr. Qed.
Lemma grows_move_c c : grows (c_move_vector E c). Proof. unfold c_move_vector. gr. Qed.
Lemma grows_all {A} (l : list A) idx : grows (index_all l idx). Proof. induction idx; cbn [index_all]; gr. Qed.
Lemma grows_rm_all : forall idx (c : Cen), grows (rm_all c idx). Proof. induction idx; intros; cbn [rm_all]; gr. Qed.
Hint Resolve grows_search grows_move_c @grows_all grows_rm_all : grow.
Lemma grows_drain_loop : forall fuel c n res, grows (drain_unordered_loop E fuel c n res).
Proof. induction fuel; intros; cbn [drain_unordered_loop]; gr. Qed.
Hint Resolve grows_drain_loop : grow.
Lemma grows_drain_u c n : grows (c_drain_unordered E c n). Proof. unfold c_drain_unordered. gr. Qed.
Lemma grows_drain_o c n : grows (c_drain_ordered E c n). Proof. unfold c_drain_ordered. gr. Qed.
Lemma grows_expire_loop : forall fuel c i, grows (expire_loop E fuel c i). Proof. induction fuel; intros; cbn [expire_loop]; gr. Qed.
Hint Resolve grows_drain_u grows_drain_o grows_expire_loop : grow.
Lemma grows_trim_loop : forall fuel c ds, grows (mem_trim_loop E fuel c ds). Proof. induction fuel; intros; cbn [mem_trim_loop]; gr. Qed.
Hint Resolve grows_trim_loop : grow.
Lemma grows_trim_c c : grows (c_mem_trim E c). Proof. unfold c_mem_trim. gr. Qed.
Lemma grows_knn_c c v k drain : grows (c_knn_lookup E c v k drain). Proof. unfold c_knn_lookup. gr. Qed.
Lemma grows_put_back pool self d : grows (put_back E pool self d). Proof. unfold put_back. gr. Qed.
Lemma grows_recv (pool : list Cen) recv : grows (recv_vecs pool recv). Proof. induction recv; cbn [recv_vecs]; gr. Qed.
Hint Resolve grows_trim_c grows_knn_c grows_put_back grows_recv : grow.
Lemma grows_distribute_loop self recv : forall data pool, grows (distribute_loop E pool self recv data).
Proof. induction data; intros; cbn [distribute_loop]; gr. Qed.
Hint Resolve grows_distribute_loop : grow.
Lemma grows_distribute_c pool self n recv : grows (c_distribute E pool self n recv). Proof. unfold c_distribute. gr. Qed.
Lemma grows_add_all : forall ds c, grows (add_all E c ds). Proof. induction ds; intros; cbn [add_all]; gr. Qed.
Hint Resolve grows_distribute_c grows_add_all : grow.
Lemma grows_split_c m i trim : grows (split_centroid E m i trim). Proof. unfold split_centroid. gr. Qed.
Lemma grows_portions m n : grows (cm_portions E m n). Proof. unfold cm_portions. gr. Qed.
Hint Resolve grows_split_c grows_portions : grow.
Lemma grows_add_m m d : grows (cm_add E m d). Proof. unfold cm_add. gr. Qed.
Lemma grows_drain_portions drain : (forall c n, grows (drain c n)) -> forall ps (m : CM) res, grows (drain_portions drain m ps res).
Proof. intros Hd. induction ps; intros; cbn [drain_portions]; gr. Qed.
Hint Resolve grows_drain_portions : grow.
Lemma grows_drain_um m n : grows (cm_drain_unordered E m n). Proof. unfold cm_drain_unordered. gr. Qed.
Lemma grows_drain_om m n : grows (cm_drain_ordered E m n). Proof. unfold cm_drain_ordered. gr. Qed.
Lemma grows_expire_m m : grows (cm_expire E m).
Proof. unfold cm_expire, c_expire. generalize (seq 0 (length (cm_cs m))). intros is. revert m. induction is; intros; cbn [cm_expire_loop]; unfold c_expire; gr. Qed.
Lemma grows_trim_m_loop : forall is m kept, grows (cm_mem_trim_loop E m is kept). Proof. induction is; intros; cbn [cm_mem_trim_loop]; gr. Qed.
Hint Resolve grows_trim_m_loop : grow.
Lemma grows_trim_m m : grows (cm_mem_trim E m). Proof. unfold cm_mem_trim. gr. Qed.
Lemma grows_list_gen s : grows (list_gen (N := N) s). Proof. destruct s; cbn [list_gen]; gr. Qed.
Lemma grows_move_all : forall cs, grows (move_all E cs). Proof. induction cs; cbn [move_all]; gr. Qed.
Hint Resolve grows_list_gen grows_move_all : grow.
Lemma grows_move_m m : grows (cm_move_vector E m). Proof. unfold cm_move_vector. gr. Qed.
Lemma grows_distribute_m_loop recv : forall ps pool, grows (cm_distribute_loop E pool ps recv). Proof. induction ps; intros; cbn [cm_distribute_loop]; gr. Qed.
Hint Resolve grows_move_m grows_distribute_m_loop : grow.
Lemma grows_internal m n : grows (cm_distribute_internal E m n). Proof. unfold cm_distribute_internal, cm_distribute. gr. Qed.
Lemma grows_take k drain : forall ds c res, grows (lookup_take E c ds res k drain). Proof. induction ds; intros; cbn [lookup_take]; gr. Qed.
Hint Resolve grows_take : grow.
Lemma grows_lookup_loop v k drain : forall idx m res, grows (lookup_loop E m idx v k drain res). Proof. induction idx; intros; cbn [lookup_loop]; gr. Qed.
Hint Resolve grows_lookup_loop : grow.
Lemma grows_lookup m v k drain : grows (cm_knn_lookup E m v k drain). Proof. unfold cm_knn_lookup. gr. Qed.
Lemma grows_delete : forall js (m : CM), grows (delete_all m js). Proof. induction js; intros; cbn [delete_all]; unfold delete_centroid; gr. Qed.
Hint Resolve grows_delete : grow.
Lemma grows_nearest m v n drain : grows (cm_nearest E m v n drain). Proof. unfold cm_nearest. gr. Qed.
Lemma grows_split_loop p : forall is m fresh, grows (split_loop E m p is fresh). Proof. induction is; intros; cbn [split_loop]; gr. Qed.
Hint Resolve grows_split_loop : grow.
Lemma grows_split_m m p : grows (cm_split E m p). Proof. unfold cm_split. gr. Qed.
Lemma grows_inner p i : forall idx cs marks, grows (merge_inner E cs marks i p idx). Proof. induction idx; intros; cbn [merge_inner]; gr. Qed.
Hint Resolve grows_inner : grow.
Lemma grows_outer p : forall is m marks, grows (merge_outer E m marks p is). Proof. induction is; intros; cbn [merge_outer]; gr. Qed.
Hint Resolve grows_outer : grow.
Lemma grows_merge_m m p : grows (cm_merge E m p). Proof. unfold cm_merge. gr. Qed.

(* ---- what comes out was found unexpired ---- *)
Variables T T' : nat.
Definition live (d : DP) : Prop := seen_live E T T' d.
(* m, if it is run between T and T', ends in Q. *)
Definition within {A} (m : M A) (Q : A -> Prop) : Prop := forall t x t', T <= t -> t' <= T' -> m t = Ok (x, t') -> Q x.

Lemma within_gives {A} (m : M A) (Q : A -> Prop) : gives m Q -> within m Q.
Proof. intros H t x t' _ _ He. eapply H; eauto. Qed.
Lemma within_ret {A} (x : A) (Q : A -> Prop) : Q x -> within (ret x) Q.
Proof. intros H. apply within_gives, gives_ret, H. Qed.
Lemma within_bind {A B} (m : M A) (k : A -> M B) P Q : within m P -> grows m -> (forall x, grows (k x)) -> (forall x, P x -> within (k x) Q) -> within (bind m k) Q.
Proof.
  intros Hm G1 G2 Hk t x t' HT HT'. unfold bind. destruct (m t) as [[a t1]| |] eqn:He; try discriminate. intros H.
  pose proof (G1 _ _ _ He). pose proof (G2 _ _ _ _ H). eapply (Hk a); [eapply Hm; [| |exact He]; lia| | |exact H]; lia.
Qed.
Lemma within_then {A B} (m : M A) (k : A -> M B) Q : grows m -> (forall x, within (k x) Q) -> within (bind m k) Q.
Proof.
  intros G1 Hk t x t' HT HT'. unfold bind. destruct (m t) as [[a t1]| |] eqn:He; try discriminate. intros H.
  pose proof (G1 _ _ _ He). eapply (Hk a); [| |exact H]; lia.
Qed.
Lemma within_weak {A} (m : M A) (Q Q' : A -> Prop) : within m Q -> (forall x, Q x -> Q' x) -> within m Q'.
Proof. intros H HQ t x t' H1 H2 He. eapply HQ, H; eauto. Qed.
Lemma within_both {A} (m : M A) (P Q : A -> Prop) : gives m P -> within m Q -> within m (fun x => P x /\ Q x).
Proof. intros H1 H2 t x t' HT HT' He. split; [eapply H1|eapply H2]; eauto. Qed.
Lemma within_panic {A} (Q : A -> Prop) : within panic Q. Proof. intros t x t' _ _ H. discriminate. Qed.
Lemma within_fuel {A} (Q : A -> Prop) : within out_of_fuel Q. Proof. intros t x t' _ _ H. discriminate. Qed.
Lemma within_expired d : within (expired E d) (fun e => e = false -> live d).
Proof.
  intros t x t' HT HT' He. unfold expired, bind, tick, ret in He. inversion He; subst. intros Hd. exists t. split; [lia|auto].
Qed.
Lemma within_index {A} (l : list A) i : within (index l i) (fun x => nth_error l i = Some x).
Proof.
  apply within_gives. unfold index. destruct (nth_error l i) as [x|] eqn:Hx; [apply gives_ret; auto|apply gives_panic].
Qed.

Lemma firstn_rm {A} i (l : list A) : firstn i (remove_at i l) = firstn i l.
Proof.
  unfold remove_at. destruct (Nat.leb_spec i (length l)).
  - rewrite firstn_app, firstn_firstn, firstn_length_le, Nat.min_id, Nat.sub_diag by lia. cbn [firstn]. apply app_nil_r.
  - rewrite skipn_all2 by lia. rewrite app_nil_r. rewrite firstn_firstn, Nat.min_id. auto.
Qed.
Lemma rm_firstn (c : Cen) i : gives (rm_dp c i) (fun c' => firstn i (c_dps c') = firstn i (c_dps c)).
Proof. unfold rm_dp. apply gives_then. intros d. apply gives_ret. cbn [c_dps]. apply firstn_rm. Qed.
Lemma firstn_next {A} (l : list A) i x : nth_error l i = Some x -> firstn (S i) l = firstn i l ++ [x].
Proof.
  revert i. induction l as [|y l IH]; intros [|i]; cbn [nth_error]; try discriminate.
  - intros H. inversion H; subst. reflexivity.
  - intros H. change (firstn (S (S i)) (y :: l)) with (y :: firstn (S i) l). rewrite (IH _ H). reflexivity.
Qed.
(* Everything in front of i is known to be unexpired, and after skipping what is at i, so is that. *)
Lemma skip_live : forall fuel c i, Forall live (firstn i (c_dps c)) ->
  within (skip_expired E fuel c i) (fun c' => Forall live (firstn (S i) (c_dps c'))).
Proof.
  induction fuel; intros c i H; cbn [skip_expired]; (destruct (i <? length (c_dps c)) eqn:Hi;
    [|apply within_ret; apply Nat.ltb_ge in Hi; rewrite firstn_all2 in * by lia; exact H]);
    (eapply within_bind; [apply within_index|gr|gr|]); intros d Hd; (eapply within_bind; [apply within_expired|gr|gr|]); intros [|] He.
  - apply within_fuel.
  - apply within_ret. rewrite (firstn_next _ _ _ Hd). apply Forall_app. auto.
  - eapply within_bind; [apply within_gives, rm_firstn|gr|gr|]. intros c' Hc. apply IHfuel. cbn beta in Hc. rewrite Hc. exact H.
  - apply within_ret. rewrite (firstn_next _ _ _ Hd). apply Forall_app. auto.
Qed.
Lemma gen_live c i : Forall live (firstn i (c_dps c)) ->
  within (dp_vec_gen E (c, i)) (fun r => let '(o, (c', i')) := r in Forall live (match o with Some _ => firstn i' (c_dps c') | None => c_dps c' end)).
Proof.
  intros H. cbn [dp_vec_gen]. eapply within_bind; [apply skip_live; exact H|gr|gr|]. intros c' Hc'.
  destruct (nth_error (c_dps c') i) as [d|] eqn:Hd; apply within_ret; auto.
  apply nth_error_None in Hd. cbn beta in Hc'. rewrite firstn_all2 in Hc' by lia. exact Hc'.
Qed.
Lemma exhaust_live : forall fuel c i, Forall live (firstn i (c_dps c)) ->
  within (exhaust fuel (dp_vec_gen E) (c, i)) (fun r => Forall live (c_dps (fst (snd r)))).
Proof.
  induction fuel; intros c i H; cbn [exhaust]; [apply within_fuel|]. eapply within_bind; [apply gen_live; exact H|gr|gr|].
  intros [[v|] [c' i']] H'; [|apply within_ret; exact H']. eapply within_bind; [apply IHfuel; exact H'|gr|gr|]. intros [vs s] Hs. apply within_ret. exact Hs.
Qed.
Lemma search_live s v c k : within (search_dps E s v c k) (fun r => Forall live (c_dps (snd r))).
Proof.
  unfold search_dps. eapply within_bind; [apply exhaust_live; constructor|gr|gr|]. intros [vs [c' i]] H. apply within_then; [gr|]. intros idx.
  apply within_ret. exact H.
Qed.
Lemma drain_loop_live : forall fuel c n res, Forall live res -> within (drain_unordered_loop E fuel c n res) (fun r => Forall live (fst r)).
Proof.
  induction fuel; intros c n res Hr; cbn [drain_unordered_loop]; (destruct (c_dps c) as [|d ds] eqn:Hd; [apply within_ret; auto|]);
    (destruct n; [apply within_ret; auto|]); [apply within_fuel|].
  eapply within_bind; [apply within_expired|gr|gr|]. intros e He. apply within_then; [gr|]. intros c'.
  destruct e; apply IHfuel; auto. apply Forall_app. auto.
Qed.
Lemma drain_u_live c n : within (c_drain_unordered E c n) (fun r => Forall live (fst r)).
Proof. unfold c_drain_unordered. destruct (_ <? _)%Z; [apply within_panic|]. apply drain_loop_live. constructor. Qed.
Lemma drain_o_live c n : within (c_drain_ordered E c n) (fun r => Forall live (fst r)).
Proof.
  unfold c_drain_ordered. destruct (_ <? _)%Z; [apply within_panic|]. eapply within_bind; [apply search_live|gr|gr|]. intros [idx c1] H1.
  eapply within_bind; [apply within_gives, (all_origin live); exact H1|gr|gr|]. intros res Hres. apply within_then; [gr|]. intros c2. apply within_ret. exact Hres.
Qed.
Lemma knn_c_live c v k drain : within (c_knn_lookup E c v k drain) (fun r => Forall live (fst r)).
Proof.
  unfold c_knn_lookup. destruct (_ <? _)%Z; [apply within_panic|]. eapply within_bind; [apply search_live|gr|gr|]. intros [idx c1] H1.
  eapply within_bind; [apply within_gives, (all_origin live); exact H1|gr|gr|]. intros res Hres. destruct drain; [|apply within_ret; exact Hres].
  apply within_then; [gr|]. intros c2. apply within_ret. exact Hres.
Qed.
Lemma portions_live drain : (forall c n, grows (drain c n)) -> (forall c n, within (drain c n) (fun r => Forall live (fst r))) ->
  forall ps (m : CM) res, Forall live res -> within (drain_portions drain m ps res) (fun r => Forall live (fst r)).
Proof.
  intros G Hd. induction ps as [|[i p] ps IH]; intros m res Hr; cbn [drain_portions]; [apply within_ret; auto|]. apply within_then; [gr|]. intros c.
  eapply within_bind; [apply Hd|gr|gr|]. intros [r c'] H. apply IH. apply Forall_app. auto.
Qed.
Lemma drain_um_live m n : within (cm_drain_unordered E m n) (fun r => Forall live (fst r)).
Proof.
  unfold cm_drain_unordered. destruct (_ <? _)%Z; [apply within_panic|]. apply within_then; [gr|]. intros ps. apply portions_live; [gr|apply drain_u_live|constructor].
Qed.
Lemma drain_om_live m n : within (cm_drain_ordered E m n) (fun r => Forall live (fst r)).
Proof.
  unfold cm_drain_ordered. destruct (_ <? _)%Z; [apply within_panic|]. apply within_then; [gr|]. intros ps. apply portions_live; [gr|apply drain_o_live|constructor].
Qed.
Lemma take_live k drain : forall ds c res, Forall live ds -> Forall live res -> within (lookup_take E c ds res k drain) (fun r => Forall live (fst r)).
Proof.
  induction ds as [|d ds IH]; intros c res Hd Hr; cbn [lookup_take]; [apply within_ret; auto|]. inversion Hd; subst.
  destruct (_ <? _); [apply IH; auto; apply Forall_app; auto|]. destruct drain; [|apply IH; auto]. apply within_then; [gr|]. intros [b c']. apply IH; auto.
Qed.
Lemma lookup_live m v k drain : within (cm_knn_lookup E m v k drain) (fun r => Forall live (fst r)).
Proof.
  unfold cm_knn_lookup. destruct (_ <? _)%Z; [apply within_panic|]. apply within_then; [gr|]. intros idx.
  assert (Hr : Forall live []) by constructor. revert Hr. generalize (@nil DP). revert m.
  induction idx as [|i idx IH]; intros m res Hr; cbn [lookup_loop]; [apply within_ret; auto|]. destruct (_ <=? _); [apply within_ret; auto|].
  apply within_then; [gr|]. intros c. eapply within_bind; [apply knn_c_live|gr|gr|]. intros [ds c1] H1.
  eapply within_bind; [apply take_live; eauto|gr|gr|]. intros [res' c2] H2. apply IH; auto.
Qed.
(* Only what was found unexpired goes in. *)
Lemma add_m_live (P : DP -> Prop) m d : okm P m -> (live d -> P d) -> within (cm_add E m d) (fun r => okm P (snd r)).
Proof.
  intros Hm Hd t x t' HT HT' He. assert (H : live d \/ snd x = m).
  { revert He. pose proof (grows_add_m m d t). unfold cm_add, expired in *. unfold bind at 1 2, tick, ret at 1. intros He. cbn beta iota in He.
    destruct (expired_at (e_now E t) d) eqn:Hx.
    - right. cbn beta iota in He. unfold ret in He. inversion He; subst. reflexivity.
    - left. exists t. split; auto. split; auto.
      enough (S t <= t') by lia. revert He. match goal with |- ?m (S t) = _ -> _ => assert (G : grows m) by gr end. apply G. }
  destruct H as [H| ->]; [|exact Hm]. eapply (add_m_origin E P); eauto.
Qed.
End ExpiryMgr.
