(* The threshold of a manager is the one of its node, whatever is running. *)
From Verif Require Import Base Num MathUtils Env Centroid CManager Proc Server ServerSpec Wp Owns ServerFacts Core EventLoop CoreSpec.

(* ---- managers ---- *)
Section Managers.
Context {N : Num} (E : Env N).
Notation CM := (CM N).

(* The result of m, if there is one, meets Q. *)
Definition gives {A : Type} (m : M A) (Q : A -> Prop) : Prop := forall t x t', m t = Ok (x, t') -> Q x.

Lemma gives_ret {A} (x : A) (Q : A -> Prop) : Q x -> gives (ret x) Q.
Proof. intros H t y t' He. unfold ret in He. inversion He; subst. auto. Qed.
Lemma gives_bind {A B} (m : M A) (k : A -> M B) P Q : gives m P -> (forall x, P x -> gives (k x) Q) -> gives (bind m k) Q.
Proof.
  intros Hm Hk t x t'. unfold bind. destruct (m t) as [[a t1]| |] eqn:He; try discriminate. apply Hk. eapply Hm; eauto.
Qed.
Lemma gives_then {A B} (m : M A) (k : A -> M B) Q : (forall x, gives (k x) Q) -> gives (bind m k) Q.
Proof. intros Hk. apply (gives_bind m k (fun _ => True)); auto. intros t x t' _. exact I. Qed.
Lemma gives_panic {A} (Q : A -> Prop) : gives panic Q.
Proof. intros t x t' H. discriminate. Qed.

Ltac gs := repeat first
  [ progress cbn beta | apply gives_panic | apply gives_ret; reflexivity | apply gives_then; intro
  | match goal with
    | |- gives (match ?x with _ => _ end) _ => destruct x
    | |- gives (let (_, _) := ?x in _) _ => destruct x
    end ].

Lemma add_thresh (m : CM) d : gives (cm_add E m d) (fun r => cm_thresh (snd r) = cm_thresh m).
Proof. unfold cm_add. gs. Qed.
Lemma portions_thresh drain : forall ps (m : CM) res, gives (drain_portions drain m ps res) (fun r => cm_thresh (snd r) = cm_thresh m).
Proof.
  induction ps as [|[i p] ps IH]; intros m res; cbn [drain_portions]; gs.
  intros k0 y0 k1 He. apply IH in He. exact He.
Qed.
Lemma drain_u_thresh (m : CM) n : gives (cm_drain_unordered E m n) (fun r => cm_thresh (snd r) = cm_thresh m).
Proof. unfold cm_drain_unordered. gs. apply portions_thresh. Qed.
Lemma drain_o_thresh (m : CM) n : gives (cm_drain_ordered E m n) (fun r => cm_thresh (snd r) = cm_thresh m).
Proof. unfold cm_drain_ordered. gs. apply portions_thresh. Qed.
Lemma expire_thresh (m : CM) : gives (cm_expire E m) (fun r => cm_thresh r = cm_thresh m).
Proof.
  unfold cm_expire. generalize (seq 0 (length (cm_cs m))). intros l. revert m. induction l as [|i l IH]; intros m; cbn [cm_expire_loop]; gs.
  intros k0 y0 k1 He. apply IH in He. exact He.
Qed.
Lemma trim_thresh (m : CM) : gives (cm_mem_trim E m) (fun r => cm_thresh r = cm_thresh m).
Proof.
  assert (H : forall l (m : CM) kept, gives (cm_mem_trim_loop E m l kept) (fun r => cm_thresh (fst r) = cm_thresh m)).
  { induction l as [|i l IH]; intros m0 kept; cbn [cm_mem_trim_loop]; [apply gives_ret; reflexivity|].
    apply gives_then. intros c. apply gives_then. intros c'. cbv zeta. intros k0 y0 k1 He. apply IH in He. rewrite He.
    destruct (_ && _); reflexivity. }
  unfold cm_mem_trim. eapply gives_bind; [apply H|]. intros [m' kept] Hm. cbn [fst] in Hm. apply gives_ret. exact Hm.
Qed.
Lemma move_thresh (m : CM) : gives (cm_move_vector E m) (fun r => cm_thresh (snd r) = cm_thresh m).
Proof. unfold cm_move_vector. gs. Qed.
Lemma internal_thresh (m : CM) n : gives (cm_distribute_internal E m n) (fun r => cm_thresh r = cm_thresh m).
Proof.
  unfold cm_distribute_internal. eapply (gives_bind _ _ (fun r => cm_thresh (fst r) = cm_thresh m)).
  - unfold cm_distribute. destruct (seq 0 _); [apply gives_ret; reflexivity|]. apply gives_then. intros ps. apply gives_then. intros pool.
    eapply gives_bind; [apply move_thresh|]. intros [ok m'] H. apply gives_ret. exact H.
  - intros [m' ext] H. apply gives_ret. exact H.
Qed.
Lemma lookup_thresh (m : CM) v k drain : gives (cm_knn_lookup E m v k drain) (fun r => cm_thresh (snd r) = cm_thresh m).
Proof.
  unfold cm_knn_lookup. destruct (k <? 0)%Z; [apply gives_panic|]. apply gives_then. intros idx. generalize (@nil (DataPoint N)). revert m.
  induction idx as [|i idx IH]; intros m res; cbn [lookup_loop]; gs. intros k0 y0 k1 He. apply IH in He. exact He.
Qed.
Lemma delete_thresh js : forall m : CM, gives (delete_all m js) (fun r => cm_thresh r = cm_thresh m).
Proof.
  induction js as [|j js IH]; intros m; cbn [delete_all]; [apply gives_ret; reflexivity|].
  eapply (gives_bind _ _ (fun r => cm_thresh r = cm_thresh m)).
  - unfold delete_centroid. gs.
  - intros m' Hm t x t' He. apply IH in He. congruence.
Qed.
Lemma nearest_thresh (m : CM) v n drain : gives (cm_nearest E m v n drain) (fun r => cm_thresh (snd r) = cm_thresh m).
Proof.
  unfold cm_nearest. apply gives_then. intros [|i idx]; [apply gives_ret; reflexivity|]. apply gives_then. intros cs. destruct drain; [|apply gives_ret; reflexivity].
  eapply gives_bind; [apply delete_thresh|]. intros m' H. apply gives_ret. exact H.
Qed.
Lemma split_thresh (m : CM) p : gives (cm_split E m p) (fun r => cm_thresh r = cm_thresh m).
Proof.
  assert (H : forall l (m : CM) fresh, gives (split_loop E m p l fresh) (fun r => cm_thresh (fst r) = cm_thresh m)).
  { induction l as [|i l IH]; intros m0 fresh; cbn [split_loop]; gs.
    - apply IH.
    - intros k0 y0 k1 He. apply IH in He. exact He.
    - apply IH. }
  unfold cm_split. eapply gives_bind; [apply H|]. intros [m' fresh] Hm. cbn [fst] in Hm. apply gives_ret. exact Hm.
Qed.
Lemma merge_thresh (m : CM) p : gives (cm_merge E m p) (fun r => cm_thresh r = cm_thresh m).
Proof.
  assert (H : forall l (m : CM) marks, gives (merge_outer E m marks p l) (fun r => cm_thresh (fst r) = cm_thresh m)).
  { induction l as [|i l IH]; intros m0 marks; cbn [merge_outer]; gs.
    - apply IH.
    - intros k0 y0 k1 He. apply IH in He. exact He. }
  unfold cm_merge. eapply gives_bind; [apply H|]. intros [m' marks] Hm. cbn [fst] in Hm.
  intros t x t' He. apply delete_thresh in He. congruence.
Qed.
End Managers.

(* ---- processes ---- *)
Section Keeps.
Context {N : Num} (E : Env N) (th : str -> option Z).
Notation World := (World N).
Notation proc' := (proc' N).

Definition TInv (w : World) : Prop := forall a nd, assoc a (w_nodes w) = Some nd ->
  th a = Some (nd_thresh nd) /\ Forall (fun s => cm_thresh (snd s) = nd_thresh nd) (nd_heap nd).

Fixpoint keeps {R} (p : proc' R) : Prop :=
  match p with
  | Ret _ => True
  | Act _ f k => forall w t x w' t', TInv w -> f w t = Ok ((x, w'), t') -> TInv w' /\ keeps (k x)
  | Fork q k => keeps q /\ keeps k
  end.

Lemma keeps_bind {R S} (p : proc' R) (f : R -> proc' S) : keeps p -> (forall r, keeps (f r)) -> keeps (pbind p f).
Proof.
  revert S f. induction p as [R r|R A o g k IH|R q IHq k IHk]; intros S f Hp Hf; cbn [pbind keeps] in *; auto.
  - intros w t x w' t' Hw He. destruct (Hp _ _ _ _ _ Hw He). auto.
  - destruct Hp. auto.
Qed.

Lemma keeps_same {A R} o (f : World -> M (A * World)) (k : A -> proc' R) :
  (forall w t x w' t', f w t = Ok ((x, w'), t') -> w_nodes w' = w_nodes w) -> (forall x, keeps (k x)) -> keeps (Act o f k).
Proof.
  intros Hf Hk. cbn [keeps]. intros w t x w' t' Hw He. split; auto. intros a nd. rewrite (Hf _ _ _ _ _ He). apply Hw.
Qed.

Lemma keeps_local {A} (m : M A) : keeps (local m : proc' A).
Proof.
  apply keeps_same; [|cbn [keeps]; auto]. intros w t x w' t'. unfold bind, ret. destruct (m t) as [[y t1]| |]; try discriminate.
  intros H. inversion H; auto.
Qed.
Lemma keeps_drop ns ds : keeps (drop_dps ns ds : proc' unit).
Proof. apply keeps_same; [|cbn [keeps]; auto]. intros w t x w' t' H. inversion H; auto. Qed.
Lemma keeps_lookup a ns : keeps (lookup a ns : proc' _).
Proof. apply keeps_same; [|cbn [keeps]; auto]. intros w t x w' t' H. inversion H; auto. Qed.
Lemma keeps_namespaces a : keeps (h_namespaces E a : proc' _).
Proof.
  apply keeps_same; [|cbn [keeps]; auto]. intros w t x w' t'. destruct (assoc a (w_nodes w)); intros H; inversion H; auto.
Qed.
Lemma keeps_rpc {A} a (h : proc' A) : keeps h -> keeps (rpc E a h).
Proof.
  intros Hh. unfold rpc. cbn [pbind]. apply keeps_same.
  - intros w t x w' t' H. inversion H; auto.
  - intros [| |]; cbn [keeps]; auto; try (split; auto); apply keeps_bind; auto; intros; exact I.
Qed.

Lemma forall_set {A} (P : A -> Prop) l i x : Forall P l -> P x -> Forall P (list_set l i x).
Proof.
  intros H Hx. revert i. induction H as [|y l Hy H IH]; intros [|i]; cbn [list_set]; auto.
Qed.
Lemma set_inv (w : World) a nd : TInv w -> th a = Some (nd_thresh nd) -> Forall (fun s => cm_thresh (snd s) = nd_thresh nd) (nd_heap nd) ->
  TInv (set_node w a nd).
Proof.
  intros Hw H1 H2 b nb. cbn [set_node w_nodes]. destruct (str_eqb b a) eqn:Hb.
  - apply str_eqb_eq in Hb. subst b. rewrite assoc_upsert_same. intros H. inversion H; subst. auto.
  - rewrite assoc_upsert_other; [apply Hw|]. intros ->. rewrite str_eqb_refl in Hb. discriminate.
Qed.
Lemma keeps_slot {A} a p (f : CM N -> M (A * CM N)) g : (forall m, gives (f m) (fun r => cm_thresh (snd r) = cm_thresh m)) ->
  keeps (slot_access a p f g).
Proof.
  intros Hf. cbn [slot_access keeps]. intros w t x w' t' Hw. destruct (assoc a (w_nodes w)) as [nd|] eqn:Ha; try discriminate.
  destruct (nth_error (nd_heap nd) p) as [[ns m]|] eqn:Hp; try discriminate. unfold bind.
  destruct (f m t) as [[[y m'] t1]| |] eqn:He; try discriminate. unfold ret. intros H. inversion H; subst. split; [|exact I].
  destruct (Hw _ _ Ha) as (H1 & H2). apply Hf in He. cbn [snd] in He.
  assert (Hs : TInv (set_node w a (MkNode (list_set (nd_heap nd) p (ns, m')) (nd_tbl nd) (nd_thresh nd)))).
  { apply set_inv; auto. cbn [nd_heap nd_thresh]. apply forall_set; auto. cbn [snd]. rewrite He.
    rewrite Forall_forall in H2. exact (H2 _ (nth_error_In _ _ Hp)). }
  exact Hs.
Qed.
Lemma keeps_access_g {A} a ns (f : CM N -> M (A * CM N)) g : (forall m, gives (f m) (fun r => cm_thresh (snd r) = cm_thresh m)) ->
  keeps (access_g a ns f g).
Proof.
  intros Hf. unfold access_g. apply keeps_bind; [apply keeps_lookup|]. intros [p|]; [|exact I].
  apply keeps_bind; [apply keeps_slot; auto|]. intros; exact I.
Qed.
Lemma keeps_access {A} a ns (f : CM N -> M (A * CM N)) : (forall m, gives (f m) (fun r => cm_thresh (snd r) = cm_thresh m)) ->
  keeps (access a ns f).
Proof. apply keeps_access_g. Qed.

(* The manager of a new namespace. *)
Lemma keeps_factory {R} a v (k : CM N -> proc' R) : (forall m, th a = Some (cm_thresh m) -> keeps (k m)) ->
  keeps (call m <- factory a v; k m).
Proof.
  intros Hk. cbn [factory pbind keeps]. intros w t x w' t' Hw. destruct (assoc a (w_nodes w)) as [nd|] eqn:Ha; try discriminate.
  intros H. inversion H; subst. split; auto. apply Hk. apply (Hw _ _ Ha).
Qed.
Lemma keeps_first_add {R} a ns m d (k : CM N -> proc' R) : th a = Some (cm_thresh m) -> (forall m', th a = Some (cm_thresh m') -> keeps (k m')) ->
  keeps (call m' <- first_add E ns m d; k m').
Proof.
  intros Hm Hk. cbn [first_add pbind keeps]. intros w t x w' t' Hw. unfold bind.
  destruct (cm_add E m d t) as [[[ok m1] t1]| |] eqn:He; try discriminate. unfold ret. intros H. inversion H; subst.
  apply add_thresh in He. cbn [snd] in He. split; [exact Hw|]. apply Hk. congruence.
Qed.
Lemma keeps_add_slot a ns m : th a = Some (cm_thresh m) -> keeps (add_slot a ns m : proc' unit).
Proof.
  intros Hm. cbn [add_slot keeps]. intros w t x w' t' Hw. destruct (assoc a (w_nodes w)) as [nd|] eqn:Ha; try discriminate.
  intros H. inversion H; subst. split; [|exact I]. destruct (Hw _ _ Ha) as (H1 & H2). apply set_inv; auto.
  cbn [nd_heap nd_thresh]. apply Forall_app. split; auto. constructor; auto. cbn [snd]. congruence.
Qed.

Lemma gives_unit (m : CM N) (f : M (CM N)) : gives f (fun r => cm_thresh r = cm_thresh m) ->
  gives (do m' <- f; ret (tt, m')) (fun r => cm_thresh (snd r) = cm_thresh m).
Proof. intros H. eapply gives_bind; [exact H|]. intros m' Hm. apply gives_ret. exact Hm. Qed.

Create HintDb keeps.
Hint Resolve keeps_local keeps_drop keeps_lookup keeps_namespaces keeps_rpc keeps_slot keeps_add_slot : keeps.
Hint Resolve add_thresh drain_u_thresh drain_o_thresh expire_thresh trim_thresh move_thresh internal_thresh lookup_thresh nearest_thresh split_thresh
  merge_thresh gives_unit : keeps.
Ltac ks :=
  repeat first
    [ progress cbn beta
    | solve [auto with keeps]
    | apply keeps_rpc
    | apply keeps_access
    | apply keeps_access_g
    | apply keeps_factory
    | apply (keeps_first_add _ _ _ _ _ ltac:(eassumption))
    | apply keeps_bind
    | exact I
    | match goal with
      | |- keeps (Ret _) => exact I
      | |- forall _, _ => intro
      | |- keeps (match ?x with _ => _ end) => destruct x
      | |- keeps (let (_, _) := ?x in _) => destruct x
      | |- gives (ret _) _ => apply gives_ret; reflexivity
      end ].

Lemma keeps_h_vec a ns : keeps (h_vec a ns : proc' _). Proof. unfold h_vec. ks. Qed.
Lemma keeps_h_add a ns d : keeps (h_add E a ns d).
Proof.
  unfold h_add. apply keeps_bind; [apply keeps_access_g; auto with keeps|]. intros [b|]; [exact I|].
  apply keeps_factory. intros m Hm. apply (keeps_first_add a); auto. intros m' Hm'. apply keeps_bind; [apply keeps_add_slot; auto|]. intros; exact I.
Qed.
Lemma keeps_meta_loop a nss : keeps (meta_loop a nss : proc' _). Proof. induction nss; cbn [meta_loop]; ks. Qed.
Hint Resolve keeps_h_vec keeps_h_add keeps_meta_loop : keeps.
Lemma keeps_h_meta a : keeps (h_meta E a). Proof. unfold h_meta. ks. Qed.
Lemma keeps_h_nearest a ns v n d : keeps (h_nearest E a ns v n d).
Proof. unfold h_nearest. apply keeps_access. intros m. eapply gives_bind; [apply nearest_thresh|]. intros [o m'] H. apply gives_ret. exact H. Qed.
Lemma keeps_h_nearest_vec a ns v : keeps (h_nearest_vec E a ns v).
Proof. unfold h_nearest_vec. apply keeps_access. intros m. eapply gives_bind; [apply nearest_thresh|]. intros [o m'] H. apply gives_ret. exact H. Qed.
Hint Resolve keeps_h_meta keeps_h_nearest keeps_h_nearest_vec : keeps.

Lemma keeps_c_namespaces a : keeps (c_namespaces E a). Proof. unfold c_namespaces. ks. Qed.
Lemma keeps_c_vec_of a ns : keeps (c_vec_of E a ns). Proof. unfold c_vec_of. ks. Qed.
Lemma keeps_c_add_dp a ns d : keeps (c_add_dp E a ns d). Proof. unfold c_add_dp. ks. Qed.
Lemma keeps_c_expire a ns : keeps (c_expire_of E a ns). Proof. unfold c_expire_of, h_expire. ks. Qed.
Lemma keeps_c_mem_trim a ns : keeps (c_mem_trim_of E a ns). Proof. unfold c_mem_trim_of, h_mem_trim. ks. Qed.
Lemma keeps_c_di a ns n : keeps (c_distribute_internal E a ns n). Proof. unfold c_distribute_internal, h_distribute_internal. ks. Qed.
Lemma keeps_c_split a ns lo hi : keeps (c_split E a ns lo hi). Proof. unfold c_split, h_split. ks. Qed.
Lemma keeps_c_merge a ns lo hi : keeps (c_merge E a ns lo hi). Proof. unfold c_merge, h_merge. ks. Qed.
Lemma keeps_c_len a ns : keeps (c_len_dp E a ns). Proof. unfold c_len_dp, h_len_dp. ks. Qed.
Lemma keeps_c_lookup a ns v k d : keeps (c_lookup E a ns v k d). Proof. unfold c_lookup, h_knn_lookup. ks. Qed.
Lemma keeps_c_nearest a ns v n d : keeps (c_nearest E a ns v n d). Proof. unfold c_nearest. ks. Qed.
Lemma keeps_c_nearest_vec a ns v : keeps (c_nearest_vec E a ns v). Proof. unfold c_nearest_vec. ks. Qed.
Lemma keeps_c_meta a : keeps (c_meta E a). Proof. unfold c_meta. ks. Qed.
Hint Resolve keeps_c_namespaces keeps_c_vec_of keeps_c_add_dp keeps_c_expire keeps_c_mem_trim keeps_c_di keeps_c_split keeps_c_merge keeps_c_len
  keeps_c_lookup keeps_c_nearest keeps_c_nearest_vec keeps_c_meta : keeps.

Lemma keeps_fetch_each f addrs : (forall b, keeps (f b)) -> keeps (fetch_each f addrs : proc' (list (str * vec N))).
Proof. intros Hf. induction addrs; cbn [fetch_each]; ks. Qed.
Lemma keeps_fetch_vecs f addrs : (forall b, keeps (f b)) -> keeps (fetch_vecs E f addrs).
Proof. intros Hf. unfold fetch_vecs. apply keeps_bind; [apply keeps_local|]. intros. apply keeps_bind; [apply keeps_fetch_each; auto|]. intros. apply keeps_local. Qed.
Lemma keeps_try_add addrs idx ns d : keeps (try_add E addrs idx ns d).
Proof. induction idx; cbn [try_add]; ks. Qed.
Lemma keeps_distribute_dp d rsl ns : keeps (distribute_dp E d rsl ns).
Proof. unfold distribute_dp. apply keeps_bind; [apply keeps_local|]. intros. apply keeps_try_add. Qed.
Lemma keeps_put_back a ns d : keeps (put_back_dp E a ns d).
Proof. unfold put_back_dp. ks. Qed.
Hint Resolve keeps_fetch_each keeps_fetch_vecs keeps_try_add keeps_distribute_dp keeps_put_back : keeps.
Lemma keeps_fast_loop a ns rsl ds : keeps (distribute_fast_loop E a ns rsl ds).
Proof. induction ds; cbn [distribute_fast_loop]; ks. Qed.
Lemma keeps_accurate_loop a ns addrs ds : keeps (distribute_accurate_loop E a ns addrs ds).
Proof. induction ds; cbn [distribute_accurate_loop]; ks. Qed.
Hint Resolve keeps_fast_loop keeps_accurate_loop : keeps.
Lemma keeps_distribute_with a ns n addrs loop : (forall ds, keeps (loop ds)) -> keeps (distribute_with E a ns n addrs loop).
Proof. intros Hl. unfold distribute_with. ks. Qed.
Lemma keeps_h_fast a ns n addrs : keeps (h_distribute_fast E a ns n addrs).
Proof. apply keeps_distribute_with. intros. ks. Qed.
Lemma keeps_h_accurate a ns n addrs : keeps (h_distribute_accurate E a ns n addrs).
Proof. apply keeps_distribute_with. intros. ks. Qed.
Lemma keeps_steal_loop fuel a from ns v limit : forall total, keeps (steal_loop E fuel a from ns v limit total).
Proof. induction fuel; intros total; cbn [steal_loop]; ks. Qed.
Hint Resolve keeps_h_fast keeps_h_accurate keeps_steal_loop : keeps.
Lemma keeps_h_steal fuel a from ns limit : keeps (h_steal E fuel a from ns limit).
Proof. unfold h_steal. ks. Qed.
Hint Resolve keeps_h_steal : keeps.
Lemma keeps_c_fast a ns addrs n : keeps (c_distribute_fast E a ns addrs n). Proof. unfold c_distribute_fast. ks. Qed.
Lemma keeps_c_accurate a ns addrs n : keeps (c_distribute_accurate E a ns addrs n). Proof. unfold c_distribute_accurate. ks. Qed.
Lemma keeps_c_steal fuel a from ns limit : keeps (c_steal E fuel a from ns limit). Proof. unfold c_steal. ks. Qed.
Hint Resolve keeps_c_fast keeps_c_accurate keeps_c_steal : keeps.

Lemma keeps_serve a q : keeps (serve E a q).
Proof.
  destruct q; cbn [serve]; unfold reply, h_drain_unordered, h_drain_ordered, h_expire, h_len_dp, h_mem_trim, h_move_vector, h_distribute_internal,
    h_knn_lookup, h_split, h_merge; ks.
Qed.

(* ---- HTTP and the event loop ---- *)
Lemma keeps_best_fit s v fetch : keeps fetch -> keeps (best_fit s v fetch : proc' (list str)).
Proof. intros H. unfold best_fit. ks. Qed.
Lemma keeps_put_dp addrs ns d : keeps (put_dp E addrs ns d).
Proof. induction addrs; cbn [put_dp]; ks. Qed.
Lemma keeps_get_loop addrs ns v n drain : forall res, keeps (get_loop E addrs ns v n drain res).
Proof. induction addrs; intros res; cbn [get_loop]; ks. Qed.
Hint Resolve keeps_best_fit keeps_put_dp keeps_get_loop : keeps.
Lemma keeps_put_http addrs body : keeps (put_http E addrs body).
Proof. unfold put_http, put_accurate, put_fast, put_rand, best_fit_accurate, best_fit_fast. ks. Qed.
Lemma keeps_query_http addrs body : keeps (query_http E addrs body).
Proof. unfold query_http, get_dps, best_fit_accurate, best_fit_fast. ks. Qed.

Lemma keeps_each nss p : (forall ns, keeps (p ns)) -> keeps (each nss p : proc' unit).
Proof. intros H. induction nss; cbn [each]; ks. Qed.
Lemma keeps_poll addrs : forall t, keeps (poll E addrs t).
Proof. induction addrs; intros t; cbn [poll]; ks. Qed.
Lemma keeps_with_table c p : (forall t, keeps (p t)) -> keeps (with_table E c p).
Proof. intros H. unfold with_table. apply keeps_bind; [apply keeps_poll|auto]. Qed.
Lemma keeps_with_local c p : (forall ns, keeps (p ns)) -> keeps (with_local E c p).
Proof. intros H. unfold with_local. apply keeps_bind; [apply keeps_c_namespaces|]. intros. apply keeps_each; auto. Qed.
Lemma keeps_go p : keeps p -> keeps (go p : proc' unit).
Proof. intros H. cbn [go keeps]. auto. Qed.
Lemma keeps_fetch_lens addrs ns : keeps (fetch_lens E addrs ns).
Proof. induction addrs; cbn [fetch_lens]; ks. Qed.
Lemma keeps_remote_lens addrs ns : keeps (remote_lens E addrs ns).
Proof. unfold remote_lens. apply keeps_bind; [apply keeps_local|]. intros. apply keeps_bind; [apply keeps_fetch_lens|]. intros. ks. Qed.
Lemma keeps_balance_loop take c naddrs mean margin : (forall o w, keeps (take o w : proc' nat)) ->
  forall todo lens, keeps (balance_loop take c naddrs mean margin todo lens).
Proof.
  intros H. induction todo as [|[o n] todo IH]; intros lens; cbn [balance_loop]; [exact I|].
  apply keeps_bind; [apply keeps_local|]. intros [want|]; [|apply IH]. apply keeps_bind; [apply H|]. intros. apply IH.
Qed.
Lemma keeps_balance_ns c t ns : keeps (balance_ns E c t ns).
Proof.
  unfold balance_ns. apply keeps_bind; [apply keeps_remote_lens|]. intros [|x lens]; [apply keeps_local|].
  apply keeps_bind; [apply keeps_local|]. intros. apply keeps_balance_loop. intros. unfold steal_from. ks.
Qed.
Lemma keeps_metas addrs : forall items, keeps (metas E addrs items).
Proof. induction addrs; intros items; cbn [metas]; ks. Qed.
Lemma keeps_task_body c k : keeps (task_body E c k).
Proof.
  destruct k; cbn [task_body].
  - apply keeps_bind; [apply keeps_metas|]. intros. exact I.
  - apply keeps_with_local. intros. apply keeps_go. auto with keeps.
  - apply keeps_with_local. intros. apply keeps_go. auto with keeps.
  - apply keeps_with_local. intros. apply keeps_go. auto with keeps.
  - apply keeps_with_local. intros. apply keeps_go. auto with keeps.
  - apply keeps_with_local. intros. apply keeps_go. auto with keeps.
  - apply keeps_with_local. intros. apply keeps_with_table. intros. auto with keeps.
  - apply keeps_with_local. intros. apply keeps_with_table. intros. auto with keeps.
  - apply keeps_with_table. intros. apply keeps_bind; [apply keeps_local|]. intros. apply keeps_each. intros. apply keeps_balance_ns.
Qed.
Lemma keeps_run_task c iter k : keeps (run_task E c iter k).
Proof. unfold run_task, with_skip. destruct (_ =? 0)%Z; [apply keeps_local|]. destruct (_ =? 0)%Z; [apply keeps_task_body|exact I]. Qed.
Lemma keeps_el_steps rd run l : keeps rd -> (forall k, keeps (run k)) -> keeps (el_steps rd run l : proc' unit).
Proof.
  intros H1 H2. induction l; cbn [el_steps]; [exact I|]. apply keeps_bind; [|auto]. unfold el_step.
  apply keeps_bind; auto. intros [|]; [exact I|]. apply keeps_bind; auto. intros [|]; [exact I|auto].
Qed.
Lemma keeps_el_loop rd run : keeps rd -> (forall i k, keeps (run i k)) -> forall n iter, keeps (el_loop rd run n iter : proc' bool).
Proof.
  intros H1 H2. induction n; intros iter; cbn [el_loop]; (apply keeps_bind; [auto|]; intros [|]; [exact I|]); [exact I|].
  apply keeps_bind; [apply keeps_el_steps; auto|]. auto.
Qed.
Lemma keeps_event_loop c stop n : keeps (event_loop E c stop n).
Proof. unfold event_loop. apply keeps_el_loop; [apply keeps_local|]. intros. apply keeps_run_task. Qed.
Lemma keeps_job j : keeps (run_job E j).
Proof.
  destruct j; cbn [run_job]; (apply keeps_bind; [|intros; try destruct r; exact I]).
  - apply keeps_serve.
  - apply keeps_put_http.
  - apply keeps_query_http.
  - apply keeps_event_loop.
Qed.

Lemma interleave_keeps {R} (dflt : R) : forall sched (l : list (proc World (@lock) R)) w t l' w' t', Forall (fun p : proc' R => keeps p) l -> TInv w ->
  interleave dflt sched l w t = Ok ((l', w'), t') -> TInv w'.
Proof.
  induction sched as [|i sched IH]; intros l w t l' w' t' Hl Hw; cbn [interleave].
  - unfold ret. intros H. inversion H; subst. auto.
  - unfold bind at 1. destruct (step1 dflt l i w t) as [[[l1 w1] t1]| |] eqn:Hs; try discriminate. intros H.
    assert (H1 : Forall (fun p : proc' R => keeps p) l1 /\ TInv w1).
    { unfold step1 in Hs. destruct (nth_error l i) as [p|] eqn:Hp; [|inversion Hs; subst; auto].
      pose proof (nth_error_In _ _ Hp) as Hi. assert (Hk : keeps p) by (rewrite Forall_forall in Hl; auto).
      destruct p as [r|A o f k|q k].
      - inversion Hs; subst; auto.
      - unfold bind in Hs. destruct (f w t) as [[[x w2] t2]| |] eqn:Hf; try discriminate. unfold ret in Hs. inversion Hs; subst.
        cbn [keeps] in Hk. destruct (Hk _ _ _ _ _ Hw Hf). split; auto. apply forall_set; auto.
      - inversion Hs; subst. destruct Hk as (Hq & Hk). split; auto. apply Forall_app. split; [apply forall_set; auto|].
        constructor; auto. apply keeps_bind; auto. intros; exact I. }
    destruct H1. eapply IH; eauto.
Qed.
End Keeps.

Theorem threshold_stays (N : Num) (E : Env N) ths jobs sched t l (w : World N) t' :
  interleave DIdle sched (map (run_job E) jobs) (fresh ths) t = Ok ((l, w), t') ->
  forall a ns m, manager w a ns = Some m -> assoc a ths = Some (cm_thresh m).
Proof.
  intros H a ns m Hm. assert (HI : TInv (fun a => assoc a ths) w).
  { eapply (interleave_keeps (fun a => assoc a ths)); [| |exact H].
    - apply Forall_forall. intros p Hp. apply in_map_iff in Hp. destruct Hp as (j & <- & _). apply keeps_job.
    - clear. intros a nd. unfold fresh. cbn [w_nodes]. induction ths as [|[b z] ths IH]; cbn [map assoc fst snd]; [discriminate|].
      destruct (str_eqb a b); auto. intros H. inversion H; subst. cbn [nd_thresh nd_heap]. auto. }
  unfold manager, node_at in Hm. destruct (assoc a (w_nodes w)) as [nd|] eqn:Ha; [|discriminate].
  destruct (HI _ _ Ha) as (H1 & H2). rewrite H1. f_equal. symmetry. destruct (assoc ns (nd_tbl nd)) as [p|]; [|discriminate].
  destruct (nth_error (nd_heap nd) p) as [[ns' m']|] eqn:Hp; [|discriminate]. cbn in Hm. inversion Hm; subst.
  rewrite Forall_forall in H2. exact (H2 _ (nth_error_In _ _ Hp)).
Qed.
