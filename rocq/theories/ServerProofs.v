(* Every server request respects the invariant and the guarantee of ServerFacts.v. *)
From Verif Require Import Base Num MathUtils Knn Env Centroid CManager History DataSpec MgrSpec Wp DataFacts NumFacts KnnProofs
  CentroidProofs DistributeProofs PortionsProofs CMProofs CMProofs2 CMProofs3 HistoryProofs Proc Owns Server ServerSpec ServerFacts Slots.

Section ServerProofs.
Context {N : Num} (E : Env N) (HE : EnvOk E) (HO : NumOrd N).
Notation DP := (DataPoint N).
Notation Cen := (Centroid N).
Notation World := (World N).
Notation ms m := (stored (cm_cs m)).
Context (D : str -> nat -> Prop) (Known : str -> str -> Prop) (Mine : str -> str -> Prop) (NoDrop Tidy Fuel Stay : Prop).
Context (K : SlotKind E D NoDrop) (HS : NoDrop -> Stay).
Notation ext := (ServerFacts.ext (N := N) Stay).
Notation has_ns := (ServerFacts.has_ns (N := N) Stay).
Notation cen_ok := (cen_ok D).
Notation raw := (Owns.owns (L := lock) (winv K Known Mine Tidy) ext (G E Known Mine NoDrop) (J E) Fuel).
Notation owns := (nowns E K Known Mine NoDrop Tidy Fuel Stay).
(* ---- requests on one slot ---- *)
Definition taken {A} (out : A -> list DP) (o : option A) (h : list DP) : Prop :=
  h = match o with Some x => out x | None => [] end.

Notation may := (may Mine).
Lemma owns_take' {A} a ns (f : CM N -> M (A * CM N)) (out : A -> list DP) (P : A -> Prop) w0 :
  may a ns f ->
  (forall m t, K ns m -> wp (f m) t (fun r t' => t <= t' /\ K ns (snd r) /\ P (fst r) /\
     conserves E t t' (stored (cm_cs m)) (stored (cm_cs (snd r)) ++ out (fst r)))) ->
  owns ns (access a ns f) (fun o h _ => taken out o h /\ match o with Some x => P x | None => True end) [] w0.
Proof.
  intros HM H. eapply owns_weaken'; [apply (owns_take E K Known Mine NoDrop Tidy Fuel Stay a ns f out P w0 HM H)|].
  intros [x|] h w _ Hq; unfold taken; [destruct Hq as (H1 & H2 & _)|destruct Hq as (H1 & _)]; auto.
Qed.

(* Nothing is taken. *)
Lemma owns_same {A} a ns (f : CM N -> M (A * CM N)) w0 :
  may a ns f ->
  (forall m t, K ns m -> wp (f m) t (fun r t' => t <= t' /\ K ns (snd r) /\
     conserves E t t' (stored (cm_cs m)) (stored (cm_cs (snd r))))) ->
  owns ns (access a ns f) (fun o h _ => h = []) [] w0.
Proof.
  intros HM H. eapply owns_weaken'; [apply (owns_take' a ns f (fun _ => []) (fun _ => True) w0 HM)|].
  - intros m t Hm. eapply wp_mono; [apply H; auto|]. intros r t' (H1 & H2 & H3). rewrite app_nil_r. auto.
  - intros o h w _ (Hq & _). unfold taken in Hq. destruct o; auto.
Qed.

Lemma owns_step' {A} a ns (f : CM N -> M (CM N)) (x : A) w0 : Mine a ns ->
  (forall m t, K ns m -> wp (f m) t (fun m' t' => t <= t' /\ K ns m' /\ conserves E t t' (ms m) (ms m'))) ->
  owns ns (access a ns (fun m => do m' <- f m; ret (x, m'))) (fun o h _ => h = []) [] w0.
Proof.
  intros HM H. apply owns_same; [left; auto|]. intros m t Hm. apply wp_bind. eapply wp_mono; [apply H; auto|].
  intros m' t' (H1 & H2 & H3). apply wp_ret. cbn [snd]. auto.
Qed.

Lemma owns_read {A} a ns (f : CM N -> A) w0 :
  owns ns (access a ns (fun m => ret (f m, m))) (fun o h _ => h = []) [] w0.
Proof.
  apply owns_same.
  - right. intros m t x m' t' H. injection H as _ <- _. auto.
  - intros m t Hm. apply wp_ret. cbn [snd]. splits; auto. apply conserves_refl.
Qed.

Lemma may_nearest {A} a ns (f : option (list Cen) -> A) v k :
  may a ns (fun m => do ' (o, m') <- cm_nearest E m v k false; ret (f o, m')).
Proof.
  right. intros m t x m' t' H. unfold bind in H.
  destruct (cm_nearest E m v k false t) as [[[o m1] t1]| |] eqn:Hn; try discriminate. injection H as _ <- _.
  unfold cm_nearest, bind, lift in Hn. destruct (e_knn E v (cm_vecs m) k) as [[|i idx]| |]; try discriminate.
  - injection Hn as _ <- _. auto.
  - destruct (index_all (cm_cs m) (i :: idx) t) as [[cs t2]| |]; try discriminate. injection Hn as _ <- _. auto.
Qed.

Lemma owns_nearest a ns v k (drain : bool) w0 : (drain = true -> Mine a ns) -> (0 <= k)%Z ->
  owns ns (h_nearest E a ns v k drain) (fun o h _ => taken (fun cs => if drain then stored cs else []) o h /\
     match o with Some cs => length cs <= Z.to_nat k /\ Forall (cen_ok ns) cs | None => True end) [] w0.
Proof.
  intros HM Hk. unfold h_nearest.
  apply (owns_take' a ns _ (fun cs => if drain then stored cs else []) (fun cs => length cs <= Z.to_nat k /\ Forall (cen_ok ns) cs)).
  { destruct drain; [left; auto|]. apply (may_nearest a ns (fun o => match o with Some cs => cs | None => [] end)). }
  intros m t Hm. apply wp_bind. eapply wp_mono; [apply (kind_nearest K); eauto|].
  intros [o m'] t' (H1 & H2 & H3). apply wp_ret. cbn [fst snd] in *. destruct H3 as (H3 & H4 & H5). splits; auto.
Qed.

Lemma owns_nearest_vec a ns v w0 : owns ns (h_nearest_vec E a ns v) (fun o h _ => h = []) [] w0.
Proof.
  apply owns_same; [apply (may_nearest a ns (fun o => match o with Some (c :: _) => Some (c_vec c) | _ => None end))|].
  intros m t Hm. apply wp_bind.
  eapply wp_mono; [apply ((kind_nearest K) ns m v 1 false t); [lia|auto]|].
  intros [o m'] t' (H1 & H2 & H3). apply wp_ret. cbn [fst snd] in *. destruct H3 as (_ & _ & H5).
  rewrite app_nil_r in H5. splits; auto.
Qed.

Lemma owns_add a ns d w0 : Mine a ns -> D ns (length (dp_vec d)) -> is_node w0 a ->
  owns ns (h_add E a ns d) (fun b h _ => b = true /\ h = []) [d] w0.
Proof.
  intros HM Hd Hn. unfold h_add.
  apply owns_bind' with (Q := fun o h w => match o with Some _ => h = [] | None => h = [d] /\ ~ Known a ns end).
  - apply owns_access; [left; auto| |auto].
    + intros m t Hm. eapply wp_mono; [apply (kind_add K); eauto|]. intros r t' (H1 & H2 & H3 & H4). splits; auto.
      exists []. splits; auto.
    + intros w Hw _ Hk. split; auto. apply Hk. eapply is_node_ext; eauto.
  - intros o h w Hw Ho. destruct o as [b|]; [apply owns_ret; auto|]. destruct Ho as (-> & Hk).
    apply (is_node_ext _ _ _ Hw) in Hn.
    apply owns_bind' with (Q := fun m h w => h = [d] /\ exists th, m = new_cm (dp_vec d) th).
    { apply owns_factory; auto. intros; eauto. }
    intros m h w1 Hw1 (-> & th & ->). apply (is_node_ext _ _ _ Hw1) in Hn.
    apply owns_bind' with (Q := fun m h w => h = ms m /\ K ns m).
    { apply owns_first_add. intros t.
      eapply wp_mono; [apply ((kind_add K) ns (new_cm (dp_vec d) th) d t ((kind_new K) _ _ _ Hd) Hd)|].
      intros r t' (H1 & H2 & H3 & H4). splits; auto. exists (ms (snd r)). splits; auto. }
    intros m' h w2 Hw2 (-> & Hs). apply (is_node_ext _ _ _ Hw2) in Hn.
    apply owns_bind' with (Q := fun _ h _ => h = []).
    { eapply owns_add_slot with (h' := []); auto. rewrite app_nil_r. auto. }
    intros _ h w3 _ ->. apply owns_ret. auto.
Qed.

(* ---- the client ---- *)
Lemma owns_c_vec a ns w0 : owns ns (c_vec_of E a ns) (fun _ h _ => h = []) [] w0.
Proof.
  apply owns_bind' with (Q := fun _ h _ => h = []).
  - apply owns_rpc; auto. intros w _ _. apply owns_read; auto.
  - intros r h w _ ->. apply owns_ret; auto.
Qed.
Lemma owns_c_nearest_vec a ns v w0 : owns ns (c_nearest_vec E a ns v) (fun _ h _ => h = []) [] w0.
Proof.
  apply owns_bind' with (Q := fun _ h _ => h = []).
  - apply owns_rpc; auto. intros w _ _. apply owns_nearest_vec; auto.
  - intros r h w _ ->. apply owns_ret; auto.
Qed.
Lemma owns_c_add a ns d w0 : Mine a ns -> D ns (length (dp_vec d)) ->
  owns ns (c_add_dp E a ns d) (fun ok h _ => h = unless d ok) [d] w0.
Proof.
  intros HM Hd. apply owns_bind' with (Q := fun r h _ => match r with Some b => b = true /\ h = [] | None => h = [d] end).
  - apply owns_rpc; auto. intros w _ Hn. apply owns_add; auto.
  - intros r h w _ Hr. apply owns_ret. destruct r as [b|]; [destruct Hr as (-> & ->)|]; auto.
Qed.

Lemma reinit_spec ns : forall (cs : list Cen) t, Forall (cen_ok ns) cs -> Forall (fun c => c_len c <> 0) cs ->
  wp (reinit E cs) t (fun cs' t' => t <= t' /\ Forall (cen_ok ns) cs' /\ conserves E t t' (stored cs) (stored cs')).
Proof.
  induction cs as [|c cs IH]; intros t H1 H2; cbn [reinit].
  - apply wp_ret. splits; auto. apply conserves_refl.
  - inversion H1 as [|? ? (n & Hn & Hv & Hc) H1']; subst. inversion H2 as [|? ? Hl H2']; subst. unfold c_len in Hl.
    destruct (c_dps c) as [|d ds] eqn:Hds; [cbn [length] in Hl; congruence|].
    apply wp_bind. eapply wp_index; [reflexivity|]. inversion Hc as [|? ? Hd Hds']; subst.
    apply wp_bind. eapply wp_mono; [apply (cwf_move E (length (c_vec c)) (MkC (dp_vec d) (d :: ds)))|].
    { split; cbn [c_vec c_dps]; auto. }
    intros [ok c'] t1 (K1 & K2 & ->). cbn [snd c_dps] in *.
    apply wp_bind. eapply wp_mono; [apply IH; auto|]. intros cs' t2 (L1 & L2 & L3). apply wp_ret.
    splits; [cbn [length] in *; lia| |].
    + constructor; auto. exists (length (c_vec c)). auto.
    + unfold stored in *. cbn [map concat]. rewrite Hds, K2.
      eapply conserves_seq; [| |apply (conserves_frame E _ _ _ _ _ (conserves_live E t (d :: ds)))|]; [lia|exact L1|].
      apply conserves_frame_l. exact L3.
Qed.

Lemma owns_c_nearest a ns v w0 : Mine a ns ->
  owns ns (c_nearest E a ns v 1 true) (fun r h _ => Forall (cen_ok ns) (match fst r with Some cs => cs | None => [] end) /\
     h = stored (match fst r with Some cs => cs | None => [] end)) [] w0.
Proof.
  intros HM. apply owns_bind' with (Q := fun r h _ => let cs := match join r with Some l => l | None => [] end in
    h = stored cs /\ length cs <= 1 /\ Forall (cen_ok ns) cs).
  - apply owns_rpc; [|cbn; auto]. intros w _ _. eapply owns_weaken'; [apply (owns_nearest a ns v 1 true w); auto; lia|].
    intros [cs|] h w' _ (H1 & H2); unfold taken in H1; cbn; auto.
  - intros r h w _ (H1 & H2 & H3). set (cs := match join r with Some l => l | None => [] end) in *.
    apply owns_bind' with (Q := fun o h _ => Forall (cen_ok ns) (match o with Some cs => cs | None => [] end) /\
      h = stored (match o with Some cs => cs | None => [] end)).
    + apply owns_local. intros t. destruct cs as [|c [|c2 cs2]]; cbn [length] in H2; [| |lia].
      * apply wp_ret. split; auto. exists []. subst h. splits; auto. intros _. apply conserves_refl.
      * cbn [post_nearest drop_empty]. destruct (Nat.eqb_spec (c_len c) 0) as [Hz|Hz].
        -- apply wp_bind. apply wp_ret. apply wp_ret. split; auto. exists []. splits; auto.
           intros _. subst h. unfold stored. cbn [map concat]. unfold c_len in Hz.
           destruct (c_dps c); [|discriminate]. apply conserves_refl.
        -- apply wp_bind. eapply wp_mono; [apply (reinit_spec ns [c] t); auto|].
           intros cs' t' (K1 & K2 & K3). apply wp_ret. split; auto. exists (stored cs'). subst h. splits; auto.
    + intros o h' w' _ Ho. apply owns_ret. exact Ho.
Qed.

(* ---- requests that involve other nodes ---- *)
Lemma owns_fetch_each ns (f : str -> proc' N (option (vec N))) :
  (forall a w, owns ns (f a) (fun _ h _ => h = []) [] w) ->
  forall addrs w0, owns ns (fetch_each f addrs) (fun l h _ => h = [] /\ incl (map fst l) addrs) [] w0.
Proof.
  intros Hf. induction addrs as [|a r IH]; intros w0; cbn [fetch_each].
  - apply owns_ret. split; auto. apply incl_refl.
  - eapply owns_bind'; [apply Hf|]. intros o h w _ ->. eapply owns_bind'; [apply IH|].
    intros l h w' _ (-> & Hl). apply owns_ret. split; auto.
    destruct o; cbn [map fst]; [apply incl_cons; [left; auto|]|]; apply incl_tl; auto.
Qed.
Lemma owns_fetch ns (f : str -> proc' N (option (vec N))) addrs w0 :
  (forall a w, owns ns (f a) (fun _ h _ => h = []) [] w) ->
  owns ns (fetch_vecs E f addrs) (fun l h _ => h = [] /\ incl (map fst l) addrs) [] w0.
Proof.
  intros Hf. unfold fetch_vecs. apply owns_bind' with (Q := fun l h _ => h = [] /\ incl l addrs).
  - apply owns_local. intros t. apply wp_any_order; auto. intros l' Hp. split; auto. exists []. splits; auto.
    + intros _. apply conserves_refl.
    + intros w _. split; auto. intros b Hb. apply (Permutation_in _ (Permutation_sym Hp)) in Hb || apply (Permutation_in _ Hp) in Hb; auto.
  - intros order h w _ (-> & Ho). eapply owns_bind'; [apply (owns_fetch_each ns f Hf)|].
    intros l h w' _ (-> & Hl). apply owns_local. intros t. apply wp_any_order; auto. intros l' Hp. split; auto.
    exists []. splits; auto.
    + intros _. apply conserves_refl.
    + intros w1 _. split; auto. intros b Hb. apply Ho, Hl.
      apply (Permutation_in _ (Permutation_map fst (Permutation_sym Hp))) in Hb || apply (Permutation_in _ (Permutation_map fst Hp)) in Hb; auto.
Qed.

Lemma owns_try_add ns d addrs : (forall b, In b addrs -> Mine b ns) -> D ns (length (dp_vec d)) ->
  forall idx w0, Forall (fun i => i < length addrs) idx ->
  owns ns (try_add E addrs idx ns d) (fun ok h _ => h = unless d ok) [d] w0.
Proof.
  intros HM Hd. induction idx as [|i r IH]; intros w0 Hi; cbn [try_add].
  - apply owns_ret; auto.
  - inversion Hi as [|? ? Hi1 Hi2]; subst. destruct (nth_error_lt _ _ Hi1) as (a & Ha).
    apply owns_bind' with (Q := fun b h _ => h = [d] /\ Mine b ns).
    + apply owns_local. intros t. eapply wp_index; [exact Ha|]. split; auto. exists [d]. splits; auto.
      * intros _. apply conserves_refl.
      * intros w _. split; auto. apply HM. eapply nth_error_In; eauto.
    + intros b h w _ (-> & Hb). eapply owns_bind'; [apply owns_c_add; auto|]. intros ok h w' _ ->.
      destruct ok; cbn [unless]; [apply owns_ret; auto|apply IH; auto].
Qed.

Lemma owns_distribute_dp ns d rsl w0 : (forall b, In b (map fst rsl) -> Mine b ns) -> D ns (length (dp_vec d)) ->
  owns ns (distribute_dp E d rsl ns) (fun ok h _ => h = unless d ok) [d] w0.
Proof.
  intros HM Hd. unfold distribute_dp.
  apply owns_bind' with (Q := fun idx h _ => h = [d] /\ Forall (fun i => i < length (map fst rsl)) idx).
  - apply owns_local. intros t.
    destruct (knn_cos_ok HO (dp_vec d) (map snd rsl) (Z.of_nat (length rsl))) as (idx & He & _ & _ & Hin); [lia|].
    eapply wp_lift; [exact He|]. split; auto. exists [d]. splits; auto; [intros _; apply conserves_refl|].
    intros w _. split; auto. rewrite Forall_forall. intros i Hi. destruct (Hin i Hi) as (v & Hv & _).
    rewrite map_length, <- (map_length snd). apply nth_error_Some. congruence.
  - intros idx h w _ (-> & Hi). apply owns_try_add; auto.
Qed.

(* Without its namespace a datapoint is dropped; then somebody forgot the namespace. *)
Lemma owns_drop {R} ns (p : unit -> proc' N R) ds Q w0 : ~ Stay -> (forall w, owns ns (p tt) Q [] w) ->
  owns ns (call u <- drop_dps ns ds; p u) Q ds w0.
Proof.
  intros Hs Hp w t Hw HI. cbn [ret]. exists []. splits.
  - exact HI.
  - split; auto. intros a nd Ha. exists nd. split; auto. apply node_le_refl.
  - unfold G; splits; auto. exists (tag ns ds). splits; auto.
    + intros Hd. exfalso. auto.
    + intros _. apply keeps_refl.
  - apply Hp.
Qed.

Lemma owns_put_back a ns d w0 : Mine a ns -> D ns (length (dp_vec d)) -> has_ns w0 a ns ->
  owns ns (put_back_dp E a ns d) (fun _ h _ => h = []) [d] w0.
Proof.
  intros HM Hd Hn. unfold put_back_dp.
  apply owns_bind' with (Q := fun o h w => match o with Some _ => h = [] | None => h = [d] /\ ~ Stay end).
  - apply owns_access; [left; auto| |auto].
    + intros m t Hm. eapply wp_mono; [apply (kind_add K); eauto|]. intros r t' (H1 & H2 & H3 & H4). splits; auto.
      exists []. splits; auto.
    + intros w Hw Hc _. split; auto. apply Hc. eapply has_ns_ext; eauto.
  - intros o h w _ Ho. destruct o; [apply owns_ret; auto|]. destruct Ho as (-> & Hs).
    apply (owns_drop ns (fun u => Ret u)); auto. intros. apply owns_ret; auto.
Qed.

Lemma owns_framed {R} ns (p : proc' N R) (out : R -> list DP) h r w0 :
  owns ns p (fun x h _ => h = out x) h w0 -> owns ns p (fun x h _ => h = out x ++ r) (h ++ r) w0.
Proof.
  intros H. eapply owns_weaken'; [apply (owns_frame' E K Known Mine NoDrop Tidy Fuel Stay ns _ _ _ r _ H)|].
  intros x h' w _ (h0 & -> & ->). auto.
Qed.

Lemma owns_framed2 {R} ns (p : proc' N R) (P : R -> Prop) r w0 :
  owns ns p (fun x h _ => h = [] /\ P x) [] w0 -> owns ns p (fun x h _ => h = r /\ P x) r w0.
Proof.
  intros H. eapply owns_weaken'; [apply (owns_frame' E K Known Mine NoDrop Tidy Fuel Stay ns _ _ _ r _ H)|].
  intros x h' w _ (h0 & -> & -> & Hp). auto.
Qed.

(* One round of the distribution loops: send the datapoint away or put it back. *)
Lemma owns_round {R} a ns d rsl r (k : proc' N R) Q w0 : Mine a ns -> (forall b, In b (map fst rsl) -> Mine b ns) -> D ns (length (dp_vec d)) -> has_ns w0 a ns ->
  (forall w, ext w0 w -> owns ns k Q r w) ->
  owns ns (call ok <- distribute_dp E d rsl ns; call _ <- (if ok then Ret tt else put_back_dp E a ns d); k) Q (d :: r) w0.
Proof.
  intros HM HM2 Hd Hn Hk. eapply owns_bind'; [apply (owns_framed ns _ (unless d) [d] r), owns_distribute_dp; auto|].
  intros ok h w Hw ->. eapply owns_bind' with (Q := fun _ h _ => h = r).
  - destruct ok; cbn [unless app]; [apply owns_ret; auto|].
    apply (owns_framed ns _ (fun _ => []) [d] r), owns_put_back; auto. eapply has_ns_ext; eauto.
  - intros _ h w' Hw' ->. apply Hk. eapply ext_trans; eauto.
Qed.

Lemma owns_fast_loop a ns rsl : Mine a ns -> (forall b, In b (map fst rsl) -> Mine b ns) -> forall ds w0,
  Forall (fun d => D ns (length (dp_vec d))) ds -> has_ns w0 a ns ->
  owns ns (distribute_fast_loop E a ns rsl ds) (fun _ h _ => h = []) ds w0.
Proof.
  intros HM HM2. induction ds as [|d r IH]; intros w0 Hd Hn; cbn [distribute_fast_loop].
  - apply owns_ret; auto.
  - inversion Hd as [|? ? Hd1 Hd2]; subst. apply owns_round; auto. intros w Hw. apply IH; auto. eapply has_ns_ext; eauto.
Qed.

Lemma owns_accurate_loop a ns addrs : Mine a ns -> (forall b, In b addrs -> Mine b ns) -> forall ds w0,
  Forall (fun d => D ns (length (dp_vec d))) ds -> has_ns w0 a ns ->
  owns ns (distribute_accurate_loop E a ns addrs ds) (fun _ h _ => h = []) ds w0.
Proof.
  intros HM HM2. induction ds as [|d r IH]; intros w0 Hd Hn; cbn [distribute_accurate_loop].
  - apply owns_ret; auto.
  - inversion Hd as [|? ? Hd1 Hd2]; subst.
    eapply owns_bind'; [apply owns_framed2, (owns_fetch ns); intros; apply owns_c_nearest_vec|].
    intros rsl h w Hw (-> & Hl). apply owns_round; auto; [eapply has_ns_ext; eauto|].
    intros w' Hw'. apply IH; auto. eapply has_ns_ext; [exact Hw'|]. eapply has_ns_ext; eauto.
Qed.

Lemma owns_distribute_with a ns n addrs (loop : list DP -> proc' N unit) w0 :
  Mine a ns -> (0 <= n)%Z -> (NoDrop -> addrs <> []) ->
  (forall ds w, Forall (fun d => D ns (length (dp_vec d))) ds -> has_ns w a ns -> owns ns (loop ds) (fun _ h _ => h = []) ds w) ->
  owns ns (distribute_with E a ns n addrs loop) (fun _ h _ => h = []) [] w0.
Proof.
  intros HM Hn Hd Hl. unfold distribute_with. destruct (Z.ltb_spec n 0) as [Hz|Hz]; [lia|].
  apply owns_bind' with (Q := fun o h w => match o with
    | None => h = []
    | Some ds => h = (match addrs with [] => [] | _ :: _ => ds end) /\ has_ns w a ns /\
                 Forall (fun d => D ns (length (dp_vec d))) ds end).
  - apply owns_access; [left; auto| |auto]. intros m t Hm. eapply wp_mono; [apply (kind_drain_o K); eauto|].
    intros r t' (H1 & H2 & H3 & H4). splits; auto.
    + intros Hnd. destruct addrs; [exfalso; apply Hd; auto|constructor].
    + exists (match addrs with [] => [] | _ :: _ => fst r end). splits; auto.
      intros _. rewrite app_nil_r. destruct addrs; cbn [app]; [|rewrite app_nil_r]; exact H4.
  - intros o h w Hw Ho. destruct o as [ds|]; [|apply owns_ret; auto].
    destruct Ho as (-> & Hns & Hds). destruct addrs as [|b bs].
    + replace (match ds with [] => Ret (Some tt) | _ :: _ => Ret (Some tt) end) with (@Ret World lock _ (Some tt))
        by (destruct ds; auto). apply owns_ret; auto.
    + destruct ds as [|d ds]; [apply owns_ret; auto|].
      eapply owns_bind'; [apply Hl; auto|]. intros _ h w' _ ->. apply owns_ret; auto.
Qed.

Lemma owns_steal_loop fuel a from ns v limit : Fuel -> Mine a ns -> Mine from ns -> kind_steal K ns ->
  forall total w0, has_ns w0 a ns ->
  owns ns (steal_loop E fuel a from ns v limit total) (fun _ h _ => h = []) [] w0.
Proof.
  intros HF HM HM2 Hf. induction fuel as [|fuel IH]; intros total w0 Hn; cbn [steal_loop].
  - destruct (Z.of_nat total <? limit)%Z; [apply owns_fuel; exact HF|apply owns_ret; auto].
  - destruct (Z.of_nat total <? limit)%Z; [|apply owns_ret; auto].
    eapply owns_bind'; [apply owns_c_nearest; auto|]. intros [o ok] h w Hw (Hc & ->). cbn [fst] in *.
    destruct o as [[|c cs]|]; [apply owns_ret; auto| |apply owns_ret; auto].
    apply (has_ns_ext _ _ _ _ Hw) in Hn.
    apply owns_bind' with (Q := fun o h _ => match o with Some _ => h = [] | None => h = stored (c :: cs) /\ ~ Stay end).
    + apply owns_access; [left; auto| |auto].
      * intros m t Hm. apply wp_ret. cbn [fst snd cm_cs]. splits; auto.
        -- apply (kind_attach K); auto.
        -- exists []. splits; auto. intros _. rewrite !app_nil_r, stored_app. apply conserves_refl.
      * intros w' Hw' Hc' _. split; auto. apply Hc'. eapply has_ns_ext; eauto.
    + intros r h w' Hw' Hr. assert (Hn' : has_ns w' a ns) by (eapply has_ns_ext; eauto). destruct r as [u|].
      * subst h. cbn [pbind]. destruct ok; [|apply owns_ret; auto]. apply IH; auto.
      * destruct Hr as (-> & Hs). apply (owns_drop ns (fun _ => if ok then steal_loop E fuel a from ns v limit total else Ret (total, ok))); auto.
        intros w2. destruct ok; [|apply owns_ret; auto]. apply IH. intros Hc'. contradiction.
Qed.

Lemma owns_steal fuel a from ns limit w0 : Fuel -> Mine a ns -> Mine from ns -> kind_steal K ns -> is_node w0 a ->
  owns ns (h_steal E fuel a from ns limit) (fun _ h _ => h = []) [] w0.
Proof.
  intros HF HM HM2 Hf Hn. unfold h_steal.
  apply owns_bind' with (Q := fun o h w => h = [] /\ match o with Some _ => has_ns w a ns | None => ~ Known a ns end).
  { unfold h_vec. apply owns_access; [left; auto| |auto].
    - intros m t Hm. apply wp_ret. cbn [fst snd]. splits; auto. exists []. splits; auto. intros _. rewrite !app_nil_r. apply conserves_refl.
    - intros w Hw _ Hk. split; auto. apply Hk. eapply is_node_ext; eauto. }
  intros lv h w Hw (-> & Hlv). apply (is_node_ext _ _ _ Hw) in Hn.
  apply owns_bind' with (Q := fun o h w => h = [] /\ match o with Some _ => has_ns w a ns | None => True end).
  { destruct lv as [v|]; [apply owns_ret; auto|].
    (* a manager with the remote vector is in order *)
    apply owns_bind' with (Q := fun o h w => h = [] /\ match o with Some v => forall th, K ns (new_cm v th) | None => True end).
    - apply owns_bind' with (Q := fun r h w => h = [] /\ match join r with Some v => forall th, K ns (new_cm v th) | None => True end).
      + apply owns_rpc; [|cbn; auto]. intros w1 _ _. unfold h_vec.
        eapply owns_weaken'; [apply (owns_take' from ns _ (fun _ => []) (fun v => forall th, K ns (new_cm v th))); [left; auto|]|].
        * intros m t Hm. apply wp_ret. cbn [fst snd]. rewrite app_nil_r. splits; auto.
          -- intros th. apply (kind_vec K); auto.
          -- apply conserves_refl.
        * intros o h w' _ (H1 & H2). unfold taken in H1. destruct o; cbn; auto.
      + intros r h w1 _ (-> & Hr). apply owns_ret. split; [auto|]. destruct r as [[[|x u]|]|]; cbn [join] in *; auto.
    - intros rv h w1 Hw1 (-> & Hrv). apply (is_node_ext _ _ _ Hw1) in Hn. destruct rv as [v|]; [|apply owns_ret; auto].
      apply owns_bind' with (Q := fun m h w => h = [] /\ exists th, m = new_cm v th).
      { apply owns_factory; auto. intros; eauto. }
      intros m h w2 Hw2 (-> & th & ->). apply (is_node_ext _ _ _ Hw2) in Hn.
      apply owns_bind' with (Q := fun _ h w => h = [] /\ has_ns w a ns).
      + eapply owns_add_slot with (h' := []); auto.
      + intros _ h w3 _ (-> & H3). apply owns_ret; auto. }
  intros ov h w1 Hw1 (-> & Hov). destruct ov as [v|]; [|apply owns_ret; auto].
  eapply owns_bind'; [apply owns_steal_loop; auto|]. intros [total ok] h w2 _ ->.
  apply owns_bind' with (Q := fun _ h _ => h = []).
  - apply owns_same; [left; auto|]. intros m t Hm. eapply wp_mono; [apply (kind_move K); eauto|]. auto.
  - intros _ h w3 _ ->. apply owns_ret; auto.
Qed.


(* ---- every request ---- *)
Lemma to_raw {R} ns (p : proc' N R) (out : R -> list DP) (h : list DP) w0 :
  owns ns p (fun x h _ => h = out x) h w0 -> raw p (fun x h _ => h = tag ns (out x)) (tag ns h) w0.
Proof. intros H. eapply raw_weaken; [exact H|]. intros r h1 w _ (h' & -> & ->). auto. Qed.

Lemma raw_meta_loop a : forall nss w0, raw (meta_loop a nss) (fun _ h _ => h = []) [] w0.
Proof.
  induction nss as [|ns r IH]; intros w0; cbn [meta_loop].
  - exact eq_refl.
  - eapply raw_bind; [apply (to_raw ns _ (fun _ => []) []), owns_read|]. intros o h w _ ->. eapply raw_bind; [apply IH|].
    intros l h w' _ ->. exact eq_refl.
Qed.

Lemma owns_reply {A} ns (f : A -> ans N) (p : proc' N (option A)) (Q : option A -> list DP -> World -> Prop)
  (Q' : ans N -> list DP -> World -> Prop) h w0 :
  owns ns p Q h w0 -> (forall o h w, Q o h w -> Q' (match o with Some x => f x | None => ANsErr end) h w) ->
  owns ns (reply f p) Q' h w0.
Proof. intros H HQ. eapply owns_bind'; [exact H|]. intros o h' w _ Ho. apply owns_ret. auto. Qed.

Lemma owns_serve_ns a q ns w0 : req_counts q -> req_fits D q ->
  (forall b c ns l, q = QSteal b c ns l -> kind_steal K ns) -> (NoDrop -> req_addrs q) -> (is_steal q -> Fuel) ->
  (forall b n, In (b, n) (req_places a q) -> Mine b n) -> is_node w0 a -> req_ns q = Some ns ->
  owns ns (serve E a q) (fun x h _ => h = ans_out q x) (req_in q) w0.
Proof.
  intros Hc Hd Hks Hnd Hst HM Hn Hq. destruct q; cbn [req_ns] in Hq; try discriminate Hq; injection Hq as ->;
    cbn [serve req_counts req_fits req_addrs req_in req_places is_steal In] in *;
    try (pose proof (HM a ns (or_introl eq_refl)) as HMa).
  - eapply owns_reply; [apply owns_read|]. intros [v|] h w ->; auto.
  - eapply owns_bind'; [apply owns_add; auto|]. intros b h w _ (-> & ->). apply owns_ret; auto.
  - eapply owns_reply; [apply (owns_take' a ns _ (fun ds => ds) (fun _ => True)); [left; auto|]|].
    + intros m t Hm. eapply wp_mono; [apply (kind_drain_u K); eauto|]. auto.
    + intros [ds|] h w (H & _); auto.
  - eapply owns_reply; [apply (owns_take' a ns _ (fun ds => ds) (fun _ => True)); [left; auto|]|].
    + intros m t Hm. eapply wp_mono; [apply (kind_drain_o K); eauto|]. intros r t' (H1 & H2 & _ & H4). auto.
    + intros [ds|] h w (H & _); auto.
  - eapply owns_reply; [apply owns_step'; [auto|]|].
    + intros m t Hm. apply (kind_expire K); auto.
    + intros [v|] h w ->; auto.
  - eapply owns_reply; [apply owns_read|]. intros [v|] h w ->; auto.
  - eapply owns_reply; [apply owns_step'; [auto|]|].
    + intros m t Hm. apply (kind_mem_trim K); auto.
    + intros [v|] h w ->; auto.
  - eapply owns_reply; [apply owns_same; [left; auto|]|].
    + intros m t Hm. apply (kind_move K); auto.
    + intros [v|] h w ->; auto.
  - assert (HMs : forall b, In b addrs -> Mine b ns).
    { intros b Hb. apply HM. right. apply in_map_iff. eauto. }
    eapply owns_reply; [apply owns_distribute_with; auto|].
    + intros ds w Hds Hns. eapply owns_bind'; [apply owns_framed2, (owns_fetch ns); intros; apply owns_c_vec|].
      intros rsl h w' Hw' (-> & Hl). apply owns_fast_loop; auto. eapply has_ns_ext; eauto.
    + intros [v|] h w ->; auto.
  - assert (HMs : forall b, In b addrs -> Mine b ns).
    { intros b Hb. apply HM. right. apply in_map_iff. eauto. }
    eapply owns_reply; [apply owns_distribute_with; auto|].
    + intros ds w Hds Hns. apply owns_accurate_loop; auto.
    + intros [v|] h w ->; auto.
  - eapply owns_reply; [apply owns_step'; [auto|]|].
    + intros m t Hm. apply (kind_internal K); auto.
    + intros [u|] h w ->; auto.
  - eapply owns_reply; [apply (owns_take' a ns _ (fun ds => if drain then ds else []) (fun _ => True)); [left; auto|]|].
    + intros m t Hm. eapply wp_mono; [apply (kind_knn K); eauto|]. auto.
    + intros [ds|] h w (H & _); unfold taken in H; destruct drain; auto.
  - eapply owns_reply; [apply owns_nearest; auto|].
    + intros ->. apply HM. left; auto.
    + intros [ds|] h w (H & _); unfold taken in H; destruct drain; auto.
  - eapply owns_reply; [apply owns_nearest_vec; auto|]. intros [u|] h w ->; auto.
  - eapply owns_reply; [apply owns_step'; [auto|]|].
    + intros m t Hm. apply (kind_split K); auto.
    + intros [u|] h w ->; auto.
  - eapply owns_reply; [apply owns_step'; [auto|]|].
    + intros m t Hm. apply (kind_merge K); auto.
    + intros [u|] h w ->; auto.
  - eapply owns_bind'; [apply owns_steal; eauto|]. intros [n ok] h w _ ->. apply owns_ret; auto.
Qed.

Lemma owns_serve a q w0 : req_counts q -> req_fits D q ->
  (forall b c ns l, q = QSteal b c ns l -> kind_steal K ns) -> (NoDrop -> req_addrs q) -> (is_steal q -> Fuel) ->
  (forall b n, In (b, n) (req_places a q) -> Mine b n) -> is_node w0 a ->
  raw (serve E a q) (fun x h _ => h = ans_tout q x) (req_tin q) w0.
Proof.
  intros Hc Hd Hks Hnd Hst HM Hn. unfold req_tin, ans_tout. destruct (req_ns q) as [ns|] eqn:Hq.
  - apply to_raw, owns_serve_ns; auto.
  - destruct q; try discriminate Hq; cbn [serve].
    + eapply raw_bind; [apply (raw_names E K Known Mine NoDrop Tidy Fuel Stay a (fun _ h _ => h = [])); auto|].
      intros l h w _ ->. exact eq_refl.
    + eapply raw_bind.
      * eapply raw_bind; [apply (raw_names E K Known Mine NoDrop Tidy Fuel Stay a (fun _ h _ => h = [])); auto|].
        intros nss h w _ ->. apply raw_meta_loop.
      * intros l h w _ ->. exact eq_refl.
Qed.

End ServerProofs.
