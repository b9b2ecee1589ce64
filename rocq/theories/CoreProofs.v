(* The HTTP interface and the event loop respect the invariant and the guarantee of
   ServerFacts.v. *)
From Verif Require Import Base Num MathUtils Knn Env Centroid CManager History DataSpec MgrSpec Wp DataFacts NumFacts KnnProofs
  CentroidProofs DistributeProofs PortionsProofs CMProofs CMProofs2 CMProofs3 HistoryProofs Proc Owns Server ServerSpec
  ServerFacts Slots ServerProofs Core EventLoop CoreSpec.

(* ---- shuffling ---- *)
Lemma list_set_length {A} (l : list A) i x : length (list_set l i x) = length l.
Proof. revert i. induction l as [|y l IH]; intros [|i]; cbn [list_set length]; auto. Qed.

Lemma list_set_same {A} (l : list A) i x : nth_error l i = Some x -> list_set l i x = l.
Proof.
  revert i. induction l as [|y l IH]; intros [|i] H; cbn [list_set nth_error] in *; try discriminate; auto.
  - congruence.
  - rewrite IH; auto.
Qed.

Lemma swap_perm {A} : forall (l : list A) i j x y, nth_error l i = Some x -> nth_error l j = Some y ->
  Permutation (list_set (list_set l i y) j x) l.
Proof.
  induction l as [|z l IH]; intros i j x y Hi Hj; [destruct i; discriminate|].
  assert (Hhead : forall k (u v : A), nth_error l k = Some u -> Permutation (u :: list_set l k v) (v :: l)).
  { clear. induction l as [|z l IH]; intros [|k] u v H; cbn [nth_error list_set] in *; try discriminate.
    - injection H as ->. apply perm_swap.
    - etransitivity; [apply perm_swap|]. etransitivity; [|apply perm_swap]. constructor. apply IH; auto. }
  destruct i as [|i], j as [|j]; cbn [nth_error list_set] in *.
  - injection Hi as ->. auto.
  - injection Hi as ->. apply Hhead; auto.
  - injection Hj as ->. apply Hhead; auto.
  - constructor. apply IH; auto.
Qed.

Lemma shuffle_loop_spec {N : Num} (E : Env N) {A} : forall is (l : list A) t, Forall (fun i => i < length l) is ->
  wp (shuffle_loop E is l) t (fun l' t' => t' = t + length is /\ Permutation l' l).
Proof.
  induction is as [|i is IH]; intros l t H; cbn [shuffle_loop].
  - apply wp_ret. cbn [length]. split; [lia|auto].
  - inversion H as [|? ? Hi H']; subst. unfold wp, bind at 1, tick.
    assert (Hj : e_rnd E t mod length l < length l) by (apply Nat.mod_upper_bound; lia).
    destruct (nth_error_lt _ _ Hi) as (x & Hx). destruct (nth_error_lt _ _ Hj) as (y & Hy).
    match goal with |- match ?m (S t) with _ => _ end => change (wp m (S t) (fun l' t' => t' = t + S (length is) /\ Permutation l' l)) end.
    apply wp_bind. eapply wp_index; [exact Hx|]. apply wp_bind. eapply wp_index; [exact Hy|].
    eapply wp_mono; [apply IH|].
    + rewrite !list_set_length. auto.
    + intros l' t' (-> & Hp). split; [lia|]. rewrite Hp. apply swap_perm; auto.
Qed.
Lemma shuffle_spec {N : Num} (E : Env N) {A} (l : list A) t :
  wp (shuffle E l) t (fun l' t' => t' = t + length l /\ Permutation l' l).
Proof.
  unfold shuffle. eapply wp_mono; [apply shuffle_loop_spec|].
  - apply Forall_forall. intros i Hi. apply in_seq in Hi. lia.
  - intros l' t' (-> & H). rewrite seq_length. auto.
Qed.

Section CoreProofs.
Context {N : Num} (E : Env N) (HE : EnvOk E) (HO : NumOrd N).
Notation DP := (DataPoint N).
Notation Cen := (Centroid N).
Notation World := (World N).
Context (D : str -> nat -> Prop) (Known : str -> str -> Prop) (Mine : str -> str -> Prop) (NoDrop Tidy Fuel Stay : Prop).
Context (K : SlotKind E D NoDrop) (HS : NoDrop -> Stay).
Notation ext := (ServerFacts.ext (N := N) Stay).
Notation has_ns := (ServerFacts.has_ns (N := N) Stay).
Notation raw := (Owns.owns (L := lock) (winv K Known Mine Tidy) ext (G E Known Mine NoDrop) (J E) Fuel).
Notation owns := (nowns E K Known Mine NoDrop Tidy Fuel Stay).

(* ---- core/nodes, core/dps ---- *)
Lemma owns_best_fit ns s v (fetch : proc' N (list (str * vec N))) addrs w0 : SearchOk s ->
  owns ns fetch (fun l h _ => h = [] /\ incl (map fst l) addrs) [] w0 ->
  owns ns (best_fit s v fetch) (fun l h _ => h = [] /\ incl l addrs) [] w0.
Proof.
  intros Hs Hf. unfold best_fit. eapply owns_bind'; [exact Hf|]. intros rsl h w _ (-> & Hl).
  destruct (Hs v (map snd rsl) (Z.of_nat (length rsl))) as (idx & He & Hnd & Hlen & Hin); [lia|].
  apply owns_bind' with (Q := fun i h _ => h = [] /\ i = idx).
  - apply owns_local. intros t. eapply wp_lift; [exact He|]. split; auto. exists []. split; auto.
    intros _. apply conserves_refl.
  - intros i h w' _ (-> & ->). apply owns_local. intros t. apply index_all_spec.
    + apply Forall_forall. intros i Hi. destruct (Hin i Hi) as (u & Hu & _).
      rewrite map_length, <- (map_length snd). apply nth_error_Some. congruence.
    + split; auto. exists []. split; [intros _; apply conserves_refl|]. intros w1 _. split; auto.
      intros b Hb. apply in_pick in Hb. destruct Hb as (i & _ & Hb). apply Hl. eapply nth_error_In; eauto.
Qed.
Lemma owns_best_fit_fast s addrs ns v w0 : SearchOk s ->
  owns ns (best_fit_fast E s addrs ns v) (fun l h _ => h = [] /\ incl l addrs) [] w0.
Proof. intros Hs. apply owns_best_fit; auto. apply owns_fetch; auto. intros. apply owns_c_vec; auto. Qed.
Lemma owns_best_fit_accurate s addrs ns v w0 : SearchOk s ->
  owns ns (best_fit_accurate E s addrs ns v) (fun l h _ => h = [] /\ incl l addrs) [] w0.
Proof. intros Hs. apply owns_best_fit; auto. apply owns_fetch; auto. intros. apply owns_c_nearest_vec; auto. Qed.

Lemma owns_shuffle ns (addrs : list str) w0 : owns ns (local (shuffle E addrs)) (fun l h _ => h = [] /\ incl l addrs) [] w0.
Proof.
  apply owns_local. intros t. eapply wp_mono; [apply shuffle_spec|]. intros l t' (-> & Hp). split; [lia|].
  exists []. split; [intros _; apply conserves_refl|]. intros w _. split; auto.
  intros b Hb. apply (Permutation_in _ Hp). auto.
Qed.

Lemma owns_put_dp ns d : D ns (length (dp_vec d)) -> forall addrs w0, (forall b, In b addrs -> Mine b ns) ->
  owns ns (put_dp E addrs ns d) (fun ok h _ => h = unless d ok) [d] w0.
Proof.
  intros Hd. induction addrs as [|a r IH]; intros w0 HM; cbn [put_dp]; [apply owns_ret; auto|].
  eapply owns_bind'; [apply (owns_c_add E D Known Mine NoDrop Tidy Fuel Stay K); auto; apply HM; left; auto|].
  intros ok h w _ ->. destruct ok; [apply owns_ret; auto|]. apply IH. intros b Hb. apply HM. right; auto.
Qed.

Lemma owns_ranked_put ns d (ranked : proc' N (list str)) addrs w0 : D ns (length (dp_vec d)) ->
  (forall b, In b addrs -> Mine b ns) ->
  (forall w, owns ns ranked (fun l h _ => h = [] /\ incl l addrs) [] w) ->
  owns ns (call l <- ranked; put_dp E l ns d) (fun ok h _ => h = unless d ok) [d] w0.
Proof.
  intros Hd HM Hr. eapply owns_bind'; [apply owns_framed2; apply Hr|]. intros l h w _ (-> & Hl).
  apply owns_put_dp; auto.
Qed.

Lemma owns_c_lookup a ns v k (drain : bool) w0 : Mine a ns -> (0 <= k)%Z ->
  owns ns (c_lookup E a ns v k drain) (fun ds h _ => h = if drain then ds else []) [] w0.
Proof.
  intros HM Hk. unfold c_lookup. destruct (Z.ltb_spec k 0); [lia|].
  apply owns_bind' with (Q := fun r h _ => h = if drain then match join r with Some l => l | None => [] end else []).
  - apply owns_rpc; [|cbn; destruct drain; auto]. intros w _ Hn. unfold h_knn_lookup.
    eapply owns_weaken'; [apply (owns_take' E D Known Mine NoDrop Tidy Fuel Stay K (A := list DP) a ns _ (fun ds => if drain then ds else []) (fun _ => True)); [left; auto|]|].
    + intros m t Hm. eapply wp_mono; [apply (kind_knn K); eauto|]. auto.
    + intros [ds|] h w' _ (H' & _); unfold taken in H'; cbn [join]; destruct drain; auto.
  - intros r h w _ ->. apply owns_ret. auto.
Qed.

Lemma owns_get_loop ns v n (drain : bool) : forall addrs (res h : list DP) w0, (forall b, In b addrs -> Mine b ns) -> (Z.of_nat (length res) <= n)%Z ->
  Permutation h (if drain then res else []) ->
  owns ns (get_loop E addrs ns v n drain res) (fun ds h _ => Permutation h (if drain then ds else [])) h w0.
Proof.
  induction addrs as [|a r IH]; intros res h w0 HM Hn Hh; cbn [get_loop]; [apply owns_ret; auto|].
  eapply owns_bind'.
  - apply (owns_frame' E K Known Mine NoDrop Tidy Fuel Stay ns _ (fun (ds : list DP) h _ => h = if drain then ds else []) [] h), owns_c_lookup; [apply HM; left; auto|lia].
  - intros ds h' w _ (h0 & -> & ->).
    assert (Hc : Permutation ((if drain then ds else []) ++ h) (if drain then res ++ ds else [])).
    { destruct drain; [rewrite Hh; apply Permutation_app_comm|auto]. }
    cbv zeta. destruct (Z.leb_spec n (Z.of_nat (length (res ++ ds)))); [apply owns_ret; auto|].
    apply IH; [intros b Hb; apply HM; right; auto|lia|auto].
Qed.
Lemma owns_get_dps ns v n (drain : bool) addrs w0 : (forall b, In b addrs -> Mine b ns) -> (0 <= n)%Z ->
  owns ns (get_dps E addrs ns v n drain) (fun ds h _ => Permutation h (if drain then ds else [])) [] w0.
Proof.
  intros HM Hn. unfold get_dps. destruct (Z.ltb_spec n 0); [lia|]. apply owns_get_loop; auto. destruct drain; auto.
Qed.

(* ---- core/api ---- *)
Lemma raw_put addrs body w0 : (forall b ns, touches D (JPut addrs body) b ns -> Mine b ns) ->
  job_fits D w0 (JPut addrs body) ->
  raw (put_http E addrs body) (fun r h _ => h = job_out (DPut body r)) (job_in (JPut addrs body)) w0.
Proof.
  intros HM Hd. destruct body as [o|]; [|exact eq_refl]. cbn [job_in job_out put_http job_fits touches] in *.
  assert (HM' : forall b, In b addrs -> Mine b (po_ns o)) by auto. set (d := to_dp (po_dp o)) in *.
  change [(po_ns o, d)] with (tag (po_ns o) [d]).
  eapply raw_weaken; [apply (to_raw E D Known Mine NoDrop Tidy Fuel Stay K (po_ns o) _ (fun r => if (status r =? 200)%Z then [] else [d]) [d])|].
  2:{ intros r h w _ ->. destruct (status r =? 200)%Z; auto. }
  apply owns_bind' with (Q := fun ok h _ => h = unless d ok).
  { destruct (po_accurate o); apply (owns_ranked_put _ _ _ addrs); auto; intros w.
    - apply owns_best_fit_accurate, knn_cos_ok, HO.
    - apply owns_best_fit_fast, knn_cos_ok, HO. }
  intros ok h w _ ->. apply owns_bind' with (Q := fun ok h _ => h = unless d ok).
  { destruct ok; [apply owns_ret; auto|]. apply (owns_ranked_put _ _ _ addrs); auto. intros w'. apply owns_shuffle. }
  intros ok2 h w1 _ ->. apply owns_ret. destruct ok2; auto.
Qed.

Lemma raw_query addrs body w0 : (forall b ns, touches D (JQuery addrs body) b ns -> Mine b ns) ->
  raw (query_http E addrs body) (fun r h _ => Permutation h (job_out (DQuery body (fst r) (snd r)))) [] w0.
Proof.
  intros HM. destruct body as [o|]; [|apply Permutation_refl]. cbn [job_out query_http touches] in *.
  assert (HM' : forall b, In b addrs -> Mine b (qo_ns o)) by auto.
  assert (H : owns (qo_ns o) (query_http E addrs (Some o)) (fun r h _ => Permutation h (if qo_drain o then snd r else [])) [] w0).
  { cbn [query_http].
    apply owns_bind' with (Q := fun l h _ => h = [] /\ incl l addrs).
    { destruct (qo_accurate o); [apply owns_best_fit_accurate|apply owns_best_fit_fast]; apply knn_cos_ok, HO. }
    intros l h w _ (-> & Hl). destruct (Z.ltb_spec (qo_n o) 0) as [Hn|Hn].
    { apply owns_ret. destruct (qo_drain o); auto. }
    eapply owns_bind'; [apply owns_get_dps; auto|]. intros ds h w1 _ Hp. apply owns_ret. exact Hp. }
  eapply raw_weaken; [exact H|]. intros r h1 w _ (h' & -> & Hp). unfold tag at 1. rewrite Hp.
  destruct (qo_drain o); auto.
Qed.

(* ---- core/eventloop: control flow ---- *)
Section Loop.
Context (stop : nat -> bool).
Notation ok p := (fun w0 => raw p (fun _ h _ => h = []) [] w0).

Lemma raw_local {A} (m : M A) (Q : A -> World -> Prop) w0 :
  (forall t, wp m t (fun a t' => t <= t' /\ forall w, ext w0 w -> Q a w)) ->
  raw (local m) (fun a h w => h = [] /\ Q a w) [] w0.
Proof.
  intros H w t Hw HI. unfold bind. specialize (H t). unfold wp in H.
  destruct (m t) as [[a t']| |]; auto; try contradiction. cbn [ret]. destruct H as (Ht & HQ). exists []. splits; auto.
  - apply ext_refl.
  - unfold G. splits; auto. exists []. rewrite !app_nil_r. splits; auto. intros _. apply keeps_refl.
  - cbn [Owns.owns]. auto.
Qed.

Lemma raw_read_stop w0 : raw (read_stop stop) (fun _ h _ => h = []) [] w0.
Proof.
  eapply raw_weaken; [apply (raw_local _ (fun _ _ => True)); intros t; unfold wp, bind, tick, ret; auto|].
  intros a h w _ (-> & _). auto.
Qed.

Lemma raw_el_steps (run : task -> proc' N unit) (W : World -> Prop) : (forall w w', ext w w' -> W w -> W w') -> forall l,
  (forall k w, In k l -> W w -> raw (run k) (fun _ h _ => h = []) [] w) ->
  forall w0, W w0 -> raw (el_steps (read_stop stop) run l) (fun _ h _ => h = []) [] w0.
Proof.
  intros HW. induction l as [|k l IH]; intros H w0 Hw0; cbn [el_steps]; [exact eq_refl|].
  apply raw_bind with (Q := fun _ h _ => h = []).
  - unfold el_step. eapply raw_bind; [apply raw_read_stop|]. intros [|] h w Hw ->; [exact eq_refl|].
    eapply raw_bind; [apply raw_read_stop|]. intros [|] h w' Hw' ->; [exact eq_refl|].
    apply H; [left; auto|]. eauto.
  - intros _ h w Hw ->. apply IH; eauto. intros k' w' Hk. apply H. right; auto.
Qed.

Lemma raw_el_loop (run : Z -> task -> proc' N unit) (W : World -> Prop) : (forall w w', ext w w' -> W w -> W w') ->
  (forall i k w, W w -> raw (run i k) (fun _ h _ => h = []) [] w) ->
  forall n iter w0, W w0 -> raw (el_loop (read_stop stop) run n iter) (fun _ h _ => h = []) [] w0.
Proof.
  intros HW H. induction n as [|n IH]; intros iter w0 Hw0; cbn [el_loop].
  - eapply raw_bind; [apply raw_read_stop|]. intros [|] h w _ ->; exact eq_refl.
  - eapply raw_bind; [apply raw_read_stop|]. intros [|] h w Hw ->; [exact eq_refl|].
    eapply raw_bind; [eapply (raw_el_steps _ W); eauto|]. intros _ h w' Hw' ->. apply IH. eauto.
Qed.
End Loop.

(* ---- core/eventloop: the tasks ---- *)

(* The keys of a node's table, as told by the node. *)
Lemma raw_names_of a (Q : list str -> World -> Prop) w0 :
  (forall w l, ext w0 w -> (forall ns, In ns l -> exists n, D ns n) ->
     (is_node w a -> forall ns, (In ns l -> has_ns w a ns) /\ (Stay -> has_ns w a ns -> In ns l)) -> Q l w) ->
  raw (h_namespaces E a) (fun l h w => h = [] /\ Q l w) [] w0.
Proof.
  intros H w t Hw HI. unfold h_namespaces. destruct (assoc a (w_nodes w)) as [nd|] eqn:Ha.
  - pose proof (wp_any_order E (map fst (nd_tbl nd)) t (fun l t' => t' = S t /\ Permutation l (map fst (nd_tbl nd))) HE) as Hp.
    unfold wp, bind, ret in *. specialize (Hp (fun l' Hl => conj eq_refl Hl)).
    destruct (any_order E (map fst (nd_tbl nd)) t) as [[l t']| |]; try contradiction. destruct Hp as (-> & Hp).
    exists []. splits; auto using ext_refl.
    + unfold G. splits; auto. exists []. rewrite !app_nil_r. splits; auto. intros _. apply keeps_refl.
    + cbn [Owns.owns]. split; auto. apply H; auto.
      { intros ns Hi. apply (Permutation_in _ Hp), in_map_iff in Hi. destruct Hi as ([ns' p] & He & Hi). cbn [fst] in He. subst ns'.
        destruct HI as (I1 & I2). destruct (I2 a nd Ha) as (L1 & L2 & L3 & _).
        destruct (L2 ns p (in_assoc _ _ _ L1 Hi)) as (m & Hm). exact (kind_dim K _ _ (L3 _ _ _ Hm)). }
      intros _ ns. unfold ServerFacts.has_ns, ptr, node_at. rewrite Ha.
      split; intros Hi.
      * intros _ Hn. apply assoc_none in Hn. apply Hn. apply (Permutation_in _ Hp). auto.
      * intros Hs. apply (Permutation_in _ (Permutation_sym Hp)). destruct (in_dec str_dec ns (map fst (nd_tbl nd))) as [Hin|Hin]; auto.
        exfalso. apply (Hs Hi). apply assoc_none. auto.
  - exists []. unfold ret. splits; auto using ext_refl, G_refl. cbn [Owns.owns]. split; auto. apply H; auto.
    { intros ns []. }
    intros Hn. exfalso. apply Hn. exact Ha.
Qed.

(* A call that cannot fail. *)
Lemma raw_rpc_sure {A} a (hd : proc' N A) (Q : option A -> list (str * DP) -> World -> Prop) h w0 :
  (forall w, ext w0 w -> is_node w a -> raw hd (fun r => Q (Some r)) h w) ->
  (forall w, ext w0 w -> ~ (all_delivered E /\ is_node w0 a) -> Q None h w) ->
  raw (rpc E a hd) Q h w0.
Proof.
  intros H1 H2. unfold rpc. apply raw_bind with (Q := fun f h' w => h' = h /\ (f <> ReqLost -> is_node w a) /\
     (f = RespLost -> ~ answers_arrive E) /\ (f <> Delivered -> ~ (all_delivered E /\ is_node w0 a))).
  - intros w t Hw HI. unfold bind, tick, ret. exists h. splits; auto using ext_refl.
    + unfold G; splits; auto. exists []. rewrite !app_nil_r. splits; auto. intros _. apply keeps_refl.
    + cbn [Owns.owns]. change (assoc a (w_nodes w)) with (node_at w a). unfold is_node. splits; auto.
      * destruct (node_at w a); [discriminate|congruence].
      * destruct (node_at w a); [|discriminate]. intros Hf Ha. apply (Ha t); auto.
      * intros Hf (Hd & Hn). pose proof (is_node_ext _ _ _ Hw Hn) as Hn'. unfold is_node in Hn'.
        destruct (node_at w a); [|congruence]. apply Hf, Hd.
  - intros f h' w Hw (-> & Hn & Hl & Hf). destruct f.
    + eapply raw_bind; [apply H1; [exact Hw|apply Hn; discriminate]|]. intros r h' w' _ HQ. exact HQ.
    + apply H2; auto. apply Hf. discriminate.
    + cbn [Owns.owns]. exists h, h. splits.
      * intros t w1. unfold G; splits; auto. exists []. rewrite !app_nil_r. splits; auto. intros Ha.
        exfalso. apply Hl; auto.
      * eapply raw_bind; [apply H1; [exact Hw|apply Hn; discriminate]|].
        intros r h' w' _ _. intros Ha. exfalso. apply Hl; auto.
      * apply H2; auto. apply Hf. discriminate.
Qed.

Lemma raw_c_namespaces a w0 :
  raw (c_namespaces E a) (fun l h w => h = [] /\ (forall ns, In ns l -> has_ns w a ns /\ exists n, D ns n) /\
    (all_delivered E -> Stay -> is_node w0 a -> forall ns, has_ns w a ns -> In ns l)) [] w0.
Proof.
  unfold c_namespaces. apply raw_bind with (Q := fun r h w => h = [] /\
    (forall ns, In ns (match r with Some l => l | None => [] end) -> has_ns w a ns /\ exists n, D ns n) /\
    (all_delivered E -> Stay -> is_node w0 a -> forall ns, has_ns w a ns -> In ns (match r with Some l => l | None => [] end))).
  - apply raw_rpc_sure.
    + intros w Hw Hn. apply (raw_names_of a (fun l w => (forall ns, In ns l -> has_ns w a ns /\ exists n, D ns n) /\
        (all_delivered E -> Stay -> is_node w0 a -> forall ns, has_ns w a ns -> In ns l))).
      intros w1 l Hw1 HDl Hl. pose proof (is_node_ext _ _ _ Hw1 Hn) as Hn1. split.
      * intros ns Hi. split; auto. apply Hl; auto.
      * intros _ Hst _ ns. apply Hl; auto.
    + intros w Hw Hno. splits; auto; [intros ns []|]. intros Hd _ Hn. exfalso. apply Hno. auto.
  - intros r h w Hw (-> & Hr). exact (conj eq_refl Hr).
Qed.

Lemma raw_each (p : str -> proc' N unit) (P : str -> World -> Prop) : (forall ns w w', ext w w' -> P ns w -> P ns w') ->
  (forall ns w, P ns w -> raw (p ns) (fun _ h _ => h = []) [] w) ->
  forall nss w0, (forall ns, In ns nss -> P ns w0) -> raw (each nss p) (fun _ h _ => h = []) [] w0.
Proof.
  intros HP H. induction nss as [|ns r IH]; intros w0 Hn; cbn [each]; [exact eq_refl|].
  eapply raw_bind; [apply H, Hn; left; auto|]. intros _ h w Hw ->. apply IH. intros ns' Hi. eapply HP; [exact Hw|].
  apply Hn. right; auto.
Qed.

(* The table made by polling: its entries are addresses that were asked. *)
Definition tbl_ok (addrs : list str) (t : ns_table) : Prop :=
  forall ns l, In (ns, l) t -> l <> [] /\ incl l addrs /\ exists n, D ns n.
Lemma add_entry_ok addrs t a ns : In a addrs -> (exists n, D ns n) -> tbl_ok addrs t -> tbl_ok addrs (add_entry t a ns).
Proof.
  intros Ha Hns Ht ns' l Hi. unfold add_entry in Hi.
  assert (H : In (ns', l) t \/ ns' = ns /\ l = match assoc ns t with Some l => l ++ [a] | None => [a] end).
  { revert Hi. generalize (match assoc ns t with Some l => l ++ [a] | None => [a] end). clear. intros v.
    induction t as [|[k l'] t IH]; cbn [upsert]; [intros [H|[]]; right; split; congruence|].
    destruct (str_eqb ns k) eqn:Ek; intros [H|H]; [apply str_eqb_eq in Ek; right; split; congruence|left; right; auto|left; left; auto|].
    destruct (IH H); [left; right; auto|right; auto]. }
  destruct H as [H|(-> & ->)]; [eauto|]. destruct (assoc ns t) as [l0|] eqn:Hl.
  - apply assoc_in in Hl. destruct (Ht _ _ Hl) as (_ & Hi0 & _). splits; auto; [destruct l0; discriminate|].
    intros b Hb. apply in_app_iff in Hb. destruct Hb as [Hb|[<-|[]]]; auto.
  - splits; auto; [discriminate|]. intros b [<-|[]]; auto.
Qed.
Lemma add_entry_has t a ns ns' b : (In b (addrs_with t ns') \/ (b = a /\ ns' = ns)) -> In b (addrs_with (add_entry t a ns) ns').
Proof.
  unfold addrs_with, add_entry. intros H. destruct (str_dec ns' ns) as [->|Hn].
  - rewrite assoc_upsert_same. destruct H as [H|(-> & _)]; destruct (assoc ns t); cbn [In] in *; auto.
    + apply in_app_iff; auto.
    + apply in_app_iff; right; left; auto.
  - rewrite assoc_upsert_other; auto. destruct H as [H|(_ & H)]; [auto|contradiction].
Qed.
Lemma add_entries_ok addrs a : In a addrs -> forall nss t, (forall ns, In ns nss -> exists n, D ns n) -> tbl_ok addrs t -> tbl_ok addrs (fold_left (fun t ns => add_entry t a ns) nss t).
Proof. intros Ha. induction nss as [|ns r IH]; intros t Hn Ht; cbn [fold_left]; auto.
  apply IH; [intros ns' Hi; apply Hn; right; auto|]. apply add_entry_ok; auto. apply Hn; left; auto. Qed.
Lemma add_entries_has a ns b : forall nss t, In b (addrs_with t ns) \/ (b = a /\ In ns nss) ->
  In b (addrs_with (fold_left (fun t ns => add_entry t a ns) nss t) ns).
Proof.
  induction nss as [|n r IH]; intros t H; cbn [fold_left].
  - destruct H as [H|(_ & [])]; auto.
  - apply IH. destruct H as [H|(-> & [->|H])]; [left|left|right; auto]; apply add_entry_has; auto.
Qed.

Lemma raw_poll addrs0 (w1 : World) : forall addrs t w0, incl addrs addrs0 -> tbl_ok addrs0 t -> ext w1 w0 ->
  raw (poll E addrs t) (fun t' h w => h = [] /\ tbl_ok addrs0 t' /\ forall b ns,
    (In b (addrs_with t ns) \/ (all_delivered E /\ Stay /\ In b addrs /\ has_ns w1 b ns)) -> In b (addrs_with t' ns)) [] w0.
Proof.
  induction addrs as [|a r IH]; intros t w0 Hi Ht Hw; cbn [poll].
  - split; auto. split; auto. intros b ns [H|(_ & _ & [] & _)]; auto.
  - eapply raw_bind; [apply raw_c_namespaces|]. intros nss h w Hw' (-> & Hn1 & Hn2).
    eapply raw_weaken; [apply IH|].
    + intros b Hb. apply Hi. right; auto.
    + apply add_entries_ok; auto; [apply Hi; left; auto|]. intros ns Hn. apply Hn1; auto.
    + eapply ext_trans; eauto.
    + intros t' h w2 Hw2 (-> & H1 & H2). split; auto. split; auto. intros b ns H. apply H2.
      destruct H as [H|(Hd & Hst & [<-|H] & Hh)]; [left|left|right; auto]; apply add_entries_has; [left; auto|right].
      assert (Hh2 : has_ns w0 a ns) by (eapply has_ns_ext; eauto).
      split; auto. apply Hn2; auto.
      * specialize (Hh2 Hst). unfold ptr in Hh2. unfold is_node. destruct (node_at w0 a); [discriminate|congruence].
      * eapply has_ns_ext; eauto.
Qed.

Lemma addrs_with_ok addrs t ns : tbl_ok addrs t -> incl (addrs_with t ns) addrs.
Proof.
  intros Ht. unfold addrs_with. destruct (assoc ns t) as [l|] eqn:Hl; [|intros b []].
  apply assoc_in in Hl. apply (Ht _ _ Hl).
Qed.
Lemma addrs_with_key addrs t ns : tbl_ok addrs t -> In ns (map fst t) -> addrs_with t ns <> [].
Proof.
  intros Ht Hi. unfold addrs_with. destruct (assoc ns t) as [l|] eqn:Hl.
  - apply assoc_in in Hl. apply (Ht _ _ Hl).
  - apply assoc_none in Hl. contradiction.
Qed.

Section Tasks.
Context (c : el_cfg) (Hmine : forall b ns n, In b (el_local c :: el_remote c) -> D ns n -> Mine b ns).
Context (Hfast : (0 <= el_fast_n c)%Z) (Hacc : (0 <= el_accurate_n c)%Z).
Context (Hdim : forall ns, (exists n, D ns n) -> kind_steal K ns) (HFuel : Fuel).
Context (Hdrop : NoDrop -> all_delivered E /\ In (el_local c) (el_remote c)).
Let a := el_local c.

Lemma mine_local ns : (exists n, D ns n) -> Mine a ns.
Proof. intros (n & Hn). eapply Hmine; [left; auto|eauto]. Qed.
Lemma mine_remote b ns : In b (el_remote c) -> (exists n, D ns n) -> Mine b ns.
Proof. intros Hb (n & Hn). eapply Hmine; [right; auto|eauto]. Qed.

(* One call to a handler that carries nothing away. *)
Lemma raw_call {A B} ns b (hd : proc' N A) (k : option A -> B) w0 :
  (forall w, is_node w b -> owns ns hd (fun _ h _ => h = []) [] w) ->
  raw (call r <- rpc E b hd; Ret (k r)) (fun _ h _ => h = []) [] w0.
Proof.
  intros H. apply (to_raw E D Known Mine NoDrop Tidy Fuel Stay K ns _ (fun _ => []) []).
  apply owns_bind' with (Q := fun _ h _ => h = []).
  - apply owns_rpc; auto.
  - intros r h w _ ->. apply owns_ret; auto.
Qed.
Lemma raw_go (p : proc' N unit) w0 : raw p (fun _ h _ => h = []) [] w0 -> raw (go p) (fun _ h _ => h = []) [] w0.
Proof.
  intros H. exists [], []. splits.
  - intros t w. apply G_refl.
  - eapply raw_weaken; [exact H|]. intros r h w _ -> _. auto.
  - exact eq_refl.
Qed.

Lemma raw_with_local (p : str -> proc' N unit) w0 :
  (forall ns w, (exists n, D ns n) -> raw (p ns) (fun _ h _ => h = []) [] w) ->
  raw (with_local E c p) (fun _ h _ => h = []) [] w0.
Proof.
  intros H. unfold with_local. eapply raw_bind; [apply raw_c_namespaces|]. intros nss h w Hw (-> & H1 & _).
  apply (raw_each p (fun ns w => exists n, D ns n)); auto.
  intros ns Hi. apply H1; auto.
Qed.

Lemma raw_with_table (p : ns_table -> proc' N unit) w0 :
  (forall t w, ext w0 w -> tbl_ok (el_remote c) t -> (forall b ns, all_delivered E -> Stay -> In b (el_remote c) -> has_ns w0 b ns -> In b (addrs_with t ns)) ->
     raw (p t) (fun _ h _ => h = []) [] w) ->
  raw (with_table E c p) (fun _ h _ => h = []) [] w0.
Proof.
  intros H. unfold with_table. eapply raw_bind.
  - apply (raw_poll (el_remote c) w0); [apply incl_refl|intros ns l []|apply ext_refl].
  - intros t h w Hw (-> & H1 & H2). apply H; auto. intros. apply H2. right. auto.
Qed.

Lemma raw_dist (loop : str -> ns_table -> list DP -> proc' N unit) n w0 : (0 <= n)%Z ->
  (forall ns t, tbl_ok (el_remote c) t -> (exists n, D ns n) -> forall ds w, Forall (fun d => D ns (length (dp_vec d))) ds -> has_ns w a ns ->
     owns ns (loop ns t ds) (fun _ h _ => h = []) ds w) ->
  raw (with_local E c (fun ns => with_table E c (fun t =>
         call _ <- rpc E a (distribute_with E a ns n (addrs_with t ns) (loop ns t)); Ret tt)))
      (fun _ h _ => h = []) [] w0.
Proof.
  intros Hn Hl. unfold with_local. eapply raw_bind; [apply raw_c_namespaces|]. intros nss h w Hw (-> & H1 & _).
  apply (raw_each _ (fun ns w => has_ns w a ns /\ exists n, D ns n)).
  - intros ns w1 w2 He (Hn1 & Hn2). split; auto. eapply has_ns_ext; eauto.
  - intros ns w1 (Hns & Hdn). apply raw_with_table. intros t w2 Hw2 Ht Hc. apply (raw_call ns a).
    intros w3 _. eapply owns_weaken'; [apply (owns_distribute_with E D Known Mine NoDrop Tidy Fuel Stay K); auto|].
    + apply mine_local; auto.
    + intros Hnd. destruct (Hdrop Hnd) as (Hd & Hr). specialize (Hc a ns Hd (HS Hnd) Hr Hns). intros Hz. rewrite Hz in Hc. destruct Hc.
    + auto.
  - intros ns Hi. apply H1; auto.
Qed.

(* ---- load balancing ---- *)
Lemma raw_fetch_lens ns : forall addrs w0,
  raw (fetch_lens E addrs ns) (fun l h _ => h = [] /\ map fst l = addrs) [] w0.
Proof.
  induction addrs as [|b r IH]; intros w0; cbn [fetch_lens]; [split; auto|].
  eapply raw_bind.
  - apply (raw_call ns b (h_len_dp b ns) (fun r => match join r with Some n => n | None => 0 end)).
    intros w Hn. apply owns_read; auto.
  - intros n h w _ ->. eapply raw_bind; [apply IH|]. intros l h w' _ (-> & Hl). split; auto. cbn [map fst]. congruence.
Qed.

Lemma upsert_in {V} k (v : V) m k' v' : In (k', v') (upsert k v m) -> (k' = k) \/ In (k', v') m.
Proof.
  induction m as [|[k1 v1] m IH]; cbn [upsert]; [intros [H|[]]; left; congruence|].
  destruct (str_eqb k k1) eqn:Ek; intros [H|H].
  - injection H as -> ->. left. apply str_eqb_eq in Ek; auto.
  - right; right; auto.
  - right; left; auto.
  - destruct (IH H); [left|right; right]; auto.
Qed.
Lemma lens_in (l : list (str * nat)) : forall m, (forall k v, In (k, v) (fold_left (fun m e => upsert (fst e) (Z.of_nat (snd e)) m) l m) ->
  In k (map fst l) \/ In k (map fst m)) /\ (l <> [] \/ m <> [] -> fold_left (fun m e => upsert (fst e) (Z.of_nat (snd e)) m) l m <> []).
Proof.
  induction l as [|[b n] l IH]; intros m; cbn [fold_left map fst snd].
  - split; [|intros [H|H]; [congruence|auto]]. intros k v H. right. apply in_map_iff. exists (k, v). auto.
  - destruct (IH (upsert b (Z.of_nat n) m)) as (H1 & H2). split.
    + intros k v H. destruct (H1 _ _ H) as [H'|H']; [left; right; auto|].
      apply in_map_iff in H'. destruct H' as ([k' v'] & Hk & H'). cbn [fst] in Hk. subst k'.
      apply upsert_in in H'. destruct H' as [->|H']; [left; left; auto|right; apply in_map_iff; exists (k, v'); auto].
    + intros _. apply H2. right. destruct m as [|[k v] m]; cbn [upsert]; [discriminate|]. destruct (str_eqb b k); discriminate.
Qed.

Lemma raw_remote_lens ns addrs w0 :
  raw (remote_lens E addrs ns) (fun l h _ => h = [] /\ (forall b n, In (b, n) l -> In b addrs) /\ (addrs <> [] -> l <> [])) [] w0.
Proof.
  unfold remote_lens. eapply raw_bind.
  - apply (raw_local _ (fun l _ => Permutation l addrs)). intros t. apply wp_any_order; auto.
  - intros order h w _ (-> & Ho). eapply raw_bind; [apply raw_fetch_lens|]. intros l h w' _ (-> & Hl).
    eapply raw_bind.
    + apply (raw_local _ (fun l' _ => Permutation l' l)). intros t. apply wp_any_order; auto.
    + intros arr h w1 _ (-> & Hp). destruct (lens_in arr []) as (L1 & L2). split; auto. split.
      * intros b n Hb. destruct (L1 _ _ Hb) as [H|[]]. apply (Permutation_in _ Ho). rewrite <- Hl.
        apply (Permutation_in _ (Permutation_map fst Hp)). auto.
      * intros Hne. apply L2. left. intros ->. apply Permutation_nil in Hp. subst l. cbn [map] in Hl. subst order.
        apply Permutation_nil in Ho. auto.
Qed.

Lemma raw_balance_loop ns naddrs mean margin : el_remote c <> [] -> (exists n, D ns n) -> forall todo lens w0,
  (forall b n, In (b, n) todo -> In b (el_remote c)) ->
  raw (balance_loop (steal_from E c ns) c naddrs mean margin todo lens) (fun _ h _ => h = []) [] w0.
Proof.
  intros Hr HDn. induction todo as [|[other n] r IH]; intros lens w0 Ht; cbn [balance_loop]; [exact eq_refl|].
  eapply raw_bind.
  - apply (raw_local _ (fun _ _ => True)). intros t. unfold balance_want. cbv zeta.
    destruct (_ || _)%bool; [apply wp_ret; auto|]. destruct (_ <? _)%Z; [apply wp_ret; auto|].
    destruct (el_remote c); [congruence|]. destruct (_ =? _)%Z; [apply wp_ret; auto|].
    destruct (_ && _)%bool; apply wp_ret; auto.
  - intros o h w _ (-> & _). destruct o as [want|]; [|apply IH; intros b m Hb; apply (Ht b m); right; auto].
    unfold steal_from. apply raw_bind with (Q := fun _ h _ => h = []); [eapply raw_bind|].
    + apply (raw_call ns a (h_steal E (el_fuel c) a other ns want) (fun r => match r with Some x => x | None => (0, false) end)).
      intros w1 Hn. apply (owns_steal E D Known Mine NoDrop Tidy Fuel Stay K); auto.
      * apply mine_local; auto.
      * apply mine_remote; auto. apply (Ht other n). left; auto.
    + intros [k ok] h w1 _ ->. exact eq_refl.
    + intros k h w1 _ ->. apply IH. intros b m Hb. apply (Ht b m). right; auto.
Qed.

Lemma raw_balance_ns t ns w0 : tbl_ok (el_remote c) t -> In ns (map fst t) ->
  raw (balance_ns E c t ns) (fun _ h _ => h = []) [] w0.
Proof.
  intros Ht Hi. unfold balance_ns. pose proof (addrs_with_key _ _ _ Ht Hi) as Hne. pose proof (addrs_with_ok _ _ ns Ht) as Hin.
  eapply raw_bind; [apply raw_remote_lens|]. intros lens h w _ (-> & L1 & L2). specialize (L2 Hne).
  destruct lens as [|e lens]; [congruence|]. set (ls := e :: lens) in *. clearbody ls.
  eapply raw_bind.
  - apply (raw_local _ (fun l' _ => Permutation l' ls)). intros t'. apply wp_any_order; auto.
  - intros todo h w1 _ (-> & Hp). apply raw_balance_loop.
    3:{ intros b n Hb. apply Hin. apply (L1 b n). apply (Permutation_in _ Hp). auto. }
    + destruct (addrs_with t ns) as [|b l]; [congruence|]. intros Hz. rewrite Hz in Hin. destruct (Hin b). left; auto.
    + apply in_map_iff in Hi. destruct Hi as ([ns' l] & He & Hi). cbn [fst] in He. subst ns'. apply (Ht _ _ Hi).
Qed.

Lemma raw_metas : forall addrs items w0, raw (metas E addrs items) (fun _ h _ => h = []) [] w0.
Proof.
  induction addrs as [|b r IH]; intros items w0; cbn [metas]; [exact eq_refl|].
  apply raw_bind with (Q := fun _ h _ => h = []).
  - unfold c_meta. apply raw_bind with (Q := fun _ h _ => h = []).
    + apply raw_rpc; auto. intros w _ _. unfold h_meta.
      eapply raw_bind; [apply (raw_names E K Known Mine NoDrop Tidy Fuel Stay b (fun _ h _ => h = [])); auto|].
      intros nss h w' _ ->. apply raw_meta_loop.
    + intros r' h w _ ->. exact eq_refl.
  - intros m h w _ ->. apply IH.
Qed.

Lemma raw_task_body k w0 : raw (task_body E c k) (fun _ h _ => h = []) [] w0.
Proof.
  assert (Hgo : forall (q : str -> req N) (hd : str -> proc' N (option unit)),
    (forall ns w, Mine a ns -> owns ns (hd ns) (fun _ h _ => h = []) [] w) ->
    raw (with_local E c (fun ns => go (call _ <- rpc E a (hd ns); Ret tt))) (fun _ h _ => h = []) [] w0).
  { intros q hd H. apply raw_with_local. intros ns w Hn. apply raw_go. apply (raw_call ns a). intros w' _. apply H, mine_local; auto. }
  destruct k; cbn [task_body].
  - eapply raw_bind; [apply raw_metas|]. intros m h w _ ->. exact eq_refl.
  - apply (Hgo QExpire (h_expire E a)). intros ns w HM.
    apply (owns_step' E D Known Mine NoDrop Tidy Fuel Stay K); [exact HM|]. intros m t Hm. apply (kind_expire K); auto.
  - apply (Hgo QMemTrim (h_mem_trim E a)). intros ns w HM.
    apply (owns_step' E D Known Mine NoDrop Tidy Fuel Stay K); [exact HM|]. intros m t Hm. apply (kind_mem_trim K); auto.
  - apply (Hgo QMemTrim (fun ns => h_merge E a ns _ _)). intros ns w HM.
    apply (owns_step' E D Known Mine NoDrop Tidy Fuel Stay K); [exact HM|]. intros m t Hm. apply (kind_merge K); auto.
  - apply (Hgo QMemTrim (fun ns => h_split E a ns _ _)). intros ns w HM.
    apply (owns_step' E D Known Mine NoDrop Tidy Fuel Stay K); [exact HM|]. intros m t Hm. apply (kind_split K); auto.
  - apply (Hgo QMemTrim (fun ns => h_distribute_internal E a ns _)). intros ns w HM.
    apply (owns_step' E D Known Mine NoDrop Tidy Fuel Stay K); [exact HM|]. intros m t Hm. apply (kind_internal K); auto.
  - apply (raw_dist (fun ns t ds => call rsl <- fetch_vecs E (fun b => c_vec_of E b ns) (addrs_with t ns);
      distribute_fast_loop E a ns rsl ds)); auto.
    intros ns t Ht Hdn ds w Hds Hns.
    eapply owns_bind'; [apply owns_framed2, (owns_fetch E HE D Known Mine NoDrop Tidy Fuel Stay K ns); intros; apply owns_c_vec; auto|].
    intros rsl h w' Hw' (-> & Hl). apply (owns_fast_loop E HO D Known Mine NoDrop Tidy Fuel Stay K); auto.
    + apply mine_local; auto.
    + intros b Hb. apply mine_remote; auto. apply (addrs_with_ok _ _ ns Ht). auto.
    + eapply has_ns_ext; eauto.
  - apply (raw_dist (fun ns t ds => distribute_accurate_loop E a ns (addrs_with t ns) ds)); auto.
    intros ns t Ht Hdn ds w Hds Hns. apply (owns_accurate_loop E HE HO D Known Mine NoDrop Tidy Fuel Stay K); auto.
    + apply mine_local; auto.
    + intros b Hb. apply mine_remote; auto. apply (addrs_with_ok _ _ ns Ht). auto.
  - apply raw_with_table. intros t w Hw Ht _. eapply raw_bind.
    + apply (raw_local _ (fun l _ => Permutation l (map fst t))). intros t'. apply wp_any_order; auto.
    + intros nss h w' _ (-> & Hp). apply (raw_each _ (fun ns _ => In ns (map fst t))); auto.
      * intros ns w1 Hi. apply raw_balance_ns; auto.
      * intros ns Hi. apply (Permutation_in _ Hp). auto.
Qed.
End Tasks.

Lemma clamp1_pos v : (1 <= clamp1 1 1000 v <= 1000)%Z.
Proof.
  unfold clamp1. cbv zeta. destruct (Z.ltb_spec v 1).
  - destruct (Z.ltb_spec 1000 1); lia.
  - destruct (Z.ltb_spec 1000 v); lia.
Qed.
Lemma interval_pos s k : sk_meta s <> 0%Z -> interval (clamp 1 1000 s) k <> 0%Z.
Proof.
  intros Hm. destruct k; cbn [interval clamp sk_meta sk_expire sk_mem_trim sk_merge sk_split sk_internal sk_fast sk_accurate sk_balance]; auto;
    match goal with |- clamp1 1 1000 ?v <> 0%Z => pose proof (clamp1_pos v); lia end.
Qed.

Lemma raw_event_loop c stop n w0 : loop_ok c -> (forall ns, (exists n, D ns n) -> kind_steal K ns) -> Fuel ->
  (forall b ns n, In b (el_local c :: el_remote c) -> D ns n -> Mine b ns) ->
  (NoDrop -> all_delivered E /\ In (el_local c) (el_remote c)) ->
  raw (event_loop E c stop n) (fun _ h _ => h = []) [] w0.
Proof.
  intros (H1 & H2 & H3) Hd HF HM Hnd. unfold event_loop. apply (raw_el_loop stop _ (fun _ => True)); auto.
  intros i k w _. unfold run_task, with_skip.
  destruct (Z.eqb_spec (interval (el_skip (validate c)) k) 0) as [Hz|Hz].
  - exfalso. revert Hz. apply interval_pos. auto.
  - destruct (_ =? _)%Z; [|exact eq_refl]. apply raw_task_body; auto.
Qed.

(* ---- every job ---- *)
Lemma raw_job j w0 : job_fits D w0 j -> (forall ns, steals_in D j ns -> kind_steal K ns) -> (NoDrop -> job_addrs E w0 j) -> (may_steal j -> Fuel) ->
  (forall b ns, touches D j b ns -> Mine b ns) ->
  raw (run_job E j) (fun d h _ => Permutation h (job_out d)) (job_in j) w0.
Proof.
  intros Hj Hks Hnd Hs HM. destruct j as [a q|addrs body|addrs body|c stop n]; cbn [run_job].
  - destruct Hj as (H1 & H2 & H3). eapply raw_bind; [apply (owns_serve E HE HO D Known Mine NoDrop Tidy Fuel Stay K); auto|].
    { intros b c ns l ->. apply Hks. exact eq_refl. }
    intros x h w _ ->. apply Permutation_refl.
  - eapply raw_bind; [apply raw_put; auto|]. intros r h w _ ->. apply Permutation_refl.
  - eapply raw_bind; [apply raw_query; auto|]. intros [r ds] h w _ Hp. exact Hp.
  - eapply raw_bind; [apply raw_event_loop; auto|].
    + apply Hs. exact I.
    + intros b ns n' Hb Hn. apply HM. split; eauto.
    + intros Hd. destruct (Hnd Hd) as (L1 & _ & L3). auto.
    + intros b h w _ ->. apply Permutation_refl.
Qed.

End CoreProofs.
