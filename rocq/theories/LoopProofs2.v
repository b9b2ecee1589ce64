(* The event loop: load balancing and the namespace table. *)
From Verif Require Import Base Num MathUtils Env Centroid CManager DataSpec MgrSpec Wp CMProofs Proc Owns Server ServerSpec
  ServerFacts EventLoop CoreSpec LoopSpec SeqProofs SeqProofs2 StealProofs CoreProofs.
From Coq Require Import SpecFloat.

(* ---- decisions ---- *)
Lemma trunc_nonneg m e : (0 <= f64_trunc (S754_finite false m e))%Z.
Proof.
  unfold f64_trunc. destruct e as [|p|p]; [lia| |].
  - apply Z.mul_nonneg_nonneg; [lia|]. apply Z.pow_nonneg. lia.
  - apply Z.div_pos; [lia|]. apply Z.pow_pos_nonneg; lia.
Qed.

Definition nonneg (x : spec_float) : Prop := match x with S754_zero s | S754_infinity s | S754_finite s _ _ => s = false | S754_nan => True end.
Lemma trunc_nonneg' x : nonneg x -> (0 <= f64_trunc x)%Z.
Proof. destruct x as [s|s| |s m e]; cbn [nonneg]; try (intros _; cbn; lia). intros ->. apply trunc_nonneg. Qed.

Lemma round_aux_nonneg p em m e l : nonneg (binary_round_aux p em false m e l).
Proof.
  unfold binary_round_aux. destruct (shr_fexp p em m e l) as [mrs e']. destruct (shr_fexp p em _ e' loc_Exact) as [mrs'' e''].
  destruct (shr_m mrs''); cbn; auto. destruct (_ <=? _)%Z; cbn; auto.
Qed.
Lemma mul_nonneg p em x y : nonneg x -> nonneg y -> nonneg (SFmul p em x y).
Proof.
  destruct x as [sx|sx| |sx mx ex], y as [sy|sy| |sy my ey]; cbn [nonneg SFmul]; auto; intros -> ->; auto. apply round_aux_nonneg.
Qed.
Lemma of_Z_nonneg z : (0 <= z)%Z -> nonneg (f64_of_Z z).
Proof.
  intros H. unfold f64_of_Z. destruct z as [|p|p]; try lia; [cbn; auto|]. unfold binary_normalize, binary_round.
  destruct (shl_align p _ _). apply round_aux_nonneg.
Qed.
Lemma margin_nonneg mean : (0 <= mean)%Z -> (0 <= margin_of mean)%Z.
Proof. intros H. unfold margin_of. apply trunc_nonneg', mul_nonneg; [apply of_Z_nonneg; auto|exact eq_refl]. Qed.

Lemma third d n : (0 <= d)%Z -> (0 < n)%Z -> (3 * (Z.quot (Z.quot d n) 3 * n) <= d)%Z /\ (0 <= Z.quot (Z.quot d n) 3)%Z.
Proof.
  intros Hd Hn. rewrite (Z.quot_div_nonneg d n) by lia. assert (H1 : (0 <= d / n)%Z) by (apply Z.div_pos; lia).
  rewrite Z.quot_div_nonneg by lia. pose proof (Z.mul_div_le d n Hn) as H2. pose proof (Z.mul_div_le (d / n) 3 ltac:(lia)) as H3.
  split; [nia|apply Z.div_pos; lia].
Qed.

Lemma want_spec c naddrs mean margin lens other size t : el_remote c <> [] -> (0 <= margin)%Z ->
  wp (balance_want c naddrs mean margin lens other size) t (fun o t' => t' = t /\
    match o with
    | None => True
    | Some want => other <> el_local c /\ (len_at lens (el_local c) <= mean - margin)%Z /\ (0 < want)%Z /\
        (3 * (want * Z.of_nat (length (el_remote c))) <= mean - len_at lens (el_local c))%Z /\
        (naddrs = 1 \/ (mean + margin <= size - want)%Z)
    end).
Proof.
  intros Hr Hm. unfold balance_want. cbv zeta. destruct (str_eqb (el_local c) other) eqn:He; cbn [orb]; [apply wp_ret; auto|].
  destruct (mean <? _)%Z eqn:H1; [apply wp_ret; auto|]. destruct (mean - margin <? _)%Z eqn:H2; [apply wp_ret; auto|].
  apply Z.ltb_ge in H1, H2. destruct (el_remote c) as [|a r] eqn:Hrr; [congruence|]. rewrite <- Hrr in *.
  assert (Hl : (0 < Z.of_nat (length (el_remote c)))%Z) by (rewrite Hrr; cbn [length]; lia).
  destruct (third (mean - len_at lens (el_local c)) (Z.of_nat (length (el_remote c))) ltac:(lia) Hl) as (H3 & H4).
  revert H3 H4. generalize (Z.quot (Z.quot (mean - len_at lens (el_local c)) (Z.of_nat (length (el_remote c)))) 3). intros want H3 H4.
  destruct (want =? 0)%Z eqn:H5; [apply wp_ret; auto|]. apply Z.eqb_neq in H5.
  destruct ((size - want <? mean + margin)%Z && negb (naddrs =? 1)) eqn:H6; [apply wp_ret; auto|]. apply wp_ret.
  splits; auto; try lia.
  - intros ->. rewrite str_eqb_refl in He. discriminate.
  - apply andb_false_iff in H6. destruct H6 as [H6|H6]; [apply Z.ltb_ge in H6; auto|].
    apply negb_false_iff, Nat.eqb_eq in H6. auto.
Qed.

Lemma len_at_same lens a n : len_at (upsert a n lens) a = n.
Proof. unfold len_at. rewrite assoc_upsert_same. auto. Qed.
Lemma len_at_other lens a b n : b <> a -> len_at (upsert a n lens) b = len_at lens b.
Proof. intros H. unfold len_at. rewrite assoc_upsert_other; auto. Qed.

Lemma gained_app l l' : gained (l ++ l') = (gained l + gained l')%Z.
Proof. unfold gained. induction l as [|e l IH]; cbn [fold_right app]; lia. Qed.

(* One more entry at the end. *)
Lemma snoc_cases {A} (l before after : list A) e e' : l ++ [e'] = before ++ e :: after ->
  (after = [] /\ before = l /\ e = e') \/ exists after', l = before ++ e :: after'.
Proof.
  intros H. destruct (exists_last (l := e :: after) ltac:(discriminate)) as (x & y & Hx). destruct after as [|z after].
  - left. apply app_inj_tail in H. destruct H as (-> & ->). auto.
  - right. destruct x as [|e1 x]; [destruct after; discriminate|]. injection Hx as <- Hx. exists x.
    rewrite Hx in H. rewrite app_comm_cons, app_assoc in H. apply app_inj_tail in H. apply H.
Qed.

Lemma balance_pulls got c naddrs mean margin here sizes : el_remote c <> [] -> (0 <= margin)%Z ->
  forall todo lens log t, incl todo sizes -> NoDup (map fst todo) -> NoDup (map asked_of log) ->
  (forall o n, In (o, n) todo -> ~ In o (map asked_of log)) ->
  len_at lens (el_local c) = (here + gained log)%Z -> pulls c naddrs mean margin sizes here log ->
  wp (exec (balance_loop (ask_log got) c naddrs mean margin todo lens) log) t
    (fun r _ => pulls c naddrs mean margin sizes here (snd r) /\ NoDup (map asked_of (snd r))).
Proof.
  intros Hr Hm. induction todo as [|[other size] todo IH]; intros lens log t Hi Hnd Hndl Hfresh Hlen Hp; cbn [balance_loop].
  - cbn [exec]. apply wp_ret. auto.
  - unfold wp. rewrite exec_bind. pose proof (want_spec c naddrs mean margin lens other size t Hr Hm) as Hw.
    cbn [local exec]. unfold wp in Hw. unfold bind. destruct (balance_want c naddrs mean margin lens other size t) as [[o t1]| |]; try contradiction.
    destruct Hw as (-> & Hw). unfold ret. apply NoDup_cons_iff in Hnd. destruct Hnd as (Hn1 & Hnd).
    destruct o as [want|].
    + destruct Hw as (H1 & H2 & H3 & H4 & H5). fold (wp (exec (call n <- ask_log got other want;
        (let lens1 := upsert (el_local c) (len_at lens (el_local c) + Z.of_nat n)%Z lens in
         let lens2 := upsert other (len_at lens1 other - Z.of_nat n)%Z lens1 in
         balance_loop (ask_log got) c naddrs mean margin todo lens2)) log) t
        (fun r _ => pulls c naddrs mean margin sizes here (snd r) /\ NoDup (map asked_of (snd r)))).
      cbv zeta. unfold ask_log at 1. cbn [pbind exec]. unfold wp, bind, ret. apply IH.
      * intros e He. apply Hi. right; auto.
      * auto.
      * rewrite map_app. cbn [map]. unfold asked_of at 2. cbn [fst]. 
        apply (Permutation_NoDup (Permutation_app_comm [other] _)). cbn [app]. constructor; auto.
        apply (Hfresh other size). left; auto.
      * intros o n Ho. rewrite map_app, in_app_iff. cbn [map]. unfold asked_of at 2. cbn [fst]. intros [Hx|[<-|[]]].
        -- apply (Hfresh o n); auto. right; auto.
        -- apply Hn1. apply in_map_iff. exists (other, n). auto.
      * rewrite len_at_other by congruence. rewrite len_at_same, gained_app. cbn [gained fold_right snd]. lia.
      * intros before o w' n after He. apply snoc_cases in He. destruct He as [(-> & -> & He)|(after' & He)].
        -- injection He as -> -> ->. rewrite <- Hlen. splits; auto. exists size. split; auto. apply Hi. left; auto.
        -- apply (Hp _ _ _ _ _ He).
    + apply IH; auto.
      * intros e He. apply Hi. right; auto.
      * intros o n Ho. apply (Hfresh o n). right; auto.
Qed.

Lemma pulls_nil c naddrs mean margin sizes here : pulls c naddrs mean margin sizes here [].
Proof. intros [|e before] o w n after H; discriminate. Qed.

Lemma balance_asks got c naddrs mean margin todo lens t : el_remote c <> [] -> (0 <= margin)%Z -> NoDup (map fst todo) ->
  wp (exec (balance_loop (ask_log got) c naddrs mean margin todo lens) []) t
    (fun r _ => pulls c naddrs mean margin todo (len_at lens (el_local c)) (snd r) /\ NoDup (map asked_of (snd r))).
Proof.
  intros Hr Hm Hnd. apply balance_pulls; auto; try apply incl_refl.
  - constructor.
  - cbn [gained fold_right]. lia.
  - apply pulls_nil.
Qed.

(* ---- sizes ---- *)
Section World.
Context {N : Num} (E : Env N) (HE : EnvOk E).
Notation World := (World N).

Lemma len_dp_alone ns a (w : World) t : all_delivered E -> WorldOk w ->
  wp (exec (c_len_dp E a ns) w) t (fun r _ => r = (length (data_at w a ns), w)).
Proof.
  intros Hd Hw. unfold c_len_dp. apply wp_exec_bind. unfold wp. rewrite exec_rpc. unfold data_at, centroids_at.
  destruct (node_at w a) as [nd|] eqn:Ha.
  - rewrite Hd. unfold h_len_dp, access. rewrite exec_access_g by auto. destruct (manager w a ns) as [m|] eqn:Hm.
    + unfold ret. rewrite put_same by auto. cbn [join exec fst snd]. unfold ret. rewrite cm_len_dp_stored. auto.
    + cbn [join exec fst snd]. unfold ret. auto.
  - cbn [join exec fst snd]. unfold ret. unfold manager. rewrite Ha. auto.
Qed.

Lemma fetch_lens_alone ns (w : World) : all_delivered E -> WorldOk w -> forall addrs t,
  wp (exec (fetch_lens E addrs ns) w) t (fun r _ => r = (map (fun a => (a, length (data_at w a ns))) addrs, w)).
Proof.
  intros Hd Hw. induction addrs as [|a r IH]; intros t; cbn [fetch_lens map]; [apply wp_exec_ret; auto|].
  apply wp_exec_bind. eapply wp_mono; [apply len_dp_alone; auto|]. intros x t1 ->. cbn [fst snd].
  apply wp_exec_bind. eapply wp_mono; [apply IH|]. intros x t2 ->. cbn [fst snd]. apply wp_exec_ret. auto.
Qed.

Lemma fold_upsert (l : list (str * nat)) : forall m, NoDup (map fst m ++ map fst l) ->
  fold_left (fun m e => upsert (fst e) (Z.of_nat (snd e)) m) l m = m ++ map (fun e => (fst e, Z.of_nat (snd e))) l.
Proof.
  induction l as [|e l IH]; intros m Hn; cbn [fold_left map]; [rewrite app_nil_r; auto|].
  cbn [map] in Hn. assert (Ha : assoc (fst e) m = None).
  { destruct (assoc (fst e) m) as [v|] eqn:Hv; auto. exfalso. apply NoDup_remove_2 in Hn. apply Hn, in_app_iff. left.
    apply in_map_iff. exists (fst e, v). split; auto. apply assoc_in; auto. }
  rewrite upsert_keys_absent by auto. rewrite IH.
  - rewrite <- app_assoc. auto.
  - rewrite map_app. cbn [map fst]. rewrite <- app_assoc. auto.
Qed.

Lemma remote_lens_alone ns addrs (w : World) t : all_delivered E -> WorldOk w -> NoDup addrs ->
  wp (exec (remote_lens E addrs ns) w) t (fun r _ => snd r = w /\ Permutation (fst r) (map (fun a => (a, size_at w ns a)) addrs)).
Proof.
  intros Hd Hw Hn. unfold remote_lens. apply wp_exec_bind, wp_exec_local, wp_any_order; auto. intros order Ho. cbn [fst snd].
  apply wp_exec_bind. eapply wp_mono; [apply fetch_lens_alone; auto|]. intros x t1 ->. cbn [fst snd].
  apply wp_exec_bind, wp_exec_local, wp_any_order; auto. intros arr Hp. cbn [fst snd]. apply wp_exec_ret. cbn [fst snd]. split; auto.
  rewrite fold_upsert.
  - cbn [app]. rewrite (Permutation_map _ Hp), map_map. cbn [fst snd]. rewrite (Permutation_map _ Ho). apply Permutation_refl.
  - cbn [map app]. apply (Permutation_NoDup (l := addrs)); auto. rewrite (Permutation_map fst Hp), map_map. cbn [fst].
    rewrite map_id. symmetry. auto.
Qed.

Lemma fold_add_perm (l : list Z) : forall a, fold_left Z.add l a = (a + fold_right Z.add 0 l)%Z.
Proof. induction l as [|z l IH]; intros a; cbn [fold_left fold_right]; [lia|]. rewrite IH. lia. Qed.
Lemma sum_perm (l l' : list Z) : Permutation l l' -> fold_right Z.add 0%Z l = fold_right Z.add 0%Z l'.
Proof. induction 1; cbn [fold_right]; lia. Qed.
Lemma sum_nonneg (l : list Z) : Forall (fun z => (0 <= z)%Z) l -> (0 <= fold_right Z.add 0 l)%Z.
Proof. induction 1; cbn [fold_right]; lia. Qed.
Lemma mean_nonneg (w : World) ns addrs : (0 <= mean_of w ns addrs)%Z.
Proof.
  unfold mean_of. destruct addrs as [|a r]; [cbn; lia|]. apply Z.div_pos; [|cbn [length]; lia].
  apply sum_nonneg. apply Forall_forall. intros z Hz. apply in_map_iff in Hz. destruct Hz as (b & <- & _). unfold size_at. lia.
Qed.

Lemma assoc_nodup {V} k (v : V) l : NoDup (map fst l) -> In (k, v) l -> assoc k l = Some v.
Proof.
  induction l as [|[k' v'] l IH]; cbn [map fst assoc]; intros Hn Hi; [destruct Hi|]. apply NoDup_cons_iff in Hn. destruct Hn as (Hn1 & Hn).
  destruct Hi as [Hi|Hi].
  - injection Hi as -> ->. rewrite str_eqb_refl. auto.
  - destruct (str_eqb k k') eqn:Ek; auto. apply str_eqb_eq in Ek. subst k'. exfalso. apply Hn1. apply in_map_iff. exists (k, v). auto.
Qed.

(* The loop does nothing when the local node has enough. *)
Lemma balance_quiet c ns naddrs mean margin (w : World) lens : el_remote c <> [] ->
  (mean - margin < len_at lens (el_local c) \/ mean - len_at lens (el_local c) < 3 * Z.of_nat (length (el_remote c)))%Z ->
  forall todo t, wp (exec (balance_loop (steal_from E c ns) c naddrs mean margin todo lens) w) t (fun r _ => snd r = w).
Proof.
  intros Hr Hl. induction todo as [|[o n] todo IH]; intros t; cbn [balance_loop]; [apply wp_exec_ret; auto|].
  apply wp_exec_bind, wp_exec_local. unfold balance_want. cbv zeta. destruct (_ || _)%bool eqn:H1; [apply wp_ret; auto|].
  apply orb_false_iff in H1. destruct H1 as (_ & H1). apply Z.ltb_ge in H1.
  destruct (mean - margin <? _)%Z eqn:H; [apply wp_ret; auto|]. apply Z.ltb_ge in H. destruct Hl as [Hl|Hl]; [lia|].
  destruct (el_remote c) as [|a r] eqn:Hrr; [congruence|]. rewrite <- Hrr in *.
  assert (Hn : (0 < Z.of_nat (length (el_remote c)))%Z) by (rewrite Hrr; cbn [length]; lia).
  destruct (third (mean - len_at lens (el_local c)) (Z.of_nat (length (el_remote c))) ltac:(lia) Hn) as (H3 & H4).
  assert (Hz : Z.quot (Z.quot (mean - len_at lens (el_local c)) (Z.of_nat (length (el_remote c)))) 3 = 0%Z) by nia.
  rewrite Hz. cbn [Z.eqb]. apply wp_ret. auto.
Qed.

Lemma balanced_stays c tbl ns (w : World) t : all_delivered E -> WorldOk w -> el_remote c <> [] -> NoDup (addrs_with tbl ns) -> In (el_local c) (addrs_with tbl ns) ->
  (let mean := mean_of w ns (addrs_with tbl ns) in let here := size_at w ns (el_local c) in
   mean - margin_of mean < here \/ mean - here < 3 * Z.of_nat (length (el_remote c)))%Z ->
  wp (exec (balance_ns E c tbl ns) w) t (fun r _ => snd r = w).
Proof.
  intros Hd Hw Hr Hn Hi Hs. cbv zeta in Hs. unfold balance_ns. apply wp_exec_bind. eapply wp_mono; [apply remote_lens_alone; auto|].
  intros [lens w'] t1 (Hw' & Hp). cbn [fst snd] in *. subst w'. destruct lens as [|e lens].
  - apply Permutation_nil, map_eq_nil in Hp. rewrite Hp in Hi. destruct Hi.
  - set (ls := e :: lens) in *.
    assert (Hlen : length ls = length (addrs_with tbl ns)) by (rewrite (Permutation_length Hp); apply map_length).
    assert (Hmean : Z.quot (fold_left Z.add (map snd ls) 0%Z) (Z.of_nat (length ls)) = mean_of w ns (addrs_with tbl ns)).
    { rewrite fold_add_perm, Hlen. rewrite (sum_perm _ _ (Permutation_map snd Hp)), map_map. cbn [snd].
      rewrite Z.add_0_l. unfold mean_of. apply Z.quot_div_nonneg.
      - apply sum_nonneg. apply Forall_forall. intros z Hz. apply in_map_iff in Hz. destruct Hz as (b & <- & _). unfold size_at. lia.
      - rewrite <- Hlen. unfold ls. cbn [length]. lia. }
    apply wp_exec_bind, wp_exec_local, wp_any_order; auto. intros todo _. cbn [fst snd]. rewrite Hmean. apply balance_quiet; auto.
    assert (Hla : len_at ls (el_local c) = size_at w ns (el_local c)); [|rewrite Hla; auto].
    unfold len_at. rewrite (assoc_nodup (el_local c) (size_at w ns (el_local c))); auto.
    + apply (Permutation_NoDup (l := addrs_with tbl ns)); auto. rewrite (Permutation_map fst Hp), map_map. cbn [fst]. rewrite map_id. auto.
    + apply (Permutation_in _ (Permutation_sym Hp)). apply in_map_iff. exists (el_local c). auto.
Qed.

(* ---- the namespace table ---- *)
Lemma namespaces_alone a (w : World) t : WorldOk w ->
  wp (exec (c_namespaces E a) w) t (fun r _ => snd r = w /\ NoDup (fst r) /\
    (fst r = [] /\ ~ all_delivered E \/ forall ns, In ns (fst r) <-> holds_ns w ns a = true)).
Proof.
  intros Hw. unfold c_namespaces. apply wp_exec_bind. unfold wp. rewrite exec_rpc.
  destruct (node_at w a) as [nd|] eqn:Ha.
  2:{ cbn [exec fst snd]. unfold ret. splits; auto; [constructor|]. right. intros ns. cbn [In fst]. unfold holds_ns, manager. rewrite Ha.
      split; [intros []|discriminate]. }
  assert (Hh : exists ks t', exec (h_namespaces E a) w (S t) = Ok ((ks, w), t') /\ NoDup ks /\ forall ns, In ns ks <-> holds_ns w ns a = true).
  { unfold h_namespaces. cbn [exec]. unfold node_at in Ha. rewrite Ha. unfold bind, any_order, tick, ret. unfold bind, ret.
    eexists _, _. split; [reflexivity|]. destruct Hw as (Hw1 & Hw2). destruct (Hw2 _ _ (assoc_in _ _ _ Ha)) as (K1 & K2).
    assert (Hp : Permutation (pick (e_perm E (S t) (length (map fst (nd_tbl nd)))) (map fst (nd_tbl nd))) (map fst (nd_tbl nd))) by (destruct HE as (HP & _); apply pick_any_perm, HP).
    split; [apply (Permutation_NoDup (Permutation_sym Hp)); auto|]. intros ns.
    assert (Hi : In ns (map fst (nd_tbl nd)) <-> holds_ns w ns a = true).
    { unfold holds_ns, manager, node_at. rewrite Ha. destruct (assoc ns (nd_tbl nd)) as [p|] eqn:Hp'.
      - apply assoc_in in Hp'. destruct (K2 _ _ Hp') as (m & Hm). rewrite Hm. cbn [option_map snd]. split; auto.
        intros _. apply in_map_iff. exists (ns, p). auto.
      - split; [|discriminate]. intros Hi. apply in_map_iff in Hi. destruct Hi as ([ns' p] & Hn & Hi). cbn [fst] in Hn. subst ns'.
        rewrite (assoc_nodup _ _ _ K1 Hi) in Hp'. discriminate. }
    rewrite <- Hi. split; apply Permutation_in; auto. symmetry; auto. }
  destruct Hh as (ks & t' & Hh & Hnd & Hks).
  destruct (e_fate E t) eqn:Hf; [rewrite Hh| |rewrite Hh]; cbn [exec fst snd]; unfold ret; cbn [fst snd].
  - splits; auto.
  - splits; auto; [constructor|]. left. split; auto. intros Hd. rewrite Hd in Hf. discriminate.
  - splits; auto; [constructor|]. left. split; auto. intros Hd. rewrite Hd in Hf. discriminate.
Qed.

Lemma add_entries_with a ns : forall nss t, NoDup nss ->
  addrs_with (fold_left (fun t ns => add_entry t a ns) nss t) ns = addrs_with t ns ++ (if in_dec str_dec ns nss then [a] else []).
Proof.
  induction nss as [|n r IH]; intros t Hn; cbn [fold_left].
  - destruct (in_dec str_dec ns []) as [[]|_]. rewrite app_nil_r. auto.
  - apply NoDup_cons_iff in Hn. destruct Hn as (Hn1 & Hn). rewrite IH by auto. unfold addrs_with, add_entry.
    destruct (str_dec ns n) as [->|Hne].
    + rewrite assoc_upsert_same. destruct (in_dec str_dec n r) as [|_]; [contradiction|].
      destruct (in_dec str_dec n (n :: r)) as [_|Hx]; [|destruct Hx; left; auto]. rewrite app_nil_r. destruct (assoc n t); auto.
    + rewrite assoc_upsert_other by auto. destruct (in_dec str_dec ns r) as [Hi|Hi], (in_dec str_dec ns (n :: r)) as [Hj|Hj]; auto.
      * destruct Hj. right; auto.
      * destruct Hj as [Hj|Hj]; [congruence|contradiction].
Qed.

Lemma add_entries_keys a ns : forall nss t,
  In ns (map fst (fold_left (fun t ns => add_entry t a ns) nss t)) <-> In ns (map fst t) \/ In ns nss.
Proof.
  induction nss as [|n r IH]; intros t; cbn [fold_left]; [cbn [In]; tauto|]. rewrite IH. unfold add_entry.
  assert (H : forall v, In ns (map fst (upsert n v t)) <-> In ns (map fst t) \/ n = ns).
  { intros v. destruct (assoc n t) as [v0|] eqn:Hv.
    - rewrite upsert_keys_present by congruence. split; auto. intros [H|<-]; auto. apply in_map_iff. exists (n, v0). split; auto. apply assoc_in; auto.
    - rewrite upsert_keys_absent by auto. rewrite map_app, in_app_iff. cbn [map fst In]. tauto. }
  rewrite H. cbn [In]. tauto.
Qed.

Lemma poll_alone (w : World) : WorldOk w -> forall addrs tbl t,
  wp (exec (poll E addrs tbl) w) t (fun r _ => snd r = w /\ exists answered, sublist answered addrs /\
    (all_delivered E -> answered = addrs) /\
    (forall ns, addrs_with (fst r) ns = addrs_with tbl ns ++ filter (holds_ns w ns) answered) /\
    (forall ns, In ns (map fst (fst r)) <-> In ns (map fst tbl) \/ exists a, In a answered /\ holds_ns w ns a = true)).
Proof.
  intros Hw. induction addrs as [|a r IH]; intros tbl t; cbn [poll].
  - apply wp_exec_ret. cbn [fst snd]. split; auto. exists []. splits; auto; [constructor| |].
    + intros ns. cbn [filter]. rewrite app_nil_r. auto.
    + intros ns. split; auto. intros [H|(b & [] & _)]; auto.
  - apply wp_exec_bind. eapply wp_mono; [apply namespaces_alone; auto|]. intros [nss w'] t1 (Hw' & Hnd & Hc). cbn [fst snd] in *. subst w'.
    eapply wp_mono; [apply IH|]. intros [tbl' w'] t2 (Hw' & ans & H1 & H2 & H3 & H4). cbn [fst snd] in *. split; auto.
    destruct Hc as [(-> & Hnot)|Hin].
    + exists ans. splits; auto; [constructor; auto|intros Hx; destruct (Hnot Hx)].
    + exists (a :: ans). splits; auto.
      * apply sub_keep; auto.
      * intros Hx. rewrite H2; auto.
      * intros ns. rewrite H3, add_entries_with by auto. cbn [filter]. rewrite <- app_assoc.
        destruct (in_dec str_dec ns nss) as [Hi|Hi]; destruct (holds_ns w ns a) eqn:Hh; cbn [app]; auto.
        -- apply Hin in Hi. congruence.
        -- apply Hin in Hh. contradiction.
      * intros ns. rewrite H4, add_entries_keys, Hin. cbn [In]. split.
        -- intros [[H|H]|(b & Hb & H)]; [auto|right; exists a; auto|right; exists b; auto].
        -- intros [H|(b & [<-|Hb] & H)]; [auto|auto|right; exists b; auto].
Qed.
End World.
