(* Metadata, and what the client makes of received centroids. *)
From Verif Require Import Base Num MathUtils Knn Env Centroid CManager DataSpec MgrSpec Wp DataFacts NumFacts
  CentroidProofs DistributeProofs CMProofs CMProofs2 CMProofs3 HistoryProofs Proc Owns Server ServerSpec ServerFacts
  SeqProofs SeqProofs2 StealProofs.

Lemma Forall2_weaken {A B} (P Q : A -> B -> Prop) l l' : (forall x y, P x y -> Q x y) -> Forall2 P l l' -> Forall2 Q l l'.
Proof. intros H. induction 1; constructor; auto. Qed.

Section Seq3.
Context {N : Num} (E : Env N) (HE : EnvOk E).
Notation DP := (DataPoint N).
Notation Cen := (Centroid N).
Notation World := (World N).

(* ---- C36 ---- *)
Lemma namespaces_exec a (w : World) t : WorldOk w ->
  wp (exec (h_namespaces E a) w) t (fun r _ => snd r = w /\ NoDup (fst r) /\
    forall ns, In ns (fst r) <-> manager w a ns <> None).
Proof.
  intros Hw. pose proof Hw as (H1 & H2). unfold wp. cbn [h_namespaces exec]. unfold bind at 1.
  destruct (node_at w a) as [nd|] eqn:Ha; unfold node_at in Ha; rewrite Ha.
  - unfold any_order, bind, tick, ret. cbn [exec]. cbn [fst snd]. pose proof (proj1 HE t (length (map fst (nd_tbl nd)))) as Hp.
    set (ks := pick _ _). assert (Hk : Permutation ks (map fst (nd_tbl nd))).
    { apply pick_any_perm; auto. }
    destruct (H2 a nd (assoc_in _ _ _ Ha)) as (K1 & K2). splits; auto.
    + eapply Permutation_NoDup; [apply Permutation_sym; eauto|auto].
    + intros ns. unfold manager, node_at. rewrite Ha. split.
      * intros Hi. apply (Permutation_in _ Hk) in Hi. destruct (assoc ns (nd_tbl nd)) as [p|] eqn:Hp'.
        -- destruct (K2 ns p (assoc_in _ _ _ Hp')) as (m & Hm). rewrite Hm. discriminate.
        -- exfalso. apply in_map_iff in Hi. destruct Hi as ((ns', p) & <- & Hi). cbn [fst] in *. rewrite (in_assoc _ _ _ K1 Hi) in Hp'. discriminate.
      * destruct (assoc ns (nd_tbl nd)) as [p|] eqn:Hp'; [|congruence]. intros _.
        apply (Permutation_in _ (Permutation_sym Hk)). apply in_map_iff. exists (ns, p). split; auto. apply assoc_in; auto.
  - cbn. splits; auto; [constructor|]. intros ns. unfold manager, node_at. rewrite Ha. split; [contradiction|congruence].
Qed.

(* A request for all namespaces or their sizes. *)
Lemma names_spec a (w : World) t : WorldOk w ->
  wp (exec (serve E a QNamespaces) w) t (fun r _ => snd r = w /\ exists l, fst r = ANames l /\ NoDup l /\
    forall ns, In ns l <-> manager w a ns <> None).
Proof.
  intros Hw. cbn [serve]. apply wp_exec_bind. eapply wp_mono; [apply namespaces_exec; auto|].
  intros [l w'] t' (-> & H1 & H2). apply wp_exec_ret. cbn [fst snd] in *. split; auto. exists l. auto.
Qed.

Lemma meta_spec a (w : World) t : WorldOk w ->
  wp (exec (serve E a QMeta) w) t (fun r _ => snd r = w /\ exists l, fst r = AMeta l /\ NoDup (map fst l) /\
    forall ns, assoc ns l = option_map (fun m => (length (cm_cs m), length (stored (cm_cs m)))) (manager w a ns)).
Proof.
  intros Hw. cbn [serve]. unfold h_meta. apply wp_exec_bind. apply wp_exec_bind. eapply wp_mono; [apply namespaces_exec; auto|].
  intros [l w'] t' (-> & H1 & H2). cbn [fst snd] in *. unfold wp. rewrite exec_meta_loop by auto. cbn [fst snd].
  cbn [exec ret]. cbn [fst snd]. split; auto. eexists. split; [reflexivity|].
  assert (Hmap : forall l0, incl l0 l -> map fst (flat_map (fun ns => match manager w a ns with
     | Some m => [(ns, (length (cm_cs m), length (stored (cm_cs m))))] | None => [] end) l0) = l0).
  { induction l0 as [|ns l0 IH]; intros Hi; auto. cbn [flat_map]. rewrite map_app, IH by (intros y Hy; apply Hi; right; auto).
    specialize (H2 ns). destruct (manager w a ns); [auto|]. exfalso. apply H2; auto. apply Hi. left; auto. }
  split; [rewrite Hmap by apply incl_refl; auto|]. intros ns.
  assert (Has : forall l0, assoc ns (flat_map (fun ns => match manager w a ns with
     | Some m => [(ns, (length (cm_cs m), length (stored (cm_cs m))))] | None => [] end) l0) =
     if existsb (str_eqb ns) l0 then option_map (fun m => (length (cm_cs m), length (stored (cm_cs m)))) (manager w a ns) else None).
  { clear. induction l0 as [|ns' l0 IH]; cbn [flat_map existsb]; auto. destruct (str_eqb ns ns') eqn:En; cbn [orb].
    - pose proof En as En'. apply str_eqb_eq in En'. subst ns'. destruct (manager w a ns) as [m|] eqn:Hm; cbn [app assoc].
      + rewrite En. auto.
      + rewrite IH. destruct (existsb _ l0); auto.
    - rewrite <- IH. destruct (manager w a ns'); cbn [app assoc]; [rewrite En|]; auto. }
  rewrite Has. specialize (H2 ns). destruct (existsb (str_eqb ns) l) eqn:He; auto.
  destruct (manager w a ns) as [m|]; auto. exfalso. assert (Hx : existsb (str_eqb ns) l = true); [|congruence].
  apply existsb_exists. exists ns. split; [apply H2; discriminate|apply str_eqb_refl].
Qed.

Lemma len_dp_spec a ns (w : World) m t : WorldOk w -> manager w a ns = Some m ->
  exec (serve E a (QLenDP ns)) w t = Ok ((ANat (length (stored (cm_cs m))), w), t).
Proof.
  intros Hw Hm. cbn [serve]. unfold reply. rewrite exec_bind. unfold h_len_dp, access. rewrite exec_access_g by auto.
  rewrite Hm. unfold ret. rewrite put_same by auto. rewrite cm_len_dp_stored. auto.
Qed.

(* ---- C44 ---- *)
Lemma no_adjacent_tail (c : Cen) cs : no_adjacent_empties (c :: cs) -> no_adjacent_empties cs.
Proof. intros H l c1 c2 r ->. apply (H (c :: l) c1 c2 r). auto. Qed.

Lemma drop_empty_ok : forall k (cs : list Cen), length cs <= k -> no_adjacent_empties cs -> drop_empty cs = filter nonempty cs.
Proof.
  induction k as [|k IH]; intros cs Hk H; destruct cs as [|c cs]; auto; cbn [length] in Hk; [lia|].
  cbn [drop_empty filter]. unfold c_len, nonempty at 1. destruct (c_dps c) as [|d ds] eqn:Hc; cbn [length Nat.eqb].
  - destruct cs as [|c' cs]; auto. cbn [filter]. unfold nonempty at 1. destruct (c_dps c') eqn:Hc'.
    + exfalso. apply (H [] c c' cs); split; auto.
    + cbn [length] in Hk. f_equal. apply IH; [lia|]. do 2 apply no_adjacent_tail in H. auto.
  - f_equal. apply IH; [lia|]. apply no_adjacent_tail in H. auto.
Qed.
Lemma drop_empty_bad : forall k (cs : list Cen), length cs <= k -> ~ no_adjacent_empties cs -> exists c, In c (drop_empty cs) /\ empty_centroid c.
Proof.
  induction k as [|k IH]; intros cs Hk H.
  { exfalso. apply H. intros l c c' r ->. rewrite app_length in Hk. cbn [length] in Hk. lia. }
  destruct cs as [|c cs]. { exfalso. apply H. intros l c c' r Hx. destruct l; discriminate. }
  cbn [drop_empty]. cbn [length] in Hk. unfold c_len. destruct (c_dps c) as [|d ds] eqn:Hc; cbn [length Nat.eqb].
  - destruct cs as [|c' cs]. { exfalso. apply H. intros l c1 c2 r Hx. destruct l as [|? [|? ?]]; discriminate. }
    destruct (c_dps c') as [|d ds] eqn:Hc'.
    + exists c'. split; [left; auto|auto].
    + cbn [length] in Hk. destruct (IH cs) as (x & Hx & He); [lia| |exists x; split; [right; auto|auto]].
      intros Hn. apply H. intros l c1 c2 r Heq (E1 & E2). destruct l as [|y [|z l]]; cbn [app] in Heq.
      * injection Heq as <- <- <-. unfold empty_centroid in E2. congruence.
      * injection Heq as <- <- ->. unfold empty_centroid in E1. congruence.
      * injection Heq as <- <- ->. apply (Hn l c1 c2 r); auto.
  - destruct (IH cs) as (x & Hx & He); [lia| |exists x; split; [right; auto|auto]].
    intros Hn. apply H. intros l c1 c2 r Heq (E1 & E2). destruct l as [|y l]; cbn [app] in Heq.
    + injection Heq as <- _. unfold empty_centroid in E1. congruence.
    + injection Heq as <- ->. apply (Hn l c1 c2 r); auto.
Qed.

Lemma reinit_ok n : forall cs t, Forall (cwf n) cs -> Forall (fun c => c_dps c <> []) cs ->
  wp (reinit E cs) t (fun cs' t' => t <= t' /\ Forall2 (remade E n t t') cs cs').
Proof.
  induction cs as [|c cs IH]; intros t H1 H2; cbn [reinit]; [apply wp_ret; split; auto|].
  inversion H1 as [|? ? Hc H1']; inversion H2 as [|? ? Hn H2']; subst.
  destruct (c_dps c) as [|d ds] eqn:Hd; [congruence|]. apply wp_bind. eapply wp_index; [reflexivity|]. apply wp_bind.
  assert (Hcw : cwf n (MkC (dp_vec d) (d :: ds))).
  { destruct Hc as (_ & Hc). rewrite Hd in Hc. split; cbn [c_vec c_dps]; [inversion Hc; auto|auto]. }
  eapply wp_mono.
  { apply (wp_conj _ _ _ (fun r _ => ExactNum N -> c_dps (snd r) <> [] -> c_vec (snd r) = mean_of n (map dp_vec (c_dps (snd r)))) (cwf_move E n (MkC (dp_vec d) (d :: ds)) t Hcw)).
    pose proof (cwf_move E n (MkC (dp_vec d) (d :: ds)) t Hcw) as Hm. unfold wp in *.
    destruct (c_move_vector E (MkC (dp_vec d) (d :: ds)) t) as [[[ok c'] t']| |] eqn:Hr; auto.
    intros HX. pose proof (c_move_vector_exact E n HX (MkC (dp_vec d) (d :: ds)) t Hcw) as Hx. unfold wp in Hx. rewrite Hr in Hx.
    cbn [fst snd c_dps] in *. destruct Hx as (X1 & _ & _ & X2 & _). rewrite X1. intros Hne. apply X2; auto. }
  intros [ok c'] t1 ((M1 & M2 & ->) & M3). cbn [fst snd c_dps] in *. apply wp_bind.
  eapply wp_mono; [apply IH; auto|]. intros cs' t2 (Ht & Hf). apply wp_ret. split; [lia|]. constructor.
  - exists t. rewrite Hd. splits; auto; try apply M1.
  - eapply Forall2_weaken; [|exact Hf]. intros x y (k & K1 & K2 & K3). exists k. splits; auto; try lia; apply K3.
Qed.

Lemma reinit_panics n : forall cs t, Forall (cwf n) cs -> Exists (fun c => c_dps c = []) cs -> reinit E cs t = Panic.
Proof.
  induction cs as [|c cs IH]; intros t H1 H2; [inversion H2|]. inversion H1 as [|? ? Hc H1']; subst. cbn [reinit].
  destruct (c_dps c) as [|d ds] eqn:Hd; [reflexivity|].
  assert (He : Exists (fun c => c_dps c = []) cs) by (inversion H2; subst; [congruence|auto]).
  unfold bind at 1. cbn [index nth_error]. unfold ret.
  assert (Hcw : cwf n (MkC (dp_vec d) (d :: ds))).
  { destruct Hc as (_ & Hc). rewrite Hd in Hc. split; cbn [c_vec c_dps]; [inversion Hc; auto|auto]. }
  pose proof (cwf_move E n (MkC (dp_vec d) (d :: ds)) t Hcw) as Hm. unfold wp in Hm. unfold bind.
  destruct (c_move_vector E (MkC (dp_vec d) (d :: ds)) t) as [[[ok c'] t']| |]; try contradiction. rewrite IH; auto.
Qed.

Lemma drop_empty_Forall (P : Cen -> Prop) : forall k cs, length cs <= k -> Forall P cs -> Forall P (drop_empty cs).
Proof.
  induction k as [|k IH]; intros cs Hk H; destruct cs as [|c cs]; auto; cbn [length] in Hk; [lia|].
  inversion H as [|? ? Hc H']; subst. cbn [drop_empty]. destruct (c_len c =? 0).
  - destruct cs as [|c' cs]; auto. inversion H'; subst. cbn [length] in Hk. constructor; auto. apply IH; [lia|auto].
  - constructor; auto. apply IH; [lia|auto].
Qed.

Lemma filter_nonempty (cs : list Cen) : Forall (fun c => c_dps c <> []) (filter nonempty cs).
Proof.
  apply Forall_forall. intros c Hc. apply filter_In in Hc. unfold nonempty in Hc. destruct (c_dps c); [intuition discriminate|discriminate].
Qed.

(* A delivered call of the client against the request it makes. *)
Lemma client_nearest n a ns v k drain (w : World) m t : WorldOk w -> manager w a ns = Some m -> DimOk n m -> (0 <= k)%Z ->
  e_fate E t = Delivered ->
  wp (exec (serve E a (QNearest ns v k drain)) w) (S t) (fun r _ => exists resp, fst r = ACens resp /\
    (no_adjacent_empties resp ->
       wp (exec (c_nearest E a ns v k drain) w) t (fun r' t' =>
         snd r' = snd r /\ snd (fst r') = true /\
         match resp with
         | [] => fst (fst r') = None
         | _ :: _ => exists cs, fst (fst r') = Some cs /\ Forall2 (remade E n t t') (filter nonempty resp) cs
         end)) /\
    (~ no_adjacent_empties resp -> exec (c_nearest E a ns v k drain) w t = Panic)).
Proof.
  intros Hw Hm Hd Hk Hf. cbn [serve]. unfold reply. apply wp_exec_bind.
  assert (Hn : node_at w a <> None) by (unfold manager in Hm; destruct (node_at w a); [discriminate|discriminate]).
  assert (Hh : wp (exec (h_nearest E a ns v k drain) w) (S t) (fun r t' => t' = S t /\ exists cs, fst r = Some cs /\ Forall (cwf n) cs)).
  { unfold h_nearest, access. apply (wp_exec_access _ _ _ _ _ m); auto. apply wp_bind.
    eapply wp_mono; [apply (cm_nearest_spec E HE cwf cwf_id n m v k drain (S t)); auto|].
    intros [o m'] t' (-> & _ & _ & idx & _ & _ & _ & _ & Ho). apply wp_ret. cbn [fst snd] in *. split; auto. destruct o as [cs|].
    - exists cs. split; auto. destruct Ho as (_ & -> & _). apply Forall_forall. intros c Hc. unfold pick in Hc.
      apply in_flat_map in Hc. destruct Hc as (i & _ & Hc). destruct (nth_error (cm_cs m) i) as [c'|] eqn:Hi; [|contradiction].
      destruct Hc as [<-|[]]. apply (cs_length_P cwf n m i c' Hd Hi).
    - exists []. auto. }
  unfold wp at 1. unfold wp in Hh.
  assert (Hc : forall resp w1, exec (h_nearest E a ns v k drain) w (S t) = Ok ((Some resp, w1), S t) ->
    exec (c_nearest E a ns v k drain) w t =
      match post_nearest E resp (S t) with Ok (cs, t') => Ok (((cs, true), w1), t') | Panic => Panic | OutOfFuel => OutOfFuel end).
  { intros resp w1 He. unfold c_nearest. rewrite exec_bind, exec_rpc. destruct (node_at w a); [|congruence]. rewrite Hf, He.
    cbn [join]. rewrite exec_bind. cbn [local exec]. unfold bind, ret. destruct (post_nearest E resp (S t)) as [[cs t']| |]; auto. }
  destruct (exec (h_nearest E a ns v k drain) w (S t)) as [[[o w1] t1]| |]; auto.
  destruct Hh as (-> & resp & Ho & Hcs). cbn [fst snd] in *. subst o. specialize (Hc resp w1 eq_refl).
  apply wp_exec_ret. cbn [fst snd]. exists resp. splits; auto.
  - intros Hna. unfold wp. rewrite Hc. destruct resp as [|c0 resp']; [cbn [post_nearest ret fst snd]; auto|].
    set (resp := c0 :: resp') in *.
    pose proof (reinit_ok n (filter nonempty resp) (S t)) as Hr. unfold post_nearest. unfold resp at 1. fold resp. unfold bind, ret.
    rewrite (drop_empty_ok (length resp) resp) by auto.
    assert (Hff : Forall (cwf n) (filter nonempty resp)).
    { apply Forall_forall. intros c Hx. apply filter_In in Hx. rewrite Forall_forall in Hcs. apply Hcs. tauto. }
    specialize (Hr Hff (filter_nonempty resp)). unfold wp in Hr. destruct (reinit E (filter nonempty resp) (S t)) as [[cs t']| |]; auto.
    cbn [fst snd]. splits; auto. exists cs. split; auto. eapply Forall2_weaken; [|apply Hr].
    intros x y (j & J1 & J2 & J3). exists j. splits; auto; try lia; apply J3.
  - intros Hna. rewrite Hc. destruct resp as [|c0 resp'].
    { exfalso. apply Hna. intros l c1 c2 r Hx. destruct l; discriminate. }
    unfold post_nearest. set (resp := c0 :: resp') in *. unfold bind, ret.
    rewrite (reinit_panics n); auto.
    + apply (drop_empty_Forall _ (length resp)); auto.
    + destruct (drop_empty_bad (length resp) resp) as (c & C1 & C2); auto. apply Exists_exists. exists c. auto.
Qed.

End Seq3.
