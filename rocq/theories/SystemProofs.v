(* Pools of jobs (requests, HTTP requests, event loops), in any interleaving. *)
From Verif Require Import Base Num MathUtils Knn Env Centroid CManager DataSpec MgrSpec Wp DataFacts NumFacts
  Proc Owns Server ServerSpec ServerFacts Slots ServerProofs ClusterProofs Alone Core EventLoop CoreSpec CoreProofs.

Section System.
Context {N : Num} (E : Env N) (HE : EnvOk E) (HO : NumOrd N).
Notation DP := (DataPoint N).
Notation World := (World N).
Notation ext := (ServerFacts.ext (N := N) True).
Notation jrun := (interleave DIdle).
Notation ended ds := (map (fun d => Ret d) ds).

Lemma jobs_run (D : str -> nat -> Prop) (Known Mine : str -> str -> Prop) (NoDrop Tidy Fuel : Prop)
  (K : SlotKind E D NoDrop)
  js sched (w : World) t :
  winv K Known Mine Tidy w ->
  Forall (fun j => job_fits D w j /\ (forall ns, steals_in D j ns -> kind_steal K ns) /\ (NoDrop -> job_addrs E w j) /\ (may_steal j -> Fuel) /\
            forall b n, touches D j b n -> Mine b n) js ->
  match jrun sched (map (run_job E) js) w t with
  | Ok ((th, w'), t') => exists hs, winv K Known Mine Tidy w' /\ ext w w' /\
      G E Known Mine NoDrop t t' w (jobs_in js) w' (concat hs) /\
      Forall2 (fun p h => forall d, p = Ret d -> answers_arrive E -> Permutation h (job_out d)) th hs /\
      (~ Fuel -> exists sched2 ds w2 t2, jrun sched2 th w' t' = Ok ((ended ds, w2), t2))
  | Panic => False
  | OutOfFuel => Fuel
  end.
Proof.
  intros HI HR.
  set (Q := fun (d : done N) (h : list (str * DP)) (_ : World) => answers_arrive E -> Permutation h (job_out d)).
  pose proof (owns_interleave (L := lock) (winv K Known Mine Tidy) ext (G E Known Mine NoDrop) ext_refl ext_trans
    (G_refl E Known Mine NoDrop) (G_trans E Known Mine NoDrop) (G_frame E Known Mine NoDrop)
    (G_perm E Known Mine NoDrop) (J E) Fuel Q DIdle) as H.
  pose proof (pool_completes (R := done N) (L := lock) (winv K Known Mine Tidy) ext (G E Known Mine NoDrop) ext_refl ext_trans
    (J E) Fuel) as HC.
  specialize (H (fun _ _ _ _ _ x => x)).
  assert (HJ : forall h (w : World), J E h -> Q DIdle h w) by (intros h w0 Hj Ha; rewrite (Hj Ha); apply Permutation_refl).
  specialize (H HJ sched (map (run_job E) js) (map job_in js) w t HI).
  assert (HP : pool_owns (L := lock) (winv K Known Mine Tidy) ext (G E Known Mine NoDrop) (J E) Fuel Q
                 (map (run_job E) js) (map job_in js) w).
  { clear H. induction HR as [|j js (H1 & H0 & H2 & H3 & H4) HR IH]; [constructor|]. cbn [map]. constructor; auto.
    eapply raw_weaken; [apply (raw_job E HE HO D Known Mine NoDrop Tidy Fuel True K); eauto|].
    intros x h w' _ Hp _. exact Hp. }
  specialize (H HP). destruct (jrun sched (map (run_job E) js) w t) as [[[th w'] t']| |]; auto.
  destruct H as (hs & H1 & H2 & H3 & H4). exists hs. splits; auto.
  - clear - H4. induction H4 as [|p h th hs H H4 IH]; constructor; auto.
    intros d -> Ha. exact (H Ha).
  - intros HF. eapply (HC HF Q); [exact (fun _ _ _ _ _ x => x)|exact H1|exact H4].
Qed.

(* For any kind of slot. *)
Section Kind.
Context (D : str -> nat -> Prop) (SP : str -> CM N -> Prop) (St : str -> Prop).
Context (HK : forall NoDrop : Prop,
  (NoDrop -> (forall ns n n', D ns n -> D ns n' -> n = n') /\ (forall ns n, D ns n -> finds_some E n)) ->
  exists K : SlotKind E D NoDrop, kind_ok K = SP /\ kind_steal K = St).
Definition kjob (w : World) (j : job N) : Prop := job_fits D w j /\ forall ns, steals_in D j ns -> St ns.

Lemma k_run (Known Mine : str -> str -> Prop) (NoDrop Tidy Fuel : Prop)
  (HD : NoDrop -> (forall ns n n', D ns n -> D ns n' -> n = n') /\ (forall ns n, D ns n -> finds_some E n))
  js sched (w : World) t :
  winv SP Known Mine Tidy w ->
  Forall (fun j => kjob w j /\ (NoDrop -> job_addrs E w j) /\ (may_steal j -> Fuel) /\
            forall b n, touches D j b n -> Mine b n) js ->
  match jrun sched (map (run_job E) js) w t with
  | Ok ((th, w'), t') => exists hs, winv SP Known Mine Tidy w' /\ ext w w' /\
      G E Known Mine NoDrop t t' w (jobs_in js) w' (concat hs) /\
      Forall2 (fun p h => forall d, p = Ret d -> answers_arrive E -> Permutation h (job_out d)) th hs /\
      (~ Fuel -> exists sched2 ds w2 t2, jrun sched2 th w' t' = Ok ((ended ds, w2), t2))
  | Panic => False
  | OutOfFuel => Fuel
  end.
Proof.
  intros HI HR. destruct (HK NoDrop HD) as (K & E1 & E2). rewrite <- E1 in *.
  apply (jobs_run D Known Mine NoDrop Tidy Fuel K js sched w t HI).
  eapply Forall_impl; [|exact HR]. intros j ((H1 & H2) & H3). splits; try tauto. intros ns Hs. rewrite E2. auto.
Qed.

Lemma k_safe (w : World) js sched t : WorldOk w -> slots_are SP w -> Forall (kjob w) js ->
  match jrun sched (map (run_job E) js) w t with
  | Ok ((_, w'), _) => WorldOk w' /\ slots_are SP w'
  | Panic => False
  | OutOfFuel => Exists may_steal js
  end.
Proof.
  intros H1 H2 H3.
  pose proof (k_run (fun _ _ => False) (fun _ _ => True) False False (Exists may_steal js)
    (fun x => match x with end) js sched w t) as H.
  assert (HI : winv SP (fun _ _ => False) (fun _ _ => True) False w) by (apply WorldOk_winv; tauto).
  specialize (H HI). assert (HR : Forall (fun j => kjob w j /\ (False -> job_addrs E w j) /\
    (may_steal j -> Exists may_steal js) /\ forall b n, touches D j b n -> True) js).
  { apply Forall_forall. intros j Hin. pose proof (proj1 (Forall_forall _ _) H3 j Hin) as K1.
    splits; auto; try tauto. intros Hs. apply Exists_exists. eauto. }
  specialize (H HR). destruct (jrun sched (map (run_job E) js) w t) as [[[th w'] t']| |]; auto.
  destruct H as (hs & H & _). eapply winv_WorldOk; eauto.
Qed.

Lemma k_finish (w : World) js sched t : WorldOk w -> slots_are SP w -> Forall (kjob w) js -> Forall (fun j => ~ may_steal j) js ->
  match jrun sched (map (run_job E) js) w t with
  | Ok ((th, w'), t') => exists sched2 ds w2 t2, jrun sched2 th w' t' = Ok ((ended ds, w2), t2)
  | _ => False
  end.
Proof.
  intros H1 H2 H3 H4.
  pose proof (k_run (fun _ _ => False) (fun _ _ => True) False False False (fun x => match x with end) js sched w t) as H.
  assert (HI : winv SP (fun _ _ => False) (fun _ _ => True) False w) by (apply WorldOk_winv; tauto).
  specialize (H HI). assert (HR : Forall (fun j => kjob w j /\ (False -> job_addrs E w j) /\
    (may_steal j -> False) /\ forall b n, touches D j b n -> True) js).
  { apply Forall_forall. intros j Hin. pose proof (proj1 (Forall_forall _ _) H3 j Hin) as K1.
    rewrite Forall_forall in H4. splits; auto; try tauto. apply H4; auto. }
  specialize (H HR). destruct (jrun sched (map (run_job E) js) w t) as [[[th w'] t']| |]; auto.
  destruct H as (hs & _ & _ & _ & _ & H). apply H; auto.
Qed.

Lemma k_isolated (w : World) js sched t th w' t' a ns : WorldOk w -> slots_are SP w -> Forall (kjob w) js ->
  Forall (fun j => ~ touches D j a ns) js ->
  jrun sched (map (run_job E) js) w t = Ok ((th, w'), t') ->
  manager w' a ns = manager w a ns.
Proof.
  intros H1 H2 H3 H4 Hr.
  pose (Mine := fun b n => exists j, In j js /\ touches D j b n).
  pose proof (k_run (fun _ _ => False) Mine False False True (fun x => match x with end) js sched w t) as H.
  assert (HI : winv SP (fun _ _ => False) Mine False w) by (apply WorldOk_winv; tauto).
  specialize (H HI). assert (HR : Forall (fun j => kjob w j /\ (False -> job_addrs E w j) /\
    (may_steal j -> True) /\ forall b n, touches D j b n -> Mine b n) js).
  { apply Forall_forall. intros j Hin. pose proof (proj1 (Forall_forall _ _) H3 j Hin) as K1.
    splits; auto; try tauto. intros b n Hb. exists j. auto. }
  specialize (H HR). rewrite Hr in H. destruct H as (hs & _ & _ & (_ & HG & _) & _). apply HG.
  intros (j & Hin & Hb). rewrite Forall_forall in H4. eapply H4; eauto.
Qed.

Lemma ended_hands (ds : list (done N)) hs : answers_arrive E ->
  Forall2 (fun (p : proc' N (done N)) h => forall d, p = Ret d -> answers_arrive E -> Permutation h (job_out d))
    (ended ds) hs -> Permutation (concat hs) (jobs_out ds).
Proof.
  intros Ha. revert hs. induction ds as [|d ds IH]; intros hs H; inversion H as [|? h ? hs' Hh H']; subst; auto.
  unfold jobs_out. cbn [concat map]. rewrite (Hh d eq_refl Ha). apply Permutation_app_head. apply IH; auto.
Qed.

Lemma k_conserve (w : World) js sched t ds w' t' : WorldOk w -> slots_are SP w -> Forall (kjob w) js ->
  answers_arrive E ->
  jrun sched (map (run_job E) js) w t = Ok ((ended ds, w'), t') ->
  exists dropped, w_dropped w' = w_dropped w ++ dropped /\
    keeps E t t' (all_data w ++ jobs_in js) (all_data w' ++ jobs_out ds ++ dropped) /\
    (none_refused E D w js -> Forall (fun e => seen_expired E t t' (snd e)) dropped).
Proof.
  intros H1 H2 H3 Ha Hr.
  pose proof (k_run (fun _ _ => False) (fun _ _ => True) (none_refused E D w js) False True
    (fun x => conj (proj1 x) (proj1 (proj2 x))) js sched w t) as H.
  assert (HI : winv SP (fun _ _ => False) (fun _ _ => True) False w) by (apply WorldOk_winv; tauto).
  specialize (H HI). assert (HR : Forall (fun j => kjob w j /\ (none_refused E D w js -> job_addrs E w j) /\
    (may_steal j -> True) /\ forall b n, touches D j b n -> True) js).
  { apply Forall_forall. intros j Hin. pose proof (proj1 (Forall_forall _ _) H3 j Hin) as K1.
    splits; auto. intros (_ & _ & Hx). rewrite Forall_forall in Hx. auto. }
  specialize (H HR). rewrite Hr in H. destruct H as (hs & _ & _ & (_ & _ & _ & x & HG & Hn & Hk) & HF & _).
  exists x. splits; auto. eapply keeps_proper; [reflexivity| |apply (Hk Ha)].
  rewrite (ended_hands ds hs Ha HF). reflexivity.
Qed.

(* When every place that is worked on exists from the start, nothing is lost from sight. *)
Lemma k_visible (w : World) js sched t ds w' t' : WorldOk w -> NoOrphans w -> slots_are SP w -> Forall (kjob w) js ->
  Forall (fun j => forall b n, touches D j b n -> node_at w b <> None -> manager w b n <> None) js ->
  answers_arrive E ->
  jrun sched (map (run_job E) js) w t = Ok ((ended ds, w'), t') ->
  exists dropped, w_dropped w' = w_dropped w ++ dropped /\
    keeps E t t' (visible w ++ jobs_in js) (visible w' ++ jobs_out ds ++ dropped) /\
    (none_refused E D w js -> Forall (fun e => seen_expired E t t' (snd e)) dropped).
Proof.
  intros H1 H0 H2 H3 H4 Ha Hr.
  pose (Mine := fun b n => exists j, In j js /\ touches D j b n).
  pose proof (k_run (fun a ns => ptr w a ns <> None) Mine (none_refused E D w js) True True
    (fun x => conj (proj1 x) (proj1 (proj2 x))) js sched w t) as H.
  assert (HI : winv SP (fun a ns => ptr w a ns <> None) Mine True w) by (apply WorldOk_winv; auto).
  specialize (H HI). assert (HR : Forall (fun j => kjob w j /\ (none_refused E D w js -> job_addrs E w j) /\
    (may_steal j -> True) /\ forall b n, touches D j b n -> Mine b n) js).
  { apply Forall_forall. intros j Hin. pose proof (proj1 (Forall_forall _ _) H3 j Hin) as K1.
    splits; auto.
    - intros (_ & _ & Hx). rewrite Forall_forall in Hx. auto.
    - intros b n Hb. exists j. auto. }
  specialize (H HR). rewrite Hr in H. destruct H as (hs & HI' & HX & (_ & _ & _ & x & HG & Hn & Hk) & HF & _).
  destruct (winv_WorldOk _ _ _ _ _ HI') as (W1 & W2).
  assert (HNO : NoOrphans w').
  { intros a nd p ns m Hin Hp. destruct HI' as (I1 & I2). pose proof (in_assoc _ _ _ I1 Hin) as Ha'.
    destruct (I2 _ _ Ha') as (_ & _ & _ & _ & I5). destruct (I5 I _ _ _ Hp) as (K1 & K2). apply K1.
    destruct K2 as [K2|(j & Hq & Hb)]; auto. rewrite Forall_forall in H4.
    assert (Hm : manager w a ns <> None).
    { apply (H4 j Hq a ns Hb). intros Hn'. destruct HX as (HX1 & _).
      apply assoc_none in Hn'. apply Hn'. rewrite <- HX1. apply in_map_iff. exists (a, nd). auto. }
    unfold manager in Hm. unfold ptr. destruct (node_at w a) as [nd0|]; [|contradiction]. destruct (assoc ns (nd_tbl nd0)); congruence. }
  exists x. splits; auto. eapply keeps_proper; [| |apply (Hk Ha)].
  - rewrite (visible_all w); auto.
  - rewrite (visible_all w'); auto. rewrite (ended_hands ds hs Ha HF). reflexivity.
Qed.

Lemma ext_lasts (w w' : World) : WorldOk w -> WorldOk w' -> ext w w' -> Lasts w w'.
Proof.
  intros Hw Hw' (H1 & H2). split.
  - intros a. destruct (node_at w a) as [nd|] eqn:Ha.
    + destruct (H2 _ _ Ha) as (nd' & -> & Hl & _). cbn [option_map]. rewrite Hl. auto.
    + destruct (node_at w' a) as [nd'|] eqn:Ha'; auto. exfalso. apply assoc_none in Ha. apply Ha. rewrite <- H1.
      apply in_map_iff. exists (a, nd'). split; auto. apply assoc_in; auto.
  - intros a ns Hm. unfold manager in *. destruct (node_at w a) as [nd|] eqn:Ha; [|contradiction].
    destruct (H2 _ _ Ha) as (nd' & Ha' & _ & _ & Hl). rewrite Ha'. destruct (assoc ns (nd_tbl nd)) as [p|] eqn:Hp; [|contradiction].
    destruct (assoc ns (nd_tbl nd')) as [q|] eqn:Hq; [|exfalso; apply (Hl I ns); congruence].
    destruct Hw' as (_ & Hw'). destruct (Hw' _ _ (assoc_in _ _ _ Ha')) as (_ & K). destruct (K _ _ (assoc_in _ _ _ Hq)) as (m & ->).
    discriminate.
Qed.

Lemma k_lasts (w : World) js sched t th w' t' : WorldOk w -> slots_are SP w -> Forall (kjob w) js ->
  jrun sched (map (run_job E) js) w t = Ok ((th, w'), t') -> Lasts w w'.
Proof.
  intros H1 H2 H3 Hr.
  pose proof (k_run (fun _ _ => False) (fun _ _ => True) False False True (fun x => match x with end) js sched w t) as H.
  assert (HI : winv SP (fun _ _ => False) (fun _ _ => True) False w) by (apply WorldOk_winv; tauto).
  specialize (H HI). assert (HR : Forall (fun j => kjob w j /\ (False -> job_addrs E w j) /\
    (may_steal j -> True) /\ forall b n, touches D j b n -> True) js).
  { apply Forall_forall. intros j Hin. pose proof (proj1 (Forall_forall _ _) H3 j Hin) as K1. splits; auto; tauto. }
  specialize (H HR). rewrite Hr in H. destruct H as (hs & HI' & HX & _).
  apply ext_lasts; auto. apply (winv_WorldOk _ _ _ _ _ HI').
Qed.

(* One job, alone. *)
Lemma k_alone (w : World) j t : WorldOk w -> slots_are SP w -> kjob w j ->
  match exec (run_job E j) w t with
  | Ok ((d, w'), t') => t <= t' /\ WorldOk w' /\ slots_are SP w' /\ Lasts w w' /\
      (forall a ns, ~ touches D j a ns -> manager w' a ns = manager w a ns) /\
      (answers_arrive E -> exists dropped, w_dropped w' = w_dropped w ++ dropped /\
         keeps E t t' (all_data w ++ job_in j) (all_data w' ++ job_out d ++ dropped) /\
         (none_refused E D w [j] -> Forall (fun e => seen_expired E t t' (snd e)) dropped))
  | Panic => False
  | OutOfFuel => may_steal j
  end.
Proof.
  intros H1 H2 H3.
  set (Mine := touches D j).
  assert (HI : winv SP (fun _ _ => False) Mine False w) by (apply WorldOk_winv; tauto).
  assert (HD : none_refused E D w [j] -> (forall ns n n', D ns n -> D ns n' -> n = n') /\ (forall ns n, D ns n -> finds_some E n))
    by (intros (L1 & L2 & _); auto).
  assert (HJ : none_refused E D w [j] -> job_addrs E w j) by (intros (_ & _ & K); inversion K; auto).
  destruct (HK _ HD) as (K & E1 & E2). rewrite <- E1 in *. destruct H3 as (H3 & H3').
  assert (H3k : forall ns, steals_in D j ns -> kind_steal K ns) by (rewrite E2; exact H3').
  pose proof (raw_job E HE HO D (fun _ _ => False) Mine (none_refused E D w [j]) False (may_steal j) True K (fun _ => I) j w H3 H3k HJ (fun x => x) (fun b n x => x)) as H.
  apply (owns_exec (winv K (fun _ _ => False) Mine False) ext (G E (fun _ _ => False) Mine (none_refused E D w [j])) ext_refl ext_trans
    (G_refl E _ Mine _) (G_trans E _ Mine _) (G_frame E _ Mine _) (J E) (J_done E _ Mine _) (may_steal j) _ _ _ w t) in H; auto;
    [|intros r h w1 w2 _ Hx; exact Hx].
  destruct (exec (run_job E j) w t) as [[[d w'] t']| |]; auto.
  destruct H as (h & K1 & K2 & (K3 & K4 & _ & x & K5 & K6 & K7) & K8).
  destruct (winv_WorldOk _ _ _ _ _ K1) as (W1 & W2). splits; auto; [apply ext_lasts; auto|].
  intros Ha. exists x. splits; auto. eapply keeps_proper; [reflexivity| |apply (K7 Ha)]. rewrite K8. reflexivity.
Qed.
End Kind.

(* The two kinds. *)
Lemma strict_kind (D : str -> nat -> Prop) (NoDrop : Prop) :
  (NoDrop -> (forall ns n n', D ns n -> D ns n' -> n = n') /\ (forall ns n, D ns n -> finds_some E n)) ->
  exists K : SlotKind E D NoDrop, kind_ok K = SlotOk D /\ kind_steal K = fun ns => forall n n', D ns n -> D ns n' -> n = n'.
Proof. intros HD. exists (strict E HE D NoDrop HD). split; reflexivity. Qed.
Lemma loose_kind (D : str -> nat -> Prop) (NoDrop : Prop) :
  (NoDrop -> (forall ns n n', D ns n -> D ns n' -> n = n') /\ (forall ns n, D ns n -> finds_some E n)) ->
  exists K : SlotKind E D NoDrop, kind_ok K = CensOk D /\ kind_steal K = fun _ => True.
Proof. intros HD. exists (loose E HE D NoDrop HD). split; reflexivity. Qed.

Lemma job_ok_strict D w (j : job N) : job_ok D w j -> kjob D (fun ns => forall n n', D ns n -> D ns n' -> n = n') w j.
Proof.
  intros H. destruct j as [a q|addrs body|addrs body|c stop n]; cbn [job_ok] in H; split; cbn [job_fits steals_in]; auto.
  - destruct H as (H1 & H2 & H3). splits; auto. destruct q; exact I || exact H3.
  - destruct H as (H1 & H2 & H3). intros ns. destruct q; try contradiction. intros ->. exact H3.
  - intros ns [].
  - intros ns [].
  - apply H.
  - intros ns _. apply H.
Qed.
Lemma job_fits_loose D w (j : job N) : job_fits D w j -> kjob D (fun _ => True) w j.
Proof. split; auto. Qed.
Lemma Jobs_strict D w js : Jobs D w js -> Forall (kjob D (fun ns => forall n n', D ns n -> D ns n' -> n = n') w) js.
Proof. apply Forall_impl. intros j. apply job_ok_strict. Qed.
Lemma Jobs_loose D w js : AnyJobs D w js -> Forall (kjob D (fun _ => True) w) js.
Proof. apply Forall_impl. intros j. apply job_fits_loose. Qed.

Lemma jobs_safe D (w : World) js sched t : WorldOk w -> DimsOk D w -> Jobs D w js ->
  match jrun sched (map (run_job E) js) w t with
  | Ok ((_, w'), _) => WorldOk w' /\ DimsOk D w'
  | Panic => False
  | OutOfFuel => Exists may_steal js
  end.
Proof. intros. eapply (k_safe D (SlotOk D) _ (strict_kind D)); eauto using Jobs_strict, job_ok_strict. Qed.
Lemma any_jobs_safe D (w : World) js sched t : WorldOk w -> OwnDims D w -> AnyJobs D w js ->
  match jrun sched (map (run_job E) js) w t with
  | Ok ((_, w'), _) => WorldOk w' /\ OwnDims D w'
  | Panic => False
  | OutOfFuel => Exists may_steal js
  end.
Proof. intros. eapply (k_safe D (CensOk D) _ (loose_kind D)); eauto using Jobs_loose, job_fits_loose. Qed.

Lemma jobs_finish D (w : World) js sched t : WorldOk w -> DimsOk D w -> Jobs D w js -> Forall (fun j => ~ may_steal j) js ->
  match jrun sched (map (run_job E) js) w t with
  | Ok ((th, w'), t') => exists sched2 ds w2 t2, jrun sched2 th w' t' = Ok ((ended ds, w2), t2)
  | _ => False
  end.
Proof. intros. eapply (k_finish D (SlotOk D) _ (strict_kind D)); eauto using Jobs_strict, job_ok_strict. Qed.
Lemma any_jobs_finish D (w : World) js sched t : WorldOk w -> OwnDims D w -> AnyJobs D w js -> Forall (fun j => ~ may_steal j) js ->
  match jrun sched (map (run_job E) js) w t with
  | Ok ((th, w'), t') => exists sched2 ds w2 t2, jrun sched2 th w' t' = Ok ((ended ds, w2), t2)
  | _ => False
  end.
Proof. intros. eapply (k_finish D (CensOk D) _ (loose_kind D)); eauto using Jobs_loose, job_fits_loose. Qed.

Lemma jobs_isolated D (w : World) js sched t th w' t' a ns : WorldOk w -> DimsOk D w -> Jobs D w js ->
  Forall (fun j => ~ touches D j a ns) js ->
  jrun sched (map (run_job E) js) w t = Ok ((th, w'), t') ->
  manager w' a ns = manager w a ns.
Proof. intros. eapply (k_isolated D (SlotOk D) _ (strict_kind D) w js sched t); eauto using Jobs_strict, job_ok_strict. Qed.
Lemma any_jobs_isolated D (w : World) js sched t th w' t' a ns : WorldOk w -> OwnDims D w -> AnyJobs D w js ->
  Forall (fun j => ~ touches D j a ns) js ->
  jrun sched (map (run_job E) js) w t = Ok ((th, w'), t') ->
  manager w' a ns = manager w a ns.
Proof. intros. eapply (k_isolated D (CensOk D) _ (loose_kind D) w js sched t); eauto using Jobs_loose, job_fits_loose. Qed.

Lemma jobs_conserve D (w : World) js sched t ds w' t' : WorldOk w -> DimsOk D w -> Jobs D w js ->
  answers_arrive E ->
  jrun sched (map (run_job E) js) w t = Ok ((ended ds, w'), t') ->
  exists dropped, w_dropped w' = w_dropped w ++ dropped /\
    keeps E t t' (all_data w ++ jobs_in js) (all_data w' ++ jobs_out ds ++ dropped) /\
    (none_refused E D w js -> Forall (fun e => seen_expired E t t' (snd e)) dropped).
Proof. intros. eapply (k_conserve D (SlotOk D) _ (strict_kind D) w js sched t); eauto using Jobs_strict, job_ok_strict. Qed.
Lemma any_jobs_conserve D (w : World) js sched t ds w' t' : WorldOk w -> OwnDims D w -> AnyJobs D w js ->
  answers_arrive E ->
  jrun sched (map (run_job E) js) w t = Ok ((ended ds, w'), t') ->
  exists dropped, w_dropped w' = w_dropped w ++ dropped /\
    keeps E t t' (all_data w ++ jobs_in js) (all_data w' ++ jobs_out ds ++ dropped) /\
    (none_refused E D w js -> Forall (fun e => seen_expired E t t' (snd e)) dropped).
Proof. intros. eapply (k_conserve D (CensOk D) _ (loose_kind D) w js sched t); eauto using Jobs_loose, job_fits_loose. Qed.

Lemma jobs_visible D (w : World) js sched t ds w' t' : WorldOk w -> NoOrphans w -> DimsOk D w -> Jobs D w js ->
  Forall (fun j => forall b n, touches D j b n -> node_at w b <> None -> manager w b n <> None) js ->
  answers_arrive E ->
  jrun sched (map (run_job E) js) w t = Ok ((ended ds, w'), t') ->
  exists dropped, w_dropped w' = w_dropped w ++ dropped /\
    keeps E t t' (visible w ++ jobs_in js) (visible w' ++ jobs_out ds ++ dropped) /\
    (none_refused E D w js -> Forall (fun e => seen_expired E t t' (snd e)) dropped).
Proof. intros. eapply (k_visible D (SlotOk D) _ (strict_kind D) w js sched t); eauto using Jobs_strict, job_ok_strict. Qed.
Lemma any_jobs_visible D (w : World) js sched t ds w' t' : WorldOk w -> NoOrphans w -> OwnDims D w -> AnyJobs D w js ->
  Forall (fun j => forall b n, touches D j b n -> node_at w b <> None -> manager w b n <> None) js ->
  answers_arrive E ->
  jrun sched (map (run_job E) js) w t = Ok ((ended ds, w'), t') ->
  exists dropped, w_dropped w' = w_dropped w ++ dropped /\
    keeps E t t' (visible w ++ jobs_in js) (visible w' ++ jobs_out ds ++ dropped) /\
    (none_refused E D w js -> Forall (fun e => seen_expired E t t' (snd e)) dropped).
Proof. intros. eapply (k_visible D (CensOk D) _ (loose_kind D) w js sched t); eauto using Jobs_loose, job_fits_loose. Qed.

Lemma any_jobs_last D (w : World) js sched t th w' t' : WorldOk w -> OwnDims D w -> AnyJobs D w js ->
  jrun sched (map (run_job E) js) w t = Ok ((th, w'), t') -> Lasts w w'.
Proof. intros. eapply (k_lasts D (CensOk D) _ (loose_kind D) w js sched t); eauto using Jobs_loose, job_fits_loose. Qed.

Lemma job_alone D (w : World) j t : WorldOk w -> DimsOk D w -> job_ok D w j ->
  match exec (run_job E j) w t with
  | Ok ((d, w'), t') => t <= t' /\ WorldOk w' /\ DimsOk D w' /\ Lasts w w' /\
      (forall a ns, ~ touches D j a ns -> manager w' a ns = manager w a ns) /\
      (answers_arrive E -> exists dropped, w_dropped w' = w_dropped w ++ dropped /\
         keeps E t t' (all_data w ++ job_in j) (all_data w' ++ job_out d ++ dropped) /\
         (none_refused E D w [j] -> Forall (fun e => seen_expired E t t' (snd e)) dropped))
  | Panic => False
  | OutOfFuel => may_steal j
  end.
Proof. intros. eapply (k_alone D (SlotOk D) _ (strict_kind D)); eauto using Jobs_strict, job_ok_strict. Qed.
Lemma any_job_alone D (w : World) j t : WorldOk w -> OwnDims D w -> job_fits D w j ->
  match exec (run_job E j) w t with
  | Ok ((d, w'), t') => t <= t' /\ WorldOk w' /\ OwnDims D w' /\ Lasts w w' /\
      (forall a ns, ~ touches D j a ns -> manager w' a ns = manager w a ns) /\
      (answers_arrive E -> exists dropped, w_dropped w' = w_dropped w ++ dropped /\
         keeps E t t' (all_data w ++ job_in j) (all_data w' ++ job_out d ++ dropped) /\
         (none_refused E D w [j] -> Forall (fun e => seen_expired E t t' (snd e)) dropped))
  | Panic => False
  | OutOfFuel => may_steal j
  end.
Proof. intros. eapply (k_alone D (CensOk D) _ (loose_kind D)); eauto using Jobs_loose, job_fits_loose. Qed.

End System.
