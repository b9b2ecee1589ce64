(* Load balancing settles: every run that moves something lowers the imbalance. *)
From Verif Require Import Base Num MathUtils Knn Env Centroid CManager DataSpec MgrSpec Wp DataFacts NumFacts
  Proc Owns Server ServerSpec ServerFacts SeqProofs SeqProofs2 SeqProofs3 StealProofs Alone Uniform SystemProofs EventLoop CoreSpec LoopSpec LoopProofs2 TaskSpec TaskProofs
  Props03Lemmas UpkeepProofs SettleSpec SettleSteal SettleProofs GainSteal GainProofs SettleMore RestSpec SettleKeep BalanceEnds LoopEnds.
From Coq Require Import Permutation.

(* ---- sums ---- *)
Definition zsum {A} (f : A -> Z) (l : list A) : Z := fold_right Z.add 0%Z (map f l).
Lemma zsum_cons {A} (f : A -> Z) x l : zsum f (x :: l) = (f x + zsum f l)%Z.
Proof. reflexivity. Qed.
Lemma zsum_perm {A} (f : A -> Z) l l' : Permutation l l' -> zsum f l = zsum f l'.
Proof. intros H. apply (Permutation_map f) in H. unfold zsum. induction H; cbn [fold_right]; lia. Qed.
Lemma zsum_ext {A} (f g : A -> Z) l : (forall x, In x l -> f x = g x) -> zsum f l = zsum g l.
Proof. intros H. unfold zsum. f_equal. apply map_ext_in. exact H. Qed.
Lemma zsum_nonneg {A} (f : A -> Z) l : (forall x, In x l -> (0 <= f x)%Z) -> (0 <= zsum f l)%Z.
Proof. induction l as [|x l IH]; intros H; [unfold zsum; cbn; lia|]. rewrite zsum_cons. specialize (IH (fun y Hy => H y (or_intror Hy))). specialize (H x (or_introl eq_refl)). lia. Qed.
Lemma apart {A} (x : A) l : In x l -> exists r, Permutation l (x :: r).
Proof. intros H. apply in_split in H. destruct H as (l1 & l2 & ->). exists (l1 ++ l2). apply Permutation_sym, Permutation_middle. Qed.
Lemma zsum_zero {A} (f : A -> Z) l : (forall x, In x l -> (0 <= f x)%Z) -> zsum f l = 0%Z -> forall x, In x l -> f x = 0%Z.
Proof.
  intros H Hz x Hx. destruct (apart x l Hx) as (r & Hr). rewrite (zsum_perm f l _ Hr), zsum_cons in Hz.
  assert (H1 : (0 <= zsum f r)%Z). { apply zsum_nonneg. intros y Hy. apply H. apply (Permutation_in _ (Permutation_sym Hr)). right. exact Hy. }
  specialize (H x Hx). lia.
Qed.

Lemma last_cons {A} : forall (l : list A) x d, last (x :: l) d = last l x.
Proof. induction l as [|y l IH]; intros x d; [reflexivity|]. change (last (x :: y :: l) d) with (last (y :: l) d). rewrite !IH. reflexivity. Qed.

Lemma last_in {A} (l : list A) : forall x d, In (last (x :: l) d) (x :: l).
Proof. induction l as [|y l IH]; intros x d; [left; reflexivity|]. right. apply (IH y d). Qed.

(* The step of the imbalance. *)
Lemma step_sums (R : list str) (s s' : str -> Z) a m mg : NoDup R -> In a R -> (0 <= mg)%Z -> zsum s' R = zsum s R ->
  (s' a = s a \/ (s a < s' a)%Z /\ (3 * (s' a - m) < mg)%Z /\ (s a <= m - mg)%Z) ->
  (forall b, b <> a -> s' b = s b \/ (m < s' b < s b)%Z) ->
  (3 * zsum (fun b => Z.max 0 (s' b - s b)) R <= 2 * (zsum (fun b => Z.abs (s b - m)) R - zsum (fun b => Z.abs (s' b - m)) R))%Z /\
  ((forall b, In b R -> s' b = s b) \/ (0 < zsum (fun b => Z.max 0 (s' b - s b)) R)%Z).
Proof.
  intros Hnd Ha Hmg Hsum Hl Hb. destruct (apart a R Ha) as (r & Hr).
  assert (Hnr : ~ In a r). { apply (Permutation_NoDup Hr) in Hnd. apply NoDup_cons_iff in Hnd. apply Hnd. }
  assert (Hbr : forall b, In b r -> b <> a) by (intros b Hi ->; exact (Hnr Hi)).
  rewrite !(zsum_perm _ R _ Hr) in *. rewrite !zsum_cons in *.
  assert (Hmax : zsum (fun b => Z.max 0 (s' b - s b)) r = 0%Z).
  { clear -Hb Hbr. induction r as [|b r IH]; [reflexivity|]. rewrite zsum_cons, IH by (intros; apply Hbr; right; auto).
    destruct (Hb b (Hbr b (or_introl eq_refl))); lia. }
  assert (Habs : (zsum (fun b => Z.abs (s' b - m)) r - zsum (fun b => Z.abs (s b - m)) r = zsum s' r - zsum s r)%Z).
  { clear -Hb Hbr. induction r as [|b r IH]; [reflexivity|]. rewrite !zsum_cons. specialize (IH (fun y Hy => Hbr y (or_intror Hy))).
    destruct (Hb b (Hbr b (or_introl eq_refl))) as [H|H]; [rewrite H|]; lia. }
  split; [rewrite Hmax; lia|]. destruct Hl as [Hl|Hl]; [left|right; rewrite Hmax; lia].
  intros b Hi. apply (Permutation_in _ Hr) in Hi. destruct Hi as [<-|Hi]; [exact Hl|].
  assert (Hz : zsum (fun b => (s b - s' b)%Z) r = (zsum s r - zsum s' r)%Z).
  { clear. induction r as [|b r IH]; [reflexivity|]. rewrite !zsum_cons, IH. lia. }
  assert (Hb0 : (s b - s' b)%Z = 0%Z); [|lia]. apply (zsum_zero (fun b => (s b - s' b)%Z) r); [|rewrite Hz; lia|exact Hi].
  intros x Hx. destruct (Hb x (Hbr x Hx)); lia.
Qed.

Section Rest.
Context {N : Num} (E : Env N) (HE : EnvOk E) (HO : NumOrd N) (Had : all_delivered E) (dim : str -> nat).
Notation World := (World N).
Notation calm := (calm E dim).

(* ---- the groups of several nodes ---- *)
Lemma all_groups_perm (w : World) R R' ns : Permutation R R' -> Permutation (all_groups w R ns) (all_groups w R' ns).
Proof. intros H. unfold all_groups. apply perm_concat, Permutation_map, H. Qed.
Lemma all_groups_same (w w' : World) R ns : (forall b, In b R -> manager w' b ns = manager w b ns) -> all_groups w' R ns = all_groups w R ns.
Proof. intros H. unfold all_groups. f_equal. apply map_ext_in. intros b Hb. unfold groups, centroids_at. rewrite (H b Hb). reflexivity. Qed.
Lemma groups_sub (w : World) R ns b : In b R -> incl (groups w b ns) (all_groups w R ns).
Proof. intros Hb g Hg. unfold all_groups. apply in_concat. exists (groups w b ns). split; auto. apply (in_map (fun b => groups w b ns)). exact Hb. Qed.
Lemma groups_few (w : World) R ns b : In b R -> length (centroids_at w b ns) <= length (all_groups w R ns).
Proof.
  intros Hb. destruct (apart b R Hb) as (r & Hr). rewrite (Permutation_length (all_groups_perm w _ _ ns Hr)). unfold all_groups. cbn [map concat].
  rewrite app_length. unfold groups. rewrite map_length. lia.
Qed.
Lemma sizes_sum (w : World) R ns : zsum (fun b => size_at w b ns) R = Z.of_nat (length (concat (all_groups w R ns))).
Proof.
  induction R as [|b R IH]; [reflexivity|]. rewrite zsum_cons, IH. unfold all_groups. cbn [map concat]. rewrite concat_app, app_length.
  unfold size_at, data_at, stored, groups. lia.
Qed.

(* What a run leaves of one namespace. *)
Definition kept (R : list str) (w w' : World) (ns : str) : Prop :=
  (forall b, manager w b ns <> None -> manager w' b ns <> None) /\
  exists gone, Forall (eq []) gone /\ Permutation (all_groups w R ns) (all_groups w' R ns ++ gone).
Lemma kept_same R (w w' : World) ns : (forall b, manager w' b ns = manager w b ns) -> kept R w w' ns.
Proof. intros H. split; [intros b; rewrite H; auto|]. exists []. split; auto. rewrite app_nil_r, (all_groups_same w w') by auto. auto. Qed.
Lemma kept_trans R (w1 w2 w3 : World) ns : kept R w1 w2 ns -> kept R w2 w3 ns -> kept R w1 w3 ns.
Proof.
  intros (H1 & g & H2 & H3) (K1 & h & K2 & K3). split; [auto|]. exists (h ++ g). split; [apply Forall_app; auto|].
  rewrite H3, K3, <- app_assoc. auto.
Qed.
Lemma kept_few R (w w' : World) ns : kept R w w' ns -> length (all_groups w' R ns) <= length (all_groups w R ns).
Proof. intros (_ & g & _ & H). apply Permutation_length in H. rewrite app_length in H. lia. Qed.
Lemma kept_incl R (w w' : World) ns : kept R w w' ns -> incl (all_groups w' R ns) (all_groups w R ns).
Proof. intros (_ & g & _ & H) x Hx. apply (Permutation_in _ (Permutation_sym H)). apply in_or_app. left. exact Hx. Qed.
Lemma kept_sum R (w w' : World) ns : kept R w w' ns -> zsum (fun b => size_at w' b ns) R = zsum (fun b => size_at w b ns) R.
Proof.
  intros (_ & g & Hg & H). rewrite !sizes_sum. apply perm_concat in H. apply Permutation_length in H. rewrite concat_app, app_length in H.
  assert (Hz : concat g = []) by (clear -Hg; induction Hg as [|x l <- _ IH]; cbn [concat]; auto). rewrite Hz in H. cbn [length] in H. lia.
Qed.

(* ---- the steals for one namespace ---- *)
Lemma steals_kept (c : el_cfg) R ns : NoDup R -> In (el_local c) R ->
  forall (l : list asked) (w : World) t ys w' t',
  Forall (fun e => asked_of e <> el_local c /\ In (asked_of e) R /\ (0 < snd (fst e))%Z) l ->
  calm w -> length (all_groups w R ns) < el_fuel c ->
  Made E (map (fun e => (el_local c, QSteal (el_fuel c) (asked_of e) ns (snd (fst e)))) l) w t ys w' t' -> kept R w w' ns.
Proof.
  intros Hnd Hloc. induction l as [|e l IH]; intros w t ys w' t' Hl Hc Hf HM; cbn [map] in HM.
  - apply made_nil in HM. destruct HM as (_ & -> & _). apply kept_same; auto.
  - apply Forall_cons_iff in Hl. destruct Hl as ((Hne & HR & Hpos) & Hl).
    apply made_inv in HM. destruct HM as (o & ys' & w1 & t1 & -> & HM1 & HM2).
    assert (Hstep : calm w1 /\ kept R w w1 ns).
    { inversion HM1 as [|? ? ? ? ? ? ? ? Hlost HM'|? ? ? ? ? ? ? ? ? ? ? Hna' Hft Hx HM'|? ? ? ? ? ? ? ? ? ? ? Hna' Hft Hx HM']; subst.
      - apply made_nil in HM'. destruct HM' as (_ & -> & _). split; auto. apply kept_same; auto.
      - rewrite (Had t) in Hft. discriminate Hft.
      - apply made_nil in HM'. destruct HM' as (_ & -> & ->).
        assert (Hfu : length (centroids_at w (asked_of e) ns) < el_fuel c) by (pose proof (groups_few w R ns _ HR); lia).
        destruct (steal_step E HE HO Had dim _ _ _ _ _ _ _ _ _ _ Hc (not_eq_sym Hne) Hna' Hpos Hfu Hx) as (total & ok & _ & J1 & J2 & _).
        split; [exact J1|]. destruct Hc as (Hw & HD & Hn).
        assert (Hdim : forall b m, b = el_local c \/ b = asked_of e -> manager w b ns = Some m -> DimOk (dim ns) m).
        { intros b m _ Hm. destruct (inv_slot _ w b ns m (conj Hw HD) Hm) as (n & -> & Hd). exact Hd. }
        pose proof (steal_groups E HE (dim ns) (el_fuel c) (el_local c) (asked_of e) ns (snd (fst e)) w (S t) Hw (not_eq_sym Hne) Hna' Hdim
          (Hn _ _) (Hn _ _) Had) as Hg. unfold wf in Hg. rewrite Hx in Hg. cbn [snd] in Hg. destruct Hg as (G1 & G2 & gone & G3 & G4).
        split.
        + intros b Hb. destruct (str_dec b (el_local c)) as [->|B1]; [auto|]. destruct (str_dec b (asked_of e)) as [->|B2]; [auto|].
          rewrite J2; congruence.
        + exists gone. split; auto. destruct (apart _ _ Hloc) as (r1 & Hr1).
          assert (Hir : In (asked_of e) r1). { apply (Permutation_in _ Hr1) in HR. destruct HR as [HR|HR]; congruence. }
          destruct (apart _ _ Hir) as (r2 & Hr2). rewrite Hr2 in Hr1. pose proof (Permutation_NoDup Hr1 Hnd) as Hnd'.
          apply NoDup_cons_iff in Hnd'. destruct Hnd' as (N1 & Hnd'). apply NoDup_cons_iff in Hnd'. destruct Hnd' as (N2 & _).
          rewrite (all_groups_perm w _ _ ns Hr1), (all_groups_perm w2 _ _ ns Hr1).
          assert (Hs : all_groups w2 r2 ns = all_groups w r2 ns).
          { apply all_groups_same. intros b Hb. apply J2; intros He; injection He as ->; [apply N1; right; exact Hb|exact (N2 Hb)]. }
          change (all_groups w (el_local c :: asked_of e :: r2) ns) with (groups w (el_local c) ns ++ groups w (asked_of e) ns ++ all_groups w r2 ns).
          change (all_groups w2 (el_local c :: asked_of e :: r2) ns) with (groups w2 (el_local c) ns ++ groups w2 (asked_of e) ns ++ all_groups w2 r2 ns).
          rewrite Hs, (app_assoc (groups w _ ns)), G4, <- !app_assoc.
          do 2 apply Permutation_app_head. apply Permutation_app_comm. }
    destruct Hstep as (J1 & J2). pose proof (kept_few _ _ _ _ J2). apply (kept_trans _ _ _ _ _ J2). apply (IH w1 t1 ys' w' t'); auto. lia.
Qed.

Lemma pulled_ok c only mean margin : (0 <= margin)%Z -> forall todo here l, Pulled c only mean margin todo here l ->
  Forall (fun e => asked_of e <> el_local c /\ In (asked_of e) (map fst todo) /\ (0 < snd (fst e))%Z) l.
Proof.
  intros Hmar todo here l HP. induction HP as [here|other size r here l Hpass HP IH|other size r here n l Hpass HP IH].
  - constructor.
  - eapply Forall_impl; [|exact IH]. intros e (H1 & H2 & H3). splits; auto. right. exact H2.
  - constructor.
    + unfold asked_of. cbn [fst snd map]. splits; [intros He; apply Hpass; left; exact He|left; reflexivity|].
      apply (want_pos c mean here margin Hmar).
      * apply Z.nlt_ge. intros He. apply Hpass. right. left. exact He.
      * intros He. apply Hpass. right. right. left. exact He.
    + eapply Forall_impl; [|exact IH]. intros e (H1 & H2 & H3). splits; auto. right. exact H2.
Qed.

Lemma balance_kept c (w : World) t w' t' : NoDup (el_remote c) -> In (el_local c) (el_remote c) -> calm w ->
  (forall b ns, length (centroids_at w b ns) < el_fuel c) -> (forall ns, length (all_groups w (el_remote c) ns) < el_fuel c) ->
  exec (task_body E c TBalance) w t = Ok ((tt, w'), t') -> forall ns, kept (el_remote c) w w' ns.
Proof.
  intros Hnd Hloc Hc Hf1 Hf2 Hx ns.
  destruct (balance_one E HE HO Had dim c w ns (fun w2 => kept (el_remote c) w w2 ns) t w' t') as (K1 & K2); auto.
  - intros w1 w2 H1 H2. apply (kept_trans _ _ _ _ _ H2). apply kept_same. exact H1.
  - intros w1 t0 order todo l ys w2 t2 Hc1 _ Hm1 Hord Htodo _ mean HP HM _.
    apply (kept_trans _ _ w1); [apply kept_same; exact Hm1|]. apply (steals_kept c (el_remote c) ns Hnd Hloc l w1 t0 ys w2 t2); auto.
    + eapply Forall_impl; [|apply (pulled_ok c _ _ _ (margin_nonneg _ (mean_nonneg w (el_remote c) ns)) _ _ _ HP)].
      intros e (H1 & H2 & H3). splits; auto. apply in_map_iff in H2. destruct H2 as ([b z] & <- & H2). apply Htodo in H2. destruct H2 as (H2 & _).
      apply (Permutation_in _ Hord) in H2. apply having_in in H2. apply H2.
    + rewrite (all_groups_same w w1) by auto. apply Hf2.
  - destruct (having w (el_remote c) ns) eqn:Hh; [apply kept_same, K2; reflexivity|apply K1; discriminate].
Qed.
Lemma balance_calm c (w : World) t w' t' : NoDup (el_remote c) -> In (el_local c) (el_remote c) -> calm w ->
  (forall b ns, length (centroids_at w b ns) < el_fuel c) -> exec (task_body E c TBalance) w t = Ok ((tt, w'), t') -> calm w'.
Proof.
  intros Hnd Hloc Hc Hf Hx. destruct (balance_made E HE c w t w' t' (proj1 Hc) Hnd Hx) as (os & t1 & nss & H1 & H2 & H3 & H4).
  pose proof (names_made E HE Had w (proj1 Hc) _ _ _ _ _ H1) as Hwho.
  apply (balanced_settles E HE HO Had dim c _ w Hnd Hloc Hwho Hf nss w _ _ _ H4 H2 Hc). auto.
Qed.

(* ---- what stays true from run to run ---- *)
Section Runs.
Context (R : list str) (ns : str) (fuel : nat) (Hnd : NoDup R) (H2 : 2 <= length R).
Definition loop_of (c : el_cfg) : Prop := el_remote c = R /\ In (el_local c) R /\ el_fuel c = fuel.
Definition fine (w : World) : Prop := calm w /\ (forall b ns, length (centroids_at w b ns) < fuel) /\
  (forall ns, length (all_groups w R ns) < fuel) /\ (forall b, In b R -> manager w b ns <> None) /\
  centroids_up_to w R ns (margin_of (mean_size w R ns)).

Lemma having_all (w : World) : (forall b, In b R -> manager w b ns <> None) -> having w R ns = R.
Proof.
  intros H. unfold having. clear Hnd H2. induction R as [|b r IH]; [reflexivity|]. cbn [filter].
  destruct (manager w b ns) eqn:Hm; [|exfalso; apply (H b); [left; auto|exact Hm]]. f_equal. apply IH. intros x Hx. apply H. right. exact Hx.
Qed.
Lemma mean_kept (w w' : World) : (forall b, In b R -> manager w b ns <> None) -> kept R w w' ns -> mean_size w' R ns = mean_size w R ns.
Proof.
  intros Ha Hk. unfold mean_size. rewrite (having_all w Ha), (having_all w').
  - f_equal. apply (kept_sum _ _ _ _ Hk).
  - intros b Hb. apply Hk. apply Ha. exact Hb.
Qed.
Lemma up_to_groups (w : World) s : centroids_up_to w R ns s <-> Forall (fun g => (Z.of_nat (length g) <= s)%Z) (all_groups w R ns).
Proof.
  unfold centroids_up_to. rewrite Forall_forall. split.
  - intros H g Hg. unfold all_groups in Hg. apply in_concat in Hg. destruct Hg as (l & Hl & Hg). apply in_map_iff in Hl. destruct Hl as (b & <- & Hb).
    unfold groups in Hg. apply in_map_iff in Hg. destruct Hg as (cen & <- & Hc). apply (H b cen Hb Hc).
  - intros H b cen Hb Hc. apply H. apply (groups_sub w R ns b Hb). unfold groups. apply in_map. exact Hc.
Qed.

Lemma run_fine c (w : World) t w' t' : loop_of c -> fine w -> exec (task_body E c TBalance) w t = Ok ((tt, w'), t') ->
  fine w' /\ (forall ns, kept R w w' ns).
Proof.
  clear H2. intros (HR & Hloc & Hfu) (F1 & F2 & F3 & F4 & F5) Hx.
  assert (Hnd' : NoDup (el_remote c)) by (rewrite HR; exact Hnd). assert (Hloc' : In (el_local c) (el_remote c)) by (rewrite HR; exact Hloc).
  assert (F2' : forall b ns, length (centroids_at w b ns) < el_fuel c) by (rewrite Hfu; exact F2).
  assert (F3' : forall ns, length (all_groups w (el_remote c) ns) < el_fuel c) by (rewrite HR, Hfu; exact F3).
  pose proof (balance_kept c w t w' t' Hnd' Hloc' F1 F2' F3' Hx) as Hk. rewrite HR in Hk. split; auto.
  pose proof (balance_settles E HE HO Had dim c w t w' t' Hnd' Hloc' F1 F2' Hx) as Hs.
  assert (F3n : forall ns, length (all_groups w' R ns) < fuel) by (intros n; specialize (F3 n); pose proof (kept_few _ _ _ _ (Hk n)); lia).
  unfold fine. splits.
  - apply (balance_calm c w t w' t'); auto.
  - intros b n. destruct (in_dec str_dec b R) as [Hb|Hb].
    + pose proof (groups_few w' _ n b Hb). specialize (F3n n). lia.
    + destruct (Hs n) as (S1 & _). rewrite HR in S1. unfold centroids_at. rewrite (S1 b Hb). apply F2.
  - exact F3n.
  - intros b Hb. apply (Hk ns). apply F4. exact Hb.
  - rewrite (mean_kept w w' F4 (Hk ns)). apply up_to_groups. apply up_to_groups in F5. rewrite Forall_forall in *.
    intros g Hg. apply F5. apply (kept_incl _ _ _ _ (Hk ns)). exact Hg.
Qed.

(* One run lowers the imbalance. *)
Lemma run_lowers c (w : World) t w' t' : loop_of c -> fine w -> exec (task_body E c TBalance) w t = Ok ((tt, w'), t') ->
  (3 * moved w w' R ns <= 2 * (imbalance w R ns - imbalance w' R ns))%Z /\
  ((forall b, In b R -> size_at w' b ns = size_at w b ns) \/ (0 < moved w w' R ns)%Z).
Proof.
  intros Hl Hf Hx. destruct (run_fine c w t w' t' Hl Hf Hx) as (_ & Hk). destruct Hl as (HR & Hloc & Hfu). destruct Hf as (F1 & F2 & F3 & F4 & F5).
  assert (Hm : mean_size w' R ns = mean_size w R ns) by (apply mean_kept; auto).
  unfold imbalance, moved. cbv zeta. rewrite Hm. set (mean := mean_size w R ns) in *.
  assert (Hmar : (0 <= margin_of mean)%Z) by (apply margin_nonneg, mean_nonneg).
  assert (Hh : 2 <= length (having w R ns)) by (rewrite having_all; auto).
  rewrite <- HR in Hnd, Hloc, Hh. rewrite <- Hfu in F2.
  destruct (no_overshoot E HE HO dim c w t w' t' Had Hnd Hloc (proj1 F1) (proj1 (proj2 F1)) (proj2 (proj2 F1)) F2 Hx ns) as (K1 & K2); auto.
  { rewrite HR. exact F5. } { rewrite HR. exact Hmar. }
  rewrite HR in *. fold mean in K1, K2.
  apply (step_sums R (fun b => size_at w b ns) (fun b => size_at w' b ns) (el_local c) mean (margin_of mean)); auto.
  - apply (kept_sum _ _ _ _ (Hk ns)).
  - destruct (Z_lt_le_dec (mean - margin_of mean) (size_at w (el_local c) ns)) as [Hr|Hr].
    + left. apply size_eq. rewrite <- HR in Hnd, Hloc.
      apply (rests E HE HO dim c w t w' t' Had Hnd Hloc (proj1 F1) (proj1 (proj2 F1)) (proj2 (proj2 F1)) F2 Hx ns). rewrite HR. exact Hr.
    + destruct K1 as [K|(K & L)]; [left; exact K|right]. splits; auto.
Qed.

Lemma imbalance_nonneg (w : World) : (0 <= imbalance w R ns)%Z.
Proof. clear Hnd H2. apply zsum_nonneg. intros; lia. Qed.

Lemma settle_turns : forall cs (w : World) t ws, turns E cs w t ws -> Forall loop_of cs -> fine w ->
  (3 * moved_in w ws R ns <= 2 * (imbalance w R ns - imbalance (last ws w) R ns))%Z /\
  (2 * Z.of_nat (changes w ws R ns) <= imbalance w R ns - imbalance (last ws w) R ns)%Z /\
  fine (last ws w) /\ forall ns, kept R w (last ws w) ns.
Proof.
  intros cs w t ws HT. induction HT as [w t|c cs w t w1 t1 t2 ws Hx Ht HT IH]; intros Hl Hf.
  - cbn [moved_in changes last]. splits; auto; try lia. intros. apply kept_same; auto.
  - apply Forall_cons_iff in Hl. destruct Hl as (Hc & Hl).
    destruct (run_fine c w t w1 t1 Hc Hf Hx) as (Hf1 & Hk). destruct (run_lowers c w t w1 t1 Hc Hf Hx) as (R1 & R2).
    destruct (IH Hl Hf1) as (I1 & I2 & I3 & I4). cbn [moved_in changes].
    rewrite last_cons. assert (Hmv : (0 <= moved w w1 R ns)%Z) by (apply zsum_nonneg; intros; lia). splits; auto; try lia.
    + destruct (forallb _ R) eqn:Hb; [lia|]. destruct R2 as [R2|R2]; [|lia]. exfalso.
      assert (Hb' : forallb (fun b => (size_at w1 b ns =? size_at w b ns)%Z) R = true); [|congruence].
      apply forallb_forall. intros b Hi. apply Z.eqb_eq. apply R2. exact Hi.
    + intros n. apply (kept_trans _ _ _ _ _ (Hk n)). apply I4.
Qed.

(* ---- the balanced state ---- *)
Lemma run_rest c (w : World) t w' t' : loop_of c -> fine w -> exec (task_body E c TBalance) w t = Ok ((tt, w'), t') ->
  (forall b, In b R -> ~ could_pull w R ns (el_local c) b) -> forall b, manager w' b ns = manager w b ns.
Proof.
  intros (HR & Hloc & Hfu) (F1 & F2 & F3 & F4 & F5) Hx Hno. rewrite <- HR in Hloc, Hnd. rewrite <- Hfu in F2.
  destruct (balance_one E HE HO Had dim c w ns (fun w2 => forall b, manager w2 b ns = manager w b ns) t w' t') as (K1 & K2); auto.
  - intros w1 w2 H1 K b. rewrite H1. apply K.
  - intros w1 t0 order todo l ys w2 t2 _ _ Hm1 Hord Htodo _ mean HP HM _.
    assert (Hlen : (length order =? 1) = false).
    { apply Nat.eqb_neq. rewrite (Permutation_length Hord). rewrite HR, having_all by auto. lia. }
    rewrite Hlen in HP.
    assert (Hl : l = []).
    { assert (Hp : forall b z, In (b, z) todo -> passed c false mean (margin_of mean) (size_at w (el_local c) ns) b z).
      { intros b z Hb. apply Htodo in Hb. destruct Hb as (Hb & ->). apply (Permutation_in _ Hord) in Hb. apply having_in in Hb. rewrite HR in Hb.
        specialize (Hno b (proj1 Hb)). unfold could_pull in Hno. cbv zeta in Hno. unfold passed, want_of in *. unfold mean in *. rewrite HR in *.
        pose proof (margin_nonneg _ (mean_nonneg w R ns)) as Hmar. set (m := mean_size w R ns) in *. clearbody m. set (q := ((m - size_at w (el_local c) ns) / (3 * Z.of_nat (length R)))%Z) in *.
        destruct (str_dec b (el_local c)) as [Hbl|Hbl]; [left; auto|right].
        destruct (Z_lt_le_dec (m - margin_of m) (size_at w (el_local c) ns)) as [Hr|Hr]; [left; lia|right].
        destruct (Z.eq_dec q 0) as [Hq|Hq]; [left; exact Hq|right]. split; auto. apply Z.nle_gt. intros Hge. apply Hno. splits; auto; try lia.
        assert (0 <= q)%Z; [|lia]. apply Z.div_pos; lia. }
      clear -Hp HP. induction HP as [here|other size r here l Hpass HP IH|other size r here n l Hpass HP IH]; auto.
      - apply IH. intros b z Hb. apply Hp. right. exact Hb.
      - exfalso. apply Hpass. apply Hp. left. reflexivity. }
    rewrite Hl in HM. cbn [map] in HM. apply made_nil in HM. destruct HM as (_ & -> & _). exact Hm1.
  - destruct (having w (el_remote c) ns) eqn:Hh; [apply K2; reflexivity|apply K1; discriminate].
Qed.

(* A node that could pull does, if the search finds something among non-empty centroids. *)
Lemma run_gains c (w : World) t w' t' b : loop_of c -> fine w -> exec (task_body E c TBalance) w t = Ok ((tt, w'), t') ->
  0 < dim ns -> (forall b, In b R -> could_pull w R ns (el_local c) b -> offers E w (el_local c) b ns) -> In b R -> could_pull w R ns (el_local c) b ->
  (size_at w (el_local c) ns < size_at w' (el_local c) ns)%Z.
Proof.
  intros (HR & Hloc & Hfu) (F1 & F2 & F3 & F4 & F5) Hx Hdim Hoff Hb (C1 & C2 & C3 & C4). rewrite <- Hfu in F2.
  assert (Hnd' : NoDup (el_remote c)) by (rewrite HR; exact Hnd). assert (Hloc' : In (el_local c) (el_remote c)) by (rewrite HR; exact Hloc).
  assert (Hhav : having w (el_remote c) ns = R) by (rewrite HR; apply having_all; exact F4).
  assert (Hna : node_at w (el_local c) <> None).
  { intros Hn. apply (F4 _ Hloc). unfold manager. rewrite Hn. reflexivity. }
  destruct (balance_one E HE HO Had dim c w ns (fun w2 => (size_at w (el_local c) ns < size_at w2 (el_local c) ns)%Z) t w' t') as (K & _); auto.
  - intros w1 w2 He. rewrite (size_eq w1 w2); auto.
  - intros w1 t0 order todo l ys w2 t2 Hc1 Hn1 Hm1 Hord Htodo Hndt mean0 HP HM Hl. rewrite Hhav in Hord.
    assert (Hlen : (length order =? 1) = false) by (apply Nat.eqb_neq; rewrite (Permutation_length Hord); lia). rewrite Hlen in HP.
    assert (Hss : forall b, size_at w1 b ns = size_at w b ns) by (intros b0; apply size_eq; auto).
    pose proof (mean_nonneg w R ns) as Hmn. pose proof (margin_nonneg _ Hmn) as Hmar.
    assert (Hm0 : mean0 = mean_size w R ns) by (unfold mean0; rewrite HR; reflexivity). rewrite Hm0 in HP.
    assert (Hinb : forall b, In b order <-> In b R) by (intros b0; split; apply Permutation_in; [exact Hord|apply Permutation_sym; exact Hord]).
    apply (pull_gains E HE HO Had dim c _ _ _ ns Hmar Hdim todo _ l HP w1 t0 ys w2 t2 Hndt Hc1); auto.
    + intros b0 z Hb0 _. apply Htodo in Hb0. destruct Hb0 as (_ & ->). rewrite Hss. split; auto. unfold centroids_at. rewrite Hm1. apply F2.
    + intros b0 Hb0 _. apply in_map_iff in Hb0. destruct Hb0 as ([b1 z] & <- & Hb0). apply Htodo in Hb0. rewrite Hm1. apply F4. apply Hinb, Hb0.
    + intros b0 z Hb0 Hp mr Hmr. apply Htodo in Hb0. destruct Hb0 as (Hb0 & ->). apply Hinb in Hb0. rewrite Hm1 in *.
      apply (Hoff b0 Hb0); [|exact Hmr]. unfold passed, want_of in Hp. rewrite HR in Hp. unfold could_pull. cbv zeta in *.
      set (q := ((mean_size w R ns - size_at w (el_local c) ns) / (3 * Z.of_nat (length R)))%Z) in *. splits; auto; try lia.
    + exists b, (size_at w b ns). split; [apply Htodo; split; auto; apply Hinb; exact Hb|].
      unfold passed, want_of. rewrite HR. cbv zeta in *. intros [H|[H|[H|(_ & H)]]]; [contradiction|lia|lia|lia].
  - apply K. rewrite Hhav. destruct R; [destruct Hloc|discriminate].
Qed.

Lemma offers_found (w : World) a b : fine w -> 0 < dim ns -> finds_some E (dim ns) -> Forall (fun g => g <> []) (all_groups w R ns) ->
  In a R -> In b R -> could_pull w R ns a b -> offers E w a b ns.
Proof.
  clear Hnd H2. intros (F1 & F2 & F3 & F4 & F5) Hdim Hfs Hne Ha Hb (C1 & C2 & C3 & C4) mr Hmr.
  pose proof (mean_nonneg w R ns) as Hmn. pose proof (margin_nonneg _ Hmn) as Hmar.
  destruct (manager w a ns) as [m|] eqn:Hma; [|exfalso; apply (F4 _ Ha Hma)].
  assert (Hd1 : DimOk (dim ns) m) by (destruct (inv_slot _ w _ ns m (conj (proj1 F1) (proj1 (proj2 F1))) Hma) as (k & -> & Hd); exact Hd).
  assert (Hd2 : DimOk (dim ns) mr) by (destruct (inv_slot _ w _ ns mr (conj (proj1 F1) (proj1 (proj2 F1))) Hmr) as (k & -> & Hd); exact Hd).
  split.
  - rewrite Forall_forall in *. intros cen Hcen. apply Hne. apply (groups_sub w R ns b Hb). unfold groups, centroids_at. rewrite Hmr.
    apply in_map. exact Hcen.
  - unfold sees. apply Hfs; [apply Hd1| |].
    + intros He. apply map_eq_nil in He.
      assert (Hz : size_at w b ns = 0%Z) by (unfold size_at, data_at, centroids_at; rewrite Hmr, He; reflexivity). lia.
    + rewrite Forall_map. destruct Hd2 as (_ & Hd2). eapply Forall_impl; [|exact Hd2]. intros cen (Hl1 & _). exact Hl1.
Qed.
Lemma turns_offer : 0 < dim ns -> finds_some E (dim ns) -> forall cs (w : World) t ws, turns E cs w t ws -> Forall loop_of cs -> fine w ->
  Forall (fun g => g <> []) (all_groups w R ns) ->
  forall w1, In w1 (w :: ws) -> forall a b, In a R -> In b R -> could_pull w1 R ns a b -> offers E w1 a b ns.
Proof.
  clear H2. intros Hdim Hfs cs w t ws HT. induction HT as [w t|c cs w t w1 t1 t2 ws Hx Ht HT IH]; intros Hl Hf Hne w2 [<-|Hw2] a b Ha Hb Hp.
  - apply offers_found; auto.
  - destruct Hw2.
  - apply offers_found; auto.
  - apply Forall_cons_iff in Hl. destruct Hl as (Hc & Hl). destruct (run_fine c w t w1 t1 Hc Hf Hx) as (Hf1 & Hk).
    apply IH; auto. rewrite Forall_forall in *. intros g Hg. apply Hne. apply (kept_incl _ _ _ _ (Hk ns)). exact Hg.
Qed.

Lemma pull_sizes (w w' : World) a b : (forall b, In b R -> size_at w' b ns = size_at w b ns) -> mean_size w' R ns = mean_size w R ns ->
  In a R -> In b R -> could_pull w' R ns a b -> could_pull w R ns a b.
Proof. intros Hs Hm Ha Hb. unfold could_pull. rewrite Hm, (Hs a Ha), (Hs b Hb). auto. Qed.

Lemma turns_app : forall cs1 cs2 (w : World) t ws, turns E (cs1 ++ cs2) w t ws ->
  exists ws1 ws2 t2, ws = ws1 ++ ws2 /\ turns E cs1 w t ws1 /\ turns E cs2 (last ws1 w) t2 ws2.
Proof.
  induction cs1 as [|c cs1 IH]; intros cs2 w t ws HT; cbn [app] in HT.
  - exists [], ws, t. splits; auto. constructor.
  - inversion HT as [|? ? ? ? w1 t1 t2 ws0 Hx Ht HT']; subst. destruct (IH _ _ _ _ HT') as (ws1 & ws2 & t3 & -> & T1 & T2).
    exists (w1 :: ws1), ws2, t3. splits; auto; [econstructor; eauto|].
    rewrite last_cons. exact T2.
Qed.
Lemma last_app (l l' : list World) d : last (l ++ l') d = last l' (last l d).
Proof.
  revert d. induction l as [|x l IH]; intros d; [reflexivity|]. cbn [app]. rewrite !last_cons. apply IH.
Qed.

(* Once balanced, the sizes and everything else of the namespace stay. *)
Lemma stays : forall cs (w : World) t ws, turns E cs w t ws -> Forall loop_of cs -> fine w -> balanced w R ns ->
  forall w', In w' ws -> balanced w' R ns /\ forall b, manager w' b ns = manager w b ns.
Proof.
  intros cs w t ws HT. induction HT as [w t|c cs w t w1 t1 t2 ws Hx Ht HT IH]; intros Hl Hf Hbal w' Hw'; [destruct Hw'|].
  apply Forall_cons_iff in Hl. destruct Hl as (Hc & Hl). destruct (run_fine c w t w1 t1 Hc Hf Hx) as (Hf1 & Hk).
  assert (Hm : forall b, manager w1 b ns = manager w b ns).
  { apply (run_rest c w t w1 t1); auto. intros b Hb. apply Hbal; auto. apply Hc. }
  assert (Hb1 : balanced w1 R ns).
  { intros a b Ha Hb Hp. apply (Hbal a b Ha Hb). apply (pull_sizes w w1 a b); auto; [intros; apply size_eq, Hm|apply mean_kept; auto; apply Hf]. }
  destruct Hw' as [<-|Hw']; [split; auto|]. destruct (IH Hl Hf1 Hb1 w' Hw') as (I1 & I2). split; auto. intros b. rewrite I2. apply Hm.
Qed.

(* A round in which no size changes ends in a balanced state. *)
Lemma quiet_round : 0 < dim ns -> forall cs (w : World) t ws, turns E cs w t ws -> Forall loop_of cs -> fine w ->
  (forall w1, In w1 (w :: ws) -> forall a b, In a R -> In b R -> could_pull w1 R ns a b -> offers E w1 a b ns) -> changes w ws R ns = 0 ->
  (forall b, In b R -> size_at (last ws w) b ns = size_at w b ns) /\
  forall c b, In c cs -> In b R -> ~ could_pull w R ns (el_local c) b.
Proof.
  intros Hdim cs w t ws HT. induction HT as [w t|c cs w t w1 t1 t2 ws Hx Ht HT IH]; intros Hl Hf Hoff Hch; [split; [auto|intros c b []]|].
  apply Forall_cons_iff in Hl. destruct Hl as (Hc & Hl). destruct (run_fine c w t w1 t1 Hc Hf Hx) as (Hf1 & Hk).
  cbn [changes] in Hch. destruct (forallb _ R) eqn:Hall; [|lia]. rewrite forallb_forall in Hall.
  assert (Hsz : forall b, In b R -> size_at w1 b ns = size_at w b ns) by (intros b Hb; apply Z.eqb_eq, Hall, Hb).
  destruct (IH Hl Hf1) as (I1 & I2); [intros w2 Hw2; apply Hoff; right; exact Hw2|lia|].
  assert (Hmean : mean_size w1 R ns = mean_size w R ns) by (apply mean_kept; auto; apply Hf).
  split.
  - intros b Hb. rewrite <- (Hsz b Hb). rewrite last_cons. apply I1. exact Hb.
  - intros c' b [<-|Hc'] Hb Hp.
    + pose proof (run_gains c w t w1 t1 b Hc Hf Hx Hdim (fun b' Hb' => Hoff w (or_introl eq_refl) (el_local c) b' (proj1 (proj2 Hc)) Hb') Hb Hp) as Hg. rewrite (Hsz (el_local c)) in Hg; [lia|]. apply Hc.
    + apply (I2 c' b Hc' Hb). apply (pull_sizes w1 w (el_local c') b); auto.
      * intros x Hx'. symmetry. auto.
      * rewrite Forall_forall in Hl. apply (Hl c' Hc').
Qed.

Lemma rounds_balance : 0 < dim ns -> forall round, (forall b, In b R -> In b (map el_local round)) -> Forall loop_of round ->
  forall k (w : World) t ws, turns E (concat (repeat round k)) w t ws -> fine w ->
  (forall w1, In w1 (w :: ws) -> forall a b, In a R -> In b R -> could_pull w1 R ns a b -> offers E w1 a b ns) ->
  (imbalance w R ns < 2 * Z.of_nat k)%Z -> balanced (last ws w) R ns.
Proof.
  intros Hdim round Hround Hl. induction k as [|k IH]; intros w t ws HT Hf Hoff Him.
  { pose proof (imbalance_nonneg w). lia. }
  cbn [repeat concat] in HT. destruct (turns_app _ _ _ _ _ HT) as (ws1 & ws2 & t2 & -> & T1 & T2). rewrite last_app.
  destruct (settle_turns _ _ _ _ T1 Hl Hf) as (_ & S2 & S3 & S4). pose proof (imbalance_nonneg (last ws1 w)) as Hn1.
  assert (Hlk : Forall loop_of (concat (repeat round k))).
  { clear -Hl. induction k as [|k IHk]; cbn [repeat concat]; [constructor|]. apply Forall_app. split; auto. }
  destruct (Nat.eq_dec (changes w ws1 R ns) 0) as [Hz|Hz].
  - destruct (quiet_round Hdim _ _ _ _ T1 Hl Hf) as (Q1 & Q2); [|exact Hz|].
    { intros w1 [<-|Hw1]; apply Hoff; [left; reflexivity|right; apply in_or_app; left; exact Hw1]. }
    assert (Hbal : balanced (last ws1 w) R ns).
    { intros a b Ha Hb Hp. specialize (Hround a Ha). apply in_map_iff in Hround. destruct Hround as (c & <- & Hc).
      apply (Q2 c b Hc Hb). apply (pull_sizes w (last ws1 w) (el_local c) b); auto. apply mean_kept; auto. apply Hf. }
    destruct ws2 as [|w2 ws2]; [exact Hbal|].
    apply (stays _ _ _ _ T2 Hlk S3 Hbal (last (w2 :: ws2) (last ws1 w))).
    apply last_in.
  - apply (IH (last ws1 w) t2 ws2 T2 S3); [|lia]. intros w1 [<-|Hw1]; apply Hoff; [|right; apply in_or_app; right; exact Hw1].
    destruct ws1 as [|w2 ws1]; [left; reflexivity|]. right. apply in_or_app. left. apply last_in.
Qed.

Lemma turns_exist : forall cs (w : World) t, Forall loop_of cs -> fine w -> exists ws, turns E cs w t ws.
Proof.
  clear H2. induction cs as [|c cs IH]; intros w t Hl Hf; [exists []; constructor|]. apply Forall_cons_iff in Hl. destruct Hl as (Hc & Hl).
  destruct (balance_ends E HE HO dim c w t) as (w1 & t1 & Hx & _); try apply Hf.
  { intros b n _. destruct Hc as (_ & _ & ->). apply Hf. }
  destruct (run_fine c w t w1 t1 Hc Hf Hx) as (Hf1 & _). destruct (IH w1 t1 Hl Hf1) as (ws & HT). exists (w1 :: ws). econstructor; eauto.
Qed.
End Runs.
End Rest.
