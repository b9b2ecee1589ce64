(* What the simulation gives: no deadlock, the same results, completion. *)
From Verif Require Import Base Num MathUtils Env Centroid CManager DataSpec MgrSpec Wp Proc Owns Server ServerSpec ServerFacts
  Locks LocksProofs LocksProofs2.

Section Use.
Context {N : Num} {R : Type} (dflt : R).
Notation World := (World N).
Notation Rel := (@Rel N R).

Lemma nth_ext_error {A} (l l' : list A) : (forall i, nth_error l i = nth_error l' i) -> l = l'.
Proof.
  revert l'; induction l as [|x l IH]; intros [|y l'] H; auto.
  - specialize (H 0). discriminate.
  - specialize (H 0). discriminate.
  - pose proof (H 0) as H0. cbn in H0. injection H0 as ->. f_equal. apply IH. intros i. apply (H (S i)).
Qed.
Lemma assoc_ext {V} (l l' : list (str * V)) : NoDup (map fst l) -> map fst l = map fst l' ->
  (forall k, assoc k l = assoc k l') -> l = l'.
Proof.
  revert l'; induction l as [|[k v] l IH]; intros [|[k' v'] l'] Hd Hk H; cbn [map fst] in *; auto; try discriminate.
  injection Hk as <- Hk. inversion Hd as [|? ? Hn Hd']; subst. pose proof (H k) as H0. cbn [assoc] in H0.
  rewrite str_eqb_refl in H0. injection H0 as ->. f_equal. apply IH; auto. intros k2.
  specialize (H k2). cbn [assoc] in H. destruct (str_eqb k2 k) eqn:E; auto. apply str_eqb_eq in E. subst.
  rewrite (proj2 (assoc_none k l) Hn). symmetry. apply assoc_none. rewrite <- Hk. auto.
Qed.

Definition all_out (phs : list phase) : Prop := forall i ph, nth_error phs i = Some ph -> ph = @POut N.

Lemma out_nodes phs wf wc : all_out phs -> world_rel phs wf wc -> NoDup (keys wc) -> w_nodes wf = w_nodes wc.
Proof.
  intros Ho Hw Hd. apply assoc_ext.
  - fold (keys wf). rewrite (w_keys _ _ _ Hw). auto.
  - apply (w_keys _ _ _ Hw).
  - intros a. assert (Hs : forall l, same_at l wf wc).
    { intros l. apply (w_same _ _ _ Hw). intros i w1 Hi. apply Ho in Hi. discriminate. }
    pose proof (Hs (LTable a)) as H1. pose proof (w_thr _ _ _ Hw a) as H2. pose proof (fun p => Hs (LSlot a p)) as H3.
    cbn [same_at] in *. unfold tblv, thrv, slotv, node_at in *.
    destruct (assoc a (w_nodes wf)) as [[h tb th]|], (assoc a (w_nodes wc)) as [[h' tb' th']|]; cbn [option_map nd_tbl nd_thresh nd_heap] in *; try discriminate; auto.
    injection H1 as ->. injection H2 as ->. rewrite (nth_ext_error h h'); auto.
Qed.

(* All ended. *)
Lemma ended_rel phs th held wf thc wc rs : Rel phs (th, held, wf) thc wc -> map snd th = map (fun r => IRet r) rs ->
  NoDup (keys wc) -> thc = map (fun r => Ret r) rs /\ w_nodes wf = w_nodes wc /\ held = [].
Proof.
  intros (Ht & Hh & Hw) He Hd. destruct (threads_len _ _ _ Ht) as [L1 L2].
  assert (Hall : forall i ph, nth_error phs i = Some ph -> ph = POut /\ exists r, nth_error rs i = Some r /\ nth_error thc i = Some (Ret r)).
  { intros i ph Hi. specialize (Ht i). rewrite Hi in Ht. destruct (nth_error th i) as [[own ip]|] eqn:Et; [|destruct Ht].
    destruct (nth_error thc i) as [p|]; [|destruct Ht]. destruct Ht as (_ & Htr & _).
    pose proof (map_nth_error snd _ _ Et) as Hx. rewrite He, nth_error_map in Hx. cbn [snd] in Hx.
    destruct (nth_error rs i) as [r|]; [|discriminate]. cbn [option_map] in Hx. injection Hx as Hx. 
    destruct Htr as [ip p Hlo| | | | |]; try discriminate. split; auto. exists r. split; auto. subst.
    pose proof (lowers_cases _ _ Hlo) as Hc. destruct p as [r'|A [l|] f k|q k].
    - injection Hc as ->. auto.
    - destruct Hc as (? & _ & Hc). discriminate.
    - destruct Hc as (? & _ & Hc). discriminate.
    - destruct Hc as (? & ? & _ & _ & Hc). discriminate. }
  splits.
  - apply nth_ext_error. intros i. rewrite nth_error_map. destruct (nth_error phs i) as [ph|] eqn:Ei.
    + destruct (Hall _ _ Ei) as (_ & r & -> & ->). auto.
    + apply nth_error_None in Ei. rewrite (proj2 (nth_error_None thc i)) by lia.
      rewrite (proj2 (nth_error_None rs i)); auto. apply (f_equal (@length _)) in He. rewrite !map_length in He. lia.
  - eapply out_nodes; eauto. intros i ph Hi. apply Hall in Hi. tauto.
  - destruct held as [|l held]; auto. exfalso.
    destruct (proj1 (h_in _ _ Hh l) (or_introl eq_refl)) as (i & ph & Hi & Hl). apply Hall in Hi. destruct Hi as [-> _]. destruct Hl.
Qed.

(* Who waits, waits for someone who does not. *)
Lemma waits_for_runner phs th held wf thc wc : Rel phs (th, held, wf) thc wc -> forall i own l k, nth_error th i = Some (own, ILock l k) -> In l held ->
  exists j own' ip, nth_error th j = Some (own', ip) /\ In l own' /\ (forall l' k', ip <> ILock l' k') /\ (forall r, ip <> IRet r).
Proof.
  intros (Ht & Hh & Hw) i own l k Hi Hl. apply (h_in _ _ Hh) in Hl. destruct Hl as (j & ph & Hj & Hl).
  specialize (Ht j). rewrite Hj in Ht. destruct (nth_error th j) as [[own' ip]|] eqn:Ej; [|destruct Ht].
  destruct (nth_error thc j) as [p|]; [|destruct Ht]. destruct Ht as (-> & Htr & _).
  exists j, (own_of ph), ip. splits; auto; intros; destruct Htr; try discriminate; destruct Hl.
Qed.
Lemma one_lock phs th held wf thc wc : Rel phs (th, held, wf) thc wc -> forall i own ip, nth_error th i = Some (own, ip) ->
  length own <= 1 /\ incl own held.
Proof.
  intros (Ht & Hh & Hw) i own ip Hi. specialize (Ht i). rewrite Hi in Ht. destruct (nth_error phs i) as [ph|] eqn:Ei; [|destruct (nth_error thc i); destruct Ht].
  destruct (nth_error thc i); [|destruct Ht]. destruct Ht as (-> & _). split.
  - destruct ph as [|l|[l|] w0|l w1|l]; cbn [own_of length]; lia.
  - intros l Hl. apply (h_in _ _ Hh). eauto.
Qed.
Lemma exclusion phs th held wf thc wc : Rel phs (th, held, wf) thc wc -> forall i j own own' ip ip' l, nth_error th i = Some (own, ip) ->
  nth_error th j = Some (own', ip') -> In l own -> In l own' -> i = j.
Proof.
  intros (Ht & Hh & Hw) i j own own' ip ip' l Hi Hj Hl Hl'. pose proof (Ht i) as Hti. pose proof (Ht j) as Htj. rewrite Hi in Hti. rewrite Hj in Htj.
  destruct (nth_error phs i) as [ph|] eqn:Ei; [|destruct (nth_error thc i); destruct Hti].
  destruct (nth_error phs j) as [ph'|] eqn:Ej; [|destruct (nth_error thc j); destruct Htj].
  destruct (nth_error thc i); [|destruct Hti]. destruct (nth_error thc j); [|destruct Htj].
  destruct Hti as (-> & _). destruct Htj as (-> & _). eapply (h_one _ _ Hh); eauto.
Qed.

(* ---- completion ---- *)
Definition safe (thc : list (proc' N R)) (wc : World) (t : nat) : Prop :=
  forall sc, match interleave dflt sc thc wc t with Ok _ => True | _ => False end.
Lemma safe_later thc wc t sc thc' wc' t' : safe thc wc t -> interleave dflt sc thc wc t = Ok ((thc', wc'), t') -> safe thc' wc' t'.
Proof.
  intros Hs H sc2. specialize (Hs (sc ++ sc2)). rewrite interleave_app in Hs.
  change (proc (Server.World N) lock R) with (proc' N R) in *. rewrite H in Hs. auto.
Qed.

Definition ranks (phs : list (@phase N)) : nat := list_sum (map rank phs).
Lemma list_sum_set l i x y : nth_error l i = Some y -> list_sum (list_set l i x) + y = list_sum l + x.
Proof.
  revert i; induction l as [|z l IH]; intros [|i] H; cbn [nth_error list_set list_sum fold_right] in *; try discriminate.
  - injection H as ->. lia.
  - specialize (IH i H). unfold list_sum in IH. lia.
Qed.
Lemma ranks_zero phs : ranks phs = 0 -> all_out phs.
Proof.
  intros H i ph Hi. unfold ranks in H. assert (Hr : rank ph = 0).
  { apply (map_nth_error rank) in Hi. revert i Hi H. generalize (map rank phs). intros l.
    induction l as [|x l IH]; intros [|i] Hi; cbn [nth_error list_sum fold_right] in *; try discriminate; intros H.
    - injection Hi as ->. lia.
    - apply (IH i); auto. unfold list_sum. lia. }
  destruct ph as [|l|[l|] w0|l w1|l]; auto; discriminate.
Qed.
Lemma ranks_pos phs : ranks phs <> 0 -> exists i ph, nth_error phs i = Some ph /\ ph <> POut.
Proof.
  unfold ranks. induction phs as [|ph phs IH]; cbn [map list_sum fold_right]; [lia|]. intros H.
  destruct (Nat.eq_dec (rank ph) 0) as [H0|H0].
  - destruct IH as (i & ph' & Hi & Hp); [unfold list_sum; lia|]. exists (S i), ph'. auto.
  - exists 0, ph. split; auto. intros ->. apply H0. auto.
Qed.

Lemma irun_app s1 s2 (s : istate N R) t : irun dflt (s1 ++ s2) s t =
  match irun dflt s1 s t with Ok (s', t') => irun dflt s2 s' t' | Panic => Panic | OutOfFuel => OutOfFuel end.
Proof.
  revert s t; induction s1 as [|i s1 IH]; intros s t; cbn [app irun]; auto. unfold bind.
  destruct (istep dflt s i t) as [[s' t']| |]; auto.
Qed.

Lemma quiesce : forall n phs s thc wc t, ranks phs = n -> Rel phs s thc wc -> safe thc wc t ->
  exists sched s' t' phs' sc thc' wc', irun dflt sched s t = Ok (s', t') /\ all_out phs' /\ Rel phs' s' thc' wc' /\
    interleave dflt sc thc wc t = Ok ((thc', wc'), t').
Proof.
  induction n as [|n IH]; intros phs s thc wc t Hn HR Hs.
  - exists [], s, t, phs, [], thc, wc. splits; auto. apply ranks_zero; auto.
  - destruct (ranks_pos phs) as (i & ph & Hi & Hp); [lia|].
    pose proof (step_matched dflt phs s thc wc i t HR) as Hm.
    destruct (istep dflt s i t) as [[s1 t1]| |] eqn:E1; cbn [matched] in Hm.
    + destruct Hm as (phs1 & sc & thc1 & wc1 & H1 & HR1 & Hmv). unfold moved in Hmv. rewrite Hi in Hmv.
      assert (exists ph', phs1 = list_set phs i ph' /\ rank ph = S (rank ph')) as (ph' & -> & Hr).
      { destruct ph; try congruence; destruct Hmv as (ph' & K1 & K2 & _); eauto. }
      destruct (IH (list_set phs i ph') s1 thc1 wc1 t1) as (sched & s2 & t2 & phs2 & sc2 & thc2 & wc2 & K1 & K2 & K3 & K4); auto.
      { unfold ranks in *. rewrite map_list_set. pose proof (list_sum_set (map rank phs) i (rank ph') (rank ph) (map_nth_error _ _ _ Hi)). lia. }
      { eapply safe_later; eauto. }
      exists (i :: sched), s2, t2, phs2, (sc ++ sc2), thc2, wc2. splits; auto.
      * cbn [irun]. unfold bind. rewrite E1. auto.
      * rewrite interleave_app. change (proc (Server.World N) lock R) with (proc' N R) in *. rewrite H1. auto.
    + exfalso. destruct Hm as (sc & Hsc). specialize (Hs sc). rewrite Hsc in Hs. auto.
    + exfalso. destruct Hm as (sc & Hsc). specialize (Hs sc). rewrite Hsc in Hs. auto.
Qed.

(* Goroutine i alone, from inside to outside: the action happens if it has not yet. *)
Lemma leave : forall n phs s thc wc t i ph, rank ph = n -> nth_error phs i = Some ph -> Rel phs s thc wc -> safe thc wc t ->
  exists s' t' thc' wc', irun dflt (repeat i n) s t = Ok (s', t') /\ Rel (list_set phs i POut) s' thc' wc' /\
    interleave dflt (match ph with PIn _ | PLoad _ _ => [i] | _ => [] end) thc wc t = Ok ((thc', wc'), t').
Proof.
  induction n as [|n IH]; intros phs s thc wc t i ph Hn Hi HR Hs.
  - assert (ph = POut) as -> by (destruct ph as [|l|[l|] w0|l w1|l]; auto; discriminate).
    exists s, t, thc, wc. splits; auto. rewrite list_set_id; auto.
  - pose proof (step_matched dflt phs s thc wc i t HR) as Hm. cbn [repeat irun]. unfold bind at 1.
    destruct (istep dflt s i t) as [[s1 t1]| |] eqn:E1; cbn [matched] in Hm.
    + destruct Hm as (phs1 & sc & thc1 & wc1 & H1 & HR1 & Hmv). unfold moved in Hmv. rewrite Hi in Hmv.
      assert (exists ph', phs1 = list_set phs i ph' /\ rank ph = S (rank ph') /\ (forall w0, ph' <> PLoad None w0) /\ sc = match ph with PLoad _ _ => [i] | _ => [] end)
        as (ph' & -> & Hr & Hnn & ->).
      { destruct ph; auto. discriminate. }
      destruct (IH (list_set phs i ph') s1 thc1 wc1 t1 i ph') as (s2 & t2 & thc2 & wc2 & K1 & K2 & K3); auto.
      { lia. } { eapply set_nth_same; eauto. } { eapply safe_later; eauto. }
      rewrite list_set_set in K2. exists s2, t2, thc2, wc2. splits; auto.
      destruct ph as [|l|[l|] w0|l w1|l]; cbn [rank] in *; try discriminate;
        destruct ph' as [|l'|[l'|] w0'|l' w1'|l']; cbn [rank] in *; try discriminate; try (specialize (Hnn w0'); congruence);
        try (cbn [interleave ret] in H1; injection H1 as <- <- <-; exact K3);
        (cbn [interleave ret] in K3; injection K3 as <- <- <-; exact H1).
    + exfalso. destruct Hm as (sc & Hsc). specialize (Hs sc). rewrite Hsc in Hs. auto.
    + exfalso. destruct Hm as (sc & Hsc). specialize (Hs sc). rewrite Hsc in Hs. auto.
Qed.

Lemma all_out_set phs i : all_out phs -> all_out (list_set phs i POut).
Proof.
  intros H j ph Hj. destruct (nth_error phs i) as [y|] eqn:Ei.
  - destruct (set_nth _ _ _ _ _ _ Ei Hj) as [[_ ->]|[_ Hj']]; eauto.
  - rewrite nth_list_set in Hj. destruct ((j =? i) && _); [congruence|eauto].
Qed.

Lemma fine_step phs s thc wc t i thc' wc' t' : all_out phs -> Rel phs s thc wc -> safe thc wc t ->
  interleave dflt [i] thc wc t = Ok ((thc', wc'), t') ->
  exists sched s' phs', irun dflt sched s t = Ok (s', t') /\ all_out phs' /\ Rel phs' s' thc' wc'.
Proof.
  intros Ho HR Hs H1. destruct s as [[th held] wf]. pose proof HR as (Ht & Hh & Hw).
  assert (Hheld : held = []).
  { destruct held as [|l held]; auto. exfalso. destruct (proj1 (h_in _ _ Hh l) (or_introl eq_refl)) as (j & ph & Hj & Hl).
    apply Ho in Hj. subst. destruct Hl. }
  pose proof (step_matched dflt phs (th, held, wf) thc wc i t HR) as Hm. unfold moved in Hm. cbn [fst snd] in Hm.
  pose proof (Ht i) as Hi. destruct (nth_error phs i) as [ph|] eqn:Eph.
  2:{ destruct (nth_error th i); [destruct (nth_error thc i); destruct Hi|]. destruct (nth_error thc i) eqn:Ec; [destruct Hi|].
      cbn [interleave] in H1. unfold bind, step1 in H1.
      change (@nth_error (proc (Server.World N) lock R) thc i) with (@nth_error (proc' N R) thc i) in H1.
      rewrite Ec in H1. cbn [ret] in H1. injection H1 as <- <- <-.
      exists [], (th, held, wf), phs. splits; auto. }
  pose proof (Ho _ _ Eph) as ->. destruct (nth_error th i) as [[own ip]|]; [|destruct Hi].
  destruct (nth_error thc i) as [p|] eqn:Ec; [|destruct Hi]. destruct p as [r|A [l|] f k|q k].
  - cbn [interleave] in H1. unfold bind, step1 in H1.
    change (@nth_error (proc (Server.World N) lock R) thc i) with (@nth_error (proc' N R) thc i) in H1.
    rewrite Ec in H1. cbn [ret] in H1. injection H1 as <- <- <-. exists [], (th, held, wf), phs. splits; auto.
  - destruct (istep dflt (th, held, wf) i t) as [[s1 t1]| |] eqn:E1; cbn [matched] in Hm.
    2,3: exfalso; destruct Hm as (sc & Hsc); specialize (Hs sc); rewrite Hsc in Hs; auto.
    destruct Hm as (phs1 & sc & thc1 & wc1 & K1 & HR1 & [Hl|[-> ->]]); [subst; destruct Hl|].
    cbn [interleave ret] in K1. injection K1 as <- <- <-.
    destruct (leave 4 (list_set phs i (PIn l)) s1 thc wc t i (PIn l)) as (s2 & t2 & thc2 & wc2 & L1 & L2 & L3); auto.
    { eapply set_nth_same; eauto. }
    rewrite list_set_set in L2. change (proc (Server.World N) lock R) with (proc' N R) in *. rewrite H1 in L3. injection L3 as <- <- <-.
    exists (i :: repeat i 4), s2, (list_set phs i POut). splits; auto.
    + cbn [irun]. unfold bind at 1. rewrite E1. auto.
    + apply all_out_set; auto.
  - destruct (istep dflt (th, held, wf) i t) as [[s1 t1]| |] eqn:E1; cbn [matched] in Hm.
    2,3: exfalso; destruct Hm as (sc & Hsc); specialize (Hs sc); rewrite Hsc in Hs; auto.
    destruct Hm as (phs1 & sc & thc1 & wc1 & K1 & HR1 & (w0 & -> & ->)).
    cbn [interleave ret] in K1. injection K1 as <- <- <-.
    destruct (leave 1 (list_set phs i (PLoad None w0)) s1 thc wc t i (PLoad None w0)) as (s2 & t2 & thc2 & wc2 & L1 & L2 & L3); auto.
    { eapply set_nth_same; eauto. }
    rewrite list_set_set in L2. change (proc (Server.World N) lock R) with (proc' N R) in *. rewrite H1 in L3. injection L3 as <- <- <-.
    exists (i :: repeat i 1), s2, (list_set phs i POut). splits; auto.
    + cbn [irun]. unfold bind at 1. rewrite E1. auto.
    + apply all_out_set; auto.
  - destruct (istep dflt (th, held, wf) i t) as [[s1 t1]| |] eqn:E1; cbn [matched] in Hm.
    2,3: exfalso; destruct Hm as (sc & Hsc); specialize (Hs sc); rewrite Hsc in Hs; auto.
    destruct Hm as (phs1 & sc & thc1 & wc1 & K1 & HR1 & (-> & ->)).
    change (proc (Server.World N) lock R) with (proc' N R) in *. rewrite H1 in K1. injection K1 as <- <- <-.
    exists [i], s1, (phs ++ [POut]). splits; auto.
    + cbn [irun]. unfold bind at 1. rewrite E1. auto.
    + intros j ph Hj. rewrite nth_snoc in Hj. destruct (j =? length phs); [congruence|eauto].
Qed.

Lemma fine_run : forall sc phs s thc wc t thc' wc' t', all_out phs -> Rel phs s thc wc -> safe thc wc t ->
  interleave dflt sc thc wc t = Ok ((thc', wc'), t') ->
  exists sched s' phs', irun dflt sched s t = Ok (s', t') /\ all_out phs' /\ Rel phs' s' thc' wc'.
Proof.
  induction sc as [|i sc IH]; intros phs s thc wc t thc' wc' t' Ho HR Hs H.
  - cbn [interleave ret] in H. injection H as <- <- <-. exists [], s, phs. auto.
  - change (i :: sc) with ([i] ++ sc) in H. rewrite interleave_app in H.
    destruct (interleave dflt [i] thc wc t) as [[[thc1 wc1] t1]| |] eqn:E1; try discriminate.
    destruct (fine_step phs s thc wc t i thc1 wc1 t1) as (sch1 & s1 & phs1 & K1 & K2 & K3); auto.
    destruct (IH phs1 s1 thc1 wc1 t1 thc' wc' t') as (sch2 & s2 & phs2 & L1 & L2 & L3); auto.
    { eapply safe_later; eauto. }
    exists (sch1 ++ sch2), s2, phs2. splits; auto. rewrite irun_app, K1. auto.
Qed.

Lemma out_ended phs th held wf thc wc rs : all_out phs -> Rel phs (th, held, wf) thc wc -> thc = map (fun r => Ret r) rs ->
  map snd th = map (fun r => IRet r) rs.
Proof.
  intros Ho (Ht & Hh & Hw) ->. apply nth_ext_error. intros i. specialize (Ht i). rewrite !nth_error_map in *.
  destruct (nth_error phs i) as [ph|] eqn:Ei.
  - destruct (nth_error th i) as [[own ip]|]; [|destruct Ht]. destruct (nth_error rs i) as [r|]; cbn [option_map] in *; [|destruct Ht].
    destruct Ht as (_ & Htr & _). apply Ho in Ei. subst ph.
    inversion Htr as [ip' p' Hlo| | | | |]; subst. apply lowers_cases in Hlo. subst. auto.
  - destruct (nth_error th i) as [[]|]; [destruct (nth_error rs i); destruct Ht|]. destruct (nth_error rs i); [destruct Ht|auto].
Qed.

(* From any state that instructions can lead to, all can end, if the processes can. *)
Lemma fine_completes phs s thc wc t : Rel phs s thc wc -> safe thc wc t ->
  (forall sc thc' wc' t', interleave dflt sc thc wc t = Ok ((thc', wc'), t') ->
     exists sc2 rs w2 t2, interleave dflt sc2 thc' wc' t' = Ok ((map (fun r => Ret r) rs, w2), t2)) ->
  exists sched s' t' rs, irun dflt sched s t = Ok (s', t') /\ map snd (fst (fst s')) = map (fun r => IRet r) rs.
Proof.
  intros HR Hs Hc. destruct (quiesce _ phs s thc wc t eq_refl HR Hs) as (sch1 & s1 & t1 & phs1 & sc1 & thc1 & wc1 & K1 & K2 & K3 & K4).
  destruct (Hc _ _ _ _ K4) as (sc2 & rs & w2 & t2 & H2).
  destruct (fine_run sc2 phs1 s1 thc1 wc1 t1 _ _ _ K2 K3 (safe_later _ _ _ _ _ _ _ Hs K4) H2) as (sch2 & s2 & phs2 & L1 & L2 & L3).
  exists (sch1 ++ sch2), s2, t2, rs. split.
  - rewrite irun_app, K1. auto.
  - destruct s2 as [[th held] wf]. cbn [fst]. eapply out_ended; eauto.
Qed.
End Use.
