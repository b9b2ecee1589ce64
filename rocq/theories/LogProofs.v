(* The log shows the numbers that the nodes have told. *)
From Verif Require Import Base Num MathUtils Env Centroid CManager DataSpec MgrSpec Wp Proc Owns Server ServerSpec ServerFacts
  SeqProofs SeqProofs2 StealProofs SeqProofs3 ClientSpec ClientProofs EventLoop CoreSpec LoopProofs2 TaskProofs Log LogSpec.

Section LogProofs.
Context {N : Num} (E : Env N) (HE : EnvOk E).
Notation World := (World N).

Definition told (w : World) (a : str) (l : list (str * (nat * nat))) : Prop :=
  NoDup (map fst l) /\ forall ns, assoc ns l = option_map (fun m => (length (cm_cs m), length (stored (cm_cs m)))) (manager w a ns).
Definition told' (w : World) (a : str) (l : list (str * (nat * nat))) : Prop := told w a l \/ (~ all_delivered E /\ l = []).

Lemma meta_told a (w : World) t : WorldOk w -> wp (exec (c_meta E a) w) t (fun r _ => snd r = w /\ told' w a (fst r)).
Proof.
  intros Hw. unfold wp. rewrite (meta_call E a w t). unfold answered_with. destruct (node_at w a) as [nd|] eqn:Ha.
  - pose proof (meta_spec E HE a w (S t) Hw) as H. unfold wp in H.
    destruct (e_fate E t) eqn:Hf; [|cbn [fst snd]; split; auto; right; split; auto; intros Hd; rewrite Hd in Hf; discriminate|];
    destruct (exec (serve E a QMeta) w (S t)) as [[[x w'] t']| |]; try contradiction; destruct H as (H1 & l & H2 & H3 & H4);
    cbn [fst snd] in *; subst; cbn [to_meta]; split; auto.
    + left. split; auto.
    + right. split; auto. intros Hd; rewrite Hd in Hf; discriminate.
  - cbn [fst snd]. split; auto. left. split; [constructor|]. intros ns. unfold manager. rewrite Ha. reflexivity.
Qed.

Lemma metas_told (w : World) : WorldOk w -> forall addrs items t,
  wp (exec (metas E addrs items) w) t (fun r _ => snd r = w /\ (fst r = [] -> addrs = []) /\
    forall a, (In a addrs \/ exists l, assoc a items = Some l /\ told' w a l) -> exists l, assoc a (fst r) = Some l /\ told' w a l).
Proof.
  intros Hw. induction addrs as [|b r IH]; intros items t; cbn [metas].
  - apply wp_exec_ret. cbn [fst snd]. split; auto. split; auto. intros a [[]|H]. auto.
  - apply wp_exec_bind. eapply wp_mono; [apply meta_told; auto|]. intros [m w1] t1 (Hw1 & Hm). cbn [fst snd] in *. subst w1.
    eapply wp_mono; [apply IH|]. intros [l w1] t2 (Hw1 & H0 & H). cbn [fst snd] in *. split; auto.
    assert (Hb : exists l', assoc b l = Some l' /\ told' w b l').
    { apply H. right. exists m. rewrite assoc_upsert_same. auto. }
    split.
    + intros ->. destruct Hb as (l' & Hb & _). discriminate.
    + intros a Ha. destruct (str_eqb a b) eqn:Hab; [apply str_eqb_eq in Hab; subst a; auto|].
      assert (Hne : a <> b) by (intros ->; rewrite str_eqb_refl in Hab; discriminate).
      apply H. rewrite assoc_upsert_other by auto. destruct Ha as [[Ha|Ha]|Ha]; auto. congruence.
Qed.

Lemma told_counts w a l : told w a l ->
  counts w a (length l) (list_sum (map (fun e => fst (snd e)) l)) (list_sum (map (fun e => snd (snd e)) l)).
Proof.
  intros (Hn & Hl). exists (map fst l). splits; auto.
  - intros ns. specialize (Hl ns). split.
    + intros Hi. apply in_map_iff in Hi. destruct Hi as ([k v] & Hk & Hi). cbn [fst] in Hk. subst k.
      rewrite (assoc_nodup _ _ _ Hn Hi) in Hl. destruct (manager w a ns); [discriminate|discriminate Hl].
    + intros Hm. destruct (manager w a ns) as [m|]; [|congruence]. cbn [option_map] in Hl. apply assoc_in in Hl.
      apply in_map_iff. eexists. split; [|exact Hl]. reflexivity.
  - rewrite map_length. reflexivity.
  - rewrite map_map. f_equal. apply map_ext_in. intros [k v] Hi. cbn [fst snd]. specialize (Hl k). rewrite (assoc_nodup _ _ _ Hn Hi) in Hl.
    unfold centroids_at. destruct (manager w a k); inversion Hl. reflexivity.
  - rewrite map_map. f_equal. apply map_ext_in. intros [k v] Hi. cbn [fst snd]. specialize (Hl k). rewrite (assoc_nodup _ _ _ Hn Hi) in Hl.
    unfold data_at, centroids_at. destruct (manager w a k); inversion Hl. reflexivity.
Qed.

Lemma lines_cons c items s : items <> [] -> log_task (log_meta (default_logger c) items) s =
  map (fun a => let m := match assoc a items with Some m => m | None => [] end in
         NodeLine a (length m) (list_sum (map (fun e => fst (snd e)) m)) (list_sum (map (fun e => snd (snd e)) m))
           (if str_eqb a (el_local c) then Some s else None)) (filter (shown c) (el_remote c)).
Proof.
  intros Hi. unfold log_task, log_meta, default_logger. cbn [lg_items lg_local_only lg_local lg_global].
  destruct items as [|e items]; [congruence|]. set (its := e :: items). clearbody its.
  induction (el_remote c) as [|a r IH]; cbn [flat_map filter]; auto. rewrite IH. clear IH. unfold shown at 2.
  destruct (el_local_only c); cbn [negb orb andb]; [destruct (str_eqb a (el_local c)) eqn:Ha|]; cbn [negb map app]; auto.
  cbv zeta. rewrite Ha. reflexivity.
Qed.

Theorem log_tells c (w : World) t : WorldOk w -> el_local_only c = true \/ el_remote c <> [] ->
  wp (exec (metas E (pull_from c) []) w) t (fun r _ => snd r = w /\ forall s,
    let lines := log_task (log_meta (default_logger c) (fst r)) s in
    map line_addr lines = filter (shown c) (el_remote c) /\
    (all_delivered E -> Forall (tells w) lines) /\ Forall (fun l => tells w l \/ blank l) lines /\
    Forall (fun l => line_task l = if str_eqb (line_addr l) (el_local c) then Some s else None) lines).
Proof.
  intros Hw Hc. eapply wp_mono; [apply (metas_told w Hw)|]. intros [items w'] t' (Hw' & H0 & H). cbn [fst snd] in *. subst w'. split; auto.
  intros s. assert (Hi : items <> []).
  { intros Hi. specialize (H0 Hi). unfold pull_from in H0. destruct (el_local_only c); [discriminate|]. destruct Hc; [discriminate|contradiction]. }
  assert (Ht : forall a, In a (filter (shown c) (el_remote c)) -> exists l, assoc a items = Some l /\ told' w a l).
  { intros a Ha. apply filter_In in Ha. destruct Ha as (Ha & Hs). apply H. left. unfold pull_from, shown in *.
    destruct (el_local_only c); auto. cbn in Hs. apply str_eqb_eq in Hs. subst a. left; auto. }
  cbv zeta. rewrite lines_cons by auto. splits.
  - rewrite map_map. cbn [line_addr]. apply map_id.
  - intros Hd. apply Forall_forall. intros l Hl. apply in_map_iff in Hl. destruct Hl as (a & <- & Ha).
    cbn [tells]. destruct (Ht a Ha) as (l & Hl & [Ht'|(Ht' & _)]); [rewrite Hl; apply told_counts; auto|contradiction].
  - apply Forall_forall. intros l Hl. apply in_map_iff in Hl. destruct Hl as (a & <- & Ha).
    cbn [tells]. destruct (Ht a Ha) as (l & Hl & [Ht'|(_ & Ht')]); rewrite Hl; [left; apply told_counts; auto|right]. subst l. reflexivity.
  - apply Forall_forall. intros l Hl. apply in_map_iff in Hl. destruct Hl as (a & <- & Ha). reflexivity.
Qed.
End LogProofs.

Theorem task_shown l s : (exists x, In x (log_task l s) /\ line_task x = Some s) <-> lg_items l = [] \/ In (lg_local l) (lg_global l).
Proof.
  unfold log_task. destruct (lg_items l) as [|e items] eqn:Hi.
  - split; auto. intros _. eexists. split; [left; reflexivity|reflexivity].
  - set (its := e :: items). split.
    + intros (x & Hx & Hs). right. apply in_flat_map in Hx. destruct Hx as (a & Ha & Hx).
      destruct (lg_local_only l && negb (str_eqb a (lg_local l))); [destruct Hx|]. destruct Hx as [<-|[]]. cbn [line_task] in Hs.
      destruct (str_eqb a (lg_local l)) eqn:He; [|discriminate]. apply str_eqb_eq in He. subst a. auto.
    + intros [Hx|Hx]; [discriminate|]. eexists. split.
      * apply in_flat_map. exists (lg_local l). split; auto. rewrite str_eqb_refl, andb_false_r. left. reflexivity.
      * reflexivity.
Qed.
