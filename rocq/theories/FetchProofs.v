(* The parallel fetch ends with every answer. *)
From Verif Require Import Base Wp Proc Owns Fetch.

Section Fetch.
Context {A V : Type} (answers : A -> option V -> Prop).
Notation fetch := (fetch A V).
Notation fetch_step := (fetch_step answers).
Notation fetch_run := (fetch_run answers).

(* All answers so far: those about to be sent, in the channel, and received. *)
Definition finv (addrs : list A) (f : fetch) : Prop :=
  exists recv, length recv = f_got f /\ f_kept f = flat_map keep recv /\
    Permutation (f_busy f ++ map fst (f_ready f ++ f_chan f ++ recv)) addrs /\
    Forall (fun x => answers (fst x) (snd x)) (f_ready f ++ f_chan f ++ recv).

Definition todo (f : fetch) : nat := 3 * length (f_busy f) + 2 * length (f_ready f) + length (f_chan f).

Lemma step_finv addrs n f f' : finv addrs f -> fetch_step n f f' -> finv addrs f' /\ S (todo f') = todo f.
Proof.
  intros (recv & H1 & H2 & H3 & H4) Hs. destruct Hs as [b1 a b2 rd ch g k r Hr|b r1 x r2 ch g k Hc|b rd x ch g k Hg]; cbn [f_busy f_ready f_chan f_got f_kept] in *.
  - split; [|unfold todo; cbn [f_busy f_ready f_chan length]; rewrite !app_length; cbn [length]; lia].
    exists recv. splits; auto.
    + rewrite <- H3. cbn [f_busy f_ready f_chan app map fst]. rewrite <- !app_assoc. cbn [app]. apply Permutation_app_head. symmetry. apply Permutation_middle.
    + cbn [app]. constructor; auto.
  - split; [|unfold todo; cbn [f_busy f_ready f_chan length]; rewrite !app_length; cbn [length]; lia].
    exists recv. splits; auto; cbn [f_busy f_ready f_chan].
    + rewrite <- H3. apply Permutation_app_head, Permutation_map. perm.
    + eapply Permutation_Forall; [|exact H4]. perm.
  - split; [|unfold todo; cbn [f_busy f_ready f_chan length]; lia].
    exists (recv ++ [x]). splits; cbn [f_busy f_ready f_chan f_got f_kept].
    + rewrite app_length. cbn [length]. lia.
    + rewrite H2, flat_map_app. cbn [flat_map]. rewrite app_nil_r. auto.
    + rewrite <- H3. apply Permutation_app_head, Permutation_map, Permutation_app_head. cbn [app]. rewrite app_assoc.
      symmetry. apply Permutation_cons_append.
    + eapply Permutation_Forall; [|exact H4]. apply Permutation_app_head. cbn [app]. rewrite app_assoc. apply Permutation_cons_append.
Qed.

Lemma start_finv addrs : finv addrs (fetch_start addrs).
Proof. exists []. splits; auto; cbn [fetch_start f_busy f_ready f_chan map app]; auto. rewrite app_nil_r. apply Permutation_refl. Qed.

Lemma run_finv addrs n s f f' : finv addrs f -> fetch_run n s f f' -> finv addrs f' /\ s + todo f' = todo f.
Proof.
  intros Hi. induction 1 as [f|s f f1 f2 Hr IH Hs]; [auto|]. destruct (IH Hi) as (H1 & H2).
  destruct (step_finv _ _ _ _ H1 Hs) as (H3 & H4). split; auto. lia.
Qed.

Lemma finv_length addrs f : finv addrs f -> length (f_busy f) + length (f_ready f) + length (f_chan f) + f_got f = length addrs.
Proof.
  intros (recv & H1 & _ & H3 & _). rewrite <- (Permutation_length H3), app_length, map_length, !app_length. lia.
Qed.

Lemma fetch_never_blocks addrs s f : fetch_run (length addrs) s (fetch_start addrs) f ->
  f_ready f <> [] -> length (f_chan f) < length addrs.
Proof.
  intros Hr Hn. destruct (run_finv _ _ _ _ _ (start_finv addrs) Hr) as (Hi & _). pose proof (finv_length _ _ Hi) as Hl.
  destruct (f_ready f); [congruence|]. cbn [length] in Hl. lia.
Qed.

Lemma fetch_progress addrs s f : (forall a, In a addrs -> exists r, answers a r) ->
  fetch_run (length addrs) s (fetch_start addrs) f ->
  s <= 3 * length addrs /\ (fetch_done (length addrs) f \/ exists f', fetch_step (length addrs) f f').
Proof.
  intros Ha Hr. destruct (run_finv _ _ _ _ _ (start_finv addrs) Hr) as (Hi & Ht). split.
  { unfold todo in Ht. cbn [fetch_start f_busy f_ready f_chan length] in Ht. lia. }
  pose proof (finv_length _ _ Hi) as Hl. unfold fetch_done. destruct f as [b rd ch g k]. cbn [f_busy f_ready f_chan f_got] in *.
  destruct ch as [|x ch].
  - destruct rd as [|x rd].
    + destruct b as [|a b]; [left; cbn [length] in Hl; lia|]. right. destruct (Ha a) as (r & Har).
      { destruct Hi as (recv & _ & _ & H3 & _). apply (Permutation_in _ H3). left. auto. }
      eexists. apply (f_answer answers _ [] a b). exact Har.
    + right. eexists. apply (f_send answers _ b [] x rd). cbn [length] in *. lia.
  - right. eexists. apply f_receive. cbn [length] in Hl. lia.
Qed.

Lemma fetch_collects addrs s f : fetch_run (length addrs) s (fetch_start addrs) f -> fetch_done (length addrs) f ->
  f_busy f = [] /\ f_ready f = [] /\ f_chan f = [] /\
  exists got, Permutation (map fst got) addrs /\ Forall (fun x => answers (fst x) (snd x)) got /\
    f_kept f = flat_map (fun x => match snd x with Some v => [(fst x, v)] | None => [] end) got.
Proof.
  intros Hr Hd. destruct (run_finv _ _ _ _ _ (start_finv addrs) Hr) as (Hi & _). pose proof (finv_length _ _ Hi) as Hl.
  unfold fetch_done in Hd. destruct f as [b rd ch g k]. cbn [f_busy f_ready f_chan f_got f_kept] in *.
  destruct b, rd, ch; cbn [length] in Hl; try lia. splits; auto. destruct Hi as (recv & H1 & H2 & H3 & H4).
  cbn [f_busy f_ready f_chan f_got f_kept app] in *. exists recv. splits; auto.
Qed.
End Fetch.

(* ---- arbiter ---- *)
Lemma check_all_none {A Er} (l : list (A * option Er)) : check_all l = None <-> forall a e, In (a, e) l -> e = None.
Proof.
  induction l as [|[a [e|]] l IH]; cbn [check_all].
  - split; auto. intros _ a e [].
  - split; [discriminate|]. intros H. discriminate (H a (Some e)). left; auto.
  - rewrite IH. split.
    + intros H a' e' [He|He]; [injection He as _ <-; auto|eauto].
    + intros H a' e' He. apply (H a'). right; auto.
Qed.
Lemma check_all_some {A Er} (l : list (A * option Er)) a e : check_all l = Some (a, e) -> In (a, Some e) l.
Proof.
  induction l as [|[a' [e'|]] l IH]; cbn [check_all]; intros H; [discriminate|left; congruence|right; auto].
Qed.
Lemma uniform_spec {A} sc (l : list (A * Z)) : uniform_status sc l = true <-> forall a s, In (a, s) l -> s = sc.
Proof.
  induction l as [|[a s] l IH]; cbn [uniform_status].
  - split; auto. intros _ a s [].
  - destruct (s =? sc)%Z eqn:He; cbn [negb].
    + apply Z.eqb_eq in He. subst s. rewrite IH. split.
      * intros H a' s' [Hs|Hs]; [congruence|eauto].
      * intros H a' s' Hs. apply (H a'). right; auto.
    + split; [discriminate|]. intros H. apply Z.eqb_neq in He. destruct He. apply (H a). left; auto.
Qed.

(* Whatever the order of the iteration. *)
Lemma arbiter_check {A Er} (m l : list (A * option Er)) : Permutation l m ->
  match check_all l with
  | None => forall a e, ~ In (a, Some e) m
  | Some (a, e) => In (a, Some e) m
  end.
Proof.
  intros Hp. destruct (check_all l) as [[a e]|] eqn:H.
  - apply (Permutation_in _ Hp), check_all_some; auto.
  - intros a e Hi. rewrite check_all_none in H. specialize (H a (Some e) (Permutation_in _ (Permutation_sym Hp) Hi)). discriminate.
Qed.
Lemma arbiter_uniform {A} sc (m l : list (A * Z)) : Permutation l m ->
  (uniform_status sc l = true <-> forall a s, In (a, s) m -> s = sc).
Proof.
  intros Hp. rewrite uniform_spec. split; intros H a s Hi; apply (H a).
  - apply (Permutation_in _ (Permutation_sym Hp)); auto.
  - apply (Permutation_in _ Hp); auto.
Qed.
