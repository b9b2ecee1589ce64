(* Meta while other clients are at work: every entry was right at some moment. *)
From Verif Require Import Base Num MathUtils Knn Env Centroid CManager DataSpec MgrSpec Wp NumFacts
  Proc Owns Server ServerSpec ServerFacts SeqProofs CMProofs LinearSpec LinearProofs.
From Coq Require Import Permutation.

Section Linear2.
Context {N : Num} (E : Env N) (HE : EnvOk E).
Notation World := (World N).
Notation DP := (DataPoint N).
Context (w0 : World) (a : str).

Definition tbls (w : World) : Prop := forall b, option_map nd_tbl (node_at w b) = option_map nd_tbl (node_at w0 b).
Definition entry : Type := str * (nat * nat).
Definition shown (w : World) (e : entry) : Prop :=
  exists m, manager w a (fst e) = Some m /\ snd e = (length (cm_cs m), length (stored (cm_cs m))).

Lemma tbls_ptr w b ns : tbls w -> ptr w b ns = ptr w0 b ns.
Proof.
  intros H. specialize (H b). unfold ptr. destruct (node_at w b), (node_at w0 b); cbn in H; try discriminate; auto. injection H as ->. auto.
Qed.
Lemma slot_tbls {A} b p (f : CM N -> M (A * CM N)) g w t x w' t' : tbls w -> slot b p f g w t = Ok ((x, w'), t') -> tbls w'.
Proof.
  intros Ht. unfold slot. destruct (assoc b (w_nodes w)) as [nd|] eqn:Ha; [|discriminate].
  destruct (nth_error (nd_heap nd) p) as [[ns m]|]; [|discriminate]. unfold bind, ret.
  destruct (f m t) as [[[y m'] t1]| |]; try discriminate. intros H. injection H as <- <- <-.
  intros c. rewrite (node_at_set w b). destruct (str_eqb c b) eqn:Eb; auto. apply str_eqb_eq in Eb. subst c.
  rewrite <- Ht. unfold node_at. rewrite Ha. auto.
Qed.

(* The tables stay as they are. *)
Fixpoint stays {R} (p : proc' N R) : Prop :=
  match p with
  | Ret _ => True
  | Act _ f k => forall w t x w' t', tbls w -> f w t = Ok ((x, w'), t') -> tbls w' /\ stays (k x)
  | Fork _ _ => False
  end.
Lemma stays_client {R} (c : client N R) : quiet w0 c -> stays (run_client E c).
Proof.
  induction c as [r|b q k IH]; intros Hq; [exact I|]. destruct Hq as [Hq Hk]. cbn [run_client].
  pose proof (quiet_shape E _ _ _ Hq) as Hsh. remember (serve E b q) as sp eqn:Esp. clear Esp.
  destruct Hsh as [A l f F K HK Hf|A c ns f g F K K' HK HK' Hn]; cbn [pbind stays].
  - intros w t x w' t' Ht Hx. rewrite (Hf _ _ _ _ _ Hx). split; auto. rewrite HK. cbn [pbind]. apply IH. auto.
  - intros w t x w' t' Ht. rewrite look_ptr. unfold ret. intros H. injection H as <- <- <-. split; auto.
    destruct (ptr w c ns) as [p|] eqn:Ep.
    + rewrite HK. cbn [pbind stays]. intros w1 t1 x w2 t2 Ht1 Hx. split; [eapply slot_tbls; eauto|].
      rewrite HK'. cbn [pbind]. apply IH. auto.
    + destruct Hn as [[r ->]|Hn]; [cbn [pbind]; apply IH; auto|]. rewrite (tbls_ptr _ _ _ Ht) in Ep. congruence.
Qed.

(* What a process has seen: S holds for the entries that were right after one of its steps. *)
Fixpoint sees {R} (S : entry -> Prop) (p : proc' N R) (Q : (entry -> Prop) -> R -> Prop) : Prop :=
  match p with
  | Ret r => Q S r
  | Act _ f k => forall w t x w' t', tbls w -> f w t = Ok ((x, w'), t') -> tbls w' /\ sees (fun e => S e \/ shown w' e) (k x) Q
  | Fork _ _ => False
  end.
Lemma sees_bind {R R'} (p : proc' N R) (k : R -> proc' N R') Q : forall S,
  sees S p (fun S' r => sees S' (k r) Q) -> sees S (pbind p k) Q.
Proof.
  revert R' k Q. induction p as [R r|R A o g k' IH|R q IHq k' IHk]; intros R' k Q S H; cbn [sees pbind] in *; auto.
  intros w t x w' t' Ht Hx. destruct (H _ _ _ _ _ Ht Hx). auto.
Qed.
Lemma sees_mono {R} (p : proc' N R) : forall (Q Q' : (entry -> Prop) -> R -> Prop) (S : entry -> Prop),
  (forall (S' : entry -> Prop) r, (forall e, S e -> S' e) -> Q S' r -> Q' S' r) -> sees S p Q -> sees S p Q'.
Proof.
  induction p as [R r|R A o g k' IH|R q IHq k' IHk]; intros Q Q' S HQ H; cbn [sees] in *; auto.
  intros w t x w' t' Ht Hx. destruct (H _ _ _ _ _ Ht Hx) as [H1 H2]. split; auto. eapply IH; [|exact H2]. intros S' r Hs. apply HQ. auto.
Qed.

Lemma sees_sizes S ns : ptr w0 a ns <> None ->
  sees S (access a ns (fun m => ret ((length (cm_cs m), cm_len_dp m), m)))
    (fun S' o => exists x, o = Some x /\ S' (ns, x)).
Proof.
  intros Hp. unfold access, access_g, lookup. cbn [pbind sees]. intros w t x w' t' Ht H. unfold ret in H.
  injection H as <- <- <-. split; auto. change (match assoc a (w_nodes w) with Some nd => assoc ns (nd_tbl nd) | None => None end) with (ptr w a ns).
  pose proof (tbls_ptr w a ns Ht) as Hpp. destruct (ptr w a ns) as [p|]; [|congruence].
  cbn [pbind sees]. intros w1 t1 x w2 t2 Ht1 H.
  split; [apply (slot_tbls a p (fun m => ret ((length (cm_cs m), cm_len_dp m), m)) (fun _ => []) w1 t1 x w2 t2); auto|].
  exists x. split; auto. right. unfold shown. cbn [fst snd].
  pose proof (tbls_ptr w1 a ns Ht1) as Hp1. rewrite <- Hpp in Hp1. unfold ptr, node_at in Hp1.
  destruct (assoc a (w_nodes w1)) as [nd|] eqn:Ha; [|discriminate].
  destruct (nth_error (nd_heap nd) p) as [[ns' m]|] eqn:Hn; [|discriminate]. unfold bind, ret in H. injection H as <- <- <-.
  exists m. rewrite cm_len_dp_stored. split; auto. unfold manager, node_at, drop, set_node. cbn [w_nodes].
  rewrite assoc_upsert_same. cbn [nd_tbl nd_heap]. rewrite Hp1.
  rewrite list_set_same; [auto|]. apply nth_error_Some. congruence.
Qed.

Lemma sees_loop nss : forall S, (forall ns, In ns nss -> ptr w0 a ns <> None) ->
  sees S (meta_loop a nss) (fun S' l => map fst l = nss /\ forall e, In e l -> S' e).
Proof.
  induction nss as [|ns nss IH]; intros S Hn; cbn [meta_loop].
  - cbn [sees]. split; auto. intros e [].
  - apply sees_bind. eapply sees_mono; [|apply sees_sizes; apply Hn; left; auto].
    intros S1 o HS (x & -> & Hx). apply sees_bind. eapply sees_mono; [|apply IH; intros n Hi; apply Hn; right; auto].
    intros S2 l HS2 (H1 & H2). cbn [sees map fst]. split; [congruence|]. intros e [<-|He]; auto.
Qed.

Definition full (l : list entry) : Prop := NoDup (map fst l) /\ forall ns, In ns (map fst l) <-> manager w0 a ns <> None.
Lemma sees_meta S : WorldOk w0 -> sees S (run_client E (CAsk a QMeta CRet)) (fun S' x => exists l, x = AMeta l /\ full l /\ forall e, In e l -> S' e).
Proof.
  intros Hw. cbn [run_client serve]. apply sees_bind. unfold h_meta. apply sees_bind. apply sees_bind. cbn [h_namespaces sees].
  intros w t x w' t' Ht. pose proof (Ht a) as Hta. unfold node_at in Hta.
  assert (Hgo : forall S1 : entry -> Prop, NoDup x -> (forall ns, In ns x <-> manager w0 a ns <> None) ->
    sees S1 (meta_loop a x) (fun S' r => sees S' (Ret (AMeta r) : proc' N (ans N)) (fun S'0 r0 => sees S'0 (run_client E (CRet r0))
      (fun S'1 x => exists l, x = AMeta l /\ full l /\ forall e, In e l -> S'1 e)))).
  { intros S1 Hd Hm. eapply sees_mono; [|apply sees_loop; intros ns Hi; apply manager_ptr; apply Hm; auto].
    intros S2 l HS (H1 & H2). cbn [sees run_client]. exists l. unfold full. rewrite H1. auto. }
  destruct Hw as (W1 & W2).
  destruct (assoc a (w_nodes w)) as [nd|] eqn:Ha.
  - unfold any_order, bind, tick, ret. intros H. injection H as <- <- <-. split; auto.
    destruct (assoc a (w_nodes w0)) as [nd0|] eqn:Ha0; [|discriminate]. cbn in Hta. injection Hta as Hta.
    destruct (W2 a nd0 (assoc_in _ _ _ Ha0)) as (K1 & K2).
    set (ks := pick _ _) in *. assert (Hk : Permutation ks (map fst (nd_tbl nd0))).
    { rewrite <- Hta. apply pick_any_perm, (proj1 HE). }
    apply Hgo.
    + eapply Permutation_NoDup; [apply Permutation_sym; eauto|auto].
    + intros ns. unfold manager, node_at. rewrite Ha0. split.
      * intros Hi. apply (Permutation_in _ Hk) in Hi. destruct (assoc ns (nd_tbl nd0)) as [p|] eqn:Hp'.
        -- destruct (K2 ns p (assoc_in _ _ _ Hp')) as (m & ->). discriminate.
        -- exfalso. apply in_map_iff in Hi. destruct Hi as ((ns', p) & <- & Hi). cbn [fst] in *. rewrite (in_assoc _ _ _ K1 Hi) in Hp'. discriminate.
      * intros Hi. apply Permutation_sym in Hk. apply (Permutation_in _ Hk). destruct (assoc ns (nd_tbl nd0)) as [p|] eqn:Hp'; [|congruence].
        apply assoc_in in Hp'. apply in_map_iff. exists (ns, p). auto.
  - unfold ret. intros H. injection H as <- <- <-. split; auto.
    destruct (assoc a (w_nodes w0)) as [nd0|] eqn:Ha0; [discriminate|]. apply Hgo; [constructor|].
    intros ns. unfold manager, node_at. rewrite Ha0. split; [intros []|congruence].
Qed.

Section Run.
Context {R : Type} (dflt : R) (i : nat) (Q : (entry -> Prop) -> R -> Prop).
Lemma sees_run s : forall th w t (S : entry -> Prop) th' w' t', tbls w ->
  (forall j p, nth_error th j = Some p -> if j =? i then sees S p Q else stays p) ->
  interleave dflt s th w t = Ok ((th', w'), t') ->
  forall r, nth_error th' i = Some (Ret r) -> exists S', Q S' r /\
    forall e, S' e -> S e \/ exists n th1 w1 t1, nth_error s n = Some i /\ interleave dflt (firstn (n + 1) s) th w t = Ok ((th1, w1), t1) /\ shown w1 e.
Proof.
  induction s as [|j s IH]; intros th w t S th' w' t' Ht Hth; cbn [interleave].
  - unfold ret. intros H r Hr. injection H as <- <- <-. specialize (Hth i _ Hr). rewrite Nat.eqb_refl in Hth. cbn [sees] in Hth. eauto.
  - unfold bind at 1. destruct (step1 dflt th j w t) as [[[th1 w1] t1]| |] eqn:Est; try discriminate. intros H r Hr.
    assert (Hshift : forall S1 : entry -> Prop, (forall e, S1 e -> S e \/ (j = i /\ shown w1 e)) -> tbls w1 ->
      (forall j p, nth_error th1 j = Some p -> if j =? i then sees S1 p Q else stays p) ->
      exists S', Q S' r /\ forall e, S' e -> S e \/ exists n th2 w2 t2, nth_error (j :: s) n = Some i /\
        (do ' (th', w') <- step1 dflt th j w; interleave dflt (firstn n s) th' w') t = Ok ((th2, w2), t2) /\ shown w2 e).
    { intros S1 HS1 Ht1 Hth1. destruct (IH _ _ _ _ _ _ _ Ht1 Hth1 H r Hr) as (S' & HQ & HS'). exists S'. split; auto.
      intros e He. destruct (HS' e He) as [H1|(n & th2 & w2 & t2 & H1 & H2 & H3)].
      - destruct (HS1 e H1) as [|[-> Hw1]]; auto. right. exists 0, th1, w1, t1. split; [auto|]. unfold bind. rewrite Est. cbn. auto.
      - right. exists (n + 1), th2, w2, t2. split; [rewrite Nat.add_1_r; auto|]. unfold bind. rewrite Est. auto. }
    assert (Hfin : exists S', Q S' r /\ forall e, S' e -> S e \/ exists n th2 w2 t2, nth_error (j :: s) n = Some i /\
        (do ' (th', w') <- step1 dflt th j w; interleave dflt (firstn n s) th' w') t = Ok ((th2, w2), t2) /\ shown w2 e).
    { pose proof Est as Es. unfold step1 in Es. change (proc (Server.World N) lock R) with (proc' N R) in *.
      destruct (nth_error th j) as [p|] eqn:Hj.
      2:{ unfold ret in Es. injection Es as <- <- <-. apply (Hshift S); auto. }
      pose proof (Hth j p Hj) as Hp. destruct p as [r'|A l f k|q k].
      - unfold ret in Es. injection Es as <- <- <-. apply (Hshift S); auto.
      - unfold bind, ret in Es. destruct (f w t) as [[[x w2] t2]| |] eqn:Ef; try discriminate. injection Es as <- <- <-.
        assert (Hset : forall S1 : entry -> Prop, (j =? i = true -> sees S1 (k x) Q) -> (j =? i = false -> stays (k x)) ->
           (forall e, S e -> S1 e) -> (j =? i = false -> S1 = S) ->
           forall j0 p, nth_error (list_set th j (k x)) j0 = Some p -> if j0 =? i then sees S1 p Q else stays p).
        { intros S1 H1 H2 H3 H4 j0 p Hj0. destruct (Nat.eq_dec j0 j) as [->|Hne].
          - rewrite list_set_same in Hj0 by (apply nth_error_Some; congruence). injection Hj0 as <-. destruct (j =? i); auto.
          - rewrite list_set_other in Hj0 by auto. specialize (Hth j0 p Hj0). destruct (j0 =? i) eqn:E0; auto.
            rewrite H4; auto. apply Nat.eqb_neq. apply Nat.eqb_eq in E0. congruence. }
        destruct (j =? i) eqn:Eji.
        + cbn [sees] in Hp. destruct (Hp _ _ _ _ _ Ht Ef) as (Hp1 & Hp2). apply Nat.eqb_eq in Eji.
          apply (Hshift (fun e => S e \/ shown w2 e)); auto.
          * intros e [|]; auto.
          * apply Hset; auto; discriminate.
        + cbn [stays] in Hp. destruct (Hp _ _ _ _ _ Ht Ef) as (Hp1 & Hp2). apply (Hshift S); auto. apply Hset; auto. discriminate.
      - destruct (j =? i); destruct Hp. }
    destruct Hfin as (S' & HQ & HS'). exists S'. split; auto. intros e He. destruct (HS' e He) as [|(n & th2 & w2 & t2 & H1 & H2 & H3)]; auto.
    right. exists n, th2, w2, t2. split; auto. split; auto. rewrite Nat.add_1_r. cbn [firstn interleave]. exact H2.
Qed.
End Run.
End Linear2.

Lemma meta_run {N : Num} (E : Env N) (HE : EnvOk E) (dflt : ans N) (cs : list (client N (ans N))) i a (w : World N) sched t th w' t' x :
  WorldOk w -> nth_error cs i = Some (CAsk a QMeta CRet) -> (forall j c, nth_error cs j = Some c -> j <> i -> quiet w c) ->
  interleave dflt sched (map (run_client E) cs) w t = Ok ((th, w'), t') -> nth_error th i = Some (Ret x) ->
  exists l, x = AMeta l /\ NoDup (map fst l) /\ (forall ns, In ns (map fst l) <-> manager w a ns <> None) /\
    forall ns c d, In (ns, (c, d)) l -> exists n th1 w1 t1 m, nth_error sched n = Some i /\
      interleave dflt (firstn (n + 1) sched) (map (run_client E) cs) w t = Ok ((th1, w1), t1) /\
      manager w1 a ns = Some m /\ c = length (cm_cs m) /\ d = length (stored (cm_cs m)).
Proof.
  intros Hw Hi Hq Hrun Hx.
  destruct (sees_run w a dflt i (fun S' x => exists l, x = AMeta l /\ full w a l /\ forall e, In e l -> S' e) sched
    (map (run_client E) cs) w t (fun _ => False) th w' t') with (r := x) as (S' & (l & -> & (H1 & H2) & H3) & HS); auto.
  - intros b. auto.
  - intros j p Hj. rewrite nth_error_map in Hj. destruct (nth_error cs j) as [c|] eqn:Hc; [|discriminate]. cbn in Hj. injection Hj as <-.
    destruct (j =? i) eqn:Eji.
    + apply Nat.eqb_eq in Eji. subst j. rewrite Hi in Hc. injection Hc as <-. apply sees_meta; auto.
    + apply Nat.eqb_neq in Eji. apply stays_client. eauto.
  - exists l. split; auto. split; auto. split; auto. intros ns c d Hin.
    destruct (HS _ (H3 _ Hin)) as [[]|(n & th1 & w1 & t1 & K1 & K2 & m & K3 & K4)]. cbn [fst snd] in *. injection K4 as -> ->.
    exists n, th1, w1, t1, m. auto.
Qed.
