(* Proofs about LinearSpec.v. *)
From Verif Require Import Base Num MathUtils Knn Env Centroid CManager DataSpec MgrSpec Wp NumFacts
  Proc Owns Server ServerSpec ServerFacts SeqProofs LinearSpec.
From Coq Require Import Permutation.

Lemma Forall2_nth2 {A B} (R : A -> B -> Prop) l l' i x :
  Forall2 R l l' -> nth_error l i = Some x -> exists y, nth_error l' i = Some y /\ R x y.
Proof.
  intros H. revert i. induction H as [|a b l l' Hab HF IH]; intros [|i] Hx; try discriminate.
  - injection Hx as ->. exists b. auto.
  - apply IH. auto.
Qed.
Lemma Forall2_len2 {A B} (R : A -> B -> Prop) l l' : Forall2 R l l' -> length l = length l'.
Proof. induction 1; cbn; auto. Qed.
Lemma Forall2_set2 {A B} (R : A -> B -> Prop) l l' i x y :
  Forall2 R l l' -> R x y -> Forall2 R (list_set l i x) (list_set l' i y).
Proof. intros H Hxy. revert i. induction H as [|a b l l' Hab HF IH]; intros [|i]; cbn; constructor; auto. Qed.
Section Linear.
Context {N : Num} (E : Env N).
Notation World := (World N).
Notation DP := (DataPoint N).

(* The slot table. *)
Definition same_tbl (w w' : World) : Prop := forall a ns, ptr w' a ns = ptr w a ns.

Definition look (a ns : str) (w : World) : M (option nat * World) :=
  ret (match assoc a (w_nodes w) with None => None | Some nd => assoc ns (nd_tbl nd) end, w).
Definition slot {A} (a : str) (p : nat) (f : CM N -> M (A * CM N)) (g : A -> list DP) (w : World) : M (A * World) :=
  match assoc a (w_nodes w) with
  | None => panic
  | Some nd =>
      match nth_error (nd_heap nd) p with
      | None => panic
      | Some (ns, m) =>
          do ' (x, m') <- f m;
          ret (x, drop ns (g x) (set_node w a (MkNode (list_set (nd_heap nd) p (ns, m')) (nd_tbl nd) (nd_thresh nd))))
      end
  end.

Lemma slot_tbl {A} a p (f : CM N -> M (A * CM N)) g w t x w' t' : slot a p f g w t = Ok ((x, w'), t') -> same_tbl w w'.
Proof.
  unfold slot. destruct (assoc a (w_nodes w)) as [nd|] eqn:Ha; [|discriminate].
  destruct (nth_error (nd_heap nd) p) as [[ns m]|]; [|discriminate]. unfold bind, ret.
  destruct (f m t) as [[[y m'] t1]| |]; try discriminate. intros H. injection H as <- <- <-.
  intros b ns2. unfold ptr. rewrite (node_at_set w a).
  destruct (str_eqb b a) eqn:Eb; auto. apply str_eqb_eq in Eb. subst b. unfold node_at. rewrite Ha. auto.
Qed.

(* What a quiet request is made of. *)
Inductive shape (w : World) : proc' N (ans N) -> Prop :=
| sh_one A l (f : World -> M (A * World)) (F : A -> ans N) K :
    (forall x, K x = Ret (F x)) -> (forall w1 t x w2 t', f w1 t = Ok ((x, w2), t') -> w2 = w1) ->
    shape w (Act l f K)
| sh_two A a ns (f : CM N -> M (A * CM N)) g (F : A -> ans N) K K' :
    (forall p, K (Some p) = Act (Some (LSlot a p)) (slot a p f g) K') -> (forall x, K' x = Ret (F x)) ->
    ((exists r, K None = Ret r) \/ ptr w a ns <> None) ->
    shape w (Act (Some (LTable a)) (look a ns) K).

Lemma manager_ptr (w : World) a ns : manager w a ns <> None -> ptr w a ns <> None.
Proof.
  unfold manager, ptr. destruct (node_at w a) as [nd|]; auto. destruct (assoc ns (nd_tbl nd)); [discriminate|auto].
Qed.

Lemma quiet_shape w a q : quiet_req w a q -> shape w (serve E a q).
Proof.
  destruct q; cbn [quiet_req serve]; intros H; try contradiction;
    try (refine (sh_two w _ a ns _ (fun _ => []) _ _ _ _ _ _);
         [intros p; reflexivity|intros x; reflexivity|left; eexists; reflexivity]).
  - refine (sh_one w _ _ _ (fun l => ANames l) _ _ _); [intros x; reflexivity|].
    intros w1 t x w2 t'. destruct (assoc a (w_nodes w1)); unfold bind, ret.
    + destruct (any_order E (map fst (nd_tbl n)) t) as [[y t1]| |]; try discriminate. intros Hx. injection Hx as <- <- <-. auto.
    + intros Hx. injection Hx as <- <- <-. auto.
  - refine (sh_two w _ a ns _ (unless d) (fun _ => ABool true) _ _ _ _ _);
      [intros p; reflexivity|intros x; reflexivity|right; apply manager_ptr; auto].
Qed.

Lemma look_ptr a ns (w : World) : look a ns w = ret (ptr w a ns, w).
Proof. reflexivity. Qed.

Section Sim.
Context {R : Type} (dflt : R) (w0 : World).

(* A client inside a request or between two, and what the other one has left to do. *)
Inductive sim : proc' N R -> proc' N R -> Prop :=
| sim_at c : quiet w0 c -> sim (run_client E c) (atom_client E c)
| sim_mid A b a rq ns p (f : CM N -> M (A * CM N)) g (F : A -> ans N) K' (k : ans N -> client N R) :
    ptr w0 b ns = Some p -> (forall x, quiet w0 (k x)) -> (forall x, K' x = run_client E (k (F x))) ->
    (forall w1 t, ptr w1 b ns = Some p -> exec (serve E a rq) w1 t = (do ' (x, w2) <- slot b p f g w1; ret (F x, w2)) t) ->
    sim (Act (Some (LSlot b p)) (slot b p f g) K') (atom_client E (CAsk a rq k)).

Lemma sim_ret r q : sim (Ret r) q -> q = Ret r.
Proof.
  intros H. remember (Ret r) as p eqn:Ep. destruct H as [c Hq|]; [|discriminate].
  destruct c as [r'|a rq k].
  - cbn in Ep. injection Ep as ->. reflexivity.
  - exfalso. destruct Hq as [Hq _]. cbn in Ep. destruct (quiet_shape _ _ _ Hq); discriminate.
Qed.

(* One step of the one is at most one step of the other. *)
Lemma sim_step (th th' : list (proc' N R)) i w t : same_tbl w0 w -> Forall2 sim th th' ->
  exists b : bool,
    match step1 dflt th i w t with
    | Ok ((th1, w1), t1) => same_tbl w0 w1 /\ exists th1', Forall2 sim th1 th1' /\
        (if b then step1 dflt th' i w else ret (th', w)) t = Ok ((th1', w1), t1)
    | Panic => b = true /\ step1 dflt th' i w t = Panic
    | OutOfFuel => b = true /\ step1 dflt th' i w t = OutOfFuel
    end.
Proof.
  intros Hw Hs. unfold step1. change (proc (Server.World N) lock R) with (proc' N R) in *. destruct (nth_error th i) as [p|] eqn:Hp.
  2:{ exists false. unfold ret; cbn beta iota. split; auto. exists th'. split; auto. }
  destruct (Forall2_nth2 _ _ _ _ _ Hs Hp) as (q & Hq & Hpq).
  destruct Hpq as [c Hc|A b a rq ns p f g F K' k Hptr Hk HK Hex].
  - destruct c as [r|a rq k].
    + exists false. cbn [run_client]. unfold ret; cbn beta iota. split; auto. exists th'. split; auto.
    + destruct Hc as [Hreq Hk]. cbn [run_client].
      assert (Hq' : nth_error th' i = Some (Act None (exec (serve E a rq)) (fun x => atom_client E (k x)))) by exact Hq. clear Hq.
      pose proof (quiet_shape _ _ _ Hreq) as Hsh. remember (serve E a rq) as sp eqn:Esp.
      destruct Hsh as [A l f F K HK Hf|A b ns f g F K K' HK HK' Hn].
      * exists true. rewrite Hq'. cbn [pbind exec]. unfold bind, ret.
        destruct (f w t) as [[[x w1] t1]| |] eqn:Ef; auto.
        pose proof (Hf _ _ _ _ _ Ef) as ->. split; auto. rewrite HK. cbn [exec pbind]. unfold ret.
        eexists. split; [|reflexivity]. apply Forall2_set2; auto. apply sim_at. auto.
      * cbn [pbind]. rewrite look_ptr. unfold bind, ret at 1. destruct (ptr w b ns) as [p|] eqn:Epp.
        -- exists false. unfold ret; cbn beta iota. split; auto. exists th'. split; auto.
           rewrite <- (list_set_id th' _ _ Hq'). apply Forall2_set2; auto.
           rewrite HK. cbn [pbind]. rewrite Esp.
           change (Act None (exec (serve E a rq)) (fun x => atom_client E (k x))) with (atom_client E (CAsk a rq k)).
           eapply (sim_mid A b a rq ns p f g F); eauto.
           ++ rewrite <- Hw. eauto.
           ++ intros x. cbn beta. rewrite HK'. reflexivity.
           ++ intros w1 t1 Hp1. rewrite <- Esp. cbn [exec]. rewrite look_ptr, Hp1. unfold bind, ret at 1. rewrite HK. cbn [exec]. unfold bind.
              destruct (slot b p f g w1 t1) as [[[x w2] t2]| |]; auto. rewrite HK'. reflexivity.
        -- exists true. destruct Hn as [[r0 Hr0]|Hn]; [|rewrite <- Hw in Hn; congruence]. split; auto.
           rewrite Hq'. cbn [exec]. rewrite look_ptr, Epp. unfold bind, ret. rewrite Hr0. cbn [exec pbind]. unfold ret.
           eexists. split; [|reflexivity]. apply Forall2_set2; auto. apply sim_at; auto.
  - exists true. assert (Hq' : nth_error th' i = Some (Act None (exec (serve E a rq)) (fun x => atom_client E (k x)))) by exact Hq. clear Hq.
    rewrite Hq'. assert (He : exec (serve E a rq) w t = (do ' (x, w2) <- slot b p f g w; ret (F x, w2)) t) by (apply Hex; rewrite Hw; auto).
    unfold bind, ret in He |- *.
    destruct (slot b p f g w t) as [[[x w1] t1]| |] eqn:Ef; rewrite He; auto. split.
    + intros c n. rewrite (slot_tbl _ _ _ _ _ _ _ _ _ Ef). auto.
    + eexists. split; [|reflexivity]. apply Forall2_set2; auto. rewrite HK. apply sim_at; auto.
Qed.

(* The whole run. *)
Lemma sim_run sched : forall (th th' : list (proc' N R)) w t, same_tbl w0 w -> Forall2 sim th th' ->
  exists marks, length marks = length sched /\ forall n,
    match interleave dflt (firstn n sched) th w t with
    | Ok ((th1, w1), t1) => exists th1', Forall2 sim th1 th1' /\
        interleave dflt (select (firstn n marks) (firstn n sched)) th' w t = Ok ((th1', w1), t1)
    | Panic => interleave dflt (select (firstn n marks) (firstn n sched)) th' w t = Panic
    | OutOfFuel => interleave dflt (select (firstn n marks) (firstn n sched)) th' w t = OutOfFuel
    end.
Proof.
  induction sched as [|i s IH]; intros th th' w t Hw Hs.
  - exists []. split; auto. intros n. rewrite firstn_nil. cbn [interleave]. unfold ret. exists th'. rewrite firstn_nil. auto.
  - destruct (sim_step th th' i w t Hw Hs) as (b & Hb).
    assert (Hstuck : forall o, step1 dflt th i w t = o -> o = Panic \/ o = OutOfFuel -> b = true /\ step1 dflt th' i w t = o ->
      exists marks, length marks = length (i :: s) /\ forall n,
        match interleave dflt (firstn n (i :: s)) th w t with
        | Ok ((th1, w1), t1) => exists th1', Forall2 sim th1 th1' /\
            interleave dflt (select (firstn n marks) (firstn n (i :: s))) th' w t = Ok ((th1', w1), t1)
        | Panic => interleave dflt (select (firstn n marks) (firstn n (i :: s))) th' w t = Panic
        | OutOfFuel => interleave dflt (select (firstn n marks) (firstn n (i :: s))) th' w t = OutOfFuel
        end).
    { intros o Ho Hor (-> & Ho'). exists (true :: map (fun _ => true) s). split; [cbn; rewrite map_length; auto|].
      intros [|n]; cbn [firstn select interleave]; unfold bind, ret.
      - exists th'. auto.
      - rewrite Ho, Ho'. destruct Hor as [-> | ->]; auto. }
    destruct (step1 dflt th i w t) as [[[th1 w1] t1]| |] eqn:Est; [|apply (Hstuck Panic); auto|apply (Hstuck OutOfFuel); auto].
    clear Hstuck. destruct Hb as (Hw1 & th1' & Hs1 & Hb).
    destruct (IH th1 th1' w1 t1 Hw1 Hs1) as (marks & Hl & HR).
    exists (b :: marks). split; [cbn; auto|]. intros [|n]; cbn [firstn select].
    + cbn [interleave]. unfold ret. exists th'. auto.
    + specialize (HR n). cbn [interleave]. unfold bind at 1. rewrite Est.
      assert (Hgo : interleave dflt (if b then i :: select (firstn n marks) (firstn n s) else select (firstn n marks) (firstn n s)) th' w t
        = interleave dflt (select (firstn n marks) (firstn n s)) th1' w1 t1).
      { destruct b; cbn [interleave]; [unfold bind; rewrite Hb; auto|]. unfold ret in Hb. injection Hb as -> -> ->. auto. }
      rewrite Hgo. exact HR.
Qed.
End Sim.

Lemma linear_run {R : Type} (dflt : R) (cs : list (client N R)) (w : World) sched t : Forall (quiet w) cs ->
  exists marks, length marks = length sched /\ forall n,
    match interleave dflt (firstn n sched) (map (run_client E) cs) w t with
    | Ok ((th, w1), t1) => exists th',
        interleave dflt (select (firstn n marks) (firstn n sched)) (map (atom_client E) cs) w t = Ok ((th', w1), t1) /\
        Forall2 (fun p p' => forall r, p = Ret r -> p' = Ret r) th th'
    | Panic => interleave dflt (select (firstn n marks) (firstn n sched)) (map (atom_client E) cs) w t = Panic
    | OutOfFuel => interleave dflt (select (firstn n marks) (firstn n sched)) (map (atom_client E) cs) w t = OutOfFuel
    end.
Proof.
  intros Hc. destruct (sim_run dflt w sched (map (run_client E) cs) (map (atom_client E) cs) w t) as (marks & Hl & HR).
  - intros a ns. reflexivity.
  - clear -Hc. induction Hc; cbn [map]; constructor; auto. apply sim_at. auto.
  - exists marks. split; auto. intros n. specialize (HR n).
    destruct (interleave dflt (firstn n sched) (map (run_client E) cs) w t) as [[[th w1] t1]| |]; auto.
    destruct HR as (th' & Hs & HR). exists th'. split; auto.
    clear -Hs. induction Hs as [|p p' l l' Hp HF IH]; constructor; auto. intros r ->. eapply sim_ret; eauto.
Qed.

(* One request each: the requests were served one after the other, in some order. *)
Fixpoint news (n : nat) (done s : list nat) : list nat :=
  match s with
  | [] => []
  | i :: s' => if (i <? n) && negb (existsb (Nat.eqb i) done) then i :: news n (i :: done) s' else news n done s'
  end.
Lemma existsb_in i l : existsb (Nat.eqb i) l = true <-> In i l.
Proof.
  rewrite existsb_exists. split; [intros (x & Hx & He); apply Nat.eqb_eq in He; subst; auto|].
  intros H. exists i. split; auto. apply Nat.eqb_refl.
Qed.
Lemma news_in n s : forall done i, In i (news n done s) -> In i s /\ i < n /\ ~ In i done.
Proof.
  induction s as [|j s IH]; cbn [news]; intros done i; [intros []|].
  destruct (j <? n) eqn:Ej; cbn [andb]; [|intros H; apply IH in H; cbn; tauto].
  destruct (existsb (Nat.eqb j) done) eqn:Ed; cbn [negb].
  - intros H. apply IH in H. cbn. tauto.
  - intros [<-|H].
    + apply Nat.ltb_lt in Ej. repeat split; [left; auto|auto|]. intros Hin. apply existsb_in in Hin. congruence.
    + apply IH in H. cbn in H |- *. tauto.
Qed.
Lemma news_nodup n s : forall done, NoDup (news n done s).
Proof.
  induction s as [|j s IH]; cbn [news]; intros done; [constructor|].
  destruct ((j <? n) && negb (existsb (Nat.eqb j) done)); auto. constructor; auto.
  intros H. apply news_in in H. cbn in H. tauto.
Qed.
Lemma news_app n s1 : forall s2 done, exists rest, news n done (s1 ++ s2) = news n done s1 ++ rest.
Proof.
  induction s1 as [|j s IH]; intros s2 done; cbn [news app]; [eauto|].
  destruct ((j <? n) && negb (existsb (Nat.eqb j) done)); [|auto].
  destruct (IH s2 (j :: done)) as [rest ->]. exists rest. auto.
Qed.

Section Serial.
Context (dflt : ans N) (reqs : list (str * req N)).
Definition pool (done : list nat) (th : list (proc' N (ans N))) : Prop :=
  length th = length reqs /\ forall i e, nth_error reqs i = Some e ->
    (In i done -> exists r, nth_error th i = Some (Ret r)) /\
    (~ In i done -> nth_error th i = Some (atom_client E (ask e))).

Lemma atoms_run s : forall done th w t th' w' t', pool done th -> interleave dflt s th w t = Ok ((th', w'), t') ->
  exists ys, serve_seq E (pick (news (length reqs) done s) reqs) w t = Ok ((ys, w'), t') /\
    Forall2 (fun i y => nth_error th' i = Some (Ret y)) (news (length reqs) done s) ys /\
    (forall i r, nth_error th i = Some (Ret r) -> nth_error th' i = Some (Ret r)) /\
    (forall i r, nth_error th' i = Some (Ret r) -> In i done \/ In i (news (length reqs) done s)) /\
    length th' = length reqs.
Proof.
  induction s as [|i s IH]; intros done th w t th' w' t' Hpool.
  - cbn [interleave news pick flat_map serve_seq]. unfold ret. intros H. injection H as <- <- <-.
    exists []. split; auto. split; [constructor|]. split; auto. split; [|apply Hpool].
    intros i r Hi. left. change (proc (Server.World N) lock (ans N)) with (proc' N (ans N)) in *. destruct Hpool as [Hl Hp].
    destruct (nth_error reqs i) as [e|] eqn:He.
    + destruct (in_dec Nat.eq_dec i done) as [|Hn]; auto. destruct (Hp i e He) as [_ H2]. specialize (H2 Hn). change (proc (Server.World N) lock (ans N)) with (proc' N (ans N)) in *. rewrite Hi in H2. discriminate.
    + apply nth_error_None in He. assert (Hx : nth_error th i <> None) by (rewrite Hi; discriminate). apply nth_error_Some in Hx.
      change (proc (Server.World N) lock (ans N)) with (proc' N (ans N)) in *. lia.
  - cbn [interleave news]. unfold bind at 1. unfold step1.
    change (proc (Server.World N) lock (ans N)) with (proc' N (ans N)) in *.
    pose proof Hpool as [Hl Hp]. destruct (nth_error reqs i) as [e|] eqn:He.
    2:{ assert (Hi : nth_error th i = None) by (apply nth_error_None; apply nth_error_None in He; lia).
        rewrite Hi. replace (i <? length reqs) with false by (symmetry; apply Nat.ltb_ge; apply nth_error_None; auto).
        cbn [andb]. unfold ret. apply IH. auto. }
    replace (i <? length reqs) with true by (symmetry; apply Nat.ltb_lt; apply nth_error_Some; congruence). cbn [andb].
    destruct (Hp i e He) as [H1 H2]. destruct (existsb (Nat.eqb i) done) eqn:Ed; cbn [negb].
    + apply existsb_in in Ed. destruct (H1 Ed) as [r Hr]. rewrite Hr. unfold ret. apply IH. auto.
    + assert (Hnd : ~ In i done) by (intros Hin; apply existsb_in in Hin; congruence).
      specialize (H2 Hnd). rewrite H2. unfold ask. cbn [atom_client]. unfold bind, ret.
      destruct (exec (serve E (fst e) (snd e)) w t) as [[[y w1] t1]| |] eqn:Ex; try discriminate. intros H.
      apply (IH (i :: done)) in H.
      * destruct H as (ys & HS & HF & Hk & Hd & Hlen). exists (y :: ys). split.
        -- unfold pick in HS |- *. cbn [flat_map]. rewrite He. cbn [app serve_seq]. destruct e as [a q]. cbn [fst snd] in Ex.
           unfold bind. rewrite Ex. rewrite HS. reflexivity.
        -- assert (Hi : nth_error th' i = Some (Ret y)).
           { apply Hk. apply list_set_same. change (proc (Server.World N) lock (ans N)) with (proc' N (ans N)) in *.
             rewrite Hl. apply nth_error_Some. congruence. }
           split; [constructor; auto|]. split.
           ++ intros j r Hj. apply Hk. change (proc (Server.World N) lock (ans N)) with (proc' N (ans N)) in *. destruct (Nat.eq_dec j i) as [->|Hji]; [rewrite H2 in Hj; discriminate|].
              rewrite list_set_other; auto.
           ++ split; auto. intros j r Hj. destruct (Hd j r Hj) as [[<-|]|]; cbn; auto.
      * split; [rewrite list_set_length; auto|]. intros j f Hj. destruct (Hp j f Hj) as [J1 J2].
        destruct (Nat.eq_dec j i) as [->|Hji].
        -- split; [|intros Hn; exfalso; apply Hn; left; auto]. intros _. exists y. apply list_set_same.
           change (proc (Server.World N) lock (ans N)) with (proc' N (ans N)) in *. rewrite Hl. apply nth_error_Some. congruence.
        -- rewrite list_set_other by auto. split; [intros [Hx|Hx]; [congruence|auto]|].
           intros Hn. apply J2. intros Hx. apply Hn. right. auto.
Qed.
End Serial.

Lemma serial_run (dflt : ans N) (reqs : list (str * req N)) (w : World) sched t xs w' t' :
  Forall (fun e => quiet_req w (fst e) (snd e)) reqs ->
  interleave dflt sched (map (fun e => run_client E (ask e)) reqs) w t = Ok ((map Ret xs, w'), t') ->
  exists order, Permutation order (seq 0 (length reqs)) /\
    serve_seq E (pick order reqs) w t = Ok ((pick order xs, w'), t') /\
    forall i j n th w1 t1 x, interleave dflt (firstn n sched) (map (fun e => run_client E (ask e)) reqs) w t = Ok ((th, w1), t1) ->
      nth_error th i = Some (Ret x) -> ~ In j (firstn n sched) -> j < length reqs ->
      exists before after, order = before ++ after /\ In i before /\ In j after.
Proof.
  intros Hq Hrun.
  assert (Hq' : Forall (quiet w) (map ask reqs)).
  { apply Forall_map. eapply Forall_impl; [|exact Hq]. intros e He. cbn. auto. }
  destruct (linear_run dflt (map ask reqs) w sched t Hq') as (marks & Hl & HR).
  rewrite !map_map in HR.
  assert (Hpool : pool reqs [] (map (fun e => atom_client E (ask e)) reqs)).
  { split; [apply map_length|]. intros i e He. split; [intros []|]. intros _. rewrite nth_error_map, He. auto. }
  set (order := news (length reqs) [] (select marks sched)).
  pose proof (HR (length sched)) as HE. rewrite firstn_all in HE. rewrite <- Hl, firstn_all in HE.
  rewrite Hrun in HE. destruct HE as (th' & Hat & HF).
  destruct (atoms_run dflt reqs _ _ _ _ _ _ _ _ Hpool Hat) as (ys & HS & HFy & _ & Hd & Hlth).
  fold order in HS, HFy, Hd.
  assert (Hth' : forall i x, nth_error xs i = Some x -> nth_error th' i = Some (Ret x)).
  { intros i x Hx. destruct (Forall2_nth2 _ _ _ i (Ret x) HF) as (p & Hp & Hpr); [rewrite nth_error_map, Hx; auto|].
    rewrite Hp. f_equal. apply Hpr. auto. }
  assert (Hlen : length xs = length reqs).
  { apply Forall2_len2 in HF. rewrite map_length in HF. change (proc (Server.World N) lock (ans N)) with (proc' N (ans N)) in *. lia. }
  assert (Hall : forall i, i < length reqs -> In i order).
  { intros i Hi. destruct (nth_error xs i) as [x|] eqn:Hx; [|apply nth_error_None in Hx; lia].
    destruct (Hd i x (Hth' i x Hx)) as [[]|]; auto. }
  assert (Hperm : Permutation order (seq 0 (length reqs))).
  { apply NoDup_Permutation; [apply news_nodup|apply seq_NoDup|]. intros i. rewrite in_seq. split; [|intros Hi; apply Hall; lia].
    intros Hi. apply news_in in Hi. lia. }
  exists order. split; [auto|split].
  - replace (pick order xs) with ys; auto. clear -HFy Hth' Hall Hlen Hperm.
    assert (Hlt : Forall (fun i => i < length reqs) order).
    { apply Forall_forall. intros i Hi. eapply Permutation_in in Hi; [|exact Hperm]. apply in_seq in Hi. lia. }
    clear Hall Hperm. induction HFy as [|i y l ys Hy HF IH]; auto. inversion Hlt; subst.
    destruct (nth_error xs i) as [x|] eqn:Hx; [|apply nth_error_None in Hx; lia].
    rewrite (pick_cons _ _ _ _ Hx), <- IH by auto. f_equal.
    specialize (Hth' i x Hx). change (proc (Server.World N) lock (ans N)) with (proc' N (ans N)) in *. congruence.
  - intros i j n th w1 t1 x Hn Hi Hj Hjl. pose proof (HR n) as HE. rewrite Hn in HE. destruct HE as (th1 & Hat1 & HF1).
    destruct (atoms_run dflt reqs _ _ _ _ _ _ _ _ Hpool Hat1) as (ys1 & _ & _ & _ & Hd1 & _).
    assert (Hsel : exists rest, select marks sched = select (firstn n marks) (firstn n sched) ++ rest).
    { clear. revert n sched. induction marks as [|b m IH]; intros [|n] [|y s]; cbn [firstn select app]; try (eexists; reflexivity).
      destruct (IH n s) as [rest ->]. destruct b; eexists; reflexivity. }
    destruct Hsel as [rest Hsel].
    destruct (news_app (length reqs) (select (firstn n marks) (firstn n sched)) rest []) as [after Ho].
    rewrite <- Hsel in Ho. fold order in Ho.
    exists (news (length reqs) [] (select (firstn n marks) (firstn n sched))), after. split; auto.
    destruct (Forall2_nth2 _ _ _ _ _ HF1 Hi) as (p & Hp & Hpr). rewrite (Hpr x eq_refl) in Hp. split.
    + destruct (Hd1 i x Hp) as [[]|]; auto.
    + specialize (Hall j Hjl). rewrite Ho in Hall. apply in_app_or in Hall. destruct Hall as [Hx|]; auto.
      exfalso. apply Hj. apply news_in in Hx. destruct Hx as [Hx _]. clear -Hx. revert Hx. generalize (firstn n marks) (firstn n sched).
      intros m s. revert m. induction s as [|y s IH]; intros [|b m]; cbn [select]; try intros []; auto.
      destruct b; cbn; [intros [|]; eauto|eauto].
Qed.
End Linear.
