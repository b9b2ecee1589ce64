(* A request running alone is one of the schedules of a pool. *)
From Verif Require Import Base Num MathUtils Knn Env Centroid CManager DataSpec MgrSpec Wp DataFacts NumFacts
  Proc Owns Server ServerSpec ServerFacts ServerProofs ClusterProofs.

Section Drive.
Context {W L : Type}.

Lemma exec_drive : forall {R} (p : proc W L R) {S} (dflt : S) (k : R -> proc W L S) th1 th2 w t,
  match exec p w t with
  | Ok ((r, w'), t') => exists sched n,
      interleave dflt sched (th1 ++ pbind p k :: th2) w t = Ok ((th1 ++ k r :: th2 ++ repeat (Ret dflt) n, w'), t')
  | Panic => exists sched, interleave dflt sched (th1 ++ pbind p k :: th2) w t = Panic
  | OutOfFuel => exists sched, interleave dflt sched (th1 ++ pbind p k :: th2) w t = OutOfFuel
  end.
Proof.
  intros R p. induction p as [R r|R A l f k0 IH|R q IHq k0 IHk]; intros S dflt k th1 th2 w t; cbn [exec pbind].
  - unfold ret. exists [], 0. cbn [repeat interleave]. unfold ret. rewrite app_nil_r. auto.
  - unfold bind. destruct (f w t) as [[[a w'] t']| |] eqn:Hf.
    + specialize (IH a S dflt k th1 th2 w' t').
      assert (Hs : forall s, interleave dflt (length th1 :: s) (th1 ++ Act l f (fun x => pbind (k0 x) k) :: th2) w t =
        interleave dflt s (th1 ++ pbind (k0 a) k :: th2) w' t').
      { intros s. cbn [interleave]. unfold bind at 1, step1. rewrite nth_error_app2, Nat.sub_diag by lia. cbn [nth_error].
        unfold bind, ret. rewrite Hf, list_set_app. auto. }
      destruct (exec (k0 a) w' t') as [[[r w2] t2]| |].
      * destruct IH as (s & n & IH). exists (length th1 :: s), n. rewrite Hs. auto.
      * destruct IH as (s & IH). exists (length th1 :: s). rewrite Hs. auto.
      * destruct IH as (s & IH). exists (length th1 :: s). rewrite Hs. auto.
    + exists [length th1]. cbn [interleave]. unfold bind at 1, step1. rewrite nth_error_app2, Nat.sub_diag by lia. cbn [nth_error].
      unfold bind. rewrite Hf. auto.
    + exists [length th1]. cbn [interleave]. unfold bind at 1, step1. rewrite nth_error_app2, Nat.sub_diag by lia. cbn [nth_error].
      unfold bind. rewrite Hf. auto.
  - assert (Hs : forall s, interleave dflt (length th1 :: s) (th1 ++ Fork q (pbind k0 k) :: th2) w t =
        interleave dflt s ((th1 ++ pbind k0 k :: th2) ++ [pbind q (fun _ => Ret dflt)]) w t).
    { intros s. cbn [interleave]. unfold bind at 1, step1. rewrite nth_error_app2, Nat.sub_diag by lia. cbn [nth_error].
      unfold ret. rewrite list_set_app. auto. }
    specialize (IHq S dflt (fun _ => Ret dflt) (th1 ++ pbind k0 k :: th2) [] w t). unfold bind.
    destruct (exec q w t) as [[[u w1] t1]| |].
    + destruct IHq as (s1 & n1 & IHq). specialize (IHk S dflt k th1 (th2 ++ Ret dflt :: repeat (Ret dflt) n1) w1 t1).
      assert (Ht : forall s, interleave dflt (length th1 :: s1 ++ s) (th1 ++ Fork q (pbind k0 k) :: th2) w t =
        interleave dflt s (th1 ++ pbind k0 k :: th2 ++ Ret dflt :: repeat (Ret dflt) n1) w1 t1).
      { intros s. rewrite Hs, interleave_app, IHq. cbn [app]. rewrite <- app_assoc. auto. }
      destruct (exec k0 w1 t1) as [[[r w2] t2]| |].
      * destruct IHk as (s2 & n2 & IHk). exists (length th1 :: s1 ++ s2), (1 + n1 + n2). rewrite Ht, IHk.
        rewrite <- !app_assoc. cbn [app plus repeat]. rewrite repeat_app. auto.
      * destruct IHk as (s2 & IHk). exists (length th1 :: s1 ++ s2). rewrite Ht. auto.
      * destruct IHk as (s2 & IHk). exists (length th1 :: s1 ++ s2). rewrite Ht. auto.
    + destruct IHq as (s1 & IHq). exists (length th1 :: s1). rewrite Hs. auto.
    + destruct IHq as (s1 & IHq). exists (length th1 :: s1). rewrite Hs. auto.
Qed.
End Drive.

Section Alone.
Context {N : Num} (E : Env N) (HE : EnvOk E) (HO : NumOrd N).
Notation World := (World N).

Lemma map_repeat {A B} (f : A -> B) x n : map f (repeat x n) = repeat (f x) n.
Proof. induction n; cbn [repeat map]; f_equal; auto. Qed.

Lemma exec_request a q (w : World) t :
  match exec (serve E a q) w t with
  | Ok ((x, w'), t') => exists sched n,
      interleave idle sched (map (request E) [(a, q)]) w t = Ok ((map (fun r => Ret r) ((q, x) :: repeat idle n), w'), t')
  | Panic => exists sched, interleave idle sched (map (request E) [(a, q)]) w t = Panic
  | OutOfFuel => exists sched, interleave idle sched (map (request E) [(a, q)]) w t = OutOfFuel
  end.
Proof.
  pose proof (exec_drive (serve E a q) idle (fun x => Ret (q, x)) [] [] w t) as Hd.
  destruct (exec (serve E a q) w t) as [[[x w'] t']| |]; [|exact Hd|exact Hd].
  destruct Hd as (s & n & Hd). exists s, n. cbn [map]. rewrite map_repeat. exact Hd.
Qed.

(* One request, alone, at a node in order. *)
Lemma alone_safe (D : str -> nat -> Prop) a q (w : World) t : WorldOk w -> DimsOk D w -> node_at w a <> None ->
  req_counts q -> req_dims D q ->
  match exec (serve E a q) w t with
  | Ok ((_, w'), _) => WorldOk w' /\ DimsOk D w'
  | Panic => False
  | OutOfFuel => is_steal q
  end.
Proof.
  intros H1 H2 H3 H4 H5. pose proof (exec_request a q w t) as Hd.
  assert (HR : Requests D w [(a, q)]) by (repeat constructor; auto).
  pose proof (fun s => pool_safe E HE HO D w [(a, q)] s t H1 H2 HR) as Hs.
  destruct (exec (serve E a q) w t) as [[[x w'] t']| |].
  - destruct Hd as (s & n & Hd). specialize (Hs s). rewrite Hd in Hs. auto.
  - destruct Hd as (s & Hd). specialize (Hs s). rewrite Hd in Hs. auto.
  - destruct Hd as (s & Hd). specialize (Hs s). rewrite Hd in Hs. inversion Hs as [? ? K'|? ? K']; subst; auto. inversion K'.
Qed.

Lemma answered_idle n : answered (N:=N) (repeat idle n) = [].
Proof. induction n; auto. Qed.

Lemma alone_conserves (D : str -> nat -> Prop) a q (w : World) t : WorldOk w -> DimsOk D w -> node_at w a <> None ->
  req_counts q -> req_dims D q -> answers_arrive E -> ~ is_steal q ->
  wp (exec (serve E a q) w) t (fun r t' => exists dropped, w_dropped (snd r) = w_dropped w ++ dropped /\
    keeps E t t' (all_data w ++ req_tin q) (all_data (snd r) ++ ans_tout q (fst r) ++ dropped) /\
    (nothing_refused E D [(a, q)] -> Forall (fun e => seen_expired E t t' (snd e)) dropped)).
Proof.
  intros H1 H2 H3 H4 H5 Ha Hst. pose proof (exec_request a q w t) as Hd.
  pose proof (alone_safe D a q w t H1 H2 H3 H4 H5) as Hs. unfold wp.
  destruct (exec (serve E a q) w t) as [[[x w'] t']| |]; auto.
  destruct Hd as (s & n & Hd). assert (HR : Requests D w [(a, q)]) by (repeat constructor; auto).
  pose proof (pool_conserves E HE HO D w [(a, q)] s t ((q, x) :: repeat idle n) w' t' H1 H2 HR Ha Hd) as (dr & K1 & K2 & K3).
  exists dr. cbn [fst snd]. splits; auto.
  assert (Hb : brought [(a, q)] = req_tin q) by (unfold brought; cbn [map concat fst snd]; apply app_nil_r).
  assert (Hn : answered ((q, x) :: repeat idle n) = ans_tout q x).
  { unfold answered at 1. cbn [map concat fst snd]. fold (answered (repeat (idle (N:=N)) n)). rewrite answered_idle. apply app_nil_r. }
  rewrite Hb, Hn in K2. auto.
Qed.

Lemma alone_isolated (D : str -> nat -> Prop) a q (w : World) t x w' t' b ns : WorldOk w -> DimsOk D w -> node_at w a <> None ->
  req_counts q -> req_dims D q -> ~ In (b, ns) (req_places a q) ->
  exec (serve E a q) w t = Ok ((x, w'), t') -> manager w' b ns = manager w b ns.
Proof.
  intros H1 H2 H3 H4 H5 Hp He. pose proof (exec_request a q w t) as Hd.
  rewrite He in Hd. destruct Hd as (s & n & Hd).
  eapply (pool_isolated E HE HO D w [(a, q)] s t); eauto; repeat constructor; auto.
Qed.
End Alone.
