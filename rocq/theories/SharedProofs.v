(* One configuration for several loops: proofs. *)
From Verif Require Import Base Num Env Wp Proc Server EventLoop LoopSpec Shared SeqProofs LoopProofs StealProofs.

Section S.
Context {W L : Type}.

Lemma exec_on_world {I R} (p : proc W L R) : forall w (x : I) t,
  exec (on_world p) (w, x) t = (do ' (a, w') <- exec p w; ret (a, (w', x))) t.
Proof.
  induction p as [R r|R A l f k IH|R q IHq k IH]; intros w x t; cbn [on_world exec]; auto.
  - unfold bind, ret. cbn [fst snd]. destruct (f w t) as [[[a w'] t']| |]; auto. rewrite IH. reflexivity.
  - unfold bind, ret. rewrite IHq. unfold bind, ret. destruct (exec q w t) as [[[a w'] t']| |]; auto. rewrite IH. reflexivity.
Qed.

Lemma exec_skip i k (p : proc W L unit) w b t :
  exec (skip_now k p) (w, MkInternals b i) t = (do ' (a, w') <- exec (with_skip i k p) w; ret (a, (w', MkInternals b i))) t.
Proof.
  unfold skip_now. rewrite exec_bind. cbn [get_iter exec]. unfold bind, ret. cbn [in_iter snd].
  unfold with_skip. destruct (k =? 0)%Z; [reflexivity|]. destruct (Z.rem i k =? 0)%Z; [|reflexivity]. apply exec_on_world.
Qed.

Lemma exec_step i k (p : proc W L unit) w t :
  exec (el_step look (skip_now k p)) (w, MkInternals false i) t =
  (do ' (a, w') <- exec (el_step (read_stop (fun _ => false)) (with_skip i k p)) w; ret (a, (w', MkInternals false i))) t.
Proof.
  unfold el_step. rewrite exec_bind. cbn [look exec]. unfold bind, tick, ret. cbn [in_stopped snd]. rewrite exec_bind.
  cbn [look exec]. unfold bind, tick, ret. cbn [in_stopped snd]. rewrite exec_skip. unfold bind, ret.
  rewrite exec_bind. cbn [read_stop local exec]. unfold bind, tick, ret. rewrite exec_bind.
  cbn [read_stop local exec]. unfold bind, tick, ret. reflexivity.
Qed.

Lemma exec_steps i (s : skips) (body : task -> proc W L unit) : forall l w t,
  exec (el_steps look (fun k => skip_now (interval s k) (body k)) l) (w, MkInternals false i) t =
  (do ' (a, w') <- exec (el_steps (read_stop (fun _ => false)) (fun k => with_skip i (interval s k) (body k)) l) w; ret (a, (w', MkInternals false i))) t.
Proof.
  induction l as [|k l IH]; intros w t; cbn [el_steps]; [reflexivity|].
  rewrite exec_bind. unfold bind at 1. rewrite exec_step, exec_bind. unfold bind, ret.
  destruct (exec (el_step _ _) w t) as [[[a w'] t']| |]; auto. rewrite IH. reflexivity.
Qed.

Lemma exec_count (w : W) i b t : exec (count (L := L)) (w, MkInternals b i) t = Ok ((tt, (w, MkInternals b (next_iter i))), t).
Proof.
  unfold count, next_iter. cbn. unfold bind, ret. cbn. destruct (1000 <? i + 1)%Z; reflexivity.
Qed.

Lemma exec_cfg_loop s (body : task -> proc W L unit) : forall n j w t,
  exec (cfg_loop s body n) (w, MkInternals false (counter j)) t =
  (do ' (b, w') <- exec (el_loop (read_stop (fun _ => false)) (fun iter k => with_skip iter (interval s k) (body k)) n (counter j)) w;
   ret (b, (w', MkInternals false (counter (j + n))))) t.
Proof.
  induction n as [|n IH]; intros j w t.
  - cbn. unfold bind, tick, ret. cbn. rewrite Nat.add_0_r. reflexivity.
  - cbn [cfg_loop el_loop]. rewrite !exec_bind. cbn [look read_stop local exec pbind]. unfold bind, tick, ret. cbn [in_stopped snd].
    rewrite !exec_bind. rewrite exec_steps. unfold bind, ret. unfold read_stop, local, bind, tick, ret.
    destruct (exec (el_steps _ _ _) w (S t)) as [[[a w'] t']| |]; auto.
    rewrite exec_bind. unfold bind. rewrite exec_count, next_counter, IH. unfold bind, ret, read_stop, local, tick.
    rewrite <- Nat.add_succ_comm. reflexivity.
Qed.

Lemma pool_stopped s (body : task -> proc W L unit) dflt (w : W) i ns : forall sched th t,
  Forall2 (fun n p => p = cfg_loop s body n \/ p = Ret true) ns th ->
  wp (interleave dflt sched th (w, MkInternals true i)) t (fun r _ =>
    snd r = (w, MkInternals true i) /\ Forall2 (fun n p => p = cfg_loop s body n \/ p = Ret true) ns (fst r)).
Proof.
  induction sched as [|j sched IH]; intros th t H; cbn [interleave].
  - unfold wp, ret. auto.
  - apply wp_bind. unfold step1. destruct (nth_error th j) as [p|] eqn:Ej; [|unfold wp at 1, ret; apply IH; exact H].
    assert (Hp : exists n, nth_error ns j = Some n /\ (p = cfg_loop s body n \/ p = Ret true)).
    { clear - H Ej. revert j Ej. induction H as [|n q ns th Hq H IH]; intros [|j] E; try discriminate.
      - cbn in E. injection E as <-. exists n. auto.
      - apply IH, E. }
    destruct Hp as (n & En & [->| ->]); [|unfold wp at 1, ret; apply IH; exact H].
    assert (H' : Forall2 (fun n p => p = cfg_loop s body n \/ p = Ret true) ns (list_set th j (Ret true))).
    { clear - H. revert j. induction H as [|n q ns th Hq H IH]; intros [|j]; cbn [list_set]; constructor; auto. }
    destruct n; cbn [cfg_loop look pbind]; unfold wp at 1, bind, tick, ret; cbn [in_stopped snd]; apply IH; exact H'.
Qed.

End S.

Lemma start_alone {N : Num} (E : Env N) c n w t :
  exec (start E c n) (w, new_internals) t =
  (do ' (b, w') <- exec (event_loop E c (fun _ => false) n) w; ret (b, (w', MkInternals false (counter n)))) t.
Proof. unfold start, new_internals. change 0%Z with (counter 0). rewrite exec_cfg_loop. reflexivity. Qed.

Lemma start_stopped {N : Num} (E : Env N) c ns dflt sched (w : World N) i t :
  wp (interleave dflt sched (map (start E c) ns) (w, MkInternals true i)) t (fun r _ =>
    snd r = (w, MkInternals true i) /\ Forall2 (fun n p => p = start E c n \/ p = Ret true) ns (fst r)).
Proof. apply pool_stopped. induction ns; constructor; auto. Qed.

Lemma start_again {N : Num} (E : Env N) c n (w : World N) x t :
  wp (exec (call _ <- stop_cfg; start E c n) (w, x)) t (fun r _ => r = (true, (w, MkInternals true (in_iter x)))).
Proof. unfold start. destruct n; cbn; unfold wp, bind, tick, ret; cbn; reflexivity. Qed.

(* Two loops at the same time, with tasks that write down the loop and the task. *)
Definition named (i : nat) (k : task) : proc (list (nat * task)) unit unit := note (i, k).
Definition tasks_of (i : nat) (l : list (nat * task)) : list task := map snd (filter (fun e => fst e =? i) l).
Definition takes_turns (r : nat) : list nat := concat (repeat (repeat 0 40 ++ repeat 1 31) r) ++ [0; 1].
Lemma two_loops : exists s n sched (l : list (nat * task)) t,
  (forall k, interval s k = 2%Z) /\
  interleave true sched [cfg_loop s (named 0) n; cfg_loop s (named 1) n] ([], new_internals) 0 =
    Ok (([Ret false; Ret false], (l, MkInternals false (Z.of_nat (2 * n)))), t) /\
  tasks_of 0 l = concat (repeat task_order n) /\ tasks_of 1 l = [] /\
  map snd (schedule s n) <> tasks_of 0 l /\ map snd (schedule s n) <> tasks_of 1 l.
Proof.
  exists (MkSkips 2 2 2 2 2 2 2 2 2), 3, (takes_turns 3). do 2 eexists.
  split; [intros []; reflexivity|]. split; [vm_compute; reflexivity|]. vm_compute. repeat split; discriminate.
Qed.
