(* The bound on the loop of a steal is only a device of the model: a larger bound changes no run that ends. *)
From Verif Require Import Base Num MathUtils Env Centroid CManager Wp Proc Server ServerSpec Owns SeqProofs SeqProofs2 EventLoop CoreSpec FuelSpec.
Local Open Scope nat_scope.

Section Fuel.
Context {N : Num} (E : Env N).
Notation World := (World N).

Definition ample {R} (p q : proc' N R) : Prop := forall w t, exec p w t = OutOfFuel \/ exec q w t = exec p w t.

Lemma ample_refl {R} (p : proc' N R) : ample p p.
Proof. right. reflexivity. Qed.
Lemma ample_bind {A R} (p q : proc' N A) (f g : A -> proc' N R) : ample p q -> (forall x, ample (f x) (g x)) ->
  ample (call x <- p; f x) (call x <- q; g x).
Proof.
  intros H1 H2 w t. rewrite !exec_bind. destruct (H1 w t) as [->| ->]; [left; reflexivity|].
  destruct (exec p w t) as [[[x w1] t1]| |]; auto. apply H2.
Qed.
Lemma ample_rpc {A} a (h h' : proc' N A) : ample h h' -> ample (rpc E a h) (rpc E a h').
Proof.
  intros H w t. rewrite !exec_rpc. destruct (match node_at w a with None => ReqLost | Some _ => e_fate E t end); auto;
    destruct (H w (S t)) as [->| ->]; auto.
Qed.
Lemma ample_fork (p q : proc' N unit) : ample p q -> ample (go p) (go q).
Proof.
  intros H w t. unfold go. cbn [exec]. unfold bind. destruct (H w t) as [->| ->]; auto.
Qed.

Lemma ample_steal_loop a from ns v limit : forall f f' total, f <= f' ->
  ample (steal_loop E f a from ns v limit total) (steal_loop E f' a from ns v limit total).
Proof.
  induction f as [|f IH]; intros f' total Hle; destruct f' as [|f']; try lia; cbn [steal_loop]; destruct (Z.of_nat total <? limit)%Z; try apply ample_refl.
  - left. reflexivity.
  - apply ample_bind; [apply ample_refl|]. intros (o & ok). destruct o as [[|c cs]|]; try apply ample_refl.
    apply ample_bind; [apply ample_refl|]. intros r. apply ample_bind; [apply ample_refl|]. intros total'.
    destruct ok; [apply IH; lia|apply ample_refl].
Qed.
Lemma ample_h_steal f f' a from ns limit : f <= f' -> ample (h_steal E f a from ns limit) (h_steal E f' a from ns limit).
Proof.
  intros H. unfold h_steal. apply ample_bind; [apply ample_refl|]. intros lv. apply ample_bind; [apply ample_refl|]. intros [v|]; [|apply ample_refl].
  apply ample_bind; [apply ample_steal_loop; auto|]. intros (total & ok). apply ample_refl.
Qed.
Lemma ample_c_steal f f' a from ns limit : f <= f' -> ample (c_steal E f a from ns limit) (c_steal E f' a from ns limit).
Proof. intros H. unfold c_steal. apply ample_bind; [apply ample_rpc, ample_h_steal; auto|]. intros r. apply ample_refl. Qed.

Section Loop.
Context (c : el_cfg) (f : nat) (Hf : el_fuel c <= f).
Notation c' := (with_fuel c f).

Lemma ample_balance_loop ns naddrs mean margin : forall todo lens,
  ample (balance_loop (steal_from E c ns) c naddrs mean margin todo lens) (balance_loop (steal_from E c' ns) c' naddrs mean margin todo lens).
Proof.
  induction todo as [|[o z] todo IH]; intros lens; cbn [balance_loop]; [apply ample_refl|].
  apply ample_bind; [apply ample_refl|]. intros [want|]; [|apply IH]. apply ample_bind; [|intros n; apply IH].
  unfold steal_from. apply ample_bind; [apply ample_c_steal; exact Hf|]. intros (n & ok). apply ample_refl.
Qed.
Lemma ample_each nss (p q : str -> proc' N unit) : (forall ns, ample (p ns) (q ns)) -> ample (each nss p) (each nss q).
Proof. intros H. induction nss as [|ns r IH]; cbn [each]; [apply ample_refl|]. apply ample_bind; auto. Qed.
Lemma ample_task k : ample (task_body E c k) (task_body E c' k).
Proof.
  destruct k; try apply ample_refl. cbn [task_body]. unfold with_table. apply ample_bind; [apply ample_refl|]. intros t.
  apply ample_bind; [apply ample_refl|]. intros nss. apply ample_each. intros ns. unfold balance_ns. apply ample_bind; [apply ample_refl|].
  intros [|e lens]; [apply ample_refl|]. apply ample_bind; [apply ample_refl|]. intros todo. apply ample_balance_loop.
Qed.
End Loop.

Lemma ample_el_loop (rd : proc' N bool) (run run' : Z -> task -> proc' N unit) : (forall i k, ample (run i k) (run' i k)) ->
  forall n i, ample (el_loop rd run n i) (el_loop rd run' n i).
Proof.
  intros H. induction n as [|n IH]; intros i; cbn [el_loop]; [apply ample_refl|]. apply ample_bind; [apply ample_refl|].
  intros [|]; [apply ample_refl|]. apply ample_bind; [|intros _; apply IH]. generalize task_order as l. induction l as [|k l IHl]; cbn [el_steps]; [apply ample_refl|].
  apply ample_bind; [|intros _; exact IHl]. unfold el_step. apply ample_bind; [apply ample_refl|]. intros [|]; [apply ample_refl|].
  apply ample_bind; [apply ample_refl|]. intros [|]; [apply ample_refl|apply H].
Qed.

Lemma ample_ok {R} (p q : proc' N R) w t x : ample p q -> exec p w t = Ok x -> exec q w t = Ok x.
Proof. intros H Hx. destruct (H w t) as [He|He]; congruence. Qed.

Lemma fuel_task c f k (w : World) t x : el_fuel c <= f -> exec (task_body E c k) w t = Ok x -> exec (task_body E (with_fuel c f) k) w t = Ok x.
Proof. intros H. apply ample_ok, ample_task, H. Qed.

Lemma fuel_loop c f stop n (w : World) t x : el_fuel c <= f -> exec (event_loop E c stop n) w t = Ok x -> exec (event_loop E (with_fuel c f) stop n) w t = Ok x.
Proof.
  intros H. apply ample_ok. unfold event_loop. apply ample_el_loop. intros i k. unfold run_task. change (validate (with_fuel c f)) with (with_fuel (validate c) f).
  change (interval (el_skip (with_fuel (validate c) f)) k) with (interval (el_skip (validate c)) k).
  unfold with_skip. destruct (_ =? 0)%Z; [apply ample_refl|]. destruct (Z.rem _ _ =? 0)%Z; [|apply ample_refl]. apply ample_task. exact H.
Qed.

Lemma fuel_steal f f' a from ns limit (w : World) t x : f <= f' ->
  exec (serve E a (QSteal f from ns limit)) w t = Ok x -> exec (serve E a (QSteal f' from ns limit)) w t = Ok x.
Proof. intros H. apply ample_ok. cbn [serve]. apply ample_bind; [apply ample_h_steal; auto|]. intros r. apply ample_refl. Qed.
End Fuel.
