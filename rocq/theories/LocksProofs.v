(* Every run of the instructions of Locks.v is matched by a run of the processes. *)
From Verif Require Import Base Num MathUtils Env Centroid CManager DataSpec MgrSpec Wp Proc Owns Server ServerSpec ServerFacts Locks.

Section Views.
Context {N : Num}.
Notation World := (World N).

Definition tblv (a : str) (w : World) := option_map nd_tbl (node_at w a).
Definition thrv (a : str) (w : World) := option_map nd_thresh (node_at w a).
Definition lenv (a : str) (w : World) := option_map (fun nd => length (nd_heap nd)) (node_at w a).
Definition slotv (a : str) (p : nat) (w : World) : option (str * CM N) :=
  match node_at w a with Some nd => nth_error (nd_heap nd) p | None => None end.
Definition keys (w : World) := map fst (w_nodes w).

Definition same_at (l : lock) (w w' : World) : Prop :=
  match l with LTable a => tblv a w = tblv a w' | LSlot a p => slotv a p w = slotv a p w' end.

(* What an action may depend on. *)
Definition agree (o : option lock) (w0 w : World) : Prop :=
  keys w0 = keys w /\ (forall a, thrv a w0 = thrv a w) /\
  match o with
  | None => True
  | Some (LTable a) => tblv a w0 = tblv a w /\ lenv a w0 = lenv a w
  | Some (LSlot a p) => slotv a p w0 = slotv a p w
  end.

(* What it may change. *)
Inductive delta := DNone | DTable (a : str) (tbl : list (str * nat)) (ext : list (str * CM N)) | DSlot (a : str) (p : nat) (s : str * CM N).
Definition dnode (d : delta) (nd : Node N) : Node N :=
  match d with
  | DNone => nd
  | DTable _ tbl ext => MkNode (nd_heap nd ++ ext) tbl (nd_thresh nd)
  | DSlot _ p s => MkNode (list_set (nd_heap nd) p s) (nd_tbl nd) (nd_thresh nd)
  end.
Definition dapply (d : delta) (ns : list (str * Node N)) : list (str * Node N) :=
  match d with
  | DNone => ns
  | DTable a _ _ | DSlot a _ _ => match assoc a ns with Some nd => upsert a (dnode d nd) ns | None => ns end
  end.
Definition fits (o : option lock) (d : delta) : Prop :=
  match o, d with
  | _, DNone => True
  | Some (LTable a), DTable b _ _ => a = b
  | Some (LSlot a p), DSlot b q _ => a = b /\ p = q
  | _, _ => False
  end.

Definition lockwise {A} (o : option lock) (f : World -> M (A * World)) : Prop :=
  (forall w0 t,
    match f w0 t with
    | Ok ((x, w1), t') => exists d, fits o d /\ w_nodes w1 = dapply d (w_nodes w0) /\
        forall w, agree o w0 w -> exists w', f w t = Ok ((x, w'), t') /\ w_nodes w' = dapply d (w_nodes w)
    | Panic => forall w, agree o w0 w -> f w t = Panic
    | OutOfFuel => forall w, agree o w0 w -> f w t = OutOfFuel
    end) /\
  match o with
  | Some (LSlot a p) => forall w t, slotv a p w = None -> f w t = Panic
  | _ => True
  end.

Fixpoint lw {R} (p : proc' N R) : Prop :=
  match p with
  | Ret _ => True
  | Act o f k => lockwise o f /\ forall x, lw (k x)
  | Fork q k => lw q /\ lw k
  end.

Lemma lw_bind {R S} (p : proc' N R) (f : R -> proc' N S) : lw p -> (forall r, lw (f r)) -> lw (pbind p f).
Proof.
  revert S f. induction p as [R r|R A o g k IH|R q IHq k IHk]; intros S f Hp Hf; cbn [pbind lw] in *; auto.
  - destruct Hp. split; auto.
  - destruct Hp. split; auto.
Qed.

(* ---- views of changed worlds ---- *)
Lemma dapply_keys d ns : map fst (dapply d ns) = map fst ns.
Proof.
  destruct d as [|a tbl ext|a p s]; cbn [dapply]; auto; destruct (assoc a ns) eqn:Ea; auto;
    apply upsert_keys_present; congruence.
Qed.
Lemma dapply_at d ns b : assoc b (dapply d ns) =
  match d with
  | DNone => assoc b ns
  | DTable a _ _ | DSlot a _ _ => if str_eqb b a then option_map (dnode d) (assoc b ns) else assoc b ns
  end.
Proof.
  destruct d as [|a tbl ext|a p s]; cbn [dapply]; auto.
  - destruct (str_eqb b a) eqn:Eb.
    + apply str_eqb_eq in Eb; subst. destruct (assoc a ns) eqn:Ea; cbn [option_map]; auto. apply assoc_upsert_same.
    + destruct (assoc a ns) eqn:Ea; auto. apply assoc_upsert_other. intros ->. rewrite str_eqb_refl in Eb. discriminate.
  - destruct (str_eqb b a) eqn:Eb.
    + apply str_eqb_eq in Eb; subst. destruct (assoc a ns) eqn:Ea; cbn [option_map]; auto. apply assoc_upsert_same.
    + destruct (assoc a ns) eqn:Ea; auto. apply assoc_upsert_other. intros ->. rewrite str_eqb_refl in Eb. discriminate.
Qed.
Lemma dapply_thr d (w w' : World) b : w_nodes w' = dapply d (w_nodes w) -> thrv b w' = thrv b w.
Proof.
  intros H. unfold thrv, node_at. rewrite H, dapply_at. destruct d as [|a tbl ext|a p s]; auto;
    destruct (str_eqb b a); auto; destruct (assoc b (w_nodes w)); auto.
Qed.

Lemma alloc_at w0 w1 (w : World) b : node_at (alloc w0 w1 w) b =
  option_map (fun nd => MkNode (nd_heap nd ++ new_slots w0 w1 b) (nd_tbl nd) (nd_thresh nd)) (node_at w b).
Proof.
  unfold node_at, alloc. cbn [w_nodes]. induction (w_nodes w) as [|[k nd] l IH]; cbn [map assoc fst snd]; auto.
  destruct (str_eqb b k) eqn:Eb; auto. apply str_eqb_eq in Eb; subst. auto.
Qed.
Lemma alloc_keys w0 w1 (w : World) : keys (alloc w0 w1 w) = keys w.
Proof. unfold keys, alloc. cbn [w_nodes]. rewrite map_map. auto. Qed.

Lemma put_keys l w1 (w : World) : keys (put l w1 w) = keys w.
Proof.
  unfold keys. destruct l as [a|a p]; cbn [put]; destruct (assoc a (w_nodes w1)) as [n1|]; auto;
    destruct (assoc a (w_nodes w)) as [n|] eqn:Ea; auto.
  - cbn [set_node w_nodes]. apply upsert_keys_present. congruence.
  - destruct (nth_error (nd_heap n1) p); auto. cbn [set_node w_nodes]. apply upsert_keys_present. congruence.
Qed.
Lemma put_at l w1 (w : World) b : node_at (put l w1 w) b =
  match l with
  | LTable a => if str_eqb b a then match node_at w1 a, node_at w a with
      | Some n1, Some n => Some (MkNode (nd_heap n) (nd_tbl n1) (nd_thresh n)) | _, o => o end else node_at w b
  | LSlot a p => if str_eqb b a then match slotv a p w1, node_at w a with
      | Some s, Some n => Some (MkNode (list_set (nd_heap n) p s) (nd_tbl n) (nd_thresh n)) | _, o => o end else node_at w b
  end.
Proof.
  unfold slotv, node_at. destruct l as [a|a p]; cbn [put].
  - destruct (str_eqb b a) eqn:Eb.
    + apply str_eqb_eq in Eb; subst. destruct (assoc a (w_nodes w1)) as [n1|]; destruct (assoc a (w_nodes w)) as [n|] eqn:Ea; auto.
      cbn [set_node w_nodes]. apply assoc_upsert_same.
    + assert (Hn : b <> a) by (intros ->; rewrite str_eqb_refl in Eb; discriminate).
      destruct (assoc a (w_nodes w1)) as [n1|]; destruct (assoc a (w_nodes w)) as [n|] eqn:Ea; auto.
      cbn [set_node w_nodes]. apply assoc_upsert_other; auto.
  - destruct (str_eqb b a) eqn:Eb.
    + apply str_eqb_eq in Eb; subst. destruct (assoc a (w_nodes w1)) as [n1|]; auto.
      destruct (assoc a (w_nodes w)) as [n|] eqn:Ea; destruct (nth_error (nd_heap n1) p); auto.
      cbn [set_node w_nodes]. apply assoc_upsert_same.
    + assert (Hn : b <> a) by (intros ->; rewrite str_eqb_refl in Eb; discriminate).
      destruct (assoc a (w_nodes w1)) as [n1|]; destruct (assoc a (w_nodes w)) as [n|] eqn:Ea; auto.
      destruct (nth_error (nd_heap n1) p); auto. cbn [set_node w_nodes]. apply assoc_upsert_other; auto.
Qed.

Lemma lock_eqb_eq (l l' : lock) : lock_eqb l l' = true <-> l = l'.
Proof.
  destruct l as [a|a p], l' as [b|b q]; cbn [lock_eqb]; split; intros H; try discriminate.
  - apply str_eqb_eq in H. congruence.
  - injection H as ->. apply str_eqb_refl.
  - apply andb_true_iff in H. destruct H as [H1 H2]. apply str_eqb_eq in H1. apply Nat.eqb_eq in H2. congruence.
  - injection H as -> ->. rewrite str_eqb_refl, Nat.eqb_refl. auto.
Qed.
Lemma lock_dec (l l' : lock) : {l = l'} + {l <> l'}.
Proof. destruct (lock_eqb l l') eqn:E; [left|right]; [|intros H]; apply lock_eqb_eq in E || apply lock_eqb_eq in H; auto. congruence. Qed.
Lemma mem_in l ls : mem l ls = true <-> In l ls.
Proof.
  unfold mem. rewrite existsb_exists. split.
  - intros (x & H & Hx). apply lock_eqb_eq in Hx. subst; auto.
  - intros H. exists l. split; auto. apply lock_eqb_eq; auto.
Qed.
Lemma release_in l ls x : NoDup ls -> In x (release l ls) <-> In x ls /\ x <> l.
Proof.
  induction ls as [|y ls IH]; intros Hd; cbn [release In]; [tauto|]. inversion Hd as [|? ? Hn Hd']; subst.
  destruct (lock_eqb l y) eqn:E.
  - apply lock_eqb_eq in E. subst. split; [intros H; split; auto; intros ->; auto|]. intros [[<-|H] Hx]; tauto.
  - cbn [In]. rewrite IH by auto. split.
    + intros [<-|[H Hx]]; [|auto]. split; auto. intros ->. assert (lock_eqb l l = true) by (apply lock_eqb_eq; auto). congruence.
    + tauto.
Qed.
Lemma release_nodup l ls : NoDup ls -> NoDup (release l ls).
Proof.
  induction ls as [|y ls IH]; intros Hd; cbn [release]; auto. inversion Hd as [|? ? Hn Hd']; subst.
  destruct (lock_eqb l y); auto. constructor; auto. intros H. apply release_in in H; tauto.
Qed.

Lemma has_mutex_slot (w : World) a p : has_mutex w (LSlot a p) = true <-> slotv a p w <> None.
Proof.
  cbn [has_mutex]. unfold slotv, node_at. destruct (assoc a (w_nodes w)) as [nd|]; [|split; congruence].
  rewrite Nat.ltb_lt. symmetry. apply nth_error_Some.
Qed.
Lemma lenv_slot (w w' : World) a p : lenv a w = lenv a w' -> (slotv a p w <> None <-> slotv a p w' <> None).
Proof.
  unfold lenv, slotv. destruct (node_at w a) as [nd|], (node_at w' a) as [nd'|]; cbn [option_map]; intros H; try discriminate; [|tauto].
  injection H as H. rewrite !nth_error_Some, H. tauto.
Qed.
End Views.
