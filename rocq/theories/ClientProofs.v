(* The calls of the client library make the request they name. *)
From Verif Require Import Base Num MathUtils Env Centroid CManager Proc Server ServerSpec Wp Owns ServerFacts ClientSpec.

Section ClientProofs.
Context {N : Num} (E : Env N).

Lemma exec_then' {W L R S} (p : proc W L R) (k : R -> proc W L S) (f : R -> S) w t : (forall x, k x = Ret (f x)) ->
  exec (pbind p k) w t =
    match exec p w t with
    | Ok ((x, w'), t') => Ok ((f x, w'), t')
    | Panic => Panic
    | OutOfFuel => OutOfFuel
    end.
Proof.
  intros Hk. revert w t. induction p as [R r|R A o g k0 IH|R q IHq k0 IHk]; intros w t; cbn [pbind exec].
  - rewrite Hk. reflexivity.
  - unfold bind. destruct (g w t) as [[[a w'] t']| |]; auto.
  - unfold bind. destruct (exec q w t) as [[[a w'] t']| |]; auto.
Qed.
Lemma exec_then {W L R S} (p : proc W L R) (f : R -> S) w t :
  exec (call x <- p; Ret (f x)) w t =
    match exec p w t with
    | Ok ((x, w'), t') => Ok ((f x, w'), t')
    | Panic => Panic
    | OutOfFuel => OutOfFuel
    end.
Proof. apply exec_then'. reflexivity. Qed.

(* A call of handler h at node a, and what is made of its answer. *)
Lemma rpc_exec {A R} a (h : proc' N A) (f : option A -> R) w t :
  exec (call r <- rpc E a h; Ret (f r)) w t =
    match node_at w a, e_fate E t with
    | None, _ | Some _, ReqLost => Ok ((f None, w), S t)
    | Some _, Delivered =>
        match exec h w (S t) with
        | Ok ((x, w'), t') => Ok ((f (Some x), w'), t') | Panic => Panic | OutOfFuel => OutOfFuel
        end
    | Some _, RespLost =>
        match exec h w (S t) with
        | Ok ((x, w'), t') => Ok ((f None, w'), t') | Panic => Panic | OutOfFuel => OutOfFuel
        end
    end.
Proof.
  rewrite exec_then. unfold rpc, node_at. cbn [pbind exec]. unfold bind at 1, tick. cbn.
  destruct (assoc a (w_nodes w)); cbn [exec]; auto.
  destruct (e_fate E t); cbn [exec]; auto.
  - rewrite exec_then. destruct (exec h w (S t)) as [[[x w'] t']| |]; auto.
  - unfold bind. rewrite exec_then. destruct (exec h w (S t)) as [[[x w'] t']| |]; auto.
Qed.

Lemma calls_with {A R} (c : proc' N R) a q (h : proc' N A) (g : A -> ans N) (f : option A -> R) (f' : ans N -> R) failed :
  (forall w t, exec c w t = exec (call r <- rpc E a h; Ret (f r)) w t) ->
  (forall w t, exec (serve E a q) w t = exec (call x <- h; Ret (g x)) w t) ->
  (forall x, f' (g x) = f (Some x)) -> f None = failed -> Calls E c a q f' failed.
Proof.
  intros Hc Hq Hf <- w t. rewrite Hc, rpc_exec. unfold answered_with. rewrite !Hq, exec_then.
  destruct (node_at w a); auto. destruct (e_fate E t); auto;
    destruct (exec h w (S t)) as [[[x w'] t']| |]; auto. rewrite Hf; auto.
Qed.

Theorem calls : forall a b ns (d : DataPoint N) n v drain addrs lo hi fuel,
  Calls E (c_namespaces E a) a QNamespaces to_names [] /\
  Calls E (c_vec_of E a ns) a (QVec ns) to_vec None /\
  Calls E (c_add_dp E a ns d) a (QAdd ns d) to_bool false /\
  Calls E (c_drain_u E a ns n) a (QDrainUnordered ns n) to_dps [] /\
  Calls E (c_drain_o E a ns n) a (QDrainOrdered ns n) to_dps [] /\
  Calls E (c_expire_of E a ns) a (QExpire ns) to_unit tt /\
  Calls E (c_len_dp E a ns) a (QLenDP ns) to_nat 0 /\
  Calls E (c_mem_trim_of E a ns) a (QMemTrim ns) to_unit tt /\
  Calls E (c_move_vector_of E a ns) a (QMoveVector ns) to_bool false /\
  Calls E (c_distribute_fast E a ns addrs n) a (QDistributeFast ns n addrs) to_unit tt /\
  Calls E (c_distribute_accurate E a ns addrs n) a (QDistributeAccurate ns n addrs) to_unit tt /\
  Calls E (c_distribute_internal E a ns n) a (QDistributeInternal ns n) to_unit tt /\
  ((0 <= n)%Z -> Calls E (c_lookup E a ns v n drain) a (QKnnLookup ns v n drain) to_dps []) /\
  Calls E (c_nearest_vec E a ns v) a (QNearestVec ns v) to_vec None /\
  Calls E (c_split E a ns lo hi) a (QSplit ns lo hi) to_unit tt /\
  Calls E (c_merge E a ns lo hi) a (QMerge ns lo hi) to_unit tt /\
  Calls E (c_steal E fuel a b ns n) a (QSteal fuel b ns n) to_steal (0, false) /\
  Calls E (c_meta E a) a QMeta to_meta [].
Proof.
  intros. splits.
  13: intros Hn; unfold c_lookup; replace (n <? 0)%Z with false by (symmetry; apply Z.ltb_ge; exact Hn).
  17: { eapply (calls_with _ a _ _ (fun x => ASteal (fst x) (snd x)));
    [intros; unfold c_steal; reflexivity|intros; cbn [serve]|intros [n0 ok]; reflexivity|reflexivity].
    rewrite exec_then. apply exec_then'. intros [n0 ok]; reflexivity. }
  all: eapply calls_with; [intros; reflexivity|intros; cbn [serve reply]; reflexivity|intros x; cbn|reflexivity].
  all: try reflexivity.
  all: destruct x; reflexivity.
Qed.

Lemma negative_lookup a ns v n drain (w : World N) t : (n < 0)%Z -> exec (c_lookup E a ns v n drain) w t = Panic.
Proof. intros H. unfold c_lookup. replace (n <? 0)%Z with true by (symmetry; apply Z.ltb_lt; exact H). reflexivity. Qed.
End ClientProofs.
