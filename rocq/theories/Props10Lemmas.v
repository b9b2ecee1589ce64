(* Lemmas behind Props10. *)
From Verif Require Import Base Num MathUtils Knn Env Centroid CManager DataSpec MgrSpec Wp NumFacts Proc Owns Server ServerSpec ServerFacts
  SeqProofs LinearSpec LinearProofs Locks LockSpec LocksProofs LocksProofs2 LocksProofs3 LocksProofs4 Props08Lemmas.
From Coq Require Import Permutation.

Section Props10Lemmas.
Context {N : Num} (E : Env N).

(* As jobs_atomic, for any processes that write only what their mutexes protect. *)
Lemma any_atomic {R : Type} (dflt : R) (ps : list (proc' N R)) (w : World N) sched t s' t' rs : Forall lw ps -> NoDup (map fst (w_nodes w)) ->
  irun dflt sched (istart ps w) t = Ok (s', t') -> all_ended s' rs ->
  locked s' = [] /\
  exists sched' w', interleave dflt sched' ps w t = Ok ((map (fun d => Ret d) rs, w'), t') /\ w_nodes (world_of s') = w_nodes w'.
Proof.
  intros Hl Hd H He. pose proof (run_matched dflt sched _ _ _ _ t (rel_start ps w Hl)) as Hm. rewrite H in Hm. cbn [matched] in Hm.
  destruct Hm as (phs & sc & thc & wc & Hi & HR & _). destruct s' as [[th held] wf].
  assert (Hk : keys wc = keys w) by (eapply run_keys; eauto).
  destruct (ended_rel _ _ _ _ _ _ rs HR He) as (H1 & H2 & H3).
  { rewrite Hk. auto. }
  unfold locked, world_of. cbn [fst snd]. split; auto. subst. eauto.
Qed.

Lemma lw_client {R : Type} (c : client N R) : lw (run_client E c).
Proof. induction c as [r|a q k IH]; [exact I|]. cbn [run_client]. apply lw_bind; [apply lw_serve|auto]. Qed.

Lemma serial_locks (dflt : ans N) (reqs : list (str * req N)) (w : World N) sched t s' t' xs : NoDup (map fst (w_nodes w)) ->
  Forall (fun e => quiet_req w (fst e) (snd e)) reqs ->
  irun dflt sched (istart (map (fun e => run_client E (ask e)) reqs) w) t = Ok (s', t') -> all_ended s' xs ->
  exists order w', Permutation order (seq 0 (length reqs)) /\
    serve_seq E (pick order reqs) w t = Ok ((pick order xs, w'), t') /\ w_nodes (world_of s') = w_nodes w'.
Proof.
  intros Hd Hq H He. assert (Hl : Forall lw (map (fun e => run_client E (ask e)) reqs)).
  { apply Forall_forall. intros p Hp. apply in_map_iff in Hp. destruct Hp as (e & <- & _). apply lw_client. }
  destruct (any_atomic dflt _ w sched t s' t' xs Hl Hd H He) as (_ & sc & w' & Hi & Hn).
  destruct (serial_run E dflt reqs w sc t xs w' t' Hq Hi) as (order & H1 & H2 & _). exists order, w'. auto.
Qed.
End Props10Lemmas.
