(* Concrete worlds for examples and counterexamples, and checks of their properties by
   computation. *)
From Verif Require Import Base Num MathUtils Knn Env Centroid CManager DataSpec MgrSpec Wp DataFacts NumFacts
  KnnProofs MathSpec TestEnv Props03Lemmas Proc Owns Server ServerSpec ServerFacts.
From Coq.Init Require Import Byte.
Local Open Scope nat_scope.

Lemma check_wp {A} (m : M A) t (P : A -> Prop) (b : A -> bool) : (forall x, b x = true -> P x) ->
  match m t with Ok (x, _) => b x | _ => false end = true -> wp m t (fun x _ => P x).
Proof. unfold wp. intros H Hb. destruct (m t) as [[x t']| |]; try discriminate. auto. Qed.

Lemma finished_check {W L R} (b : R -> bool) (th : list (proc W L R)) :
  forallb (fun p => match p with Ret r => b r | _ => false end) th = true ->
  exists rs, th = map (fun r => Ret r) rs /\ forallb b rs = true.
Proof.
  induction th as [|p th IH]; cbn [forallb]; intros H; [exists []; auto|]. destruct p as [r| |]; try discriminate.
  apply andb_prop in H. destruct H as (H1 & H2). destruct (IH H2) as (rs & -> & H3). exists (r :: rs). cbn [map forallb].
  rewrite H1, H3. auto.
Qed.

(* Two nodes, one namespace. *)
Definition nA : str := [x41].
Definition nB : str := [x42].
Definition ns1 : str := [x6e].
Definition ns2 : str := [x6d].

(* A datapoint that can be told from all others. *)
Definition marked (l : list Z) : DataPoint f64 := MkDP (fv l) [] 7%Z false.
Definition unmarked (d : DataPoint f64) : bool := negb (dp_expires d =? 7)%Z.
Lemma unmarked_out l (ds : list (DataPoint f64)) : forallb unmarked ds = true -> ~ In (marked l) ds.
Proof. intros H Hin. rewrite forallb_forall in H. specialize (H _ Hin). discriminate. Qed.
Lemma unmarked_out2 l ns (ds : list (str * DataPoint f64)) : forallb (fun e => unmarked (snd e)) ds = true -> ~ In (ns, marked l) ds.
Proof. intros H Hin. rewrite forallb_forall in H. specialize (H _ Hin). discriminate. Qed.
Lemma has_tagged d ns (l : list (str * DataPoint f64)) :
  existsb (fun e => str_eqb (fst e) ns && dp_same d (snd e)) l = true -> In (ns, d) l.
Proof.
  rewrite existsb_exists. intros ((n & x) & Hx & H). cbn [fst snd] in H. apply andb_prop in H. destruct H as (H1 & H2).
  apply str_eqb_eq in H1. apply dp_same_eq in H2. subst; auto.
Qed.
Lemma marked_lives E l : never_expired E [marked l].
Proof. intros k d [<-|[]]. reflexivity. Qed.

(* The world that requests lead to, and what a node then holds. *)
Definition after (E : Env f64) (setup : list (str * req f64)) (w : World f64) : World f64 :=
  match serve_seq E setup w 0 with Ok ((_, w'), _) => w' | _ => w end.
Definition holds (w : World f64) (a ns : str) := map (fun c => shows (c_dps c)) (centroids_at w a ns).

Fixpoint distinct (l : list str) : bool :=
  match l with [] => true | x :: r => negb (existsb (str_eqb x) r) && distinct r end.
Lemma distinct_nodup l : distinct l = true -> NoDup l.
Proof.
  induction l as [|x l IH]; cbn [distinct]; intros H; constructor; apply andb_prop in H; destruct H as (H1 & H2); auto.
  intros Hx. rewrite (proj2 (existsb_exists _ _)) in H1; [discriminate|]. exists x. split; auto. apply str_eqb_eq; auto.
Qed.

Lemma node_check (w : World f64) a : match node_at w a with Some _ => true | None => false end = true -> node_at w a <> None.
Proof. intros H K. rewrite K in H. discriminate. Qed.

Definition world_ok (w : World f64) : bool :=
  distinct (map fst (w_nodes w)) &&
  forallb (fun e => distinct (map fst (nd_tbl (snd e))) &&
    forallb (fun s => match nth_error (nd_heap (snd e)) (snd s) with Some (ns, _) => str_eqb ns (fst s) | None => false end)
            (nd_tbl (snd e))) (w_nodes w).
Lemma world_check (w : World f64) : world_ok w = true -> WorldOk w.
Proof.
  intros H. apply andb_prop in H. destruct H as (H1 & H2). split; [apply distinct_nodup; auto|].
  intros a nd Hin. rewrite forallb_forall in H2. specialize (H2 _ Hin). apply andb_prop in H2. destruct H2 as (H2 & H3).
  cbn [snd] in *. split; [apply distinct_nodup; auto|]. intros ns p Hp. rewrite forallb_forall in H3. specialize (H3 _ Hp).
  cbn [fst snd] in H3. destruct (nth_error (nd_heap nd) p) as [[ns' m]|]; [|discriminate]. apply str_eqb_eq in H3. subst. eauto.
Qed.

Definition no_orphans (w : World f64) : bool :=
  forallb (fun e => forallb (fun p => match nth_error (nd_heap (snd e)) p with
      | Some (ns, _) => match assoc ns (nd_tbl (snd e)) with Some q => q =? p | None => false end
      | None => false end) (seq 0 (length (nd_heap (snd e))))) (w_nodes w).
Lemma orphans_check (w : World f64) : no_orphans w = true -> NoOrphans w.
Proof.
  intros H a nd p ns m Hin Hp. unfold no_orphans in H. rewrite forallb_forall in H. specialize (H _ Hin). cbn [snd] in H.
  rewrite forallb_forall in H. assert (Hl : p < length (nd_heap nd)) by (apply nth_error_Some; congruence).
  specialize (H p). rewrite Hp in H. assert (Hi : In p (seq 0 (length (nd_heap nd)))) by (apply in_seq; lia).
  specialize (H Hi). destruct (assoc ns (nd_tbl nd)); [|discriminate]. apply Nat.eqb_eq in H. congruence.
Qed.

Definition mgr_dim (n : nat) (m : CM f64) : bool :=
  (length (cm_vec m) =? n) && forallb (fun c => (length (c_vec c) =? n) && forallb (fun d => length (dp_vec d) =? n) (c_dps c)) (cm_cs m).
Lemma mgr_dim_ok n m : mgr_dim n m = true -> DimOk n m.
Proof.
  intros H. apply andb_prop in H. destruct H as (H1 & H2). apply Nat.eqb_eq in H1. rewrite forallb_forall in H2.
  split; auto. apply Forall_forall. intros c Hc. specialize (H2 c Hc). apply andb_prop in H2. destruct H2 as (H2 & H3).
  apply Nat.eqb_eq in H2. split; auto. apply Forall_forall. intros d Hd. rewrite forallb_forall in H3. apply Nat.eqb_eq. auto.
Qed.

(* Every namespace has the dimension that dim gives it. *)
Definition dims_are (dim : str -> nat) (ns : str) (n : nat) : Prop := n = dim ns.
Definition dims_ok (dim : str -> nat) (w : World f64) : bool :=
  forallb (fun e => forallb (fun s => mgr_dim (dim (fst s)) (snd s)) (nd_heap (snd e))) (w_nodes w).
Lemma dims_check dim (w : World f64) : dims_ok dim w = true -> DimsOk (dims_are dim) w.
Proof.
  intros H a nd ns m H1 H2. unfold dims_ok in H. rewrite forallb_forall in H. specialize (H _ H1). cbn [snd] in H.
  rewrite forallb_forall in H. specialize (H _ H2). exists (dim ns). split; [reflexivity|]. apply mgr_dim_ok. auto.
Qed.

Definition counts (q : req f64) : bool :=
  match q with
  | QDrainUnordered _ n | QDrainOrdered _ n | QDistributeFast _ n _ | QDistributeAccurate _ n _
  | QKnnLookup _ _ n _ | QNearest _ _ n _ => (0 <=? n)%Z
  | _ => true
  end.
Definition requests_ok (dim : str -> nat) (w : World f64) (reqs : list (str * req f64)) : bool :=
  forallb (fun aq => match node_at w (fst aq) with Some _ => true | None => false end && counts (snd aq) &&
    match snd aq with QAdd ns d => length (dp_vec d) =? dim ns | _ => true end) reqs.
Lemma requests_check dim (w : World f64) reqs : requests_ok dim w reqs = true -> Requests (dims_are dim) w reqs.
Proof.
  unfold requests_ok, Requests. rewrite forallb_forall, Forall_forall. intros H aq Hin. specialize (H aq Hin).
  apply andb_prop in H. destruct H as (H & H3). apply andb_prop in H. destruct H as (H1 & H2). splits.
  - apply node_check; auto.
  - destruct (snd aq); cbn [req_counts counts] in *; auto; apply Z.leb_le; auto.
  - destruct (snd aq); cbn [req_dims]; auto; unfold dims_are.
    + apply Nat.eqb_eq; auto.
    + intros; congruence.
Qed.

(* With the search that always finds something, nothing is refused. *)
Lemma tie_finds n : finds_some tieE n.
Proof.
  intros v pool Hv Hp Hl. destruct pool as [|u pool]; [congruence|]. destruct (knn_brute_bestk f64_ord tie true v (u :: pool) 1%Z) as (idx & He & HB); [lia|].
  cbn [e_knn tieE plain_env]. rewrite He. destruct idx as [|i idx]; [|eauto]. exfalso.
  apply (SearchSpec.bk_all _ _ _ _ _ _ HB (Nat.lt_0_1) 0 f0). exists u. splits; auto. inversion Hl; subst. unfold tie.
  replace (length v) with (length u) by auto. rewrite Nat.eqb_refl. auto.
Qed.
