From Verif Require Import Base Num MathUtils Knn Env Centroid CManager Proc Server ServerFacts Core Routes.
From Coq.Init Require Import Byte.
From Coq Require Import Strings.Byte Strings.String.
Local Open Scope string_scope.
Local Open Scope list_scope.
Local Open Scope nat_scope.

Definition slashless (s : str) : Prop := forall c, In c s -> Byte.eqb c slash = false.
Definition plain (s : str) : Prop :=
  slashless s /\ str_eqb s [] = false /\ str_eqb s (text ".") = false /\ str_eqb s (text "..") = false.

Lemma segments_slashless p : forall s, In s (segments p) -> slashless s.
Proof.
  induction p as [|c r IH]; intros s; cbn [segments].
  - intros [<-|[]] x [].
  - destruct (Byte.eqb c slash) eqn:E.
    + intros [<-|H]; [intros x []|auto].
    + destruct (segments r) as [|h t]; intros [<-|H].
      * intros x [<-|[]]; auto.
      * contradiction.
      * intros x [<-|Hx]; auto. apply (IH h); [left; auto|exact Hx].
      * apply IH. right; auto.
Qed.

Lemma fold_plain l : forall st, Forall slashless l -> Forall plain st -> Forall plain (fold_left clean_step l st).
Proof.
  induction l as [|s l IH]; intros st Hl Hs; cbn [fold_left]; auto.
  inversion Hl; subst. apply IH; auto. unfold clean_step.
  destruct (str_eqb s [] || str_eqb s (text ".")) eqn:E; auto. apply orb_false_elim in E. destruct E as (E1 & E2).
  destruct (str_eqb s (text "..")) eqn:E3.
  - destruct Hs; cbn [tl]; auto.
  - constructor; auto. split; auto.
Qed.

Lemma cleaned_plain p : Forall plain (clean_segments p).
Proof.
  unfold clean_segments. apply Forall_rev, fold_plain; auto. apply Forall_forall, segments_slashless.
Qed.

Lemma segments_app s : forall r, slashless s -> segments (s ++ slash :: r) = s :: segments r.
Proof.
  induction s as [|c s IH]; intros r H; cbn [app segments].
  - reflexivity.
  - rewrite (H c) by (left; auto). rewrite IH; [reflexivity|]. intros x Hx; apply H; right; auto.
Qed.

Lemma segments_one s : slashless s -> segments s = [s].
Proof.
  induction s as [|c s IH]; intros H; cbn [segments]; auto.
  rewrite (H c) by (left; auto). rewrite IH; auto. intros x Hx; apply H; right; auto.
Qed.

(* The parts of a joined path, with or without a slash at the end. *)
Lemma segments_join l : forall s, Forall plain (s :: l) ->
  segments (s ++ flat_map (fun s => slash :: s) l) = s :: l /\
  segments (s ++ flat_map (fun s => slash :: s) l ++ [slash]) = s :: l ++ [[]].
Proof.
  induction l as [|s' l IH]; intros s H; inversion H as [|? ? Hs Hl]; subst; cbn [flat_map app].
  - rewrite app_nil_r. split; [apply segments_one, Hs|]. rewrite segments_app by apply Hs. reflexivity.
  - destruct (IH s' Hl) as (I1 & I2). split.
    + rewrite segments_app by apply Hs. f_equal. exact I1.
    + rewrite <- app_assoc. rewrite segments_app by apply Hs. f_equal. exact I2.
Qed.

Lemma fold_keep l : forall st, Forall plain l -> fold_left clean_step l st = rev l ++ st.
Proof.
  induction l as [|s l IH]; intros st H; cbn [fold_left rev app]; auto.
  inversion H as [|? ? (_ & H1 & H2 & H3) Hl]; subst. rewrite IH by auto.
  unfold clean_step. rewrite H1, H2, H3. cbn [orb]. rewrite <- app_assoc. reflexivity.
Qed.

Lemma clean_join l : Forall plain l ->
  clean_segments (join l) = l /\ (l <> [] -> clean_segments (join l ++ [slash]) = l).
Proof.
  intros H. destruct l as [|s l].
  - split; [reflexivity|congruence].
  - unfold clean_segments, join. cbn [flat_map app segments].
    change (Byte.eqb slash slash) with true. cbv iota. cbn [fold_left].
    destruct (segments_join l s H) as (J1 & J2).
    change (clean_step [] []) with (@nil str). split.
    + rewrite J1, fold_keep, app_nil_r, rev_involutive by auto. reflexivity.
    + intros _. rewrite <- app_assoc. rewrite J2.
      change (s :: l ++ [[]]) with ((s :: l) ++ [@nil byte]). rewrite fold_left_app, (fold_keep (s :: l)) by auto.
      cbn [fold_left]. change (clean_step (rev (s :: l) ++ []) []) with (rev (s :: l) ++ []).
      rewrite app_nil_r, rev_involutive. reflexivity.
Qed.

Lemma rooted_idem l : rooted (join l) = join l /\ rooted (join l ++ [slash]) = join l ++ [slash].
Proof. destruct l; split; reflexivity. Qed.

Lemma join_end l : Forall plain l -> l <> [] -> ends_in_slash (join l) = false /\ str_eqb (join l) [slash] = false.
Proof.
  intros H Hn. destruct l as [|s l]; [congruence|]. split.
  - assert (Hx : exists a x, join (s :: l) = a ++ [x] /\ Byte.eqb x slash = false).
    { unfold join. clear Hn. revert s H. induction l as [|s' l IH]; intros s H; inversion H as [|? ? Hs Hl]; subst; cbn [flat_map].
      - rewrite app_nil_r. destruct Hs as (Hs & Hne & _).
        destruct (exists_last (l := s)) as (a & x & ->); [intros ->; discriminate|].
        exists (slash :: a), x. split; auto. apply Hs, in_or_app. right; left; auto.
      - destruct (IH s' Hl) as (a & x & Ha & Hx). cbn [flat_map] in Ha.
        exists ((slash :: s) ++ a), x. split; auto. rewrite Ha. rewrite <- app_assoc. reflexivity. }
    destruct Hx as (a & x & -> & Hx). unfold ends_in_slash. rewrite rev_unit. exact Hx.
  - inversion H as [|? ? (_ & Hne & _) Hl]; subst. unfold join. cbn [flat_map app str_eqb].
    destruct s; [discriminate|]. cbn [app]. apply andb_false_r.
Qed.

Lemma clean_idem p : clean_path (clean_path p) = clean_path p.
Proof.
  unfold clean_path at 2 3. set (l := clean_segments (rooted p)).
  assert (H : Forall plain l) by apply cleaned_plain.
  destruct (clean_join l H) as (C1 & C2). destruct (rooted_idem l) as (R1 & R2).
  destruct (list_eq_dec (list_eq_dec Byte.byte_eq_dec) l []) as [->|Hn].
  - change (str_eqb (join []) [slash]) with true. cbn [negb]. rewrite andb_false_r. reflexivity.
  - destruct (join_end l H Hn) as (J1 & J2). rewrite J2. cbn [negb]. rewrite andb_true_r.
    destruct (ends_in_slash (rooted p)); unfold clean_path.
    + rewrite R2, C2 by auto. rewrite J2. cbn [negb]. rewrite andb_true_r.
      unfold ends_in_slash. rewrite rev_unit. reflexivity.
    + rewrite R1, C1, J1. reflexivity.
Qed.

(* ---- the routes ---- *)
Section Serve.
Context {N : Num} (E : Env N).

Lemma started put_first addrs m : api_start put_first (Some addrs) [] = Ok (m, true) ->
  assoc put_route m = Some (EPut, addrs) /\ assoc query_route m = Some (EQuery, addrs) /\
  forall p, p <> put_route -> p <> query_route -> assoc p m = None.
Proof.
  intros H. assert (Hm : m = if put_first then [(put_route, (EPut, addrs)); (query_route, (EQuery, addrs))]
                             else [(query_route, (EQuery, addrs)); (put_route, (EPut, addrs))]).
  { destruct put_first; vm_compute in H; inversion H; subst m; reflexivity. }
  subst m. split; [destruct put_first; reflexivity|]. split; [destruct put_first; reflexivity|].
  intros p H1 H2. destruct put_first; unfold assoc.
  - destruct (str_eqb p put_route) eqn:E1; [apply str_eqb_eq in E1; congruence|].
    destruct (str_eqb p query_route) eqn:E2; [apply str_eqb_eq in E2; congruence|]. auto.
  - destruct (str_eqb p query_route) eqn:E2; [apply str_eqb_eq in E2; congruence|].
    destruct (str_eqb p put_route) eqn:E1; [apply str_eqb_eq in E1; congruence|]. auto.
Qed.

Lemma starts put_first addrs : exists m, api_start put_first (Some addrs) [] = Ok (m, true).
Proof. destruct put_first; eexists; vm_compute; reflexivity. Qed.

Lemma no_addresses put_first m : api_start put_first None m = Ok (m, false).
Proof. reflexivity. Qed.

Lemma starts_again put_first put_first' addrs addrs' m :
  api_start put_first (Some addrs) [] = Ok (m, true) -> api_start put_first' (Some addrs') m = Panic.
Proof.
  intros H. destruct put_first; vm_compute in H; inversion H; subst m; destruct put_first'; reflexivity.
Qed.

Lemma serve_put put_first addrs m (r : http_request N) : api_start put_first (Some addrs) [] = Ok (m, true) ->
  rq_star r = false -> rq_path r = put_route ->
  serve_http E m r = (call h <- put_http E addrs (rq_put r); Ret (Answer h)).
Proof.
  intros H Hs Hp. destruct (started _ _ _ H) as (H1 & _). unfold serve_http. rewrite Hs, Hp, H1.
  change (str_eqb (clean_path put_route) put_route) with true. rewrite andb_false_r. reflexivity.
Qed.

Lemma serve_query put_first addrs m (r : http_request N) : api_start put_first (Some addrs) [] = Ok (m, true) ->
  rq_star r = false -> rq_path r = query_route ->
  serve_http E m r = (call x <- query_http E addrs (rq_query r); Ret (Answer (fst x))).
Proof.
  intros H Hs Hp. destruct (started _ _ _ H) as (_ & H1 & _). unfold serve_http. rewrite Hs, Hp, H1.
  change (str_eqb (clean_path query_route) query_route) with true. rewrite andb_false_r. reflexivity.
Qed.

Lemma serve_other put_first addrs m (r : http_request N) : api_start put_first (Some addrs) [] = Ok (m, true) ->
  rq_star r = true \/ (rq_path r <> put_route /\ rq_path r <> query_route) ->
  exists a, serve_http E m r = Ret a /\
    (a = Answer (Http 400 None) /\ rq_star r = true \/
     a = Answer (Http 404 None) /\ rq_star r = false \/
     exists p, a = Redirect p /\ rq_star r = false /\ p <> rq_path r /\ clean_path p = p).
Proof.
  intros H Ho. unfold serve_http. destruct (rq_star r) eqn:Hs; [eexists; split; [reflexivity|]; auto|].
  destruct Ho as [Ho|(Ho1 & Ho2)]; [discriminate|].
  destruct (negb _ && negb _) eqn:Hc.
  - eexists; split; [reflexivity|]. right; right. eexists. split; [reflexivity|]. split; auto. split; [|apply clean_idem].
    apply andb_prop in Hc. destruct Hc as (_ & Hc). intros Hx. rewrite Hx, str_eqb_refl in Hc. discriminate.
  - destruct (started _ _ _ H) as (_ & _ & H3). rewrite H3 by auto. eexists; split; [reflexivity|]. auto.
Qed.
End Serve.
