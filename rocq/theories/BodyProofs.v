From Verif Require Import Base Num MathUtils Knn Env Centroid CManager Proc Server ServerFacts Core Routes Json JsonSpec BodySpec.
From Coq.Init Require Import Byte.
From Coq Require Import Strings.Byte Strings.String.
Local Open Scope string_scope.
Local Open Scope list_scope.

Section Json.
Context {N : Num} (parse_time : str -> option Z) (parse_bytes : str -> option (list byte)).
Notation json := (json N).
Notation time_text := (fun s => match parse_time s with Some _ => true | None => false end).
Notation bytes_text := (fun s => match parse_bytes s with Some _ => true | None => false end).

Lemma same_twice n f g : same_name n f = true -> same_name n g = true -> folded (text f) = folded (text g).
Proof. unfold same_name. rewrite !str_eqb_eq. congruence. Qed.

(* ---- names ---- *)
Lemma lower_iff c d : lower c = lower d <-> may_stand c d.
Proof.
  assert (H : forallb (fun c => forallb (fun d => Bool.eqb (Byte.eqb (lower c) (lower d))
    (Byte.eqb c d || existsb (fun p => Byte.eqb c (fst p) && Byte.eqb d (snd p) || Byte.eqb d (fst p) && Byte.eqb c (snd p)) letters))
    (map (fun n => match Byte.of_N (N.of_nat n) with Some b => b | None => x00 end) (seq 0 256)))
    (map (fun n => match Byte.of_N (N.of_nat n) with Some b => b | None => x00 end) (seq 0 256)) = true) by (vm_compute; reflexivity).
  assert (Ha : forall b, In b (map (fun n => match Byte.of_N (N.of_nat n) with Some b => b | None => x00 end) (seq 0 256))).
  { intros b. apply in_map_iff. exists (N.to_nat (Byte.to_N b)). rewrite Nnat.N2Nat.id, Byte.of_to_N. split; auto.
    apply in_seq. pose proof (Byte.to_N_bounded b). lia. }
  rewrite forallb_forall in H. specialize (H c (Ha c)). rewrite forallb_forall in H. specialize (H d (Ha d)).
  apply Bool.eqb_prop in H. clear Ha.
  assert (He : forall x y, Byte.eqb x y = true <-> x = y).
  { intros x y. split; [apply Byte.byte_dec_bl|apply Byte.byte_dec_lb]. }
  rewrite <- He, H, orb_true_iff, He, existsb_exists. unfold may_stand. split; intros [E|E]; auto; right.
  - destruct E as ([x y] & Hi & E). apply orb_true_iff in E. rewrite !andb_true_iff, !He in E. cbn [fst snd] in E.
    destruct E as [(-> & ->)|(-> & ->)]; auto.
  - destruct E as [E|E]; [exists (c, d)|exists (d, c)]; split; auto; rewrite orb_true_iff, !andb_true_iff, !He; auto.
Qed.

Lemma folded_iff a : forall b, ~ In xc5 b -> folded a = map lower b <-> spells a b.
Proof.
  unfold folded. intros b Hb. split.
  - revert b Hb. induction a as [a IH] using (induction_ltof1 _ (@List.length byte)). unfold ltof in IH. intros b Hb E.
    destruct a as [|c r]; [destruct b; [constructor|discriminate E]|]. cbn [plain_s] in E.
    destruct r as [|d r'].
    + destruct b as [|e b]; [discriminate E|]. cbn [map] in E. injection E as E1 E2. destruct b; [|discriminate E2].
      constructor; [apply lower_iff; exact E1|constructor].
    + destruct (Byte.eqb c xc5 && Byte.eqb d xbf) eqn:Ec.
      * apply andb_prop in Ec. destruct Ec as (E1 & E2). apply Byte.byte_dec_bl in E1, E2. subst.
        destruct b as [|e b]; [discriminate E|]. cbn [map] in E. injection E as E1 E2.
        apply spells_long_s; [apply lower_iff; exact E1|]. apply IH; [cbn; lia|intros Hi; apply Hb; right; auto|exact E2].
      * destruct b as [|e b]; [discriminate E|]. cbn [map] in E. injection E as E1 E2.
        apply spells_cons; [apply lower_iff; exact E1|]. apply IH; [cbn; lia|intros Hi; apply Hb; right; auto|exact E2].
  - intros H. revert Hb. induction H as [|c d a b H1 H2 IH|d a b H1 H2 IH]; intros Hb; [reflexivity| |].
    + assert (Hc : c <> xc5).
      { intros ->. apply lower_iff in H1. change (lower xc5) with xc5 in H1. apply Hb. left.
        symmetry in H1. apply (proj1 (lower_iff d xc5)) in H1. destruct H1 as [H1|[H1|H1]]; auto; exfalso; cbn in H1;
          repeat (destruct H1 as [H1|H1]; [discriminate H1|]); exact H1. }
      cbn [plain_s]. destruct a as [|x a].
      * inversion H2; subst. cbn [map]. f_equal. apply lower_iff; auto.
      * destruct (Byte.eqb c xc5) eqn:E; [apply Byte.byte_dec_bl in E; contradiction|]. cbn [andb].
        change (map lower (c :: plain_s (x :: a))) with (lower c :: map lower (plain_s (x :: a))). cbn [map]. f_equal; [apply lower_iff; auto|].
        apply IH. intros Hi. apply Hb. right; auto.
    + cbn [plain_s]. change (Byte.eqb xc5 xc5 && Byte.eqb xbf xbf) with true. cbv iota. cbn [map]. f_equal; [apply lower_iff; auto|].
      apply IH. intros Hi. apply Hb. right; auto.
Qed.

Lemma names_plain f : In f field_names -> ~ In xc5 (text f) /\ folded (text f) = map lower (text f).
Proof.
  intros H. cbn in H. repeat (destruct H as [<-|H]; [split; [intros Hi; vm_compute in Hi; repeat (destruct Hi as [Hi|Hi]; [discriminate Hi|]); exact Hi|vm_compute; reflexivity]|]).
  contradiction.
Qed.
Theorem same_name_iff n f : In f field_names -> same_name n f = true <-> spells n (text f).
Proof.
  intros H. destruct (names_plain f H) as (H1 & H2). unfold same_name. rewrite str_eqb_eq, H2. apply folded_iff. exact H1.
Qed.
(* ---- acceptance ---- *)
Lemma all_some_iff {A B} (f : A -> option B) (ok : A -> bool) l : (forall x, f x <> None <-> ok x = true) ->
  all_some f l <> None <-> forallb ok l = true.
Proof.
  intros H. induction l as [|x r IH]; cbn [all_some forallb]; [split; auto; discriminate|].
  rewrite andb_true_iff, <- IH, <- H. destruct (f x), (all_some f r); split; try tauto; try (intros []; congruence); split; discriminate.
Qed.

Lemma dec_vec_fits (j : json) : dec_vec j <> None <-> fits time_text bytes_text KVec j = true.
Proof.
  destruct j; cbn; try (split; [congruence|discriminate]); try (split; [auto|discriminate]).
  apply all_some_iff. intros x. destruct x as [| |[f|] i u| | |]; cbn; split; try congruence; try discriminate.
Qed.

Lemma dec_byte_fits (x : json) : dec_byte x <> None <-> match x with JNull | JNum _ _ (Some _) => true | _ => false end = true.
Proof. destruct x as [| |f i [u|]| | |]; cbn [dec_byte]; split; congruence. Qed.

Lemma dec_fits (k : kind) (j : json) b s n t :
  match k with
  | KBool => dec_bool j b <> None
  | KStr => dec_str j s <> None
  | KInt => dec_int j n <> None
  | KVec => dec_vec j <> None
  | KBytes => dec_bytes parse_bytes j <> None
  | KTime => dec_time parse_time j t <> None
  end <-> fits time_text bytes_text k j = true.
Proof.
  destruct k; [| | |apply dec_vec_fits| |].
  - destruct j; cbn; split; congruence.
  - destruct j; cbn; split; congruence.
  - destruct j as [| |f [z|] u| | |]; cbn; split; congruence.
  - destruct j; cbn; try (split; congruence).
    + destruct (parse_bytes s0); split; congruence.
    + apply all_some_iff, dec_byte_fits.
  - destruct j; cbn; try (split; congruence). destruct (parse_time raw); split; congruence.
Qed.

Lemma map_some {A B} (f : A -> B) o : option_map f o <> None <-> o <> None.
Proof. destruct o; cbn; split; congruence. Qed.

Lemma member_named fields (x : str * json) : incl (map fst fields) field_names ->
  member_fits time_text bytes_text fields x <->
  forall f k, In (f, k) fields -> same_name (fst x) f = true -> fits time_text bytes_text k (snd x) = true.
Proof.
  intros Hi. unfold member_fits. split; intros H f k Hin Hs; apply (H f k Hin); apply same_name_iff in Hs || apply same_name_iff; auto;
    apply Hi; apply (in_map fst) in Hin; exact Hin.
Qed.
Ltac included := let x := fresh in let H := fresh in intros x H; cbn in H |- *; tauto.
(* Decides which field, if any, the name [n] is; the goal relates decoding to fitting. *)
Lemma set_dp_iff n (j : json) w :
  set_dp parse_time parse_bytes n j w <> None <-> member_fits time_text bytes_text dp_fields (n, j).
Proof.
  destruct w as [v p e b]. rewrite member_named by included. unfold set_dp, dp_fields. cbn [fst snd].
  pose proof (dec_fits KVec j b [] 0%Z e) as F1. pose proof (dec_fits KBytes j b [] 0%Z e) as F2.
  pose proof (dec_fits KTime j b [] 0%Z e) as F3. pose proof (dec_fits KBool j b [] 0%Z e) as F4. cbv iota in F1, F2, F3, F4.
  destruct (same_name n "vec") eqn:E1; [|destruct (same_name n "payload") eqn:E2; [|destruct (same_name n "expires") eqn:E3;
    [|destruct (same_name n "expireEnabled") eqn:E4]]]; rewrite ?map_some, ?F1, ?F2, ?F3, ?F4.
  1,2,3,4: split; [intros H f k Hin Hs|intros H; eapply H; [|eassumption]; cbn; auto 10];
      cbn in Hin; repeat (destruct Hin as [Hin|Hin]; [injection Hin as <- <-|]); try contradiction; try exact H;
      exfalso; match goal with X : same_name ?n ?a = true, Y : same_name ?n ?b = true |- _ =>
        assert_fails (constr_eq a b); pose proof (same_twice _ _ _ X Y) as C; vm_compute in C; discriminate C end.
  split; [intros _ f k Hin Hs|intros _; discriminate].
  cbn in Hin; repeat (destruct Hin as [Hin|Hin]; [injection Hin as <- <-; congruence|]); contradiction.
Qed.

Lemma struct_iff {S} (set : str -> json -> S -> option S) (ok : str * json -> Prop) :
  (forall n j s, set n j s <> None <-> ok (n, j)) ->
  forall j s, dec_struct set j s <> None <-> object_fits ok j.
Proof.
  intros H. assert (Hm : forall m s, members set m s <> None <-> forall x, In x m -> ok x).
  { induction m as [|[n j] r IH]; intros s; cbn [members]; [split; [intros _ x []|discriminate]|].
    pose proof (H n j s) as Hx. destruct (set n j s) as [s'|].
    - rewrite IH. split.
      + intros Hr x [<-|Hi]; [apply Hx; discriminate|auto].
      + intros Hr x Hi. apply Hr. right; auto.
    - split; [congruence|]. intros Hr _. apply (proj2 Hx); [apply Hr; left; auto|reflexivity]. }
  intros j s. unfold object_fits. destruct j; cbn [dec_struct];
    try (split; [congruence|intros [X|(? & X & _)]; discriminate X]).
  - split; [auto|discriminate].
  - rewrite Hm. split; [intros X; right; eauto|intros [X|(m' & X & Y)]; [discriminate X|injection X as <-; exact Y]].
Qed.

Theorem dec_dp_iff (j : json) w : dec_dp parse_time parse_bytes j w <> None <-> dp_ok time_text bytes_text j.
Proof. apply (struct_iff _ (member_fits time_text bytes_text dp_fields)). intros; apply set_dp_iff. Qed.

Lemma set_put_iff n (j : json) o : set_put parse_time parse_bytes n j o <> None <->
  member_fits time_text bytes_text put_fields (n, j) /\ (spells n (text "dp") -> dp_ok time_text bytes_text j).
Proof.
  destruct o as [ns a d]. rewrite member_named, <- same_name_iff by (included || (cbn; tauto)). unfold set_put, put_fields. cbn [fst snd].
  pose proof (dec_fits KStr j a ns 0%Z 0%Z) as F1. pose proof (dec_fits KBool j a ns 0%Z 0%Z) as F2. cbv iota in F1, F2.
  destruct (same_name n "namespace") eqn:E1; [|destruct (same_name n "accurate") eqn:E2; [|destruct (same_name n "dp") eqn:E3]];
    rewrite ?map_some, ?F1, ?F2, ?dec_dp_iff.
  1,2: split; [intros H; split; [intros f k Hin Hs|intros Hs]|intros (H & _); eapply H; [|eassumption]; cbn; auto 10];
      try (cbn in Hin; repeat (destruct Hin as [Hin|Hin]; [injection Hin as <- <-|])); try contradiction; try exact H;
      exfalso; match goal with X : same_name ?n ?a = true, Y : same_name ?n ?b = true |- _ =>
        assert_fails (constr_eq a b); pose proof (same_twice _ _ _ X Y) as C; vm_compute in C; discriminate C end.
  - split; [intros H; split; auto|intros (_ & H); auto].
    intros f k Hin Hs. cbn in Hin; repeat (destruct Hin as [Hin|Hin]; [injection Hin as <- <-; congruence|]); contradiction.
  - split; [intros _; split; [|discriminate]|discriminate].
    intros f k Hin Hs. cbn in Hin; repeat (destruct Hin as [Hin|Hin]; [injection Hin as <- <-; congruence|]); contradiction.
Qed.

Theorem dec_put_iff body : dec_put (N := N) parse_time parse_bytes body <> None <->
  exists j, body = Some j /\ put_ok time_text bytes_text j.
Proof.
  destruct body as [j|]; cbn [dec_put]; [|split; [congruence|intros (? & X & _); discriminate X]].
  rewrite (struct_iff _ (fun x => member_fits time_text bytes_text put_fields x /\ (spells (fst x) (text "dp") -> dp_ok time_text bytes_text (snd x))))
    by (intros; apply set_put_iff).
  split; [intros H; exists j; auto|intros (? & X & H); injection X as <-; exact H].
Qed.

Lemma set_query_iff n (j : json) o : set_query n j o <> None <->
  member_fits time_text bytes_text query_fields (n, j).
Proof.
  destruct o as [ns a v k d]. rewrite member_named by included. unfold set_query, query_fields. cbn [fst snd].
  pose proof (dec_fits KStr j a ns k 0%Z) as F1. pose proof (dec_fits KBool j a ns k 0%Z) as F2.
  pose proof (dec_fits KVec j a ns k 0%Z) as F3. pose proof (dec_fits KInt j a ns k 0%Z) as F4.
  pose proof (dec_fits KBool j d ns k 0%Z) as F5. cbv iota in F1, F2, F3, F4, F5.
  destruct (same_name n "namespace") eqn:E1; [|destruct (same_name n "accurate") eqn:E2; [|destruct (same_name n "queryVec") eqn:E3;
    [|destruct (same_name n "n") eqn:E4; [|destruct (same_name n "drain") eqn:E5]]]]; rewrite ?map_some, ?F1, ?F2, ?F3, ?F4, ?F5.
  1,2,3,4,5: split; [intros H f k' Hin Hs|intros H; eapply H; [|eassumption]; cbn; auto 10];
      cbn in Hin; repeat (destruct Hin as [Hin|Hin]; [injection Hin as <- <-|]); try contradiction; try exact H;
      exfalso; match goal with X : same_name ?n ?a = true, Y : same_name ?n ?b = true |- _ =>
        assert_fails (constr_eq a b); pose proof (same_twice _ _ _ X Y) as C; vm_compute in C; discriminate C end.
  split; [intros _ f k' Hin Hs|intros _; discriminate].
  cbn in Hin; repeat (destruct Hin as [Hin|Hin]; [injection Hin as <- <-; congruence|]); contradiction.
Qed.

Theorem dec_query_iff body : dec_query (N := N) body <> None <->
  exists j, body = Some j /\ query_ok time_text bytes_text j.
Proof.
  destruct body as [j|]; cbn [dec_query]; [|split; [congruence|intros (? & X & _); discriminate X]].
  rewrite (struct_iff _ (member_fits time_text bytes_text query_fields)) by (intros; apply set_query_iff).
  split; [intros H; exists j; auto|intros (? & X & H); injection X as <-; exact H].
Qed.

(* ---- the order of the members ---- *)
Definition andthen {S : Type} (o : option S) (f : S -> option S) : option S := match o with Some s => f s | None => None end.
Definition commute {S} (set : str -> json -> S -> option S) (x y : str * json) : Prop :=
  forall s, andthen (set (fst x) (snd x) s) (set (fst y) (snd y)) = andthen (set (fst y) (snd y) s) (set (fst x) (snd x)).

Lemma members_perm {S} (set : str -> json -> S -> option S) m m' : Permutation m m' ->
  (forall x y, In x m -> In y m -> commute set x y) -> forall s, members set m s = members set m' s.
Proof.
  induction 1 as [|[n j] l l' H IH|[n1 j1] [n2 j2] l|l1 l2 l3 H1 IH1 H2 IH2]; intros Hc s; auto.
  - cbn [members]. destruct (set n j s); auto. apply IH. intros; apply Hc; right; auto.
  - cbn [members]. pose proof (Hc (n1, j1) (n2, j2) ltac:(cbn; auto) ltac:(cbn; auto) s) as C. unfold andthen in C. cbn [fst snd] in C.
    destruct (set n1 j1 s) as [s1|], (set n2 j2 s) as [s2|]; try (rewrite C; reflexivity); try (rewrite <- C; reflexivity); auto.
  - rewrite IH1 by auto. apply IH2. intros x y Hx Hy. apply Hc; apply (Permutation_in _ (Permutation_sym H1)); auto.
Qed.

Lemma commute_refl {S} (set : str -> json -> S -> option S) x : commute set x x.
Proof. intros s. reflexivity. Qed.

Definition apart (n1 n2 : str) : Prop := forall f, In f field_names -> spells n1 (text f) -> ~ spells n2 (text f).
Lemma apart_named n1 n2 f : In f field_names -> apart n1 n2 -> same_name n1 f = true -> same_name n2 f = true -> False.
Proof. intros Hf H A B. apply same_name_iff in A, B; auto. exact (H f Hf A B). Qed.
Lemma apart_sym n1 n2 : apart n1 n2 -> apart n2 n1.
Proof. intros H f Hf A B. exact (H f Hf B A). Qed.

Ltac other_field :=
  match goal with
  | Hn : apart ?a ?b, X : same_name ?a ?f = true, Y : same_name ?b ?f = true |- _ =>
      exfalso; exact (apart_named _ _ f ltac:(cbn; auto 12) Hn X Y)
  end.

(* Decodes the values that are not themselves results of a match. *)
Ltac inner :=
  repeat (match goal with |- context [match ?o with Some _ => _ | None => _ end] =>
            match o with context [match _ with _ => _ end] => fail 1 | _ => destruct o eqn:? end
          end; cbv beta iota zeta).

Lemma put_commute x y : apart (fst x) (fst y) -> commute (set_put (N := N) parse_time parse_bytes) x y.
Proof.
  destruct x as [n1 j1], y as [n2 j2]. cbn [fst snd]. intros Hn [ns a d]. unfold andthen, set_put. cbn [fst snd].
  destruct (same_name n1 "namespace") eqn:A1, (same_name n2 "namespace") eqn:B1; try other_field;
  destruct (same_name n1 "accurate") eqn:A2, (same_name n2 "accurate") eqn:B2; try other_field;
  destruct (same_name n1 "dp") eqn:A3, (same_name n2 "dp") eqn:B3; try other_field; unfold option_map; inner; congruence.
Qed.

Lemma dp_commute x y : apart (fst x) (fst y) -> commute (set_dp (N := N) parse_time parse_bytes) x y.
Proof.
  destruct x as [n1 j1], y as [n2 j2]. cbn [fst snd]. intros Hn [v p e b]. unfold andthen, set_dp. cbn [fst snd].
  destruct (same_name n1 "vec") eqn:A1, (same_name n2 "vec") eqn:B1; try other_field;
  destruct (same_name n1 "payload") eqn:A2, (same_name n2 "payload") eqn:B2; try other_field;
  destruct (same_name n1 "expires") eqn:A3, (same_name n2 "expires") eqn:B3; try other_field;
  destruct (same_name n1 "expireEnabled") eqn:A4, (same_name n2 "expireEnabled") eqn:B4; try other_field; unfold option_map; inner; congruence.
Qed.

Lemma query_commute x y : apart (fst x) (fst y) -> commute (set_query (N := N)) x y.
Proof.
  destruct x as [n1 j1], y as [n2 j2]. cbn [fst snd]. intros Hn [ns a v k d]. unfold andthen, set_query. cbn [fst snd].
  destruct (same_name n1 "namespace") eqn:A1, (same_name n2 "namespace") eqn:B1; try other_field;
  destruct (same_name n1 "accurate") eqn:A2, (same_name n2 "accurate") eqn:B2; try other_field;
  destruct (same_name n1 "queryVec") eqn:A3, (same_name n2 "queryVec") eqn:B3; try other_field;
  destruct (same_name n1 "n") eqn:A4, (same_name n2 "n") eqn:B4; try other_field;
  destruct (same_name n1 "drain") eqn:A5, (same_name n2 "drain") eqn:B5; try other_field; unfold option_map; inner; congruence.
Qed.

Lemma nodup_commute {S} (set : str -> json -> S -> option S) m :
  (forall x y : str * json, apart (fst x) (fst y) -> commute set x y) ->
  no_twins m -> forall x y : str * json, In x m -> In y m -> commute set x y.
Proof.
  intros H Hn. induction Hn as [|z m Hz Hn IH]; intros x y Hx Hy; [contradiction|]. rewrite Forall_forall in Hz.
  destruct Hx as [<-|Hx], Hy as [<-|Hy].
  - apply commute_refl.
  - apply H. exact (Hz y Hy).
  - apply H, apart_sym. exact (Hz x Hx).
  - apply IH; auto.
Qed.

Theorem any_order (m m' : list (str * json)) : Permutation m m' -> no_twins m ->
  dec_put parse_time parse_bytes (Some (JObj m)) = dec_put parse_time parse_bytes (Some (JObj m')) /\
  dec_query (Some (JObj m)) = dec_query (Some (JObj m')) /\
  forall w, dec_dp parse_time parse_bytes (JObj m) w = dec_dp parse_time parse_bytes (JObj m') w.
Proof.
  intros P D. split; [|split]; intros; cbn [dec_put dec_query dec_struct dec_dp]; apply members_perm; auto;
    apply nodup_commute; auto using put_commute, query_commute, dp_commute.
Qed.

Lemma members_app {S} (set : str -> json -> S -> option S) m1 : forall m2 s,
  members set (m1 ++ m2) s = andthen (members set m1 s) (members set m2).
Proof.
  induction m1 as [|[n j] r IH]; intros m2 s; cbn [app members andthen]; auto.
  destruct (set n j s); auto.
Qed.

Lemma members_skip {S} (set : str -> json -> S -> option S) m1 x m2 s : (forall s, set (fst x) (snd x) s = Some s) ->
  members set (m1 ++ x :: m2) s = members set (m1 ++ m2) s.
Proof.
  intros H. rewrite !members_app. destruct (members set m1 s) as [s'|]; cbn [andthen]; auto.
  destruct x as [n j]. cbn [members fst snd] in *. rewrite H. auto.
Qed.

Lemma stranger_named fields (x : str * json) f : stranger fields x -> In f fields -> In f field_names -> same_name (fst x) f = false.
Proof.
  intros H Hi Hf. destruct (same_name (fst x) f) eqn:E; auto. apply same_name_iff in E; auto. exfalso. exact (H f Hi E).
Qed.
Theorem strangers_skipped (m1 m2 : list (str * json)) x :
  (stranger ["namespace"; "accurate"; "dp"] x ->
     dec_put parse_time parse_bytes (Some (JObj (m1 ++ x :: m2))) = dec_put parse_time parse_bytes (Some (JObj (m1 ++ m2)))) /\
  (stranger ["namespace"; "accurate"; "queryVec"; "n"; "drain"] x ->
     dec_query (Some (JObj (m1 ++ x :: m2))) = dec_query (Some (JObj (m1 ++ m2)))) /\
  (stranger ["vec"; "payload"; "expires"; "expireEnabled"] x -> forall w,
     dec_dp parse_time parse_bytes (JObj (m1 ++ x :: m2)) w = dec_dp parse_time parse_bytes (JObj (m1 ++ m2)) w).
Proof.
  split; [|split]; intros H; intros; cbn [dec_put dec_query dec_struct dec_dp]; apply members_skip; intros s; destruct s.
  - unfold set_put. rewrite !(stranger_named _ _ _ H) by (cbn; auto 12). reflexivity.
  - unfold set_query. rewrite !(stranger_named _ _ _ H) by (cbn; auto 12). reflexivity.
  - unfold set_dp. rewrite !(stranger_named _ _ _ H) by (cbn; auto 12). reflexivity.
Qed.

Lemma absent_iff (m : list (str * json)) f : In f field_names -> absent m f -> forall x, In x m -> same_name (fst x) f = false.
Proof.
  intros Hf H x Hx. destruct (same_name (fst x) f) eqn:E; auto. apply same_name_iff in E; auto. exfalso. apply (H x Hx E).
Qed.

(* A name may be replaced by another spelling. *)
Lemma members_rename {S} (set : str -> json -> S -> option S) m1 n n' j m2 s : (forall s, set n j s = set n' j s) ->
  members set (m1 ++ (n, j) :: m2) s = members set (m1 ++ (n', j) :: m2) s.
Proof. intros H. rewrite !members_app. destruct (members set m1 s); cbn [andthen members]; auto. rewrite H. auto. Qed.
Lemma spelt_same n f g : In f field_names -> spells n (text f) -> same_name n g = same_name (text f) g.
Proof.
  intros Hf H. apply same_name_iff in H; auto. unfold same_name in *. apply str_eqb_eq in H. rewrite H. reflexivity.
Qed.
Theorem any_spelling (m1 m2 : list (str * json)) n f j : In f field_names -> spells n (text f) ->
  dec_put parse_time parse_bytes (Some (JObj (m1 ++ (n, j) :: m2))) = dec_put parse_time parse_bytes (Some (JObj (m1 ++ (text f, j) :: m2))) /\
  dec_query (Some (JObj (m1 ++ (n, j) :: m2))) = dec_query (Some (JObj (m1 ++ (text f, j) :: m2))) /\
  forall w, dec_dp parse_time parse_bytes (JObj (m1 ++ (n, j) :: m2)) w = dec_dp parse_time parse_bytes (JObj (m1 ++ (text f, j) :: m2)) w.
Proof.
  intros Hf H. split; [|split]; intros; cbn [dec_put dec_query dec_struct dec_dp]; apply members_rename; intros [];
    unfold set_put, set_query, set_dp; rewrite !(spelt_same n f) by auto; reflexivity.
Qed.

(* ---- fields that do not occur ---- *)
Lemma members_keep {S A} (set : str -> json -> S -> option S) (get : S -> A) m : (forall x s s', In x m -> set (fst x) (snd x) s = Some s' -> get s' = get s) ->
  forall s s', members set m s = Some s' -> get s' = get s.
Proof.
  induction m as [|[n j] m IH]; intros H s s' E; cbn [members] in E; [congruence|].
  destruct (set n j s) as [s1|] eqn:E1; [|discriminate E]. rewrite (IH (fun x s s' Hx => H x s s' (or_intror Hx)) _ _ E).
  apply (H (n, j) s s1); [left; auto|exact E1].
Qed.
Ltac gone Ha := match type of Ha with absent ?m ?f => let H := fresh in pose proof (absent_iff m f ltac:(cbn; auto 12) Ha) as H; clear Ha; rename H into Ha end.
Ltac keep Ha := let E := fresh "E" in intros [n j] [] s' Hx E; specialize (Ha _ Hx); cbn [fst snd] in Ha, E; unfold set_put, set_query, set_dp in E;
  repeat (match type of E with (if ?b then _ else _) = _ => destruct b eqn:?; [try congruence|] end);
  unfold option_map in E; try (match type of E with match ?o with _ => _ end = _ => destruct o; [|discriminate E] end); injection E as <-; reflexivity.
Theorem dp_default m w w' : dec_dp (N := N) parse_time parse_bytes (JObj m) w = Some w' ->
  (absent m "vec" -> wi_vec w' = wi_vec w) /\ (absent m "payload" -> wi_payload w' = wi_payload w) /\
  (absent m "expires" -> wi_expires w' = wi_expires w) /\ (absent m "expireEnabled" -> wi_expire_enabled w' = wi_expire_enabled w).
Proof.
  intros E. split; [|split; [|split]]; intros Ha; gone Ha; refine (members_keep _ _ m _ _ _ E); keep Ha.
Qed.
Theorem defaults m :
  (forall o, dec_put (N := N) parse_time parse_bytes (Some (JObj m)) = Some o ->
     (absent m "namespace" -> po_ns o = []) /\ (absent m "accurate" -> po_accurate o = false) /\
     (absent m "dp" -> po_dp o = MkWire [] [] (year_begin 1) false)) /\
  (forall o, dec_query (N := N) (Some (JObj m)) = Some o ->
     (absent m "namespace" -> qo_ns o = []) /\ (absent m "accurate" -> qo_accurate o = false) /\
     (absent m "queryVec" -> qo_vec o = []) /\ (absent m "n" -> qo_n o = 0%Z) /\ (absent m "drain" -> qo_drain o = false)).
Proof.
  split; intros o E; repeat split; intros Ha; gone Ha;
    (refine (eq_trans (members_keep _ _ m _ _ _ E) _); [keep Ha|reflexivity]).
Qed.
Theorem dp_in_put m o : dec_put (N := N) parse_time parse_bytes (Some (JObj [(text "dp", JObj m)])) = Some o ->
  (absent m "vec" -> wi_vec (po_dp o) = []) /\ (absent m "payload" -> wi_payload (po_dp o) = []) /\
  (absent m "expires" -> wi_expires (po_dp o) = year_begin 1) /\ (absent m "expireEnabled" -> wi_expire_enabled (po_dp o) = false).
Proof.
  intros E. cbn [dec_put dec_struct members] in E. unfold set_put in E.
  change (same_name (text "dp") "namespace") with false in E. change (same_name (text "dp") "accurate") with false in E.
  change (same_name (text "dp") "dp") with true in E. cbv iota in E.
  destruct (dec_dp parse_time parse_bytes (JObj m) zero_dp) as [d|] eqn:Ed; [|discriminate E]. cbn in E. injection E as <-.
  cbn [po_dp]. apply dp_default in Ed. destruct Ed as (A & B & C & D). repeat split; auto.
Qed.

(* ---- what is written can be read ---- *)
Section Text.
Variables (num : F N -> json) (show_time : Z -> str) (show_bytes : list byte -> json).
Hypothesis num_read : forall x, dec_float (num x) = Some x.
Hypothesis time_read : forall z, year_ok z = true -> parse_time (show_time z) = Some z.
Hypothesis bytes_read : forall l, dec_bytes parse_bytes (show_bytes l) = Some l.

Lemma vec_read v : dec_vec (JArr (map num v)) = Some v.
Proof. cbn [dec_vec]. induction v as [|x v IH]; cbn [map all_some]; auto. rewrite num_read, IH. auto. Qed.

Theorem dp_read w w0 : year_ok (wi_expires w) = true ->
  dec_dp parse_time parse_bytes (enc_dp num show_time show_bytes w) w0 = Some w.
Proof.
  intros Hy. destruct w as [v p e b], w0 as [v0 p0 e0 b0]. cbn [wi_expires] in Hy.
  unfold enc_dp, dec_dp. cbn [dec_struct members wi_vec wi_payload wi_expires wi_expire_enabled].
  unfold set_dp at 1. change (same_name (text "vec") "vec") with true. rewrite vec_read. cbn [option_map].
  unfold set_dp at 1. change (same_name (text "payload") "vec") with false. change (same_name (text "payload") "payload") with true.
  cbv iota. rewrite bytes_read. cbn [option_map].
  unfold set_dp at 1. change (same_name (text "expires") "vec") with false. change (same_name (text "expires") "payload") with false.
  change (same_name (text "expires") "expires") with true. cbv iota. cbn [dec_time]. rewrite time_read by auto. cbn [option_map].
  reflexivity.
Qed.

Theorem put_read raw ns acc w : year_ok (wi_expires w) = true ->
  dec_put parse_time parse_bytes (Some (JObj [(text "namespace", JStr raw ns); (text "accurate", JBool acc);
    (text "dp", enc_dp num show_time show_bytes w)])) = Some (MkPut ns acc w).
Proof.
  intros Hy. cbn [dec_put dec_struct members].
  unfold set_put at 1. change (same_name (text "namespace") "namespace") with true. cbv iota. cbn [dec_str option_map].
  unfold set_put at 1. change (same_name (text "accurate") "namespace") with false. change (same_name (text "accurate") "accurate") with true.
  cbv iota. cbn [dec_bool option_map].
  unfold set_put at 1. change (same_name (text "dp") "namespace") with false. change (same_name (text "dp") "accurate") with false.
  change (same_name (text "dp") "dp") with true. cbv iota. rewrite dp_read by auto. reflexivity.
Qed.

Theorem query_read raw ns acc v n drain (shown : json) : dec_int shown 0 = Some n ->
  dec_query (Some (JObj [(text "namespace", JStr raw ns); (text "accurate", JBool acc); (text "queryVec", JArr (map num v));
    (text "n", shown); (text "drain", JBool drain)])) = Some (MkQuery ns acc v n drain).
Proof.
  intros Hn. cbn [dec_query dec_struct members].
  unfold set_query at 1. change (same_name (text "namespace") "namespace") with true. cbv iota. cbn [dec_str option_map].
  unfold set_query at 1. change (same_name (text "accurate") "namespace") with false. change (same_name (text "accurate") "accurate") with true.
  cbv iota. cbn [dec_bool option_map].
  unfold set_query at 1. change (same_name (text "queryVec") "namespace") with false. change (same_name (text "queryVec") "accurate") with false.
  change (same_name (text "queryVec") "queryVec") with true. cbv iota. rewrite vec_read. cbn [option_map].
  unfold set_query at 1. change (same_name (text "n") "namespace") with false. change (same_name (text "n") "accurate") with false.
  change (same_name (text "n") "queryVec") with false. change (same_name (text "n") "n") with true. cbv iota. rewrite Hn. cbn [option_map].
  reflexivity.
Qed.

Theorem answer_read ds l : marshal (of_dps ds) = Some l ->
  all_some (fun j => option_map to_dp (dec_dp parse_time parse_bytes j zero_dp)) (map (enc_dp num show_time show_bytes) l) = Some ds.
Proof.
  unfold marshal. destruct (forallb encodable (of_dps ds)) eqn:E; [|discriminate]. intros H. injection H as <-.
  unfold of_dps in *. induction ds as [|d ds IH]; cbn [map all_some forallb] in *; auto.
  apply andb_prop in E. destruct E as (E1 & E2). unfold encodable in E1. apply andb_prop in E1. destruct E1 as (_ & E1).
  rewrite dp_read by exact E1. cbn [option_map]. rewrite IH by exact E2. destruct d; reflexivity.
Qed.
End Text.
End Json.
