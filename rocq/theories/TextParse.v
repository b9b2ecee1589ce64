(* The parser reads exactly the texts of RFC 8259. *)
From Verif Require Import Base Env Server ServerFacts Routes JsonSpec JsonText TextSpec.
From Coq.Init Require Import Byte.
From Coq Require Import Strings.Byte Strings.String.
Local Open Scope string_scope.
Local Open Scope list_scope.
Local Open Scope nat_scope.

(* ---- bytes ---- *)
Lemma beq_eq a b : Byte.eqb a b = true <-> a = b.
Proof. split; [apply Byte.byte_dec_bl|apply Byte.byte_dec_lb]. Qed.
Lemma beq_refl a : Byte.eqb a a = true.
Proof. apply beq_eq. reflexivity. Qed.
Lemma beq_neq a b : a <> b -> Byte.eqb a b = false.
Proof. destruct (Byte.eqb a b) eqn:E; auto. apply beq_eq in E. contradiction. Qed.
Lemma beq_false a b : Byte.eqb a b = false -> a <> b.
Proof. intros H ->. rewrite beq_refl in H. discriminate. Qed.
Lemma one_of_iff l c : one_of l c = true <-> In c l.
Proof.
  unfold one_of. rewrite existsb_exists. split.
  - intros (x & Hi & E). apply beq_eq in E. subst; auto.
  - intros H. exists c. split; auto. apply beq_refl.
Qed.

Definition all_bytes : list byte := map (fun i => nb (Z.of_nat i)) (seq 0 256).
Lemma bn_bound c : (0 <= bn c < 256)%Z.
Proof. unfold bn. pose proof (Byte.to_N_bounded c). lia. Qed.
Lemma nb_bn c : nb (bn c) = c.
Proof. unfold nb, bn. rewrite N2Z.id, Byte.of_to_N. reflexivity. Qed.
Lemma bn_nb n : (0 <= n < 256)%Z -> bn (nb n) = n.
Proof.
  intros H. unfold nb, bn. destruct (Byte.of_N (Z.to_N n)) eqn:E.
  - apply Byte.to_of_N in E. rewrite E. lia.
  - apply Byte.of_N_None_iff in E. lia.
Qed.
Lemma bytes_all (p : byte -> bool) : forallb p all_bytes = true -> forall c, p c = true.
Proof.
  intros H c. rewrite forallb_forall in H. apply H. unfold all_bytes. rewrite in_map_iff.
  exists (Z.to_nat (bn c)). pose proof (bn_bound c). rewrite Z2Nat.id by lia. split; [apply nb_bn|].
  apply in_seq. lia.
Qed.
Lemma bytes_same (p q : byte -> bool) : forallb (fun c => Bool.eqb (p c) (q c)) all_bytes = true -> forall c, p c = q c.
Proof. intros H c. apply Bool.eqb_prop. exact (bytes_all _ H c). Qed.

Lemma digit_iff c : is_digit c = true <-> Digit c.
Proof.
  unfold Digit. rewrite <- one_of_iff.
  rewrite (bytes_same is_digit (one_of (text "0123456789"))) by (vm_compute; reflexivity). reflexivity.
Qed.
Lemma hex_iff c : is_hex c = true <-> Hex c.
Proof.
  unfold Hex. rewrite <- one_of_iff.
  rewrite (bytes_same is_hex (one_of (text "0123456789abcdefABCDEF"))) by (vm_compute; reflexivity). reflexivity.
Qed.
Lemma escape_iff c : simple_escape c = true <-> In c (x22 :: text "\/bfnrt").
Proof.
  rewrite <- one_of_iff.
  rewrite (bytes_same simple_escape (one_of (x22 :: text "\/bfnrt"))) by (vm_compute; reflexivity). reflexivity.
Qed.
Lemma space_iff c : is_space c = true <-> In c [x20; x09; x0a; x0d].
Proof.
  rewrite <- one_of_iff.
  rewrite (bytes_same is_space (one_of [x20; x09; x0a; x0d])) by (vm_compute; reflexivity). reflexivity.
Qed.
Lemma low_iff c : (bn c <? 32)%Z = false <-> 32 <= Byte.to_nat c.
Proof. rewrite Z.ltb_ge. unfold bn. rewrite Byte.to_N_via_nat, nat_N_Z. lia. Qed.

(* ---- white space ---- *)
Lemma skip_ws w s : Ws w -> skip (w ++ s) = skip s.
Proof. induction 1 as [|c w Hc Hw IH]; cbn [app skip]; auto. rewrite (proj2 (space_iff c) Hc). auto. Qed.
Lemma skip_spec s : exists w, Ws w /\ s = w ++ skip s.
Proof.
  induction s as [|c s (w & Hw & E)]; [exists []; split; auto; constructor|]. cbn [skip].
  destruct (is_space c) eqn:H; [|exists []; split; auto; constructor].
  exists (c :: w). split; [constructor; auto; apply space_iff; auto|]. cbn. congruence.
Qed.
Definition solid (c : byte) : Prop := is_space c = false.
Lemma skip_solid c s : solid c -> skip (c :: s) = c :: s.
Proof. unfold solid. cbn [skip]. intros ->. reflexivity. Qed.
Lemma skip_nil w : skip w = [] <-> Ws w.
Proof.
  split.
  - destruct (skip_spec w) as (v & Hv & E). intros H. rewrite H, app_nil_r in E. congruence.
  - intros H. rewrite <- (app_nil_r w), skip_ws; auto.
Qed.

(* ---- numbers ---- *)
Lemma span_spec p s : let '(a, b) := span p s in s = a ++ b /\ Forall (fun c => p c = true) a /\
  match b with c :: _ => p c = false | [] => True end.
Proof.
  induction s as [|c s IH]; cbn [span]; [auto|]. destruct (p c) eqn:E; [|auto].
  destruct (span p s) as [a b]. destruct IH as (-> & H1 & H2). auto.
Qed.
Lemma span_app p a s : Forall (fun c => p c = true) a -> match s with c :: _ => p c = false | [] => True end ->
  span p (a ++ s) = (a, s).
Proof.
  induction 1 as [|c a Hc Ha IH]; intros Hs; cbn [app span].
  - destruct s as [|d s]; cbn [span]; auto. rewrite Hs. auto.
  - rewrite Hc, IH; auto.
Qed.
Lemma digits_all s : Forall (fun c => is_digit c = true) s <-> Forall Digit s.
Proof. split; intros H; (eapply Forall_impl; [|exact H]); intros c; apply digit_iff. Qed.

Definition no_digit (s : str) : Prop := match s with c :: _ => is_digit c = false | [] => True end.
Lemma digits1_spec s a b : digits1 s = Some (a, b) -> s = a ++ b /\ Digits a.
Proof.
  unfold digits1. pose proof (span_spec is_digit s) as H. destruct (span is_digit s) as [[|c r] t]; [discriminate|].
  intros E. injection E as <- <-. destruct H as (-> & H & _). split; auto. split; [discriminate|]. apply digits_all; auto.
Qed.
Lemma digits1_app a s : Digits a -> no_digit s -> digits1 (a ++ s) = Some (a, s).
Proof.
  intros (Hn & Ha) Hs. unfold digits1. rewrite span_app; auto; [|apply digits_all; auto]. destruct a; [congruence|auto].
Qed.

Lemma sign_spec l s g r : sign_part l s = (g, r) -> s = g ++ r /\ (g = [] \/ exists c, g = [c] /\ In c l).
Proof.
  destruct s as [|c s]; cbn [sign_part].
  - intros E. injection E as <- <-. auto.
  - destruct (one_of l c) eqn:H; intros E; injection E as <- <-; split; auto. right. exists c. split; auto. apply one_of_iff; auto.
Qed.
Lemma sign_app l g s : (g = [] \/ exists c, g = [c] /\ In c l) -> match s with c :: _ => one_of l c = false | [] => True end ->
  sign_part l (g ++ s) = (g, s).
Proof.
  intros [->|(c & -> & H)] Hs; cbn [app sign_part].
  - destruct s as [|c s]; cbn [sign_part]; auto. rewrite Hs. auto.
  - rewrite (proj2 (one_of_iff l c) H). auto.
Qed.

Lemma digit_cases c : Digit c -> c = x30 \/ In c (text "123456789").
Proof. intros [<-|H]; auto. Qed.
Lemma int_spec s i r : int_part s = Some (i, r) -> s = i ++ r /\ Int i.
Proof.
  destruct s as [|c s]; cbn [int_part]; [discriminate|]. destruct (Byte.eqb c x30) eqn:E.
  - intros H. injection H as <- <-. apply beq_eq in E. subst c. split; auto. constructor.
  - intros H. apply digits1_spec in H. destruct H as (H & Hn & Hd). split; auto.
    destruct i as [|d i]; [congruence|]. cbn in H. injection H as <- H. inversion Hd as [|? ? Hc Hr]; subst.
    constructor; auto. destruct (digit_cases c Hc) as [->|]; auto. discriminate.
Qed.
Lemma int_app i s : Int i -> no_digit s -> int_part (i ++ s) = Some (i, s).
Proof.
  destruct 1 as [|c i Hc Hi]; intros Hs; [reflexivity|]. cbn [app int_part].
  assert (c <> x30) by (intros ->; cbn in Hc; repeat destruct Hc as [Hc|Hc]; try discriminate; contradiction).
  rewrite beq_neq by auto. apply (digits1_app (c :: i)); auto. split; [discriminate|].
  constructor; auto. right. exact Hc.
Qed.
Lemma frac_spec s f r : frac_part s = Some (f, r) -> s = f ++ r /\ Frac f.
Proof.
  destruct s as [|c s]; cbn [frac_part].
  - intros H. injection H as <- <-. split; auto. constructor.
  - destruct (Byte.eqb c x2e) eqn:E.
    + destruct (digits1 s) as [[d r']|] eqn:D; [|discriminate]. intros H. injection H as <- <-. apply beq_eq in E. subst c.
      apply digits1_spec in D. destruct D as (-> & D). split; auto. apply (frac_some d D).
    + intros H. injection H as <- <-. split; auto. constructor.
Qed.
Lemma frac_app f s : Frac f -> match s with c :: _ => is_digit c = false /\ c <> x2e | [] => True end -> frac_part (f ++ s) = Some (f, s).
Proof.
  destruct 1 as [|d Hd]; intros Hs.
  - cbn [app]. destruct s as [|c s]; cbn [frac_part]; auto. rewrite beq_neq by tauto. auto.
  - change ((text "." ++ d) ++ s) with (x2e :: d ++ s). cbn [frac_part]. rewrite beq_refl.
    rewrite digits1_app; auto. destruct s; cbn; tauto.
Qed.
Lemma exp_spec s e r : exp_part s = Some (e, r) -> s = e ++ r /\ Exp e.
Proof.
  destruct s as [|c s]; cbn [exp_part].
  - intros H. injection H as <- <-. split; auto. constructor.
  - destruct (one_of [x65; x45] c) eqn:E.
    + destruct (sign_part [x2b; x2d] s) as [g r1] eqn:G. destruct (digits1 r1) as [[d r2]|] eqn:D; [|discriminate].
      intros H. injection H as <- <-. apply one_of_iff in E. apply sign_spec in G. destruct G as (-> & G).
      apply digits1_spec in D. destruct D as (-> & D). split; [cbn [app]; rewrite app_assoc; reflexivity|].
      apply (exp_some [c] g d); auto.
      * destruct E as [<-|[<-|[]]]; cbn; auto.
      * destruct G as [->|(x & -> & [<-|[<-|[]]])]; cbn; auto.
    + intros H. injection H as <- <-. split; auto. constructor.
Qed.
(* What may follow a number. *)
Definition stop (s : str) : Prop :=
  match s with c :: _ => is_digit c = false /\ c <> x2e /\ one_of [x65; x45] c = false | [] => True end.
Lemma digit_no_sign c : Digit c -> one_of [x2b; x2d] c = false.
Proof. intros H. cbn in H. repeat destruct H as [<-|H]; try reflexivity. contradiction. Qed.
Lemma exp_app e s : Exp e -> stop s -> exp_part (e ++ s) = Some (e, s).
Proof.
  destruct 1 as [|e g d He Hg Hd]; intros Hs.
  - cbn [app]. destruct s as [|c s]; cbn [exp_part]; auto. destruct Hs as (_ & _ & ->). auto.
  - assert (Hp : sign_part [x2b; x2d] (g ++ d ++ s) = (g, d ++ s)).
    { apply sign_app.
      - destruct Hg as [<-|[<-|[<-|[]]]]; cbn; eauto 10.
      - destruct Hd as (Hn & Hd). destruct d as [|c d]; [congruence|]. cbn [app]. inversion Hd; subst. apply digit_no_sign; auto. }
    assert (Hd1 : digits1 (d ++ s) = Some (d, s)) by (apply digits1_app; auto; destruct s; cbn in *; tauto).
    destruct He as [<-|[<-|[]]]; change (text "e") with [x65]; change (text "E") with [x45]; rewrite <- !app_assoc;
      cbn [app]; unfold exp_part; cbn [one_of existsb]; [change (one_of [x65; x45] x65) with true|change (one_of [x65; x45] x45) with true];
      cbv iota; rewrite Hp, Hd1; reflexivity.
Qed.

Lemma number_spec s n r : number s = Some (n, r) -> s = n ++ r /\ Number n.
Proof.
  unfold number. destruct (sign_part [x2d] s) as [g r0] eqn:G.
  destruct (int_part r0) as [[i r1]|] eqn:I; [|discriminate].
  destruct (frac_part r1) as [[f r2]|] eqn:Fr; [|discriminate].
  destruct (exp_part r2) as [[e r3]|] eqn:X; [|discriminate]. intros H. injection H as <- <-.
  apply sign_spec in G. apply int_spec in I. apply frac_spec in Fr. apply exp_spec in X.
  destruct G as (-> & G), I as (-> & I), Fr as (-> & Fr), X as (-> & X). split; [rewrite !app_assoc; reflexivity|].
  constructor; auto. destruct G as [->|(c & -> & [<-|[]])]; cbn; auto.
Qed.
Lemma exp_head e c r : Exp e -> e = c :: r -> is_digit c = false /\ c <> x2e.
Proof.
  destruct 1 as [|e g d He Hg Hd]; [discriminate|]. destruct He as [<-|[<-|[]]]; intros H; injection H as <- _; split; auto; discriminate.
Qed.
Lemma number_app n s : Number n -> stop s -> number (n ++ s) = Some (n, s).
Proof.
  destruct 1 as [g i f e Hg Hi Hf He]; intros Hs.
  assert (H2 : exp_part (e ++ s) = Some (e, s)) by (apply exp_app; auto).
  assert (A : match e ++ s with c :: _ => is_digit c = false /\ c <> x2e | [] => True end).
  { destruct e as [|c e]; cbn [app]; [destruct s; cbn in *; tauto|]. apply (exp_head _ c e He); auto. }
  assert (H1 : frac_part (f ++ e ++ s) = Some (f, e ++ s)) by (apply frac_app; auto).
  assert (H0 : int_part (i ++ f ++ e ++ s) = Some (i, f ++ e ++ s)).
  { apply int_app; auto. destruct Hf; cbn [app]; [|reflexivity]. destruct (e ++ s); cbn; tauto. }
  unfold number. rewrite <- !app_assoc. rewrite sign_app.
  - rewrite H0, H1, H2. reflexivity.
  - destruct Hg as [<-|[<-|[]]]; cbn; eauto.
  - destruct Hi as [|c i Hc Hi]; [reflexivity|]. cbn [app]. cbn in Hc. repeat destruct Hc as [<-|Hc]; try reflexivity. contradiction.
Qed.

(* ---- strings ---- *)
Lemma before_some p o a b : before p o = Some (a, b) -> exists a', o = Some (a', b) /\ a = p ++ a'.
Proof. destruct o as [[a' b']|]; cbn; [|discriminate]. intros H. injection H as <- <-. eauto. Qed.
Lemma string_spec s : forall a r, string_body s = Some (a, r) -> s = a ++ x22 :: r /\ Chars a.
Proof.
  assert (G : forall n s, List.length s <= n -> forall a r, string_body s = Some (a, r) -> s = a ++ x22 :: r /\ Chars a);
    [|apply (G _ s (le_n _))]. clear s.
  induction n as [|n IH]; intros s Hl a r; (destruct s as [|c s]; [discriminate|]); [cbn in Hl; lia|].
  cbn [List.length] in Hl. cbn [string_body]. destruct (Byte.eqb c quote) eqn:Q.
  - intros H. injection H as <- <-. apply beq_eq in Q. subst c. split; auto. constructor.
  - destruct (Byte.eqb c backslash) eqn:B.
    + apply beq_eq in B. subst c. destruct s as [|d s]; [discriminate|]. cbn [List.length] in Hl. destruct (simple_escape d) eqn:D.
      * intros H. apply before_some in H. destruct H as (a' & H & ->). apply IH in H; [|lia]. destruct H as (-> & H). split; auto.
        apply (chars_escape d a'); auto. apply escape_iff; auto.
      * destruct (Byte.eqb d x75) eqn:U; [|discriminate]. apply beq_eq in U. subst d.
        destruct s as [|h1 [|h2 [|h3 [|h4 s]]]]; try discriminate. cbn [List.length] in Hl.
        destruct (is_hex h1) eqn:E1, (is_hex h2) eqn:E2, (is_hex h3) eqn:E3, (is_hex h4) eqn:E4; try discriminate. cbn [andb].
        intros H. apply before_some in H. destruct H as (a' & H & ->). apply IH in H; [|lia]. destruct H as (-> & H). split; auto.
        apply (chars_hex h1 h2 h3 h4 a'); auto; apply hex_iff; auto.
    + destruct (bn c <? 32)%Z eqn:L; [discriminate|]. intros H. apply before_some in H. destruct H as (a' & H & ->).
      apply IH in H; [|lia]. destruct H as (-> & H). split; auto. constructor; auto using beq_false. apply low_iff; auto.
Qed.
Lemma string_app a r : Chars a -> string_body (a ++ x22 :: r) = Some (a, r).
Proof.
  induction 1 as [|c s Hq Hb Hl Hs IH|c s Hc Hs IH|h1 h2 h3 h4 s H1 H2 H3 H4 Hs IH].
  - reflexivity.
  - cbn [app string_body]. unfold quote, backslash. rewrite !beq_neq, (proj2 (low_iff c) Hl), IH by auto. reflexivity.
  - change ((text "\" ++ c :: s) ++ x22 :: r) with (x5c :: c :: s ++ x22 :: r). cbn [string_body].
    change (Byte.eqb x5c quote) with false. change (Byte.eqb x5c backslash) with true. cbv iota.
    rewrite (proj2 (escape_iff c) Hc), IH. reflexivity.
  - change ((text "\u" ++ [h1; h2; h3; h4] ++ s) ++ x22 :: r) with (x5c :: x75 :: h1 :: h2 :: h3 :: h4 :: s ++ x22 :: r). cbn [string_body].
    change (Byte.eqb x5c quote) with false. change (Byte.eqb x5c backslash) with true. change (simple_escape x75) with false.
    change (Byte.eqb x75 x75) with true. cbv iota. apply hex_iff in H1, H2, H3, H4. rewrite H1, H2, H3, H4, IH. reflexivity.
Qed.

Lemma after_spec p : forall s r, after p s = Some r -> s = p ++ r.
Proof.
  induction p as [|c p IH]; intros s r; cbn [after]; [intros H; injection H as <-; auto|].
  destruct s as [|d s]; [discriminate|]. destruct (Byte.eqb c d) eqn:E; [|discriminate]. apply beq_eq in E. subst d.
  intros H. apply IH in H. subst s. reflexivity.
Qed.
Lemma after_app p r : after p (p ++ r) = Some r.
Proof. induction p as [|c p IH]; cbn [after app]; auto. rewrite beq_refl. auto. Qed.

(* ---- values: what is read is a text ---- *)
Lemma parse_spec : forall f,
  (forall n s t r, value f n s = Some (t, r) -> exists p, s = p ++ r /\ Value n t p) /\
  (forall n s l r, elements_text f n s = Some (l, r) -> exists p, s = p ++ x5d :: r /\ Elements n l p) /\
  (forall n s m r, members_text f n s = Some (m, r) -> exists p, s = p ++ x7d :: r /\ Members n m p).
Proof.
  induction f as [|f (IV & IE & IM)]; [repeat split; cbn; discriminate|]. split; [|split].
  - intros n s t r. destruct s as [|c s]; cbn [value]; [discriminate|].
    destruct (Byte.eqb c x7b) eqn:C1.
    { apply beq_eq in C1. subst c. destruct (n <=? 0)%Z eqn:Hn; [discriminate|]. apply Z.leb_gt in Hn.
      destruct (skip_spec s) as (w & Hw & Es). destruct (skip s) as [|d r1] eqn:K; [discriminate|].
      destruct (Byte.eqb d x7d) eqn:D.
      - apply beq_eq in D. subst d. intros H. injection H as <- <-. exists (text "{" ++ w ++ text "}"). split.
        + rewrite Es. cbn. rewrite <- app_assoc. reflexivity.
        + constructor; auto.
      - destruct (members_text f (n - 1) (d :: r1)) as [[m r2]|] eqn:M; [|discriminate]. intros H. injection H as <- <-.
        apply IM in M. destruct M as (p & Ep & M). exists (text "{" ++ (w ++ p) ++ text "}"). split.
        + rewrite Es, Ep. cbn. rewrite <- !app_assoc. reflexivity.
        + apply v_object; auto. clear - Hw M. inversion M; subst.
          * rewrite app_assoc. apply m_last; auto. apply Forall_app; auto.
          * rewrite app_assoc. apply m_more; auto. apply Forall_app; auto. }
    destruct (Byte.eqb c x5b) eqn:C2.
    { apply beq_eq in C2. subst c. destruct (n <=? 0)%Z eqn:Hn; [discriminate|]. apply Z.leb_gt in Hn.
      destruct (skip_spec s) as (w & Hw & Es). destruct (skip s) as [|d r1] eqn:K; [discriminate|].
      destruct (Byte.eqb d x5d) eqn:D.
      - apply beq_eq in D. subst d. intros H. injection H as <- <-. exists (text "[" ++ w ++ text "]"). split.
        + rewrite Es. cbn. rewrite <- app_assoc. reflexivity.
        + constructor; auto.
      - destruct (elements_text f (n - 1) (d :: r1)) as [[l r2]|] eqn:M; [|discriminate]. intros H. injection H as <- <-.
        apply IE in M. destruct M as (p & Ep & M). exists (text "[" ++ (w ++ p) ++ text "]"). split.
        + rewrite Es, Ep. cbn. rewrite <- !app_assoc. reflexivity.
        + apply v_array; auto. clear - Hw M. inversion M; subst.
          * rewrite app_assoc. apply e_last; auto. apply Forall_app; auto.
          * rewrite app_assoc. apply e_more; auto. apply Forall_app; auto. }
    destruct (Byte.eqb c quote) eqn:C3.
    { apply beq_eq in C3. subst c. destruct (string_body s) as [[a r1]|] eqn:B; [|discriminate]. intros H. injection H as <- <-.
      apply string_spec in B. destruct B as (-> & B). exists ([x22] ++ a ++ [x22]). split; [cbn; rewrite <- app_assoc; reflexivity|].
      constructor; auto. }
    assert (L : forall x p, option_map (pair x) (after p (c :: s)) = Some (t, r) -> c :: s = p ++ r /\ t = x).
    { intros x p. destruct (after p (c :: s)) as [q|] eqn:P; [|discriminate]. intros H. injection H as <- <-. split; auto. apply after_spec; auto. }
    destruct (Byte.eqb c x6e) eqn:C4.
    { intros H. apply L in H. destruct H as (-> & ->). exists (text "null"). split; auto. constructor. }
    destruct (Byte.eqb c x74) eqn:C5.
    { intros H. apply L in H. destruct H as (-> & ->). exists (text "true"). split; auto. constructor. }
    destruct (Byte.eqb c x66) eqn:C6.
    { intros H. apply L in H. destruct H as (-> & ->). exists (text "false"). split; auto. constructor. }
    destruct (number (c :: s)) as [[a r1]|] eqn:B; [|discriminate]. intros H. injection H as <- <-.
    apply number_spec in B. destruct B as (-> & B). exists a. split; auto. constructor; auto.
  - intros n s l r. cbn [elements_text]. destruct (value f n s) as [[t r0]|] eqn:V; [|discriminate].
    apply IV in V. destruct V as (p & -> & V). destruct (skip_spec r0) as (w & Hw & Er).
    destruct (skip r0) as [|c r1]; [discriminate|]. destruct (Byte.eqb c x2c) eqn:C.
    + apply beq_eq in C. subst c. destruct (elements_text f n (skip r1)) as [[l' r2]|] eqn:M; [|discriminate].
      intros H. injection H as <- <-. apply IE in M. destruct M as (q & Eq & M).
      destruct (skip_spec r1) as (w' & Hw' & Er1). rewrite Eq in Er1. exists ([] ++ p ++ w ++ text "," ++ w' ++ q). split.
      * rewrite Er, Er1. cbn. rewrite <- !app_assoc. cbn. rewrite <- !app_assoc. reflexivity.
      * apply e_more; auto; [constructor|]. clear - Hw' M. inversion M; subst.
        -- rewrite app_assoc. apply e_last; auto. apply Forall_app; auto.
        -- rewrite app_assoc. apply e_more; auto. apply Forall_app; auto.
    + destruct (Byte.eqb c x5d) eqn:C'; [|discriminate]. apply beq_eq in C'. subst c. intros H. injection H as <- <-.
      exists ([] ++ p ++ w). split; [rewrite Er; cbn; rewrite <- !app_assoc; reflexivity|]. apply e_last; auto. constructor.
  - intros n s m r. destruct s as [|q s]; cbn [members_text]; [discriminate|].
    destruct (Byte.eqb q quote) eqn:Q; cbn [negb]; [|discriminate]. apply beq_eq in Q. subst q.
    destruct (string_body s) as [[k r1]|] eqn:B; [|discriminate]. apply string_spec in B. destruct B as (-> & B).
    destruct (skip_spec r1) as (w2 & Hw2 & Er1). destruct (skip r1) as [|c r2]; [discriminate|].
    destruct (Byte.eqb c x3a) eqn:C; cbn [negb]; [|discriminate]. apply beq_eq in C. subst c.
    destruct (value f n (skip r2)) as [[t r3]|] eqn:V; [|discriminate]. apply IV in V. destruct V as (p & Ep & V).
    destruct (skip_spec r2) as (w3 & Hw3 & Er2). rewrite Ep in Er2. destruct (skip_spec r3) as (w4 & Hw4 & Er3).
    destruct (skip r3) as [|d r4]; [discriminate|]. destruct (Byte.eqb d x2c) eqn:D.
    + apply beq_eq in D. subst d. destruct (members_text f n (skip r4)) as [[m' r5]|] eqn:M; [|discriminate].
      intros H. injection H as <- <-. apply IM in M. destruct M as (q & Eq & M).
      destruct (skip_spec r4) as (w' & Hw' & Er4). rewrite Eq in Er4.
      exists ([] ++ [x22] ++ k ++ [x22] ++ w2 ++ text ":" ++ w3 ++ p ++ w4 ++ text "," ++ w' ++ q). split.
      * rewrite Er1, Er2, Er3, Er4. cbn. repeat (rewrite <- ?app_assoc; cbn). reflexivity.
      * apply m_more; auto; [constructor|]. clear - Hw' M. inversion M; subst.
        -- rewrite app_assoc. apply m_last; auto. apply Forall_app; auto.
        -- rewrite app_assoc. apply m_more; auto. apply Forall_app; auto.
    + destruct (Byte.eqb d x7d) eqn:D'; [|discriminate]. apply beq_eq in D'. subst d. intros H. injection H as <- <-.
      exists ([] ++ [x22] ++ k ++ [x22] ++ w2 ++ text ":" ++ w3 ++ p ++ w4). split.
      * rewrite Er1, Er2, Er3. cbn. repeat (rewrite <- ?app_assoc; cbn). reflexivity.
      * apply m_last; auto. constructor.
Qed.

(* ---- values: every text is read ---- *)
Scheme Value_ind' := Minimality for Value Sort Prop
with Elements_ind' := Minimality for Elements Sort Prop
with Members_ind' := Minimality for Members Sort Prop.
Combined Scheme texts_ind from Value_ind', Elements_ind', Members_ind'.

Definition numeric (t : tree) : bool := match t with TNum _ => true | _ => false end.
Definition opening (c : byte) : Prop := solid c /\ c <> x5d /\ c <> x7d.
Lemma number_head s : Number s -> exists c r, s = c :: r /\ opening c /\ c <> x7b /\ c <> x5b /\ c <> x22 /\ c <> x6e /\ c <> x74 /\ c <> x66.
Proof.
  destruct 1 as [g i f e Hg Hi _ _].
  assert (H : forall c, In c (text "-0123456789") -> opening c /\ c <> x7b /\ c <> x5b /\ c <> x22 /\ c <> x6e /\ c <> x74 /\ c <> x66).
  { intros c Hc. cbn in Hc. unfold opening, solid. repeat destruct Hc as [<-|Hc]; try contradiction; repeat split; discriminate. }
  destruct Hg as [<-|[<-|[]]]; cbn [app]; [|eexists _, _; split; [reflexivity|]; apply H; cbn; auto].
  destruct Hi as [|c i Hc Hi]; eexists _, _; (split; [reflexivity|]); apply H; cbn in *; tauto.
Qed.
Lemma value_head n t s : Value n t s -> exists c r, s = c :: r /\ opening c.
Proof.
  assert (O : forall c, In c [x6e; x74; x66; x22; x5b; x7b] -> opening c).
  { intros c Hc. cbn in Hc. unfold opening, solid. repeat destruct Hc as [<-|Hc]; try contradiction; repeat split; discriminate. }
  destruct 1; try (eexists _, _; split; [reflexivity|apply O; cbn; tauto]).
  destruct (number_head _ H) as (c & r & -> & Ho & _). eauto.
Qed.
Lemma skip_value n t s r : Value n t s -> skip (s ++ r) = s ++ r.
Proof. intros H. destruct (value_head _ _ _ H) as (c & q & -> & Hs & _). apply skip_solid; auto. Qed.

Lemma texts_read :
  (forall n t s, Value n t s -> forall f r, 2 * List.length s < f -> (numeric t = true -> stop r) -> value f n (s ++ r) = Some (t, r)) /\
  (forall n l s, Elements n l s -> (exists c q, skip (s ++ [x5d]) = c :: q /\ opening c) /\
     forall f r, 2 * List.length s + 1 < f -> elements_text f n (skip (s ++ x5d :: r)) = Some (l, r)) /\
  (forall n m s, Members n m s -> (exists q, skip (s ++ [x7d]) = x22 :: q) /\
     forall f r, 2 * List.length s + 1 < f -> members_text f n (skip (s ++ x7d :: r)) = Some (m, r)).
Proof.
  assert (Lit : forall x p f n r, In (x, p) [(TNull, text "null"); (TBool true, text "true"); (TBool false, text "false")] ->
    0 < f -> value f n (p ++ r) = Some (x, r)).
  { intros x p f n r Hin Hf. destruct f as [|f]; [lia|].
    destruct Hin as [E|[E|[E|[]]]]; injection E as <- <-; cbn [value text list_byte_of_string app]; reflexivity. }
  assert (Sk : forall (s : str) c q x y, skip (s ++ [x]) = c :: q -> opening c -> x = x5d \/ x = x7d -> exists q', skip (s ++ x :: y) = c :: q').
  { intros s c q x y. induction s as [|d s IH]; cbn [app skip].
    - intros E (O1 & O2 & O3) [->| ->]; cbn in E; injection E as <- <-; congruence.
    - destruct (is_space d); [auto|]. intros E _ _. injection E as <- <-. eauto. }
  assert (Sm : forall r, ~ stop r -> exists c q, r = c :: q /\ (is_digit c = true \/ c = x2e \/ one_of [x65; x45] c = true)).
  { intros r H. destruct r as [|c q]; [exfalso; apply H; exact I|]. exists c, q. split; auto. cbn in H.
    destruct (is_digit c); auto. destruct (Byte.eqb c x2e) eqn:E; [apply beq_eq in E; auto|].
    destruct (one_of [x65; x45] c) eqn:E'; auto. exfalso. apply H. repeat split; auto. apply beq_false; auto. }
  assert (St : forall w d r, Ws w -> In d [x2c; x5d; x7d] -> stop (w ++ d :: r)).
  { intros w d r Hw Hd. destruct Hw as [|c w Hc Hw]; cbn.
    - cbn in Hd. repeat destruct Hd as [<-|Hd]; try contradiction; repeat split; discriminate.
    - cbn in Hc. repeat destruct Hc as [<-|Hc]; try contradiction; repeat split; discriminate. }
  apply texts_ind.
  - intros n f r Hf _. apply Lit; cbn; auto. lia.
  - intros n f r Hf _. apply Lit; cbn; auto. lia.
  - intros n f r Hf _. apply Lit; cbn; auto. lia.
  - intros n s Hs f r Hf Hr. specialize (Hr eq_refl). destruct f as [|f]; [lia|].
    pose proof (number_app s r Hs Hr) as En. destruct (number_head s Hs) as (c & q & -> & Ho & N1 & N2 & N3 & N4 & N5 & N6).
    cbn [app value] in *. unfold quote. rewrite !beq_neq by auto. rewrite En. reflexivity.
  - intros n s Hs f r Hf _. destruct f as [|f]; [lia|]. rewrite <- !app_assoc. cbn [app value].
    change (Byte.eqb x22 x7b) with false. change (Byte.eqb x22 x5b) with false. change (Byte.eqb x22 quote) with true. cbv iota.
    rewrite string_app; auto.
  - intros n w Hn Hw f r Hf _. destruct f as [|f]; [lia|]. rewrite <- !app_assoc. cbn [app value].
    change (text "[" ++ w ++ text "]" ++ r) with (x5b :: w ++ x5d :: r). cbn [value].
    change (Byte.eqb x5b x7b) with false. change (Byte.eqb x5b x5b) with true. cbv iota.
    rewrite (proj2 (Z.leb_gt n 0) Hn), skip_ws by auto. rewrite skip_solid by reflexivity.
    change (Byte.eqb x5d x5d) with true. reflexivity.
  - intros n l s Hn Hs (Hc & IH) f r Hf _. destruct f as [|f]; [lia|]. rewrite <- !app_assoc.
    change (text "[" ++ s ++ text "]" ++ r) with (x5b :: s ++ x5d :: r). cbn [value].
    change (Byte.eqb x5b x7b) with false. change (Byte.eqb x5b x5b) with true. cbv iota.
    rewrite (proj2 (Z.leb_gt n 0) Hn). destruct Hc as (c & q & Hc & Ho).
    destruct (Sk s c q x5d r Hc Ho (or_introl eq_refl)) as (q' & E). pose proof Ho as (_ & O2 & _). rewrite E.
    rewrite beq_neq by auto. rewrite <- E, IH; [reflexivity|].
    rewrite !app_length in Hf. cbn in Hf. lia.
  - intros n w Hn Hw f r Hf _. destruct f as [|f]; [lia|]. rewrite <- !app_assoc. cbn [app value].
    change (text "{" ++ w ++ text "}" ++ r) with (x7b :: w ++ x7d :: r). cbn [value].
    change (Byte.eqb x7b x7b) with true. cbv iota.
    rewrite (proj2 (Z.leb_gt n 0) Hn), skip_ws by auto. rewrite skip_solid by reflexivity.
    change (Byte.eqb x7d x7d) with true. reflexivity.
  - intros n m s Hn Hs (Hc & IH) f r Hf _. destruct f as [|f]; [lia|]. rewrite <- !app_assoc.
    change (text "{" ++ s ++ text "}" ++ r) with (x7b :: s ++ x7d :: r). cbn [value].
    change (Byte.eqb x7b x7b) with true. cbv iota.
    rewrite (proj2 (Z.leb_gt n 0) Hn). destruct Hc as (q & Hc).
    assert (Ho : opening x22) by (repeat split; discriminate).
    destruct (Sk s x22 q x7d r Hc Ho (or_intror eq_refl)) as (q' & E). rewrite E.
    change (Byte.eqb x22 x7d) with false. cbv iota. rewrite <- E, IH; [reflexivity|].
    rewrite !app_length in Hf. cbn in Hf. lia.
  - intros n t w1 s w2 Hw1 Hv IH Hw2. split.
    + rewrite <- !app_assoc, skip_ws, (skip_value _ _ _ _ Hv) by auto. destruct (value_head _ _ _ Hv) as (c & q & -> & Ho). cbn. eauto.
    + intros f r Hf. rewrite !app_length in Hf. destruct f as [|f]; [lia|]. rewrite <- !app_assoc, skip_ws, (skip_value _ _ _ _ Hv) by auto.
      cbn [elements_text]. rewrite IH; [|lia|intros _; apply St; cbn; auto]. rewrite skip_ws, skip_solid by (auto; reflexivity).
      change (Byte.eqb x5d x2c) with false. change (Byte.eqb x5d x5d) with true. reflexivity.
  - intros n t w1 s w2 l s' Hw1 Hv IH Hw2 He (_ & IHe). split.
    + rewrite <- !app_assoc, skip_ws, (skip_value _ _ _ _ Hv) by auto. destruct (value_head _ _ _ Hv) as (c & q & -> & Ho). cbn. eauto.
    + intros f r Hf. rewrite !app_length in Hf. cbn in Hf. destruct f as [|f]; [lia|]. rewrite <- !app_assoc, skip_ws, (skip_value _ _ _ _ Hv) by auto.
      cbn [elements_text]. change (text "," ++ s' ++ x5d :: r) with (x2c :: s' ++ x5d :: r).
      rewrite IH; [|lia|intros _; apply St; cbn; auto]. rewrite skip_ws, skip_solid by (auto; reflexivity).
      change (Byte.eqb x2c x2c) with true. cbv iota. rewrite IHe by lia. reflexivity.
  - intros n k t w1 w2 w3 s w4 Hw1 Hk Hw2 Hw3 Hv IH Hw4. split.
    + rewrite <- !app_assoc, skip_ws by auto. cbn [app]. rewrite skip_solid by reflexivity. eauto.
    + intros f r Hf. rewrite !app_length in Hf. cbn in Hf. destruct f as [|f]; [lia|]. rewrite <- !app_assoc, skip_ws by auto.
      cbn [app]. rewrite skip_solid by reflexivity. cbn [members_text]. change (Byte.eqb x22 quote) with true. cbn [negb].
      rewrite string_app, skip_ws by auto.
      change (text ":" ++ w3 ++ s ++ w4 ++ x7d :: r) with (x3a :: w3 ++ s ++ w4 ++ x7d :: r).
      rewrite skip_solid by reflexivity. change (Byte.eqb x3a x3a) with true. cbn [negb].
      rewrite skip_ws, (skip_value _ _ _ _ Hv), IH by (auto; try lia; intros; apply St; cbn; auto). rewrite skip_ws, skip_solid by (auto; reflexivity).
      change (Byte.eqb x7d x2c) with false. change (Byte.eqb x7d x7d) with true. reflexivity.
  - intros n k t w1 w2 w3 s w4 m s' Hw1 Hk Hw2 Hw3 Hv IH Hw4 Hm (_ & IHm). split.
    + rewrite <- !app_assoc, skip_ws by auto. cbn [app]. rewrite skip_solid by reflexivity. eauto.
    + intros f r Hf. rewrite !app_length in Hf. cbn in Hf.
      destruct f as [|f]; [lia|]. rewrite <- !app_assoc, skip_ws by auto.
      cbn [app]. rewrite skip_solid by reflexivity. cbn [members_text]. change (Byte.eqb x22 quote) with true. cbn [negb].
      rewrite string_app, skip_ws by auto.
      change (text ":" ++ w3 ++ s ++ w4 ++ text "," ++ s' ++ x7d :: r) with (x3a :: w3 ++ s ++ w4 ++ x2c :: s' ++ x7d :: r).
      rewrite skip_solid by reflexivity. change (Byte.eqb x3a x3a) with true. cbn [negb].
      rewrite skip_ws, (skip_value _ _ _ _ Hv), IH by (auto; try lia; intros; apply St; cbn; auto). rewrite skip_ws, skip_solid by (auto; reflexivity).
      change (Byte.eqb x2c x2c) with true. cbv iota. rewrite IHm by lia. reflexivity.
Qed.

Theorem parse_iff s t : parse s = Some t <-> Document t s.
Proof.
  unfold parse, Document. split.
  - destruct (skip_spec s) as (w1 & H1 & E1). destruct (value _ _ (skip s)) as [[t' r]|] eqn:V; [|discriminate].
    apply (proj1 (parse_spec _)) in V. destruct V as (p & Ep & V). destruct (skip r) as [|c q] eqn:K; [|discriminate].
    intros E. injection E as ->. apply skip_nil in K. exists w1, p, r. repeat split; auto. rewrite E1 at 1. rewrite Ep. auto.
  - intros (w1 & v & w2 & -> & H1 & H2 & V). rewrite skip_ws, (skip_value _ _ _ _ V) by auto.
    rewrite (proj1 texts_read _ _ _ V).
    + rewrite (proj2 (skip_nil w2) H2). reflexivity.
    + rewrite !app_length. lia.
    + intros _. destruct w2 as [|c w2]; cbn; auto. inversion H2 as [|? ? Hc]; subst. cbn in Hc.
      repeat destruct Hc as [<-|Hc]; try contradiction; repeat split; discriminate.
Qed.

(* A text of an object (or null) that is cut short is no text, unless white space is all that is
   missing. *)
Theorem cut_short p q t t' : numeric t = false -> parse p = Some t -> parse (p ++ q) = Some t' -> Ws q /\ t' = t.
Proof.
  intros Hn Hp Hq. apply parse_iff in Hp. destruct Hp as (w1 & v & w2 & -> & H1 & H2 & V).
  unfold parse in Hq. rewrite <- !app_assoc, skip_ws, (skip_value _ _ _ _ V), (proj1 texts_read _ _ _ V) in Hq;
    [|rewrite !app_length; lia|congruence|auto]. rewrite skip_ws in Hq by auto.
  destruct (skip q) as [|c r] eqn:K; [|discriminate]. injection Hq as <-. split; auto. apply skip_nil; auto.
Qed.
