(* Numbers are read as the closest binary64 numbers. *)
From Coq Require Import QArith Qabs Qpower SpecFloat Lqa.
From Verif Require Import Base Num Env Server Routes JsonSpec FloatSpec FloatRound FloatOps JsonText TextSpec TextParse TextUtf8 TextTime TextNumSpec FloatText ShowFloat.
From Coq.Init Require Import Byte.
From Coq Require Import Strings.Byte Strings.String.
Local Open Scope list_scope.

Lemma decimal_exists s : Forall Digit s -> exists n, Decimal s n.
Proof.
  induction s as [|c s IH] using rev_ind; intros H; [exists 0%Z; constructor|]. apply Forall_app in H. destruct H as (H1 & H2).
  destruct (IH H1) as (n & Hn). inversion H2 as [|? ? Hc _]; subst. apply In_nth_error in Hc. destruct Hc as (v & Hv).
  exists (10 * n + Z.of_nat v)%Z. apply dec_snoc; auto.
Qed.
Lemma int_digits i : Int i -> Forall Digit i.
Proof. destruct 1 as [|c s H1 H2]; constructor; auto; [left; reflexivity|right; exact H1]. Qed.
Theorem number_stands s : Number s -> exists neg q, Stands s neg q.
Proof.
  destruct 1 as [g i f e Hg Hi Hf He].
  assert (Hneg : exists neg : bool, In (g, neg) [([], false); (text "-", true)]) by (destruct Hg as [<-|[<-|[]]]; cbn; eauto).
  destruct Hneg as (neg & Hneg).
  assert (Hds : exists ds, In (f, ds) [([], []); (text "." ++ ds, ds)] /\ Forall Digit ds).
  { destruct Hf as [|d (Hn & Hd)]; [exists []; cbn; auto|exists d; split; [right; left; reflexivity|auto]]. }
  destruct Hds as (ds & Hds & Dd).
  destruct (decimal_exists (i ++ ds)) as (m & Hm). { apply Forall_app. split; auto. apply int_digits; auto. }
  assert (Hx : exists x, Exponent e x).
  { destruct He as [|e g' d Hee Hgg (Hn & Hd)]; [exists 0%Z; constructor|]. destruct (decimal_exists d Hd) as (v & Hv).
    assert (Hdd : Digits d) by (split; auto).
    destruct Hgg as [<-|[<-|[<-|[]]]].
    - exists v. apply (plus_exponent e [] d); auto. cbn; auto.
    - exists v. apply (plus_exponent e (text "+") d); auto. cbn; auto.
    - exists (- v)%Z. apply (minus_exponent e d); auto. }
  destruct Hx as (x & Hx). exists neg, (inject_Z m * Qpower 10 (x - Z.of_nat (List.length ds)))%Q. eapply stands_for; eauto.
Qed.
Lemma exponent_exp e x : Exponent e x -> Exp e.
Proof.
  destruct 1 as [|e g s v He Hg Hs Hv|e s v He Hs Hv]; [constructor| |].
  - apply exp_some; auto. destruct Hg as [<-|[<-|[]]]; cbn; auto.
  - apply exp_some; auto. cbn; auto.
Qed.
Lemma cut_ok s n : Decimal s n -> ((n < 100000)%Z -> cut_value s = n) /\ ((100000 <= n)%Z -> (10000 <= cut_value s < 100000)%Z).
Proof.
  induction 1 as [|s n c v H (I1 & I2) E]; [split; [reflexivity|lia]|]. destruct (digit_value v c E) as (_ & D2 & D3).
  apply decimal_read in H. destruct H as (_ & _ & Hn). unfold cut_value in *. rewrite fold_left_app. cbn [fold_left]. rewrite D2. set (w := fold_left _ s 0%Z) in *.
  destruct (Z.ltb_spec w 10000); lia.
Qed.
(* What is read of an exponent. *)
Definition cut (x x' : Z) : Prop := ((Z.abs x < 100000)%Z -> x' = x) /\ ((100000 <= x)%Z -> (10000 <= x')%Z) /\ ((x <= -100000)%Z -> (x' <= -10000)%Z).
Lemma exponent_read e x : Exponent e x -> cut x (exponent e).
Proof.
  destruct 1 as [|e g s v He Hg (Hn & Hs) Hv|e s v He (Hn & Hs) Hv]; [repeat split; lia| |]; pose proof (cut_ok s v Hv) as (C1 & C2); apply decimal_read in Hv; destruct Hv as (_ & _ & V0).
  - assert (Hp : sign_part [x2b; x2d] (g ++ s) = (g, s)).
    { apply sign_app; [destruct Hg as [<-|[<-|[]]]; cbn; eauto|]. destruct s as [|c s]; [congruence|]. inversion Hs; subst. apply digit_no_sign; auto. }
    assert (Ee : exponent (e ++ g ++ s) = cut_value s).
    { destruct He as [<-|[<-|[]]]; cbn [app text]; cbn [app list_byte_of_string]; unfold exponent; change (text "e" ++ g ++ s) with (x65 :: g ++ s); change (text "E" ++ g ++ s) with (x45 :: g ++ s);
        cbv iota; rewrite Hp; destruct Hg as [<-|[<-|[]]]; reflexivity. }
    rewrite Ee. repeat split; lia.
  - assert (Hp : sign_part [x2b; x2d] (text "-" ++ s) = (text "-", s)).
    { apply sign_app; [right; exists x2d; cbn; auto|]. destruct s as [|c s]; [congruence|]. inversion Hs; subst. apply digit_no_sign; auto. }
    assert (Ee : exponent (e ++ text "-" ++ s) = (- cut_value s)%Z).
    { destruct He as [<-|[<-|[]]]; unfold exponent; change (text "e" ++ text "-" ++ s) with (x65 :: text "-" ++ s); change (text "E" ++ text "-" ++ s) with (x45 :: text "-" ++ s);
        cbv iota; rewrite Hp; reflexivity. }
    rewrite Ee. repeat split; lia.
Qed.

Lemma read_parts g neg i f ds e m x : In (g, neg) [([], false); (text "-", true)] -> Int i -> In (f, ds) [([], []); (text "." ++ ds, ds)] ->
  Frac f -> Decimal (i ++ ds) m -> Exponent e x ->
  read_f64 (g ++ i ++ f ++ e) = match round_decimal neg m (exponent e - Z.of_nat (List.length ds)) with S754_infinity _ => None | z => Some z end.
Proof.
  intros Hg Hi Hds Hf Hm Hx. pose proof (exponent_exp e x Hx) as He.
  assert (A : match e with c :: _ => is_digit c = false /\ c <> x2e | [] => True end).
  { destruct e as [|c e]; [exact I|]. apply (exp_head _ c e He); auto. }
  assert (H1 : frac_part (f ++ e) = Some (f, e)) by (apply frac_app; auto).
  assert (H0 : int_part (i ++ f ++ e) = Some (i, f ++ e)).
  { apply int_app; auto. destruct Hf; cbn [app]; [|reflexivity]. destruct e; cbn; tauto. }
  unfold read_f64. rewrite sign_app.
  - rewrite H0, H1. apply decimal_read in Hm. destruct Hm as (_ & <- & _).
    assert (Ht : tl f = ds). { destruct Hds as [E|[E|[]]]; injection E as <-; [auto|reflexivity]. }
    rewrite Ht. replace (match g with [] => false | _ => true end) with neg; [reflexivity|]. destruct Hg as [E|[E|[]]]; injection E as <- <-; reflexivity.
  - destruct Hg as [E|[E|[]]]; injection E as <- <-; cbn; eauto.
  - destruct Hi as [|c i Hc Hi]; [reflexivity|]. cbn [app]. cbn in Hc. repeat destruct Hc as [<-|Hc]; try reflexivity. contradiction.
Qed.

Local Open Scope Q_scope.
Lemma pow10_Z n : (0 <= n)%Z -> Qpower 10 n == inject_Z (10 ^ n).
Proof. intros H. rewrite Zpower_Qpower by auto. reflexivity. Qed.
Lemma decimal_quotient m e : inject_Z (m * 10 ^ Z.max e 0) / inject_Z (10 ^ Z.max (- e) 0) == inject_Z m * Qpower 10 e.
Proof.
  rewrite inject_Z_mult. rewrite <- !pow10_Z by lia. destruct (Z.le_ge_cases 0 e) as [H|H].
  - rewrite (Z.max_l e 0), (Z.max_r (- e) 0) by lia. change (Qpower 10 0) with 1. field.
  - rewrite (Z.max_r e 0), (Z.max_l (- e) 0) by lia. change (Qpower 10 0) with 1. rewrite Qpower_opp. field.
    apply Qpower_not_0. discriminate.
Qed.
Lemma round_decimal_ok neg m e : (0 <= m)%Z -> let x := inject_Z m * Qpower 10 e in
  (x < limit -> nearest_even (round_decimal neg m e) (signed neg x) /\ negative (round_decimal neg m e) = neg) /\
  (limit <= x -> round_decimal neg m e = S754_infinity neg).
Proof.
  intros Hm x. unfold round_decimal. destruct (Z.eqb_spec m 0) as [->|Hn].
  - assert (Hx : x == 0) by (unfold x; change (inject_Z 0) with 0; ring). split.
    + intros _. split; [|reflexivity]. destruct (nearest_zero neg (signed neg x)) as (N1 & r & e0 & N2 & N3 & N4 & N5); [rewrite Hx; destruct neg; reflexivity|].
      split; auto. exists r, e0. auto 6.
    + intros H. exfalso. rewrite Hx in H. apply Qle_not_lt in H. apply H. reflexivity.
  - pose proof (div_core (m * 10 ^ Z.max e 0) (10 ^ Z.max (- e) 0)) as Hd.
    specialize (Hd ltac:(pose proof (Z.pow_pos_nonneg 10 (Z.max e 0)); nia) ltac:(apply Z.pow_pos_nonneg; lia)).
    destruct (SFdiv_core_binary prec64 emax64 (m * 10 ^ Z.max e 0) 0 (10 ^ Z.max (- e) 0) 0) as [[q e'] l]. destruct Hd as (Hq & Hs & He).
    eapply stands_eq in Hs; [|apply decimal_quotient]. destruct (round_full neg q e' l _ Hq Hs He) as (R1 & R2). split; [|exact R2].
    intros Hx. destruct (R1 Hx) as (R3 & R4). split; [exact R3|]. destruct R4 as [->|(m' & e2 & ->)]; reflexivity.
Qed.

(* ---- powers of ten ---- *)
Definition p10 (k : Z) : Q := Qpower 10 k.
Lemma p10_pos k : 0 < p10 k.
Proof. apply Qpower_0_lt. reflexivity. Qed.
Lemma p10_plus a b : p10 (a + b) == p10 a * p10 b.
Proof. apply Qpower_plus. discriminate. Qed.
Lemma p10_Z n : (0 <= n)%Z -> p10 n == inject_Z (10 ^ n).
Proof. apply pow10_Z. Qed.
Lemma p10_multiple i e e' : (e <= e')%Z -> inject_Z i * p10 e' == inject_Z (i * 10 ^ (e' - e)) * p10 e.
Proof. intros H. rewrite inject_Z_mult, <- (p10_Z (e' - e)) by lia. rewrite <- Qmult_assoc, <- p10_plus. replace (e' - e + e)%Z with e' by lia. reflexivity. Qed.
Lemma p10_le a b : (a <= b)%Z -> p10 a <= p10 b.
Proof.
  intros H. pose proof (p10_multiple 1 a b H) as E. change (inject_Z 1) with 1 in E. rewrite Qmult_1_l in E. rewrite E.
  pose proof (Z.pow_pos_nonneg 10 (b - a) ltac:(lia) ltac:(lia)) as Hp. pose proof (inj_le 1 (1 * 10 ^ (b - a)) ltac:(lia)) as Hi. change (inject_Z 1) with 1 in Hi.
  pose proof (p10_pos a). nra.
Qed.

(* ---- exponents that are cut off ---- *)
Lemma limit_p10 : limit <= p10 309.
Proof. vm_compute. discriminate. Qed.
Lemma tiny_p10 : 2 * p10 (-999) < p2 (-1074).
Proof. vm_compute. reflexivity. Qed.
Lemma fin_multiple (z : F f64) : is_fin z = true -> exists i, val z == inject_Z i * p2 (-1074).
Proof. intros H. destruct (fin_parts z H) as (r & e & V & _ & He). exists (r * 2 ^ (e - -1074))%Z. rewrite V. apply p2_multiple. exact He. Qed.
Lemma multiple_tiny i y : Qabs (inject_Z i * p2 (-1074)) <= 2 * y -> y <= p10 (-999) -> i = 0%Z.
Proof.
  intros H Hy. pose proof tiny_p10 as T. pose proof (p2_pos (-1074)) as P. rewrite Qabs_Qmult, Qabs_Zabs, (Qabs_pos (p2 (-1074))) in H by lra.
  assert (Z.abs i < 1)%Z; [|lia]. rewrite Zlt_Qlt. change (inject_Z 1) with 1. nra.
Qed.
Lemma tiny_closest (z : F f64) s y y' : 0 <= y -> y <= p10 (-999) -> 0 <= y' -> y' <= p10 (-999) -> closest z (signed s y) -> closest z (signed s y').
Proof.
  intros H0 H1 H0' H1' (Hz & C). split; auto.
  assert (A : forall a w, 0 <= w -> Qabs (a - signed s w) <= w -> Qabs a <= 2 * w).
  { intros a w Hw. destruct s; cbn [signed]; apply Qabs_case; apply Qabs_case; intros; lra. }
  assert (Az : forall w, 0 <= w -> Qabs (0 - signed s w) == w).
  { intros w Hw. destruct s; cbn [signed]; apply Qabs_case; intros; lra. }
  assert (Ez : val z == 0).
  { destruct (fin_multiple z Hz) as (i & Ei). destruct (C (S754_zero false) eq_refl) as (C1 & _). cbn [val] in C1. rewrite Az in C1 by auto. apply A in C1; auto.
    rewrite Ei in C1. rewrite Ei, (multiple_tiny i y C1 H1). reflexivity. }
  assert (Ev : even z = true).
  { destruct z as [t|t| |t m e]; try reflexivity; try discriminate Hz. exfalso. cbn [val] in Ez. pose proof (fin_pos m e). destruct t; cbn [signed] in Ez; lra. }
  intros z' Hz'. rewrite Ez, Az by auto. split; [|auto]. destruct (Qlt_le_dec (Qabs (val z' - signed s y')) y') as [Hl|Hl]; auto.
  destruct (fin_multiple z' Hz') as (i & Ei). pose proof (A _ _ H0' (Qlt_le_weak _ _ Hl)) as C1. rewrite Ei in C1. rewrite Ei, (multiple_tiny i y' C1 H1') in Hl.
  change (inject_Z 0) with 0 in Hl. rewrite Qmult_0_l, Az in Hl by auto. lra.
Qed.
Lemma closest_eq z x y : x == y -> closest z x -> closest z y.
Proof. intros E (H1 & H2). split; auto. intros z' Hz'. destruct (H2 z' Hz') as (A & B). rewrite <- E. auto. Qed.

(* Texts whose exponent is not cut off. *)
Inductive Modest : str -> bool -> Q -> Prop :=
| modest_parts g neg i f ds e m x : In (g, neg) [([], false); (text "-", true)] -> Int i -> In (f, ds) [([], []); (text "." ++ ds, ds)] ->
    Frac f -> Decimal (i ++ ds) m -> Exponent e x -> (Z.abs x < 100000)%Z ->
    Modest (g ++ i ++ f ++ e) neg (inject_Z m * Qpower 10 (x - Z.of_nat (List.length ds))).
Lemma modest_stands s neg q : Modest s neg q -> Stands s neg q.
Proof. destruct 1. eapply stands_for; eauto. Qed.
Lemma some_read (z : F f64) : is_fin z = true ->
  match z with S754_zero s => Some (S754_zero s) | S754_infinity _ => None | S754_nan => Some S754_nan | S754_finite s m e => Some (S754_finite s m e) end = Some z.
Proof. destruct z; try discriminate; reflexivity. Qed.
Theorem modest_read s neg q : Modest s neg q ->
  (q < limit -> exists z, read_f64 s = Some z /\ closest z (signed neg q) /\ negative z = neg) /\
  (limit <= q -> read_f64 s = None).
Proof.
  intros H. destruct H as [g neg i f ds e m x Hg Hi Hds Hf Hm Hx Hc]. rewrite (read_parts g neg i f ds e m x) by auto.
  destruct (exponent_read e x Hx) as (Ee & _). rewrite (Ee Hc).
  pose proof (decimal_read _ _ Hm) as (_ & _ & Hm0).
  destruct (round_decimal_ok neg m (x - Z.of_nat (List.length ds)) Hm0) as (R1 & R2). split.
  - intros Hl. destruct (R1 Hl) as (R3 & R4). exists (round_decimal neg m (x - Z.of_nat (List.length ds))).
    split; [|split; [apply nearest_closest; exact R3|exact R4]]. apply some_read. exact (proj1 R3).
  - intros Hl. rewrite (R2 Hl). reflexivity.
Qed.
Lemma cut_high m x n : (1 <= m)%Z -> (10000 <= x)%Z -> (n <= 9000)%Z -> limit <= inject_Z m * p10 (x - n).
Proof.
  intros Hm Hx Hn. eapply Qle_trans; [apply limit_p10|]. eapply Qle_trans; [apply (p10_le 309 (x - n)); lia|]. apply inj_le in Hm. change (inject_Z 1) with 1 in Hm.
  pose proof (p10_pos (x - n)). nra.
Qed.
Lemma cut_low m x n k : (0 <= m < 10 ^ k)%Z -> (0 <= k <= 9000)%Z -> (x <= -10000)%Z -> (0 <= n)%Z -> 0 <= inject_Z m * p10 (x - n) /\ inject_Z m * p10 (x - n) <= p10 (-999).
Proof.
  intros (Hm0 & Hm) (Hk0 & Hk) Hx Hn. pose proof (p10_pos (x - n)) as P. apply (inj_le 0) in Hm0. change (inject_Z 0) with 0 in Hm0. split; [nra|].
  apply Qle_trans with (p10 (k + (x - n))); [|apply p10_le; lia]. rewrite p10_plus, (p10_Z k) by exact Hk0. apply Qmult_le_r; auto. apply inj_le. apply Z.lt_le_incl. exact Hm.
Qed.
(* A text of at most 9000 characters is read as if its exponent were not cut off. *)
Theorem float_read s neg q : Stands s neg q -> (Z.of_nat (List.length s) <= 9000)%Z ->
  (q < limit -> exists z, read_f64 s = Some z /\ closest z (signed neg q) /\ negative z = neg) /\
  (limit <= q -> read_f64 s = None).
Proof.
  intros H Hlen. destruct H as [g neg i f ds e m x Hg Hi Hds Hf Hm Hx].
  destruct (Z.lt_ge_cases (Z.abs x) 100000) as [Hc|Hc]; [apply modest_read; eapply modest_parts; eauto|].
  rewrite (read_parts g neg i f ds e m x) by auto. destruct (exponent_read e x Hx) as (_ & E1 & E2).
  pose proof (decimal_read _ _ Hm) as (_ & _ & Hm0). pose proof (decimal_bound _ _ Hm) as Hb. rewrite !app_length in Hlen. rewrite app_length in Hb.
  assert (Hds' : (List.length ds <= List.length f)%nat). { destruct Hds as [E|[E|[]]]; pose proof (f_equal fst E) as Ef; pose proof (f_equal snd E) as Ed; cbn [fst snd] in Ef, Ed; [rewrite <- Ed; cbn [List.length]; lia|rewrite <- Ef, app_length; lia]. }
  assert (Hk : (0 <= Z.of_nat (List.length i + List.length ds) <= 9000)%Z) by lia. pose proof (conj Hm0 Hb) as Hm9.
  set (n := Z.of_nat (List.length ds)) in *. assert (Hn : (0 <= n <= 9000)%Z) by lia.
  destruct (round_decimal_ok neg m (exponent e - n) Hm0) as (R1 & R2).
  destruct (Z.eq_dec m 0) as [->|Hz].
  - assert (Hq : forall y, inject_Z 0 * Qpower 10 y == 0) by (intros y; change (inject_Z 0) with 0; ring). assert (L0 : 0 < limit) by reflexivity.
    pose proof (Hq (x - n)%Z) as Q1. pose proof (Hq (exponent e - n)%Z) as Q2. split; [|intros; exfalso; lra].
    intros _. destruct (R1 ltac:(lra)) as (R3 & R4). exists (round_decimal neg 0 (exponent e - n)). split; [apply some_read; exact (proj1 R3)|]. split; auto.
    apply nearest_closest in R3. eapply closest_eq; [|exact R3]. destruct neg; cbn [signed]; lra.
  - assert (Hs : (100000 <= x \/ x <= -100000)%Z) by lia. destruct Hs as [Hs|Hs].
    + pose proof (cut_high m x n ltac:(lia) ltac:(lia) ltac:(lia)) as Q1. pose proof (cut_high m (exponent e) n ltac:(lia) (E1 Hs) ltac:(lia)) as Q2. unfold p10 in Q1, Q2.
      split; [intros; exfalso; lra|]. intros _. rewrite (R2 Q2). reflexivity.
    + destruct (cut_low m x n _ Hm9 Hk ltac:(lia) ltac:(lia)) as (Q1 & Q2). destruct (cut_low m (exponent e) n _ Hm9 Hk (E2 Hs) ltac:(lia)) as (Q3 & Q4). unfold p10 in Q1, Q3. fold p10 in *.
      assert (Hl : p10 (-999) < limit) by (vm_compute; reflexivity). change (inject_Z m * p10 (x - n)) with (inject_Z m * Qpower 10 (x - n)) in Q2.
      change (inject_Z m * p10 (exponent e - n)) with (inject_Z m * Qpower 10 (exponent e - n)) in Q4. split; [|intros; exfalso; lra]. intros _.
      destruct (R1 ltac:(lra)) as (R3 & R4). exists (round_decimal neg m (exponent e - n)). split; [apply some_read; exact (proj1 R3)|]. split; auto.
      apply nearest_closest in R3. eapply (tiny_closest _ neg (inject_Z m * Qpower 10 (exponent e - n))); auto.
Qed.
(* 0.00…03e100000, with 9999 zeros: what is read is 3, for the exponent is taken for 10000. *)
Lemma zeros_decimal n : Decimal (repeat x30 n) 0.
Proof.
  induction n as [|n IH]; [constructor|]. cbn [repeat]. rewrite repeat_cons. exact (dec_snoc _ 0 x30 0 IH eq_refl).
Qed.
Lemma cut_stands n : let ds := repeat x30 n ++ text "3" in
  Frac (text "." ++ ds) /\ Decimal (text "0" ++ ds) 3 /\ Exponent (text "e100000") 100000 /\ Z.of_nat (List.length ds) = (Z.of_nat n + 1)%Z.
Proof.
  intros ds. unfold ds. split; [|split; [|split]].
  - apply frac_some. split; [intros H; apply app_eq_nil in H; destruct H as (_ & H); discriminate|]. apply Forall_app. split; [|constructor; [cbn; auto 12|constructor]].
    apply Forall_forall. intros c Hc. apply repeat_spec in Hc. subst. cbn. auto 12.
  - rewrite app_assoc. change (text "0" ++ repeat x30 n) with (repeat x30 (S n)). exact (dec_snoc _ 0 x33 3 (zeros_decimal _) eq_refl).
  - change (text "e100000") with (text "e" ++ [] ++ text "100000"). apply plus_exponent; [cbn; auto|cbn; auto|split; [discriminate|repeat (constructor; [cbn; auto 12|]); constructor]|].
    exact (dec_snoc _ 10000 x30 0 (dec_snoc _ 1000 x30 0 (dec_snoc _ 100 x30 0 (dec_snoc _ 10 x30 0 (dec_snoc _ 1 x30 0 (dec_snoc [] 0 x31 1 dec_nil eq_refl) eq_refl) eq_refl) eq_refl) eq_refl) eq_refl).
  - rewrite app_length, repeat_length. change (List.length (text "3")) with 1%nat. lia.
Qed.
Lemma numbers_cut : exists s q, Stands s false q /\ limit <= q /\ read_f64 s = Some (S754_finite false 6755399441055744 (-51)).
Proof.
  destruct (Z_of_nat_complete 9999 ltac:(lia)) as (n & Hn). pose proof (cut_stands n) as (C2 & C3 & C4 & C5). rewrite <- Hn in C5. clear Hn. set (ds := repeat x30 n ++ text "3") in *. clearbody ds.
  exists ([] ++ text "0" ++ (text "." ++ ds) ++ text "e100000"), (inject_Z 3 * p10 (100000 - Z.of_nat (List.length ds))). split; [|split].
  - apply (stands_for [] false (text "0") (text "." ++ ds) ds (text "e100000") 3 100000); [cbn; auto|apply int_zero|right; left; reflexivity|exact C2|exact C3|exact C4].
  - change (inject_Z 3) with 3. assert (H : (309 <= 100000 - Z.of_nat (List.length ds))%Z) by lia. apply p10_le in H. pose proof limit_p10 as L. pose proof (p10_pos (100000 - Z.of_nat (List.length ds))) as P.
    revert H P L. generalize (p10 (100000 - Z.of_nat (List.length ds))) (p10 309) limit. intros; lra.
  - rewrite (read_parts [] false (text "0") (text "." ++ ds) ds (text "e100000") 3 100000); [|cbn; auto|apply int_zero|right; left; reflexivity|exact C2|exact C3|exact C4].
    replace (exponent (text "e100000") - Z.of_nat (List.length ds))%Z with 0%Z; [vm_compute; reflexivity|]. change (exponent (text "e100000")) with 10000%Z. lia.
Qed.
Lemma stands_nonneg s neg q : Stands s neg q -> 0 <= q.
Proof.
  intros H. destruct H as [g neg i f ds e m x Hg Hi Hds Hf Hm Hx]. apply decimal_read in Hm. destruct Hm as (_ & _ & Hm).
  apply Qmult_le_0_compat; [apply (inj_le 0); auto|apply Qpower_0_le; discriminate].
Qed.
Lemma abs_signed_limit (z : F f64) neg q : 0 <= q -> is_fin z = true -> val z == signed neg q -> q < limit.
Proof.
  intros Hq Hz E. pose proof (fin_limit z Hz) as L. rewrite E in L. rewrite signed_Qabs in L by auto. exact L.
Qed.
(* Exact texts give the number back. *)
Theorem float_exact s neg q (z : F f64) : Modest s neg q -> is_fin z = true -> val z == signed neg q -> negative z = neg -> read_f64 s = Some z.
Proof.
  intros H Hz Hv Hn. destruct (modest_read s neg q H) as (R & _).
  destruct (R (abs_signed_limit z neg q (stands_nonneg s neg q (modest_stands s neg q H)) Hz Hv)) as (z' & E & (Hz' & Hc) & Hn'). rewrite E. f_equal.
  apply val_unique; auto; [|congruence]. destruct (Hc z Hz) as (Hc1 & _). clear Hc. rename Hc1 into Hc. rewrite Hv in Hc.
  setoid_replace (signed neg q - signed neg q) with 0 in Hc by ring. change (Qabs 0) with 0 in Hc.
  apply Qabs_Qle_condition in Hc. rewrite Hv. lra.
Qed.

(* ---- whole numbers ---- *)
Local Open Scope Z_scope.
Lemma all_digits_int i : Int i -> all_digits i = true.
Proof.
  intros H. pose proof (int_digits i H) as D. apply digits_all in D. unfold all_digits. destruct i; [inversion H|]. apply forallb_forall. rewrite Forall_forall in D. exact D.
Qed.
Theorem int_read s neg z : Whole s neg z -> read_int s = if ((- 2 ^ 63 <=? z) && (z <? 2 ^ 63))%bool then Some z else None.
Proof.
  destruct 1 as [g neg i m Hg Hi Hm]. unfold read_int. rewrite sign_app.
  - rewrite all_digits_int by auto. apply decimal_read in Hm. destruct Hm as (_ & <- & _).
    destruct Hg as [E|[E|[]]]; injection E as <- <-; reflexivity.
  - destruct Hg as [E|[E|[]]]; injection E as <- <-; cbn; eauto.
  - destruct Hi as [|c i Hc Hi]; [reflexivity|]. cbn in Hc. repeat destruct Hc as [<-|Hc]; try reflexivity. contradiction.
Qed.
Theorem byte_read s neg z : Whole s neg z -> read_byte s = if (negb neg && (z <=? 255))%bool then Some (nb z) else None.
Proof.
  destruct 1 as [g neg i m Hg Hi Hm]. unfold read_byte. apply decimal_read in Hm. destruct Hm as (_ & <- & _).
  destruct Hg as [E|[E|[]]]; injection E as <- <-; cbn [app negb andb].
  - rewrite all_digits_int by auto. reflexivity.
  - reflexivity.
Qed.
(* Numbers with a fraction or an exponent are neither. *)
Theorem not_whole s : Number s -> (forall neg z, ~ Whole s neg z) -> read_int s = None /\ read_byte s = None.
Proof.
  intros Hs Hw. destruct Hs as [g i f e Hg Hi Hf He].
  assert (Hneg : exists neg : bool, In (g, neg) [([], false); (text "-", true)]) by (destruct Hg as [<-|[<-|[]]]; cbn; eauto).
  destruct Hneg as (neg & Hneg).
  assert (Hd : all_digits (i ++ f ++ e) = false).
  { destruct Hf as [|d _]; [destruct He as [|e g' d He _ _]|].
    - exfalso. destruct (decimal_exists i (int_digits i Hi)) as (m & Hm). apply (Hw neg (if neg then - m else m)). cbn [app]. rewrite app_nil_r.
      apply whole; auto.
    - cbn [app]. unfold all_digits. destruct (i ++ e ++ g' ++ d) eqn:E; auto. rewrite <- E. rewrite forallb_app. destruct He as [<-|[<-|[]]]; cbn; apply andb_false_r.
    - unfold all_digits. destruct (i ++ (text "." ++ d) ++ e) eqn:E; auto. rewrite <- E. rewrite forallb_app. cbn. apply andb_false_r. }
  split.
  - unfold read_int. rewrite sign_app; [rewrite Hd; auto| |].
    + destruct Hg as [<-|[<-|[]]]; cbn; eauto.
    + destruct Hi as [|c i Hc Hi]; [reflexivity|]. cbn in Hc. repeat destruct Hc as [<-|Hc]; try reflexivity. contradiction.
  - unfold read_byte. destruct Hg as [<-|[<-|[]]]; cbn [app]; [rewrite Hd; auto|reflexivity].
Qed.

(* ---- texts that read back exist ---- *)
Lemma digit_dec n : 0 <= n < 10 -> Decimal [digit n] n.
Proof. intros H. pose proof (dec_snoc [] 0 (digit n) (Z.to_nat n) dec_nil (digit_of n H)) as D. rewrite Z2Nat.id in D by lia. exact D. Qed.
Lemma show_nat_ok k : forall n, 0 <= n < 2 ^ (Z.of_nat k + 1) -> (1 <= n -> exists c s, show_nat k n = c :: s /\ In c (text "123456789") /\ Forall Digit s) /\ Decimal (show_nat k n) n.
Proof.
  assert (Hlead : forall n, 1 <= n < 10 -> In (digit n) (text "123456789")).
  { intros n H. assert (Hc : n = 1 \/ n = 2 \/ n = 3 \/ n = 4 \/ n = 5 \/ n = 6 \/ n = 7 \/ n = 8 \/ n = 9) by lia. repeat destruct Hc as [->|Hc]; try (cbn; tauto). subst; cbn; tauto. }
  induction k as [|k IH]; intros n Hn; cbn [show_nat].
  - change (2 ^ (Z.of_nat 0 + 1)) with 2 in Hn. split; [|apply digit_dec; lia]. intros H1. exists (digit n), []. split; [reflexivity|]. split; [apply Hlead; lia|constructor].
  - destruct (Z.ltb_spec n 10) as [H|H].
    + split; [|apply digit_dec; lia]. intros H1. exists (digit n), []. split; [reflexivity|]. split; [apply Hlead; lia|constructor].
    + assert (Hq : 1 <= n / 10 < 2 ^ (Z.of_nat k + 1)).
      { split; [apply Z.div_le_lower_bound; lia|]. apply Z.div_lt_upper_bound; [lia|]. replace (Z.of_nat (S k) + 1) with (Z.of_nat k + 1 + 1) in Hn by lia.
        rewrite Z.pow_add_r in Hn by lia. lia. }
      destruct (IH (n / 10) ltac:(lia)) as (I1 & I2). pose proof (Z.mod_pos_bound n 10 ltac:(lia)) as Hr. pose proof (digit_of (n mod 10) Hr) as Hd. split.
      * intros _. destruct (I1 ltac:(lia)) as (c & s & -> & Hc & Hs). exists c, (s ++ [digit (n mod 10)]). split; auto. split; auto. apply Forall_app. split; auto.
        constructor; [|constructor]. apply nth_error_In in Hd. exact Hd.
      * replace n with (10 * (n / 10) + Z.of_nat (Z.to_nat (n mod 10))) at 3 by (pose proof (Z.div_mod n 10); lia). apply dec_snoc; auto.
Qed.
Lemma show_int_ok n : 0 <= n -> Decimal (show_int n) n /\ Int (show_int n).
Proof.
  intros H. unfold show_int. destruct (Z.eq_dec n 0) as [->|Hn]; [split; [apply (digit_dec 0); lia|constructor]|].
  pose proof (Z.log2_spec n ltac:(lia)) as (L1 & L2). pose proof (Z.log2_nonneg n) as L3.
  destruct (show_nat_ok (Z.to_nat (Z.log2 n)) n) as (A & B); [rewrite Z2Nat.id by lia; lia|]. split; auto.
  destruct (A ltac:(lia)) as (c & s & -> & Hc & Hs). constructor; auto.
Qed.
Lemma int_nonempty i : Int i -> Digits i.
Proof. intros H. split; [destruct H; discriminate|apply int_digits; auto]. Qed.
Definition show_exact (z : F f64) : str :=
  match z with
  | S754_zero s => (if s then text "-" else []) ++ show_int 0
  | S754_finite s m e =>
      (if s then text "-" else []) ++ (if 0 <=? e then show_int (Z.pos m * 2 ^ e) else show_int (Z.pos m * 5 ^ (- e)) ++ text "e-" ++ show_int (- e))
  | _ => []
  end.
Theorem exact_stands (z : F f64) : is_fin z = true -> exists q, Modest (show_exact z) (negative z) q /\ (val z == signed (negative z) q)%Q.
Proof.
  assert (Hg : forall s : bool, In (if s then text "-" else [], s) [([], false); (text "-", true)]) by (intros []; cbn; auto).
  assert (H0 : forall s n, 0 <= n -> exists q, Modest ((if s : bool then text "-" else []) ++ show_int n) s q /\ (q == inject_Z n)%Q).
  { intros s n Hn. destruct (show_int_ok n Hn) as (D & I). exists (inject_Z n * Qpower 10 (0 - Z.of_nat (List.length (@nil byte))))%Q. split; [|cbn; ring].
    rewrite <- (app_nil_r (show_int n)). change (show_int n ++ []) with (show_int n ++ [] ++ []). eapply modest_parts; eauto using Hg, frac_none, no_exponent; [| |lia].
    - left. reflexivity.
    - rewrite app_nil_r. exact D. }
  destruct z as [s|s| |s m e]; try discriminate; intros Hfin; cbn [show_exact negative val].
  - destruct (H0 s 0 ltac:(lia)) as (q & H1 & H2). exists q. split; auto. rewrite H2. destruct s; reflexivity.
  - destruct (Z.leb_spec 0 e) as [He|He].
    + destruct (H0 s (Z.pos m * 2 ^ e) ltac:(lia)) as (q & H1 & H2). exists q. split; auto. rewrite H2, inject_Z_mult, <- (p2_Z e) by lia. reflexivity.
    + assert (Hm : 0 <= Z.pos m * 5 ^ (- e)) by (pose proof (Z.pow_pos_nonneg 5 (- e)); lia).
      destruct (show_int_ok _ Hm) as (D & I). destruct (show_int_ok (- e) ltac:(lia)) as (D' & I').
      exists (inject_Z (Z.pos m * 5 ^ (- e)) * Qpower 10 (- - e - Z.of_nat (List.length (@nil byte))))%Q. split.
      * change (show_int (Z.pos m * 5 ^ (- e)) ++ text "e-" ++ show_int (- e)) with (show_int (Z.pos m * 5 ^ (- e)) ++ [] ++ text "e" ++ text "-" ++ show_int (- e)).
        eapply modest_parts; eauto using Hg, frac_none.
        -- left. reflexivity.
        -- rewrite app_nil_r. exact D.
        -- apply minus_exponent; auto; [cbn; auto|apply int_nonempty; auto].
        -- destruct (fin_canonical _ _ Hfin) as (_ & _ & F2). lia.
      * assert (E : (inject_Z (Z.pos m) * p2 e == inject_Z (Z.pos m * 5 ^ (- e)) * Qpower 10 (- - e - Z.of_nat (List.length (@nil byte))))%Q).
        { change (Z.of_nat (List.length (@nil byte))) with 0. rewrite Z.sub_0_r, Z.opp_involutive. rewrite inject_Z_mult.
          change (5 ^ (- e)) with (Z.pow 5 (- e)). rewrite (Zpower_Qpower 5 (- e)) by lia. change (inject_Z 5) with (5 # 1)%Q.
          change (10 # 1)%Q with ((2 # 1) * (5 # 1))%Q. rewrite Qmult_power, Qpower_opp. unfold p2. field. apply Qpower_not_0. discriminate. }
        rewrite E. reflexivity.
Qed.
Theorem exact_read (z : F f64) : is_fin z = true -> read_f64 (show_exact z) = Some z.
Proof. intros H. destruct (exact_stands z H) as (q & H1 & H2). eapply float_exact; eauto. Qed.
Theorem stands_number s neg q : Stands s neg q -> Number s.
Proof.
  destruct 1 as [g neg i f ds e m x Hg Hi Hds Hf Hm Hx]. apply number_parts; auto; [|apply (exponent_exp e x); auto].
  destruct Hg as [E|[E|[]]]; injection E as <- <-; cbn; auto.
Qed.
Theorem number_iff s : Number s <-> exists neg q, Stands s neg q.
Proof. split; [apply number_stands|]. intros (neg & q & H). exact (stands_number s neg q H). Qed.
