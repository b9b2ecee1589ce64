(* The texts of numbers: what they look like and what they stand for. *)
From Coq Require Import ZArith QArith Qabs Qpower SpecFloat Lia Lqa Setoid Morphisms.
From Verif Require Import Base Num Env Server Routes FloatSpec FloatRound FloatOps FloatSearch JsonText TextSpec TextParse TextUtf8 TextTime TextNumSpec FloatText ShowFloat TextNum ShowShort ShowSpec.
From Coq.Init Require Import Byte.
From Coq Require Import Strings.Byte Strings.String.
Local Open Scope list_scope.
Local Open Scope Z_scope.

Lemma decimal_app s a t b : Decimal s a -> Decimal t b -> Decimal (s ++ t) (a * 10 ^ Z.of_nat (List.length t) + b).
Proof.
  intros Hs. induction 1 as [|t n c v Ht IH Hc].
  - rewrite app_nil_r. cbn [List.length]. change (10 ^ Z.of_nat 0) with 1. replace (a * 1 + 0) with a by lia. exact Hs.
  - rewrite app_assoc, app_length. cbn [List.length]. replace (Z.of_nat (List.length t + 1)) with (Z.of_nat (List.length t) + 1) by lia.
    rewrite Z.pow_add_r by lia. change (10 ^ 1) with 10.
    replace (a * (10 ^ Z.of_nat (List.length t) * 10) + (10 * n + Z.of_nat v)) with (10 * (a * 10 ^ Z.of_nat (List.length t) + n) + Z.of_nat v) by lia.
    apply dec_snoc; auto.
Qed.
Lemma zeros_decimal n : Decimal (zeros n) 0 /\ Forall Digit (zeros n).
Proof.
  unfold zeros. induction (Z.to_nat n) as [|j (IH & IF)]; cbn [repeat]; [split; constructor|]. split.
  - pose proof (decimal_app [x30] 0 (repeat x30 j) 0 (digit_dec 0 ltac:(lia)) IH) as D. exact D.
  - constructor; auto. left. reflexivity.
Qed.
Lemma zeros_length n : 0 <= n -> Z.of_nat (List.length (zeros n)) = n.
Proof. intros H. unfold zeros. rewrite repeat_length. lia. Qed.

Lemma show_int_head n : 1 <= n -> exists c s, show_int n = c :: s /\ In c (text "123456789") /\ Forall Digit s.
Proof.
  intros H. unfold show_int. pose proof (Z.log2_spec n ltac:(lia)) as (L1 & L2). pose proof (Z.log2_nonneg n) as L3.
  destruct (show_nat_ok (Z.to_nat (Z.log2 n)) n) as (A & _); [rewrite Z2Nat.id by lia; lia|]. apply A. exact H.
Qed.
Lemma show_nat_last k n : 1 <= n < 2 ^ (Z.of_nat k + 1) -> exists p, show_nat k n = p ++ [digit (n mod 10)].
Proof.
  destruct k as [|k]; intros H; cbn [show_nat].
  - change (2 ^ (Z.of_nat 0 + 1)) with 2 in H. exists []. rewrite Z.mod_small by lia. reflexivity.
  - destruct (Z.ltb_spec n 10); [exists []; rewrite Z.mod_small by lia; reflexivity|]. eauto.
Qed.
Lemma show_int_last n : 1 <= n -> exists p, show_int n = p ++ [digit (n mod 10)].
Proof.
  intros H. unfold show_int. pose proof (Z.log2_spec n ltac:(lia)) as (L1 & L2). pose proof (Z.log2_nonneg n) as L3.
  apply show_nat_last. rewrite Z2Nat.id by lia. lia.
Qed.
Lemma digit_lead n : 1 <= n < 10 -> In (digit n) (text "123456789").
Proof.
  intros H. assert (Hc : n = 1 \/ n = 2 \/ n = 3 \/ n = 4 \/ n = 5 \/ n = 6 \/ n = 7 \/ n = 8 \/ n = 9) by lia. repeat destruct Hc as [->|Hc]; try (cbn; tauto). subst; cbn; tauto.
Qed.
Lemma lead_digit c : In c (text "123456789") -> Digit c.
Proof. intros H. right. exact H. Qed.
Lemma digits_firstn s n : Forall Digit s -> Forall Digit (firstn n s).
Proof. intros H. rewrite <- (firstn_skipn n s) in H. apply Forall_app in H. tauto. Qed.
Lemma digits_skipn s n : Forall Digit s -> Forall Digit (skipn n s).
Proof. intros H. rewrite <- (firstn_skipn n s) in H. apply Forall_app in H. tauto. Qed.

(* The end of a fraction that ends with the digits of d. *)
Lemma tail_of ds p d : Forall Digit ds -> ds = p ++ [digit (d mod 10)] -> d mod 10 <> 0 -> Tail (text "." ++ ds).
Proof.
  intros H E Hm. right. exists p, (digit (d mod 10)). split; [rewrite E; reflexivity|]. rewrite E in H. apply Forall_app in H. split; [tauto|].
  apply digit_lead. pose proof (Z.mod_pos_bound d 10). lia.
Qed.
Lemma tail_skipn d n : 1 <= d -> (n < List.length (show_int d))%nat -> exists p, skipn n (show_int d) = p ++ [digit (d mod 10)].
Proof.
  intros Hd Hn. destruct (show_int_last d Hd) as (p & E). rewrite E in *. rewrite app_length in Hn. cbn [List.length] in Hn. exists (skipn n p).
  rewrite skipn_app. replace (n - List.length p)%nat with 0%nat by lia. reflexivity.
Qed.

Definition written (d k : Z) (i f ds : str) (M : Z) : Prop :=
  Int i /\ In (f, ds) [([], []); (text "." ++ ds, ds)] /\ Frac f /\ Decimal (i ++ ds) M /\ (d mod 10 <> 0 -> Tail f).
Lemma fmt_f_ok d k : 1 <= d -> exists i f ds M, fmt_f d k = i ++ f /\ written d k i f ds M /\
  (inject_Z M * Qpower 10 (0 - Z.of_nat (List.length ds)) == inject_Z d * Qpower 10 k)%Q.
Proof.
  intros Hd. unfold fmt_f. destruct (show_int_ok d ltac:(lia)) as (D & I). destruct (show_int_head d Hd) as (c & s & E & Hc & Hs).
  pose proof (show_int_length d Hd) as (_ & HL). cbv zeta in HL. set (L := Z.of_nat (List.length (show_int d))) in *.
  assert (Ds : Forall Digit (show_int d)) by (apply int_digits; exact I).
  destruct (Z.ltb_spec 0 (L + k)) as [Hp|Hp].
  - destruct (Z.leb_spec 0 k) as [Hk|Hk].
    + destruct (zeros_decimal k) as (Z1 & Z2). exists (show_int d ++ zeros k), [], [], (d * 10 ^ k + 0). split; [rewrite app_nil_r; reflexivity|].
      split; [split; [|split; [|split; [|split]]]|].
      * rewrite E. cbn [app]. apply int_other; auto. apply Forall_app. split; auto.
      * left. reflexivity.
      * constructor.
      * rewrite app_nil_r. pose proof (decimal_app _ _ _ _ D Z1) as DA. rewrite zeros_length in DA by lia. exact DA.
      * left. reflexivity.
      * cbn [List.length]. change (0 - Z.of_nat 0) with 0. rewrite Z.add_0_r. rewrite inject_Z_mult, <- (pow10_Z k) by lia. change (Qpower 10 0) with 1%Q. ring.
    + set (n := Z.to_nat (L + k)). exists (firstn n (show_int d)), (x2e :: skipn n (show_int d)), (skipn n (show_int d)), d. split; [reflexivity|].
      assert (Hn : (n < List.length (show_int d))%nat) by lia.
      destruct (tail_skipn d n Hd Hn) as (p & Ep).
      split; [split; [|split; [|split; [|split]]]|].
      * assert (En : exists n', n = S n') by (exists (n - 1)%nat; lia). destruct En as (n' & ->). rewrite E. cbn [firstn]. apply int_other; auto. apply digits_firstn. auto.
      * right. left. reflexivity.
      * apply (frac_some (skipn n (show_int d))). split; [rewrite Ep; destruct p; discriminate|apply digits_skipn; auto].
      * rewrite firstn_skipn. exact D.
      * intros Hm. apply (tail_of _ p d); auto. apply digits_skipn. auto.
      * rewrite skipn_length. replace (0 - Z.of_nat (List.length (show_int d) - n)) with k by lia. reflexivity.
  - destruct (zeros_decimal (- (L + k))) as (Z1 & Z2). exists [x30], (x2e :: zeros (- (L + k)) ++ show_int d), (zeros (- (L + k)) ++ show_int d), (0 * 10 ^ Z.of_nat (List.length (zeros (- (L + k)) ++ show_int d)) + (0 * 10 ^ L + d)).
    split; [reflexivity|]. destruct (show_int_last d Hd) as (p & Ep). assert (DD : Forall Digit (zeros (- (L + k)) ++ show_int d)) by (apply Forall_app; split; auto).
    split; [split; [|split; [|split; [|split]]]|].
    + apply int_zero.
    + right. left. reflexivity.
    + apply (frac_some (zeros (- (L + k)) ++ show_int d)). split; auto. rewrite E. destruct (zeros (- (L + k))); discriminate.
    + apply decimal_app; [apply (digit_dec 0); lia|]. apply decimal_app; auto.
    + intros Hm. apply (tail_of _ (zeros (- (L + k)) ++ p) d); auto. rewrite Ep, app_assoc. reflexivity.
    + rewrite app_length. rewrite !Z.mul_0_l, !Z.add_0_l. replace (0 - Z.of_nat (List.length (zeros (- (L + k))) + List.length (show_int d))) with k; [reflexivity|].
      rewrite Nat2Z.inj_add, zeros_length by lia. fold L. lia.
Qed.

Lemma tidy_cut p a : tidy (p ++ [x65; x2d; x30; a]) = p ++ [x65; x2d; a].
Proof. unfold tidy. rewrite rev_app_distr. cbn. rewrite rev_involutive, <- !app_assoc. reflexivity. Qed.
Lemma lead_not c : In c (text "123456789") -> Byte.eqb c x30 = false.
Proof. intros H. cbn in H. repeat destruct H as [<-|H]; try reflexivity. contradiction. Qed.
Lemma digit_not c : Digit c -> Byte.eqb c x2d = false.
Proof. intros H. cbn in H. repeat destruct H as [<-|H]; try reflexivity. contradiction. Qed.
Lemma tidy_plus p a b : tidy (p ++ [x65; x2b; a; b]) = p ++ [x65; x2b; a; b].
Proof. unfold tidy. rewrite rev_app_distr. reflexivity. Qed.
Lemma tidy_long p g c s : In c (text "123456789") -> Forall Digit s -> s <> [] -> tidy (p ++ x65 :: g :: c :: s) = p ++ x65 :: g :: c :: s.
Proof.
  intros Hc Hs Hn. unfold tidy. replace (rev (p ++ x65 :: g :: c :: s)) with (rev s ++ [c; g; x65] ++ rev p) by (rewrite rev_app_distr; cbn; rewrite <- !app_assoc; reflexivity).
  assert (Hr : Forall Digit (rev s)) by (apply Forall_rev; auto). assert (Hr0 : rev s <> []) by (intros E; apply Hn; rewrite <- (rev_involutive s), E; reflexivity).
  destruct (rev s) as [|a [|b [|d [|d' t]]]]; [congruence| | | |]; cbn [app].
  - rewrite (lead_not c Hc). rewrite andb_false_r. reflexivity.
  - rewrite (digit_not c (lead_digit c Hc)). rewrite andb_false_r. reflexivity.
  - rewrite !Forall_cons_iff in Hr. rewrite (digit_not d) by tauto. rewrite andb_false_r. reflexivity.
  - rewrite !Forall_cons_iff in Hr. rewrite (digit_not d) by tauto. rewrite andb_false_r. reflexivity.
Qed.
Lemma show_small n : 0 <= n < 10 -> show_int n = [digit n].
Proof.
  intros H. unfold show_int. destruct (Z.to_nat (Z.log2 n)); [reflexivity|]. cbn [show_nat]. destruct (Z.ltb_spec n 10); [reflexivity|lia].
Qed.
Definition NeatExp (e : str) : Prop := exists h a s, e = h ++ a :: s /\ In h [text "e+"; text "e-"] /\ In a (text "123456789") /\ Forall Digit s.
Lemma exponent_written p x : exists e, tidy (p ++ x65 :: (if x <? 0 then x2d else x2b) :: (if Z.abs x <? 10 then x30 :: show_int (Z.abs x) else show_int (Z.abs x))) = p ++ e /\
  Exponent e x /\ (x < 0 \/ 10 <= x -> NeatExp e).
Proof.
  destruct (Z.ltb_spec (Z.abs x) 10) as [H|H].
  - rewrite show_small by lia. destruct (Z.ltb_spec x 0) as [Hx|Hx].
    + exists [x65; x2d; digit (Z.abs x)]. split; [apply tidy_cut|]. pose proof (digit_lead (Z.abs x) ltac:(lia)) as Dl. split.
      * replace x with (- Z.abs x) at 2 by lia. apply (minus_exponent [x65] [digit (Z.abs x)]); [left; reflexivity| |apply digit_dec; lia].
        split; [discriminate|]. constructor; [|constructor]. apply lead_digit. auto.
      * intros _. exists (text "e-"), (digit (Z.abs x)), []. split; [reflexivity|]. split; [right; left; reflexivity|]. split; [auto|constructor].
    + exists [x65; x2b; x30; digit (Z.abs x)]. split; [apply tidy_plus|]. split; [|lia]. replace (Z.abs x) with x by lia.
      assert (D : Decimal [x30; digit x] x).
      { pose proof (decimal_app [x30] 0 [digit x] x (digit_dec 0 ltac:(lia)) (digit_dec x ltac:(lia))) as D. exact D. }
      apply (plus_exponent [x65] [x2b] [x30; digit x]); [left; reflexivity|right; left; reflexivity| |exact D].
      split; [discriminate|]. constructor; [left; reflexivity|]. constructor; [|constructor].
      pose proof (digit_of x ltac:(lia)) as Hd. apply nth_error_In in Hd. exact Hd.
  - destruct (show_int_head (Z.abs x) ltac:(lia)) as (c & s & E & Hc & Hs). destruct (show_int_ok (Z.abs x) ltac:(lia)) as (D & I).
    destruct (show_int_length (Z.abs x) ltac:(lia)) as (HL & _).
    assert (Hn : s <> []). { intros ->. rewrite E in HL. cbn [List.length] in HL. change (10 ^ Z.of_nat 1) with 10 in HL. lia. }
    rewrite E in *. assert (Dd : Digits (c :: s)) by (split; [discriminate|constructor; auto; apply lead_digit; auto]).
    exists (x65 :: (if x <? 0 then x2d else x2b) :: c :: s). split; [apply tidy_long; auto|]. split.
    + destruct (Z.ltb_spec x 0) as [Hx|Hx].
      * replace x with (- Z.abs x) by lia. apply (minus_exponent [x65] (c :: s)); auto. left. reflexivity.
      * replace (Z.abs x) with x in D by lia. apply (plus_exponent [x65] [x2b] (c :: s)); auto; [left; reflexivity|right; left; reflexivity].
    + intros _. destruct (x <? 0); [exists (text "e-"), c, s|exists (text "e+"), c, s]; (split; [reflexivity|]); (split; [|auto]); cbn; auto.
Qed.
Lemma fmt_e_ok d k : 1 <= d -> let x := Z.of_nat (List.length (show_int d)) + k - 1 in
  exists c f ds e, tidy (fmt_e d k) = [c] ++ f ++ e /\ In c (text "123456789") /\ written d k [c] f ds d /\ Exponent e x /\ x - Z.of_nat (List.length ds) = k /\ (x < 0 \/ 10 <= x -> NeatExp e).
Proof.
  intros Hd x. unfold fmt_e. fold x. destruct (show_int_ok d ltac:(lia)) as (D & I). destruct (show_int_head d Hd) as (c & s & E & Hc & Hs).
  destruct (show_int_last d Hd) as (p & Ep). assert (Ex : x = Z.of_nat (S (List.length s)) + k - 1) by (unfold x; rewrite E; reflexivity).
  clearbody x. rewrite E in *. cbn [firstn skipn].
  set (f := match s with [] => [] | b :: l => x2e :: b :: l end).
  destruct (exponent_written ([c] ++ f) x) as (e & Ee & He & Hne). rewrite <- !app_assoc in Ee.
  assert (W : written d k [c] f s d).
  { split; [apply int_other; auto; constructor|]. split; [|split; [|split; [exact D|]]]; unfold f; destruct s as [|a s].
    - left. reflexivity.
    - right. left. reflexivity.
    - constructor.
    - apply (frac_some (a :: s)). split; [discriminate|auto].
    - intros _. left. reflexivity.
    - intros Hm. destruct p as [|p0 p]; [discriminate Ep|]. injection Ep as -> Ep. apply (tail_of (a :: s) p d); auto. }
  exists c, f, s, e. split; [exact Ee|]. split; [exact Hc|]. split; [exact W|]. split; [exact He|]. split; [lia|exact Hne].
Qed.

(* ---- signs ---- *)
Local Open Scope Q_scope.
Lemma val_opp (z : F f64) : val (SFopp z) == - val z.
Proof. destruct z as [s|s| |s m e]; cbn [SFopp val]; try reflexivity. destruct s; cbn [negb signed]; ring. Qed.
Lemma fin_opp (z : F f64) : is_fin (SFopp z) = is_fin z.
Proof. destruct z; reflexivity. Qed.
Lemma even_opp (z : F f64) : even (SFopp z) = even z.
Proof. destruct z; reflexivity. Qed.
Lemma opp_opp (z : F f64) : SFopp (SFopp z) = z.
Proof. destruct z as [s|s| |s m e]; cbn; rewrite ?Bool.negb_involutive; reflexivity. Qed.
Lemma closest_opp (z : F f64) x : closest z x -> closest (SFopp z) (- x).
Proof.
  intros (Hz & C). split; [rewrite fin_opp; exact Hz|]. intros z' Hz'. destruct (C (SFopp z')) as (A & A'); [rewrite fin_opp; exact Hz'|].
  assert (E : forall a, Qabs (- val z - - a) == Qabs (val z - a)) by (intros a; setoid_replace (- val z - - a) with (- (val z - a)) by ring; apply Qabs_opp).
  rewrite val_opp in *. rewrite E, even_opp.
  assert (E' : Qabs (- val z' - x) == Qabs (val z' - - x)) by (setoid_replace (- val z' - x) with (- (val z' - - x)) by ring; apply Qabs_opp).
  rewrite E' in A, A'. split; auto. intros H. destruct (A' H) as [H'|H']; auto. left. lra.
Qed.
Definition flip (s : bool) (z : F f64) : F f64 := if s then SFopp z else z.
Lemma closest_flip s z q : closest z (signed s q) -> closest (flip s z) q.
Proof. destruct s; cbn [signed flip]; auto. intros H. apply closest_opp in H. eapply closest_eq; [|exact H]. ring. Qed.
Definition well_read s neg q : Prop :=
  (q < limit -> exists z, read_f64 s = Some z /\ closest z (signed neg q) /\ negative z = neg) /\ (limit <= q -> read_f64 s = None).
Theorem read_iff s neg q m e : well_read s neg q -> bounded prec64 emax64 m e = true ->
  read_f64 s = Some (S754_finite neg m e) <-> reads (S754_finite false m e) q.
Proof.
  intros (R1 & R2) B. split.
  - intros H. destruct (Qlt_le_dec q limit) as [Hl|Hl]; [|rewrite (R2 Hl) in H; discriminate]. split; auto. destruct (R1 Hl) as (z & E & C & N). rewrite E in H. injection H as ->.
    apply closest_flip in C. destruct neg; exact C.
  - intros (C & L). destruct (R1 L) as (z & E & C' & N). rewrite E. f_equal. apply closest_flip in C'.
    assert (P : 0 <= val (S754_finite false m e)) by (cbn [val signed]; pose proof (fin_pos m e); lra).
    assert (N' : negative (flip neg z) = false /\ 0 <= val (flip neg z)).
    { destruct C' as (F & _). destruct z as [t|t| |t m' e'], neg; cbn [negative flip SFopp negb val] in *; subst; try discriminate; cbn [negb signed]; split; try reflexivity; try lra; pose proof (fin_pos m' e'); lra. }
    destruct N' as (N1 & N2). pose proof (closest_unique _ _ q C' C N2 P) as V.
    assert (Ez : flip neg z = S754_finite false m e) by (apply val_unique; auto; exact (proj1 C')).
    destruct neg; cbn [flip] in Ez; [|exact Ez]. rewrite <- (opp_opp z), Ez. reflexivity.
Qed.

(* ---- the whole text ---- *)
Lemma no_ten m e : bounded prec64 emax64 m e = true -> (fst (shortest m e) mod 10 <> 0)%Z.
Proof.
  intros B Hm. destruct (shortest_ok m e B) as ((P & _) & R & F). set (d := fst (shortest m e)) in *. set (k := snd (shortest m e)) in *.
  assert (Ed : d = (10 * (d / 10))%Z) by (pose proof (Z.div_mod d 10); lia). destruct (show_int_length d P) as (HL & HL1). set (L := Z.of_nat (List.length (show_int d))) in *.
  destruct (F (d / 10)%Z (k + 1)%Z (L - 1)%Z) as (F1 & _).
  - lia.
  - split; [lia|]. replace L with (1 + (L - 1))%Z in HL at 2 by lia. rewrite Z.pow_add_r in HL by lia. lia.
  - eapply reads_eq; [|exact R]. rewrite Ed at 1. rewrite inject_Z_mult, p10_plus. change (p10 1) with 10. change (inject_Z 10) with 10. ring.
  - lia.
Qed.
Lemma stands_written (s : bool) d k i f ds e x M : written d k i f ds M -> Exponent e x -> (Z.abs x < 100000)%Z ->
  Modest ((if s then [x2d] else []) ++ i ++ f ++ e) s (inject_Z M * Qpower 10 (x - Z.of_nat (List.length ds))).
Proof.
  intros (W1 & W2 & W3 & W4 & _) He Hc. eapply modest_parts; eauto. destruct s; cbn; auto.
Qed.
Lemma fin_compare (x y : F f64) : is_fin x = true -> is_fin y = true -> SFleb x y = true <-> val x <= val y.
Proof.
  intros Hx Hy. pose proof (compare_fin x y Hx Hy) as C1. pose proof (compare_fin y x Hy Hx) as C2. unfold SFleb. unfold SFltb in *.
  assert (S : SFcompare y x = match SFcompare x y with Some c => Some (CompOpp c) | None => None end).
  { destruct x as [s|s| |s m e], y as [t|t| |t n f]; try discriminate; cbn [SFcompare]; try (destruct s; reflexivity); try (destruct t; reflexivity).
    assert (HP : Pos.compare_cont Eq n m = CompOpp (Pos.compare_cont Eq m n)) by exact (Pos.compare_antisym m n).
    destruct s, t; try reflexivity; rewrite (Z.compare_antisym e f); destruct (e ?= f)%Z; cbn [CompOpp]; rewrite ?HP, ?CompOpp_involutive; reflexivity. }
  assert (Hc : SFcompare x y <> None) by (destruct x, y; try discriminate; cbn; repeat match goal with |- context [match ?b with _ => _ end] => destruct b end; discriminate).
  rewrite S in C2. destruct (SFcompare x y) as [[| |]|]; cbn in *; [| | |congruence].
  - destruct C1 as (_ & C1), C2 as (_ & C2). split; auto. intros _. apply Qnot_lt_le. intros H. specialize (C2 H). discriminate.
  - split; auto. intros _. apply Qlt_le_weak. apply C1. reflexivity.
  - split; [discriminate|]. intros H. exfalso. apply Qle_not_lt in H. apply H. apply C2. reflexivity.
Qed.
Lemma no_skip (z w : F f64) y : reads z y -> is_fin w = true -> (val z < val w /\ val w <= y) \/ (y <= val w /\ val w < val z) -> False.
Proof.
  intros H Hw Hc. assert (R : reads z (val w)) by (eapply reads_between; [|exact H]; destruct Hc as [(A & B)|(A & B)]; [right|left]; split; lra).
  destruct R as ((_ & C) & _). destruct (C w Hw) as (A & _). setoid_replace (val w - val w) with 0 in A by ring. change (Qabs 0) with 0 in A.
  revert A. destruct Hc; apply Qabs_case; lra.
Qed.
Lemma p10_lt_inv a b : p10 a < p10 b -> (a < b)%Z.
Proof. intros H. apply Z.nle_gt. intros Hc. apply p10_le in Hc. lra. Qed.
Definition micro : F f64 := round_decimal false 1 (-6).
Definition large : F f64 := round_decimal false 1 21.
Lemma micro_fin : is_fin micro = true /\ val micro < 1.
Proof. split; vm_compute; reflexivity. Qed.
Lemma large_fin : is_fin large = true /\ val large == p10 21.
Proof. split; vm_compute; reflexivity. Qed.
Definition one_f : F f64 := round_decimal false 1 0.
Definition ten10 : F f64 := round_decimal false 1 10.
Lemma one_fin : is_fin one_f = true /\ val one_f == 1.
Proof. split; vm_compute; reflexivity. Qed.
Lemma ten10_fin : is_fin ten10 = true /\ val ten10 == p10 10.
Proof. split; vm_compute; reflexivity. Qed.
Theorem show_ok s m e : bounded prec64 emax64 m e = true -> let a : F f64 := S754_finite false m e in
  exists q b, Modest (show_f64 (S754_finite s m e)) s q /\ q == inject_Z (fst (shortest m e)) * p10 (snd (shortest m e)) /\
    Neat b (show_f64 (S754_finite s m e)) /\ (b = true <-> val a < val micro \/ p10 21 <= val a).
Proof.
  intros B a. destruct (shortest_ok m e B) as ((P & _) & R & _). pose proof (no_ten m e B) as Hm. cbn [show_f64].
  fold micro large. fold a in R |- *. destruct (shortest m e) as [d k]. cbn [fst snd] in *. assert (Ha : is_fin a = true) by exact B.
  destruct micro_fin as (Lf & L1). destruct large_fin as (Tf & T1).
  assert (Hb : (SFltb a micro || SFleb large a)%bool = true <-> val a < val micro \/ p10 21 <= val a).
  { rewrite Bool.orb_true_iff, (compare_fin a micro Ha Lf), (fin_compare large a Tf Ha), T1. reflexivity. }
  assert (Hg : In (if s then [x2d] else []) [[]; text "-"]) by (destruct s; cbn; auto).
  destruct (show_int_length d P) as (HL & HL1). set (L := Z.of_nat (List.length (show_int d))) in *.
  assert (Y : p10 (L + k - 1) <= inject_Z d * p10 k /\ inject_Z d * p10 k < p10 (L + k)).
  { pose proof (p10_pos k) as Pk. replace (L + k - 1)%Z with (L - 1 + k)%Z by lia. rewrite !p10_plus, (p10_Z (L - 1)), (p10_Z L) by lia. split.
    - apply Qmult_le_r; auto. apply inj_le. lia.
    - apply Qmult_lt_r; auto. apply inj_lt. lia. }
  assert (Hcut : (Z.abs (L + k - 1) < 100000)%Z).
  { destruct R as (Rc & Rl). assert (L + k - 1 < 309)%Z. { apply p10_lt_inv. pose proof limit_p10. lra. }
    assert (-1000 < L + k)%Z; [|lia]. apply Znot_ge_lt. intros Hk. assert (Hq : inject_Z d * p10 k <= p10 (-999)).
    { apply Qle_trans with (p10 (L + k)); [lra|]. apply p10_le. lia. }
    destruct (fin_multiple a Ha) as (j & Ej). destruct Rc as (_ & Rc). destruct (Rc (S754_zero false) eq_refl) as (C & _). cbn [val] in C.
    assert (Hp : 0 <= inject_Z d * p10 k) by (pose proof (p10_pos (L + k - 1)); lra). assert (Va : 0 < val a) by (unfold a; cbn [val signed]; apply fin_pos).
    assert (C2 : Qabs (val a) <= 2 * (inject_Z d * p10 k)).
    { revert C. apply Qabs_case; apply Qabs_case; apply Qabs_case; intros; lra. }
    rewrite Ej in C2. rewrite Ej, (multiple_tiny j _ C2 Hq) in Va. change (inject_Z 0) with 0 in Va. lra. }
  destruct ((SFltb a micro || SFleb large a)%bool).
  - destruct (fmt_e_ok d k P) as (c & f & ds & ex & E & Hc & W & He & Hx & Hn). fold L in He, Hx, Hn. rewrite E.
    exists (inject_Z d * Qpower 10 (L + k - 1 - Z.of_nat (List.length ds))), true. split; [eapply stands_written; eauto|]. split; [rewrite Hx; reflexivity|]. split; [|exact Hb].
    assert (Hr : (L + k - 1 < 0 \/ 10 <= L + k - 1)%Z).
    { destruct (proj1 Hb eq_refl) as [Hl|Hl].
      - left. apply p10_lt_inv. change (p10 0) with 1. destruct one_fin as (O1 & O2). destruct (Qlt_le_dec (inject_Z d * p10 k) 1); [lra|]. exfalso.
        apply (no_skip a one_f _ R O1). left. rewrite O2. split; lra.
      - right. assert (10 < L + k)%Z; [|lia]. apply p10_lt_inv. destruct ten10_fin as (O1 & O2). destruct (Qlt_le_dec (inject_Z d * p10 k) (p10 10)) as [Hc'|Hc']; [|lra]. exfalso.
        apply (no_skip a ten10 _ R O1). right. rewrite O2. assert (p10 10 < p10 21) by reflexivity. split; lra. }
    destruct (Hn Hr) as (h & x & t & -> & N1 & N2 & N3). destruct W as (_ & _ & _ & _ & W). apply neat_exponent; auto.
  - destruct (fmt_f_ok d k P) as (i & f & ds & M & E & W & EM). rewrite E. exists (inject_Z M * Qpower 10 (0 - Z.of_nat (List.length ds))), false.
    split; [|split; [exact EM|split; [|exact Hb]]].
    + replace (i ++ f) with (i ++ f ++ []) by (rewrite app_nil_r; reflexivity). eapply stands_written; [exact W|constructor|reflexivity].
    + destruct W as (W1 & _ & _ & _ & W). apply neat_plain; auto.
Qed.

(* ---- what is claimed ---- *)
Theorem show_reads (z : F f64) : is_fin z = true -> Number (show_f64 z) /\ read_f64 (show_f64 z) = Some z.
Proof.
  destruct z as [s|s| |s m e]; try discriminate; intros H.
  - assert (S : Modest (show_f64 (S754_zero s)) s (inject_Z 0 * Qpower 10 (0 - Z.of_nat (List.length (@nil byte))))).
    { cbn [show_f64]. replace ((if s then [x2d] else []) ++ [x30]) with ((if s then [x2d] else []) ++ [x30] ++ [] ++ []) by (rewrite !app_nil_r; reflexivity).
      eapply modest_parts with (m := 0%Z); eauto using frac_none, no_exponent.
      - destruct s; cbn; auto.
      - apply int_zero.
      - left. reflexivity.
      - apply (digit_dec 0). lia.
      - reflexivity. }
    split; [exact (stands_number _ _ _ (modest_stands _ _ _ S))|]. apply (float_exact _ s _ (S754_zero s) S); auto. cbn [val]. destruct s; reflexivity.
  - destruct (show_ok s m e H) as (q & b & S & Eq & _). split; [exact (stands_number _ _ _ (modest_stands _ _ _ S))|]. apply (read_iff _ s q m e (modest_read _ _ _ S) H).
    destruct (shortest_ok m e H) as (_ & R & _). eapply reads_eq; [|exact R]. symmetry. exact Eq.
Qed.
Theorem show_shortest (z : F f64) : is_fin z = true -> exists d k q, (0 <= d < 10 ^ 17)%Z /\ Stands (show_f64 z) (negative z) q /\ q == inject_Z d * Qpower 10 k /\
  forall s neg q' c i n, Stands s neg q' -> (Z.of_nat (List.length s) <= 9000)%Z -> q' == inject_Z c * Qpower 10 i -> (0 <= n)%Z -> (0 <= c < 10 ^ n)%Z -> read_f64 s = Some z ->
    (d < 10 ^ n)%Z /\ ((10 ^ (n - 1) <= d)%Z -> Qabs (q - Qabs (val z)) <= Qabs (q' - Qabs (val z)) /\
      (Qabs (q' - Qabs (val z)) <= Qabs (q - Qabs (val z)) -> q' == q \/ Z.even d = true)).
Proof.
  destruct z as [s|s| |s m e]; try discriminate; intros H.
  - exists 0%Z, 0%Z, 0. split; [lia|]. split; [|split; [reflexivity|]].
    + destruct (show_reads (S754_zero s) eq_refl) as (N & E). destruct (number_stands _ N) as (neg & q & S). cbn [negative].
      cbn [show_f64]. change 0 with (inject_Z 0 * Qpower 10 (0 - Z.of_nat (List.length (@nil byte)))).
      replace ((if s then [x2d] else []) ++ [x30]) with ((if s then [x2d] else []) ++ [x30] ++ [] ++ []) by (rewrite !app_nil_r; reflexivity).
      eapply stands_for with (m := 0%Z); eauto using frac_none, no_exponent.
      * destruct s; cbn; auto.
      * apply int_zero.
      * left. reflexivity.
      * apply (digit_dec 0). lia.
    + intros t neg q' c i n _ _ _ Hn _ _. split; [apply Z.pow_pos_nonneg; lia|]. intros _. split; [apply Qabs_nonneg|]. auto.
  - destruct (show_ok s m e H) as (q & b & S & Eq & _). destruct (shortest_ok m e H) as ((P1 & P2) & R & F).
    exists (fst (shortest m e)), (snd (shortest m e)), q. split; [lia|]. split; [exact (modest_stands _ _ _ S)|]. split; [exact Eq|].
    intros t neg q' c i n St Hlen Eq' Hn Hc Hr.
    assert (neg = s). { destruct (float_read t neg q' St Hlen) as (R1 & R2). destruct (Qlt_le_dec q' limit) as [Hl|Hl]; [|rewrite (R2 Hl) in Hr; discriminate].
      destruct (R1 Hl) as (z' & E & _ & N). rewrite E in Hr. injection Hr as ->. cbn [negative] in N. congruence. }
    subst neg. apply (read_iff t s q' m e (float_read _ _ _ St Hlen) H) in Hr. destruct (F c i n Hn Hc) as (F1 & F2); [eapply reads_eq; [|exact Hr]; exact Eq'|].
    split; [exact F1|]. intros Hl. specialize (F2 Hl). assert (Ev : Qabs (val (S754_finite s m e)) == val (S754_finite false m e)).
    { cbn [val]. rewrite signed_Qabs by apply fin_nonneg. reflexivity. }
    destruct F2 as (F2 & F3). split; [rewrite Ev, Eq, Eq'; exact F2|]. rewrite Ev. intros Ht. rewrite Eq, Eq' in *. exact (F3 Ht).
Qed.
Theorem show_neat (z : F f64) : is_fin z = true -> exists b, Neat b (show_f64 z) /\
  forall lo, closest lo (1 # 1000000) -> (b = true <-> ~ val z == 0 /\ (Qabs (val z) < val lo \/ inject_Z (10 ^ 21) <= Qabs (val z))).
Proof.
  destruct z as [s|s| |s m e]; try discriminate; intros H.
  - exists false. split.
    + cbn [show_f64]. change [x30] with ([x30] ++ []). apply (neat_plain (if s then [x2d] else []) [x30] []); [destruct s; cbn; auto|apply int_zero|left; reflexivity].
    + intros lo _. split; [discriminate|]. intros (C & _). exfalso. apply C. reflexivity.
  - destruct (show_ok s m e H) as (q & b & _ & _ & N & Hb). exists b. split; auto. intros lo Hlo.
    assert (Ev : Qabs (val (S754_finite s m e)) == val (S754_finite false m e)).
    { cbn [val]. rewrite signed_Qabs by apply fin_nonneg. reflexivity. }
    assert (Elo : val lo == val micro).
    { assert (C : closest micro (1 # 1000000)). { destruct (round_decimal_ok false 1 (-6) ltac:(lia)) as (R & _). apply nearest_closest. apply R. vm_compute. reflexivity. }
      destruct Hlo as (Hf & Hc). apply (closest_unique lo micro (1 # 1000000)); [split; auto|exact C| |vm_compute; discriminate].
      destruct (Qlt_le_dec (val lo) 0) as [Hn|Hn]; auto. exfalso. destruct (Hc (S754_zero false) eq_refl) as (A & _). cbn [val] in A. rewrite Qabs_neg in A by lra.
      change (Qabs (0 - (1 # 1000000))) with (1 # 1000000) in A. lra. }
    rewrite Hb, Ev, Elo. rewrite <- (p10_Z 21) by lia. split; [|tauto]. intros Hc. split; auto. intros E. pose proof (fin_pos m e) as Pp.
    assert (E' : Qabs (val (S754_finite s m e)) == 0) by (rewrite E; reflexivity). rewrite Ev in E'. cbn [val signed] in E'. lra.
Qed.
Theorem show_injective (x y : F f64) : is_fin x = true -> is_fin y = true -> show_f64 x = show_f64 y -> x = y.
Proof. intros Hx Hy E. destruct (show_reads x Hx) as (_ & E1). destruct (show_reads y Hy) as (_ & E2). rewrite E in E1. congruence. Qed.
