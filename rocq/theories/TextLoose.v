(* Exactly the base64 and the times that are accepted. *)
From Verif Require Import Base Env Server Routes JsonSpec JsonText TextSpec TextParse TextUtf8 TextBytes TextTime.
From Coq.Init Require Import Byte.
From Coq Require Import Strings.Byte Strings.String.
Local Open Scope list_scope.

(* ---- base64 ---- *)
Lemma val_letter c v : b64_val c = Some v -> Letter c v.
Proof.
  intros H. assert (A : (match b64_val c with Some v => match nth_error (text "ABCDEFGHIJKLMNOPQRSTUVWXYZabcdefghijklmnopqrstuvwxyz0123456789+/") (Z.to_nat v) with Some d => Byte.eqb d c | None => false end && (0 <=? v)%Z | None => true end) = true)
    by (destruct c; vm_compute; reflexivity).
  rewrite H in A. apply andb_prop in A. destruct A as (A & B). apply Z.leb_le in B. split; auto.
  destruct (nth_error _ _) as [d|]; [|discriminate A]. apply beq_eq in A. congruence.
Qed.
Lemma bn_small x : (0 <= x < 256)%Z -> num (nb x) = x.
Proof. intros H. rewrite num_bn. apply bn_nb. exact H. Qed.
Theorem quads_iff : forall s l, b64_quads s = Some l <-> Base64Loose l s.
Proof.
  intros s l. split.
  - revert l. induction s as [s IH] using (induction_ltof1 _ (@List.length byte)). unfold ltof in IH. intros l.
    destruct s as [|a [|b [|c [|d r]]]]; cbn [b64_quads]; try discriminate; [intros H; injection H as <-; constructor|].
    destruct (b64_val a) as [x|] eqn:Ea; [|discriminate]. destruct (b64_val b) as [y|] eqn:Eb; [|discriminate].
    pose proof (letter_bound _ _ (val_letter _ _ Ea)) as Ba. pose proof (letter_bound _ _ (val_letter _ _ Eb)) as Bb.
    destruct (Byte.eqb c pad) eqn:Ec.
    + destruct r; [|discriminate]. destruct (Byte.eqb d pad) eqn:Ed; [|discriminate]. intros H. injection H as <-. apply beq_eq in Ec, Ed. subst c d.
      apply (b64l_one _ a b x y (y mod 16)); auto using val_letter; [div_lia|]. rewrite bn_small by div_lia. div_lia.
    + destruct (b64_val c) as [z|] eqn:Ez; [|discriminate]. pose proof (letter_bound _ _ (val_letter _ _ Ez)) as Bz. destruct (Byte.eqb d pad) eqn:Ed.
      * destruct r; [|discriminate]. intros H. injection H as <-. apply beq_eq in Ed. subst d.
        apply (b64l_two _ _ a b c x y z (z mod 4)); auto using val_letter; [div_lia|]. rewrite !bn_small by div_lia. div_lia.
      * destruct (b64_val d) as [w|] eqn:Ew; [|discriminate]. pose proof (letter_bound _ _ (val_letter _ _ Ew)) as Bw.
        destruct (b64_quads r) as [l'|] eqn:Er; [|discriminate]. intros H. cbn [app] in H. injection H as <-.
        apply (b64l_three _ _ _ a b c d x y z w); auto using val_letter; [rewrite !bn_small by div_lia; div_lia|]. apply IH; auto. cbn. lia.
  - induction 1 as [|a cx cy x y i Lx Ly Bi E|a b cx cy cz x y z i Lx Ly Lz Bi E|a b c cx cy cz cw x y z w l s Lx Ly Lz Lw E H IH]; [reflexivity|..];
    rewrite !num_bn in E; cbn [b64_quads];
    try change (text "==") with [x3d; x3d]; try change (text "=") with [x3d]; cbv iota.
    + destruct (letter_read cx x Lx) as (-> & _ & _ & Bx). destruct (letter_read cy y Ly) as (-> & _ & _ & By).
      change (Byte.eqb x3d pad) with true. cbn. pose proof (bn_bound a). do 2 f_equal. apply nb_is. div_lia.
    + destruct (letter_read cx x Lx) as (-> & _ & _ & Bx). destruct (letter_read cy y Ly) as (-> & _ & _ & By).
      destruct (letter_read cz z Lz) as (-> & -> & _ & Bz).
      change (Byte.eqb x3d pad) with true. cbv iota. pose proof (bn_bound a). pose proof (bn_bound b).
      do 2 f_equal; [apply nb_is; div_lia|f_equal; apply nb_is; div_lia].
    + destruct (letter_read cx x Lx) as (-> & _ & _ & Bx). destruct (letter_read cy y Ly) as (-> & _ & _ & By).
      destruct (letter_read cz z Lz) as (-> & -> & _ & Bz). destruct (letter_read cw w Lw) as (-> & -> & _ & Bw). rewrite IH.
      pose proof (bn_bound a). pose proof (bn_bound b). pose proof (bn_bound c).
      cbn [app]. do 2 f_equal; [apply nb_is; div_lia|]. f_equal; [apply nb_is; div_lia|]. f_equal. apply nb_is. div_lia.
Qed.
Theorem bytes_iff s l : b64_decode s = Some l <-> Base64Loose l (filter (fun c => negb (one_of [x0d; x0a] c)) s).
Proof. apply quads_iff. Qed.

(* ---- times ---- *)
Lemma decimal_of s : forallb is_digit s = true -> Decimal s (digits_value s).
Proof.
  induction s as [|c s IH] using rev_ind; [constructor|]. intros H. rewrite forallb_app in H. cbn in H. apply andb_prop in H.
  destruct H as (Hs & Hc). rewrite andb_true_r in Hc.
  rewrite digits_snoc. assert (B : (0 <= bn c - 48 < 10)%Z) by (apply between_iff in Hc; lia).
  replace (bn c - 48)%Z with (Z.of_nat (Z.to_nat (bn c - 48))) by lia. apply dec_snoc; auto. rewrite digit_of by auto. f_equal.
  unfold digit. apply bn_inj. rewrite bn_nb; lia.
Qed.
Lemma dec_of s n : forallb is_digit s = true -> digits_value s = n -> Dec (List.length s) s n.
Proof. intros H <-. split; auto. apply decimal_of; auto. Qed.
Lemma num2_inv fx s n r : num2 fx s = Some (n, r) -> exists p, s = p ++ r /\ (Dec 2 p n \/ fx = false /\ Dec 1 p n).
Proof.
  destruct s as [|a s]; [discriminate|]. cbn [num2]. destruct (is_digit a) eqn:Ha; [|discriminate].
  assert (H1 : Dec 1 [a] (digits_value [a])) by (apply (dec_of [a]); cbn; rewrite ?Ha; auto).
  destruct s as [|b s]; [destruct fx; [discriminate|]; intros H; injection H as <- <-; exists [a]; auto|].
  destruct (is_digit b) eqn:Hb.
  - intros H. injection H as <- <-. exists [a; b]. split; auto. left. apply (dec_of [a; b]); cbn; rewrite ?Ha, ?Hb; auto.
  - destruct fx; [discriminate|]. intros H. injection H as <- <-. exists [a]. auto.
Qed.
Lemma num2_fixed s n r : num2 true s = Some (n, r) -> exists p, s = p ++ r /\ Dec 2 p n.
Proof. intros H. destruct (num2_inv true s n r H) as (p & E & [D|(C & _)]); [eauto|discriminate C]. Qed.
Lemma atoi4_inv s n r : atoi4 s = Some (n, r) -> exists p, s = p ++ r /\ Dec 4 p n.
Proof.
  destruct s as [|a [|b [|c [|d s]]]]; try discriminate. cbn [atoi4]. destruct (is_digit a && is_digit b && is_digit c && is_digit d) eqn:E; [|discriminate].
  intros H. injection H as <- <-. exists [a; b; c; d]. split; auto. apply (dec_of [a; b; c; d]); auto. cbn. rewrite !andb_assoc, andb_true_r. exact E.
Qed.
Lemma dec1_read s n : Dec 1 s n -> exists a, s = [a] /\ is_digit a = true /\ digits_value [a] = n /\ (0 <= n < 10)%Z.
Proof.
  intros (L & D). pose proof (decimal_bound s n D) as B. rewrite L in B. apply decimal_read in D. destruct D as (D1 & D2 & D3).
  destruct s as [|a [|? ?]]; try discriminate L. exists a. inversion D1 as [|? ? Da D1']; subst. repeat split; auto.
Qed.
Lemma atoi2_iff a b n : atoi2 a b = Some n <-> OffsetPart [a; b] n.
Proof.
  unfold atoi2. split.
  - destruct (is_digit a && is_digit b) eqn:E.
    + intros H. injection H as <-. apply two_digits. apply (dec_of [a; b]); auto. cbn. rewrite andb_assoc, andb_true_r. exact E.
    + destruct (is_digit b) eqn:Hb; [|discriminate]. assert (H1 : Dec 1 [b] (digits_value [b])) by (apply (dec_of [b]); cbn; rewrite ?Hb; auto).
      destruct (Byte.eqb a x2b) eqn:Ea; [intros H; injection H as <-; apply beq_eq in Ea; subst a; apply (plus_digit [b]); auto|].
      destruct (Byte.eqb a x2d) eqn:Ea'; [|discriminate]. intros H. injection H as <-. apply beq_eq in Ea'. subst a. apply (minus_digit [b]). auto.
  - intros H. remember [a; b] as l eqn:Es in H. destruct H as [s m D|s m D|s m D].
    + destruct (dec2_read _ _ D) as (a' & b' & E & Ha & Hb & Hv & _). rewrite Es in E. injection E as <- <-. rewrite Ha, Hb, Hv. reflexivity.
    + destruct (dec1_read _ _ D) as (b' & -> & Hb & Hv & _). cbn in Es. injection Es as <- <-. rewrite Hb, Hv. reflexivity.
    + destruct (dec1_read _ _ D) as (b' & -> & Hb & Hv & _). cbn in Es. injection Es as <- <-. rewrite Hb, Hv. reflexivity.
Qed.
Lemma part_two s n : OffsetPart s n -> exists a b, s = [a; b].
Proof.
  intros [s' n' D|s' n' D|s' n' D]; [destruct (dec2_read _ _ D) as (a & b & -> & _); eauto|..]; destruct (dec1_read _ _ D) as (b & -> & _); cbn; eauto.
Qed.
Lemma zone_iff s off : zone s = Some off <-> OffsetLoose s off.
Proof.
  split.
  - destruct s as [|c [|h1 [|h2 [|col [|m1 [|m2 [|]]]]]]]; try discriminate; cbn [zone].
    + destruct (Byte.eqb c x5a) eqn:E; [|discriminate]. intros H. injection H as <-. apply beq_eq in E. subst c. apply offl_utc.
    + destruct (Byte.eqb col x3a) eqn:E; [|discriminate]. apply beq_eq in E. subst col.
      destruct (atoi2 h1 h2) as [h|] eqn:Eh; [|discriminate]. destruct (atoi2 m1 m2) as [m|] eqn:Em; [|discriminate]. apply atoi2_iff in Eh, Em.
      destruct (Byte.eqb c x2b) eqn:Ec; [intros H; injection H as <-; apply beq_eq in Ec; subst c; apply (offl_east [h1; h2] [m1; m2]); auto|].
      destruct (Byte.eqb c x2d) eqn:Ec'; [|discriminate]. intros H. injection H as <-. apply beq_eq in Ec'. subst c. apply (offl_west [h1; h2] [m1; m2]); auto.
  - intros H. destruct H as [|hs ms h m H1 H2|hs ms h m H1 H2]; [reflexivity|..];
      destruct (part_two _ _ H1) as (a & b & ->); destruct (part_two _ _ H2) as (c & d & ->); apply atoi2_iff in H1, H2; cbn; rewrite H1, H2; reflexivity.
Qed.
Lemma loose_head s off : OffsetLoose s off -> exists c r, s = c :: r /\ is_digit c = false /\ c <> x2e.
Proof. intros H. destruct H; cbn; eexists; eexists; (split; [reflexivity|split; [reflexivity|discriminate]]). Qed.
Lemma forall_digits s : Forall (fun c => is_digit c = true) s -> forallb is_digit s = true.
Proof. intros H. apply forallb_forall. rewrite Forall_forall in H. exact H. Qed.
Lemma fraction_inv s ns r : fraction s = Some (ns, r) -> exists f, s = f ++ r /\ FractionLoose f ns.
Proof.
  unfold fraction. assert (H0 : Some (0%Z, s) = Some (ns, r) -> exists f, s = f ++ r /\ FractionLoose f ns).
  { intros H. injection H as <- <-. exists []. split; auto. constructor. }
  destruct s as [|c [|d s]]; auto. destruct (Byte.eqb c x2e && is_digit d) eqn:E; auto. apply andb_prop in E. destruct E as (Ec & Ed). apply beq_eq in Ec. subst c.
  pose proof (span_spec is_digit (d :: s)) as Hs. destruct (span is_digit (d :: s)) as [ds r1] eqn:Es. destruct Hs as (E1 & E2 & _).
  unfold nanos. destruct (Z.leb_spec 1000000000 (digits_value ds)) as [|Hl]; [discriminate|]. cbn [option_map]. intros H. injection H as <- <-.
  exists (x2e :: ds). split; [cbn [app]; congruence|]. apply (al_fraction ds); [|apply decimal_of, forall_digits; auto|lia].
  intros ->. cbn [span] in Es. rewrite Ed in Es. destruct (span is_digit s). discriminate Es.
Qed.
Lemma fraction_loose f ns z off : FractionLoose f ns -> OffsetLoose z off -> fraction (f ++ z) = Some (ns, z).
Proof.
  intros Hf Hz. destruct (loose_head z off Hz) as (c & r & -> & Hc & Hd). destruct Hf as [|s v Hn D Hv].
  - cbn [app]. unfold fraction. destruct r; auto. rewrite (beq_neq c x2e) by auto. reflexivity.
  - change (text "." ++ s) with (x2e :: s). destruct s as [|d s]; [congruence|]. cbn [app].
    apply decimal_read in D. destruct D as (D1 & D2 & D3).
    unfold fraction. rewrite beq_refl. inversion D1 as [|? ? Dd _]; subst. rewrite Dd. cbn [andb].
    change (d :: s ++ c :: r) with ((d :: s) ++ c :: r). rewrite span_app by auto. unfold nanos. set (l := d :: s) in *.
    destruct (Z.leb_spec 1000000000 (digits_value l)); [lia|]. reflexivity.
Qed.
Lemma num2_one s n r : Dec 1 s n -> num2 false (s ++ [x3a] ++ r) = Some (n, [x3a] ++ r).
Proof. intros H. destruct (dec1_read s n H) as (a & -> & Ha & Hv & _). cbn [app num2]. rewrite Ha, Hv. reflexivity. Qed.
Lemma in_range_inv lo hi x : in_range lo hi x = true -> (lo <= x < hi)%Z.
Proof. unfold in_range. rewrite andb_true_iff, Z.leb_le, Z.ltb_lt. lia. Qed.
Theorem time_iff s t : parse_time s = Some t <-> TimeLoose s t.
Proof.
  split.
  - unfold parse_time.
    destruct (atoi4 s) as [(y, r1)|] eqn:E1; [|discriminate]. apply atoi4_inv in E1. destruct E1 as (ys & -> & Hy).
    destruct (after [x2d] r1) as [r2|] eqn:E2; [|discriminate]. apply after_spec in E2. subst r1.
    destruct (num2 true r2) as [(m, r3)|] eqn:E3; [|discriminate]. apply num2_fixed in E3. destruct E3 as (ms & -> & Hm).
    destruct (after [x2d] r3) as [r4|] eqn:E4; [|discriminate]. apply after_spec in E4. subst r3.
    destruct (num2 true r4) as [(d, r5)|] eqn:E5; [|discriminate]. apply num2_fixed in E5. destruct E5 as (ds & -> & Hd).
    destruct (after [x54] r5) as [r6|] eqn:E6; [|discriminate]. apply after_spec in E6. subst r5.
    destruct (num2 false r6) as [(h, r7)|] eqn:E7; [|discriminate]. apply num2_inv in E7. destruct E7 as (hs & -> & Hh).
    destruct (after [x3a] r7) as [r8|] eqn:E8; [|discriminate]. apply after_spec in E8. subst r7.
    destruct (num2 true r8) as [(mi, r9)|] eqn:E9; [|discriminate]. apply num2_fixed in E9. destruct E9 as (mis & -> & Hmi).
    destruct (after [x3a] r9) as [r10|] eqn:E10; [|discriminate]. apply after_spec in E10. subst r9.
    destruct (num2 true r10) as [(sec, r11)|] eqn:E11; [|discriminate]. apply num2_fixed in E11. destruct E11 as (ss & -> & Hs).
    destruct (fraction r11) as [(ns, r12)|] eqn:E12; [|discriminate]. apply fraction_inv in E12. destruct E12 as (fs & -> & Hf).
    destruct (zone r12) as [off|] eqn:E13; [|discriminate]. apply zone_iff in E13.
    destruct (in_range 1 13 m && _ && _ && _ && _) eqn:R; [|discriminate]. intros H. injection H as <-.
    rewrite !andb_true_iff in R. destruct R as ((((R1 & R2) & R3) & R4) & R5). apply in_range_inv in R1, R2, R3, R4, R5.
    replace (instant (days_to y m d) h mi sec ns off) with (((((day_number y m d - days 1970) * 24 + h) * 60 + mi - off) * 60 + sec) * 1000000000 + ns)%Z
      by (unfold instant; rewrite day_number_ok, day_1970_ok by lia; lia).
    apply time_loose; auto; try lia; [tauto|]. rewrite <- days_in_ok by lia. lia.
  - intros H. destruct H as [ys ms ds hs mis ss fs zs y m d h mi s ns off Hy Hm Hd Hh Hmi Hs Hf Hz Bm Bd Bh Bmi Bs].
    unfold parse_time. rewrite (atoi4_dec ys y) by auto. change (text "-") with [x2d]. change (text "T") with [x54]. change (text ":") with [x3a].
    rewrite !after_app. rewrite (num2_dec true ms m) by auto. rewrite !after_app. rewrite (num2_dec true ds d) by auto. rewrite !after_app.
    assert (Eh : forall r, num2 false (hs ++ [x3a] ++ r) = Some (h, [x3a] ++ r)) by (intros r; destruct Hh; [apply num2_dec|apply num2_one]; auto).
    rewrite Eh. rewrite !after_app. rewrite (num2_dec true mis mi) by auto. rewrite !after_app.
    rewrite (num2_dec true ss s) by auto. rewrite (fraction_loose fs ns zs off) by auto. rewrite (proj2 (zone_iff zs off)) by auto.
    assert (Bh' : (0 <= h)%Z) by (destruct Hh as [Hh|Hh]; [destruct (dec2_read _ _ Hh) as (? & ? & ?)|destruct (dec1_read _ _ Hh) as (? & ?)]; lia).
    apply dec2_read in Hmi, Hs. destruct Hmi as (? & ? & _ & _ & _ & _ & Bmi'). destruct Hs as (? & ? & _ & _ & _ & _ & Bs').
    rewrite <- days_in_ok in Bd by auto. rewrite !in_range_true by lia. cbn [andb]. f_equal. unfold instant.
    rewrite day_number_ok, day_1970_ok by auto. lia.
Qed.
