(* Strings that are read are UTF-8; well-formed ones mean what RFC 8259 says. *)
From Verif Require Import Base Env Server ServerFacts Routes JsonSpec JsonText TextSpec TextParse.
From Coq.Init Require Import Byte.
From Coq Require Import Strings.Byte Strings.String.
Local Open Scope string_scope.
Local Open Scope list_scope.
Local Open Scope nat_scope.

Ltac div_lia := Z.div_mod_to_equations; lia.

Lemma utf8_encodes n : (0 <= n < 1114112)%Z -> encodes n (utf8 n).
Proof.
  intros H. unfold utf8. destruct (Z.ltb_spec n 128); [apply enc1; auto|].
  destruct (Z.ltb_spec n 2048).
  { apply (enc2 n (n / 64) (n mod 64)); div_lia. }
  destruct (Z.ltb_spec n 65536).
  { apply (enc3 n (n / 4096) ((n / 64) mod 64) (n mod 64)); div_lia. }
  apply (enc4 n (n / 262144) ((n / 4096) mod 64) ((n / 64) mod 64) (n mod 64)); div_lia.
Qed.

Lemma one_byte a : bytes_of [bn a] = [a].
Proof. change (bytes_of [bn a]) with [nb (bn a)]. rewrite nb_bn. reflexivity. Qed.
Lemma two_bytes x y a b : x = bn a -> y = bn b -> bytes_of [x; y] = [a; b].
Proof. intros -> ->. change (bytes_of [bn a; bn b]) with [nb (bn a); nb (bn b)]. rewrite !nb_bn. reflexivity. Qed.
Lemma three_bytes x y z a b c : x = bn a -> y = bn b -> z = bn c -> bytes_of [x; y; z] = [a; b; c].
Proof. intros -> -> ->. change (bytes_of [bn a; bn b; bn c]) with [nb (bn a); nb (bn b); nb (bn c)]. rewrite !nb_bn. reflexivity. Qed.
Lemma four_bytes x y z u a b c d : x = bn a -> y = bn b -> z = bn c -> u = bn d -> bytes_of [x; y; z; u] = [a; b; c; d].
Proof.
  intros -> -> -> ->. change (bytes_of [bn a; bn b; bn c; bn d]) with [nb (bn a); nb (bn b); nb (bn c); nb (bn d)].
  rewrite !nb_bn. reflexivity.
Qed.

Lemma between_iff lo hi c : between lo hi c = true <-> (lo <= bn c <= hi)%Z.
Proof. unfold between. rewrite andb_true_iff, !Z.leb_le. tauto. Qed.
Lemma between_false lo hi c : between lo hi c = false <-> (bn c < lo \/ hi < bn c)%Z.
Proof. unfold between. rewrite andb_false_iff, !Z.leb_gt. tauto. Qed.
Lemma bn_inj a b : bn a = bn b -> a = b.
Proof. intros H. rewrite <- (nb_bn a), <- (nb_bn b), H. reflexivity. Qed.
Lemma eqb_bn a b : Byte.eqb a b = (bn a =? bn b)%Z.
Proof.
  destruct (Z.eqb_spec (bn a) (bn b)) as [E|E]; [apply bn_inj in E; subst; apply beq_refl|].
  apply beq_neq. intros ->. auto.
Qed.

(* The cases of rune_size. *)
Lemma rune_some s k : rune_size s = S k -> exists n, scalar n /\ encodes n (firstn (S k) s).
Proof.
  destruct s as [|a r]; [discriminate|]. cbn [rune_size]. pose proof (bn_bound a) as Ba.
  destruct (Z.ltb_spec (bn a) 128) as [H|H].
  { intros E. injection E as <-. exists (bn a). split; [left; lia|]. cbn [firstn].
    replace ([a]) with (bytes_of [bn a]) by apply one_byte. apply enc1; auto. }
  destruct (between 194 223 a) eqn:B2.
  { apply between_iff in B2. destruct r as [|b r]; [discriminate|]. destruct (cont b) eqn:C; [|discriminate]. apply between_iff in C.
    intros E. injection E as <-. exists ((bn a - 192) * 64 + (bn b - 128))%Z. split; [left; lia|]. cbn [firstn].
    rewrite <- (two_bytes (192 + (bn a - 192)) (128 + (bn b - 128)) a b) by lia. apply enc2; lia. }
  apply between_false in B2. destruct (between 224 239 a) eqn:B3.
  { apply between_iff in B3. destruct r as [|b [|c r]]; try discriminate.
    destruct (if Byte.eqb a xe0 then _ else _) eqn:B; [|discriminate]. destruct (cont c) eqn:C; [|discriminate].
    apply between_iff in C. intros E. injection E as <-.
    assert (Hb : (128 <= bn b <= 191)%Z /\ (bn a = 224 -> 160 <= bn b)%Z /\ (bn a = 237 -> bn b <= 159)%Z).
    { rewrite !eqb_bn in B. change (bn xe0) with 224%Z in B. change (bn xed) with 237%Z in B.
      destruct (Z.eqb_spec (bn a) 224); [|destruct (Z.eqb_spec (bn a) 237)]; apply between_iff in B; lia. }
    exists (((bn a - 224) * 64 + (bn b - 128)) * 64 + (bn c - 128))%Z. split.
    - unfold scalar. destruct (Z.ltb_spec (bn a) 237); [left; lia|]. destruct (Z.eqb_spec (bn a) 237); [left; lia|right; lia].
    - cbn [firstn]. rewrite <- (three_bytes (224 + (bn a - 224)) (128 + (bn b - 128)) (128 + (bn c - 128)) a b c) by lia.
      apply enc3; lia. }
  apply between_false in B3. destruct (between 240 244 a) eqn:B4; [|discriminate].
  apply between_iff in B4. destruct r as [|b [|c [|d r]]]; try discriminate.
  destruct (if Byte.eqb a xf0 then _ else _) eqn:B; [|discriminate]. destruct (cont c) eqn:C; [|discriminate].
  destruct (cont d) eqn:D; [|discriminate]. apply between_iff in C. apply between_iff in D. intros E. injection E as <-.
  assert (Hb : (128 <= bn b <= 191)%Z /\ (bn a = 240 -> 144 <= bn b)%Z /\ (bn a = 244 -> bn b <= 143)%Z).
  { rewrite !eqb_bn in B. change (bn xf0) with 240%Z in B. change (bn xf4) with 244%Z in B.
    destruct (Z.eqb_spec (bn a) 240); [|destruct (Z.eqb_spec (bn a) 244)]; apply between_iff in B; lia. }
  exists ((((bn a - 240) * 64 + (bn b - 128)) * 64 + (bn c - 128)) * 64 + (bn d - 128))%Z. split.
  - unfold scalar. right. split; [destruct (Z.eqb_spec (bn a) 240); lia|destruct (Z.eqb_spec (bn a) 244); lia].
  - cbn [firstn]. rewrite <- (four_bytes (240 + (bn a - 240)) (128 + (bn b - 128)) (128 + (bn c - 128)) (128 + (bn d - 128)) a b c d) by lia.
    apply enc4; lia.
Qed.

Lemma eqb_nb x b : (0 <= x < 256)%Z -> Byte.eqb (nb x) b = (x =? bn b)%Z.
Proof. intros H. rewrite eqb_bn, bn_nb by auto. reflexivity. Qed.
Lemma between_nb lo hi x : (0 <= x < 256)%Z -> between lo hi (nb x) = ((lo <=? x) && (x <=? hi))%Z.
Proof. intros H. unfold between. rewrite bn_nb by auto. reflexivity. Qed.

Ltac decide_all :=
  repeat (match goal with
  | |- context [(?x <? ?y)%Z] => first [rewrite (proj2 (Z.ltb_lt x y)) by lia | rewrite (proj2 (Z.ltb_ge x y)) by lia]
  | |- context [(?x <=? ?y)%Z] => first [rewrite (proj2 (Z.leb_le x y)) by lia | rewrite (proj2 (Z.leb_gt x y)) by lia]
  | |- context [(?x =? ?y)%Z] => first [rewrite (proj2 (Z.eqb_neq x y)) by lia | destruct (Z.eqb_spec x y)]
  end; cbn [andb orb negb]; cbv iota); try reflexivity.

Lemma rune_of n p r : scalar n -> encodes n p -> rune_size (p ++ r) = List.length p.
Proof.
  intros Hs. assert (Hn : (0 <= n < 1114112)%Z) by (unfold scalar in Hs; lia).
  destruct 1 as [H|a b H E Hb|a b c H E Hb Hc|a b c d H E Hb Hc Hd].
  - change (bytes_of [n] ++ r) with (nb n :: r). cbn [rune_size]. rewrite bn_nb by lia.
    decide_all.
  - change (bytes_of [192 + a; 128 + b]%Z ++ r) with (nb (192 + a) :: nb (128 + b) :: r). cbn [rune_size].
    unfold cont. rewrite !between_nb, bn_nb by lia. decide_all.
  - change (bytes_of [224 + a; 128 + b; 128 + c]%Z ++ r) with (nb (224 + a) :: nb (128 + b) :: nb (128 + c) :: r). cbn [rune_size].
    unfold cont. rewrite !eqb_nb, !between_nb, bn_nb by lia. change (bn xe0) with 224%Z. change (bn xed) with 237%Z.
    unfold scalar in Hs. decide_all.
  - change (bytes_of [240 + a; 128 + b; 128 + c; 128 + d]%Z ++ r) with (nb (240 + a) :: nb (128 + b) :: nb (128 + c) :: nb (128 + d) :: r). cbn [rune_size].
    unfold cont. rewrite !eqb_nb, !between_nb, bn_nb by lia. change (bn xf0) with 240%Z. change (bn xf4) with 244%Z. change (bn xe0) with 224%Z. change (bn xed) with 237%Z.
    decide_all.
Qed.

(* ---- what is read is UTF-8 ---- *)
Lemma utf8_app p s : Utf8 p -> Utf8 s -> Utf8 (p ++ s).
Proof. induction 1 as [|n p q Hn He Hq IH]; intros Hs; cbn [app]; auto. rewrite <- app_assoc. econstructor; eauto. Qed.
Lemma utf8_one n p : scalar n -> encodes n p -> Utf8 p.
Proof. intros. rewrite <- (app_nil_r p). econstructor; eauto. constructor. Qed.
Lemma replacement_utf8 : Utf8 replacement.
Proof.
  apply (utf8_one 65533); [right; lia|].
  change replacement with (bytes_of [224 + 15; 128 + 63; 128 + 61]%Z). apply enc3; lia.
Qed.
Lemma ascii_utf8 c : (bn c < 128)%Z -> Utf8 [c].
Proof.
  intros H. pose proof (bn_bound c). apply (utf8_one (bn c)); [left; lia|]. rewrite <- one_byte. apply enc1; auto.
Qed.

Lemma hex_val_bound c : is_hex c = true -> (0 <= hex_val c < 16)%Z.
Proof.
  intros H. assert (G : forall c, implb (is_hex c) ((0 <=? hex_val c) && (hex_val c <? 16))%Z = true)
    by (apply bytes_all; vm_compute; reflexivity).
  specialize (G c). rewrite H in G. cbn [implb] in G. apply andb_prop in G. destruct G as (G1 & G2).
  apply Z.leb_le in G1. apply Z.ltb_lt in G2. lia.
Qed.
Lemma u4_bound s n : u4 s = Some n -> (0 <= n < 65536)%Z.
Proof.
  destruct s as [|a [|b [|h1 [|h2 [|h3 [|h4 s]]]]]]; try discriminate. cbn [u4].
  destruct (Byte.eqb a backslash), (Byte.eqb b x75), (is_hex h1) eqn:E1, (is_hex h2) eqn:E2, (is_hex h3) eqn:E3, (is_hex h4) eqn:E4; try discriminate.
  cbn [andb]. intros E. apply hex_val_bound in E1, E2, E3, E4. injection E as <-. lia.
Qed.
Lemma escaped_low c : (bn c < 128)%Z -> (bn (escaped c) < 128)%Z.
Proof.
  intros H. assert (G : forall c, implb (bn c <? 128)%Z (bn (escaped c) <? 128)%Z = true) by (apply bytes_all; vm_compute; reflexivity).
  specialize (G c). rewrite (proj2 (Z.ltb_lt _ _) H) in G. cbn [implb] in G. apply Z.ltb_lt; auto.
Qed.

Lemma chars_tail c s : Chars (c :: s) -> c <> x5c -> Chars s.
Proof. intros H Hc. inversion H; subst; auto; try congruence. Qed.
Lemma chars_plain_tail k : forall s, Chars s -> Forall (fun c => c <> x5c) (firstn k s) -> Chars (skipn k s).
Proof.
  induction k as [|k IH]; intros s Hs Hf; cbn [skipn]; auto. destruct s as [|c s]; auto. cbn [firstn] in Hf.
  inversion Hf; subst. apply IH; auto. apply (chars_tail c); auto.
Qed.
Lemma encodes_high n p : (0 <= n < 1114112)%Z -> encodes n p -> (128 <= n)%Z -> Forall (fun c => (128 <= bn c)%Z) p.
Proof.
  intros Hn He H128.
  assert (A : forall x, (128 <= x < 256)%Z -> (128 <= bn (nb x))%Z) by (intros x Hx; rewrite bn_nb; lia).
  destruct He; try lia; unfold bytes_of; cbn [map]; fold nb; repeat constructor; apply A; lia.
Qed.
Lemma plain_high p : Forall (fun c => (128 <= bn c)%Z) p -> Forall (fun c => c <> x5c) p.
Proof. intros H. eapply Forall_impl; [|exact H]. intros c Hc ->. vm_compute in Hc. congruence. Qed.

Theorem unquote_utf8 f : forall raw, Chars raw -> Utf8 (unquote_loop f raw).
Proof.
  induction f as [|f IH]; intros raw Hr; [constructor|]. destruct raw as [|c r]; [constructor|]. cbn [unquote_loop].
  destruct (Byte.eqb c backslash) eqn:B.
  - apply beq_eq in B. subst c. unfold backslash in *.
    destruct (u4 (x5c :: r)) as [n|] eqn:U.
    + assert (Hu : exists h1 h2 h3 h4 r2, r = x75 :: h1 :: h2 :: h3 :: h4 :: r2 /\ Chars r2).
      { cbn [u4] in U. destruct r as [|b [|h1 [|h2 [|h3 [|h4 r2]]]]]; try discriminate.
        destruct (Byte.eqb b x75) eqn:Eb; [|rewrite andb_false_r in U; discriminate]. apply beq_eq in Eb. subst b.
        exists h1, h2, h3, h4, r2. split; auto. inversion Hr as [|? ? ? X|? ? Hc Hs|]; subst; auto; [congruence|].
        exfalso. cbn in Hc. repeat destruct Hc as [Hc|Hc]; try discriminate; contradiction. }
      destruct Hu as (h1 & h2 & h3 & h4 & r2 & -> & H2). pose proof (u4_bound _ _ U) as Bn.
      assert (P : Utf8 ((if high n || low n then replacement else utf8 n) ++ unquote_loop f (skipn 6 (x5c :: x75 :: h1 :: h2 :: h3 :: h4 :: r2)))).
      { apply utf8_app; [|apply IH; exact H2]. destruct (high n || low n) eqn:HL; [apply replacement_utf8|].
        apply (utf8_one n); [|apply utf8_encodes; lia]. unfold high, low in HL. apply orb_false_iff in HL.
        rewrite !andb_false_iff, !Z.leb_gt, !Z.ltb_ge in HL. unfold scalar. lia. }
      destruct (high n) eqn:Hh; [|exact P]. cbn [skipn]. destruct (u4 r2) as [m|] eqn:U2; [|exact P].
      destruct (low m) eqn:Lm; [|exact P].
      apply utf8_app.
      * unfold high in Hh. unfold low in Lm. rewrite andb_true_iff, Z.leb_le, Z.ltb_lt in Hh, Lm.
        apply (utf8_one (65536 + (n - 55296) * 1024 + (m - 56320))); [right; lia|apply utf8_encodes; lia].
      * apply IH. destruct r2 as [|a [|b [|g1 [|g2 [|g3 [|g4 r3]]]]]]; try discriminate. cbn [u4] in U2. unfold backslash in *.
        destruct (Byte.eqb a x5c) eqn:Ea; [|discriminate]. destruct (Byte.eqb b x75) eqn:Eb; [|discriminate].
        apply beq_eq in Ea. apply beq_eq in Eb. subst a b. cbn [skipn]. inversion H2 as [|? ? ? X|? ? Hc Hs|]; subst; auto; [congruence|].
        exfalso. cbn in Hc. repeat destruct Hc as [Hc|Hc]; try discriminate; contradiction.
    + destruct r as [|d r1]; [constructor|]. change (escaped d :: unquote_loop f r1) with ([escaped d] ++ unquote_loop f r1).
      inversion Hr as [|? ? ? X|? ? Hc Hs|h1 h2 h3 h4 s X1 X2 X3 X4 Hs]; subst; [congruence| |].
      * apply utf8_app; [|apply IH; auto]. apply ascii_utf8, escaped_low. cbn in Hc.
        repeat destruct Hc as [<-|Hc]; try reflexivity. contradiction.
      * exfalso. cbn [u4 app] in U. apply hex_iff in X1, X2, X3, X4. rewrite X1, X2, X3, X4 in U. discriminate.
  - destruct (rune_size (c :: r)) as [|k] eqn:R.
    + apply utf8_app; [apply replacement_utf8|]. apply IH. apply (chars_tail c); auto. apply beq_false; auto.
    + destruct (rune_some _ _ R) as (n & Hn & He). apply utf8_app; [apply (utf8_one n); auto|]. apply IH.
      apply chars_plain_tail; auto. destruct (Z.ltb_spec (bn c) 128) as [Hc|Hc].
      * cbn [rune_size] in R. rewrite (proj2 (Z.ltb_lt _ _) Hc) in R. injection R as <-.
        cbn [firstn]. constructor; [apply beq_false; auto|constructor].
      * assert (Hr' : (0 <= n < 1114112)%Z) by (unfold scalar in Hn; lia).
        apply plain_high, (encodes_high n); auto. destruct (Z.ltb_spec n 128) as [H|H]; auto. exfalso.
        cbn [firstn] in He. inversion He as [? E| | |]; try lia.
        change (nb n = c) in E. subst c. rewrite bn_nb in Hc by lia. lia.
Qed.

(* ---- well-formed strings ---- *)
Lemma hex_vals : forall v, v < 16 -> forall l, In l ["0123456789abcdef"; "0123456789ABCDEF"] ->
  exists c, nth_error (text l) v = Some c /\ is_hex c = true /\ hex_val c = Z.of_nat v.
Proof.
  intros v Hv l Hl. do 16 (destruct v as [|v]; [destruct Hl as [<-|[<-|[]]]; (eexists; split; [reflexivity|split; reflexivity])|]). lia.
Qed.
Lemma HexVal_val c v : HexVal c v -> is_hex c = true /\ hex_val c = Z.of_nat v /\ v < 16.
Proof.
  intros H. assert (L : v < 16).
  { destruct H as [H|H]; apply (f_equal (fun o => match o with Some _ => true | None => false end)) in H;
      destruct (Nat.ltb_spec v 16); auto; exfalso; rewrite (proj2 (nth_error_None _ _)) in H by (cbn; lia); discriminate. }
  destruct H as [H|H].
  - destruct (hex_vals v L "0123456789abcdef" ltac:(cbn; auto)) as (c' & E & E1 & E2). rewrite H in E. injection E as <-. auto.
  - destruct (hex_vals v L "0123456789ABCDEF" ltac:(cbn; auto)) as (c' & E & E1 & E2). rewrite H in E. injection E as <-. auto.
Qed.
Lemma u4_hex h n r : Hex4 h n -> u4 (x5c :: x75 :: h ++ r) = Some n /\ List.length h = 4 /\ (0 <= n < 65536)%Z /\
  exists a b c d, h = [a; b; c; d] /\ Hex a /\ Hex b /\ Hex c /\ Hex d.
Proof.
  intros (c3 & c2 & c1 & c0 & v3 & v2 & v1 & v0 & -> & H3 & H2 & H1 & H0 & ->).
  apply HexVal_val in H3, H2, H1, H0. destruct H3 as (A3 & B3 & L3), H2 as (A2 & B2 & L2), H1 as (A1 & B1 & L1), H0 as (A0 & B0 & L0).
  split; [|split; [reflexivity|split; [lia|exists c3, c2, c1, c0; split; [reflexivity|repeat split; apply hex_iff; auto]]]].
  cbn [app u4]. change (Byte.eqb x5c backslash) with true. change (Byte.eqb x75 x75) with true. cbn [andb].
  rewrite A3, A2, A1, A0, B3, B2, B1, B0. cbn [andb]. f_equal. lia.
Qed.

Lemma utf8_same n p : (0 <= n < 1114112)%Z -> encodes n p -> p = utf8 n.
Proof.
  intros Hn. destruct 1 as [H|a b H E Hb|a b c H E Hb Hc|a b c d H E Hb Hc Hd]; unfold utf8.
  - rewrite (proj2 (Z.ltb_lt _ _) H). reflexivity.
  - rewrite (proj2 (Z.ltb_ge n 128)), (proj2 (Z.ltb_lt n 2048)) by lia.
    replace (n / 64)%Z with a by div_lia. replace (n mod 64)%Z with b by div_lia. reflexivity.
  - rewrite (proj2 (Z.ltb_ge n 128)), (proj2 (Z.ltb_ge n 2048)), (proj2 (Z.ltb_lt n 65536)) by lia.
    replace (n / 4096)%Z with a by div_lia. replace (n / 64 mod 64)%Z with b by div_lia. replace (n mod 64)%Z with c by div_lia. reflexivity.
  - rewrite (proj2 (Z.ltb_ge n 128)), (proj2 (Z.ltb_ge n 2048)), (proj2 (Z.ltb_ge n 65536)) by lia.
    replace (n / 262144)%Z with a by div_lia. replace (n / 4096 mod 64)%Z with b by div_lia. replace (n / 64 mod 64)%Z with c by div_lia.
    replace (n mod 64)%Z with d by div_lia. reflexivity.
Qed.

Lemma chars_app_high p s : Forall (fun c => (128 <= bn c)%Z) p -> Chars s -> Chars (p ++ s).
Proof.
  induction 1 as [|c p Hc Hp IH]; intros Hs; cbn [app]; auto. constructor; auto.
  - intros ->. vm_compute in Hc. congruence.
  - intros ->. vm_compute in Hc. congruence.
  - apply low_iff. apply Z.ltb_ge. lia.
Qed.
Lemma encodes_head n p : encodes n p -> exists c q, p = c :: q.
Proof. destruct 1; eexists _, _; reflexivity. Qed.

Theorem means_chars raw s : Means raw s -> Chars raw.
Proof.
  induction 1 as [|n p raw s Hn H32 H34 H92 He Hm IH|c d raw s Hc Hm IH|h n p raw s Hh Hn He Hm IH|h1 n1 h2 n2 p raw s H1 H2 Hh Hl He Hm IH].
  - constructor.
  - assert (B : (0 <= n < 1114112)%Z) by (unfold scalar in Hn; lia). destruct (Z.ltb_spec n 128) as [L|L].
    + inversion He as [? E| | |]; try lia. change (bytes_of [n] ++ raw) with (nb n :: raw).
      constructor; auto.
      * intros E'. apply H34. apply (f_equal bn) in E'. rewrite bn_nb in E' by lia. exact E'.
      * intros E'. apply H92. apply (f_equal bn) in E'. rewrite bn_nb in E' by lia. exact E'.
      * apply low_iff, Z.ltb_ge. rewrite bn_nb; lia.
    + apply chars_app_high; auto. apply (encodes_high n); auto.
  - apply chars_escape; auto. cbn in Hc. repeat destruct Hc as [Hc|Hc]; try contradiction; injection Hc as <- <-; cbn; tauto.
  - destruct (u4_hex h n raw Hh) as (_ & _ & _ & a & b & c & d & -> & Xa & Xb & Xc & Xd). apply chars_hex; auto.
  - destruct (u4_hex h1 n1 raw H1) as (_ & _ & _ & a & b & c & d & -> & Xa & Xb & Xc & Xd).
    destruct (u4_hex h2 n2 raw H2) as (_ & _ & _ & a' & b' & c' & d' & -> & Xa' & Xb' & Xc' & Xd').
    apply (chars_hex a b c d (text "\u" ++ [a'; b'; c'; d'] ++ raw)); auto. apply chars_hex; auto.
Qed.

Lemma escape_read f c d raw : In (c, d) escapes -> unquote_loop (S f) (x5c :: c :: raw) = d :: unquote_loop f raw.
Proof.
  intros Hc. assert (U : u4 (x5c :: c :: raw) = None).
  { cbn [u4]. destruct raw as [|h1 [|h2 [|h3 [|h4 r]]]]; try reflexivity.
    assert (E : Byte.eqb c x75 = false) by (cbn in Hc; repeat destruct Hc as [Hc|Hc]; try contradiction; injection Hc as <- <-; reflexivity).
    rewrite E, andb_false_r. reflexivity. }
  cbn [unquote_loop]. change (Byte.eqb x5c backslash) with true. cbv iota. rewrite U. f_equal.
  cbn in Hc. repeat destruct Hc as [Hc|Hc]; try contradiction; injection Hc as <- <-; reflexivity.
Qed.
Lemma plain_read f n p raw : scalar n -> n <> 92%Z -> encodes n p ->
  unquote_loop (S f) (p ++ raw) = p ++ unquote_loop f raw.
Proof.
  intros Hn H92 He. pose proof (rune_of n p raw Hn He) as R.
  assert (B : (0 <= n < 1114112)%Z) by (unfold scalar in Hn; lia).
  assert (P : exists c q, p = c :: q /\ c <> x5c).
  { destruct (encodes_head n p He) as (c & q & ->). exists c, q. split; auto. destruct (Z.ltb_spec n 128) as [L|L].
    - inversion He as [? E| | |]; try lia. change (nb n = c) in E. subst c. intros E'. apply H92.
      change (nb n = x5c) in E'. apply (f_equal bn) in E'. rewrite bn_nb in E' by lia. exact E'.
    - pose proof (plain_high _ (encodes_high n _ B He L)) as X. inversion X; auto. }
  destruct P as (c & q & -> & Hc). cbn [app] in *. cbn [unquote_loop]. rewrite R.
  rewrite (beq_neq c backslash) by exact Hc. cbn [List.length]. cbn [firstn skipn].
  rewrite firstn_app, Nat.sub_diag, firstn_all, skipn_app, Nat.sub_diag, skipn_all. cbn [firstn skipn app]. rewrite app_nil_r. reflexivity.
Qed.

Theorem means_read raw s : Means raw s -> unquote raw = s.
Proof.
  intros H. unfold unquote. generalize (le_n (List.length raw)). generalize (List.length raw) at 2 3. revert H.
  induction 1 as [|n p raw s Hn H32 H34 H92 He Hm IH|c d raw s Hc Hm IH|h n p raw s Hh Hn He Hm IH|h1 n1 h2 n2 p raw s H1 H2 Hh Hl He Hm IH];
    intros f Hf.
  - destruct f; reflexivity.
  - destruct (encodes_head n p He) as (c & q & Ep). rewrite app_length, Ep in Hf. cbn in Hf. destruct f as [|f]; [lia|].
    rewrite (plain_read f n), IH; auto. lia.
  - cbn in Hf. destruct f as [|f]; [lia|]. change (text "\" ++ c :: raw) with (x5c :: c :: raw). rewrite (escape_read f c d), IH; auto. lia.
  - destruct (u4_hex h n raw Hh) as (U & L & B & a & b & c & d & -> & _). cbn in Hf. destruct f as [|f]; [lia|].
    change (text "\u" ++ [a; b; c; d] ++ raw) with (x5c :: x75 :: [a; b; c; d] ++ raw).
    assert (Hhi : high n = false /\ low n = false).
    { unfold scalar in Hn. unfold high, low. rewrite !andb_false_iff, !Z.leb_gt, !Z.ltb_ge. lia. }
    destruct Hhi as (E1 & E2). cbn [unquote_loop]. change (Byte.eqb x5c backslash) with true. cbv iota. rewrite U, E1, E2. cbn [orb].
    rewrite <- (utf8_same n p) by (auto; lia). cbn [app skipn]. rewrite IH by lia. reflexivity.
  - destruct (u4_hex h1 n1 (text "\u" ++ h2 ++ raw) H1) as (U & L & B & a & b & c & d & -> & _).
    destruct (u4_hex h2 n2 raw H2) as (U' & L' & B' & a' & b' & c' & d' & -> & _). cbn in Hf. destruct f as [|f]; [lia|].
    change (text "\u" ++ [a; b; c; d] ++ text "\u" ++ [a'; b'; c'; d'] ++ raw) with (x5c :: x75 :: [a; b; c; d] ++ (text "\u" ++ [a'; b'; c'; d'] ++ raw)).
    assert (E1 : high n1 = true) by (unfold high; apply andb_true_intro; split; [apply Z.leb_le|apply Z.ltb_lt]; lia).
    assert (E2 : low n2 = true) by (unfold low; apply andb_true_intro; split; [apply Z.leb_le|apply Z.ltb_lt]; lia).
    cbn [unquote_loop]. change (Byte.eqb x5c backslash) with true. cbv iota. rewrite U, E1.
    change (skipn 6 (x5c :: x75 :: [a; b; c; d] ++ text "\u" ++ [a'; b'; c'; d'] ++ raw)) with (x5c :: x75 :: [a'; b'; c'; d'] ++ raw).
    rewrite U', E2. rewrite <- (utf8_same _ p) by (auto; lia).
    change (skipn 12 (x5c :: x75 :: [a; b; c; d] ++ text "\u" ++ [a'; b'; c'; d'] ++ raw)) with raw. rewrite IH by lia. reflexivity.
Qed.

(* Every string of UTF-8 can be written. *)
Theorem utf8_written s : Utf8 s -> exists raw, Means raw s.
Proof.
  induction 1 as [|n p s Hn He Hs (raw & IH)]; [exists []; constructor|].
  destruct (Z.leb_spec 32 n) as [H32|H32]; [destruct (Z.eqb_spec n 34) as [E|E]; [|destruct (Z.eqb_spec n 92) as [E'|E']]|].
  - subst n. inversion He as [? E| | |]; try lia. eexists. apply (means_escape x22 x22); [cbn; auto|exact IH].
  - subst n. inversion He as [? E'| | |]; try lia. eexists. apply (means_escape x5c x5c); [cbn; auto|exact IH].
  - eexists. apply (means_plain n p); eauto.
  - assert (X : exists h, Hex4 h n).
    { unfold scalar in Hn. assert (V : forall v, v < 16 -> exists c, HexVal c v).
      { intros v Hv. destruct (hex_vals v Hv "0123456789abcdef" ltac:(cbn; auto)) as (c & Ec & _). exists c. left; auto. }
      destruct (V 0 ltac:(lia)) as (c0 & H0). destruct (V (Z.to_nat (n / 16)) ltac:(div_lia)) as (c1 & H1).
      destruct (V (Z.to_nat (n mod 16)) ltac:(div_lia)) as (c2 & H2).
      exists [c0; c0; c1; c2]. do 8 eexists. split; [reflexivity|]. do 4 (split; [eassumption|]). div_lia. }
    destruct X as (h & Hh). eexists. apply (means_hex h n p); eauto.
Qed.

(* ---- any string ---- *)
Lemma hex_digit c : is_hex c = true -> exists v, HexVal c v /\ hex_val c = Z.of_nat v.
Proof.
  intros H. assert (A : (if is_hex c then match nth_error (text "0123456789abcdef") (Z.to_nat (hex_val c)), nth_error (text "0123456789ABCDEF") (Z.to_nat (hex_val c)) with
      | Some a, Some b => (Byte.eqb a c || Byte.eqb b c) && (0 <=? hex_val c)%Z | _, _ => false end else true) = true) by (destruct c; vm_compute; reflexivity).
  rewrite H in A. exists (Z.to_nat (hex_val c)). unfold HexVal.
  destruct (nth_error (text "0123456789abcdef") _) as [a|]; [|discriminate A]. destruct (nth_error (text "0123456789ABCDEF") _) as [b|]; [|discriminate A].
  apply andb_prop in A. destruct A as (A & B). apply Z.leb_le in B. split; [|lia]. apply orb_prop in A. destruct A as [A|A]; apply beq_eq in A; subst; auto.
Qed.
Lemma u4_inv s n : u4 s = Some n -> exists h r, s = text "\u" ++ h ++ r /\ Hex4 h n.
Proof.
  destruct s as [|a [|b [|h1 [|h2 [|h3 [|h4 r]]]]]]; try discriminate. cbn [u4].
  destruct (Byte.eqb a backslash && Byte.eqb b x75 && is_hex h1 && is_hex h2 && is_hex h3 && is_hex h4) eqn:E; [|discriminate].
  rewrite !andb_true_iff in E. destruct E as (((((E1 & E2) & H1) & H2) & H3) & H4). apply beq_eq in E1, E2. subst a b. intros H. injection H as <-.
  destruct (hex_digit h1 H1) as (v1 & V1 & ->), (hex_digit h2 H2) as (v2 & V2 & ->), (hex_digit h3 H3) as (v3 & V3 & ->), (hex_digit h4 H4) as (v4 & V4 & ->).
  exists [h1; h2; h3; h4], r. split; auto. exists h1, h2, h3, h4, v1, v2, v3, v4. repeat (split; auto). lia.
Qed.
Lemma rune_none s : rune_size s = 0 -> no_character s.
Proof.
  intros H n p r Hn He ->. rewrite (rune_of n p r Hn He) in H. destruct (encodes_head n p He) as (c & q & ->). discriminate H.
Qed.
Lemma escapes_all d : In d (x22 :: text "\/bfnrt") -> In (d, escaped d) escapes.
Proof. cbn. intros H. repeat destruct H as [<-|H]; cbn; auto 12. Qed.
Theorem unquote_loose f : forall raw, Chars raw -> List.length raw <= f -> MeansLoose raw (unquote_loop f raw).
Proof.
  induction f as [|f IH]; intros raw Hr Hf; [destruct raw; [constructor|cbn in Hf; lia]|]. destruct raw as [|c r]; [constructor|]. cbn [unquote_loop].
  cbn [List.length] in Hf. destruct (Byte.eqb c backslash) eqn:B.
  - apply beq_eq in B. subst c. unfold backslash in *.
    destruct (u4 (x5c :: r)) as [n|] eqn:U.
    + pose proof (u4_bound _ _ U) as Bn. destruct (u4_inv _ _ U) as (h & r2 & E & Hh). destruct (u4_hex h n r2 Hh) as (_ & _ & _ & a & b & c & d & -> & _).
      cbn [app] in E. injection E as ->. cbn [List.length app] in Hf.
      assert (H2 : Chars r2).
      { inversion Hr as [|? ? ? X|? ? Hc Hs|]; subst; auto; [congruence|]. exfalso. cbn in Hc. repeat destruct Hc as [Hc|Hc]; try discriminate; contradiction. }
      assert (P : (high n = true -> forall h m r, Hex4 h m -> (56320 <= m < 57344)%Z -> r2 <> text "\u" ++ h ++ r) ->
        MeansLoose (x5c :: x75 :: a :: b :: c :: d :: r2) ((if high n || low n then replacement else utf8 n) ++ unquote_loop f r2)).
      { intros Hl. assert (M : MeansLoose r2 (unquote_loop f r2)) by (apply IH; auto; lia). destruct (high n || low n) eqn:HL.
        - apply (meansl_lone [a; b; c; d] n); auto. apply orb_prop in HL. unfold high, low in *. rewrite !andb_true_iff, !Z.leb_le, !Z.ltb_lt in *.
          destruct HL as [HL|HL]; [right; exact (conj HL (Hl HL))|left; exact HL].
        - apply (meansl_hex [a; b; c; d] n); auto; [|apply utf8_encodes; lia]. unfold high, low in HL. apply orb_false_iff in HL.
          rewrite !andb_false_iff, !Z.leb_gt, !Z.ltb_ge in HL. unfold scalar. lia. }
      change (skipn 6 (x5c :: text "u" ++ [a; b; c; d] ++ r2)) with r2 in *. change (x5c :: text "u" ++ [a; b; c; d] ++ r2) with (x5c :: x75 :: a :: b :: c :: d :: r2) in *.
      cbn [skipn].
      destruct (high n) eqn:Hh'; [|apply P; discriminate]. destruct (u4 r2) as [m|] eqn:U2.
      * destruct (u4_inv _ _ U2) as (h2 & r3 & E3 & Hh2). destruct (low m) eqn:Lm.
        -- destruct (u4_hex h2 m r3 Hh2) as (_ & _ & _ & a2 & b2 & c2 & d2 & -> & _). subst r2. change (text "\u" ++ [a2; b2; c2; d2] ++ r3) with (x5c :: x75 :: a2 :: b2 :: c2 :: d2 :: r3) in *. cbn [skipn].
           unfold high in Hh'. unfold low in Lm. rewrite andb_true_iff, Z.leb_le, Z.ltb_lt in Hh', Lm.
           apply (meansl_pair [a; b; c; d] n [a2; b2; c2; d2] m); auto; [apply utf8_encodes; lia|]. apply IH; [|cbn in Hf |- *; lia].
           inversion H2 as [|? ? ? X|? ? Hc Hs|]; subst; auto; [congruence|]. exfalso. cbn in Hc. repeat destruct Hc as [Hc|Hc]; try discriminate; contradiction.
        -- apply P. intros _ h' m' r' Hx Hm' ->. destruct (u4_hex h' m' r' Hx) as (U' & _). change (text "\u" ++ h' ++ r') with (x5c :: x75 :: h' ++ r') in U2.
           rewrite U' in U2. injection U2 as ->. unfold low in Lm. rewrite andb_false_iff, Z.leb_gt, Z.ltb_ge in Lm. lia.
      * apply P. intros _ h' m' r' Hx Hm' ->. destruct (u4_hex h' m' r' Hx) as (U' & _). change (text "\u" ++ h' ++ r') with (x5c :: x75 :: h' ++ r') in U2.
        rewrite U' in U2. discriminate U2.
    + destruct r as [|d r1]; [inversion Hr; subst; congruence|]. 
      inversion Hr as [|? ? ? X|? ? Hc Hs|h1 h2 h3 h4 s X1 X2 X3 X4 Hs]; subst; [congruence| |].
      * apply (meansl_escape d (escaped d)); [apply escapes_all; auto|]. apply IH; auto. cbn in Hf. lia.
      * exfalso. cbn [u4 app] in U. apply hex_iff in X1, X2, X3, X4. rewrite X1, X2, X3, X4 in U. discriminate.
  - apply beq_false in B. destruct (rune_size (c :: r)) as [|k] eqn:R.
    + apply meansl_byte; [apply rune_none; auto|]. apply IH; [apply (chars_tail c); auto|lia].
    + destruct (rune_some _ _ R) as (n & Hn & He). rewrite <- (firstn_skipn (S k) (c :: r)) at 1.
      assert (B' : (0 <= n < 1114112)%Z) by (unfold scalar in Hn; lia).
      assert (T : Chars (skipn (S k) (c :: r)) /\ (32 <= n)%Z /\ n <> 34%Z /\ n <> 92%Z).
      { destruct (Z.ltb_spec (bn c) 128) as [Hc|Hc].
        - cbn [rune_size] in R. rewrite (proj2 (Z.ltb_lt _ _) Hc) in R. injection R as <-. cbn [firstn] in He.
          assert (En : n = bn c).
          { inversion He as [Hl E|? ? H ? ? E|? ? ? H ? ? ? E|? ? ? ? H ? ? ? ? E]. change (n = bn (nb n)). symmetry. apply bn_nb. lia. }
          inversion Hr as [|? ? H34 H92 H32 Hs| |]; subst; try (elim B; reflexivity). split; [exact Hs|]. apply low_iff in H32. apply Z.ltb_ge in H32.
          split; [exact H32|]. split; intros E; [apply H34|apply H92]; apply bn_inj; exact E.
        - assert (L : (128 <= n)%Z).
          { destruct (Z.ltb_spec n 128) as [H|H]; auto. exfalso. cbn [firstn] in He. inversion He as [? E| | |]; try lia.
            change (nb n = c) in E. subst c. rewrite bn_nb in Hc by lia. lia. }
          split; [|lia]. apply chars_plain_tail; auto. apply plain_high, (encodes_high n); auto. }
      destruct T as (T1 & T2 & T3 & T4). apply (meansl_plain n); auto. apply IH; auto. rewrite skipn_length. cbn [List.length]. lia.
Qed.
Theorem unquote_means raw : Chars raw -> MeansLoose raw (unquote raw).
Proof. intros H. apply unquote_loose; auto. Qed.
