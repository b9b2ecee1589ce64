(* Times are read and written as RFC 3339 says. *)
From Verif Require Import Base Env Server Routes JsonSpec JsonText TextSpec TextParse TextUtf8.
From Coq.Init Require Import Byte.
From Coq Require Import Strings.Byte Strings.String.
Local Open Scope list_scope.

(* ---- decimals ---- *)
Lemma digits_snoc s c : digits_value (s ++ [c]) = (10 * digits_value s + (bn c - 48))%Z.
Proof. unfold digits_value. rewrite fold_left_app. reflexivity. Qed.
Lemma digit_value v c : nth_error (text "0123456789") v = Some c -> is_digit c = true /\ bn c = (48 + Z.of_nat v)%Z /\ (v < 10)%nat.
Proof.
  intros H. do 10 (destruct v as [|v]; [cbn in H; injection H as <-; repeat split; lia|]). destruct v; discriminate H.
Qed.
Lemma digit_of v : (0 <= v < 10)%Z -> nth_error (text "0123456789") (Z.to_nat v) = Some (digit v).
Proof.
  intros H. assert (Hc : (v = 0 \/ v = 1 \/ v = 2 \/ v = 3 \/ v = 4 \/ v = 5 \/ v = 6 \/ v = 7 \/ v = 8 \/ v = 9)%Z) by lia.
  repeat destruct Hc as [->|Hc]; try reflexivity. subst. reflexivity.
Qed.
Lemma decimal_read s n : Decimal s n -> Forall (fun c => is_digit c = true) s /\ digits_value s = n /\ (0 <= n)%Z.
Proof.
  induction 1 as [|s n c v H (I1 & I2 & I3) E]; [repeat split; auto; lia|]. destruct (digit_value v c E) as (D1 & D2 & D3).
  rewrite digits_snoc, D2, I2. repeat split; try lia. apply Forall_app. auto.
Qed.
Lemma decimal_bound s n : Decimal s n -> (n < 10 ^ Z.of_nat (List.length s))%Z.
Proof.
  induction 1 as [|s n c v H IH E]; [cbn; lia|]. destruct (digit_value v c E) as (_ & _ & D3). rewrite app_length. cbn [List.length].
  replace (Z.of_nat (List.length s + 1)) with (Z.of_nat (List.length s) + 1)%Z by lia. rewrite Z.pow_add_r by lia. lia.
Qed.
Lemma fixed_length k : forall n, List.length (fixed k n) = k.
Proof. induction k as [|k IH]; intros n; cbn [fixed]; auto. rewrite app_length, IH. cbn. lia. Qed.
Lemma fixed_decimal k : forall n, (0 <= n < 10 ^ Z.of_nat k)%Z -> Decimal (fixed k n) n.
Proof.
  induction k as [|k IH]; intros n Hn; cbn [fixed]; [replace n with 0%Z by (cbn in Hn; lia); constructor|].
  replace n with (10 * (n / 10) + Z.of_nat (Z.to_nat (n mod 10)))%Z at 3 by (pose proof (Z.mod_pos_bound n 10); pose proof (Z.div_mod n 10); lia).
  apply dec_snoc; [|apply digit_of, Z.mod_pos_bound; lia]. apply IH. rewrite Nat2Z.inj_succ, Z.pow_succ_r in Hn by lia.
  split; [apply Z.div_pos; lia|apply Z.div_lt_upper_bound; lia].
Qed.
Lemma fixed_dec k n : (0 <= n < 10 ^ Z.of_nat k)%Z -> Dec k (fixed k n) n.
Proof. intros H. split; [apply fixed_length|apply fixed_decimal; auto]. Qed.

Lemma dec2_read s n : Dec 2 s n -> exists a b, s = [a; b] /\ is_digit a = true /\ is_digit b = true /\ digits_value [a; b] = n /\ (0 <= n < 100)%Z.
Proof.
  intros (L & D). pose proof (decimal_bound s n D) as B. rewrite L in B. apply decimal_read in D. destruct D as (D1 & D2 & D3).
  destruct s as [|a [|b [|? ?]]]; try discriminate L. exists a, b. inversion D1 as [|? ? Da D1']; subst. inversion D1' as [|? ? Db _]; subst.
  repeat split; auto.
Qed.
Lemma num2_dec fx s n r : Dec 2 s n -> num2 fx (s ++ r) = Some (n, r).
Proof. intros H. destruct (dec2_read s n H) as (a & b & -> & Ha & Hb & Hv & _). cbn [app num2]. rewrite Ha, Hb, Hv. reflexivity. Qed.
Lemma atoi4_dec s n r : Dec 4 s n -> atoi4 (s ++ r) = Some (n, r).
Proof.
  intros (L & D). apply decimal_read in D. destruct D as (D1 & D2 & D3).
  destruct s as [|a [|b [|c [|d [|? ?]]]]]; try discriminate L. rewrite !Forall_cons_iff in D1. destruct D1 as (A & B & C & D & _).
  cbn [app atoi4]. rewrite A, B, C, D, D2. reflexivity.
Qed.

(* ---- the calendar ---- *)
Lemma step k y : (0 < k)%Z -> ((y + k) / k - (y + k - 1) / k = if y mod k =? 0 then 1 else 0)%Z.
Proof.
  intros Hk. pose proof (Z.div_mod y k ltac:(lia)) as E. pose proof (Z.mod_pos_bound y k Hk) as B.
  assert (E1 : ((y + k) / k = y / k + 1)%Z). { symmetry. apply (Z.div_unique _ _ _ (y mod k)); lia. }
  rewrite E1. destruct (Z.eqb_spec (y mod k) 0) as [E0|E0].
  - assert (E2 : ((y + k - 1) / k = y / k)%Z). { symmetry. apply (Z.div_unique _ _ _ (k - 1)); lia. } lia.
  - assert (E2 : ((y + k - 1) / k = y / k + 1)%Z). { symmetry. apply (Z.div_unique _ _ _ (y mod k - 1)); lia. } lia.
Qed.
Lemma leap_days y : (days (y + 1) - days y = if leap y then 366 else 365)%Z.
Proof.
  unfold days, leaps, leap. pose proof (step 4 y ltac:(lia)). pose proof (step 100 y ltac:(lia)). pose proof (step 400 y ltac:(lia)).
  replace (y + 1 + 3)%Z with (y + 4)%Z by lia. replace (y + 1 + 99)%Z with (y + 100)%Z by lia. replace (y + 1 + 399)%Z with (y + 400)%Z by lia.
  replace (y + 4 - 1)%Z with (y + 3)%Z in * by lia. replace (y + 100 - 1)%Z with (y + 99)%Z in * by lia. replace (y + 400 - 1)%Z with (y + 399)%Z in * by lia.
  destruct (Z.eqb_spec (y mod 4) 0), (Z.eqb_spec (y mod 100) 0), (Z.eqb_spec (y mod 400) 0); cbn [andb orb negb]; try lia;
    exfalso; Z.div_mod_to_equations; lia.
Qed.
Lemma days_year y : days y = (days_to_year y + 366)%Z.
Proof.
  unfold days, leaps, days_to_year. cbv zeta.
  assert (E : forall k, (0 < k -> (y + (k - 1)) / k = (y - 1) / k + 1)%Z).
  { intros k Hk. replace (y + (k - 1))%Z with (y - 1 + 1 * k)%Z by lia. apply Z.div_add. lia. }
  pose proof (E 4%Z ltac:(lia)). pose proof (E 100%Z ltac:(lia)). pose proof (E 400%Z ltac:(lia)).
  change (4 - 1)%Z with 3%Z in *. change (100 - 1)%Z with 99%Z in *. change (400 - 1)%Z with 399%Z in *. lia.
Qed.
Lemma month_cases (P : Z -> Prop) : P 1%Z -> P 2%Z -> P 3%Z -> P 4%Z -> P 5%Z -> P 6%Z -> P 7%Z -> P 8%Z -> P 9%Z -> P 10%Z -> P 11%Z -> P 12%Z ->
  forall m, (1 <= m <= 12)%Z -> P m.
Proof.
  intros. assert (Hc : (m = 1 \/ m = 2 \/ m = 3 \/ m = 4 \/ m = 5 \/ m = 6 \/ m = 7 \/ m = 8 \/ m = 9 \/ m = 10 \/ m = 11 \/ m = 12)%Z) by lia.
  repeat destruct Hc as [->|Hc]; auto. subst. auto.
Qed.
Lemma day_number_ok y m d : (1 <= m <= 12)%Z -> day_number y m d = (days_to y m d + 366)%Z.
Proof.
  intros Hm. unfold day_number, days_to. rewrite days_year. unfold month_lengths. rewrite leap_days.
  assert (E : forall (lp : bool) m, (1 <= m <= 12)%Z -> fold_right Z.add 0%Z (firstn (Z.to_nat (m - 1)) [31; (if lp then 366 else 365) - 337; 31; 30; 31; 30; 31; 31; 30; 31; 30; 31]%Z)
    = (days_before (m - 1) + (if lp && (2 <? m) then 1 else 0))%Z) by (intros lp; apply month_cases; destruct lp; reflexivity).
  rewrite E by auto. lia.
Qed.
Lemma days_in_ok y m : (1 <= m <= 12)%Z -> days_in m y = nth (Z.to_nat (m - 1)) (month_lengths y) 0%Z.
Proof.
  intros Hm. unfold days_in, month_lengths. rewrite leap_days. revert m Hm. apply month_cases; destruct (leap y); reflexivity.
Qed.
Lemma day_1970_ok : days 1970 = (day_1970 + 366)%Z.
Proof. reflexivity. Qed.

(* ---- reading ---- *)
Lemma atoi2_dec s n : Dec 2 s n -> exists a b, s = [a; b] /\ atoi2 a b = Some n.
Proof.
  intros H. destruct (dec2_read s n H) as (a & b & -> & Ha & Hb & Hv & _). exists a, b. split; auto. unfold atoi2. rewrite Ha, Hb, Hv. reflexivity.
Qed.
Lemma zone_read s off : Offset s off -> zone s = Some off.
Proof.
  intros H. destruct H as [|hs ms h m H1 H2 _ _|hs ms h m H1 H2 _ _]; [reflexivity|..];
    destruct (atoi2_dec hs h H1) as (a & b & -> & E1); destruct (atoi2_dec ms m H2) as (c & d & -> & E2); cbn [app text]; cbn; rewrite E1, E2; reflexivity.
Qed.
Lemma offset_head s off : Offset s off -> exists c r, s = c :: r /\ is_digit c = false /\ c <> x2e.
Proof.
  intros H. destruct H as [|hs ms h m H1 H2 _ _|hs ms h m H1 H2 _ _]; cbn; eexists; eexists; (split; [reflexivity|split; [reflexivity|discriminate]]).
Qed.
Lemma fraction_read f ns z off : Fraction f ns -> Offset z off -> fraction (f ++ z) = Some (ns, z).
Proof.
  intros Hf Hz. destruct (offset_head z off Hz) as (c & r & -> & Hc & Hd). destruct Hf as [|s v ns L D E].
  - cbn [app]. unfold fraction. destruct r; auto. rewrite (beq_neq c x2e) by auto. reflexivity.
  - change (text "." ++ s) with (x2e :: s). destruct s as [|d s]; [cbn in L; lia|]. cbn [app].
    pose proof (decimal_bound _ _ D) as B. apply decimal_read in D. destruct D as (D1 & D2 & D3).
    unfold fraction. rewrite beq_refl. inversion D1 as [|? ? Dd _]; subst. rewrite Dd. cbn [andb].
    change (d :: s ++ c :: r) with ((d :: s) ++ c :: r). rewrite span_app by auto. unfold nanos. set (l := d :: s) in *.
    assert (Hl : (10 ^ Z.of_nat (List.length l) <= 10 ^ 9)%Z) by (apply Z.pow_le_mono_r; lia).
    destruct (Z.leb_spec 1000000000 (digits_value l)); [lia|]. cbn [option_map]. do 2 f_equal.
    rewrite Z.max_r by lia. assert (Hp : (10 ^ 9 = 10 ^ (9 - Z.of_nat (List.length l)) * 10 ^ Z.of_nat (List.length l))%Z).
    { rewrite <- Z.pow_add_r by lia. f_equal. lia. }
    rewrite Hp in E. pose proof (Z.pow_pos_nonneg 10 (Z.of_nat (List.length l))). nia.
Qed.
Lemma in_range_true lo hi x : (lo <= x < hi)%Z -> in_range lo hi x = true.
Proof. intros H. unfold in_range. apply andb_true_intro. split; [apply Z.leb_le|apply Z.ltb_lt]; lia. Qed.
Theorem time_read s t : DateTime s t -> parse_time s = Some t.
Proof.
  intros H. destruct H as [ys ms ds hs mis ss fs zs y m d h mi s ns off Hy Hm Hd Hh Hmi Hs Hf Hz Bm Bd Bh Bmi Bs].
  unfold parse_time. rewrite (atoi4_dec ys y) by auto. change (text "-") with [x2d]. change (text "T") with [x54]. change (text ":") with [x3a].
  rewrite !after_app. rewrite (num2_dec true ms m) by auto. rewrite !after_app. rewrite (num2_dec true ds d) by auto. rewrite !after_app.
  rewrite (num2_dec false hs h) by auto. rewrite !after_app. rewrite (num2_dec true mis mi) by auto. rewrite !after_app.
  rewrite (num2_dec true ss s) by auto. rewrite (fraction_read fs ns zs off) by auto. rewrite (zone_read zs off) by auto.
  apply dec2_read in Hh, Hmi, Hs. destruct Hh as (? & ? & _ & _ & _ & _ & Bh'). destruct Hmi as (? & ? & _ & _ & _ & _ & Bmi').
  destruct Hs as (? & ? & _ & _ & _ & _ & Bs').
  rewrite <- days_in_ok in Bd by auto. rewrite !in_range_true by lia. cbn [andb]. f_equal. unfold instant.
  rewrite day_number_ok, day_1970_ok by auto. lia.
Qed.

(* ---- writing ---- *)
Lemma year_day_ok n : let '(y, k) := year_day n in n = (days_to_year y + k)%Z /\ (0 <= k < if leap y then 366 else 365)%Z.
Proof.
  unfold year_day. pose proof (Z.div_mod n 146097 ltac:(lia)) as E1. pose proof (Z.mod_pos_bound n 146097 ltac:(lia)) as B1.
  set (n4 := (n / 146097)%Z) in *. set (d1 := (n mod 146097)%Z) in *.
  assert (Hc : let c := (d1 / 36524 - d1 / 36524 / 4)%Z in (0 <= c <= 3 /\ 0 <= d1 - c * 36524 /\ (d1 - c * 36524 < 36524 \/ c = 3 /\ d1 - c * 36524 < 36525))%Z).
  { cbv zeta. Z.div_mod_to_equations. lia. }
  cbv zeta in *. set (c := (d1 / 36524 - d1 / 36524 / 4)%Z) in *. set (d2 := (d1 - c * 36524)%Z) in *.
  assert (Hq : (0 <= d2 / 1461 <= 24 /\ 0 <= d2 - d2 / 1461 * 1461 /\ (d2 - d2 / 1461 * 1461 < 1461) /\ (d2 / 1461 = 24 -> c < 3 -> d2 - d2 / 1461 * 1461 < 1460))%Z).
  { clearbody d1 n4. Z.div_mod_to_equations. lia. }
  set (q := (d2 / 1461)%Z) in *. set (d3 := (d2 - q * 1461)%Z) in *.
  assert (Hk : let k := (d3 / 365 - d3 / 365 / 4)%Z in (0 <= k <= 3 /\ 0 <= d3 - k * 365 /\ (d3 - k * 365 < 365 \/ k = 3 /\ d3 = 1460))%Z).
  { cbv zeta. Z.div_mod_to_equations. lia. }
  cbv zeta in *. set (k := (d3 / 365 - d3 / 365 / 4)%Z) in *.
  clearbody n4 d1 k. assert (En : n = (146097 * n4 + 36524 * c + 1461 * q + d3)%Z) by lia. clearbody d3. clearbody q. clearbody c.
  set (y := (400 * n4 + 100 * c + 4 * q + k + 1)%Z).
  split.
  - unfold days_to_year. cbv zeta. replace (y - 1)%Z with (400 * n4 + 100 * c + 4 * q + k)%Z by (unfold y; lia).
    rewrite <- (Z.div_unique (400 * n4 + 100 * c + 4 * q + k) 4 (100 * n4 + 25 * c + q) k) by lia.
    rewrite <- (Z.div_unique (400 * n4 + 100 * c + 4 * q + k) 100 (4 * n4 + c) (4 * q + k)) by lia.
    rewrite <- (Z.div_unique (400 * n4 + 100 * c + 4 * q + k) 400 n4 (100 * c + 4 * q + k)) by lia. lia.
  - destruct Hk as (K1 & K2 & [K3|(K3 & K4)]); [destruct (leap y); lia|].
    replace (leap y) with true; [lia|]. symmetry. unfold leap, y. subst k.
    assert (M4 : ((400 * n4 + 100 * c + 4 * q + 3 + 1) mod 4 = 0)%Z).
    { symmetry. apply (Z.mod_unique _ _ (100 * n4 + 25 * c + q + 1)); lia. }
    rewrite M4. cbn [Z.eqb andb]. apply orb_true_iff. destruct (Z.eq_dec q 24) as [->|Hq24].
    + right. apply Z.eqb_eq. assert (c = 3)%Z by lia. subst c. symmetry. apply (Z.mod_unique _ _ (n4 + 1)); lia.
    + left. apply negb_true_iff, Z.eqb_neq. rewrite <- (Z.mod_unique _ 100 (4 * n4 + c) (4 * q + 4)) by lia. lia.
Qed.
Lemma month_day_ok (lp : bool) k y : (0 <= k < if lp then 366 else 365)%Z -> leap y = lp ->
  let '(m, d) := month_day lp k in (1 <= m <= 12)%Z /\ (1 <= d <= days_in m y)%Z /\ (days_to y m d = days_to_year y + k)%Z.
Proof.
  intros Hk Hl. unfold days_in, days_to. rewrite Hl.
  assert (H : forallb (fun lp : bool => forallb (fun k => implb (k <? if lp then 366 else 365)%Z (let '(m, d) := month_day lp k in
    ((1 <=? m) && (m <=? 12) && (1 <=? d) && (d <=? (if (m =? 2) && lp then 29 else days_before m - days_before (m - 1))) &&
    (days_before (m - 1) + (if lp && (2 <? m) then 1 else 0) + (d - 1) =? k))%Z)) (map Z.of_nat (seq 0 366))) [true; false] = true) by (vm_compute; reflexivity).
  rewrite forallb_forall in H. specialize (H lp ltac:(destruct lp; cbn; auto)). rewrite forallb_forall in H.
  specialize (H k). destruct (month_day lp k) as [m d].
  assert (Hi : In k (map Z.of_nat (seq 0 366))).
  { apply in_map_iff. exists (Z.to_nat k). split; [lia|]. apply in_seq. destruct lp; lia. }
  specialize (H Hi). destruct (Z.ltb_spec k (if lp then 366 else 365)) as [_|X]; [|destruct lp; lia]. cbn [implb] in H.
  rewrite !andb_true_iff, !Z.leb_le, Z.eqb_eq in H. lia.
Qed.

Lemma decimal_inv s c n : Decimal (s ++ [c]) n -> exists m v, Decimal s m /\ nth_error (text "0123456789") v = Some c /\ n = (10 * m + Z.of_nat v)%Z.
Proof.
  intros H. inversion H as [E|s' m c' v H1 H2 E]; [destruct s; discriminate|]. apply app_inj_tail in E. destruct E as (-> & ->). eauto.
Qed.
Lemma trim_split s : exists z, s = trim_zeros s ++ z /\ Forall (fun c => c = x30) z.
Proof.
  induction s as [|c r (z & E & F)]; [exists []; auto|]. cbn [trim_zeros]. destruct (trim_zeros r) as [|d t] eqn:Et.
  - destruct (Byte.eqb c x30) eqn:Ec.
    + apply beq_eq in Ec. subst c. exists (x30 :: z). cbn [app] in *. subst r. auto.
    + exists z. cbn [app] in *. subst r. auto.
  - exists z. cbn [app] in *. rewrite E at 1. auto.
Qed.
Lemma decimal_zeros z : forall s n, Forall (fun c => c = x30) z -> Decimal (s ++ z) n -> exists m, Decimal s m /\ n = (m * 10 ^ Z.of_nat (List.length z))%Z.
Proof.
  induction z as [|c z IH] using rev_ind; intros s n F H; [rewrite app_nil_r in H; exists n; split; auto; cbn; lia|].
  apply Forall_app in F. destruct F as (F1 & F2). inversion F2; subst. rewrite app_assoc in H. apply decimal_inv in H.
  destruct H as (m & v & H1 & H2 & ->). destruct v as [|v]; [|do 9 (destruct v as [|v]; [discriminate H2|]); destruct v; discriminate H2].
  destruct (IH s m F1 H1) as (m' & Hm & ->). exists m'. split; auto. rewrite app_length. cbn [List.length].
  replace (Z.of_nat (List.length z + 1)) with (Z.of_nat (List.length z) + 1)%Z by lia. rewrite Z.pow_add_r by lia. lia.
Qed.
Lemma fraction_written ns : (0 <= ns < 1000000000)%Z ->
  Fraction (match trim_zeros (fixed 9 ns) with [] => [] | f => x2e :: f end) ns.
Proof.
  intros H. pose proof (fixed_decimal 9 ns H) as D. pose proof (fixed_length 9 ns) as L.
  destruct (trim_split (fixed 9 ns)) as (z & E & F). rewrite E in D, L. rewrite app_length in L. destruct (decimal_zeros z _ ns F D) as (m & Dm & En).
  destruct (trim_zeros (fixed 9 ns)) as [|c t].
  - inversion Dm as [Hm|? ? ? ? ? ? Hm]; [|destruct s; discriminate]. subst m. replace ns with 0%Z by lia. constructor.
  - change (x2e :: c :: t) with (text "." ++ c :: t). apply a_fraction with (v := m); [cbn [List.length] in *; lia|exact Dm|]. rewrite En.
    rewrite <- Z.mul_assoc, <- Z.pow_add_r by lia. do 2 f_equal. lia.
Qed.
Lemma zone_written off : (-1440 < off < 1440)%Z -> Offset (show_zone off) off.
Proof.
  intros H. unfold show_zone. destruct (Z.eqb_spec off 0) as [->|Hn]; [constructor|].
  assert (A1 : (0 <= Z.abs off / 60 < 24)%Z) by (split; [apply Z.div_pos; lia|apply Z.div_lt_upper_bound; lia]).
  assert (A2 : (0 <= Z.abs off mod 60 < 60)%Z) by (apply Z.mod_pos_bound; lia).
  pose proof (Z.div_mod (Z.abs off) 60 ltac:(lia)) as E.
  destruct (Z.ltb_spec off 0).
  - replace off with (- (Z.abs off / 60 * 60 + Z.abs off mod 60))%Z at 3 by lia.
    apply off_west; try lia; apply fixed_dec; cbn; lia.
  - replace off with (Z.abs off / 60 * 60 + Z.abs off mod 60)%Z at 3 by lia.
    apply off_east; try lia; apply fixed_dec; cbn; lia.
Qed.
Lemma days_mono a b : (a <= b)%Z -> (days a <= days b)%Z.
Proof.
  intros H. replace b with (a + Z.of_nat (Z.to_nat (b - a)))%Z by lia. generalize (Z.to_nat (b - a)). induction n as [|n IH]; [rewrite Z.add_0_r; lia|].
  replace (a + Z.of_nat (S n))%Z with (a + Z.of_nat n + 1)%Z by lia. pose proof (leap_days (a + Z.of_nat n)). destruct (leap (a + Z.of_nat n)); lia.
Qed.

Theorem time_written off t : (-1440 < off < 1440)%Z -> (year_begin 0 <= t + off * 60000000000 < year_begin 10000)%Z ->
  DateTime (show_time off t) t.
Proof.
  intros Ho Ht. unfold show_time. set (local := (t + off * 60000000000)%Z) in *. set (secs := (local / 1000000000)%Z). set (ns := (local mod 1000000000)%Z).
  assert (El : (local = 1000000000 * secs + ns)%Z) by (apply Z.div_mod; lia). assert (Bn : (0 <= ns < 1000000000)%Z) by (apply Z.mod_pos_bound; lia).
  pose proof (year_day_ok (secs / 86400 + day_1970)) as Hy. destruct (year_day (secs / 86400 + day_1970)) as [y k]. destruct Hy as (Ey & By).
  pose proof (month_day_ok (leap y) k y By eq_refl) as Hm. destruct (month_day (leap y) k) as [m d]. destruct Hm as (Bm & Bd & Em).
  assert (Es : (secs = 86400 * (secs / 86400) + secs mod 86400)%Z) by (apply Z.div_mod; lia). assert (Bs : (0 <= secs mod 86400 < 86400)%Z) by (apply Z.mod_pos_bound; lia).
  set (dd := (secs / 86400)%Z) in *. set (s := (secs mod 86400)%Z) in *. clearbody dd s. clearbody secs ns. 
  assert (Hyr : (0 <= y < 10000)%Z).
  { unfold year_begin in Ht. rewrite day_1970_ok in Ht. pose proof (days_year y) as Dy.
    pose proof (leap_days y) as Ly.
    split.
    - apply Z.lt_succ_r. apply Z.nle_gt. intros Hn. pose proof (days_mono (y + 1) 0 ltac:(lia)). destruct (leap y); lia.
    - apply Z.nle_gt. intros Hn. pose proof (days_mono 10000 y Hn). lia. }
  assert (Es2 : (s = 3600 * (s / 3600) + 60 * (s / 60 mod 60) + s mod 60 /\ 0 <= s / 3600 < 24 /\ 0 <= s / 60 mod 60 < 60 /\ 0 <= s mod 60 < 60)%Z).
  { Z.div_mod_to_equations. lia. }
  destruct Es2 as (Es2 & B1 & B2 & B3).
  assert (Et : t = (((((day_number y m d - days 1970) * 24 + s / 3600) * 60 + s / 60 mod 60 - off) * 60 + s mod 60) * 1000000000 + ns)%Z).
  { rewrite day_number_ok, day_1970_ok, Em by auto. unfold local in El. lia. }
  rewrite Et. clear Et.
  assert (Bd' : (d <= 31)%Z). { rewrite days_in_ok in Bd by auto. revert Bd. unfold month_lengths. rewrite leap_days. clear. intros Bd.
    revert Bd. set (i := Z.to_nat (m - 1)). clearbody i. do 12 (destruct i as [|i]; [destruct (leap y); cbn; lia|]). destruct i; cbn; lia. }
  rewrite days_in_ok in Bd by auto.
  apply date_time; try lia; try (apply fixed_dec; cbn; lia); [apply fraction_written; auto|apply zone_written; auto].
Qed.
Theorem time_round off t : (-1440 < off < 1440)%Z -> (year_begin 0 <= t + off * 60000000000 < year_begin 10000)%Z ->
  parse_time (show_time off t) = Some t.
Proof. intros. apply time_read, time_written; auto. Qed.
