(* Lemmas about Gob.v. *)
From Coq Require Import SpecFloat ZArith Lia.
From Verif Require Import Base Num MathUtils Env Centroid Server Routes JsonText TextParse FloatSpec FloatRound FloatOps Gob GobWire GobSpec.
From Coq.Init Require Import Byte.
From Coq Require Import Strings.Byte Strings.String.
Local Open Scope list_scope.
Local Open Scope Z_scope.

(* ---- bytes ---- *)
Lemma be_length n x : List.length (be n x) = n.
Proof. revert x. induction n as [|n IH]; intros x; cbn [be]; [reflexivity|]. rewrite app_length, IH. cbn. lia. Qed.
Lemma of_be_snoc s c : of_be (s ++ [c]) = 256 * of_be s + bn c.
Proof. unfold of_be. rewrite fold_left_app. reflexivity. Qed.
Lemma of_be_be n x : 0 <= x < 256 ^ Z.of_nat n -> of_be (be n x) = x.
Proof.
  revert x. induction n as [|n IH]; intros x H; cbn [be]; [cbn in H; change (of_be []) with 0; lia|].
  rewrite Nat2Z.inj_succ, Z.pow_succ_r in H by lia. rewrite of_be_snoc, IH, bn_nb.
  - pose proof (Z.div_mod x 256). lia.
  - apply Z.mod_pos_bound. lia.
  - split; [apply Z.div_pos; lia|]. apply Z.div_lt_upper_bound; lia.
Qed.
Lemma of_be_bound s : 0 <= of_be s < 256 ^ Z.of_nat (List.length s).
Proof.
  induction s as [|c s IH] using rev_ind; [cbn; lia|]. rewrite of_be_snoc, app_length. cbn [List.length]. rewrite Nat2Z.inj_add, Z.pow_add_r by lia.
  change (256 ^ Z.of_nat 1) with 256. pose proof (bn_bound c). lia.
Qed.
Lemma be_of_be s : be (List.length s) (of_be s) = s.
Proof.
  induction s as [|c s IH] using rev_ind; [reflexivity|]. rewrite app_length. cbn [List.length]. rewrite Nat.add_1_r. cbn [be]. rewrite of_be_snoc.
  pose proof (bn_bound c) as B. replace ((256 * of_be s + bn c) / 256) with (of_be s); [|apply (Z.div_unique _ 256 _ (bn c)); lia].
  replace ((256 * of_be s + bn c) mod 256) with (bn c); [|apply (Z.mod_unique _ 256 (of_be s)); lia]. rewrite IH, nb_bn. reflexivity.
Qed.
Lemma swap_bound u : 0 <= swap8 u < 2 ^ 64.
Proof. unfold swap8. pose proof (of_be_bound (rev (be 8 u))) as H. rewrite rev_length, be_length in H. exact H. Qed.
Lemma swap_swap u : 0 <= u < 2 ^ 64 -> swap8 (swap8 u) = u.
Proof.
  intros H. unfold swap8. set (s := rev (be 8 u)). assert (L : List.length s = 8%nat) by (unfold s; rewrite rev_length; apply be_length).
  rewrite <- L at 1. rewrite be_of_be. unfold s. rewrite rev_involutive. apply of_be_be. exact H.
Qed.

(* ---- numbers ---- *)
Lemma firstn_all_app {A} (a b : list A) n : n = List.length a -> firstn n (a ++ b) = a /\ skipn n (a ++ b) = b.
Proof. intros ->. rewrite firstn_app, skipn_app, Nat.sub_diag, firstn_all, skipn_all. cbn. rewrite app_nil_r. auto. Qed.
Lemma uint_read x r : 0 <= x < 2 ^ 64 -> get_uint (put_uint x ++ r) = Some (x, r).
Proof.
  intros H. unfold put_uint. destruct (Z.leb_spec x 127) as [Hx|Hx].
  - cbn [app get_uint]. rewrite bn_nb by lia. destruct (Z.leb_spec x 127); [reflexivity|lia].
  - assert (Hl : 0 <= Z.log2 x < 64) by (split; [apply Z.log2_nonneg|apply Z.log2_lt_pow2; lia]).
    set (n := Z.log2 x / 8 + 1). assert (Hn : 1 <= n <= 8) by (unfold n; pose proof (Z.div_mod (Z.log2 x) 8); pose proof (Z.mod_pos_bound (Z.log2 x) 8); lia).
    cbn [app get_uint]. rewrite bn_nb by lia. destruct (Z.leb_spec (256 - n) 127); [lia|]. replace (256 - (256 - n)) with n by lia.
    destruct (Nat.ltb_spec 8 (Z.to_nat n)); [lia|]. rewrite app_length, be_length. destruct (Nat.ltb_spec (Z.to_nat n + List.length r) (Z.to_nat n)); [lia|]. cbn [orb].
    destruct (firstn_all_app (be (Z.to_nat n) x) r (Z.to_nat n)) as (E1 & E2); [rewrite be_length; reflexivity|]. rewrite E1, E2, of_be_be; [reflexivity|]. split; [lia|].
    rewrite Z2Nat.id by lia. change 256 with (2 ^ 8). rewrite <- Z.pow_mul_r by lia. destruct (Z.log2_spec x ltac:(lia)) as (_ & L2).
    eapply Z.lt_le_trans; [exact L2|]. apply Z.pow_le_mono_r; [lia|]. unfold n. pose proof (Z.div_mod (Z.log2 x) 8). pose proof (Z.mod_pos_bound (Z.log2 x) 8). lia.
Qed.
Lemma uint_some x : put_uint x <> [].
Proof. unfold put_uint. destruct (x <=? 127); discriminate. Qed.
Lemma int_read z r : - 2 ^ 63 <= z < 2 ^ 63 -> get_int (put_int z ++ r) = Some (z, r).
Proof.
  intros H. unfold put_int, get_int. destruct (Z.ltb_spec z 0).
  - rewrite uint_read by lia. rewrite Z.add_comm, Z.odd_add_mul_2. cbn [Z.odd]. rewrite Z.mul_comm, Z.div_add by lia. change (1 / 2) with 0. do 2 f_equal. lia.
  - rewrite uint_read by lia. replace (2 * z) with (0 + 2 * z) by lia. rewrite Z.odd_add_mul_2. cbn [Z.odd]. rewrite Z.mul_comm, Z.div_add by lia. change (0 / 2) with 0. reflexivity.
Qed.

(* ---- binary64 ---- *)
Lemma fin_mantissa m e : bounded prec64 emax64 m e = true -> Z.pos m < 2 ^ 53 /\ -1074 <= e <= 971 /\ (e = -1074 \/ 2 ^ 52 <= Z.pos m).
Proof.
  intros H. destruct (fin_canonical m e H) as (C & D & E). destruct (digits_Z (Z.pos m) ltac:(lia)) as ((D1 & D2) & D3).
  split; [|split; [exact E|]].
  - eapply Z.lt_le_trans; [exact D2|]. apply Z.pow_le_mono_r; lia.
  - destruct C as [C|C]; [right|left; exact C]. rewrite C in D1. exact D1.
Qed.
Lemma bits_bound x : is_f64 x -> 0 <= float_bits x < 2 ^ 64.
Proof.
  destruct x as [s|s| |s m e]; cbn [is_f64 float_bits]; intros H.
  - destruct s; vm_compute; split; (discriminate || reflexivity).
  - destruct s; vm_compute; split; (discriminate || reflexivity).
  - vm_compute; split; (discriminate || reflexivity).
  - destruct (fin_mantissa m e H) as (M & E & _). destruct (Z.ltb_spec (Z.pos m) (2 ^ 52)); destruct s; lia.
Qed.
Lemma split_bits s x m : 0 <= x < 2048 -> 0 <= m < 2 ^ 52 -> let u := (if s : bool then 2 ^ 63 else 0) + (x * 2 ^ 52 + m) in
  (2 ^ 63 <=? u) = s /\ u / 2 ^ 52 mod 2048 = x /\ u mod 2 ^ 52 = m.
Proof.
  intros Hx Hm u. split; [|split].
  - unfold u. destruct s; [apply Z.leb_le; lia|apply Z.leb_gt; lia].
  - assert (E : u / 2 ^ 52 = (if s then 2048 else 0) + x) by (symmetry; apply (Z.div_unique _ _ _ m); unfold u; destruct s; lia).
    rewrite E. symmetry. apply (Z.mod_unique _ _ (if s then 1 else 0)); destruct s; lia.
  - symmetry. apply (Z.mod_unique _ _ ((if s then 2048 else 0) + x)); unfold u; destruct s; lia.
Qed.
Lemma float_bits_read x : is_f64 x -> bits_float (float_bits x) = x.
Proof.
  destruct x as [s|s| |s m e]; cbn [is_f64 float_bits]; intros H.
  - destruct s; vm_compute; reflexivity.
  - destruct s; vm_compute; reflexivity.
  - vm_compute. reflexivity.
  - destruct (fin_mantissa m e H) as (M & E & C). unfold bits_float. destruct (Z.ltb_spec (Z.pos m) (2 ^ 52)) as [L|L].
    + destruct (split_bits s 0 (Z.pos m) ltac:(lia) ltac:(lia)) as (E1 & E2 & E3). rewrite Z.mul_0_l, Z.add_0_l in E1, E2, E3. rewrite E1, E2, E3.
      change (0 =? 0) with true. destruct (Z.eqb_spec (Z.pos m) 0); [lia|]. cbv iota. rewrite Pos2Z.id. f_equal. lia.
    + destruct (split_bits s (e + 1075) (Z.pos m - 2 ^ 52) ltac:(lia) ltac:(lia)) as (E1 & E2 & E3). rewrite E1, E2, E3.
      destruct (Z.eqb_spec (e + 1075) 0); [lia|]. destruct (Z.eqb_spec (e + 1075) 2047); [lia|]. replace (2 ^ 52 + (Z.pos m - 2 ^ 52)) with (Z.pos m) by lia. f_equal; lia.
Qed.

(* ---- bytes and times ---- *)
Lemma bytes_read l r : Z.of_nat (List.length l) < 2 ^ 64 -> get_bytes (put_bytes l ++ r) = Some (l, r).
Proof.
  intros H. unfold put_bytes, get_bytes. rewrite <- app_assoc, uint_read by lia. rewrite app_length. destruct (Z.ltb_spec (Z.of_nat (List.length l + List.length r)) (Z.of_nat (List.length l))); [lia|].
  rewrite Nat2Z.id. destruct (firstn_all_app l r _ eq_refl) as (-> & ->). reflexivity.
Qed.
Lemma signed_read n u : 0 < n -> - 2 ^ (n - 1) <= u < 2 ^ (n - 1) -> signed_of n (u mod 2 ^ n) = u.
Proof.
  intros Hn H. unfold signed_of. assert (E : 2 ^ n = 2 * 2 ^ (n - 1)) by (rewrite <- Z.pow_succ_r by lia; f_equal; lia).
  destruct (Z.lt_ge_cases u 0).
  - rewrite <- (Z.mod_unique u (2 ^ n) (-1) (u + 2 ^ n)) by lia. destruct (Z.ltb_spec (u + 2 ^ n) (2 ^ (n - 1))); lia.
  - rewrite Z.mod_small by lia. destruct (Z.ltb_spec u (2 ^ (n - 1))); lia.
Qed.
Lemma marshal_ok t z : instant_ok t -> zone_ok z -> exists s, marshal t z = Some s /\ List.length s = 15%nat /\ unmarshal s = Some (t, z).
Proof.
  intros Ht Hz. unfold instant_ok in Ht. set (off := match z with None => -1 | Some m => m end).
  set (s := [x01] ++ be 8 ((t / 10 ^ 9 - year_1) mod 2 ^ 64) ++ be 4 (t mod 10 ^ 9) ++ be 2 (off mod 2 ^ 16)).
  assert (Hoff : - 2 ^ 15 <= off < 2 ^ 15) by (destruct z as [m|]; cbn in Hz, off; subst off; lia).
  assert (L : List.length s = 15%nat) by (unfold s; rewrite !app_length, !be_length; reflexivity).
  exists s. split; [|split; [exact L|]].
  - unfold marshal. destruct z as [m|]; [|reflexivity]. cbn in Hz. destruct Hz as (Hz & Hm). subst off.
    destruct (Z.ltb_spec m (-32768)); [lia|]. destruct (Z.eqb_spec m (-1)); [lia|]. destruct (Z.ltb_spec 32767 m); [lia|]. reflexivity.
  - unfold s. cbn [app unmarshal]. rewrite !app_length, !be_length. change (Byte.eqb x01 x01) with true. change (Nat.eqb (8 + (4 + 2)) 14) with true. cbn [andb].
    set (a := be 8 _). set (b := be 4 _). set (c := be 2 _).
    destruct (firstn_all_app a (b ++ c) 8) as (A1 & A2); [unfold a; rewrite be_length; reflexivity|]. rewrite A1, A2.
    destruct (firstn_all_app b c 4) as (B1 & B2); [unfold b; rewrite be_length; reflexivity|]. rewrite B1.
    assert (C : skipn 12 (a ++ b ++ c) = c). { rewrite app_assoc. apply firstn_all_app. unfold a, b. rewrite app_length, !be_length. reflexivity. }
    rewrite C. unfold a, b, c. rewrite !of_be_be.
    + rewrite (signed_read 64), (signed_read 16) by (try exact Hoff; lia). pose proof (Z.mod_pos_bound t (10 ^ 9) ltac:(lia)) as Hmod.
      assert (S32 : signed_of 32 (t mod 10 ^ 9) = t mod 10 ^ 9). { unfold signed_of. destruct (Z.ltb_spec (t mod 10 ^ 9) (2 ^ (32 - 1))); lia. }
      rewrite S32. do 2 f_equal; [pose proof (Z.div_mod t (10 ^ 9)); lia|]. unfold off. destruct z as [m|]; [|reflexivity]. cbn in Hz. destruct (Z.eqb_spec m (-1)); [lia|reflexivity].
    + apply Z.mod_pos_bound. reflexivity.
    + pose proof (Z.mod_pos_bound t (10 ^ 9) ltac:(lia)). change (256 ^ Z.of_nat 4) with (2 ^ 32). lia.
    + change (256 ^ Z.of_nat 8) with (2 ^ 64). apply Z.mod_pos_bound. reflexivity.
Qed.
Theorem zone_lost t : marshal t (Some (-1)) = None.
Proof. reflexivity. Qed.

(* ---- values ---- *)
Lemma times_read {A B : Type} (get : str -> option (A * str)) (put : B -> option str) (f : B -> A) l :
  Forall (fun b => exists s, put b = Some s /\ forall r, get (s ++ r) = Some (f b, r)) l ->
  forall r, times get (List.length l) (match (fix all l := match l with [] => Some [] | v :: r => match put v, all r with Some a, Some b => Some (a ++ b) | _, _ => None end end) l with Some s => s ++ r | None => [] end) = Some (map f l, r) /\
    (fix all l := match l with [] => Some [] | v :: r => match put v, all r with Some a, Some b => Some (a ++ b) | _, _ => None end end) l <> None.
Proof.
  induction 1 as [|b l (s & E & H) _ IH]; intros r; [split; [reflexivity|discriminate]|]. rewrite E. cbn [times List.length map]. set (all := (fix all l := match l with [] => _ | _ => _ end) l) in *.
  destruct (IH r) as (I1 & I2). destruct all as [s'|]; [|congruence]. rewrite <- app_assoc, H, I1. split; [reflexivity|discriminate].
Qed.

(* Induction on values. *)
Fixpoint gval_size (v : gval) : nat :=
  match v with
  | VSlice l | VStruct l => S (fold_right (fun v n => (gval_size v + n)%nat) 0%nat l)
  | _ => 1%nat
  end.
Lemma size_in v l : In v l -> (gval_size v <= fold_right (fun v n => (gval_size v + n)%nat) 0%nat l)%nat.
Proof. induction l as [|a l IH]; intros H; [contradiction|]. cbn [fold_right]. destruct H as [->|H]; [lia|]. specialize (IH H). lia. Qed.
Lemma left_out_zero t v : Has t v -> left_out v = true -> v <> VFloat (S754_zero true) -> v = zero_of t.
Proof.
  destruct 1 as [b|z Hz|z Hz|x Hx|l Hl|t z Ht Hz|size t l H1 H2 H3|l H1 H2|ts l H0 H1 H2]; cbn [left_out zero_of]; intros E N; try discriminate.
  - destruct b; [discriminate|reflexivity].
  - apply Z.eqb_eq in E. subst. reflexivity.
  - apply Z.eqb_eq in E. subst. reflexivity.
  - destruct x as [[]| | |]; try discriminate; [congruence|reflexivity].
  - destruct l; [reflexivity|discriminate].
  - destruct z; [discriminate|]. apply Z.eqb_eq in E. subst. reflexivity.
  - destruct l; [reflexivity|discriminate].
Qed.
Definition fields_enc := fix fields d l := match l with
                         | [] => Some (put_uint 0)
                         | v :: r =>
                             if left_out v then fields (d + 1) r
                             else match enc v, fields 1 r with Some a, Some b => Some (put_uint d ++ a ++ b) | _, _ => None end
                         end.
Definition fields_dec := fix fields ts d s :=
               if d =? 0 then Some (map zero_of ts, s)
               else match ts with
                    | [] => None
                    | t :: ts' =>
                        if d =? 1 then
                          match dec t s with
                          | Some (v, r) =>
                              match get_uint r with
                              | Some (d', r') => match fields ts' d' r' with Some (vs, r'') => Some (v :: vs, r'') | None => None end
                              | None => None
                              end
                          | None => None
                          end
                        else match fields ts' (d - 1) s with Some (vs, r) => Some (zero_of t :: vs, r) | None => None end
                    end.
Lemma enc_struct l : enc (VStruct l) = fields_enc 1 l.
Proof. reflexivity. Qed.
Lemma dec_struct ts s : dec (GStruct ts) s = match get_uint s with
  | Some (d, r) => match fields_dec ts d r with Some (vs, r') => Some (VStruct vs, r') | None => None end
  | None => None end.
Proof. reflexivity. Qed.

Definition well (t : gty) (v : gval) : Prop := exists s, enc v = Some s /\ forall r, dec t (s ++ r) = Some (v, r).
Lemma fields_read ts l d : Forall2 Has ts l -> Forall2 well ts l -> Forall (fun v => v <> VFloat (S754_zero true)) l -> 1 <= d -> d + Z.of_nat (List.length l) < 2 ^ 64 ->
  exists d0 s, 0 <= d0 < 2 ^ 64 /\ (d0 = 0 \/ d <= d0) /\ fields_enc d l = Some (put_uint d0 ++ s) /\
    forall r, fields_dec ts (if d0 =? 0 then 0 else d0 - (d - 1)) (s ++ r) = Some (l, r).
Proof.
  intros H. revert d. induction H as [|t v ts l Hv Hl IH]; intros d Hw Hn Hd Hb.
  - exists 0, []. split; [lia|]. split; [auto|]. split; [cbn; reflexivity|]. intros r. reflexivity.
  - inversion_clear Hw as [|? ? ? ? (a & Ea & Da) Wl]. inversion_clear Hn as [|? ? Nv Nl]. cbn [List.length] in Hb. rewrite Nat2Z.inj_succ in Hb. cbn [fields_enc]. destruct (left_out v) eqn:Eo.
    + destruct (IH (d + 1) Wl Nl ltac:(lia) ltac:(lia)) as (d0 & s & B & C & E & R). exists d0, s. split; [exact B|]. split; [lia|]. split; [exact E|]. intros r. specialize (R r).
      pose proof (left_out_zero t v Hv Eo Nv) as Ez. cbn [fields_dec]. destruct (Z.eqb_spec d0 0) as [->|Nd].
      * cbn [Z.eqb]. destruct ts as [|t' ts]; cbn in R; injection R as R1 R2; rewrite R2; cbn [map]; rewrite <- R1, Ez; reflexivity.
      * destruct (Z.eqb_spec (d0 - (d - 1)) 0); [lia|]. destruct (Z.eqb_spec (d0 - (d - 1)) 1); [lia|].
        replace (d0 - (d - 1) - 1) with (d0 - (d + 1 - 1)) by lia. fold fields_dec. rewrite R, <- Ez. reflexivity.
    + destruct (IH 1 Wl Nl ltac:(lia) ltac:(lia)) as (d1 & s & B & C & E & R). fold fields_enc. rewrite Ea, E. exists d, (a ++ put_uint d1 ++ s).
      split; [lia|]. split; [right; lia|]. split; [reflexivity|]. intros r. destruct (Z.eqb_spec d 0); [lia|]. replace (d - (d - 1)) with 1 by lia. cbn [fields_dec Z.eqb Pos.eqb].
      rewrite <- app_assoc, Da, <- app_assoc, uint_read by exact B. fold fields_dec. specialize (R r). destruct (Z.eqb_spec d1 0) as [->|]; [rewrite R; reflexivity|]. replace (d1 - (1 - 1)) with d1 in R by lia. rewrite R. reflexivity.
Qed.
Lemma pair_read x r : Z.of_nat (List.length (fst x)) < 2 ^ 64 /\ - 2 ^ 63 <= snd x < 2 ^ 63 -> get_pair ((put_bytes (fst x) ++ put_int (snd x)) ++ r) = Some (x, r).
Proof. intros (H1 & H2). unfold get_pair. rewrite <- app_assoc, bytes_read, int_read by assumption. destruct x. reflexivity. Qed.
Lemma pairs_read l r : Forall (fun x => Z.of_nat (List.length (fst x)) < 2 ^ 64 /\ - 2 ^ 63 <= snd x < 2 ^ 63) l ->
  times get_pair (List.length l) (List.concat (map (fun x => put_bytes (fst x) ++ put_int (snd x)) l) ++ r) = Some (l, r).
Proof. induction 1 as [|x l Hx _ IH]; [reflexivity|]. cbn [List.length times map List.concat]. rewrite <- app_assoc, pair_read, IH by exact Hx. reflexivity. Qed.
Definition all_enc := fix all l := match l with
                       | [] => Some []
                       | v :: r => match enc v, all r with Some a, Some b => Some (a ++ b) | _, _ => None end
                       end.
Lemma all_read t l : Forall (well t) l -> exists s, all_enc l = Some s /\ forall r, times (dec t) (List.length l) (s ++ r) = Some (l, r).
Proof.
  induction 1 as [|v l (a & Ea & Da) _ (s & Es & Ds)]; [exists []; split; [reflexivity|intros r; reflexivity]|].
  exists (a ++ s). cbn [all_enc List.length times]. fold all_enc. rewrite Ea, Es. split; [reflexivity|]. intros r. rewrite <- app_assoc, Da, Ds. reflexivity.
Qed.
Lemma enc_slice l : enc (VSlice l) = option_map (fun s => put_uint (Z.of_nat (List.length l)) ++ s) (all_enc l).
Proof. reflexivity. Qed.
Lemma Forall2_in {A B} (P Q : A -> B -> Prop) l l' : Forall2 P l l' -> (forall a b, In b l' -> P a b -> Q a b) -> Forall2 Q l l'.
Proof. induction 1 as [|a b l l' Hp Hl IH]; intros H; constructor; [apply H; [left; reflexivity|exact Hp]|]. apply IH. intros a' b' Hb. apply H. right. exact Hb. Qed.
Lemma f2_length {A B} (P : A -> B -> Prop) l l' : Forall2 P l l' -> List.length l = List.length l'.
Proof. induction 1; cbn; congruence. Qed.
Theorem gob_read t v : Has t v -> well t v.
Proof.
  remember (gval_size v) as n eqn:E. assert (Hn : (gval_size v <= n)%nat) by lia. clear E. revert t v Hn.
  induction n as [|n IH]; intros t v Hn H; [destruct v; cbn in Hn; lia|].
  destruct H as [b|z Hz|z Hz|x Hx|l Hl|t z Ht Hz|size t l H1 H2 H3|l H1 H2|ts l H0 H1 H2].
  - exists (put_uint (if b then 1 else 0)). split; [reflexivity|]. intros r. cbn [dec]. rewrite uint_read by (destruct b; lia). destruct b; reflexivity.
  - exists (put_uint z). split; [reflexivity|]. intros r. cbn [dec]. rewrite uint_read by exact Hz. reflexivity.
  - exists (put_int z). split; [reflexivity|]. intros r. cbn [dec]. rewrite int_read by exact Hz. reflexivity.
  - exists (put_uint (swap8 (float_bits x))). split; [reflexivity|]. intros r. cbn [dec]. rewrite uint_read by apply swap_bound.
    rewrite swap_swap, float_bits_read by (try apply bits_bound; exact Hx). reflexivity.
  - exists (put_bytes l). split; [reflexivity|]. intros r. cbn [dec]. rewrite bytes_read by exact Hl. reflexivity.
  - destruct (marshal_ok t z Ht Hz) as (s & E & L & U). exists (put_bytes s). split; [cbn [enc]; rewrite E; reflexivity|]. intros r. cbn [dec]. rewrite bytes_read by (rewrite L; reflexivity). rewrite U. reflexivity.
  - destruct (all_read t l) as (s & Es & Ds).
    { rewrite Forall_forall in H3 |- *. intros v Hv. apply IH; [|apply H3, Hv]. cbn [gval_size] in Hn. pose proof (size_in v l Hv). lia. }
    unfold well. rewrite enc_slice, Es. eexists. split; [reflexivity|]. intros r. cbn [dec]. assert (Hlen : Z.of_nat (List.length l) * 1 <= Z.of_nat (List.length l) * size) by (apply Z.mul_le_mono_nonneg_l; lia).
    rewrite <- app_assoc, uint_read by lia.
    unfold too_big. destruct (Z.ltb_spec (2 ^ 33) (Z.of_nat (List.length l) * size)); [lia|]. rewrite Nat2Z.id, Ds. reflexivity.
  - eexists. split; [reflexivity|]. intros r. cbn [dec]. rewrite <- app_assoc, uint_read by (split; [apply Nat2Z.is_nonneg|exact H1]). rewrite Nat2Z.id, pairs_read by exact H2. reflexivity.
  - pose proof (f2_length _ _ _ H1) as L.
    destruct (fields_read ts l 1 H1) as (d0 & s & B & _ & E & R); [|exact H2|lia|lia|].
    { apply (Forall2_in _ _ _ _ H1). intros t v Hv Ht. apply IH; [|exact Ht]. cbn [gval_size] in Hn. pose proof (size_in v l Hv). lia. }
    unfold well. rewrite enc_struct, E. eexists. split; [reflexivity|]. intros r. rewrite dec_struct, <- app_assoc, uint_read by exact B. specialize (R r).
    destruct (Z.eqb_spec d0 0) as [->|]; [rewrite R; reflexivity|]. replace (d0 - (1 - 1)) with d0 in R by lia. rewrite R. reflexivity.
Qed.

(* ---- sizes ---- *)
Lemma uint_length x : 0 <= x < 2 ^ 64 -> Z.of_nat (List.length (put_uint x)) <= 9.
Proof.
  intros H. unfold put_uint. destruct (Z.leb_spec x 127); [cbn; lia|]. cbn [List.length]. rewrite be_length.
  assert (Hl : 0 <= Z.log2 x < 64) by (split; [apply Z.log2_nonneg|apply Z.log2_lt_pow2; lia]).
  assert (Z.log2 x / 8 < 8) by (apply Z.div_lt_upper_bound; lia). assert (0 <= Z.log2 x / 8) by (apply Z.div_pos; lia). lia.
Qed.
Lemma int_length z : - 2 ^ 63 <= z < 2 ^ 63 -> Z.of_nat (List.length (put_int z)) <= 9.
Proof. intros H. unfold put_int. apply uint_length. destruct (Z.ltb_spec z 0); lia. Qed.
Lemma bytes_length l : Z.of_nat (List.length l) < 2 ^ 64 -> Z.of_nat (List.length (put_bytes l)) <= 9 + Z.of_nat (List.length l).
Proof. intros H. unfold put_bytes. rewrite app_length, Nat2Z.inj_add. pose proof (uint_length (Z.of_nat (List.length l)) ltac:(lia)). lia. Qed.
Lemma weight_pos v : 9 <= weight v.
Proof.
  remember (gval_size v) as n eqn:E. assert (Hn : (gval_size v <= n)%nat) by lia. clear E. revert v Hn.
  induction n as [|n IH]; intros v Hn; [destruct v; cbn in Hn; lia|]. destruct v; cbn [weight]; try lia; cbn [gval_size] in Hn.
  - enough (H : 0 <= fold_right (fun v n => weight v + n) 0 l) by lia. assert (Hs : (fold_right (fun v n => (gval_size v + n)%nat) 0%nat l <= n)%nat) by lia. clear Hn.
    induction l as [|v l IHl]; cbn [fold_right] in *; [lia|]. specialize (IHl ltac:(lia)). specialize (IH v ltac:(lia)). lia.
  - enough (H : 0 <= fold_right (fun x n => 18 + Z.of_nat (List.length (fst x)) + n) 0 l) by lia. clear. induction l as [|x l IHl]; cbn [fold_right]; lia.
  - enough (H : 0 <= fold_right (fun v n => 9 + weight v + n) 0 l) by lia. assert (Hs : (fold_right (fun v n => (gval_size v + n)%nat) 0%nat l <= n)%nat) by lia. clear Hn.
    induction l as [|v l IHl]; cbn [fold_right] in *; [lia|]. specialize (IHl ltac:(lia)). specialize (IH v ltac:(lia)). lia.
Qed.
Lemma fields_length l d s : fields_enc d l = Some s -> (forall v a, In v l -> enc v = Some a -> Z.of_nat (List.length a) <= weight v) -> 1 <= d -> d + Z.of_nat (List.length l) < 2 ^ 64 ->
  Z.of_nat (List.length s) <= 9 + fold_right (fun v n => 9 + weight v + n) 0 l.
Proof.
  revert d s. induction l as [|v l IH]; intros d s E H Hd Hb; cbn [fields_enc] in E.
  - injection E as <-. cbn. lia.
  - cbn [List.length fold_right] in *. rewrite Nat2Z.inj_succ in Hb. pose proof (weight_pos v). fold fields_enc in E. destruct (left_out v).
    + pose proof (IH (d + 1) s E (fun v a Hv => H v a (or_intror Hv)) ltac:(lia) ltac:(lia)). lia.
    + destruct (enc v) as [a|] eqn:Ea; [|discriminate]. destruct (fields_enc 1 l) as [b|] eqn:Eb; [|discriminate]. injection E as <-.
      pose proof (IH 1 b Eb (fun v a Hv => H v a (or_intror Hv)) ltac:(lia) ltac:(lia)). pose proof (H v a (or_introl eq_refl) Ea). pose proof (uint_length d ltac:(lia)).
      rewrite !app_length, !Nat2Z.inj_add. lia.
Qed.
Theorem enc_length t v s : Has t v -> enc v = Some s -> Z.of_nat (List.length s) <= weight v.
Proof.
  remember (gval_size v) as n eqn:E. assert (Hn : (gval_size v <= n)%nat) by lia. clear E. revert t v s Hn.
  induction n as [|n IH]; intros t v s Hn H Es; [destruct v; cbn in Hn; lia|].
  destruct H as [b|z Hz|z Hz|x Hx|l Hl|t z Ht Hz|size t l H1 H2 H3|l H1 H2|ts l H0 H1 H2]; cbn [weight].
  - injection Es as <-. apply uint_length. destruct b; lia.
  - injection Es as <-. apply uint_length, Hz.
  - injection Es as <-. apply int_length, Hz.
  - injection Es as <-. apply uint_length, swap_bound.
  - injection Es as <-. apply bytes_length, Hl.
  - destruct (marshal_ok t z Ht Hz) as (a & E & L & _). cbn [enc] in Es. rewrite E in Es. cbn [option_map] in Es. injection Es as <-. pose proof (bytes_length a ltac:(rewrite L; reflexivity)) as B. rewrite L in B. change (9 + Z.of_nat 15) with 24 in B. exact B.
  - rewrite enc_slice in Es. destruct (all_enc l) as [a|] eqn:Ea; [|discriminate]. cbn [option_map] in Es. injection Es as <-. rewrite app_length, Nat2Z.inj_add.
    assert (Hlen : Z.of_nat (List.length l) * 1 <= Z.of_nat (List.length l) * size) by (apply Z.mul_le_mono_nonneg_l; lia).
    pose proof (uint_length (Z.of_nat (List.length l)) ltac:(lia)). enough (Z.of_nat (List.length a) <= fold_right (fun v n => weight v + n) 0 l) by lia.
    cbn [gval_size] in Hn. assert (Hs : (fold_right (fun v n => (gval_size v + n)%nat) 0%nat l <= n)%nat) by lia. clear - IH H3 Ea Hs. revert a Ea.
    induction H3 as [|v l Hv Hl IHl]; intros a Ea; cbn [all_enc fold_right] in *; [injection Ea as <-; cbn; lia|]. fold all_enc in Ea.
    destruct (enc v) as [x|] eqn:Ex; [|discriminate]. destruct (all_enc l) as [b|] eqn:Eb; [|discriminate]. injection Ea as <-.
    specialize (IHl ltac:(lia) b eq_refl). pose proof (IH t v x ltac:(lia) Hv Ex). rewrite app_length, Nat2Z.inj_add. lia.
  - injection Es as <-. rewrite app_length, Nat2Z.inj_add. apply Z.add_le_mono; [exact (uint_length (Z.of_nat (List.length l)) (conj (Nat2Z.is_nonneg _) H1))|].
    clear - H2. induction H2 as [|x l (Hx & Hz) _ IHl]; cbn [map List.concat fold_right]; [cbn; lia|]. rewrite !app_length, !Nat2Z.inj_add.
    replace (18 + Z.of_nat (List.length (fst x))) with (9 + Z.of_nat (List.length (fst x)) + 9) by ring. apply Z.add_le_mono; [|exact IHl]. apply Z.add_le_mono; [exact (bytes_length _ Hx)|exact (int_length _ Hz)].
  - rewrite enc_struct in Es. pose proof (f2_length _ _ _ H1) as L. apply (fields_length l 1 s Es); [|lia|lia]. intros v a Hv Ea. cbn [gval_size] in Hn. pose proof (size_in v l Hv).
    assert (exists t, Has t v) as (t & Ht). { clear - H1 Hv. induction H1; [contradiction|]. destruct Hv as [->|Hv]; eauto. }
    apply (IH t v a); [lia|exact Ht|exact Ea].
Qed.

(* ---- messages ---- *)
Theorem message_read id t v : int_ok id -> Has t v -> weight v + 20 <= 2 ^ 33 -> exists s, message id t v = Some s /\ forall r, receive id t (s ++ r) = Some (v, r).
Proof.
  intros Hid H Hw. destruct (gob_read t v H) as (a & Ea & Da). pose proof (enc_length t v a H Ea) as La. unfold message. rewrite Ea.
  set (body := put_int id ++ (if is_struct t then a else put_uint 0 ++ a)).
  assert (Lb : Z.of_nat (List.length body) < 2 ^ 33).
  { unfold body. rewrite app_length, Nat2Z.inj_add. pose proof (int_length id Hid). destruct (is_struct t); [lia|]. rewrite app_length, Nat2Z.inj_add. cbn [put_uint Z.leb Z.compare List.length]. change (put_uint 0) with [nb 0]. cbn [List.length]. lia. }
  unfold too_big. destruct (Z.leb_spec (2 ^ 33) (Z.of_nat (List.length body))); [lia|]. eexists. split; [reflexivity|]. intros r. unfold receive, put_bytes.
  rewrite <- app_assoc, uint_read by lia. unfold too_big. destruct (Z.leb_spec (2 ^ 33) (Z.of_nat (List.length body))); [lia|]. rewrite app_length.
  destruct (Z.ltb_spec (Z.of_nat (List.length body + List.length r)) (Z.of_nat (List.length body))); [lia|]. cbn [orb]. rewrite Nat2Z.id.
  destruct (firstn_all_app body r _ eq_refl) as (-> & ->). unfold body. rewrite int_read by exact Hid. rewrite Z.eqb_refl. cbn [negb].
  destruct (is_struct t).
  - specialize (Da []). rewrite app_nil_r in Da. rewrite Da. reflexivity.
  - rewrite uint_read by lia. specialize (Da []). rewrite app_nil_r in Da. rewrite Da. reflexivity.
Qed.
