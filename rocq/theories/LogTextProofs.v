(* The text of the log can be read back. *)
From Verif Require Import Base Env Server EventLoop Log LogText LogTextSpec Routes.
From Coq.Init Require Import Byte.
From Coq Require Import Strings.String Lia.
Local Open Scope nat_scope.
Local Notation length := List.length.

(* ---- splitting ---- *)
Lemma split_first (c : byte) x y x' y' : ~ In c x -> ~ In c x' -> x ++ c :: y = x' ++ c :: y' -> x = x' /\ y = y'.
Proof.
  revert x'. induction x as [|b x IH]; intros [|b' x'] H H' He; cbn in *.
  - injection He. auto.
  - injection He as -> ->. exfalso; apply H'; auto.
  - injection He as -> He. exfalso; apply H; auto.
  - injection He as -> He. destruct (IH x') as [-> ->]; auto.
Qed.
Lemma split_last (c : byte) x y x' y' : ~ In c y -> ~ In c y' -> x ++ c :: y = x' ++ c :: y' -> x = x' /\ y = y'.
Proof.
  intros H H' He. apply (f_equal (@rev byte)) in He. rewrite !rev_app_distr in He. cbn [rev] in He. rewrite <- !app_assoc in He. cbn [List.app] in He.
  apply split_first in He; [|rewrite <- in_rev; auto|rewrite <- in_rev; auto].
  destruct He as [H1 H2]. apply (f_equal (@rev byte)) in H1, H2. rewrite !rev_involutive in *. auto.
Qed.
Lemma split_length {A} (x y x' y' : list A) : length x = length x' -> x ++ y = x' ++ y' -> x = x' /\ y = y'.
Proof.
  revert x'. induction x as [|b x IH]; intros [|b' x'] H He; cbn in *; try discriminate; auto.
  injection He as -> He. destruct (IH x') as [-> ->]; auto.
Qed.

(* ---- numbers ---- *)
Definition is_digit (b : byte) : bool := (48 <=? Byte.to_nat b) && (Byte.to_nat b <=? 57).
Definition value (s : str) : nat := fold_left (fun n b => 10 * n + (Byte.to_nat b - 48)) s 0.

Lemma digit_spec d : d < 10 -> is_digit (digit d) = true /\ Byte.to_nat (digit d) - 48 = d.
Proof. intros H. do 10 (destruct d as [|d]; [vm_compute; auto|]). lia. Qed.

Lemma digits_spec f : forall n, n < f -> Forall (fun b => is_digit b = true) (digits f n) /\ value (digits f n) = n /\ digits f n <> [].
Proof.
  induction f as [|f IH]; intros n Hn; [lia|]. cbn [digits]. destruct (Nat.ltb_spec n 10) as [Hlt|Hge].
  - destruct (digit_spec n Hlt) as [H1 H2]. split; [constructor; auto|]. split; [|discriminate].
    unfold value. cbn [fold_left]. rewrite H2. lia.
  - assert (Hd : n / 10 < f). { assert (n / 10 < n) by (apply Nat.div_lt; lia). lia. }
    destruct (IH _ Hd) as (H1 & H2 & _).
    destruct (digit_spec (n mod 10)) as [H3 H4]; [apply Nat.mod_upper_bound; lia|].
    split; [apply Forall_app; split; auto|]. split.
    + unfold value in *. rewrite fold_left_app. cbn [fold_left]. rewrite H2, H4. pose proof (Nat.div_mod n 10). lia.
    + intros He. apply app_eq_nil in He. destruct He. discriminate.
Qed.

Lemma digits_length f : forall n k, n < f -> 1 <= k -> n < 10 ^ k -> length (digits f n) <= k.
Proof.
  induction f as [|f IH]; intros n k Hn Hk Hp; [lia|]. cbn [digits]. destruct (Nat.ltb_spec n 10) as [Hlt|Hge].
  - cbn. auto.
  - assert (Hd : n / 10 < f). { assert (n / 10 < n) by (apply Nat.div_lt; lia). lia. }
    destruct k as [|[|k]]; [lia|cbn in Hp; lia|].
    rewrite app_length. cbn [List.length]. specialize (IH (n / 10) (S k) Hd ltac:(lia)).
    assert (n / 10 < 10 ^ S k). { apply Nat.div_lt_upper_bound; [lia|]. exact Hp. } lia.
Qed.

Definition number (s : str) : Prop := Forall (fun b => is_digit b = true) s /\ s <> [].
Lemma show_nat_number n : number (show_nat n) /\ value (show_nat n) = n.
Proof. destruct (digits_spec (S n) n) as (H1 & H2 & H3); [lia|]. unfold show_nat. split; [split|]; auto. Qed.

(* digits, up to something else *)
Lemma split_number s s' (c c' : byte) r r' : number s -> number s' -> is_digit c = false -> is_digit c' = false ->
  s ++ c :: r = s' ++ c' :: r' -> s = s' /\ c :: r = c' :: r'.
Proof.
  intros [H _] [H' _] Hc Hc'. revert s' H'. induction H as [|b s Hb _ IH]; intros [|b' s'] H' He; cbn in *.
  - auto.
  - injection He as -> ->. inversion H'; subst. congruence.
  - injection He as -> He. congruence.
  - injection He as -> He. inversion H'; subst. destruct (IH s') as [-> Hr]; auto.
Qed.

Lemma skip_pad k k' s s' r r' : number s -> number s' -> repeat x20 k ++ s ++ r = repeat x20 k' ++ s' ++ r' -> s ++ r = s' ++ r'.
Proof.
  revert k'. induction k as [|k IH]; intros [|k'] H H' He; cbn in *.
  - auto.
  - destruct H as [H Hn]. destruct s as [|b s]; [congruence|]. cbn in He. injection He as -> He. inversion H; subst. discriminate.
  - destruct H' as [H' Hn]. destruct s' as [|b s']; [congruence|]. cbn in He. injection He as <- He. inversion H'; subst. discriminate.
  - injection He as He. eauto.
Qed.

Lemma padded_inj k n n' (c : byte) r r' : is_digit c = false ->
  padded k (show_nat n) ++ c :: r = padded k (show_nat n') ++ c :: r' -> n = n' /\ r = r'.
Proof.
  intros Hc He. unfold padded in He. rewrite <- !app_assoc in He.
  destruct (show_nat_number n) as [Hn Hv], (show_nat_number n') as [Hn' Hv'].
  apply skip_pad in He; auto. apply split_number in He; auto. destruct He as [He Hr]. injection Hr as Hr. split; congruence.
Qed.

(* ---- lines ---- *)
Lemma text_app_inj (p x y : str) : p ++ x = p ++ y -> x = y.
Proof. apply app_inv_head. Qed.

Lemma line_text_inj l l' : plain_line l -> plain_line l' -> line_text l = line_text l' -> l = l'.
Proof.
  destruct l as [a s|a n cens dps o], l' as [a' s'|a' n' cens' dps' o']; cbn [plain_line line_text]; intros (Ha & _) (Ha' & _) He;
    apply text_app_inj in He; unfold text in He; cbn [list_byte_of_string] in He; apply split_first in He; auto; destruct He as [-> He].
  - injection He as ->. auto.
  - discriminate.
  - discriminate.
  - repeat match type of He with ?c :: _ ++ _ = ?c :: _ ++ _ => injection He as He | (?c :: ?x) ++ _ = (?c :: ?x) ++ _ => cbn [List.app] in He; injection He as He end.
    cbn [List.app] in He. injection He as He.
    apply padded_inj in He; [|reflexivity]. destruct He as [-> He]. cbn [List.app] in He. injection He as He.
    apply padded_inj in He; [|reflexivity]. destruct He as [-> He]. cbn [List.app] in He. injection He as He.
    apply padded_inj in He; [|reflexivity]. destruct He as [-> He]. cbn [List.app] in He. injection He as He.
    destruct o as [s|], o' as [s'|]; cbn [List.app] in He; try discriminate; [injection He as ->|]; auto.
Qed.

Lemma list_byte_in c s : In c (list_byte_of_string s) <-> existsb (Byte.eqb c) (list_byte_of_string s) = true.
Proof.
  rewrite existsb_exists. split.
  - intros H. exists c. split; auto. destruct (Byte.eqb c c) eqn:E; auto. apply Byte.eqb_false in E. congruence.
  - intros (x & H & He). apply Byte.byte_dec_bl in He. congruence.
Qed.
Lemma number_without s c : number s -> is_digit c = false -> ~ In c s.
Proof. intros [H _] Hc Hi. rewrite Forall_forall in H. apply H in Hi. congruence. Qed.
Lemma padded_without k n c : is_digit c = false -> Byte.eqb c x20 = false -> ~ In c (padded k (show_nat n)).
Proof.
  intros Hc Hs Hi. unfold padded in Hi. apply in_app_iff in Hi. destruct Hi as [Hi|Hi].
  - apply repeat_spec in Hi. subst c. discriminate.
  - revert Hi. apply number_without; auto. apply show_nat_number.
Qed.
Lemma plain_text l : plain_line l -> ~ In x0a (line_text l).
Proof.
  assert (Hp : forall k n, ~ In x0a (padded k (show_nat n))) by (intros; apply padded_without; reflexivity).
  destruct l as [a s|a n cens dps o]; cbn [plain_line line_text]; unfold without; intros (Ha & Hb & Hs) Hi;
    rewrite !in_app_iff in Hi; repeat match goal with H : _ \/ _ |- _ => destruct H as [H|H] end; try (unfold text in Hi; apply list_byte_in in Hi; discriminate); auto;
    try (eapply Hp; eassumption).
  destruct o as [s|]; [|exact Hi]. apply in_app_iff in Hi. destruct Hi as [Hi|Hi]; auto.
  unfold text in Hi; apply list_byte_in in Hi; discriminate.
Qed.
Lemma plain_ends s : ~ In x0a s -> ends_line s = false.
Proof.
  intros H. unfold ends_line. destruct (rev s) as [|c r] eqn:Hr; auto.
  destruct (Byte.eqb c newline) eqn:He; auto. apply Byte.byte_dec_bl in He. exfalso. apply H. rewrite in_rev, Hr. left. auto.
Qed.
Lemma plain_written e : plain_entry e -> written (fst e) (snd e) = (fst e ++ line_text (snd e)) ++ [newline] /\ ~ In x0a (fst e ++ line_text (snd e)).
Proof.
  intros (H1 & H2 & H3). pose proof (plain_text _ H3) as H4. split.
  - unfold written. rewrite (plain_ends _ H4). destruct (snd e); rewrite app_assoc; reflexivity.
  - intros Hi. apply in_app_iff in Hi. unfold without in H2; tauto.
Qed.

Theorem readable l l' : Forall plain_entry l -> Forall plain_entry l' -> transcript l = transcript l' -> l = l'.
Proof.
  intros H. revert l'. induction H as [|e l He Hl IH]; intros l' H' Ht.
  - destruct H' as [|e' l' He' _]; auto. unfold transcript in Ht. cbn [flat_map] in Ht.
    destruct (plain_written _ He') as [-> _] in Ht. symmetry in Ht. apply app_eq_nil in Ht. destruct Ht as [Ht _]. apply app_eq_nil in Ht. destruct Ht; discriminate.
  - destruct H' as [|e' l' He' Hl'].
    + unfold transcript in Ht. cbn [flat_map] in Ht. rewrite (proj1 (plain_written _ He)) in Ht.
      apply app_eq_nil in Ht. destruct Ht as [Ht _]. apply app_eq_nil in Ht. destruct Ht; discriminate.
    + unfold transcript in Ht. cbn [flat_map] in Ht.
      destruct (plain_written _ He) as [H1 H2], (plain_written _ He') as [H1' H2']. rewrite H1, H1' in Ht.
      rewrite <- !(app_assoc _ [newline]) in Ht. cbn [List.app] in Ht.
      apply split_first in Ht; auto. destruct Ht as [Ht Hr].
      destruct He as (Hs & _ & Hp), He' as (Hs' & _ & Hp'). apply split_length in Ht; [|unfold is_stamp in *; congruence].
      destruct Ht as [Hf Ht]. apply line_text_inj in Ht; auto. rewrite (IH l'); auto. f_equal. destruct e, e'; cbn in *; congruence.
Qed.

(* ---- notes ---- *)
Lemma show_int_inj z z' (c : byte) r r' : is_digit c = false -> show_int z ++ c :: r = show_int z' ++ c :: r' -> z = z' /\ r = r'.
Proof.
  intros Hc He. unfold show_int in He.
  destruct (show_nat_number (Z.to_nat (- z))) as [Hn Hv], (show_nat_number (Z.to_nat (- z'))) as [Hn' Hv'].
  destruct (show_nat_number (Z.to_nat z)) as [Hm Hw], (show_nat_number (Z.to_nat z')) as [Hm' Hw'].
  destruct (Z.ltb_spec z 0), (Z.ltb_spec z' 0); cbn [List.app] in He.
  - injection He as He. apply split_number in He; auto. destruct He as [He Hr]. injection Hr as Hr. split; auto. rewrite He in Hv. lia.
  - destruct Hm' as [Hm' Hne]. destruct (show_nat (Z.to_nat z')); [congruence|]. cbn in He. injection He as <- He. inversion Hm'; subst; discriminate.
  - destruct Hm as [Hm Hne]. destruct (show_nat (Z.to_nat z)); [congruence|]. cbn in He. injection He as -> He. inversion Hm; subst; discriminate.
  - apply split_number in He; auto. destruct He as [He Hr]. injection Hr as Hr. split; auto. rewrite He in Hw. lia.
Qed.
Lemma show_int_number z : exists s, (show_int z = s \/ show_int z = x2d :: s) /\ number s.
Proof. unfold show_int. destruct (z <? 0)%Z; eexists; (split; [eauto|apply show_nat_number]). Qed.

(* A note is its namespace, a quote, and something without quotes. *)
Definition tail_text (x : note) : str :=
  match x with
  | NTask t _ => text ") " ++ verb t
  | NBalance _ want got from => text ") load balancing (want " ++ show_int want ++ text " dps, got " ++ show_nat got ++ text " from " ++ from ++ text ")"
  end.
Definition note_ns (x : note) : str := match x with NTask _ ns | NBalance ns _ _ _ => ns end.
Lemma note_split x : note_text x = text "(ns '" ++ note_ns x ++ x27 :: tail_text x.
Proof. destruct x; reflexivity. Qed.
Lemma tail_plain x : plain_note x -> ~ In x27 (tail_text x).
Proof.
  destruct x as [t ns|ns want got from]; cbn [plain_note tail_text]; intros H Hi.
  - destruct t; vm_compute in Hi; intuition discriminate.
  - destruct (show_int_number want) as (s & Hs & Hn).
    repeat (apply in_app_iff in Hi; destruct Hi as [Hi|Hi]); try (unfold text in Hi; apply list_byte_in in Hi; discriminate); auto.
    + destruct Hs as [Hs|Hs]; rewrite Hs in Hi; [|destruct Hi as [Hi|Hi]; [discriminate|]]; revert Hi; apply number_without; auto.
    + revert Hi. apply number_without; [apply show_nat_number|reflexivity].
Qed.

Theorem notes_readable x x' : plain_note x -> plain_note x' -> note_text x = note_text x' -> x = x'.
Proof.
  intros H H' He. rewrite !note_split in He. apply text_app_inj in He. apply split_last in He; [|apply tail_plain; auto|apply tail_plain; auto].
  destruct He as [Hns He]. destruct x as [t ns|ns want got from], x' as [t' ns'|ns' want' got' from']; cbn [note_ns tail_text plain_note] in *; subst ns'.
  - f_equal. destruct t, t'; try reflexivity; try discriminate; exfalso; cbn in H, H'; intuition.
  - destruct t; discriminate.
  - destruct t'; discriminate.
  - apply text_app_inj in He. unfold text in He. cbn [list_byte_of_string List.app] in He. apply show_int_inj in He; [|reflexivity]. destruct He as [-> He].
    cbn [List.app] in He. injection He as He.
    destruct (show_nat_number got) as [Hn Hv], (show_nat_number got') as [Hn' Hv'].
    apply split_number in He; auto. destruct He as [He Hr]. cbn [List.app] in Hr. injection Hr as Hr. apply app_inv_tail in Hr. congruence.
Qed.

(* ---- columns ---- *)
Lemma bars_app x y : bars (x ++ y) = bars x ++ bars y.
Proof. apply map_app. Qed.
Lemma bars_without s : without x7c s -> bars s = repeat false (length s).
Proof.
  unfold without, bars. induction s as [|b s IH]; intros H; cbn [map List.length repeat]; auto.
  rewrite IH by (intros Hi; apply H; right; auto). f_equal. destruct (Byte.eqb x7c b) eqn:He; auto. apply Byte.byte_dec_bl in He. exfalso. apply H. left. auto.
Qed.
Lemma padded_length k n : 1 <= k -> n < 10 ^ k -> length (padded k (show_nat n)) = k.
Proof.
  intros Hk Hn. unfold padded. rewrite app_length, repeat_length. pose proof (digits_length (S n) n k ltac:(lia) Hk Hn). unfold show_nat. lia.
Qed.
Lemma bars_padded k n : 1 <= k -> n < 10 ^ k -> bars (padded k (show_nat n)) = repeat false k.
Proof.
  intros Hk Hn. rewrite bars_without by (unfold without; apply padded_without; reflexivity). rewrite padded_length; auto.
Qed.

Theorem aligned a n cens dps a' n' cens' dps' : length a = length a' -> without x7c a -> without x7c a' ->
  n < 10 ^ 3 -> n' < 10 ^ 3 -> cens < 10 ^ 6 -> cens' < 10 ^ 6 -> dps < 10 ^ 6 -> dps' < 10 ^ 6 ->
  bars (line_text (NodeLine a n cens dps None)) = bars (line_text (NodeLine a' n' cens' dps' None)).
Proof.
  intros Hl Ha Ha' H1 H2 H3 H4 H5 H6. cbn [line_text].
  rewrite !bars_app. rewrite !(bars_padded 3), !(bars_padded 6) by (auto; lia). rewrite (bars_without a), (bars_without a') by auto. rewrite Hl. reflexivity.
Qed.
