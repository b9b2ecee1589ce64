(* base64 is read and written as RFC 4648 says. *)
From Verif Require Import Base Env Server Routes JsonSpec JsonText TextSpec TextParse TextUtf8.
From Coq.Init Require Import Byte.
From Coq Require Import Strings.Byte Strings.String.
Local Open Scope list_scope.

Lemma num_bn c : num c = bn c.
Proof. unfold num, bn. rewrite Byte.to_nat_via_N. lia. Qed.
Lemma small_all (p : Z -> bool) k : forallb p (map Z.of_nat (seq 0 k)) = true -> forall v, (0 <= v < Z.of_nat k)%Z -> p v = true.
Proof.
  intros H v Hv. rewrite forallb_forall in H. apply H. apply in_map_iff. exists (Z.to_nat v). split; [lia|]. apply in_seq. lia.
Qed.
Lemma letter_bound c v : Letter c v -> (0 <= v < 64)%Z.
Proof.
  intros (H0 & H). assert (Hn : (Z.to_nat v < 64)%nat); [|lia].
  change 64%nat with (List.length (text "ABCDEFGHIJKLMNOPQRSTUVWXYZabcdefghijklmnopqrstuvwxyz0123456789+/")). apply nth_error_Some. congruence.
Qed.
Lemma letters_ok v : (0 <= v < 64)%Z ->
  (match b64_val (b64_char v) with Some x => (x =? v)%Z | None => false end && negb (Byte.eqb (b64_char v) pad)
   && negb (one_of [x0d; x0a] (b64_char v)) && negb (Byte.eqb (b64_char v) quote) && negb (Byte.eqb (b64_char v) backslash)
   && (32 <=? bn (b64_char v))%Z)%bool = true.
Proof.
  intros Hv. refine (small_all (fun v => _) 64 _ v Hv). vm_compute. reflexivity.
Qed.
Lemma letter_char c v : Letter c v -> c = b64_char v.
Proof. intros (H0 & H). unfold b64_char. symmetry. apply nth_error_nth. exact H. Qed.
Lemma char_letter v : (0 <= v < 64)%Z -> Letter (b64_char v) v.
Proof.
  intros Hv. split; [lia|]. unfold b64_char. apply nth_error_nth'.
  change (Z.to_nat v < 64)%nat. lia.
Qed.
Lemma letter_read c v : Letter c v -> b64_val c = Some v /\ Byte.eqb c pad = false /\ one_of [x0d; x0a] c = false /\ (0 <= v < 64)%Z.
Proof.
  intros H. pose proof (letter_bound c v H) as Hv. rewrite (letter_char c v H). pose proof (letters_ok v Hv) as L.
  rewrite !andb_true_iff, !negb_true_iff in L. destruct L as (((((L1 & L2) & L3) & _) & _) & _).
  destruct (b64_val (b64_char v)) as [x|]; [|discriminate L1]. apply Z.eqb_eq in L1. subst. auto.
Qed.

Lemma nb_is x a : x = bn a -> nb x = a.
Proof. intros ->. apply nb_bn. Qed.
Theorem quads_read l s : Base64 l s -> b64_quads s = Some l.
Proof.
  induction 1 as [|a cx cy x y Lx Ly E|a b cx cy cz x y z Lx Ly Lz E|a b c cx cy cz cw x y z w l s Lx Ly Lz Lw E H IH]; [reflexivity|..];
    rewrite !num_bn in E; cbn [b64_quads];
    try change (text "==") with [x3d; x3d]; try change (text "=") with [x3d]; cbv iota.
  - destruct (letter_read cx x Lx) as (-> & _ & _ & Bx). destruct (letter_read cy y Ly) as (-> & _ & _ & By).
    change (Byte.eqb x3d pad) with true. cbn. pose proof (bn_bound a). do 2 f_equal. apply nb_is. div_lia.
  - destruct (letter_read cx x Lx) as (-> & _ & _ & Bx). destruct (letter_read cy y Ly) as (-> & _ & _ & By).
    destruct (letter_read cz z Lz) as (-> & -> & _ & Bz).
    change (Byte.eqb x3d pad) with true. cbv iota. pose proof (bn_bound a). pose proof (bn_bound b).
    do 2 f_equal; [apply nb_is; div_lia|f_equal; apply nb_is; div_lia].
  - destruct (letter_read cx x Lx) as (-> & _ & _ & Bx). destruct (letter_read cy y Ly) as (-> & _ & _ & By).
    destruct (letter_read cz z Lz) as (-> & -> & _ & Bz). destruct (letter_read cw w Lw) as (-> & -> & _ & Bw). rewrite IH.
    pose proof (bn_bound a). pose proof (bn_bound b). pose proof (bn_bound c).
    cbn [app]. do 2 f_equal; [apply nb_is; div_lia|]. f_equal; [apply nb_is; div_lia|]. f_equal. apply nb_is. div_lia.
Qed.

(* Line ends are skipped. *)
Theorem bytes_read l s : Base64 l (filter (fun c => negb (one_of [x0d; x0a] c)) s) -> b64_decode s = Some l.
Proof. apply quads_read. Qed.

Theorem encode_ok l : Base64 l (b64_encode l).
Proof.
  induction l as [l IH] using (induction_ltof1 _ (@List.length byte)). unfold ltof in IH.
  destruct l as [|a [|b [|c r]]]; cbn [b64_encode].
  - constructor.
  - pose proof (bn_bound a). eapply b64_one; [apply char_letter|apply char_letter|rewrite !num_bn]; div_lia.
  - pose proof (bn_bound a). pose proof (bn_bound b). eapply b64_two; [apply char_letter|apply char_letter|apply char_letter|rewrite !num_bn]; div_lia.
  - pose proof (bn_bound a). pose proof (bn_bound b). pose proof (bn_bound c). cbn [app].
    eapply b64_three; [apply char_letter|apply char_letter|apply char_letter|apply char_letter|rewrite !num_bn|apply IH; cbn; lia]; div_lia.
Qed.
Lemma letter_plain c v : Letter c v -> c <> x22 /\ c <> x5c /\ (32 <= Byte.to_nat c)%nat.
Proof.
  intros H. pose proof (letter_bound c v H) as Hv. rewrite (letter_char c v H). pose proof (letters_ok v Hv) as L.
  rewrite !andb_true_iff, !negb_true_iff in L. destruct L as ((((_ & _) & L4) & L5) & L6). apply beq_false in L4, L5.
  split; [exact L4|]. split; [exact L5|]. apply low_iff. apply Z.leb_le in L6. apply Z.ltb_ge. exact L6.
Qed.
Lemma base64_no_ends l s : Base64 l s -> filter (fun c => negb (one_of [x0d; x0a] c)) s = s.
Proof.
  induction 1 as [|a cx cy x y Lx Ly E|a b cx cy cz x y z Lx Ly Lz E|a b c cx cy cz cw x y z w l s Lx Ly Lz Lw E H IH]; [reflexivity|..]; cbn [filter];
    repeat match goal with L : Letter ?c ?v |- _ => let R := fresh in destruct (letter_read c v L) as (_ & _ & R & _); rewrite R; clear L R end;
    cbn [negb]; [reflexivity|reflexivity|rewrite IH; reflexivity].
Qed.
Theorem bytes_round l : b64_decode (b64_encode l) = Some l.
Proof. apply bytes_read. rewrite (base64_no_ends l) by apply encode_ok. apply encode_ok. Qed.
Theorem base64_chars l s : Base64 l s -> Chars s.
Proof.
  assert (Hp : forall c v s, Letter c v -> Chars s -> Chars (c :: s)).
  { intros c v s' L H. destruct (letter_plain c v L) as (A & B & C). apply chars_plain; auto. }
  assert (He : forall s, Chars s -> Chars (x3d :: s)). { intros s' H. apply chars_plain; try discriminate; auto. apply low_iff. reflexivity. }
  induction 1; eauto using chars_nil.
  - eapply Hp; eauto. eapply Hp; eauto. apply He, He, chars_nil.
  - eapply Hp; eauto. eapply Hp; eauto. eapply Hp; eauto. apply He, chars_nil.
Qed.
