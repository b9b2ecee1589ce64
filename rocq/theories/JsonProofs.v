(* The model of encoding/json succeeds exactly on what JSON can express. *)
From Coq Require Import ZArith SpecFloat Lia.
From Verif Require Import Base Num Env Core JsonSpec.

Lemma digits_bound m : (Z.pos m < 2 ^ Z.pos (digits2_pos m))%Z.
Proof.
  induction m as [m IH|m IH|]; cbn [digits2_pos]; [| |reflexivity];
    rewrite Pos2Z.inj_succ, Z.pow_succ_r by lia; lia.
Qed.

Lemma small m e : bounded prec64 emax64 m e = true -> (e < 971 \/ e = 971 /\ Z.pos m <= 9007199254740991)%Z.
Proof.
  unfold bounded, canonical_mantissa. intros H. apply andb_prop in H. destruct H as (H1 & H2).
  apply Zeq_bool_eq in H1. apply Z.leb_le in H2. unfold fexp, emin, prec64, emax64 in *.
  destruct (Z.eq_dec e 971) as [->|]; [right|left; lia]. split; auto.
  assert (H : (Z.pos (digits2_pos m) <= 53)%Z) by lia. pose proof (digits_bound m) as Hm.
  assert (2 ^ Z.pos (digits2_pos m) <= 2 ^ 53)%Z by (apply Z.pow_le_mono_r; lia).
  change (2 ^ 53)%Z with 9007199254740992%Z in *. lia.
Qed.

Lemma cmp_big m e K : (e < 971 \/ e = 971 /\ Z.pos m <= Z.pos K)%Z ->
  match (971 ?= e)%Z with Eq => Pos.compare_cont Eq K m | Lt => Lt | Gt => Gt end <> Lt.
Proof.
  intros [H|(-> & H)].
  - destruct (Z.compare_spec 971 e); try lia. discriminate.
  - rewrite Z.compare_refl. pose proof (Pos.compare_spec K m) as Hs. unfold Pos.compare in Hs.
    destruct Hs; try discriminate. lia.
Qed.
Lemma cmp_low m e K : (e < 971 \/ e = 971 /\ Z.pos m <= Z.pos K)%Z ->
  match (e ?= 971)%Z with Eq => CompOpp (Pos.compare_cont Eq m K) | Lt => Gt | Gt => Lt end <> Lt.
Proof.
  intros [H|(-> & H)].
  - destruct (Z.compare_spec e 971); try lia. discriminate.
  - rewrite Z.compare_refl. pose proof (Pos.compare_spec m K) as Hs. unfold Pos.compare in Hs.
    destruct Hs; try discriminate. lia.
Qed.

Lemma max_is : @fmaxv f64 = S754_finite false 9007199254740991 971.
Proof. vm_compute. reflexivity. Qed.
Lemma low_is : @fsub f64 f0 fmaxv = S754_finite true 9007199254740991 971.
Proof. vm_compute. reflexivity. Qed.
Lemma begins : year_begin 0 = (-62167219200 * 10 ^ 9)%Z /\ year_begin 10000 = (253402300800 * 10 ^ 9)%Z.
Proof. vm_compute. split; reflexivity. Qed.

Lemma finite_number (x : F f64) : is_f64 x -> (finite x = true <-> a_number x).
Proof.
  intros Hx. unfold finite.
  rewrite low_is, max_is.
  change (@feqb f64) with SFeqb. change (@fltb f64) with SFltb.
  destruct x as [s|s| |s m e]; cbn [a_number];
    [destruct s; split; auto|destruct s; split; try discriminate; intros []|split; try discriminate; intros []|].
  unfold is_f64 in Hx. cbn [valid_binary] in Hx. pose proof (cmp_big m e _ (small m e Hx)) as H1. pose proof (cmp_low m e _ (small m e Hx)) as H2.
  remember 9007199254740991%positive as K eqn:HK. clear HK.
  unfold SFeqb, SFltb. cbn [SFcompare]. split; auto. intros _.
  assert (Hr : Pos.compare_cont Eq m m = Eq) by apply Pos.compare_refl.
  destruct s; rewrite Z.compare_refl, Hr; cbn [CompOpp andb negb].
  - destruct (match (e ?= 971)%Z with Eq => _ | Lt => _ | Gt => _ end); auto; congruence.
  - destruct (match (971 ?= e)%Z with Eq => _ | Lt => _ | Gt => _ end); auto; congruence.
Qed.

Theorem marshal_exact : forall l : list (wire f64), Forall (fun x : wire f64 => Forall is_f64 (wi_vec x)) l ->
  (Forall Expressible l -> marshal l = Some l) /\ (~ Forall Expressible l -> marshal l = None).
Proof.
  intros l Hl. assert (H : forallb encodable l = true <-> Forall Expressible l).
  { rewrite forallb_forall, Forall_forall. rewrite Forall_forall in Hl.
    assert (He : forall x, In x l -> (encodable x = true <-> Expressible x)); [|split; intros Ha x Hx; apply He; auto].
    intros x Hx. unfold encodable, Expressible. rewrite Bool.andb_true_iff, forallb_forall, Forall_forall.
    specialize (Hl x Hx). rewrite Forall_forall in Hl. unfold year_ok. rewrite Bool.andb_true_iff, Z.leb_le, Z.ltb_lt.
    rewrite (proj1 begins), (proj2 begins).
    split; intros (H1 & H2); split; auto; intros r Hr; apply finite_number; auto. }
  unfold marshal. destruct (forallb encodable l); split; intros Ha; auto.
  - exfalso. apply Ha. apply H. auto.
  - exfalso. rewrite <- H in Ha. discriminate.
Qed.
