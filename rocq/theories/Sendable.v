(* What is read from a body can be sent to the nodes. *)
From Coq Require Import ZArith QArith SpecFloat Lia.
From Verif Require Import Base Num MathUtils Env Centroid CManager Server Core Routes Json JsonSpec BodySpec
  FloatSpec FloatText JsonText TextSpec TextParse TextTime TextLoose TextNumSpec TextNum TextWholeSpec Gob GobWire GobSpec GobCalls.
From Coq.Init Require Import Byte.
From Coq Require Import Strings.Byte Strings.String.
Local Open Scope list_scope.
Local Open Scope nat_scope.
Notation len := List.length.

(* ---- numbers ---- *)
Lemma digits_of_int i : Int i -> forallb is_digit i = true.
Proof.
  destruct 1 as [|c s Hc Hs]; [reflexivity|]. cbn [forallb]. apply andb_true_intro. split.
  - cbn in Hc. repeat destruct Hc as [<-|Hc]; try contradiction; reflexivity.
  - apply forallb_forall. intros d Hd. apply (proj1 (Forall_forall _ _) Hs) in Hd. cbn in Hd. repeat destruct Hd as [<-|Hd]; try contradiction; reflexivity.
Qed.
Lemma digits_of_frac f : Frac f -> forallb is_digit (tl f) = true.
Proof.
  destruct 1 as [|s [_ Hs]]; [reflexivity|]. cbn [text app tl list_byte_of_string]. 
  apply forallb_forall. intros d Hd. apply (proj1 (Forall_forall _ _) Hs) in Hd. cbn in Hd. repeat destruct Hd as [<-|Hd]; try contradiction; reflexivity.
Qed.
Lemma read_finite s z : read_f64 s = Some z -> is_fin z = true.
Proof.
  unfold read_f64. destruct (sign_part _ s) as [g r0]. destruct (int_part r0) as [[i r1]|] eqn:Ei; [|discriminate].
  destruct (frac_part r1) as [[f r2]|] eqn:Ef; [|discriminate].
  apply int_spec in Ei. apply frac_spec in Ef. destruct Ei as (_ & Hi). destruct Ef as (_ & Hf).
  assert (Hd : (0 <= digits_value (i ++ tl f))%Z).
  { apply (decimal_read (i ++ tl f)). apply decimal_of. rewrite forallb_app, digits_of_int, digits_of_frac by assumption. reflexivity. }
  set (neg := match g with [] => false | _ => true end). set (e := (exponent r2 - Z.of_nat (len (tl f)))%Z).
  destruct (round_decimal_ok neg (digits_value (i ++ tl f)) e Hd) as (R1 & R2).
  destruct (Qlt_le_dec (inject_Z (digits_value (i ++ tl f)) * Qpower 10 e) limit) as [Hl|Hl].
  - destruct (R1 Hl) as ((F & _) & _). destruct (round_decimal neg _ e) as [x|x| |x m' e']; intros [= <-]; exact F.
  - rewrite (R2 Hl). discriminate.
Qed.
Lemma read_int_ok s z : read_int s = Some z -> int_ok z.
Proof.
  unfold read_int, int_ok. destruct (sign_part _ s) as [g d]. destruct (all_digits d); [|discriminate]. cbv zeta.
  match goal with |- (if ?b then _ else _) = _ -> _ => destruct b eqn:Eb end; [|discriminate]. intros [= <-].
  apply andb_prop in Eb. destruct Eb as (E1 & E2). apply Z.leb_le in E1. apply Z.ltb_lt in E2. split; assumption.
Qed.

(* ---- sizes ---- *)
Fixpoint within (B : nat) (t : tree) : Prop :=
  match t with
  | TStr raw => len raw <= B
  | TArr l => len l <= B /\ fold_right (fun t P => within B t /\ P) True l
  | TObj m => fold_right (fun x P => within B (snd x) /\ P) True m
  | _ => True
  end.
Lemma value_nonempty n t s : Value n t s -> 1 <= len s.
Proof. intros H. destruct (value_head _ _ _ H) as (c & r & -> & _). cbn. lia. Qed.
Lemma texts_within :
  (forall n t s, Value n t s -> forall B, len s <= B -> within B t) /\
  (forall n l s, Elements n l s -> forall B, len s <= B -> len l <= len s /\ fold_right (fun t P => within B t /\ P) True l) /\
  (forall n m s, Members n m s -> forall B, len s <= B -> fold_right (fun x P => within B (snd x) /\ P) True m).
Proof.
  apply texts_ind; intros; cbn [within fold_right snd] in *; rewrite ?app_length in *; cbn [List.length] in *; auto;
    repeat match goal with H : Value _ _ _ |- _ => apply value_nonempty in H end;
    match goal with HB : (_ <= ?b)%nat |- _ => repeat match goal with H : forall x : nat, _ |- _ => specialize (H b) end end.
  - lia.
  - split; [lia|auto].
  - destruct H1 as (H3 & H4); [lia|]. split; [lia|exact H4].
  - apply H1. lia.
  - split; [lia|]. split; [|auto]. apply H1. lia.
  - destruct H4 as (H6 & H7); [lia|]. split; [|split; [apply H1; lia|exact H7]]. change (len (text ",")) with 1. lia.
  - split; [|auto]. apply H4. lia.
  - split; [apply H4; lia|]. apply H7. lia.
Qed.
Lemma skip_length {A} n (l : list A) : len (skipn n l) = len l - n.
Proof. apply skipn_length. Qed.
Lemma utf8_length n : len (utf8 n) <= 4.
Proof. unfold utf8. repeat match goal with |- context [if ?b then _ else _] => destruct b end; cbn; lia. Qed.
Lemma u4_length s n : u4 s = Some n -> 6 <= len s.
Proof. unfold u4. do 6 (destruct s as [|? s]; [discriminate|]). intros _. cbn. lia. Qed.
Lemma unquote_loop_length f s : len (unquote_loop f s) <= 3 * len s.
Proof.
  revert s. induction f as [|f IH]; intros s; cbn [unquote_loop]; [cbn; lia|]. destruct s as [|c r] eqn:Es; [cbn; lia|]. rewrite <- Es.
  destruct (Byte.eqb c backslash).
  - destruct (u4 s) as [n|] eqn:En.
    + apply u4_length in En.
      assert (H6 : len (unquote_loop f (skipn 6 s)) <= 3 * (len s - 6)) by (rewrite <- (skip_length 6 s); apply IH). pose proof (utf8_length n).
      destruct (if high n then u4 (skipn 6 s) else None) as [m|] eqn:Em.
      * destruct (low m); rewrite app_length; [|cbn [replacement List.length]; lia].
        destruct (high n); [|discriminate]. apply u4_length in Em. rewrite skip_length in Em.
        pose proof (IH (skipn 12 s)) as H12. rewrite skip_length in H12. pose proof (utf8_length (65536 + (n - 55296) * 1024 + (m - 56320))). lia.
      * rewrite app_length. destruct (high n || low n); cbn [replacement List.length]; lia.
    + subst s. destruct r as [|d r1]; [cbn; lia|]. cbn [List.length]. pose proof (IH r1). lia.
  - destruct (rune_size s) as [|k] eqn:Ek.
    + rewrite app_length. pose proof (IH r). subst s. cbn [replacement List.length]. lia.
    + rewrite app_length, firstn_length. pose proof (IH (skipn (S k) s)) as H. rewrite skip_length in H. lia.
Qed.
Lemma unquote_length raw : len (unquote raw) <= 3 * len raw.
Proof. apply unquote_loop_length. Qed.
Lemma quads_length n : forall s l, len s <= n -> b64_quads s = Some l -> len l <= len s.
Proof.
  induction n as [|n IH]; intros s l Hn.
  - destruct s; [|cbn in Hn; lia]. intros [= <-]. cbn. lia.
  - destruct s as [|a [|b [|c [|d r]]]]; try discriminate; [intros [= <-]; cbn; lia|]. cbn [b64_quads]. cbn [List.length] in *.
    destruct (b64_val a); [|discriminate]. destruct (b64_val b); [|discriminate]. destruct (Byte.eqb c pad).
    + destruct r; [|discriminate]. destruct (Byte.eqb d pad); [|discriminate]. intros [= <-]. cbn. lia.
    + destruct (b64_val c); [|discriminate]. destruct (Byte.eqb d pad).
      * destruct r; [|discriminate]. intros [= <-]. cbn. lia.
      * destruct (b64_val d); [|discriminate]. destruct (b64_quads r) as [l'|] eqn:Er; [|discriminate]. intros [= <-]. apply IH in Er; [|lia]. cbn. lia.
Qed.
Lemma filter_len {A} (p : A -> bool) l : len (filter p l) <= len l.
Proof. induction l; cbn; [lia|]. destruct (p a); cbn; lia. Qed.
Lemma decode_length s l : b64_decode s = Some l -> len l <= len s.
Proof. intros H. apply (quads_length (len s)) in H; [|apply filter_len]. pose proof (filter_len (fun c => negb (one_of [x0d; x0a] c)) s). eapply Nat.le_trans; [exact H|]. assumption. Qed.

(* ---- values ---- *)
Lemma all_some_length {A B} (f : A -> option B) l r : all_some f l = Some r -> len r = len l.
Proof.
  revert r. induction l as [|x l IH]; intros r; cbn; [intros [= <-]; auto|]. destruct (f x); [|discriminate]. destruct (all_some f l); [|discriminate].
  intros [= <-]. cbn. f_equal. auto.
Qed.
Lemma all_some_in {A B} (f : A -> option B) l r y : all_some f l = Some r -> In y r -> exists x, In x l /\ f x = Some y.
Proof.
  revert r. induction l as [|x l IH]; intros r; cbn; [intros [= <-] []|]. destruct (f x) eqn:Ex; [|discriminate]. destruct (all_some f l) as [q|]; [|discriminate].
  intros [= <-] [<-|Hy]; [eauto|]. destruct (IH q eq_refl Hy) as (x' & H1 & H2). eauto.
Qed.
Notation jn := (denoted read_f64).
Lemma vec_ok B t v : within B t -> dec_vec (jn t) = Some v -> len v <= B /\ Forall (fun x => is_fin x = true) v.
Proof.
  destruct t; cbn; try discriminate; [intros _ [= <-]; cbn; split; [lia|constructor]|].
  intros (Hl & _) H. split; [pose proof (all_some_length _ _ _ H) as L; rewrite map_length in L; eapply Nat.le_trans; [apply Nat.eq_le_incl; exact L|exact Hl]|].
  apply Forall_forall. intros x Hx. destruct (all_some_in _ _ _ _ H Hx) as (j & Hj & Ej). apply in_map_iff in Hj. destruct Hj as (t & <- & _).
  destruct t; cbn in Ej; try discriminate; [injection Ej as <-; reflexivity|]. eapply read_finite; eauto.
Qed.
Lemma bytes_ok B t p : within B t -> dec_bytes b64_decode (jn t) = Some p -> len p <= 3 * B.
Proof.
  destruct t as [| | |raw|l|]; cbn; try discriminate; [intros _ [= <-]; cbn; lia|intros Hr H|intros (Hl & _) H].
  - apply decode_length in H. pose proof (unquote_length raw). lia.
  - pose proof (all_some_length _ _ _ H) as L. rewrite map_length in L. eapply Nat.le_trans; [apply Nat.eq_le_incl; exact L|]. lia.
Qed.
Lemma str_ok B t s s' : within B t -> len s <= 3 * B -> dec_str (jn t) s = Some s' -> len s' <= 3 * B.
Proof.
  destruct t as [| | |raw|l|]; cbn; try discriminate; [intros _ H [= <-]; exact H|intros Hr _ [= <-]]. pose proof (unquote_length raw). lia.
Qed.
Lemma time_ok t e e' : instant_ok e -> dec_time parse_time (jn t) e = Some e' -> instant_ok e'.
Proof. destruct t as [| | |raw|l|]; cbn; try discriminate; [intros H [= <-]; exact H|intros _ H]. apply time_iff in H. eapply times_ok; eauto. Qed.
Lemma int_val_ok t e e' : int_ok e -> dec_int (jn t) e = Some e' -> int_ok e'.
Proof. destruct t as [| |s|raw|l|]; cbn; try discriminate; [intros H [= <-]; exact H|intros _ H]. eapply read_int_ok; eauto. Qed.
Lemma members_inv {S : Type} (set : str -> json f64 -> S -> option S) (P : S -> Prop) B m : fold_right (fun x Q => within B (snd x) /\ Q) True m ->
  (forall n t s s', within B t -> P s -> set n (jn t) s = Some s' -> P s') ->
  forall s s', P s -> members set (map (fun x => (unquote (fst x), jn (snd x))) m) s = Some s' -> P s'.
Proof.
  intros Hm Hset. induction m as [|[n t] m IH]; intros s s' Hs; cbn in *; [intros [= <-]; exact Hs|]. destruct Hm as (Ht & Hm).
  destruct (set _ (jn t) s) as [s1|] eqn:E; [|discriminate]. apply IH; auto. eapply Hset; eauto.
Qed.
Lemma struct_inv {S : Type} (set : str -> json f64 -> S -> option S) (P : S -> Prop) B t : within B t ->
  (forall n t s s', within B t -> P s -> set n (jn t) s = Some s' -> P s') ->
  forall s s', P s -> dec_struct set (jn t) s = Some s' -> P s'.
Proof.
  intros Ht Hset s s' Hs. destruct t; cbn in *; try discriminate; [intros [= <-]; exact Hs|]. eapply members_inv; eauto.
Qed.
Definition wire_ok (B : nat) (w : wire f64) : Prop :=
  len (wi_vec w) <= B /\ Forall (fun x => is_fin x = true) (wi_vec w) /\ len (wi_payload w) <= 3 * B /\ instant_ok (wi_expires w).
Lemma wire_inv B t w w' : within B t -> wire_ok B w -> dec_dp parse_time b64_decode (jn t) w = Some w' -> wire_ok B w'.
Proof.
  intros Ht. apply (struct_inv _ (wire_ok B) B t Ht). clear. intros n t [v p e b] w' Ht (H1 & H2 & H3 & H4). unfold set_dp, wire_ok. cbn [wi_vec wi_payload wi_expires] in *.
  repeat match goal with |- (if ?b then _ else _) = _ -> _ => destruct b end.
  - destruct (dec_vec (jn t)) as [v'|] eqn:E; [|discriminate]. intros [= <-]. cbn. destruct (vec_ok B t v' Ht E). auto.
  - destruct (dec_bytes _ (jn t)) as [p'|] eqn:E; [|discriminate]. intros [= <-]. cbn. pose proof (bytes_ok B t p' Ht E). auto.
  - destruct (dec_time _ (jn t) e) as [e'|] eqn:E; [|discriminate]. intros [= <-]. cbn. pose proof (time_ok t e e' H4 E). auto.
  - destruct (dec_bool (jn t) b) as [b'|]; [|discriminate]. intros [= <-]. cbn. auto.
  - intros [= <-]. cbn. auto.
Qed.
Lemma zero_time_ok : instant_ok ((-62135596800) * 10 ^ 9).
Proof. unfold instant_ok, year_1. rewrite Z.div_mul by lia. lia. Qed.
Lemma document_within t s : Document t s -> within (len s) t.
Proof. intros (w1 & v & w2 & -> & _ & _ & H). apply (proj1 texts_within _ _ _ H). rewrite !app_length. lia. Qed.
Lemma put_bounds s o : text_put read_f64 s = Some o -> len (po_ns o) <= 3 * len s /\ wire_ok (len s) (po_dp o).
Proof.
  unfold text_put, JsonText.body. destruct (parse s) as [t|] eqn:Ep; [|discriminate]. cbn [option_map dec_put].
  assert (Ht : within (len s) t) by (apply document_within; apply parse_iff; exact Ep).
  apply (struct_inv _ (fun o => len (po_ns o) <= 3 * len s /\ wire_ok (len s) (po_dp o)) _ t Ht).
  - clear - s. intros n t [ns a d] o' Ht (H1 & H2). unfold set_put. cbn [po_ns po_dp] in *. repeat match goal with |- (if ?b then _ else _) = _ -> _ => destruct b end.
    + destruct (dec_str (jn t) ns) as [x|] eqn:E; [|discriminate]. intros [= <-]. cbn. pose proof (str_ok _ t ns x Ht H1 E). auto.
    + destruct (dec_bool (jn t) a) as [x|] eqn:E; [|discriminate]. intros [= <-]. cbn. auto.
    + destruct (dec_dp _ _ (jn t) d) as [x|] eqn:E; [|discriminate]. intros [= <-]. cbn. pose proof (wire_inv _ t d x Ht H2 E). auto.
    + intros [= <-]. auto.
  - cbn [po_ns po_dp]. split; [cbn; lia|]. unfold wire_ok, zero_dp. cbn [wi_vec wi_payload wi_expires List.length]. split; [lia|]. split; [constructor|]. split; [lia|]. exact zero_time_ok.
Qed.
Lemma query_bounds s o : text_query read_f64 s = Some o -> len (qo_ns o) <= 3 * len s /\ len (qo_vec o) <= len s /\ Forall (fun x => is_fin x = true) (qo_vec o) /\ int_ok (qo_n o).
Proof.
  unfold text_query, JsonText.body. destruct (parse s) as [t|] eqn:Ep; [|discriminate]. cbn [option_map dec_query].
  assert (Ht : within (len s) t) by (apply document_within; apply parse_iff; exact Ep).
  apply (struct_inv _ (fun o : query_opts f64 => len (qo_ns o) <= 3 * len s /\ len (qo_vec o) <= len s /\ Forall (fun x => is_fin x = true) (qo_vec o) /\ int_ok (qo_n o)) _ t Ht).
  - clear - s. intros n t [ns a v k d] o' Ht (H1 & H2 & H3 & H4). unfold set_query. cbn [qo_ns qo_vec qo_n] in *. repeat match goal with |- (if ?b then _ else _) = _ -> _ => destruct b end.
    + destruct (dec_str (jn t) ns) as [x|] eqn:E; [|discriminate]. intros [= <-]. cbn. pose proof (str_ok _ t ns x Ht H1 E). auto.
    + destruct (dec_bool (jn t) a) as [x|] eqn:E; [|discriminate]. intros [= <-]. cbn. auto.
    + destruct (dec_vec (jn t)) as [x|] eqn:E; [|discriminate]. intros [= <-]. cbn. destruct (vec_ok _ t x Ht E). auto.
    + destruct (dec_int (jn t) k) as [x|] eqn:E; [|discriminate]. intros [= <-]. cbn [qo_ns qo_vec qo_n]. pose proof (int_val_ok t k x H4 E). auto.
    + destruct (dec_bool (jn t) d) as [x|] eqn:E; [|discriminate]. intros [= <-]. cbn. auto.
    + intros [= <-]. auto.
  - cbn [qo_ns qo_vec qo_n List.length]. split; [lia|]. split; [lia|]. split; [constructor|]. unfold int_ok. lia.
Qed.
Lemma fin_f64 (v : vec f64) : Forall (fun x => is_fin x = true) v -> Forall is_f64 v.
Proof. apply Forall_impl. intros [x|x| |x m e]; cbn; auto. Qed.

(* ---- what is claimed ---- *)
Local Open Scope Z_scope.
Theorem put_sendable s o z : text_put read_f64 s = Some o -> zone_ok z -> 15 * Z.of_nat (len s) + 200 <= 2 ^ 33 ->
  req_ok z (QAdd (po_ns o) (to_dp (po_dp o))) /\ req_ok z (QVec (po_ns o)) /\ req_ok z (QNearestVec (po_ns o) (wi_vec (po_dp o))).
Proof.
  intros H Hz Hl. destruct (put_bounds s o H) as (H1 & H2 & H3 & H4 & H5). apply fin_f64 in H3. cbn [req_ok]. unfold GobSpec.dp_ok, to_dp. cbn [dp_vec dp_payload dp_expires].
  split; [split; [auto|lia]|]. split; [lia|]. split; [exact H3|lia].
Qed.
Theorem query_sendable s o n z : text_query read_f64 s = Some o -> 0 <= n <= qo_n o -> 12 * Z.of_nat (len s) + 200 <= 2 ^ 33 ->
  req_ok z (QKnnLookup (qo_ns o) (qo_vec o) n (qo_drain o)) /\ req_ok z (QVec (qo_ns o)) /\ req_ok z (QNearestVec (qo_ns o) (qo_vec o)).
Proof.
  intros H Hn Hl. destruct (query_bounds s o H) as (H1 & H2 & H3 & H4). apply fin_f64 in H3. unfold int_ok in H4. cbn [req_ok]. unfold int_ok.
  split; [split; [auto|lia]|]. split; [lia|]. split; [exact H3|lia].
Qed.
