(* Whole bodies and answers. *)
From Coq Require Import QArith SpecFloat.
From Verif Require Import Base Num MathUtils Knn Env Centroid CManager Proc Server ServerFacts Core Routes Json JsonSpec BodySpec BodyProofs FloatSpec
  JsonText TextSpec TextParse TextUtf8 TextBytes TextTime TextNumSpec FloatText TextNum TextWholeSpec.
From Coq.Init Require Import Byte.
From Coq Require Import Strings.Byte Strings.String.
Local Open Scope string_scope.
Local Open Scope list_scope.
Local Open Scope nat_scope.

(* ---- what is written is a text ---- *)
Lemma ws_nil : Ws [].
Proof. constructor. Qed.
Lemma elements_written n l : l <> [] -> (forall t, In t l -> Value n t (render t)) -> Elements n l (commas (map render l)).
Proof.
  destruct l as [|t l]; [congruence|]. intros _. revert t. induction l as [|u l IH]; intros t H; cbn [map commas flat_map].
  - change (render t ++ []) with ([] ++ render t ++ []). apply e_last; auto using ws_nil. apply H; left; auto.
  - change (render t ++ (x2c :: render u) ++ flat_map (fun y => x2c :: y) (map render l))
      with ([] ++ render t ++ [] ++ text "," ++ commas (map render (u :: l))).
    apply e_more; auto using ws_nil; [apply H; left; auto|]. apply IH. intros x Hx. apply H. right; auto.
Qed.
Lemma array_written n l : (0 < n)%Z -> (forall t, In t l -> Value (n - 1) t (render t)) -> Value n (TArr l) (render (TArr l)).
Proof.
  intros Hn H. destruct l as [|t l]; [apply (v_empty_array n []); auto using ws_nil|].
  change (render (TArr (t :: l))) with (text "[" ++ commas (map render (t :: l)) ++ text "]"). apply v_array; auto.
  apply elements_written; auto. discriminate.
Qed.
Lemma members_written n m : m <> [] -> (forall x, In x m -> Chars (fst x) /\ Value n (snd x) (render (snd x))) ->
  Members n m (commas (map (fun x => quoted (fst x) ++ x3a :: render (snd x)) m)).
Proof.
  destruct m as [|x m]; [congruence|]. intros _. revert x. induction m as [|y m IH]; intros [k t] H.
  - cbn [map commas flat_map fst snd]. rewrite app_nil_r. unfold quoted. destruct (H (k, t) (or_introl eq_refl)) as (H1 & H2). cbn [fst snd] in *.
    pose proof (m_last n k t [] [] [] (render t) [] ws_nil H1 ws_nil ws_nil H2 ws_nil) as M. cbn [app] in M. rewrite app_nil_r in M.
    cbn [app]. rewrite <- app_assoc. exact M.
  - destruct (H (k, t) (or_introl eq_refl)) as (H1 & H2). cbn [fst snd] in *.
    specialize (IH y (fun z Hz => H z (or_intror Hz))).
    set (g := fun x : str * tree => quoted (fst x) ++ x3a :: render (snd x)) in *.
    change (commas (map g ((k, t) :: y :: m))) with ((quoted k ++ x3a :: render t) ++ x2c :: commas (map g (y :: m))).
    set (R := commas (map g (y :: m))) in *. clearbody R. clear g.
    pose proof (m_more n k t [] [] [] (render t) [] _ _ ws_nil H1 ws_nil ws_nil H2 ws_nil IH) as M. cbn [app] in M.
    unfold quoted. rewrite <- !app_assoc. cbn [app]. rewrite <- !app_assoc. exact M.
Qed.
Lemma object_written n m : (0 < n)%Z -> (forall x, In x m -> Chars (fst x) /\ Value (n - 1) (snd x) (render (snd x))) ->
  Value n (TObj m) (render (TObj m)).
Proof.
  intros Hn H. destruct m as [|x m]; [apply (v_empty_object n []); auto using ws_nil|].
  change (render (TObj (x :: m))) with (text "{" ++ commas (map (fun x => quoted (fst x) ++ x3a :: render (snd x)) (x :: m)) ++ text "}").
  apply v_object; auto. apply members_written; auto. discriminate.
Qed.
Lemma string_written n raw : Chars raw -> Value n (TStr raw) (render (TStr raw)).
Proof. intros H. apply (v_string n raw H). Qed.
Lemma bool_written n b : Value n (TBool b) (render (TBool b)).
Proof. destruct b; constructor. Qed.

Lemma plain_chars s : forallb (fun c => negb (Byte.eqb c x22) && negb (Byte.eqb c x5c) && negb (bn c <? 32)%Z) s = true -> Chars s.
Proof.
  induction s as [|c s IH]; cbn [forallb]; intros H; [constructor|]. apply andb_prop in H. destruct H as (H & Hs). rewrite !andb_true_iff, !negb_true_iff in H.
  destruct H as ((H1 & H2) & H3). apply chars_plain; auto using beq_false. apply low_iff. exact H3.
Qed.
Lemma digit_plain c : is_digit c = true -> c <> x22 /\ c <> x5c /\ 32 <= Byte.to_nat c.
Proof.
  intros H. unfold is_digit in H. apply between_iff in H. assert (A : c <> x22) by (intros ->; cbn in H; lia). assert (B : c <> x5c) by (intros ->; cbn in H; lia).
  split; auto. split; auto. apply low_iff. apply Z.ltb_ge. lia.
Qed.
Lemma decimal_chars s n r : Decimal s n -> Chars r -> Chars (s ++ r).
Proof.
  intros H Hr. apply decimal_read in H. destruct H as (H & _). induction H as [|c s Hc Hs IH]; auto. cbn [app].
  destruct (digit_plain c Hc) as (A & B & C). apply chars_plain; auto.
Qed.
Lemma dec_chars k s n r : Dec k s n -> Chars r -> Chars (s ++ r).
Proof. intros (_ & H). apply decimal_chars with n; auto. Qed.
Lemma text_chars c s : (c <> x22 /\ c <> x5c /\ 32 <= Byte.to_nat c) -> Chars s -> Chars (c :: s).
Proof. intros (A & B & C) H. apply chars_plain; auto. Qed.
Ltac plain_char := apply text_chars; [split; [discriminate|split; [discriminate|apply low_iff; reflexivity]]|].
Theorem time_chars s t : DateTime s t -> Chars s.
Proof.
  destruct 1 as [ys ms ds hs mis ss fs zs y m d h mi s ns off Hy Hm Hd Hh Hmi Hs Hf Hz Bm Bd Bh Bmi Bs].
  change (text "-") with [x2d]. change (text "T") with [x54]. change (text ":") with [x3a]. cbn [app].
  eapply dec_chars; [eauto|]. plain_char. eapply dec_chars; [eauto|]. plain_char. eapply dec_chars; [eauto|]. plain_char.
  eapply dec_chars; [eauto|]. plain_char. eapply dec_chars; [eauto|]. plain_char. eapply dec_chars; [eauto|].
  assert (Hc : Chars zs).
  { destruct Hz as [|h1 m1 a b Ha Hb _ _|h1 m1 a b Ha Hb _ _].
    - apply plain_chars. reflexivity.
    - change (text "+" ++ h1 ++ text ":" ++ m1) with (x2b :: h1 ++ x3a :: m1). plain_char. eapply dec_chars; [eauto|]. plain_char.
      rewrite <- (app_nil_r m1). eapply dec_chars; [eauto|]. constructor.
    - change (text "-" ++ h1 ++ text ":" ++ m1) with (x2d :: h1 ++ x3a :: m1). plain_char. eapply dec_chars; [eauto|]. plain_char.
      rewrite <- (app_nil_r m1). eapply dec_chars; [eauto|]. constructor. }
  destruct Hf as [|f v ns _ Hv _]; auto. change (text "." ++ f) with (x2e :: f). cbn [app]. plain_char. eapply decimal_chars; eauto.
Qed.

(* Plain ASCII text means itself. *)
Lemma ascii_means s : forallb (fun c => negb (Byte.eqb c x22) && negb (Byte.eqb c x5c) && (32 <=? bn c)%Z && (bn c <? 128)%Z) s = true -> Means s s.
Proof.
  induction s as [|c s IH]; cbn [forallb]; intros H; [constructor|]. apply andb_prop in H. destruct H as (H & Hs). rewrite !andb_true_iff, !negb_true_iff in H.
  destruct H as (((H1 & H2) & H3) & H4). apply beq_false in H1, H2. apply Z.leb_le in H3. apply Z.ltb_lt in H4.
  change (c :: s) with ([c] ++ s). rewrite <- (one_byte c). apply means_plain with (n := bn c); auto.
  - left. lia.
  - intros E. apply H1. apply bn_inj. exact E.
  - intros E. apply H2. apply bn_inj. exact E.
  - apply enc1. lia.
Qed.
Lemma letter_means l s : Base64 l s -> Means s s.
Proof.
  intros H. apply ascii_means.
  assert (Hl : forall c v, Letter c v -> negb (Byte.eqb c x22) && negb (Byte.eqb c x5c) && (32 <=? bn c)%Z && (bn c <? 128)%Z = true).
  { intros c v L. pose proof (letter_bound c v L) as B. rewrite (letter_char c v L).
    refine (small_all (fun v => _) 64 _ v B). vm_compute. reflexivity. }
  induction H; cbn [forallb]; repeat match goal with L : Letter _ _ |- _ => rewrite (Hl _ _ L); clear L end; auto.
Qed.

(* ---- fields ---- *)
Section F64.
Notation read := (@denoted f64 read_f64).
Lemma names_read k f : names k f -> exists n, unquote k = n /\ spells n (text f).
Proof. intros (n & Hm & Hs). exists n. split; auto. apply means_read; auto. Qed.
Lemma vector_read vs : Forall small vs -> exists v, Forall2 rounds vs v /\ dec_vec (JArr (map read (map TNum vs))) = Some v.
Proof.
  induction 1 as [|s vs (Hlen & neg & q & Hs & Hq) Hv (v & Hr & E)]; [exists []; split; [constructor|reflexivity]|].
  destruct (float_read s neg q Hs Hlen) as (R & _). destruct (R Hq) as (z & Ez & Hc & Hz). exists (z :: v). split.
  - constructor; auto. exists neg, q. auto.
  - cbn [dec_vec map denoted all_some dec_float] in *. rewrite Ez, E. reflexivity.
Qed.
Lemma payload_read raw l : Bytes raw l -> dec_bytes b64_decode (read (TStr raw)) = Some l.
Proof.
  intros (s & Hm & Hb). cbn [denoted dec_bytes]. rewrite (means_read raw s Hm). apply bytes_read.
  replace (filter (fun c => negb (one_of [x0d; x0a] c)) s) with (filter (fun c => negb (Byte.eqb c x0d) && negb (Byte.eqb c x0a)) s); auto.
  apply filter_ext. intros c. unfold one_of. cbn. rewrite orb_false_r, negb_orb. reflexivity.
Qed.

(* One member of a structure: the name decides. *)
Ltac field_is H := let n := fresh "n" in let E := fresh "E" in let S := fresh "S" in
  apply names_read in H; destruct H as (n & E & S); rewrite E; clear E.
Lemma named_same n f g : In f field_names -> spells n (text f) -> same_name n g = same_name (text f) g.
Proof. apply spelt_same. Qed.

Theorem dp_text kv kp ke kx vs praw p traw t b w0 : names kv "vec" -> names kp "payload" -> names ke "expires" -> names kx "expireEnabled" ->
  Forall small vs -> Bytes praw p -> DateTime traw t ->
  exists v, Forall2 rounds vs v /\
    dec_dp parse_time b64_decode (read (TObj [(kv, TArr (map TNum vs)); (kp, TStr praw); (ke, TStr traw); (kx, TBool b)])) w0 = Some (MkWire v p t b).
Proof.
  intros Hv Hp He Hx Hvs Hb Ht. destruct (vector_read vs Hvs) as (v & Hr & Ev). exists v. split; auto.
  change (read (TObj [(kv, TArr (map TNum vs)); (kp, TStr praw); (ke, TStr traw); (kx, TBool b)])) with
    (JObj [(unquote kv, JArr (map read (map TNum vs))); (unquote kp, read (TStr praw)); (unquote ke, JStr traw (unquote traw)); (unquote kx, JBool (N := f64) b)]).
  field_is Hv. field_is Hp. field_is He. field_is Hx.
  destruct w0 as [v0 p0 e0 b0]. unfold dec_dp. cbn [dec_struct members].
  unfold set_dp at 1. rewrite !(named_same _ "vec" _ ltac:(cbn; auto 12) S). change (same_name (text "vec") "vec") with true. cbv iota. rewrite Ev. cbn [option_map].
  unfold set_dp at 1. rewrite !(named_same _ "payload" _ ltac:(cbn; auto 12) S0).
  change (same_name (text "payload") "vec") with false. change (same_name (text "payload") "payload") with true. cbv iota.
  rewrite (payload_read praw p Hb). cbn [option_map].
  unfold set_dp at 1. rewrite !(named_same _ "expires" _ ltac:(cbn; auto 12) S1).
  change (same_name (text "expires") "vec") with false. change (same_name (text "expires") "payload") with false. change (same_name (text "expires") "expires") with true. cbv iota.
  cbn [dec_time]. rewrite (time_read traw t Ht). cbn [option_map].
  unfold set_dp at 1. rewrite !(named_same _ "expireEnabled" _ ltac:(cbn; auto 12) S2). reflexivity.
Qed.

Theorem put_text s kn ka kd kv kp ke kx nraw ns acc vs praw p traw t b :
  Document (TObj [(kn, TStr nraw); (ka, TBool acc); (kd, TObj [(kv, TArr (map TNum vs)); (kp, TStr praw); (ke, TStr traw); (kx, TBool b)])]) s ->
  names kn "namespace" -> names ka "accurate" -> names kd "dp" ->
  names kv "vec" -> names kp "payload" -> names ke "expires" -> names kx "expireEnabled" ->
  Means nraw ns -> Forall small vs -> Bytes praw p -> DateTime traw t ->
  exists v, Forall2 rounds vs v /\ text_put read_f64 s = Some (MkPut ns acc (MkWire v p t b)).
Proof.
  intros Hd Hkn Hka Hkd Hkv Hkp Hke Hkx Hns Hvs Hb Ht. apply parse_iff in Hd.
  destruct (dp_text kv kp ke kx vs praw p traw t b zero_dp Hkv Hkp Hke Hkx Hvs Hb Ht) as (v & Hr & Ev). exists v. split; auto.
  unfold text_put, body. rewrite Hd. cbn [option_map dec_put].
  set (dpt := TObj [(kv, TArr (map TNum vs)); (kp, TStr praw); (ke, TStr traw); (kx, TBool b)]) in *.
  change (read (TObj [(kn, TStr nraw); (ka, TBool acc); (kd, dpt)])) with
    (JObj [(unquote kn, JStr nraw (unquote nraw)); (unquote ka, JBool acc); (unquote kd, read dpt)]).
  field_is Hkn. field_is Hka. field_is Hkd. rewrite (means_read nraw ns Hns). cbn [dec_struct members].
  unfold set_put at 1. rewrite !(named_same _ "namespace" _ ltac:(cbn; auto 12) S). change (same_name (text "namespace") "namespace") with true. cbv iota. cbn [dec_str option_map].
  unfold set_put at 1. rewrite !(named_same _ "accurate" _ ltac:(cbn; auto 12) S0). change (same_name (text "accurate") "namespace") with false.
  change (same_name (text "accurate") "accurate") with true. cbv iota. cbn [dec_bool option_map].
  unfold set_put at 1. rewrite !(named_same _ "dp" _ ltac:(cbn; auto 12) S1). change (same_name (text "dp") "namespace") with false.
  change (same_name (text "dp") "accurate") with false. change (same_name (text "dp") "dp") with true. cbv iota.
  rewrite Ev. reflexivity.
Qed.

Theorem query_text s kn ka kv kk kd nraw ns acc vs ks neg k drain :
  Document (TObj [(kn, TStr nraw); (ka, TBool acc); (kv, TArr (map TNum vs)); (kk, TNum ks); (kd, TBool drain)]) s ->
  names kn "namespace" -> names ka "accurate" -> names kv "queryVec" -> names kk "n" -> names kd "drain" ->
  Means nraw ns -> Forall small vs -> Whole ks neg k -> (- 2 ^ 63 <= k < 2 ^ 63)%Z ->
  exists v, Forall2 rounds vs v /\ text_query read_f64 s = Some (MkQuery ns acc v k drain).
Proof.
  intros Hd Hkn Hka Hkv Hkk Hkd Hns Hvs Hk Bk. apply parse_iff in Hd.
  destruct (vector_read vs Hvs) as (v & Hr & Ev). exists v. split; auto.
  unfold text_query, body. rewrite Hd. cbn [option_map dec_query].
  change (read (TObj [(kn, TStr nraw); (ka, TBool acc); (kv, TArr (map TNum vs)); (kk, TNum ks); (kd, TBool drain)])) with
    (JObj [(unquote kn, JStr nraw (unquote nraw)); (unquote ka, JBool acc); (unquote kv, JArr (map read (map TNum vs)));
           (unquote kk, JNum (read_f64 ks) (read_int ks) (read_byte ks)); (unquote kd, JBool drain)]).
  field_is Hkn. field_is Hka. field_is Hkv. field_is Hkk. field_is Hkd. rewrite (means_read nraw ns Hns). cbn [dec_struct members].
  unfold set_query at 1. rewrite !(named_same _ "namespace" _ ltac:(cbn; auto 12) S). change (same_name (text "namespace") "namespace") with true. cbv iota. cbn [dec_str option_map].
  unfold set_query at 1. rewrite !(named_same _ "accurate" _ ltac:(cbn; auto 12) S0). change (same_name (text "accurate") "namespace") with false.
  change (same_name (text "accurate") "accurate") with true. cbv iota. cbn [dec_bool option_map].
  unfold set_query at 1. rewrite !(named_same _ "queryVec" _ ltac:(cbn; auto 12) S1). change (same_name (text "queryVec") "namespace") with false.
  change (same_name (text "queryVec") "accurate") with false. change (same_name (text "queryVec") "queryVec") with true. cbv iota. rewrite Ev. cbn [option_map].
  unfold set_query at 1. rewrite !(named_same _ "n" _ ltac:(cbn; auto 12) S2). change (same_name (text "n") "namespace") with false.
  change (same_name (text "n") "accurate") with false. change (same_name (text "n") "queryVec") with false. change (same_name (text "n") "n") with true. cbv iota.
  cbn [dec_int]. rewrite (int_read ks neg k Hk). rewrite (proj2 (Z.leb_le (- 2 ^ 63) k)), (proj2 (Z.ltb_lt k (2 ^ 63))) by lia. cbn [andb option_map].
  unfold set_query at 1. rewrite !(named_same _ "drain" _ ltac:(cbn; auto 12) S3). reflexivity.
Qed.

(* ---- answers ---- *)
Context (show_float : F f64 -> str).
Definition payload_tree (x : shown f64) : tree :=
  match wi_payload (sh_dp x) with [] => if sh_nil_payload x then TNull else TStr [] | p => TStr (b64_encode p) end.
Definition vec_tree (x : shown f64) : tree :=
  match wi_vec (sh_dp x) with [] => if sh_nil_vec x then TNull else TArr [] | v => TArr (map (fun f => TNum (show_float f)) v) end.
Lemma shown_vec x : Forall (fun f => read_f64 (show_float f) = Some f) (wi_vec (sh_dp x)) -> dec_vec (read (vec_tree x)) = Some (wi_vec (sh_dp x)).
Proof.
  unfold vec_tree. destruct (wi_vec (sh_dp x)) as [|f v]; [destruct (sh_nil_vec x); reflexivity|]. intros H.
  cbn [denoted dec_vec]. rewrite map_map. cbn [denoted]. induction H as [|g w Hg Hw IH]; [reflexivity|]. cbn [map all_some dec_float]. rewrite Hg, IH. reflexivity.
Qed.
Lemma shown_payload x : dec_bytes b64_decode (read (payload_tree x)) = Some (wi_payload (sh_dp x)).
Proof.
  unfold payload_tree. destruct (wi_payload (sh_dp x)) as [|c p]; [destruct (sh_nil_payload x); reflexivity|].
  set (l := c :: p). cbn [denoted dec_bytes]. rewrite (means_read _ _ (letter_means l _ (encode_ok l))). apply bytes_round.
Qed.
Lemma name_vec : unquote (text "vec") = text "vec" /\ unquote (text "payload") = text "payload" /\ unquote (text "expires") = text "expires" /\
  unquote (text "expireEnabled") = text "expireEnabled".
Proof. repeat split. Qed.
Theorem dp_shown x w0 : showable show_float x -> dec_dp parse_time b64_decode (read (dp_tree show_float x)) w0 = Some (sh_dp x).
Proof.
  intros (Hf & Hz & Ht). assert (Hf' : Forall (fun f => read_f64 (show_float f) = Some f) (wi_vec (sh_dp x))) by (eapply Forall_impl; [|exact Hf]; cbn; tauto).
  pose proof (shown_vec x Hf') as Ev. pose proof (shown_payload x) as Ep. pose proof (time_round (sh_zone x) (wi_expires (sh_dp x)) Hz Ht) as Et.
  change (read (dp_tree show_float x)) with
    (JObj [(text "vec", read (vec_tree x)); (text "payload", read (payload_tree x));
           (text "expires", JStr (show_time (sh_zone x) (wi_expires (sh_dp x))) (unquote (show_time (sh_zone x) (wi_expires (sh_dp x)))));
           (text "expireEnabled", JBool (wi_expire_enabled (sh_dp x)))]).
  destruct w0 as [v0 p0 e0 b0]. unfold dec_dp. cbn [dec_struct members].
  unfold set_dp at 1. change (same_name (text "vec") "vec") with true. cbv iota. rewrite Ev. cbn [option_map].
  unfold set_dp at 1. change (same_name (text "payload") "vec") with false. change (same_name (text "payload") "payload") with true. cbv iota.
  rewrite Ep. cbn [option_map].
  unfold set_dp at 1. change (same_name (text "expires") "vec") with false. change (same_name (text "expires") "payload") with false.
  change (same_name (text "expires") "expires") with true. cbv iota. cbn [dec_time]. rewrite Et. cbn [option_map].
  destruct (sh_dp x). reflexivity.
Qed.
Lemma dp_written n x : (2 <= n)%Z -> showable show_float x -> Value n (dp_tree show_float x) (render (dp_tree show_float x)).
Proof.
  intros Hn (Hf & Hz & Ht). unfold dp_tree. apply object_written; [lia|]. intros y [<-|[<-|[<-|[<-|[]]]]]; cbn [fst snd]; (split; [apply plain_chars; reflexivity|]).
  - fold (vec_tree x). unfold vec_tree. destruct (wi_vec (sh_dp x)) as [|f v]; [destruct (sh_nil_vec x); [constructor|apply array_written; [lia|intros t []]]|].
    apply array_written; [lia|]. intros t Hi. apply in_map_iff in Hi. destruct Hi as (g & <- & Hg). rewrite Forall_forall in Hf. apply v_number. apply Hf; auto.
  - fold (payload_tree x). unfold payload_tree. destruct (wi_payload (sh_dp x)) as [|c p]; [destruct (sh_nil_payload x); [constructor|apply string_written; constructor]|].
    apply string_written. apply (base64_chars (c :: p)), encode_ok.
  - apply string_written. apply (time_chars _ (wi_expires (sh_dp x))). apply time_written; auto.
  - apply bool_written.
Qed.
(* An answer is a JSON text, and reading it gives the datapoints back. *)
Theorem answer_read_back nil l : Forall (showable show_float) l ->
  exists j, body read_f64 (answer_text show_float nil l) = Some j /\
    (j = JNull /\ l = [] /\ nil = true \/
     exists js, j = JArr js /\ all_some (fun j => dec_dp parse_time b64_decode j zero_dp) js = Some (map sh_dp l)).
Proof.
  intros H. unfold answer_text. set (t := match l with [] => if nil then TNull else TArr [] | _ => TArr (map (dp_tree show_float) l) end).
  assert (Hp : parse (render t) = Some t).
  { apply parse_iff. exists [], (render t), []. split; [rewrite app_nil_r; reflexivity|]. split; [apply ws_nil|]. split; [apply ws_nil|].
    unfold t. destruct l as [|x l]; [destruct nil; [constructor|apply array_written; [lia|intros u []]]|]. apply array_written; [lia|].
    intros u Hu. apply in_map_iff in Hu. destruct Hu as (y & <- & Hy). rewrite Forall_forall in H. apply dp_written; [lia|auto]. }
  unfold body. rewrite Hp. cbn [option_map]. exists (read t). split; auto.
  unfold t. destruct l as [|x l].
  - destruct nil; [left; auto|right]. exists []. auto.
  - right. exists (map read (map (dp_tree show_float) (x :: l))). split; [reflexivity|]. set (l' := x :: l) in *. clearbody l'. clear - H.
    induction H as [|y l' Hy Hl IH]; [reflexivity|]. cbn [map all_some]. rewrite (dp_shown y zero_dp Hy). rewrite IH. reflexivity.
Qed.
End F64.

Theorem texts_exist : exists show_float, forall z : F f64, is_fin z = true -> Number (show_float z) /\ read_f64 (show_float z) = Some z.
Proof.
  exists show_exact. intros z H. split; [|apply exact_read; auto]. destruct (exact_stands z H) as (q & Hs & _). apply (stands_number _ _ _ (modest_stands _ _ _ Hs)).
Qed.

(* ---- namespaces ---- *)
Section Any.
Context {N : Num} (read_float : str -> option (F N)).
Lemma members_chars : (forall n t s, Value n t s -> forall m, t = TObj m -> Forall (fun x => match snd x with TStr raw => Chars raw | _ => True end) m) /\
  (forall n l s, Elements n l s -> True) /\
  (forall n m s, Members n m s -> Forall (fun x => match snd x with TStr raw => Chars raw | _ => True end) m).
Proof.
  assert (Hv : forall n t s, Value n t s -> match t with TStr raw => Chars raw | _ => True end) by (intros n t s H; destruct H; auto).
  apply texts_ind; intros; try discriminate; try exact I.
  - injection H1 as <-. constructor.
  - match goal with E : TObj _ = TObj _ |- _ => injection E as <- end. assumption.
  - constructor; [|constructor]. cbn [snd]. eapply Hv; eauto.
  - constructor; auto. cbn [snd]. eapply Hv; eauto.
Qed.
Lemma put_ns_utf8 m : Forall (fun x => match snd x with TStr raw => Chars raw | _ => True end) m ->
  forall o o', members (set_put parse_time b64_decode) (map (fun x => (unquote (fst x), denoted read_float (snd x))) m) o = Some o' ->
  Utf8 (po_ns o) -> Utf8 (po_ns o').
Proof.
  induction 1 as [|[k t] m Ht Hm IH]; intros o o' E Ho; cbn [map members fst snd] in *; [congruence|].
  destruct (set_put parse_time b64_decode (unquote k) (denoted read_float t) o) as [o1|] eqn:E1; [|discriminate E].
  apply (IH o1 o' E). destruct o as [ns a d]. unfold set_put in E1. cbn [po_ns] in Ho.
  destruct (same_name (unquote k) "namespace").
  - destruct t; cbn [denoted dec_str option_map] in E1; try discriminate E1; injection E1 as <-; cbn [po_ns]; auto. apply unquote_utf8. exact Ht.
  - destruct (same_name (unquote k) "accurate"); [destruct (dec_bool _ _); [|discriminate E1]; injection E1 as <-; exact Ho|].
    destruct (same_name (unquote k) "dp"); [destruct (dec_dp _ _ _ _); [|discriminate E1]; injection E1 as <-; exact Ho|]. injection E1 as <-. exact Ho.
Qed.
Lemma query_ns_utf8 m : Forall (fun x => match snd x with TStr raw => Chars raw | _ => True end) m ->
  forall o o', members set_query (map (fun x => (unquote (fst x), denoted read_float (snd x))) m) o = Some o' ->
  Utf8 (qo_ns o) -> Utf8 (qo_ns o').
Proof.
  induction 1 as [|[k t] m Ht Hm IH]; intros o o' E Ho; cbn [map members fst snd] in *; [congruence|].
  destruct (set_query (unquote k) (denoted read_float t) o) as [o1|] eqn:E1; [|discriminate E].
  apply (IH o1 o' E). destruct o as [ns a v n d]. unfold set_query in E1. cbn [qo_ns] in Ho.
  destruct (same_name (unquote k) "namespace").
  - destruct t; cbn [denoted dec_str option_map] in E1; try discriminate E1; injection E1 as <-; cbn [qo_ns]; auto. apply unquote_utf8. exact Ht.
  - destruct (same_name (unquote k) "accurate"); [destruct (dec_bool _ _); [|discriminate E1]; injection E1 as <-; exact Ho|].
    destruct (same_name (unquote k) "queryVec"); [destruct (dec_vec _); [|discriminate E1]; injection E1 as <-; exact Ho|].
    destruct (same_name (unquote k) "n"); [destruct (dec_int _ _); [|discriminate E1]; injection E1 as <-; exact Ho|].
    destruct (same_name (unquote k) "drain"); [destruct (dec_bool _ _); [|discriminate E1]; injection E1 as <-; exact Ho|]. injection E1 as <-. exact Ho.
Qed.
Theorem namespaces_utf8 s :
  (forall o, text_put read_float s = Some o -> Utf8 (po_ns o)) /\ (forall o, text_query read_float s = Some o -> Utf8 (qo_ns o)).
Proof.
  unfold text_put, text_query, body. destruct (parse s) as [t|] eqn:P; [|split; discriminate]. apply parse_iff in P.
  destruct P as (w1 & v & w2 & _ & _ & _ & V). cbn [option_map dec_put dec_query].
  destruct t; cbn [denoted dec_struct]; split; intros o E; try discriminate E; try (injection E as <-; constructor).
  - eapply put_ns_utf8; [eapply (proj1 members_chars); eauto|exact E|constructor].
  - eapply query_ns_utf8; [eapply (proj1 members_chars); eauto|exact E|constructor].
Qed.
Theorem every_utf8 ns : Utf8 ns -> exists raw, Chars raw /\ unquote raw = ns.
Proof. intros H. destruct (utf8_written ns H) as (raw & Hr). exists raw. split; [eapply means_chars; eauto|apply means_read; auto]. Qed.

(* ---- bodies cut short ---- *)
Lemma not_numeric t : dec_put parse_time b64_decode (Some (denoted read_float t)) <> None \/ dec_query (Some (denoted read_float t)) <> None -> numeric t = false.
Proof. destruct t; cbn; auto. intros [H|H]; congruence. Qed.
Theorem cut_text p q :
  (text_put read_float p <> None -> text_put read_float (p ++ q) <> None -> text_put read_float p = text_put read_float (p ++ q) /\ Ws q) /\
  (text_query read_float p <> None -> text_query read_float (p ++ q) <> None -> text_query read_float p = text_query read_float (p ++ q) /\ Ws q).
Proof.
  unfold text_put, text_query, body. split; intros H1 H2.
  - destruct (parse p) as [t|] eqn:P; [|cbn in H1; congruence]. destruct (parse (p ++ q)) as [t'|] eqn:P'; [|cbn in H2; congruence].
    assert (Hn : numeric t = false) by (apply not_numeric; left; exact H1). destruct (cut_short p q t t' Hn P P') as (Hw & ->). auto.
  - destruct (parse p) as [t|] eqn:P; [|cbn in H1; congruence]. destruct (parse (p ++ q)) as [t'|] eqn:P'; [|cbn in H2; congruence].
    assert (Hn : numeric t = false) by (apply not_numeric; right; exact H1). destruct (cut_short p q t t' Hn P P') as (Hw & ->). auto.
Qed.
End Any.
