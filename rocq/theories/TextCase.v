(* Requests and answers as texts. *)
From Coq Require Import QArith SpecFloat Lqa.
From Verif Require Import Base Num MathUtils Knn Env Centroid CManager MathSpec Wp NumFacts TestEnv Proc Server ServerSpec ServerFacts TestWorld
  Core CoreSpec Routes RoutesProofs Json JsonSpec BodySpec BodyProofs RoutesCase FloatSpec
  JsonText TextSpec TextParse TextUtf8 TextBytes TextTime TextLoose TextNumSpec FloatText TextNum TextWholeSpec TextWhole.
From Coq.Init Require Import Byte.
From Coq Require Import Strings.Byte Strings.String.
Local Open Scope string_scope.
Local Open Scope list_scope.
Local Open Scope nat_scope.

(* The text with ' for the quote. *)
Definition quotes (s : string) : str := map (fun c => if Byte.eqb c x27 then x22 else c) (text s).

Definition put_sample : str := quotes
  " { 'Namespace' : 'n\u00731', 'accurate': false,
      'dp': {'vec': [2.5e-1, -0, 12], 'payload': 'aGk=', 'expires': '2021-08-01T12:30:00.25+02:00', 'EXPIREENABLED': true} } ".
Definition query_sample : str := quotes "{'namespace':'ns1','accurate':true,'queryVec':[0.25,0,12e0],'n':1,'drain':false}".
Definition put_tree : tree :=
  TObj [(text "Namespace", TStr (text "n\u00731")); (text "accurate", TBool false);
        (text "dp", TObj [(text "vec", TArr (map TNum [text "2.5e-1"; text "-0"; text "12"])); (text "payload", TStr (text "aGk="));
                          (text "expires", TStr (text "2021-08-01T12:30:00.25+02:00")); (text "EXPIREENABLED", TBool true)])].
Definition query_tree : tree :=
  TObj [(text "namespace", TStr (text "ns1")); (text "accurate", TBool true); (text "queryVec", TArr (map TNum [text "0.25"; text "0"; text "12e0"]));
        (text "n", TNum (text "1")); (text "drain", TBool false)].
Lemma put_document : Document put_tree put_sample.
Proof. apply parse_iff. vm_compute. reflexivity. Qed.
Lemma query_document : Document query_tree query_sample.
Proof. apply parse_iff. vm_compute. reflexivity. Qed.

Lemma plain_names n f : In f field_names -> same_name (text n) f = true ->
  forallb (fun c => negb (Byte.eqb c x22) && negb (Byte.eqb c x5c) && (32 <=? bn c)%Z && (bn c <? 128)%Z) (text n) = true -> names (text n) f.
Proof. intros Hi Hs Hc. exists (text n). split; [apply ascii_means; auto|apply same_name_iff; auto]. Qed.
Lemma small_number s : Number s -> (Z.of_nat (List.length s) <= 9000)%Z -> (forall neg q, Stands s neg q -> (q < limit)%Q) -> small s.
Proof. intros Hs Hl H. split; auto. destruct (number_stands s Hs) as (neg & q & Hq). exists neg, q. split; eauto. Qed.
Lemma read_small s : Number s -> (Z.of_nat (List.length s) <= 9000)%Z -> read_f64 s <> None -> small s.
Proof.
  intros Hs Hlen Hr. apply small_number; auto. intros neg q Hq. destruct (float_read s neg q Hq Hlen) as (_ & R).
  destruct (Qlt_le_dec q limit) as [A|A]; auto. elim Hr. auto.
Qed.
Lemma scan_number s : parse s = Some (TNum s) -> Number s.
Proof.
  intros H. apply parse_iff in H. destruct H as (w1 & v & w2 & _ & _ & _ & V). inversion V; auto.
Qed.
Lemma put_names : names (text "Namespace") "namespace" /\ names (text "accurate") "accurate" /\ names (text "dp") "dp" /\ names (text "vec") "vec" /\
  names (text "payload") "payload" /\ names (text "expires") "expires" /\ names (text "EXPIREENABLED") "expireEnabled".
Proof. repeat split; apply plain_names; (reflexivity || (cbn; auto 12)). Qed.
Lemma query_names : names (text "namespace") "namespace" /\ names (text "accurate") "accurate" /\ names (text "queryVec") "queryVec" /\
  names (text "n") "n" /\ names (text "drain") "drain".
Proof. repeat split; apply plain_names; (reflexivity || (cbn; auto 12)). Qed.
Lemma put_small : Forall small [text "2.5e-1"; text "-0"; text "12"] /\ Forall small [text "0.25"; text "0"; text "12e0"].
Proof.
  split; repeat constructor; apply read_small; try (apply scan_number; vm_compute; reflexivity); vm_compute; discriminate.
Qed.
Lemma ns1_means : Means (text "n\u00731") (text "ns1").
Proof.
  change (text "n\u00731") with (bytes_of [110%Z] ++ text "\u" ++ text "0073" ++ bytes_of [49%Z] ++ []).
  change (text "ns1") with (bytes_of [110%Z] ++ bytes_of [115%Z] ++ bytes_of [49%Z] ++ []).
  apply (means_plain 110); try (unfold scalar; lia); [apply enc1; lia|].
  apply means_hex with (n := 115%Z); try (unfold scalar; lia); [|apply enc1; lia|].
  - exists x30, x30, x37, x33, 0, 0, 7, 3. unfold HexVal. repeat split; auto.
  - apply (means_plain 49); try (unfold scalar; lia); [apply enc1; lia|constructor].
Qed.
Lemma payload_bytes : Bytes (text "aGk=") (text "hi").
Proof.
  exists (text "aGk="). split; [apply ascii_means; reflexivity|]. apply (encode_ok (text "hi")).
Qed.
Lemma sample_time : DateTime (text "2021-08-01T12:30:00.25+02:00") 1627813800250000000.
Proof.
  change (text "2021-08-01T12:30:00.25+02:00") with
    (text "2021" ++ text "-" ++ text "08" ++ text "-" ++ text "01" ++ text "T" ++ text "12" ++ text ":" ++ text "30" ++ text ":" ++ text "00" ++
     (text "." ++ text "25") ++ (text "+" ++ text "02" ++ text ":" ++ text "00")).
  change 1627813800250000000%Z with (((((day_number 2021 8 1 - days 1970) * 24 + 12) * 60 + 30 - (2 * 60 + 0)) * 60 + 0) * 1000000000 + 250000000)%Z.
  apply date_time; try lia; try (match goal with |- Dec _ ?s ?n => exact (dec_of s n eq_refl eq_refl) end).
  - apply (a_fraction _ 25); [cbn; lia| |reflexivity]. apply (dec_of (text "25") 25 eq_refl). reflexivity.
  - apply off_east; try lia; match goal with |- Dec _ ?s ?n => exact (dec_of s n eq_refl eq_refl) end.
  - change (1 <= 1 <= 31)%Z. lia.
Qed.

(* The whole way. *)
Definition texted (path : str) (s : str) (w : World f64) : M (reply f64 * World f64) :=
  exec (serve_http cosE (routes [nA]) (text_request read_f64 (text "POST") path false s)) w.

(* Two namespaces that are told apart by bytes that are no UTF-8 are one. *)
Lemma collide : exists a b, a <> b /\ forall N (rf : str -> option (F N)), exists o,
  text_put rf (quotes "{'namespace':'" ++ [a] ++ quotes "'}") = Some o /\ text_put rf (quotes "{'namespace':'" ++ [b] ++ quotes "'}") = Some o /\
  po_ns o = [xef; xbf; xbd].
Proof. exists xfe, xff. split; [discriminate|]. intros N rf. eexists. split; [reflexivity|split; reflexivity]. Qed.
Lemma ff_not_utf8 : ~ Utf8 [xff].
Proof.
  intros H. inversion H as [|n p s Hn He Hs E]. destruct He as [A|a b A|a b c A|a b c d A].
  - cbn in E. injection E as E _. destruct (Z.ltb_spec n 0) as [B|B]; [destruct Hn; lia|]. 
    assert (G : bn xff = n) by (rewrite <- E; apply (bn_nb n); lia). cbn in G. lia.
  - cbn in E. discriminate E.
  - cbn in E. discriminate E.
  - cbn in E. discriminate E.
Qed.
Lemma unreachable : exists ns, forall N (read_float : str -> option (F N)) s,
  (forall o, text_put read_float s = Some o -> po_ns o <> ns) /\ (forall o, text_query read_float s = Some o -> qo_ns o <> ns).
Proof.
  exists [xff]. intros N rf s. destruct (namespaces_utf8 rf s) as (A & B).
  split; intros o Ho E; [apply A in Ho|apply B in Ho]; rewrite E in Ho; exact (ff_not_utf8 Ho).
Qed.

(* Hours of one digit are read. *)
Lemma short_hour : exists s t, parse_time s = Some t /\ forall t', ~ DateTime s t'.
Proof.
  exists (text "2021-01-01T5:00:00Z"), 1609477200000000000%Z. split; [vm_compute; reflexivity|]. intros t' H.
  remember (text "2021-01-01T5:00:00Z") as w eqn:E. destruct H as [ys ms ds hs mis ss fs zs y m d h mi s ns off (Hy & _) (Hm & _) (Hd & _) (Hh & Hh') _ _ _ _ _ _ _ _ _].
  apply (f_equal (fun l => nth 13 l x00)) in E. change (nth 13 (text "2021-01-01T5:00:00Z") x00) with x30 in E.
  destruct ys as [|y1 [|y2 [|y3 [|y4 [|]]]]]; try discriminate Hy. destruct ms as [|m1 [|m2 [|]]]; try discriminate Hm.
  destruct ds as [|d1 [|d2 [|]]]; try discriminate Hd. destruct hs as [|h1 [|h2 [|]]]; try discriminate Hh. cbn in E. discriminate E.
Qed.

(* An answer that was written. *)
Definition shown_sample : list (shown f64) :=
  [MkShown (MkWire [fz 2; fz 0] (text "hi") 1627813800250000000 true) false false 120; MkShown (MkWire [] [] 0 false) true true 0].
Lemma sample_showable : Forall (showable show_exact) shown_sample.
Proof.
  assert (H : forall z : F f64, is_fin z = true -> Number (show_exact z) /\ read_f64 (show_exact z) = Some z).
  { intros z H. split; [|apply exact_read; auto]. destruct (exact_stands z H) as (q & Hs & _). apply (stands_number _ _ _ (modest_stands _ _ _ Hs)). }
  apply Forall_cons; [|apply Forall_cons; [|apply Forall_nil]]; (split; [|split]); cbn [sh_dp wi_vec sh_zone wi_expires]; try lia.
  - apply Forall_cons; [apply H; reflexivity|]. apply Forall_cons; [apply H; reflexivity|apply Forall_nil].
  - change (year_begin 0) with (-62167219200000000000)%Z. change (year_begin 10000) with 253402300800000000000%Z. lia.
  - apply Forall_nil.
  - change (year_begin 0) with (-62167219200000000000)%Z. change (year_begin 10000) with 253402300800000000000%Z. lia.
Qed.

Lemma surrogate_chars : Chars (text "a" ++ [xff] ++ text "\ud800!").
Proof.
  cbn [app text]. apply chars_plain; try discriminate; [cbn; lia|]. apply chars_plain; try discriminate; [vm_compute; lia|].
  change (text "\ud800!") with (text "\u" ++ [x64; x38; x30; x30] ++ text "!"). apply chars_hex; try (cbn; tauto). apply plain_chars. reflexivity.
Qed.
