(* A datapoint on its way from the text of a put to the text of an answer. *)
From Coq Require Import ZArith QArith SpecFloat Lia.
From Verif Require Import Base Num NumFacts MathUtils Env Centroid CManager Wp DataSpec Proc Server ServerSpec StealProofs SeqProofs Core CoreSpec CoreSeq QuerySpec QueryProofs Routes RoutesProofs Json JsonSpec BodySpec
  FloatSpec JsonText TextSpec TextNumSpec TextWholeSpec TextWhole ShowFloat ShowWhole GobSpec Zones ZonesProofs.
From Coq.Init Require Import Byte.
From Coq Require Import Strings.Byte Strings.String.
Local Open Scope list_scope.

Lemma all_length {A B : Type} (R : A -> B -> Prop) l l' : Forall2 R l l' -> List.length l = List.length l'.
Proof. induction 1; cbn; congruence. Qed.
Lemma serve_zone (E : Env f64) z m r w t : zone_ok z -> exec (serve_http_z E z m r) w t = exec (serve_http E m r) w t.
Proof.
  intros Hz. unfold serve_http_z, serve_http. destruct (rq_star r); [reflexivity|]. destruct (_ && _); [reflexivity|].
  destruct (assoc (rq_path r) m) as [[[] addrs]|]; try reflexivity. rewrite !exec_bind. unfold bind. rewrite put_same by exact Hz. reflexivity.
Qed.

Section Trip.
Context (E : Env f64) (HE : EnvOk E) (D : str -> nat -> Prop).
Theorem trip put_first addrs m method z s kn ka kd kv kp ke kx nraw ns acc vs praw p traw tm b w t :
  api_start put_first (Some addrs) [] = Ok (m, true) ->
  Document (TObj [(kn, TStr nraw); (ka, TBool acc); (kd, TObj [(kv, TArr (map TNum vs)); (kp, TStr praw); (ke, TStr traw); (kx, TBool b)])]) s ->
  names kn "namespace" -> names ka "accurate" -> names kd "dp" ->
  names kv "vec" -> names kp "payload" -> names ke "expires" -> names kx "expireEnabled" ->
  Means nraw ns -> Forall small vs -> Bytes praw p -> DateTime traw tm -> zone_ok z ->
  all_delivered E -> WorldOk w -> DimsOk D w -> NoDup addrs -> D ns (List.length vs) -> (exists a, In a addrs /\ node_at w a <> None) ->
  exists v, Forall2 rounds vs v /\
    (never_expired E [MkDP v p tm b] -> takers E w addrs ns (MkDP v p tm b) ->
     wp (exec (serve_http_z E z m (text_request read_f64 method (text "/api/dp/put") false s)) w) t (fun r t1 => fst r = Answer (Http 200 None) /\
       forall method' s' o, text_query read_f64 s' = Some o -> qo_ns o = ns -> sees_all E (snd r) addrs o ->
       wp (exec (serve_http E m (text_request read_f64 method' (text "/api/dp/query") false s')) (snd r)) t1 (fun r' _ =>
         exists found, fst r' = Answer (Http 200 (Some found)) /\
         forall nil l, map sh_dp l = found ->
           Forall (fun x : shown f64 => Forall (fun f => is_fin f = true) (wi_vec (sh_dp x)) /\ (-1440 < sh_zone x < 1440)%Z /\
             (year_begin 0 <= wi_expires (sh_dp x) + sh_zone x * 60000000000 < year_begin 10000)%Z) l ->
           exists js ws, JsonText.body read_f64 (answer_text show_f64 nil l) = Some (JArr js) /\
             all_some (fun j => dec_dp parse_time b64_decode j zero_dp) js = Some ws /\ In (MkWire v p tm b) ws))).
Proof.
  intros Hm Hs N1 N2 N3 N4 N5 N6 N7 Hns Hvs Hp Ht Hz Hd HW HD Hnd Hdim Hn.
  destruct (put_text s kn ka kd kv kp ke kx nraw ns acc vs praw p traw tm b Hs N1 N2 N3 N4 N5 N6 N7 Hns Hvs Hp Ht) as (v & Hv & Hput).
  exists v. split; [exact Hv|]. intros Hx Htk. unfold wp. rewrite (serve_zone E z m _ w t Hz). fold (wp (exec (serve_http E m (text_request read_f64 method (text "/api/dp/put") false s)) w) t).
  rewrite (serve_put E put_first addrs m (text_request read_f64 method (text "/api/dp/put") false s) Hm eq_refl eq_refl). unfold text_request at 1. cbn [rq_put]. rewrite Hput.
  apply wp_exec_bind. eapply wp_mono.
  { apply (put_then_query E HE f64_ord D addrs (MkPut ns acc (MkWire v p tm b)) w t Hd HW HD Hnd); auto.
    cbn [po_ns po_dp wi_vec]. rewrite <- (all_length _ _ _ Hv). exact Hdim. }
  intros [h w1] t1 (Eh & Hq). cbn [fst snd] in *. subst h. apply wp_exec_ret. cbn [fst snd]. split; [reflexivity|].
  intros method' s' o Ho Hons Hsee. rewrite (serve_query E put_first addrs m (text_request read_f64 method' (text "/api/dp/query") false s') Hm eq_refl eq_refl). unfold text_request. cbn [rq_query]. rewrite Ho.
  apply wp_exec_bind. eapply wp_mono; [exact (Hq o Hons Hsee)|]. intros [[h ds] w2] t2 (found & Ef & Hin). cbn [fst snd] in *. apply wp_exec_ret. cbn [fst snd].
  exists found. split; [rewrite Ef; reflexivity|]. intros nil l El Hl. destruct (answer_shown nil l Hl) as (j & Ej & [(_ & El' & _)|(js & Ejs & Ews)]).
  - subst l. cbn in El. subst found. destruct Hin.
  - exists js, (map sh_dp l). subst j. split; [exact Ej|]. split; [exact Ews|]. rewrite El. exact Hin.
Qed.
End Trip.
