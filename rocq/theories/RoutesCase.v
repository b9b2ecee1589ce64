(* Requests as they come over the wire. *)
From Verif Require Import Base Num MathUtils Knn Env Centroid CManager MathSpec Wp NumFacts TestEnv Proc Server ServerSpec ServerFacts TestWorld
  Core CoreSpec Routes RoutesProofs Json BodySpec BodyProofs.
From Coq.Init Require Import Byte.
From Coq Require Import Strings.Byte Strings.String.
Local Open Scope string_scope.
Local Open Scope list_scope.
Local Open Scope nat_scope.

Definition post : str := text "POST".
Definition routes (addrs : list str) : mux :=
  match api_start true (Some addrs) [] with Ok (m, _) => m | _ => [] end.

Definition ok200 (a : reply f64) : bool := match a with Answer (Http s None) => (s =? 200)%Z | _ => false end.

Lemma ok200_eq a : ok200 a = true -> a = Answer (Http 200 None).
Proof.
  destruct a as [[s [b|]|]|]; cbn; try discriminate. intros H. apply Z.eqb_eq in H. subst s. reflexivity.
Qed.

(* A put without any members is acknowledged, and stored. *)
Lemma empty_put : forall parse_time parse_bytes, exists ths addrs m,
  api_start true (Some addrs) [] = Ok (m, true) /\
  wp (exec (serve_http cosE m (json_request parse_time parse_bytes post put_route false (Some (JObj [])))) (fresh ths)) 0
     (fun r _ => fst r = Answer (Http 200 None) /\ exists a d, data_at (snd r) a [] = [d] /\ dp_vec d = []).
Proof.
  intros pt pb. exists [(nA, 10%Z)], [nA], (routes [nA]). split; [reflexivity|].
  change (json_request pt pb post put_route false (Some (JObj [])))
    with (MkReq (N := f64) post put_route false (Some (MkPut [] false zero_dp)) (Some (MkQuery [] false [] 0 false))).
  apply (check_wp _ _ _ (fun r => ok200 (fst r) && match data_at (snd r) nA [] with [d] => match dp_vec d with [] => true | _ => false end | _ => false end)).
  - intros r H. apply andb_prop in H. destruct H as (H1 & H2). split; [apply ok200_eq; auto|].
    exists nA. destruct (data_at (snd r) nA []) as [|d [|]]; try discriminate. exists d. split; auto.
    destruct (dp_vec d); auto. discriminate.
  - vm_compute. reflexivity.
Qed.

(* Putting and querying with text for a time and bytes of a very simple form. *)
Definition pt0 (s : str) : option Z := match s with [] => Some 0%Z | _ => None end.
Definition pb0 (s : str) : option (list byte) := Some s.
Definition jnum (z : Z) : json f64 := JNum (Some (fz z)) (Some z) None.
Definition body_put (l : list Z) : json f64 :=
  JObj [(text "dp", JObj [(text "EXPIRES", JStr [] []); (text "vec", JArr (map jnum l)); (text "comment", JNull)]);
        (text "Namespace", JStr ns1 ns1)].
Definition body_query (n : Z) : json f64 :=
  JObj [(text "queryVec", JArr [jnum 1; jnum 0]); (text "namespace", JStr ns1 ns1); (text "n", jnum n)].
Definition asks (path : str) (j : json f64) : http_request f64 := json_request pt0 pb0 post path false (Some j).

Definition served (path : str) (j : json f64) (w : World f64) : M (reply f64 * World f64) :=
  exec (serve_http cosE (routes [nA]) (asks path j)) w.

(* A way to write times: as many bytes as the number has. *)
Definition unary (z : Z) : str := (if (z <? 0)%Z then [x2d] else []) ++ repeat x31 (Z.abs_nat z).
Definition of_unary (s : str) : Z :=
  match s with c :: r => if Byte.eqb c x2d then (- Z.of_nat (List.length r))%Z else Z.of_nat (List.length s) | [] => 0%Z end.

Lemma texts : exists (num : F f64 -> json f64) parse_time (show_time : Z -> str) parse_bytes (show_bytes : list byte -> json f64),
  (forall x, dec_float (num x) = Some x) /\ (forall z : Z, year_ok z = true -> parse_time (show_time z) = Some z) /\
  (forall l, dec_bytes parse_bytes (show_bytes l) = Some l).
Proof.
  exists (fun x => JNum (Some x) None None), (fun s => Some (of_unary s)), unary, pb0, (fun l => JStr l l). repeat split.
  intros z _. f_equal. unfold unary, of_unary. destruct (Z.ltb_spec z 0) as [H|H]; cbn [app].
  - change (Byte.eqb x2d x2d) with true. cbv iota. rewrite repeat_length. lia.
  - destruct (Z.abs_nat z) as [|n] eqn:En; cbn [repeat]; [lia|].
    change (Byte.eqb x31 x2d) with false. cbv iota. cbn [List.length]. rewrite repeat_length. lia.
Qed.
