(* A case for Trip.v and Sendable.v. *)
From Coq Require Import SpecFloat ZArith.
From Verif Require Import Base Num MathUtils Knn Env Centroid CManager Wp DataSpec TestEnv Proc Server ServerSpec TestWorld Core CoreSpec CoreSeq QuerySpec QueryCase Props06Lemmas Routes RoutesCase
  Json JsonText TextSpec TextParse TextWholeSpec TextCase ShowFloat Gob GobWire GobSpec Sendable.
From Coq.Init Require Import Byte.
From Coq Require Import Strings.Byte Strings.String.
Local Open Scope string_scope.
Local Open Scope list_scope.
Local Open Scope nat_scope.

(* As put_sample, but for the last member. *)
Definition trip_sample : str := quotes
  " { 'Namespace' : 'ns1', 'accurate': false,
      'dp': {'vec': [2.5e-1, -0, 12], 'payload': 'aGk=', 'expires': '2021-08-01T12:30:00.25+02:00', 'EXPIREENABLED': false} } ".
Definition trip_tree : tree :=
  TObj [(text "Namespace", TStr (text "ns1")); (text "accurate", TBool false);
        (text "dp", TObj [(text "vec", TArr (map TNum [text "2.5e-1"; text "-0"; text "12"])); (text "payload", TStr (text "aGk="));
                          (text "expires", TStr (text "2021-08-01T12:30:00.25+02:00")); (text "EXPIREENABLED", TBool false)])].
Definition trip_question : str := quotes "{'namespace':'ns1','queryVec':[0.25,0,12e0],'n':1}".
Definition trip_start : World f64 := fresh [(nA, 10%Z)].
Definition trip_world : World f64 := match texted put_route trip_sample trip_start 0 with Ok ((_, w), _) => w | _ => trip_start end.
Definition trip_query : query_opts f64 := match text_query read_f64 trip_question with Some o => o | None => MkQuery [] false [] 0 false end.

Lemma trip_case : Document trip_tree trip_sample /\ api_start true (Some [nA]) [] = Ok (routes [nA], true) /\
  (WorldOk trip_start /\ DimsOk (fun _ _ => True) trip_start) /\ node_at trip_start nA <> None /\
  (forall v, never_expired cosE [MkDP v (text "hi") 1627813800250000000 false] /\ takers cosE trip_start [nA] (text "ns1") (MkDP v (text "hi") 1627813800250000000 false)) /\
  text_query read_f64 trip_question = Some trip_query /\ qo_ns trip_query = text "ns1" /\ sees_all cosE trip_world [nA] trip_query.
Proof.
  split; [apply parse_iff; vm_compute; reflexivity|]. split; [reflexivity|]. split.
  { apply fresh_ok. constructor; [intros []|constructor]. }
  split; [discriminate|]. split.
  { intros v. split; [intros k d [<-|[]]; reflexivity|]. intros a m [<-|[]] Hm. discriminate Hm. }
  split.
  { unfold trip_query. destruct (text_query read_f64 trip_question) eqn:Eq; [reflexivity|].
    assert (K : match text_query read_f64 trip_question with Some _ => true | None => false end = true) by (vm_compute; reflexivity). rewrite Eq in K. discriminate K. }
  split; [vm_compute; reflexivity|]. apply sees_check. vm_compute. reflexivity.
Qed.
Local Open Scope Z_scope.
Lemma sent_case : 15 * Z.of_nat (List.length trip_sample) + 200 <= 2 ^ 33 /\
  match text_put read_f64 trip_sample with
  | Some o => match send_call (65, 66) (Some 120) (QAdd (po_ns o) (to_dp (po_dp o))) with Some s => Z.of_nat (List.length s) | None => 0 end
  | None => 0
  end = 73.
Proof. split; [vm_compute; discriminate|]. vm_compute. reflexivity. Qed.
