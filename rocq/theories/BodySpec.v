(* Which JSON bodies the two handlers should accept: objects whose members fit the documented
   fields (core/api/handler.go, conv.go), in any order, beside any others. *)
From Verif Require Import Base Num MathUtils Knn Env Server Core Routes Json.
From Coq.Init Require Import Byte.
From Coq Require Import Strings.Byte Strings.String.
Local Open Scope string_scope.
Local Open Scope list_scope.

Section BodySpec.
Context {N : Num}.
Variable time_text : str -> bool.
Variable bytes_text : str -> bool.
Notation json := (json N).

Inductive kind := KBool | KStr | KInt | KVec | KBytes | KTime.

Definition fits (k : kind) (j : json) : bool :=
  match k, j with
  | _, JNull => true
  | KBool, JBool _ => true
  | KStr, JStr _ _ => true
  | KInt, JNum _ (Some _) _ => true
  | KVec, JArr l => forallb (fun x => match x with JNull | JNum (Some _) _ _ => true | _ => false end) l
  | KBytes, JStr _ s => bytes_text s
  | KBytes, JArr l => forallb (fun x => match x with JNull | JNum _ _ (Some _) => true | _ => false end) l
  | KTime, JStr raw _ => time_text raw
  | _, _ => false
  end.

Definition dp_fields : list (string * kind) := [("vec", KVec); ("payload", KBytes); ("expires", KTime); ("expireEnabled", KBool)].
Definition put_fields : list (string * kind) := [("namespace", KStr); ("accurate", KBool)].
Definition query_fields : list (string * kind) :=
  [("namespace", KStr); ("accurate", KBool); ("queryVec", KVec); ("n", KInt); ("drain", KBool)].

(* How the name of a field may be spelt: letters in either case, and the long s, U+017F, for an s. *)
Definition letters : list (byte * byte) := combine (text "ABCDEFGHIJKLMNOPQRSTUVWXYZ") (text "abcdefghijklmnopqrstuvwxyz").
Definition may_stand (c d : byte) : Prop := c = d \/ In (c, d) letters \/ In (d, c) letters.
Inductive spells : str -> str -> Prop :=
| spells_nil : spells [] []
| spells_cons c d a b : may_stand c d -> spells a b -> spells (c :: a) (d :: b)
| spells_long_s d a b : may_stand x73 d -> spells a b -> spells (xc5 :: xbf :: a) (d :: b).

(* Every member that has the name of a field fits it. *)
Definition member_fits (fields : list (string * kind)) (x : str * json) : Prop :=
  forall f k, In (f, k) fields -> spells (fst x) (text f) -> fits k (snd x) = true.
Definition object_fits (ok : str * json -> Prop) (j : json) : Prop :=
  j = JNull \/ exists m, j = JObj m /\ forall x, In x m -> ok x.
Definition dp_ok : json -> Prop := object_fits (member_fits dp_fields).
Definition put_ok : json -> Prop :=
  object_fits (fun x => member_fits put_fields x /\ (spells (fst x) (text "dp") -> dp_ok (snd x))).
Definition query_ok : json -> Prop := object_fits (member_fits query_fields).

(* No member has the name of the field. *)
Definition absent (m : list (str * json)) (f : string) : Prop := forall x, In x m -> ~ spells (fst x) (text f).

Definition field_names : list string :=
  ["namespace"; "accurate"; "dp"; "queryVec"; "n"; "drain"; "vec"; "payload"; "expires"; "expireEnabled"].
(* No field is named twice. *)
Definition no_twins (m : list (str * json)) : Prop :=
  ForallOrdPairs (fun x y => forall f, In f field_names -> spells (fst x) (text f) -> ~ spells (fst y) (text f)) m.

(* Members with names of no field. *)
Definition stranger (fields : list string) (x : str * json) : Prop := forall f, In f fields -> ~ spells (fst x) (text f).
End BodySpec.
