(* What a whole body should mean: the texts of names, numbers, bytes and times in it. *)
From Coq Require Import QArith.
From Verif Require Import Base Num Env Server Core Routes Json JsonSpec BodySpec FloatSpec JsonText TextSpec TextNumSpec.
From Coq.Init Require Import Byte.
From Coq Require Import Strings.Byte Strings.String.
Local Open Scope list_scope.

(* The member names the field f. *)
Definition names (k : str) (f : string) : Prop := exists n, Means k n /\ spells n (text f).
(* A number that is not too large (nor its text), and what it may be read as. *)
Definition small (s : str) : Prop := (Z.of_nat (List.length s) <= 9000)%Z /\ exists neg q, Stands s neg q /\ (q < limit)%Q.
Definition rounds (s : str) (x : F f64) : Prop := exists neg q, Stands s neg q /\ closest x (signed neg q) /\ negative x = neg.
Definition Bytes (raw : str) (l : list byte) : Prop := exists s, Means raw s /\ Base64 l (filter (fun c => negb (Byte.eqb c x0d) && negb (Byte.eqb c x0a)) s).

(* A datapoint that can be written: its local time has a year of four digits. *)
Definition showable (show_float : F f64 -> str) (x : shown f64) : Prop :=
  Forall (fun f => Number (show_float f) /\ read_f64 (show_float f) = Some f) (wi_vec (sh_dp x)) /\
  (-1440 < sh_zone x < 1440)%Z /\
  (year_begin 0 <= wi_expires (sh_dp x) + sh_zone x * 60000000000 < year_begin 10000)%Z.
