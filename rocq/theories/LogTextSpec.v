(* Specification vocabulary for the text of the log. *)
From Verif Require Import Base Env Server EventLoop Log LogText.
From Coq.Init Require Import Byte.

Definition without (c : byte) (s : str) : Prop := ~ In c s.
(* Time stamps are 20 bytes of a line: 2009/01/23 01:23:23 and a space. *)
Definition is_stamp (s : str) : Prop := length s = 20.
(* Addresses without brackets, and nothing with a line break. *)
Definition plain_line (l : log_line) : Prop :=
  match l with
  | TaskLine a s => without x5d a /\ without x0a a /\ without x0a s
  | NodeLine a _ _ _ o => without x5d a /\ without x0a a /\ match o with Some s => without x0a s | None => True end
  end.
Definition plain_entry (e : str * log_line) : Prop := is_stamp (fst e) /\ without x0a (fst e) /\ plain_line (snd e).
(* Notes of tasks that have a description, with an address without quotes. *)
Definition plain_note (x : note) : Prop :=
  match x with
  | NTask t _ => ~ In t [TBalance; TMeta]
  | NBalance _ _ _ from => without x27 from
  end.
(* Where the bars are. *)
Definition bars (s : str) : list bool := map (Byte.eqb x7c) s.
