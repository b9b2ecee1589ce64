(* Model of the text that core/eventloop/log.go and core/eventloop/eltask.go write, with what they
   use of fmt and log: verbs %v of strings and integers, %3d and %6d; log.Printf and log.Println
   with the standard flags. *)
From Verif Require Import Base Env Server EventLoop Log Routes.
From Coq.Init Require Import Byte.
From Coq Require Import Strings.String.
Local Open Scope nat_scope.

(* ---- fmt ---- *)

(* Decimal digits.  The fuel is the number plus one. *)
Definition digit (d : nat) : byte := nth d (text "0123456789") x30.
Fixpoint digits (fuel n : nat) : str :=
  match fuel with
  | 0 => []
  | S fuel' => if n <? 10 then [digit n] else digits fuel' (n / 10) ++ [digit (n mod 10)]
  end.
(* %d and %v of an int. *)
Definition show_nat (n : nat) : str := digits (S n) n.
Definition show_int (z : Z) : str :=
  if (z <? 0)%Z then x2d :: show_nat (Z.to_nat (- z)) else show_nat (Z.to_nat z).
(* %3d, %6d: filled up with spaces on the left. *)
Definition padded (width : nat) (s : str) : str := repeat x20 (width - List.length s) ++ s.

(* ---- descriptions of tasks ---- *)

(* eltask.go:43, 55, 68, 90, 111, 125, 138; the other tasks have no such description. *)
Definition verb (t : task) : str :=
  match t with
  | TExpire => text "expire"
  | TMemTrim => text "memtrim"
  | TFast => text "distri fast"
  | TAccurate => text "distri accurate"
  | TInternal => text "distri internal"
  | TSplit => text "splitting"
  | TMerge => text "merging"
  | TBalance | TMeta => []
  end.
(* What is logged: a task that starts on a namespace; a transfer (eltask.go:204-208). *)
Inductive note :=
| NTask (t : task) (ns : str)
| NBalance (ns : str) (want : Z) (got : nat) (from : str).
Definition note_text (x : note) : str :=
  match x with
  | NTask t ns => text "(ns '" ++ ns ++ text "') " ++ verb t
  | NBalance ns want got from =>
      text "(ns '" ++ ns ++ text "') load balancing (want " ++ show_int want ++ text " dps, got " ++
      show_nat got ++ text " from " ++ from ++ text ")"
  end.

(* eltask.go:31-36 withLocalAddrNamespaces and the tasks that use it: the calls to LogTask of such a
   task, if the local node answers with the namespaces nss. *)
Definition task_notes (t : task) (nss : list str) : list note := map (NTask t) nss.

(* ---- lines ---- *)

(* log.go:59; 93-99. *)
Definition line_text (l : log_line) : str :=
  match l with
  | TaskLine a s => text "[" ++ a ++ text "] task: " ++ s
  | NodeLine a n cens dps o =>
      text "[" ++ a ++ text "] namespaces: " ++ padded 3 (show_nat n) ++ text " | centroids: " ++ padded 6 (show_nat cens) ++
      text " | dps: " ++ padded 6 (show_nat dps) ++ text " |" ++
      match o with Some s => text " task: " ++ s | None => [] end
  end.
Definition newline : byte := x0a.
Definition ends_line (s : str) : bool := match rev s with c :: _ => Byte.eqb c newline | [] => false end.
(* log.Printf (log.go:59) ends the line unless it has ended; log.Println (log.go:102) ends it.  Both
   begin it with a time stamp. *)
Definition written (stamp : str) (l : log_line) : str :=
  stamp ++ line_text l ++
  match l with
  | TaskLine _ _ => if ends_line (line_text l) then [] else [newline]
  | NodeLine _ _ _ _ _ => [newline]
  end.
(* What the log has after some lines, with their time stamps.  (The terminal is cleared on the standard
   output, log.go:63-66, and the log is written to the standard error.) *)
Definition transcript (l : list (str * log_line)) : str := flat_map (fun e => written (fst e) (snd e)) l.
