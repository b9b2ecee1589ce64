(* Model of core/eventloop/log.go: the default logger. *)
From Verif Require Import Base Env Server EventLoop.

(* log.go:48-53 defaultLogger. *)
Record logger := MkLogger { lg_local_only : bool; lg_local : str; lg_global : list str; lg_items : meta_items }.

(* cfg.go:155-166 validate: the logger of a configuration that has none. *)
Definition default_logger (c : el_cfg) : logger := MkLogger (el_local_only c) (el_local c) (el_remote c) [].

(* log.go:55 LogMeta. *)
Definition log_meta (l : logger) (items : meta_items) : logger :=
  MkLogger (lg_local_only l) (lg_local l) (lg_global l) items.

(* What a line of the log tells (lines 59 and 95-103): a task; or the numbers of a node, and the
   task if the node is the local one.  What the fields look like is in LogText.v. *)
Inductive log_line :=
| TaskLine (addr task : str)
| NodeLine (addr : str) (namespaces centroids dps : nat) (task : option str).

(* log.go:57-107 LogTask.  An address without an item has the zero MetaDataItem. *)
Definition log_task (l : logger) (s : str) : list log_line :=
  match lg_items l with
  | [] => [TaskLine (lg_local l) s]
  | _ :: _ =>
      flat_map (fun a =>
        if lg_local_only l && negb (str_eqb a (lg_local l)) then []
        else
          let m := match assoc a (lg_items l) with Some m => m | None => [] end in
          [NodeLine a (length m) (list_sum (map (fun e => fst (snd e)) m)) (list_sum (map (fun e => snd (snd e)) m))
             (if str_eqb a (lg_local l) then Some s else None)]) (lg_global l)
  end.
