(* Model of core/eventloop: cfg.go, el.go, eltask.go, eltaskutils.go.  The logger is in Log.v. *)
From Verif Require Import Base Num MathUtils Knn Env Centroid CManager Proc Server.
From Coq Require Import SpecFloat.

(* The tasks, in the order in which el.go:33-45 runs them. *)
Inductive task := TMeta | TExpire | TMemTrim | TMerge | TSplit | TInternal | TFast | TAccurate | TBalance.
Definition task_order : list task :=
  [TMeta; TExpire; TMemTrim; TMerge; TSplit; TInternal; TFast; TAccurate; TBalance].

(* cfg.go:15-56 EventLoopTaskSkipConfig. *)
Record skips := MkSkips {
  sk_expire : Z; sk_mem_trim : Z; sk_fast : Z; sk_accurate : Z; sk_internal : Z;
  sk_split : Z; sk_merge : Z; sk_balance : Z; sk_meta : Z
}.
Definition interval (s : skips) (k : task) : Z :=
  match k with
  | TMeta => sk_meta s | TExpire => sk_expire s | TMemTrim => sk_mem_trim s
  | TMerge => sk_merge s | TSplit => sk_split s | TInternal => sk_internal s
  | TFast => sk_fast s | TAccurate => sk_accurate s | TBalance => sk_balance s
  end.

(* cfg.go:60-79 clamp, one value (lines 72-77) and all of them: Meta is not in the list. *)
Definition clamp1 (lo hi v : Z) : Z :=
  let v1 := if (v <? lo)%Z then lo else v in
  if (hi <? v1)%Z then hi else v1.
Definition clamp (lo hi : Z) (s : skips) : skips :=
  MkSkips (clamp1 lo hi (sk_expire s)) (clamp1 lo hi (sk_mem_trim s)) (clamp1 lo hi (sk_fast s))
    (clamp1 lo hi (sk_accurate s)) (clamp1 lo hi (sk_internal s)) (clamp1 lo hi (sk_split s))
    (clamp1 lo hi (sk_merge s)) (clamp1 lo hi (sk_balance s)) (sk_meta s).

(* cfg.go:86-153 EventLoopConfig; timeouts and the logger are not modelled.  [el_fuel] bounds
   the loop of each steal in the model. *)
Record el_cfg := MkEl {
  el_local : str;
  el_remote : list str;
  el_skip : skips;
  el_fast_n : Z;
  el_accurate_n : Z;
  el_internal_n : Z;
  el_split_min : Z; el_split_max : Z;
  el_merge_min : Z; el_merge_max : Z;
  el_local_only : bool;
  el_fuel : nat
}.

(* cfg.go:155-168 validate, for a non-nil configuration. *)
Definition validate (c : el_cfg) : el_cfg :=
  MkEl (el_local c) (el_remote c) (clamp 1 1000 (el_skip c)) (el_fast_n c) (el_accurate_n c)
    (el_internal_n c) (el_split_min c) (el_split_max c) (el_merge_min c) (el_merge_max c)
    (el_local_only c) (el_fuel c).

(* The control flow of the loop, for tasks over any world. *)
Section Loop.
Context {W L : Type}.

(* eltask.go:9-13 withSkip: Go's % panics on zero. *)
Definition with_skip (iter k : Z) (p : proc W L unit) : proc W L unit :=
  if (k =? 0)%Z then local panic
  else if (Z.rem iter k =? 0)%Z then p else Ret tt.

(* The stopped flag (el.go:55-57) when it is read at tick k. *)
Definition read_stop (stop : nat -> bool) : proc W L bool := local (do k <- tick; ret (stop k)).

(* [rd] reads the stopped flag. *)
Context (rd : proc W L bool).

(* el.go:11-23 elStep. *)
Definition el_step (p : proc W L unit) : proc W L unit :=
  call s1 <- rd;
  if s1 then Ret tt
  else
    call s2 <- rd;
    if s2 then Ret tt else p.

Fixpoint el_steps (run : task -> proc W L unit) (l : list task) : proc W L unit :=
  match l with
  | [] => Ret tt
  | k :: r => call _ <- el_step (run k); el_steps run r
  end.

(* el.go:47-51, the counter. *)
Definition next_iter (iter : Z) : Z := let i := (iter + 1)%Z in if (1000 <? i)%Z then 0%Z else i.

(* el.go:30-52, the loop, for at most n rounds; the result tells whether it has ended. *)
Fixpoint el_loop (run : Z -> task -> proc W L unit) (n : nat) (iter : Z) : proc W L bool :=
  call s <- rd;
  if s then Ret true
  else
    match n with
    | O => Ret false
    | S n' => call _ <- el_steps (run iter) task_order; el_loop run n' (next_iter iter)
    end.
End Loop.

(* eltaskutils.go:15-30 addEntry, 33-39 addrsWithNamespace, 42-48 namespaces (in any order). *)
Definition ns_table : Type := list (str * list str).
Definition add_entry (t : ns_table) (addr ns : str) : ns_table :=
  upsert ns (match assoc ns t with Some l => l ++ [addr] | None => [addr] end) t.
Definition addrs_with (t : ns_table) (ns : str) : list str :=
  match assoc ns t with Some l => l | None => [] end.

(* eltask.go:171, int(float64(dpMean) * 0.4). *)
Definition f64_trunc (x : spec_float) : Z :=
  match x with
  | S754_finite s m e =>
      let a := match e with
               | Z0 => Zpos m
               | Zpos p => (Zpos m * 2 ^ Zpos p)%Z
               | Zneg p => (Zpos m / 2 ^ Zpos p)%Z
               end in
      if s then (- a)%Z else a
  | _ => 0%Z
  end.
Definition f64_04 : spec_float := S754_finite false 7205759403792794 (-54).
Definition margin_of (mean : Z) : Z := f64_trunc (SFmul prec64 emax64 (f64_of_Z mean) f64_04).

(* addrsLens[a]. *)
Definition len_at (lens : list (str * Z)) (a : str) : Z :=
  match assoc a lens with Some n => n | None => 0%Z end.

(* eltask.go:177-202, the decision: how much to take from [other], or None for "continue".
   Go's integer division panics on zero (line 187). *)
Definition balance_want (c : el_cfg) (naddrs : nat) (mean margin : Z) (lens : list (str * Z))
  (other : str) (other_len : Z) : M (option Z) :=
  let here := len_at lens (el_local c) in
  if str_eqb (el_local c) other || (mean <? here)%Z then ret None
  else if (mean - margin <? here)%Z then ret None
  else
    match el_remote c with
    | [] => panic
    | _ :: _ =>
        let want := Z.quot (Z.quot (mean - here) (Z.of_nat (length (el_remote c)))) 3 in
        if (want =? 0)%Z then ret None
        else if (other_len - want <? mean + margin)%Z && negb (naddrs =? 1) then ret None
        else ret (Some want)
    end.

(* eltask.go:175-213, the loop over the size table, with any way to take datapoints from a
   node; it changes the entries of [local] and of the node just visited only (a new entry for
   [local] is skipped if it is visited at all), so the remaining sizes are those at the
   start. *)
Section Balance.
Context {W L : Type} (take : str -> Z -> proc W L nat).
Fixpoint balance_loop (c : el_cfg) (naddrs : nat) (mean margin : Z)
  (todo : list (str * Z)) (lens : list (str * Z)) : proc W L unit :=
  match todo with
  | [] => Ret tt
  | (other, other_len) :: r =>
      call o <- local (balance_want c naddrs mean margin lens other other_len);
      match o with
      | None => balance_loop c naddrs mean margin r lens
      | Some want =>
          call n <- take other want;
          let lens1 := upsert (el_local c) (len_at lens (el_local c) + Z.of_nat n)%Z lens in
          let lens2 := upsert other (len_at lens1 other - Z.of_nat n)%Z lens1 in
          balance_loop c naddrs mean margin r lens2
      end
  end.
End Balance.

Section EventLoop.
Context {N : Num} (E : Env N).
Notation proc' := (proc' N).

Fixpoint each (nss : list str) (p : str -> proc' unit) : proc' unit :=
  match nss with
  | [] => Ret tt
  | ns :: r => call _ <- p ns; each r p
  end.

(* eltask.go:19-28 withNamespaceTable. *)
Fixpoint poll (addrs : list str) (t : ns_table) : proc' ns_table :=
  match addrs with
  | [] => Ret t
  | a :: r =>
      call nss <- c_namespaces E a;
      poll r (fold_left (fun t ns => add_entry t a ns) nss t)
  end.
Definition with_table (c : el_cfg) (p : ns_table -> proc' unit) : proc' unit :=
  call t <- poll (el_remote c) []; p t.

(* eltask.go:31-36 withLocalAddrNamespaces. *)
Definition with_local (c : el_cfg) (p : str -> proc' unit) : proc' unit :=
  call nss <- c_namespaces E (el_local c); each nss p.

(* go p. *)
Definition go (p : proc' unit) : proc' unit := Fork p (Ret tt).

(* eltaskutils.go:51-79 fetchRemoteLenDPs.  The error of a call is never a NamespaceErr
   (net/rpc turns a handler's error into a ServerError string), so ok is always true and a
   failed call counts as 0.  Simplification: the goroutines run one after the other, in any
   order, and answer in any order. *)
Fixpoint fetch_lens (addrs : list str) (ns : str) : proc' (list (str * nat)) :=
  match addrs with
  | [] => Ret []
  | a :: r =>
      call n <- c_len_dp E a ns;
      call l <- fetch_lens r ns;
      Ret ((a, n) :: l)
  end.
Definition remote_lens (addrs : list str) (ns : str) : proc' (list (str * Z)) :=
  call order <- local (any_order E addrs);
  call l <- fetch_lens order ns;
  call arrived <- local (any_order E l);
  Ret (fold_left (fun m e => upsert (fst e) (Z.of_nat (snd e)) m) arrived []).

(* eltask.go:204, client.StealCentroids. *)
Definition steal_from (c : el_cfg) (ns other : str) (want : Z) : proc' nat :=
  call ' (n, _) <- c_steal E (el_fuel c) (el_local c) other ns want; Ret n.

(* eltask.go:159-214, one namespace: dpTotal / len(addrsLens) panics if no size is known. *)
Definition balance_ns (c : el_cfg) (t : ns_table) (ns : str) : proc' unit :=
  let addrs := addrs_with t ns in
  call lens <- remote_lens addrs ns;
  match lens with
  | [] => local panic
  | _ :: _ =>
      let total := fold_left Z.add (map snd lens) 0%Z in
      let mean := Z.quot total (Z.of_nat (length lens)) in
      call todo <- local (any_order E lens);
      balance_loop (steal_from c ns) c (length addrs) mean (margin_of mean) todo lens
  end.

(* eltask.go:219-239 eltMeta: the addresses, and MetaData.Items (log.go:27-46) with per node and
   namespace the number of centroids and of datapoints.  The items are what the logger is given
   (Log.v). *)
Definition meta_items : Type := list (str * list (str * (nat * nat))).
Definition pull_from (c : el_cfg) : list str := if el_local_only c then [el_local c] else el_remote c.
Fixpoint metas (addrs : list str) (items : meta_items) : proc' meta_items :=
  match addrs with
  | [] => Ret items
  | a :: r => call m <- c_meta E a; metas r (upsert a m items)
  end.

(* eltask.go:40-239, the tasks without their withSkip. *)
Definition task_body (c : el_cfg) (k : task) : proc' unit :=
  let a := el_local c in
  match k with
  | TMeta => call _ <- metas (pull_from c) []; Ret tt
  | TExpire => with_local c (fun ns => go (c_expire_of E a ns))
  | TMemTrim => with_local c (fun ns => go (c_mem_trim_of E a ns))
  | TMerge => with_local c (fun ns => go (c_merge E a ns (el_merge_min c) (el_merge_max c)))
  | TSplit => with_local c (fun ns => go (c_split E a ns (el_split_min c) (el_split_max c)))
  | TInternal => with_local c (fun ns => go (c_distribute_internal E a ns (el_internal_n c)))
  | TFast => with_local c (fun ns => with_table c (fun t =>
      c_distribute_fast E a ns (addrs_with t ns) (el_fast_n c)))
  | TAccurate => with_local c (fun ns => with_table c (fun t =>
      c_distribute_accurate E a ns (addrs_with t ns) (el_accurate_n c)))
  | TBalance => with_table c (fun t =>
      call nss <- local (any_order E (map fst t));
      each nss (balance_ns c t))
  end.
Definition run_task (c : el_cfg) (iter : Z) (k : task) : proc' unit :=
  with_skip iter (interval (el_skip c) k) (task_body c k).

(* el.go:25-58 EventLoop: the configuration is validated, then the loop starts in a goroutine
   with the counter at 0. *)
Definition event_loop (c : el_cfg) (stop : nat -> bool) (n : nat) : proc' bool :=
  el_loop (read_stop stop) (run_task (validate c)) n 0.

End EventLoop.
