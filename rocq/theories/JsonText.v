(* Model of the texts of HTTP bodies: core/api/handler.go:40-41 (json.Unmarshal) and 131
   (json.Marshal), as encoding/json, encoding/base64, unicode/utf8, time and strconv of Go 1.16
   read and write them for the types of handler.go:51-55, 94-100 and conv.go:9-14.
   The texts that FormatFloat chooses are a parameter; ShowFloat.v has them. *)
From Coq Require Import SpecFloat.
From Verif Require Import Base Num MathUtils Knn Env Centroid CManager Proc Server Core Routes Json.
From Coq.Init Require Import Byte.
From Coq Require Import Strings.Byte Strings.String NArith.
Local Open Scope list_scope.
Local Open Scope nat_scope.

Definition bn (c : byte) : Z := Z.of_N (Byte.to_N c).
Definition nb (n : Z) : byte := match Byte.of_N (Z.to_N n) with Some c => c | None => x00 end.
Definition between (lo hi : Z) (c : byte) : bool := ((lo <=? bn c) && (bn c <=? hi))%Z.
Definition one_of (l : list byte) (c : byte) : bool := existsb (Byte.eqb c) l.

(* What a text looks like: numbers are their text, strings what stands between the quotes. *)
Inductive tree :=
| TNull
| TBool (b : bool)
| TNum (s : str)
| TStr (raw : str)
| TArr (l : list tree)
| TObj (m : list (str * tree)).

(* ---- encoding/json scanner.go ---- *)
Definition is_space : byte -> bool := one_of [x20; x09; x0d; x0a].
Fixpoint skip (s : str) : str := match s with c :: r => if is_space c then skip r else s | [] => [] end.

Definition is_digit : byte -> bool := between 48 57.
Fixpoint span (p : byte -> bool) (s : str) : str * str :=
  match s with
  | c :: r => if p c then let '(a, b) := span p r in (c :: a, b) else ([], s)
  | [] => ([], [])
  end.
Definition digits1 (s : str) : option (str * str) := match span is_digit s with ([], _) => None | x => Some x end.

(* The parts of a number: sign, digits before the point, the point and digits after it, exponent. *)
Definition sign_part (signs : list byte) (s : str) : str * str :=
  match s with c :: r => if one_of signs c then ([c], r) else ([], s) | [] => ([], []) end.
Definition int_part (s : str) : option (str * str) :=
  match s with c :: r => if Byte.eqb c x30 then Some ([c], r) else digits1 s | [] => None end.
Definition frac_part (s : str) : option (str * str) :=
  match s with
  | c :: r => if Byte.eqb c x2e then match digits1 r with Some (d, r') => Some (c :: d, r') | None => None end else Some ([], s)
  | [] => Some ([], [])
  end.
Definition exp_part (s : str) : option (str * str) :=
  match s with
  | c :: r =>
      if one_of [x65; x45] c then
        let '(g, r1) := sign_part [x2b; x2d] r in
        match digits1 r1 with Some (d, r2) => Some (c :: g ++ d, r2) | None => None end
      else Some ([], s)
  | [] => Some ([], [])
  end.
Definition number (s : str) : option (str * str) :=
  let '(g, r0) := sign_part [x2d] s in
  match int_part r0 with
  | None => None
  | Some (i, r1) =>
      match frac_part r1 with
      | None => None
      | Some (f, r2) => match exp_part r2 with Some (e, r3) => Some (g ++ i ++ f ++ e, r3) | None => None end
      end
  end.

(* What stands between the quotes; the opening one has been read. *)
Definition quote : byte := x22.
Definition backslash : byte := x5c.
Definition simple_escape : byte -> bool := one_of (text "bfnrt\/" ++ [quote]).
Definition is_hex (c : byte) : bool := is_digit c || between 65 70 c || between 97 102 c.
Definition before (p : str) (o : option (str * str)) : option (str * str) :=
  match o with Some (a, b) => Some (p ++ a, b) | None => None end.
Fixpoint string_body (s : str) : option (str * str) :=
  match s with
  | [] => None
  | c :: r =>
      if Byte.eqb c quote then Some ([], r)
      else if Byte.eqb c backslash then
        match r with
        | [] => None
        | d :: r1 =>
            if simple_escape d then before [c; d] (string_body r1)
            else if Byte.eqb d x75 then
              match r1 with
              | h1 :: h2 :: h3 :: h4 :: r2 =>
                  if is_hex h1 && is_hex h2 && is_hex h3 && is_hex h4 then before [c; d; h1; h2; h3; h4] (string_body r2) else None
              | _ => None
              end
            else None
        end
      else if (bn c <? 32)%Z then None
      else before [c] (string_body r)
  end.

Fixpoint after (p s : str) : option str :=
  match p, s with
  | [], _ => Some s
  | c :: p', d :: s' => if Byte.eqb c d then after p' s' else None
  | _ :: _, [] => None
  end.

(* A value at the beginning of a text, with what follows it.  [depth]: how many arrays and objects
   may still be opened, scanner.go pushParseState. *)
Fixpoint value (fuel : nat) (depth : Z) (s : str) : option (tree * str) :=
  match fuel, s with
  | 0, _ | _, [] => None
  | S f, c :: r =>
      if Byte.eqb c x7b then
        if (depth <=? 0)%Z then None
        else match skip r with
             | d :: r1 => if Byte.eqb d x7d then Some (TObj [], r1)
                          else match members_text f (depth - 1) (d :: r1) with Some (m, r2) => Some (TObj m, r2) | None => None end
             | [] => None
             end
      else if Byte.eqb c x5b then
        if (depth <=? 0)%Z then None
        else match skip r with
             | d :: r1 => if Byte.eqb d x5d then Some (TArr [], r1)
                          else match elements_text f (depth - 1) (d :: r1) with Some (l, r2) => Some (TArr l, r2) | None => None end
             | [] => None
             end
      else if Byte.eqb c quote then match string_body r with Some (a, r1) => Some (TStr a, r1) | None => None end
      else if Byte.eqb c x6e then option_map (pair TNull) (after (text "null") s)
      else if Byte.eqb c x74 then option_map (pair (TBool true)) (after (text "true") s)
      else if Byte.eqb c x66 then option_map (pair (TBool false)) (after (text "false") s)
      else match number s with Some (n, r1) => Some (TNum n, r1) | None => None end
  end
with elements_text (fuel : nat) (depth : Z) (s : str) : option (list tree * str) :=
  match fuel with
  | 0 => None
  | S f =>
      match value f depth s with
      | None => None
      | Some (t, r) =>
          match skip r with
          | c :: r1 =>
              if Byte.eqb c x2c then
                match elements_text f depth (skip r1) with Some (l, r2) => Some (t :: l, r2) | None => None end
              else if Byte.eqb c x5d then Some ([t], r1) else None
          | [] => None
          end
      end
  end
with members_text (fuel : nat) (depth : Z) (s : str) : option (list (str * tree) * str) :=
  match fuel, s with
  | 0, _ | _, [] => None
  | S f, q :: r0 =>
      if negb (Byte.eqb q quote) then None
      else match string_body r0 with
           | None => None
           | Some (n, r1) =>
               match skip r1 with
               | c :: r2 =>
                   if negb (Byte.eqb c x3a) then None
                   else match value f depth (skip r2) with
                        | None => None
                        | Some (t, r3) =>
                            match skip r3 with
                            | d :: r4 =>
                                if Byte.eqb d x2c then
                                  match members_text f depth (skip r4) with Some (m, r5) => Some ((n, t) :: m, r5) | None => None end
                                else if Byte.eqb d x7d then Some ([(n, t)], r4) else None
                            | [] => None
                            end
                        end
               | [] => None
               end
           end
  end.

(* scanner.go checkValid.  The limit is 10000. *)
Definition max_depth : Z := 10000.
Definition parse (s : str) : option tree :=
  match value (S (S (2 * List.length s))) max_depth (skip s) with
  | Some (t, r) => match skip r with [] => Some t | _ => None end
  | None => None
  end.

(* ---- strings: encoding/json decode.go unquoteBytes ---- *)
(* utf8.EncodeRune. *)
Definition utf8 (n : Z) : str :=
  (if n <? 128 then [nb n]
   else if n <? 2048 then [nb (192 + n / 64); nb (128 + n mod 64)]
   else if n <? 65536 then [nb (224 + n / 4096); nb (128 + (n / 64) mod 64); nb (128 + n mod 64)]
   else [nb (240 + n / 262144); nb (128 + (n / 4096) mod 64); nb (128 + (n / 64) mod 64); nb (128 + n mod 64)])%Z.
Definition replacement : str := [xef; xbf; xbd].

(* utf8.DecodeRune: how many bytes are one character; 0 for none. *)
Definition cont : byte -> bool := between 128 191.
Definition rune_size (s : str) : nat :=
  match s with
  | [] => 0
  | a :: r =>
      if (bn a <? 128)%Z then 1
      else if between 194 223 a then match r with b :: _ => if cont b then 2 else 0 | _ => 0 end
      else if between 224 239 a then
        match r with
        | b :: c :: _ =>
            if (if Byte.eqb a xe0 then between 160 191 b else if Byte.eqb a xed then between 128 159 b else cont b) && cont c
            then 3 else 0
        | _ => 0
        end
      else if between 240 244 a then
        match r with
        | b :: c :: d :: _ =>
            if (if Byte.eqb a xf0 then between 144 191 b else if Byte.eqb a xf4 then between 128 143 b else cont b) && cont c && cont d
            then 4 else 0
        | _ => 0
        end
      else 0
  end.

Definition hex_val (c : byte) : Z :=
  (if is_digit c then bn c - 48 else if between 65 70 c then bn c - 55 else bn c - 87)%Z.
(* getu4; None: no escape of this form. *)
Definition u4 (s : str) : option Z :=
  match s with
  | a :: b :: h1 :: h2 :: h3 :: h4 :: _ =>
      if Byte.eqb a backslash && Byte.eqb b x75 && is_hex h1 && is_hex h2 && is_hex h3 && is_hex h4
      then Some (((hex_val h1 * 16 + hex_val h2) * 16 + hex_val h3) * 16 + hex_val h4)%Z else None
  | _ => None
  end.
Definition escaped (c : byte) : byte :=
  if Byte.eqb c x62 then x08 else if Byte.eqb c x66 then x0c else if Byte.eqb c x6e then x0a
  else if Byte.eqb c x72 then x0d else if Byte.eqb c x74 then x09 else c.
Definition high (n : Z) : bool := ((55296 <=? n) && (n <? 56320))%Z.
Definition low (n : Z) : bool := ((56320 <=? n) && (n <? 57344))%Z.

Fixpoint unquote_loop (fuel : nat) (s : str) : str :=
  match fuel, s with
  | 0, _ | _, [] => []
  | S f, c :: r =>
      if Byte.eqb c backslash then
        match u4 s with
        | Some n =>
            match (if high n then u4 (skipn 6 s) else None) with
            | Some m => if low m then utf8 (65536 + (n - 55296) * 1024 + (m - 56320)) ++ unquote_loop f (skipn 12 s)
                        else replacement ++ unquote_loop f (skipn 6 s)
            | None => (if high n || low n then replacement else utf8 n) ++ unquote_loop f (skipn 6 s)
            end
        | None => match r with d :: r1 => escaped d :: unquote_loop f r1 | [] => [] end
        end
      else match rune_size s with
           | 0 => replacement ++ unquote_loop f r
           | k => firstn k s ++ unquote_loop f (skipn k s)
           end
  end.
Definition unquote (raw : str) : str := unquote_loop (List.length raw) raw.

(* ---- numbers: encoding/json decode.go literalStore ---- *)
Definition digits_value (s : str) : Z := fold_left (fun v c => (10 * v + (bn c - 48))%Z) s 0%Z.
Definition all_digits (s : str) : bool := match s with [] => false | _ => forallb is_digit s end.
(* strconv.ParseInt(s, 10, 64). *)
Definition read_int (s : str) : option Z :=
  let '(g, d) := sign_part [x2d] s in
  if all_digits d then
    let z := (match g with [] => digits_value d | _ => - digits_value d end)%Z in
    if ((- 2 ^ 63 <=? z) && (z <? 2 ^ 63))%Z then Some z else None
  else None.
(* strconv.ParseUint(s, 10, 64), OverflowUint for uint8. *)
Definition read_byte (s : str) : option byte :=
  if all_digits s then if (digits_value s <=? 255)%Z then Some (nb (digits_value s)) else None else None.

(* strconv.ParseFloat(s, 64): the nearest number, to even; None: ErrRange.  The decimal is
   m * 10^e. *)
Definition round_decimal (neg : bool) (m e : Z) : spec_float :=
  if (m =? 0)%Z then S754_zero neg
  else
    let '(q, e', l) := SFdiv_core_binary prec64 emax64 (m * 10 ^ Z.max e 0) 0 (10 ^ Z.max (- e) 0) 0 in
    binary_round_aux prec64 emax64 neg q e' l.
(* strconv atof.go readFloat: digits of an exponent that has reached 10000 are skipped. *)
Definition cut_value (s : str) : Z := fold_left (fun v c => if (v <? 10000)%Z then (10 * v + (bn c - 48))%Z else v) s 0%Z.
Definition exponent (s : str) : Z :=
  match s with
  | [] => 0%Z
  | _ :: r => let '(g, d) := sign_part [x2b; x2d] r in if one_of [x2d] (hd x00 g) then (- cut_value d)%Z else cut_value d
  end.
Definition read_f64 (s : str) : option (F f64) :=
  let '(g, r0) := sign_part [x2d] s in
  match int_part r0 with
  | None => None
  | Some (i, r1) =>
      match frac_part r1 with
      | None => None
      | Some (f, r2) =>
          match round_decimal (match g with [] => false | _ => true end) (digits_value (i ++ tl f))
                              (exponent r2 - Z.of_nat (List.length (tl f))) with
          | S754_infinity _ => None
          | x => Some x
          end
      end
  end.

(* ---- encoding/base64, StdEncoding ---- *)
Definition alphabet : str := text "ABCDEFGHIJKLMNOPQRSTUVWXYZabcdefghijklmnopqrstuvwxyz0123456789+/".
Definition b64_char (n : Z) : byte := nth (Z.to_nat n) alphabet x00.
Definition b64_val (c : byte) : option Z :=
  (if between 65 90 c then Some (bn c - 65) else if between 97 122 c then Some (bn c - 71)
   else if is_digit c then Some (bn c + 4) else if Byte.eqb c x2b then Some 62 else if Byte.eqb c x2f then Some 63 else None)%Z.
Definition pad : byte := x3d.

Fixpoint b64_encode (l : list byte) : str :=
  match l with
  | [] => []
  | [a] => [b64_char (bn a / 4); b64_char ((bn a mod 4) * 16); pad; pad]%Z
  | [a; b] => [b64_char (bn a / 4); b64_char ((bn a mod 4) * 16 + bn b / 16); b64_char ((bn b mod 16) * 4); pad]%Z
  | a :: b :: c :: r =>
      [b64_char (bn a / 4); b64_char ((bn a mod 4) * 16 + bn b / 16); b64_char ((bn b mod 16) * 4 + bn c / 64); b64_char (bn c mod 64)]%Z
      ++ b64_encode r
  end.

(* Line ends are ignored anywhere; bits that are left over are not checked. *)
Fixpoint b64_quads (s : str) : option (list byte) :=
  match s with
  | [] => Some []
  | a :: b :: c :: d :: r =>
      match b64_val a, b64_val b with
      | Some x, Some y =>
          if Byte.eqb c pad then
            match r with
            | [] => if Byte.eqb d pad then Some [nb (x * 4 + y / 16)]%Z else None
            | _ => None
            end
          else match b64_val c with
               | None => None
               | Some z =>
                   if Byte.eqb d pad then
                     match r with [] => Some [nb (x * 4 + y / 16); nb ((y mod 16) * 16 + z / 4)]%Z | _ => None end
                   else match b64_val d, b64_quads r with
                        | Some w, Some l => Some ([nb (x * 4 + y / 16); nb ((y mod 16) * 16 + z / 4); nb ((z mod 4) * 64 + w)]%Z ++ l)
                        | _, _ => None
                        end
               end
      | _, _ => None
      end
  | _ => None
  end.
Definition b64_decode (s : str) : option (list byte) := b64_quads (filter (fun c => negb (one_of [x0d; x0a] c)) s).

(* ---- time: RFC 3339 ---- *)
Definition leap (y : Z) : bool := ((y mod 4 =? 0) && (negb (y mod 100 =? 0) || (y mod 400 =? 0)))%Z.
(* time.go daysBefore, daysIn. *)
Definition days_before (m : Z) : Z := nth (Z.to_nat m) [0; 31; 59; 90; 120; 151; 181; 212; 243; 273; 304; 334; 365]%Z 0%Z.
Definition days_in (m y : Z) : Z := if ((m =? 2) && leap y)%Z then 29%Z else (days_before m - days_before (m - 1))%Z.
(* Days from the first of January of the year 1 to that of the year y, time.go daysSinceEpoch. *)
Definition days_to_year (y : Z) : Z := (let k := y - 1 in 365 * k + k / 4 - k / 100 + k / 400)%Z.
Definition days_to (y m d : Z) : Z :=
  (days_to_year y + days_before (m - 1) + (if leap y && (2 <? m) then 1 else 0) + (d - 1))%Z.
Definition day_1970 : Z := 719162.

(* format.go getnum, atoi. *)
Definition num2 (fixed : bool) (s : str) : option (Z * str) :=
  match s with
  | a :: r =>
      if is_digit a then
        match r with
        | b :: r1 => if is_digit b then Some (digits_value [a; b], r1) else if fixed then None else Some (digits_value [a], r)
        | [] => if fixed then None else Some (digits_value [a], r)
        end
      else None
  | [] => None
  end.
Definition atoi2 (a b : byte) : option Z :=
  if is_digit a && is_digit b then Some (digits_value [a; b])
  else if is_digit b then if Byte.eqb a x2b then Some (digits_value [b]) else if Byte.eqb a x2d then Some (- digits_value [b])%Z else None
  else None.
Definition atoi4 (s : str) : option (Z * str) :=
  match s with
  | a :: b :: c :: d :: r => if is_digit a && is_digit b && is_digit c && is_digit d then Some (digits_value [a; b; c; d], r) else None
  | _ => None
  end.
(* parseNanoseconds; more than nine digits are not scaled. *)
Definition nanos (d : str) : option Z :=
  let v := digits_value d in
  if (1000000000 <=? v)%Z then None else Some (v * 10 ^ Z.max 0 (9 - Z.of_nat (List.length d)))%Z.
Definition fraction (s : str) : option (Z * str) :=
  match s with
  | c :: d :: r =>
      if Byte.eqb c x2e && is_digit d then
        let '(ds, r1) := span is_digit (d :: r) in option_map (fun v => (v, r1)) (nanos ds)
      else Some (0%Z, s)
  | _ => Some (0%Z, s)
  end.
(* Z07:00: the offset in minutes.  It is the end of the text. *)
Definition zone (s : str) : option Z :=
  match s with
  | [c] => if Byte.eqb c x5a then Some 0%Z else None
  | [c; h1; h2; col; m1; m2] =>
      if Byte.eqb col x3a then
        match atoi2 h1 h2, atoi2 m1 m2 with
        | Some h, Some m => if Byte.eqb c x2b then Some (h * 60 + m)%Z else if Byte.eqb c x2d then Some (- (h * 60 + m))%Z else None
        | _, _ => None
        end
      else None
  | _ => None
  end.
(* format.go Parse with the layout of Time.UnmarshalJSON; the result is in nanoseconds since 1970. *)
Definition instant (days h mi s ns off : Z) : Z :=
  (((((days - day_1970) * 24 + h) * 60 + mi - off) * 60 + s) * 1000000000 + ns)%Z.
Definition in_range (lo hi x : Z) : bool := ((lo <=? x) && (x <? hi))%Z.
Definition parse_time (t : str) : option Z :=
  match atoi4 t with None => None | Some (y, r1) =>
  match after [x2d] r1 with None => None | Some r2 =>
  match num2 true r2 with None => None | Some (m, r3) =>
  match after [x2d] r3 with None => None | Some r4 =>
  match num2 true r4 with None => None | Some (d, r5) =>
  match after [x54] r5 with None => None | Some r6 =>
  match num2 false r6 with None => None | Some (h, r7) =>
  match after [x3a] r7 with None => None | Some r8 =>
  match num2 true r8 with None => None | Some (mi, r9) =>
  match after [x3a] r9 with None => None | Some r10 =>
  match num2 true r10 with None => None | Some (s, r11) =>
  match fraction r11 with None => None | Some (ns, r12) =>
  match zone r12 with None => None | Some off =>
    if in_range 1 13 m && in_range 1 (days_in m y + 1) d && in_range 0 24 h && in_range 0 60 mi && in_range 0 60 s
    then Some (instant (days_to y m d) h mi s ns off) else None
  end end end end end end end end end end end end end.

(* time.go absDate: year and day of it, of a number of days since the first of January of the
   year 1; month and day of it. *)
Definition year_day (days : Z) : Z * Z :=
  (let n4 := days / 146097 in let d := days mod 146097 in
   let c0 := d / 36524 in let c := c0 - c0 / 4 in let d := d - c * 36524 in
   let q := d / 1461 in let d := d - q * 1461 in
   let k0 := d / 365 in let k := k0 - k0 / 4 in
   (400 * n4 + 100 * c + 4 * q + k + 1, d - k * 365))%Z.
Definition month_day (lp : bool) (yday : Z) : Z * Z :=
  (if lp && (yday =? 59) then (2, 29)
   else
     let day := if lp && (59 <? yday) then yday - 1 else yday in
     let m := day / 31 in
     if days_before (m + 1) <=? day then (m + 2, day - days_before (m + 1) + 1)
     else (m + 1, day - days_before m + 1))%Z.

(* Decimal digits of fixed number. *)
Definition digit (n : Z) : byte := nb (48 + n).
Fixpoint fixed (k : nat) (n : Z) : str :=
  match k with 0 => [] | S k' => fixed k' (n / 10)%Z ++ [digit (n mod 10)%Z] end.
Fixpoint trim_zeros (s : str) : str :=
  match s with
  | [] => []
  | c :: r => match trim_zeros r with [] => if Byte.eqb c x30 then [] else [c] | t => c :: t end
  end.
(* format.go appendFormat with RFC3339Nano; [off] is the zone of the time, in minutes.  For years 0
   to 9999 (Time.MarshalJSON fails for others). *)
Definition show_zone (off : Z) : str :=
  if (off =? 0)%Z then [x5a]
  else (if (off <? 0)%Z then x2d else x2b) :: fixed 2 (Z.abs off / 60) ++ [x3a] ++ fixed 2 (Z.abs off mod 60).
Definition show_time (off t : Z) : str :=
  (let local := t + off * 60000000000 in
   let secs := local / 1000000000 in
   let ns := local mod 1000000000 in
   let '(y, yday) := year_day (secs / 86400 + day_1970) in
   let '(m, d) := month_day (leap y) yday in
   let s := secs mod 86400 in
   fixed 4 y ++ [x2d] ++ fixed 2 m ++ [x2d] ++ fixed 2 d ++ [x54] ++ fixed 2 (s / 3600) ++ [x3a] ++
   fixed 2 (s / 60 mod 60) ++ [x3a] ++ fixed 2 (s mod 60) ++
   match trim_zeros (fixed 9 ns) with [] => [] | f => x2e :: f end ++ show_zone off)%Z.

(* ---- the whole ---- *)
Section Whole.
Context {N : Num}.
Variable read_float : str -> option (F N).

(* The value that a text denotes. *)
Fixpoint denoted (t : tree) : json N :=
  match t with
  | TNull => JNull
  | TBool b => JBool b
  | TNum s => JNum (read_float s) (read_int s) (read_byte s)
  | TStr raw => JStr raw (unquote raw)
  | TArr l => JArr (map denoted l)
  | TObj m => JObj (map (fun x => (unquote (fst x), denoted (snd x))) m)
  end.

(* handler.go:36-47. *)
Definition body (s : str) : option (json N) := option_map denoted (parse s).
Definition text_put (s : str) : option (put_opts N) := dec_put parse_time b64_decode (body s).
Definition text_query (s : str) : option (query_opts N) := dec_query (body s).
Definition text_request (method path : str) (star : bool) (s : str) : http_request N :=
  MkReq method path star (text_put s) (text_query s).

(* encoding/json encode.go: no white space.  Nothing that is written here has to be escaped. *)
Definition quoted (s : str) : str := quote :: s ++ [quote].
Definition commas (l : list str) : str :=
  match l with [] => [] | x :: r => x ++ flat_map (fun y => x2c :: y) r end.
Fixpoint render (t : tree) : str :=
  match t with
  | TNull => text "null"
  | TBool true => text "true"
  | TBool false => text "false"
  | TNum s => s
  | TStr raw => quoted raw
  | TArr l => x5b :: commas (map render l) ++ [x5d]
  | TObj m => x7b :: commas (map (fun x => quoted (fst x) ++ x3a :: render (snd x)) m) ++ [x7d]
  end.

(* A datapoint of an answer, and what the model does not have: whether an empty vector or payload
   is nil, and the zone of its time. *)
Record shown := MkShown { sh_dp : wire N; sh_nil_vec : bool; sh_nil_payload : bool; sh_zone : Z }.
(* strconv.FormatFloat as encode.go uses it. *)
Variable show_float : F N -> str.
Definition dp_tree (x : shown) : tree :=
  let w := sh_dp x in
  TObj [(text "vec", match wi_vec w with [] => if sh_nil_vec x then TNull else TArr [] | v => TArr (map (fun f => TNum (show_float f)) v) end);
        (text "payload", match wi_payload w with [] => if sh_nil_payload x then TNull else TStr [] | p => TStr (b64_encode p) end);
        (text "expires", TStr (show_time (sh_zone x) (wi_expires w)));
        (text "expireEnabled", TBool (wi_expire_enabled w))].
(* handler.go:126-133; [nil]: respConv is nil. *)
Definition answer_text (nil : bool) (l : list shown) : str :=
  render (match l with [] => if nil then TNull else TArr [] | _ => TArr (map dp_tree l) end).
End Whole.
Arguments shown N : clear implicits.
