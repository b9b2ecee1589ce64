(* What is sent between nodes: the calls of pkg/kmeans/rpc/client.go and the answers of server.go
   as bytes, with the rules of encoding/gob, net/rpc and time of Go 1.16.
   Simplifications: the descriptions of types, which come before the first value of each type on a
   connection, are left out (both sides have the same types), so a type is known by any number
   [id]; all NaNs are one.  Only what has been sent is read here: what a node makes of other bytes
   is not modelled. *)
From Coq Require Import SpecFloat.
From Verif Require Import Base Num Env Server JsonText.
From Coq.Init Require Import Byte.
From Coq Require Import Strings.Byte Strings.String.
Local Open Scope list_scope.
Local Open Scope Z_scope.

(* ---- numbers ---- *)
(* binary.BigEndian: n bytes. *)
Fixpoint be (n : nat) (x : Z) : str :=
  match n with
  | O => []
  | S k => be k (x / 256) ++ [nb (x mod 256)]
  end.
Definition of_be (s : str) : Z := fold_left (fun v c => 256 * v + bn c) s 0.

(* encode.go encodeUint, decode.go decodeUint. *)
Definition put_uint (x : Z) : str :=
  if x <=? 127 then [nb x] else let n := Z.log2 x / 8 + 1 in nb (256 - n) :: be (Z.to_nat n) x.
Definition get_uint (s : str) : option (Z * str) :=
  match s with
  | [] => None
  | c :: r =>
      if bn c <=? 127 then Some (bn c, r)
      else
        let n := Z.to_nat (256 - bn c) in
        if Nat.ltb 8 n || Nat.ltb (List.length r) n then None else Some (of_be (firstn n r), skipn n r)
  end.

(* encode.go encodeInt, decode.go decodeInt. *)
Definition put_int (z : Z) : str := put_uint (if z <? 0 then 2 * (- z - 1) + 1 else 2 * z).
Definition get_int (s : str) : option (Z * str) :=
  match get_uint s with
  | Some (u, r) => Some (if Z.odd u then - (u / 2) - 1 else u / 2, r)
  | None => None
  end.

(* math.Float64bits, math.Float64frombits. *)
Definition float_bits (x : F f64) : Z :=
  let sign (s : bool) := if s then 2 ^ 63 else 0 in
  match x with
  | S754_zero s => sign s
  | S754_infinity s => sign s + 2047 * 2 ^ 52
  | S754_nan => 2047 * 2 ^ 52 + 2 ^ 51 + 1
  | S754_finite s m e => sign s + (if Z.pos m <? 2 ^ 52 then Z.pos m else (e + 1075) * 2 ^ 52 + (Z.pos m - 2 ^ 52))
  end.
Definition bits_float (u : Z) : F f64 :=
  let s := 2 ^ 63 <=? u in
  let x := u / 2 ^ 52 mod 2048 in
  let m := u mod 2 ^ 52 in
  if x =? 0 then (if m =? 0 then S754_zero s else S754_finite s (Z.to_pos m) (-1074))
  else if x =? 2047 then (if m =? 0 then S754_infinity s else S754_nan)
  else S754_finite s (Z.to_pos (2 ^ 52 + m)) (x - 1075).
(* encode.go floatBits, decode.go float64FromBits: the bytes are reversed. *)
Definition swap8 (u : Z) : Z := of_be (rev (be 8 u)).

(* ---- values ---- *)
(* The types of what is sent.  A slice has the size of its elements in memory. *)
Inductive gty :=
| GBool | GUint | GInt | GFloat
| GBytes                       (* string, []byte *)
| GTime
| GSlice (size : Z) (t : gty)
| GMap                         (* map[string]int *)
| GStruct (ts : list gty).     (* the exported fields *)
Inductive gval :=
| VBool (b : bool) | VUint (z : Z) | VInt (z : Z) | VFloat (x : F f64)
| VBytes (l : str)
| VTime (t : Z) (zone : option Z)     (* nanoseconds since 1970; UTC, or an offset in minutes *)
| VSlice (l : list gval)
| VMap (l : list (str * Z))
| VStruct (l : list gval).

Definition year_1 : Z := -62135596800.
Fixpoint zero_of (t : gty) : gval :=
  match t with
  | GBool => VBool false
  | GUint => VUint 0
  | GInt => VInt 0
  | GFloat => VFloat (S754_zero false)
  | GBytes => VBytes []
  | GTime => VTime (year_1 * 10 ^ 9) None
  | GSlice _ _ => VSlice []
  | GMap => VMap []
  | GStruct ts => VStruct (map zero_of ts)
  end.
(* encode.go: the fields of a struct that are not sent. *)
Definition left_out (v : gval) : bool :=
  match v with
  | VBool b => negb b
  | VUint z | VInt z => z =? 0
  | VFloat x => match x with S754_zero _ => true | _ => false end
  | VBytes l => match l with [] => true | _ => false end
  | VTime t None => t =? year_1 * 10 ^ 9
  | VSlice l => match l with [] => true | _ => false end
  | _ => false
  end.

(* time.go MarshalBinary, UnmarshalBinary (version 1). *)
Definition marshal (t : Z) (zone : option Z) : option str :=
  let bytes off := [x01] ++ be 8 ((t / 10 ^ 9 - year_1) mod 2 ^ 64) ++ be 4 (t mod 10 ^ 9) ++ be 2 (off mod 2 ^ 16) in
  match zone with
  | None => Some (bytes (-1))
  | Some off => if (off <? -32768) || (off =? -1) || (32767 <? off) then None else Some (bytes off)
  end.
Definition signed_of (n u : Z) : Z := if u <? 2 ^ (n - 1) then u else u - 2 ^ n.
Definition unmarshal (s : str) : option (Z * option Z) :=
  match s with
  | v :: r =>
      if Byte.eqb v x01 && Nat.eqb (List.length r) 14 then
        let sec := signed_of 64 (of_be (firstn 8 r)) + year_1 in
        let ns := signed_of 32 (of_be (firstn 4 (skipn 8 r))) in
        let off := signed_of 16 (of_be (skipn 12 r)) in
        Some (sec * 10 ^ 9 + ns, if off =? -1 then None else Some off)
      else None
  | [] => None
  end.

Definition put_bytes (l : str) : str := put_uint (Z.of_nat (List.length l)) ++ l.
Definition get_bytes (s : str) : option (str * str) :=
  match get_uint s with
  | Some (n, r) => if Z.of_nat (List.length r) <? n then None else Some (firstn (Z.to_nat n) r, skipn (Z.to_nat n) r)
  | None => None
  end.

(* encode.go encOpFor, encodeStruct, encodeArray, encodeMap; [d] is how far the field is from the
   last one that was sent. *)
Fixpoint enc (v : gval) : option str :=
  match v with
  | VBool b => Some (put_uint (if b then 1 else 0))
  | VUint z => Some (put_uint z)
  | VInt z => Some (put_int z)
  | VFloat x => Some (put_uint (swap8 (float_bits x)))
  | VBytes l => Some (put_bytes l)
  | VTime t z => option_map put_bytes (marshal t z)
  | VSlice l =>
      option_map (fun s => put_uint (Z.of_nat (List.length l)) ++ s)
        ((fix all l := match l with
                       | [] => Some []
                       | v :: r => match enc v, all r with Some a, Some b => Some (a ++ b) | _, _ => None end
                       end) l)
  | VMap l => Some (put_uint (Z.of_nat (List.length l)) ++ List.concat (map (fun x => put_bytes (fst x) ++ put_int (snd x)) l))
  | VStruct l =>
      (fix fields d l := match l with
                         | [] => Some (put_uint 0)
                         | v :: r =>
                             if left_out v then fields (d + 1) r
                             else match enc v, fields 1 r with Some a, Some b => Some (put_uint d ++ a ++ b) | _, _ => None end
                         end) 1 l
  end.

(* decode.go tooBig, on a machine of 64 bits. *)
Definition too_big : Z := 2 ^ 33.

Fixpoint times {A : Type} (get : str -> option (A * str)) (n : nat) (s : str) : option (list A * str) :=
  match n with
  | O => Some ([], s)
  | S k =>
      match get s with
      | Some (a, r) => match times get k r with Some (l, r') => Some (a :: l, r') | None => None end
      | None => None
      end
  end.
Definition get_pair (s : str) : option (str * Z * str) :=
  match get_bytes s with
  | Some (k, r) => match get_int r with Some (z, r') => Some (k, z, r') | None => None end
  | None => None
  end.

(* decode.go decOpFor, decodeStruct, decodeSlice, decodeMap, into a zero value. *)
Fixpoint dec (t : gty) (s : str) : option (gval * str) :=
  match t with
  | GBool => match get_uint s with Some (u, r) => Some (VBool (negb (u =? 0)), r) | None => None end
  | GUint => match get_uint s with Some (u, r) => Some (VUint u, r) | None => None end
  | GInt => match get_int s with Some (z, r) => Some (VInt z, r) | None => None end
  | GFloat => match get_uint s with Some (u, r) => Some (VFloat (bits_float (swap8 u)), r) | None => None end
  | GBytes => match get_bytes s with Some (l, r) => Some (VBytes l, r) | None => None end
  | GTime =>
      match get_bytes s with
      | Some (l, r) => match unmarshal l with Some (t, z) => Some (VTime t z, r) | None => None end
      | None => None
      end
  | GSlice size t =>
      match get_uint s with
      | Some (n, r) =>
          if too_big <? n * size then None
          else match times (dec t) (Z.to_nat n) r with Some (l, r') => Some (VSlice l, r') | None => None end
      | None => None
      end
  | GMap =>
      match get_uint s with
      | Some (n, r) => match times get_pair (Z.to_nat n) r with Some (l, r') => Some (VMap l, r') | None => None end
      | None => None
      end
  | GStruct ts =>
      match get_uint s with
      | Some (d, r) =>
          match
            (fix fields ts d s :=
               if d =? 0 then Some (map zero_of ts, s)
               else match ts with
                    | [] => None
                    | t :: ts' =>
                        if d =? 1 then
                          match dec t s with
                          | Some (v, r) =>
                              match get_uint r with
                              | Some (d', r') => match fields ts' d' r' with Some (vs, r'') => Some (v :: vs, r'') | None => None end
                              | None => None
                              end
                          | None => None
                          end
                        else match fields ts' (d - 1) s with Some (vs, r) => Some (zero_of t :: vs, r) | None => None end
                    end) ts d r
          with
          | Some (vs, r') => Some (VStruct vs, r')
          | None => None
          end
      | None => None
      end
  end.

(* ---- messages ---- *)
Definition is_struct (t : gty) : bool := match t with GStruct _ => true | _ => false end.

(* encoder.go encode, writeMessage; encode.go encodeSingle. *)
Definition message (id : Z) (t : gty) (v : gval) : option str :=
  match enc v with
  | Some s =>
      let body := put_int id ++ (if is_struct t then s else put_uint 0 ++ s) in
      if too_big <=? Z.of_nat (List.length body) then None else Some (put_bytes body)
  | None => None
  end.
(* decoder.go recvMessage, decodeTypeSequence; decode.go decodeSingle. *)
Definition receive (id : Z) (t : gty) (s : str) : option (gval * str) :=
  match get_uint s with
  | Some (n, r) =>
      if (too_big <=? n) || (Z.of_nat (List.length r) <? n) then None
      else
        match get_int (firstn (Z.to_nat n) r) with
        | Some (i, b) =>
            if negb (i =? id) then None
            else
              match (if is_struct t then Some b else match get_uint b with Some (0, b') => Some b' | _ => None end) with
              | Some b' => match dec t b' with Some (v, _) => Some (v, skipn (Z.to_nat n) r) | None => None end
              | None => None
              end
        | None => None
        end
  | None => None
  end.
