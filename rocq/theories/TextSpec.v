(* What the texts of bodies mean: JSON after RFC 8259, UTF-8 after RFC 3629, times after RFC 3339
   with the Gregorian calendar.  Texts are lists of bytes. *)
From Verif Require Import Base Env Server Routes JsonSpec JsonText.
From Coq.Init Require Import Byte.
From Coq Require Import Strings.Byte Strings.String.
Local Open Scope string_scope.
Local Open Scope list_scope.

(* ---- RFC 8259 ---- *)
Definition Ws (w : str) : Prop := Forall (fun c => In c [x20; x09; x0a; x0d]) w.

Definition Digit (c : byte) : Prop := In c (text "0123456789").
Definition Digits (s : str) : Prop := s <> [] /\ Forall Digit s.
Inductive Int : str -> Prop :=
| int_zero : Int (text "0")
| int_other c s : In c (text "123456789") -> Forall Digit s -> Int (c :: s).
Inductive Frac : str -> Prop :=
| frac_none : Frac []
| frac_some s : Digits s -> Frac (text "." ++ s).
Inductive Exp : str -> Prop :=
| exp_none : Exp []
| exp_some e g s : In e [text "e"; text "E"] -> In g [[]; text "+"; text "-"] -> Digits s -> Exp (e ++ g ++ s).
Inductive Number : str -> Prop :=
| number_parts g i f e : In g [[]; text "-"] -> Int i -> Frac f -> Exp e -> Number (g ++ i ++ f ++ e).

Definition Hex (c : byte) : Prop := In c (text "0123456789abcdefABCDEF").
(* Between the quotes. *)
Inductive Chars : str -> Prop :=
| chars_nil : Chars []
| chars_plain c s : c <> x22 -> c <> x5c -> (32 <= Byte.to_nat c)%nat -> Chars s -> Chars (c :: s)
| chars_escape c s : In c (x22 :: text "\/bfnrt") -> Chars s -> Chars (text "\" ++ c :: s)
| chars_hex a b c d s : Hex a -> Hex b -> Hex c -> Hex d -> Chars s -> Chars (text "\u" ++ [a; b; c; d] ++ s).

(* [Value n t s]: s is a text of t, with at most n arrays and objects inside one another. *)
Inductive Value : Z -> tree -> str -> Prop :=
| v_null n : Value n TNull (text "null")
| v_true n : Value n (TBool true) (text "true")
| v_false n : Value n (TBool false) (text "false")
| v_number n s : Number s -> Value n (TNum s) s
| v_string n s : Chars s -> Value n (TStr s) ([x22] ++ s ++ [x22])
| v_empty_array n w : (0 < n)%Z -> Ws w -> Value n (TArr []) (text "[" ++ w ++ text "]")
| v_array n l s : (0 < n)%Z -> Elements (n - 1) l s -> Value n (TArr l) (text "[" ++ s ++ text "]")
| v_empty_object n w : (0 < n)%Z -> Ws w -> Value n (TObj []) (text "{" ++ w ++ text "}")
| v_object n m s : (0 < n)%Z -> Members (n - 1) m s -> Value n (TObj m) (text "{" ++ s ++ text "}")
with Elements : Z -> list tree -> str -> Prop :=
| e_last n t w1 s w2 : Ws w1 -> Value n t s -> Ws w2 -> Elements n [t] (w1 ++ s ++ w2)
| e_more n t w1 s w2 l s' : Ws w1 -> Value n t s -> Ws w2 -> Elements n l s' -> Elements n (t :: l) (w1 ++ s ++ w2 ++ text "," ++ s')
with Members : Z -> list (str * tree) -> str -> Prop :=
| m_last n k t w1 w2 w3 s w4 : Ws w1 -> Chars k -> Ws w2 -> Ws w3 -> Value n t s -> Ws w4 ->
    Members n [(k, t)] (w1 ++ [x22] ++ k ++ [x22] ++ w2 ++ text ":" ++ w3 ++ s ++ w4)
| m_more n k t w1 w2 w3 s w4 m s' : Ws w1 -> Chars k -> Ws w2 -> Ws w3 -> Value n t s -> Ws w4 -> Members n m s' ->
    Members n ((k, t) :: m) (w1 ++ [x22] ++ k ++ [x22] ++ w2 ++ text ":" ++ w3 ++ s ++ w4 ++ text "," ++ s').

(* A whole text.  RFC 8259 lets implementations limit the depth. *)
Definition Document (t : tree) (s : str) : Prop :=
  exists w1 v w2, s = w1 ++ v ++ w2 /\ Ws w1 /\ Ws w2 /\ Value 10000 t v.

(* ---- RFC 3629 ---- *)
(* The code points that are characters, and their bytes. *)
Definition scalar (n : Z) : Prop := (0 <= n < 55296 \/ 57344 <= n < 1114112)%Z.
Definition bytes_of (l : list Z) : str := map (fun n => match Byte.of_N (Z.to_N n) with Some c => c | None => x00 end) l.
Inductive encodes (n : Z) : str -> Prop :=
| enc1 : (n < 128)%Z -> encodes n (bytes_of [n])
| enc2 a b : (128 <= n < 2048 -> n = a * 64 + b -> 0 <= b < 64 -> encodes n (bytes_of [192 + a; 128 + b]))%Z
| enc3 a b c : (2048 <= n < 65536 -> n = (a * 64 + b) * 64 + c -> 0 <= b < 64 -> 0 <= c < 64 ->
    encodes n (bytes_of [224 + a; 128 + b; 128 + c]))%Z
| enc4 a b c d : (65536 <= n -> n = ((a * 64 + b) * 64 + c) * 64 + d -> 0 <= b < 64 -> 0 <= c < 64 -> 0 <= d < 64 ->
    encodes n (bytes_of [240 + a; 128 + b; 128 + c; 128 + d]))%Z.
Inductive Utf8 : str -> Prop :=
| utf8_nil : Utf8 []
| utf8_cons n p s : scalar n -> encodes n p -> Utf8 s -> Utf8 (p ++ s).

(* ---- what stands between quotes, RFC 8259 section 7 ---- *)
Definition HexVal (c : byte) (v : nat) : Prop :=
  nth_error (text "0123456789abcdef") v = Some c \/ nth_error (text "0123456789ABCDEF") v = Some c.
Definition Hex4 (l : str) (n : Z) : Prop :=
  exists c3 c2 c1 c0 v3 v2 v1 v0, l = [c3; c2; c1; c0] /\ HexVal c3 v3 /\ HexVal c2 v2 /\ HexVal c1 v1 /\ HexVal c0 v0 /\
    n = (4096 * Z.of_nat v3 + 256 * Z.of_nat v2 + 16 * Z.of_nat v1 + Z.of_nat v0)%Z.
Definition escapes : list (byte * byte) :=
  [(x22, x22); (x5c, x5c); (x2f, x2f); (x62, x08); (x66, x0c); (x6e, x0a); (x72, x0d); (x74, x09)].
Inductive Means : str -> str -> Prop :=
| means_nil : Means [] []
| means_plain n p raw s : scalar n -> (32 <= n)%Z -> n <> 34%Z -> n <> 92%Z -> encodes n p -> Means raw s -> Means (p ++ raw) (p ++ s)
| means_escape c d raw s : In (c, d) escapes -> Means raw s -> Means (text "\" ++ c :: raw) (d :: s)
| means_hex h n p raw s : Hex4 h n -> scalar n -> encodes n p -> Means raw s -> Means (text "\u" ++ h ++ raw) (p ++ s)
| means_pair h1 n1 h2 n2 p raw s : Hex4 h1 n1 -> Hex4 h2 n2 -> (55296 <= n1 < 56320)%Z -> (56320 <= n2 < 57344)%Z ->
    encodes (65536 + (n1 - 55296) * 1024 + (n2 - 56320)) p -> Means raw s ->
    Means (text "\u" ++ h1 ++ text "\u" ++ h2 ++ raw) (p ++ s).

(* ---- base64, RFC 4648 section 4 ---- *)
(* Three bytes are four letters of six bits; at the end zero bits are added, and padding. *)
Definition Letter (c : byte) (v : Z) : Prop :=
  (0 <= v)%Z /\ nth_error (text "ABCDEFGHIJKLMNOPQRSTUVWXYZabcdefghijklmnopqrstuvwxyz0123456789+/") (Z.to_nat v) = Some c.
Definition num (c : byte) : Z := Z.of_nat (Byte.to_nat c).
Inductive Base64 : list byte -> str -> Prop :=
| b64_nil : Base64 [] []
| b64_one a cx cy x y : Letter cx x -> Letter cy y -> (num a * 65536 = x * 262144 + y * 4096)%Z -> Base64 [a] (cx :: cy :: text "==")
| b64_two a b cx cy cz x y z : Letter cx x -> Letter cy y -> Letter cz z ->
    (num a * 65536 + num b * 256 = x * 262144 + y * 4096 + z * 64)%Z -> Base64 [a; b] (cx :: cy :: cz :: text "=")
| b64_three a b c cx cy cz cw x y z w l s : Letter cx x -> Letter cy y -> Letter cz z -> Letter cw w ->
    (num a * 65536 + num b * 256 + num c = x * 262144 + y * 4096 + z * 64 + w)%Z -> Base64 l s ->
    Base64 (a :: b :: c :: l) (cx :: cy :: cz :: cw :: s).

(* ---- times, RFC 3339 ---- *)
(* Decimal numbers, in k digits. *)
Inductive Decimal : str -> Z -> Prop :=
| dec_nil : Decimal [] 0
| dec_snoc s n c v : Decimal s n -> nth_error (text "0123456789") v = Some c -> Decimal (s ++ [c]) (10 * n + Z.of_nat v).
Definition Dec (k : nat) (s : str) (n : Z) : Prop := List.length s = k /\ Decimal s n.
(* The months of a year; JsonSpec.v says how many days came before it. *)
Definition month_lengths (y : Z) : list Z := [31; days (y + 1) - days y - 337; 31; 30; 31; 30; 31; 31; 30; 31; 30; 31]%Z.
Definition day_number (y m d : Z) : Z := (days y + fold_right Z.add 0 (firstn (Z.to_nat (m - 1)) (month_lengths y)) + (d - 1))%Z.
Inductive Fraction : str -> Z -> Prop :=
| no_fraction : Fraction [] 0
| a_fraction s v ns : (1 <= List.length s <= 9)%nat -> Decimal s v -> (ns * 10 ^ Z.of_nat (List.length s) = v * 10 ^ 9)%Z -> Fraction (text "." ++ s) ns.
(* In minutes. *)
Inductive Offset : str -> Z -> Prop :=
| off_utc : Offset (text "Z") 0
| off_east hs ms h m : Dec 2 hs h -> Dec 2 ms m -> (h < 24)%Z -> (m < 60)%Z -> Offset (text "+" ++ hs ++ text ":" ++ ms) (h * 60 + m)
| off_west hs ms h m : Dec 2 hs h -> Dec 2 ms m -> (h < 24)%Z -> (m < 60)%Z -> Offset (text "-" ++ hs ++ text ":" ++ ms) (- (h * 60 + m)).
(* The instant is in nanoseconds since 1970. *)
Inductive DateTime : str -> Z -> Prop :=
| date_time ys ms ds hs mis ss fs zs y m d h mi s ns off :
    Dec 4 ys y -> Dec 2 ms m -> Dec 2 ds d -> Dec 2 hs h -> Dec 2 mis mi -> Dec 2 ss s -> Fraction fs ns -> Offset zs off ->
    (1 <= m <= 12)%Z -> (1 <= d <= nth (Z.to_nat (m - 1)) (month_lengths y) 0)%Z -> (h < 24)%Z -> (mi < 60)%Z -> (s < 60)%Z ->
    DateTime (ys ++ text "-" ++ ms ++ text "-" ++ ds ++ text "T" ++ hs ++ text ":" ++ mis ++ text ":" ++ ss ++ fs ++ zs)
      (((((day_number y m d - days 1970) * 24 + h) * 60 + mi - off) * 60 + s) * 1000000000 + ns)%Z.

(* ---- what Go reads besides ---- *)
(* Base64: the bits that are left over at the end need not be zero. *)
Inductive Base64Loose : list byte -> str -> Prop :=
| b64l_nil : Base64Loose [] []
| b64l_one a cx cy x y i : Letter cx x -> Letter cy y -> (0 <= i < 16)%Z -> (num a * 16 + i = x * 64 + y)%Z -> Base64Loose [a] (cx :: cy :: text "==")
| b64l_two a b cx cy cz x y z i : Letter cx x -> Letter cy y -> Letter cz z -> (0 <= i < 4)%Z ->
    ((num a * 256 + num b) * 4 + i = x * 4096 + y * 64 + z)%Z -> Base64Loose [a; b] (cx :: cy :: cz :: text "=")
| b64l_three a b c cx cy cz cw x y z w l s : Letter cx x -> Letter cy y -> Letter cz z -> Letter cw w ->
    (num a * 65536 + num b * 256 + num c = x * 262144 + y * 4096 + z * 64 + w)%Z -> Base64Loose l s ->
    Base64Loose (a :: b :: c :: l) (cx :: cy :: cz :: cw :: s).

(* Times: hours of one digit, longer fractions if they begin with zeros (read as if they were
   shorter), offsets of any size, and with a sign in place of a first digit. *)
Inductive OffsetPart : str -> Z -> Prop :=
| two_digits s n : Dec 2 s n -> OffsetPart s n
| plus_digit s n : Dec 1 s n -> OffsetPart (text "+" ++ s) n
| minus_digit s n : Dec 1 s n -> OffsetPart (text "-" ++ s) (- n).
Inductive OffsetLoose : str -> Z -> Prop :=
| offl_utc : OffsetLoose (text "Z") 0
| offl_east hs ms h m : OffsetPart hs h -> OffsetPart ms m -> OffsetLoose (text "+" ++ hs ++ text ":" ++ ms) (h * 60 + m)
| offl_west hs ms h m : OffsetPart hs h -> OffsetPart ms m -> OffsetLoose (text "-" ++ hs ++ text ":" ++ ms) (- (h * 60 + m)).
Inductive FractionLoose : str -> Z -> Prop :=
| nol_fraction : FractionLoose [] 0
| al_fraction s v : s <> [] -> Decimal s v -> (v < 10 ^ 9)%Z -> FractionLoose (text "." ++ s) (v * 10 ^ Z.max 0 (9 - Z.of_nat (List.length s))).
Inductive TimeLoose : str -> Z -> Prop :=
| time_loose ys ms ds hs mis ss fs zs y m d h mi s ns off :
    Dec 4 ys y -> Dec 2 ms m -> Dec 2 ds d -> Dec 2 hs h \/ Dec 1 hs h -> Dec 2 mis mi -> Dec 2 ss s -> FractionLoose fs ns -> OffsetLoose zs off ->
    (1 <= m <= 12)%Z -> (1 <= d <= nth (Z.to_nat (m - 1)) (month_lengths y) 0)%Z -> (h < 24)%Z -> (mi < 60)%Z -> (s < 60)%Z ->
    TimeLoose (ys ++ text "-" ++ ms ++ text "-" ++ ds ++ text "T" ++ hs ++ text ":" ++ mis ++ text ":" ++ ss ++ fs ++ zs)
      (((((day_number y m d - days 1970) * 24 + h) * 60 + mi - off) * 60 + s) * 1000000000 + ns)%Z.

(* Strings: bytes that begin no character, and escapes of halves of pairs, stand for U+FFFD. *)
Definition no_character (s : str) : Prop := forall n p r, scalar n -> encodes n p -> s <> p ++ r.
Definition lone (n : Z) (raw : str) : Prop :=
  (56320 <= n < 57344)%Z \/ (55296 <= n < 56320)%Z /\ forall h m r, Hex4 h m -> (56320 <= m < 57344)%Z -> raw <> text "\u" ++ h ++ r.
Definition unknown : str := [xef; xbf; xbd].
Inductive MeansLoose : str -> str -> Prop :=
| meansl_nil : MeansLoose [] []
| meansl_plain n p raw s : scalar n -> (32 <= n)%Z -> n <> 34%Z -> n <> 92%Z -> encodes n p -> MeansLoose raw s -> MeansLoose (p ++ raw) (p ++ s)
| meansl_escape c d raw s : In (c, d) escapes -> MeansLoose raw s -> MeansLoose (text "\" ++ c :: raw) (d :: s)
| meansl_hex h n p raw s : Hex4 h n -> scalar n -> encodes n p -> MeansLoose raw s -> MeansLoose (text "\u" ++ h ++ raw) (p ++ s)
| meansl_pair h1 n1 h2 n2 p raw s : Hex4 h1 n1 -> Hex4 h2 n2 -> (55296 <= n1 < 56320)%Z -> (56320 <= n2 < 57344)%Z ->
    encodes (65536 + (n1 - 55296) * 1024 + (n2 - 56320)) p -> MeansLoose raw s ->
    MeansLoose (text "\u" ++ h1 ++ text "\u" ++ h2 ++ raw) (p ++ s)
| meansl_byte c raw s : no_character (c :: raw) -> MeansLoose raw s -> MeansLoose (c :: raw) (unknown ++ s)
| meansl_lone h n raw s : Hex4 h n -> lone n raw -> MeansLoose raw s -> MeansLoose (text "\u" ++ h ++ raw) (unknown ++ s).
