(* Cases for C111. *)
From Coq Require Import SpecFloat ZArith Lia.
From Verif Require Import Base Num MathUtils Env Centroid Server Routes JsonText JsonSpec TextSpec TextParse TextTime TextLoose Gob GobWire GobSpec GobProofs GobCalls.
From Coq.Init Require Import Byte.
From Coq Require Import Strings.Byte Strings.String.
Local Open Scope string_scope.
Local Open Scope list_scope.
Local Open Scope Z_scope.

Definition seventeen : F f64 := S754_finite false (17 * 2 ^ 48) (-48).
Definition a_dp : DataPoint f64 := MkDP [seventeen; S754_zero true] (text "payload") 1900000000123456789 true.
Definition a_call : req f64 := QAdd (text "ns") a_dp.
Lemma dp_case : dp_ok (Some 60) a_dp.
Proof.
  split; [|split].
  - constructor; [reflexivity|]. constructor; [exact I|constructor].
  - unfold instant_ok. cbn. lia.
  - cbn. lia.
Qed.
Lemma call_case : req_ok (Some 60) a_call /\ req_ok None (QDistributeFast (text "ns") (-3) [text "a:1"; []]) /\
  match send_call (65, 66) (Some 60) a_call with Some s => Z.of_nat (List.length s) | None => 0 end = 76.
Proof.
  split; [|split].
  - split; [exact dp_case|]. cbn. lia.
  - split; [unfold int_ok; lia|]. cbn. lia.
  - vm_compute. reflexivity.
Qed.
Definition an_answer : ans f64 := ADPs [a_dp; a_dp].
Lemma answer_case : exists v, is_ans an_answer v /\ answers MKnnLookup an_answer /\ Has (ans_type MKnnLookup) v /\ weight v + 20 <= 2 ^ 33.
Proof.
  exists (VSlice [v_dp (Some 60) a_dp; v_dp None a_dp]). split; [|split; [exact I|split]].
  - constructor. constructor; [eexists; reflexivity|]. constructor; [eexists; reflexivity|constructor].
  - destruct dp_case as (D1 & D2 & _). constructor; [lia|cbn; lia|]. constructor; [|constructor; [|constructor]]; apply dp_has; try (cbn; lia); (split; [exact D1|split; [exact D2|cbn; lia]]).
  - vm_compute. discriminate.
Qed.
Lemma vector_lost : exists ids m a v s a', int_ok (fst ids) /\ int_ok (snd ids) /\ is_ans a v /\ answers m a /\ Has (ans_type m) v /\
  send_answer ids m [] v = Some s /\ (match read_answer ids m s with Some x => ans_of m x | None => None end) = Some a' /\ a' <> a.
Proof.
  set (v := VSlice [VStruct [VSlice [v_dp None a_dp]]]). assert (A : is_ans (ACens [MkC [seventeen] [a_dp]]) v).
  { constructor. constructor; [|constructor]. eexists. split; [reflexivity|]. constructor; [eexists; reflexivity|constructor]. }
  assert (H : Has (ans_type MNearest) v).
  { constructor; [lia|cbn; lia|]. constructor; [|constructor]. constructor; [cbn; lia| |repeat constructor; discriminate]. constructor; [|constructor]. constructor; [lia|cbn; lia|].
    constructor; [|constructor]. destruct dp_case as (D1 & D2 & _). apply dp_has; [|cbn; lia]. split; [exact D1|split; [exact D2|exact I]]. }
  assert (I1 : int_ok 65) by (unfold int_ok; lia). destruct (answers_read (65, 65) MNearest _ v I1 I1 A I H) as (s & a' & E & Ar & R); [vm_compute; discriminate|].
  exists (65, 65), MNearest, (ACens [MkC [seventeen] [a_dp]]), v, s, a'. specialize (R []). rewrite app_nil_r in R. repeat (split; [assumption || exact I|]). intros ->.
  inversion Ar as [|cs cs' F| |a Ha]; subst; [|contradiction]. inversion F as [|? ? ? ? E1]; subst. discriminate.
Qed.
Lemma zone_case : exists t, TimeLoose (text "2030-01-01T00:00:00" ++ text "-00:02") t /\ OffsetLoose (text "-00:02") (-2).
Proof.
  assert (D : forall c, is_digit c = true -> Dec 2 [x30; c] (digits_value [x30; c])) by (intros c Hc; apply (dec_of [x30; c]); [cbn [forallb]; rewrite Hc; reflexivity|reflexivity]).
  eexists. split; [apply time_iff; vm_compute; reflexivity|]. apply (offl_west [x30; x30] [x30; x32] 0 2); constructor; [exact (D x30 eq_refl)|exact (D x32 eq_refl)].
Qed.
Lemma west : exists zs t, Offset zs (-1) /\ DateTime (text "2030-01-01T00:00:00" ++ zs) t /\ parse_time (text "2030-01-01T00:00:00" ++ zs) = Some t /\
  forall ids ns (d : DataPoint f64), dp_expires d = t -> send_call ids (Some (-1)) (QAdd ns d) = None.
Proof.
  assert (D : forall s n, forallb is_digit s = true -> digits_value s = n -> Dec (List.length s) s n) by exact dec_of.
  assert (O : Offset (text "-00:01") (-1)) by (apply (off_west [x30; x30] [x30; x31] 0 1); try lia; apply D; reflexivity).
  assert (T : DateTime (text "2030-01-01T00:00:00-00:01") (((((day_number 2030 1 1 - days 1970) * 24 + 0) * 60 + 0 - -1) * 60 + 0) * 1000000000 + 0)).
  { refine (date_time (text "2030") (text "01") (text "01") (text "00") (text "00") (text "00") [] (text "-00:01") 2030 1 1 0 0 0 0 (-1) _ _ _ _ _ _ no_fraction O _ _ _ _ _);
      first [apply D; reflexivity | apply (D (text "2030")); reflexivity | apply (D (text "01")); reflexivity | apply (D (text "00")); reflexivity | lia | vm_compute; split; discriminate]. }
  exists (text "-00:01"). eexists. split; [exact O|]. split; [exact T|]. split; [apply time_read; exact T|]. intros ids ns d _. apply zone_lost_call.
Qed.
