(* Lemmas about GobWire.v. *)
From Coq Require Import SpecFloat ZArith Lia.
From Verif Require Import Base Num MathUtils Env Centroid Server ServerFacts Routes JsonText JsonSpec TextSpec TextParse TextTime FloatSpec Gob GobWire GobSpec GobProofs.
From Coq.Init Require Import Byte.
From Coq Require Import Strings.Byte Strings.String Permutation.
Local Open Scope list_scope.
Local Open Scope Z_scope.

Notation len l := (Z.of_nat (List.length l)).
Lemma vec_has (v : vec f64) : Forall is_f64 v -> 8 * len v <= 2 ^ 33 -> Has t_vec (v_vec v).
Proof.
  intros H L. unfold v_vec, t_vec. constructor; [lia|rewrite map_length; lia|]. apply Forall_forall. intros x Hx. apply in_map_iff in Hx as (y & <- & Hy). constructor.
  rewrite Forall_forall in H. apply H, Hy.
Qed.
Lemma vec_weight (v : vec f64) : weight (v_vec v) = 9 + 9 * len v.
Proof. unfold v_vec. cbn [weight]. f_equal. induction v as [|x v IH]; cbn [map fold_right List.length]; [reflexivity|]. rewrite IH. cbn [weight]. lia. Qed.
Lemma strs_has (l : list str) : fold_right (fun a n => 16 + len a + n) 0 l <= 2 ^ 33 -> Has (GSlice 16 GBytes) (VSlice (map VBytes l)).
Proof.
  intros H. assert (B : 16 * len l <= fold_right (fun a n => 16 + len a + n) 0 l) by (clear; induction l as [|a l IH]; cbn [fold_right List.length]; lia).
  constructor; [lia|rewrite map_length; lia|]. clear B. induction l as [|a l IH]; cbn [map fold_right] in *; constructor.
  - constructor. assert (0 <= fold_right (fun a n => 16 + len a + n) 0 l) by (clear; induction l as [|a l IH]; cbn [fold_right]; lia). lia.
  - apply IH. lia.
Qed.
Lemma strs_weight (l : list str) : weight (VSlice (map VBytes l)) <= 9 + fold_right (fun a n => 16 + len a + n) 0 l.
Proof. cbn [weight]. apply Z.add_le_mono_l. induction l as [|a l IH]; cbn [map fold_right weight]; lia. Qed.
Lemma bytes_has (l : str) : len l <= 2 ^ 33 -> Has GBytes (VBytes l).
Proof. intros H. constructor. lia. Qed.
Lemma dp_has z (d : DataPoint f64) : dp_ok z d -> len (dp_payload d) + 9 * len (dp_vec d) <= 2 ^ 33 -> Has t_dp (v_dp z d).
Proof.
  intros (H1 & H2 & H3) L. constructor; [cbn; lia| |repeat constructor; discriminate].
  constructor; [apply vec_has; [exact H1|lia]|]. constructor; [apply bytes_has; lia|]. constructor; [constructor; assumption|]. constructor; [constructor|constructor].
Qed.
Lemma dp_weight z (d : DataPoint f64) : weight (v_dp z d) = 96 + 9 * len (dp_vec d) + len (dp_payload d).
Proof. unfold v_dp. cbn [weight fold_right]. rewrite vec_weight. lia. Qed.

Ltac struct_has := constructor; [cbn; lia| |repeat constructor; discriminate]; repeat (apply Forall2_cons || apply Forall2_nil).
Ltac scalar := first [apply bytes_has; lia | constructor; first [assumption | lia] | constructor].
Lemma call_has z q : req_ok z q -> let '(m, v) := call_of z q in Has (arg_type m) v /\ weight v + 20 <= 2 ^ 33.
Proof.
  destruct q; cbn [req_ok call_of arg_type]; intros H.
  - split; [constructor; lia|cbn; lia].
  - split; [apply bytes_has; lia|cbn [weight]; lia].
  - destruct H as (H & L). split; [|cbn [weight fold_right]; rewrite dp_weight; lia]. struct_has; [apply bytes_has; lia|apply dp_has; [exact H|lia]].
  - destruct H as (H & L). split; [|cbn [weight fold_right]; lia]. struct_has; scalar.
  - destruct H as (H & L). split; [|cbn [weight fold_right]; lia]. struct_has; scalar.
  - split; [apply bytes_has; lia|cbn [weight]; lia].
  - split; [apply bytes_has; lia|cbn [weight]; lia].
  - split; [apply bytes_has; lia|cbn [weight]; lia].
  - split; [apply bytes_has; lia|cbn [weight]; lia].
  - destruct H as (H & L). split; [|pose proof (strs_weight addrs); set (w := VSlice _) in *; cbn [weight fold_right]; lia].
    assert (0 <= fold_right (fun a n => 16 + len a + n) 0 addrs) by (clear; induction addrs as [|a l IH]; cbn [fold_right]; lia). struct_has; [scalar|scalar|apply strs_has; lia].
  - destruct H as (H & L). split; [|pose proof (strs_weight addrs); set (w := VSlice _) in *; cbn [weight fold_right]; lia].
    assert (0 <= fold_right (fun a n => 16 + len a + n) 0 addrs) by (clear; induction addrs as [|a l IH]; cbn [fold_right]; lia). struct_has; [scalar|scalar|apply strs_has; lia].
  - destruct H as (H & L). split; [|cbn [weight fold_right]; lia]. struct_has; scalar.
  - destruct H as (H & Hi & L). split; [|pose proof (vec_weight v); set (w := v_vec v) in *; cbn [weight fold_right]; lia]. struct_has; [scalar|apply vec_has; [exact H|lia]|scalar|scalar].
  - destruct H as (H & Hi & L). split; [|pose proof (vec_weight v); set (w := v_vec v) in *; cbn [weight fold_right]; lia]. struct_has; [scalar|apply vec_has; [exact H|lia]|scalar|scalar].
  - destruct H as (H & L). split; [|pose proof (vec_weight v); set (w := v_vec v) in *; cbn [weight fold_right]; lia]. struct_has; [scalar|apply vec_has; [exact H|lia]].
  - destruct H as (H1 & H2 & L). split; [|cbn [weight fold_right]; lia]. struct_has; scalar.
  - destruct H as (H1 & H2 & L). split; [|cbn [weight fold_right]; lia]. struct_has; scalar.
  - destruct H as (H1 & L). split; [|cbn [weight fold_right]; lia]. struct_has; scalar.
  - split; [constructor; lia|cbn; lia].
Qed.

Lemma find_named m : find_method (named m) = Some m.
Proof. destruct m; vm_compute; reflexivity. Qed.
Lemma name_length m : len (named m) <= 60.
Proof. destruct m; vm_compute; discriminate. Qed.
Lemma all_of_map {A B C} (f : B -> option C) (g : A -> B) (h : A -> C) l : (forall x, In x l -> f (g x) = Some (h x)) -> all_of f (map g l) = Some (map h l).
Proof. induction l as [|a l IH]; intros H; cbn [map all_of]; [reflexivity|]. rewrite H by (left; reflexivity). rewrite IH; [reflexivity|]. intros x Hx. apply H. right. exact Hx. Qed.
Lemma vec_back v : vec_of (v_vec v) = Some v.
Proof. unfold vec_of, v_vec. rewrite (all_of_map _ _ (fun x => x)) by reflexivity. rewrite map_id. reflexivity. Qed.
Lemma strs_back l : all_of bytes_of (map VBytes l) = Some l.
Proof. rewrite (all_of_map _ _ (fun x => x)) by reflexivity. rewrite map_id. reflexivity. Qed.
Lemma dp_back z d : dp_of (v_dp z d) = Some d.
Proof. unfold dp_of, v_dp. rewrite vec_back. destruct d. reflexivity. Qed.
Lemma call_back fuel z q : let '(m, v) := call_of z q in req_of fuel m v = Some (with_fuel fuel q).
Proof. destruct q; cbn [call_of req_of with_fuel]; try reflexivity; rewrite ?dp_back, ?strs_back, ?vec_back; reflexivity. Qed.

Theorem calls_read ids fuel z q : int_ok (fst ids) -> int_ok (snd ids) -> req_ok z q ->
  exists s, send_call ids z q = Some s /\ forall r, read_call ids fuel (s ++ r) = Some (with_fuel fuel q).
Proof.
  intros I1 I2 H. pose proof (call_has z q H) as V. pose proof (call_back fuel z q) as B. unfold send_call. destruct (call_of z q) as (m & v). destruct V as (V & W).
  pose proof (name_length m) as N. destruct (message_read (fst ids) t_request (VStruct [VBytes (named m); VUint 0]) I1) as (a & Ea & Ra).
  { constructor; [cbn; lia| |repeat constructor; discriminate]. constructor; [apply bytes_has; lia|]. constructor; [constructor; lia|constructor]. }
  { cbn [weight fold_right]. lia. }
  destruct (message_read (snd ids) (arg_type m) v I2 V W) as (b & Eb & Rb). rewrite Ea, Eb. eexists. split; [reflexivity|]. intros r.
  unfold read_call. rewrite <- app_assoc, Ra, find_named, Rb. exact B.
Qed.
Theorem calls_apart ids z z' q q' s : int_ok (fst ids) -> int_ok (snd ids) -> req_ok z q -> req_ok z' q' -> send_call ids z q = Some s -> send_call ids z' q' = Some s ->
  with_fuel 0 q = with_fuel 0 q'.
Proof.
  intros I1 I2 H H' E E'. destruct (calls_read ids 0 z q I1 I2 H) as (a & Ea & Ra). destruct (calls_read ids 0 z' q' I1 I2 H') as (b & Eb & Rb).
  rewrite E in Ea. injection Ea as <-. rewrite E' in Eb. injection Eb as <-. specialize (Ra []). specialize (Rb []). congruence.
Qed.

(* ---- answers ---- *)
Lemma dps_back ds l : Forall2 is_dp ds l -> all_of dp_of l = Some ds.
Proof. induction 1 as [|d v ds l (z & ->) _ IH]; cbn [all_of]; [reflexivity|]. rewrite dp_back, IH. reflexivity. Qed.
Lemma meta_back (l : list (str * (nat * nat))) l1 l2 : NoDup (map fst l) -> Permutation l1 (map (fun x => (fst x, Z.of_nat (fst (snd x)))) l) ->
  Permutation l2 (map (fun x => (fst x, Z.of_nat (snd (snd x)))) l) ->
  exists l', all_of (fun x => option_map (fun d => (fst x, (Z.to_nat (snd x), Z.to_nat d))) (assoc (fst x) l2)) l1 = Some l' /\ Permutation l l'.
Proof.
  intros Hd P1 P2. apply Permutation_sym in P1. destruct (Permutation_map_inv _ _ (Permutation_sym P1)) as (l' & -> & P). exists l'. split; [|exact P].
  rewrite (all_of_map _ _ (fun x => x)); [rewrite map_id; reflexivity|]. intros (k & (n & m)) Hx. cbn [fst snd].
  rewrite (in_assoc k (Z.of_nat m) l2).
  - cbn [option_map]. rewrite !Nat2Z.id. reflexivity.
  - apply (Permutation_NoDup (l := map fst l)); [|exact Hd]. rewrite (Permutation_map fst P2), map_map. cbn [fst]. apply Permutation_refl.
  - apply (Permutation_in _ (Permutation_sym P2)). apply in_map_iff. exists (k, (n, m)). split; [reflexivity|]. apply (Permutation_in _ (Permutation_sym P)), Hx.
Qed.
Lemma answer_back m a v : is_ans a v -> answers m a -> exists a', ans_of m (RVal v) = Some a' /\ arrives a a'.
Proof.
  intros H Ha. destruct H as [l|v| |b|n| |ds l H|cs l H|n b|l l1 l2 Hd P1 P2]; destruct m; try contradiction; unfold ans_of.
  - rewrite strs_back. eexists. split; [reflexivity|]. apply same. exact I.
  - rewrite vec_back. eexists. split; [reflexivity|]. destruct v; [apply same_vec|apply same; exact I].
  - rewrite vec_back. eexists. split; [reflexivity|]. destruct v; [apply same_vec|apply same; exact I].
  - eexists. split; [reflexivity|]. apply same. exact I.
  - eexists. split; [reflexivity|]. apply same. exact I.
  - eexists. split; [reflexivity|]. apply same. exact I.
  - eexists. split; [reflexivity|]. apply same. exact I.
  - rewrite Nat2Z.id. eexists. split; [reflexivity|]. apply same. exact I.
  - eexists. split; [reflexivity|]. apply same. exact I.
  - eexists. split; [reflexivity|]. apply same. exact I.
  - eexists. split; [reflexivity|]. apply same. exact I.
  - eexists. split; [reflexivity|]. apply same. exact I.
  - eexists. split; [reflexivity|]. apply same. exact I.
  - eexists. split; [reflexivity|]. apply same. exact I.
  - eexists. split; [reflexivity|]. apply same. exact I.
  - rewrite (dps_back _ _ H). eexists. split; [reflexivity|]. apply same. exact I.
  - rewrite (dps_back _ _ H). eexists. split; [reflexivity|]. apply same. exact I.
  - rewrite (dps_back _ _ H). eexists. split; [reflexivity|]. apply same. exact I.
  - enough (exists cs', all_of cen_of l = Some cs' /\ Forall2 (fun c c' => c' = MkC [] (c_dps c)) cs cs') as (cs' & E & F) by (rewrite E; eexists; split; [reflexivity|]; apply same_cens, F).
    clear Ha. induction H as [|c v cs l (ds & -> & Hds) _ (cs' & E & F)]; [exists []; split; [reflexivity|constructor]|].
    cbn [all_of cen_of]. rewrite (dps_back _ _ Hds). cbn [option_map]. rewrite E. eexists. split; [reflexivity|]. constructor; [reflexivity|exact F].
  - rewrite Nat2Z.id. eexists. split; [reflexivity|]. apply same. exact I.
  - destruct (meta_back l l1 l2 Hd P1 P2) as (l' & E & P). rewrite E. eexists. split; [reflexivity|]. apply same_meta, P.
Qed.
Lemma response_read id m err : int_ok id -> len err + 200 <= 2 ^ 33 ->
  exists s, message id t_response (VStruct [VBytes (named m); VUint 0; VBytes err]) = Some s /\ forall r, receive id t_response (s ++ r) = Some (VStruct [VBytes (named m); VUint 0; VBytes err], r).
Proof.
  intros I1 He. pose proof (name_length m) as N. apply message_read; [exact I1| |cbn [weight fold_right]; lia].
  constructor; [cbn; lia| |repeat constructor; discriminate]. constructor; [apply bytes_has; lia|]. constructor; [constructor; lia|]. constructor; [apply bytes_has; lia|constructor].
Qed.
Theorem answers_read ids m a v : int_ok (fst ids) -> int_ok (snd ids) -> is_ans a v -> answers m a -> Has (ans_type m) v -> weight v + 20 <= 2 ^ 33 ->
  exists s a', send_answer ids m [] v = Some s /\ arrives a a' /\ forall r, match read_answer ids m (s ++ r) with Some x => ans_of m x | None => None end = Some a'.
Proof.
  intros I1 I2 H Ha V W. destruct (answer_back m a v H Ha) as (a' & E & A). destruct (response_read (fst ids) m [] I1 ltac:(cbn; lia)) as (x & Ex & Rx).
  destruct (message_read (snd ids) (ans_type m) v I2 V W) as (b & Eb & Rb). exists (x ++ b), a'. unfold send_answer. rewrite Ex, Eb. split; [reflexivity|]. split; [exact A|].
  intros r. unfold read_answer. rewrite <- app_assoc, Rx, Rb. exact E.
Qed.
Theorem errors_read ids m ns v : int_ok (fst ids) -> int_ok (snd ids) -> len ns + 250 <= 2 ^ 33 ->
  exists s, send_answer ids m (ns_error ns) v = Some s /\ forall r, read_answer ids m (s ++ r) = Some (RErr (ns_error ns)).
Proof.
  intros I1 I2 Hn. assert (Hl : len (ns_error ns) = 23 + len ns). { unfold ns_error. rewrite !app_length, !Nat2Z.inj_add. change (len (text "namespace not found: '")) with 22. change (len (text "'")) with 1. lia. }
  destruct (response_read (fst ids) m (ns_error ns) I1 ltac:(lia)) as (x & Ex & Rx).
  destruct (message_read (snd ids) (GStruct []) (VStruct []) I2) as (b & Eb & _); [constructor; [cbn; lia|constructor|constructor]|cbn; lia|].
  exists (x ++ b). unfold send_answer. rewrite Ex, Eb. split; [reflexivity|]. intros r. unfold read_answer. rewrite <- app_assoc, Rx. reflexivity.
Qed.

(* ---- zones ---- *)
Theorem zone_lost_call ids ns (d : DataPoint f64) : send_call ids (Some (-1)) (QAdd ns d) = None.
Proof.
  unfold send_call. cbn [call_of]. destruct (message _ _ _); [|reflexivity]. unfold message. enough (E : enc (VStruct [VBytes ns; v_dp (Some (-1)) d]) = None) by (rewrite E; reflexivity).
  assert (Ed : enc (v_dp (Some (-1)) d) = None).
  { unfold v_dp. rewrite enc_struct. cbn [fields_enc]. assert (Em : enc (VTime (dp_expires d) (Some (-1))) = None) by reflexivity. rewrite Em. cbn [left_out v_vec].
    destruct (map VFloat (dp_vec d)); destruct (dp_payload d); repeat (match goal with |- context [match enc ?x with _ => _ end] => destruct (enc x) end); reflexivity. }
  rewrite enc_struct. cbn [fields_enc left_out v_dp]. fold (v_dp (Some (-1)) d). change (left_out (v_dp (Some (-1)) d)) with false. rewrite Ed. destruct ns; reflexivity.
Qed.

Lemma part_bound s n : OffsetPart s n -> -10 < n < 100.
Proof.
  intros H. destruct H as [s n (L & H)|s n (L & H)|s n (L & H)]; destruct (decimal_read s n H) as (_ & _ & B); pose proof (decimal_bound s n H) as C; rewrite L in C; cbn in C; lia.
Qed.
Theorem offsets_ok zs off : OffsetLoose zs off -> off <> -1 -> zone_ok (Some off).
Proof.
  intros H N. cbn [zone_ok]. split; [|exact N]. destruct H as [|hs ms h m H1 H2|hs ms h m H1 H2]; [lia| |]; apply part_bound in H1; apply part_bound in H2; lia.
Qed.
Lemma dec_bound k s n : Dec k s n -> 0 <= n < 10 ^ Z.of_nat k.
Proof. intros (L & H). destruct (decimal_read s n H) as (_ & _ & B). pose proof (decimal_bound s n H) as C. rewrite L in C. lia. Qed.
Lemma before_bound m : 0 <= days_before m <= 365.
Proof.
  unfold days_before. destruct (nth_in_or_default (Z.to_nat m) [0; 31; 59; 90; 120; 151; 181; 212; 243; 273; 304; 334; 365] 0) as [H|H]; [|rewrite H; lia].
  revert H. generalize (nth (Z.to_nat m) [0; 31; 59; 90; 120; 151; 181; 212; 243; 273; 304; 334; 365] 0). intros z H. cbn [In] in H. lia.
Qed.
Lemma year_bound y : 0 <= y < 10000 -> -400 <= days_to_year y <= 3700000.
Proof. intros H. unfold days_to_year. Z.to_euclidean_division_equations. lia. Qed.
Theorem times_ok s t : TimeLoose s t -> instant_ok t.
Proof.
  intros H. destruct H as [ys ms ds hs mis ss fs zs y m d h mi s ns off Hy Hm Hd Hh Hmi Hs Hf Hz M D H60 Mi60 S60].
  assert (Bh : 0 <= h < 24) by (destruct Hh as [Hh|Hh]; apply dec_bound in Hh; lia). apply dec_bound in Hy, Hd, Hmi, Hs. change (10 ^ Z.of_nat 4) with 10000 in Hy. change (10 ^ Z.of_nat 2) with 100 in *.
  assert (Bn : 0 <= ns < 10 ^ 18).
  { destruct Hf as [|f v Hne Hv Hlt]; [lia|]. destruct (decimal_read f v Hv) as (_ & _ & B). pose proof (Z.pow_le_mono_r 10 (Z.max 0 (9 - Z.of_nat (List.length f))) 9 ltac:(lia) ltac:(lia)) as P.
    pose proof (Z.pow_nonneg 10 (Z.max 0 (9 - Z.of_nat (List.length f))) ltac:(lia)) as P0. set (p := 10 ^ Z.max 0 _) in *. split; [apply Z.mul_nonneg_nonneg; lia|].
    apply Z.le_lt_trans with (v * 10 ^ 9); [apply Z.mul_le_mono_nonneg_l; lia|lia]. }
  assert (Bo : -7000 < off < 7000). { destruct Hz as [|? ? ? ? H1 H2|? ? ? ? H1 H2]; [lia| |]; apply part_bound in H1; apply part_bound in H2; lia. }
  rewrite day_number_ok by exact M. assert (E : days 1970 = 719528) by reflexivity. rewrite E.
  assert (Bd : -400 <= days_to y m d <= 3800000). { unfold days_to. pose proof (year_bound y Hy). pose proof (before_bound (m - 1)). destruct (leap y && (2 <? m))%bool; lia. }
  unfold instant_ok, year_1. set (dd := days_to y m d) in *. clearbody dd. clear - Bh Hmi Hs Bn Bo Bd. Z.to_euclidean_division_equations. lia.
Qed.
Lemma fin_f64 x : is_fin x = true -> is_f64 x.
Proof. destruct x; cbn [is_fin is_f64]; auto. Qed.
