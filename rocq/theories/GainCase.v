(* A vector with a NaN finds nothing and is not found. *)
From Verif Require Import Base Num MathUtils Knn Env Centroid CManager DataSpec MgrSpec Wp DataFacts NumFacts SearchSpec KnnProofs
  TestEnv Proc Owns Server ServerSpec ServerFacts TestWorld Core EventLoop CoreSpec CoreSeq Props05Lemmas LoopSpec SettleSpec SettleProofs SettleCase GainSteal GainProofs.
From Coq Require Import SpecFloat.
Local Open Scope nat_scope.

Definition nan : F f64 := S754_nan.
Definition spoilt (v : vec f64) : Prop := In nan v.

Lemma sum_stuck {A} (g : A -> F f64) (l : list A) : fold_left (fun r p => fadd r (g p)) l nan = nan.
Proof. induction l as [|x l IH]; cbn [fold_left]; auto. Qed.
Lemma add_nan (a : F f64) : fadd a nan = nan.
Proof. destruct a as [s|s| |s m e]; reflexivity. Qed.
Lemma div_nan (a : F f64) : fdiv a nan = nan.
Proof. destruct a as [s|s| |s m e]; reflexivity. Qed.
Lemma nan_div (a : F f64) : fdiv nan a = nan.
Proof. reflexivity. Qed.
Lemma norm_spoilt v : spoilt v -> norm v = nan.
Proof.
  intros Hv. unfold norm. assert (H : forall acc, fold_left (fun x a : F f64 => fadd x (fmul a a)) v acc = nan).
  { induction v as [|x v IH]; intros acc; [destruct Hv|]. cbn [fold_left]. destruct Hv as [->|Hv]; [|apply IH; exact Hv].
    change (fmul nan nan) with nan. rewrite add_nan. apply (sum_stuck (fun a => fmul a a)). }
  rewrite H. reflexivity.
Qed.
Lemma cosine_spoilt v u : spoilt v \/ spoilt u -> cosine_similarity v u = None \/ cosine_similarity v u = Some nan.
Proof.
  intros H. unfold cosine_similarity. destruct (length v =? length u); auto. right. destruct H as [H|H].
  - rewrite (norm_spoilt v H). change (feqb nan f0) with false. cbn [andb]. rewrite div_nan, nan_div. reflexivity.
  - rewrite (norm_spoilt u H). change (feqb nan f0) with false. rewrite andb_false_r, div_nan. reflexivity.
Qed.
Lemma nan_not_better asc (s : F f64) : better asc nan s = false.
Proof. unfold better. destruct asc, s as [b|b| |b m e]; reflexivity. Qed.
Lemma spoilt_unranked asc v pool i s : (spoilt v \/ forall u, nth_error pool i = Some u -> spoilt u) -> ~ rankable cosine_similarity asc v pool i s.
Proof.
  intros H (u & Hu & Hs & Hb). destruct (cosine_spoilt v u) as [Hc|Hc].
  - destruct H as [H|H]; auto.
  - congruence.
  - rewrite Hc in Hs. injection Hs as <-. rewrite nan_not_better in Hb. discriminate Hb.
Qed.
Lemma spoilt_blind v pool k : spoilt v -> (0 <= k)%Z -> knn_cos v pool k = Ok [].
Proof.
  intros Hv Hk. destruct (knn_brute_bestk f64_ord cosine_similarity false v pool k Hk) as (idx & He & HB).
  unfold knn_cos. rewrite He. destruct idx as [|i idx]; auto. exfalso. destruct (bk_rankable _ _ _ _ _ _ HB i (or_introl eq_refl)) as (s & Hs).
  exact (spoilt_unranked false v pool i s (or_introl Hv) Hs).
Qed.

(* ---- the two ways in which data could come to a node with such a vector ---- *)
Lemma locked_out : forall (E : Env f64), EnvOk E -> e_knn E = knn_cos -> forall dim c w t w' t' ns m, all_delivered E ->
  NoDup (el_remote c) -> In (el_local c) (el_remote c) ->
  WorldOk w -> DimsOk (fun ns n => n = dim ns) w -> (forall b ns, never_expired E (data_at w b ns)) ->
  (forall b ns, length (centroids_at w b ns) < el_fuel c) -> exec (task_body E c TBalance) w t = Ok ((tt, w'), t') ->
  manager w (el_local c) ns = Some m -> cm_cs m = [] -> In S754_nan (cm_vec m) -> forall b, manager w' b ns = manager w b ns.
Proof.
  intros E HE Hk dim c w t w' t' ns m Had H1 H2 H3 H4 H5 H6 Hx Hm He Hn.
  apply (balance_blind E HE f64_ord Had dim c w t w' t' ns m); auto.
  - exact (conj H3 (conj H4 H5)).
  - intros b mr _. unfold blind. rewrite Hk. apply spoilt_blind; [exact Hn|lia].
Qed.
Lemma not_chosen : forall (E : Env f64), EnvOk E -> forall (w : World f64) (accurate : bool) addrs ns v b m t, WorldOk w ->
  manager w b ns = Some m -> cm_cs m = [] -> In S754_nan (cm_vec m) ->
  wp (exec (if accurate then best_fit_accurate E knn_cos addrs ns v else best_fit_fast E knn_cos addrs ns v) w) t (fun r _ => ~ In b (fst r)).
Proof.
  intros E HE w accurate addrs ns v b m t Hw Hm Hcs Hn.
  eapply wp_mono; [apply (best_fit_nodes E HE f64_ord cosine_similarity false w accurate addrs ns v t Hw)|].
  intros r t' (_ & (resp & rest & idx & Hp & Ha & _ & HB & HF) & _) Hb.
  apply In_nth_error in Hb. destruct Hb as (j & Hj).
  assert (Hi : exists i, In i idx /\ nth_error (map fst resp) i = Some b).
  { clear -HF Hj. revert j Hj. induction HF as [|i a idx l Hi HF IH]; intros [|j] Hj; try discriminate Hj.
    - injection Hj as ->. exists i. split; auto. left; reflexivity.
    - destruct (IH j Hj) as (i' & H1 & H2). exists i'. split; auto. right; exact H1. }
  destruct Hi as (i & Hi & Hib). destruct (bk_rankable _ _ _ _ _ _ HB i Hi) as (s & Hs).
  apply (spoilt_unranked false v (map snd resp) i s); [right|exact Hs]. intros u Hu.
  rewrite nth_error_map in Hib, Hu. destruct (nth_error resp i) as [e|] eqn:He; [|discriminate Hib]. cbn [option_map] in Hib, Hu.
  injection Hib as <-. injection Hu as <-. apply nth_error_In in He. rewrite Forall_forall in Ha. specialize (Ha e He). destruct accurate.
  - exfalso. destruct Ha as (m' & i' & idx' & c' & Hm' & _ & Hc' & _). rewrite Hm in Hm'. injection Hm' as <-. rewrite Hcs in Hc'.
    destruct i'; discriminate Hc'.
  - destruct Ha as (m' & Hm' & Hv & _). rewrite Hm in Hm'. injection Hm' as <-. unfold spoilt, nan. rewrite Hv. exact Hn.
Qed.

(* Twelve datapoints at A; B has given away all it had. *)
Definition emptied : World f64 := after cosE
  (repeat (nA, QAdd ns1 (dp [1;1]%Z)) 11 ++ [(nB, QAdd ns1 (dp [1;1]%Z)); (nA, QSteal 5 nB ns1 12)]) (fresh [(nA, 20%Z); (nB, 20%Z)]).
Lemma emptied_stays t : exists t', exec (task_body cosE (loop_at nB) TBalance) emptied t = Ok ((tt, emptied), t').
Proof. apply leads_check. vm_compute. reflexivity. Qed.
Lemma stays_empty (n : nat) : forall t, exists t', in_turn cosE (repeat (loop_at nB) n) emptied t = Ok (emptied, t').
Proof.
  induction n as [|n IH]; intros t; [exists t; reflexivity|]. cbn [repeat in_turn]. unfold bind at 1. destruct (emptied_stays t) as (t1 & ->). cbn [snd]. apply IH.
Qed.
Lemma fills_refuted : exists (E : Env f64) c setup w ns b, EnvOk E /\ all_delivered E /\ w = after E setup (fresh [(nA, 20%Z); (nB, 20%Z)]) /\
  WorldOk w /\ DimsOk (fun _ n => n = 2) w /\ (forall x ns, never_expired E (data_at w x ns)) /\
  let mean := mean_size w (el_remote c) ns in let here := size_at w (el_local c) ns in
  (here = 0 /\ here <= mean - margin_of mean /\ 3 * Z.of_nat (length (el_remote c)) <= mean - here)%Z /\ In b (el_remote c) /\
  (mean + margin_of mean + (mean - here) / (3 * Z.of_nat (length (el_remote c))) <= size_at w b ns)%Z /\
  forall n t, exists t', in_turn E (repeat c n) w t = Ok (w, t').
Proof.
  exists cosE, (loop_at nB), (repeat (nA, QAdd ns1 (dp [1;1]%Z)) 11 ++ [(nB, QAdd ns1 (dp [1;1]%Z)); (nA, QSteal 5 nB ns1 12)]), emptied, ns1, nA.
  assert (Hm : mean_size emptied (el_remote (loop_at nB)) ns1 = 6%Z) by (vm_compute; reflexivity).
  assert (Hh : size_at emptied (el_local (loop_at nB)) ns1 = 0%Z) by (vm_compute; reflexivity).
  assert (Hg : margin_of 6 = 2%Z) by (vm_compute; reflexivity).
  assert (Hs : size_at emptied nA ns1 = 12%Z) by (vm_compute; reflexivity).
  cbv zeta. rewrite Hm, Hh, Hg, Hs. splits.
  - exact cosE_ok.
  - intros k; reflexivity.
  - reflexivity.
  - apply world_check; vm_compute; reflexivity.
  - apply dims_check; vm_compute; reflexivity.
  - apply lasting_check; vm_compute; reflexivity.
  - reflexivity.
  - lia.
  - vm_compute. discriminate.
  - left; reflexivity.
  - vm_compute. discriminate.
  - exact stays_empty.
Qed.

(* The vector of the node without centroids, by computation. *)
Lemma vacant_check (w : World f64) b ns :
  match manager w b ns with Some m => (length (cm_cs m) =? 0) && existsb (fun x => match x with S754_nan => true | _ => false end) (cm_vec m) | None => false end = true ->
  exists m, manager w b ns = Some m /\ cm_cs m = [] /\ In S754_nan (cm_vec m).
Proof.
  destruct (manager w b ns) as [m|]; intros H; [|discriminate H]. apply andb_prop in H. destruct H as (H1 & H2). exists m. split; [reflexivity|]. split.
  - destruct (cm_cs m); [reflexivity|discriminate H1].
  - apply existsb_exists in H2. destruct H2 as (x & Hin & Hx). destruct x; try discriminate Hx. exact Hin.
Qed.
Definition chosen (E : Env f64) (w : World f64) v (l : list str) : bool :=
  match exec (best_fit_fast E knn_cos [nA; nB] ns1 v) w 0 with Ok ((l', _), _) => (length l =? length l') && forallb (fun p => str_eqb (fst p) (snd p)) (combine l l') | _ => false end.
