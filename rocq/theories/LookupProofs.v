(* Which datapoints a lookup on a manager returns. *)
From Verif Require Import Base Num MathUtils Knn Env Centroid CManager History DataSpec MgrSpec MgrSpec2 Wp DataFacts
  CentroidProofs DistributeProofs CMProofs CMProofs2 CMProofs3 CMProofs4.
Local Open Scope nat_scope.

Section LookupProofs.
Context {N : Num} (E : Env N) (HE : EnvOk E).

Lemma lookup_loop_collects v k drain : forall idx n m res t,
  cmP cwf n m -> length res <= k -> Forall (fun i => i < length (cm_cs m)) idx ->
  wp (lookup_loop E m idx v k drain res) t (fun r _ => exists out, fst r = res ++ out /\
    Collected E v drain idx (k - length res) t (map c_dps (cm_cs m)) out (map c_dps (cm_cs (snd r)))).
Proof.
  induction idx as [|i idx IH]; intros n m res t Hm Hk Hf; cbn [lookup_loop].
  - apply wp_ret. exists []. cbn [fst snd]. rewrite app_nil_r. split; auto. constructor.
  - inversion Hf as [|? ? Hi Hf']; subst. destruct (nth_error_lt _ i Hi) as (c & Hc).
    destruct (Nat.leb_spec k (length res)) as [Hle|Hlt].
    + apply wp_ret. exists []. cbn [fst snd]. rewrite app_nil_r. split; auto.
      replace (k - length res) with 0 by lia. constructor.
    + pose proof (cs_length_P cwf _ _ _ _ Hm Hc) as HPc.
      apply wp_bind. eapply wp_index; [exact Hc|]. apply wp_bind.
      eapply wp_mono; [apply (c_knn_lookup_spec E (cwf n) (cwf_rm n) c v _ drain t HE); auto; lia|].
      intros [ds c1] t1 (HPc1 & -> & js & He & Hjn & Hjl & Hjf & Hds & Hd1). cbn [fst snd] in *.
      assert (Hdl : length ds = length js) by (subst ds; apply pick_length; auto).
      apply wp_bind. eapply wp_mono; [apply lookup_take_all; lia|].
      intros [res' c2] t2 [-> Heq]. inversion Heq; subst res' c2. clear Heq.
      eapply wp_mono; [apply (IH n (update_centroid m i c c1) (res ++ ds))|].
      * apply (update_centroid_P cwf cwf_id); auto.
      * rewrite app_length. lia.
      * cbn [update_centroid cm_cs]. rewrite list_set_length. auto.
      * cbn beta. intros [res2 m2] t2 (out & -> & Hco). cbn [fst snd update_centroid cm_cs] in *.
        exists (ds ++ out). rewrite app_assoc. split; auto. rewrite map_list_set, Hd1 in Hco. rewrite Hds.
        eapply co_next; [lia|apply map_nth_error; exact Hc|exact He|].
        rewrite app_length, Hdl in Hco. rewrite <- Nat.sub_add_distr. exact Hco.
Qed.

Theorem lookup_collects n m v k drain t : (0 <= k)%Z -> DimOk n m ->
  wp (cm_knn_lookup E m v k drain) t (fun r _ => exists idx, e_knn E v (map c_vec (cm_cs m)) k = Ok idx /\
    Collected E v drain idx (Z.to_nat k) t (map c_dps (cm_cs m)) (fst r) (map c_dps (cm_cs (snd r)))).
Proof.
  intros Hk Hm. unfold cm_knn_lookup. replace (k <? 0)%Z with false by (symmetry; apply Z.ltb_ge; auto).
  apply wp_bind. apply (wp_knn E HE); auto. intros idx He Hnd Hl Hf _.
  eapply wp_mono; [apply (lookup_loop_collects v (Z.to_nat k) drain idx n m [] t); auto; simpl; lia|].
  intros [ds m'] t' (out & Hout & Hco). cbn [fst snd app] in *. subst out. exists idx. split; auto.
  cbn [length] in Hco. rewrite Nat.sub_0_r in Hco. exact Hco.
Qed.
End LookupProofs.
