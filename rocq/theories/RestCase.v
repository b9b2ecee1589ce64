(* Checks by computation for the case of C103. *)
From Verif Require Import Base Num MathUtils Knn Env Centroid CManager DataSpec MgrSpec Wp TestEnv Proc Server ServerSpec TestWorld
  EventLoop CoreSpec SettleSpec ServerFacts Owns SettleCase RestSpec.
Local Open Scope nat_scope.

Definition loop_of (a : str) : el_cfg := MkEl a [nA; nB] (MkSkips 1 1 1 1 1 1 1 1 1) 1 1 1 1 9 0 3 true 99.
Definition sizes_after (cs : list el_cfg) (w : World f64) : option (list Z) :=
  match in_turn tieE cs w 0 with Ok (w', _) => Some (map (fun b => size_at w' b ns1) [nA; nB]) | _ => None end.
Lemma few_all k (w : World f64) addrs ns : (forall b ns, length (centroids_at w b ns) < k) -> length (all_groups w addrs ns) <= length addrs * k.
Proof.
  intros H. unfold all_groups. induction addrs as [|b addrs IH]; cbn [map concat length]; [lia|]. rewrite app_length. unfold groups at 1. rewrite map_length.
  specialize (H b ns). cbn [Nat.mul]. lia.
Qed.
Lemma groups_check (w : World f64) addrs ns :
  forallb (fun b => forallb (fun c => match c_dps c with [] => false | _ => true end) (centroids_at w b ns)) addrs = true ->
  Forall (fun g => g <> []) (all_groups w addrs ns).
Proof.
  rewrite forallb_forall. intros H. apply Forall_forall. intros g Hg. unfold all_groups in Hg. apply in_concat in Hg. destruct Hg as (l & Hl & Hg).
  apply in_map_iff in Hl. destruct Hl as (b & <- & Hb). unfold groups in Hg. apply in_map_iff in Hg. destruct Hg as (c & <- & Hc).
  specialize (H b Hb). rewrite forallb_forall in H. specialize (H c Hc). destruct (c_dps c); [discriminate H|discriminate].
Qed.
