(* Lemmas about Zones.v. *)
From Verif Require Import Base Num MathUtils Knn SearchSpec Env Centroid CManager DataSpec MgrSpec Wp DataFacts NumFacts
  KnnProofs MathSpec TestEnv Proc Owns Server ServerSpec ServerFacts ServerProofs ClusterProofs
  SeqProofs SeqProofs2 StealProofs Alone TestWorld Core EventLoop CoreSpec CoreProofs SystemProofs CoreSeq Props05Lemmas Zones.
From Verif Require Gob GobSpec.
Local Open Scope nat_scope.

Section Facts.
Context {N : Num} (E : Env N) (HE : EnvOk E) (HO : NumOrd N).
Notation DP := (DataPoint N).
Notation World := (World N).

Lemma zone_sent t z : GobSpec.zone_ok z -> Gob.marshal t z <> None.
Proof.
  intros H. unfold Gob.marshal. destruct z as [m|]; [|discriminate]. cbn in H. destruct H as (H & Hm).
  destruct (Z.ltb_spec m (-32768)); [lia|]. destruct (Z.eqb_spec m (-1)); [lia|]. destruct (Z.ltb_spec 32767 m); [lia|]. discriminate.
Qed.
Lemma put_dp_same z addrs ns d : GobSpec.zone_ok z -> put_dp_z E z addrs ns d = put_dp E addrs ns d.
Proof.
  intros H. induction addrs as [|a l IH]; cbn [put_dp_z put_dp]; [reflexivity|]. unfold c_add_z. pose proof (zone_sent (dp_expires d) z H) as S.
  destruct (Gob.marshal (dp_expires d) z); [|congruence]. rewrite IH. reflexivity.
Qed.
Lemma exec_same {R S} (p : proc' N R) (k k' : R -> proc' N S) (w : World) t : (forall x w t, exec (k x) w t = exec (k' x) w t) -> exec (pbind p k) w t = exec (pbind p k') w t.
Proof. intros H. rewrite !exec_bind. destruct (exec p w t) as [[[x w'] t']| |]; auto. Qed.
Theorem put_same z addrs body w t : GobSpec.zone_ok z -> exec (put_http_z E z addrs body) w t = exec (put_http E addrs body) w t.
Proof.
  intros H. destruct body as [o|]; [|reflexivity]. cbn [put_http_z put_http]. cbv zeta.
  assert (K : forall (p : proc' N (list str)) w t, exec (pbind p (fun l => put_dp_z E z l (po_ns o) (to_dp (po_dp o)))) w t = exec (pbind p (fun l => put_dp E l (po_ns o) (to_dp (po_dp o)))) w t)
    by (intros p w' t'; apply exec_same; intros l w1 t1; rewrite put_dp_same by exact H; reflexivity).
  rewrite !exec_bind.
  assert (E1 : exec (if po_accurate o then call l <- best_fit_accurate E knn_cos addrs (po_ns o) (dp_vec (to_dp (po_dp o))); put_dp_z E z l (po_ns o) (to_dp (po_dp o))
      else call l <- best_fit_fast E knn_cos addrs (po_ns o) (dp_vec (to_dp (po_dp o))); put_dp_z E z l (po_ns o) (to_dp (po_dp o))) w t =
    exec (if po_accurate o then put_accurate E knn_cos addrs (po_ns o) (to_dp (po_dp o)) else put_fast E knn_cos addrs (po_ns o) (to_dp (po_dp o))) w t).
  { destruct (po_accurate o); apply K. }
  match goal with |- match ?a with _ => _ end = match ?b with _ => _ end => replace a with b by (symmetry; exact E1); destruct b as [[[ok w1] t1]| |]; auto end. cbv beta. rewrite !exec_bind. destruct ok; [reflexivity|].
  change (exec (put_rand E addrs (po_ns o) (to_dp (po_dp o))) w1 t1) with (exec (pbind (local (shuffle E addrs)) (fun l => put_dp E l (po_ns o) (to_dp (po_dp o)))) w1 t1).
  rewrite <- K. reflexivity.
Qed.
Lemma put_nowhere addrs ns d : put_dp_z E (Some (-1)%Z) addrs ns d = Ret false.
Proof. induction addrs as [|a l IH]; cbn [put_dp_z]; [reflexivity|]. unfold c_add_z. change (Gob.marshal (dp_expires d) (Some (-1)%Z)) with (@None str). cbn [pbind]. exact IH. Qed.
Theorem put_west addrs (o : put_opts N) (w : World) t : WorldOk w -> wp (exec (put_http_z E (Some (-1)%Z) addrs (Some o)) w) t (fun r _ => r = (Http 500 None, w)).
Proof.
  intros Hw. cbn [put_http_z]. cbv zeta. apply wp_exec_bind.
  assert (H : wp (exec (if po_accurate o then call l <- best_fit_accurate E knn_cos addrs (po_ns o) (dp_vec (to_dp (po_dp o))); put_dp_z E (Some (-1)%Z) l (po_ns o) (to_dp (po_dp o))
      else call l <- best_fit_fast E knn_cos addrs (po_ns o) (dp_vec (to_dp (po_dp o))); put_dp_z E (Some (-1)%Z) l (po_ns o) (to_dp (po_dp o))) w) t (fun r _ => r = (false, w))).
  { destruct (po_accurate o); apply wp_exec_bind.
    - eapply wp_mono; [apply (best_fit_accurate_spec E HE HO); auto|]. intros [l w'] t' (_ & Hw' & _). cbn [fst snd] in *. subst w'. rewrite put_nowhere. apply wp_exec_ret. reflexivity.
    - eapply wp_mono; [apply (best_fit_fast_spec E HE HO); auto|]. intros [l w'] t' (_ & Hw' & _). cbn [fst snd] in *. subst w'. rewrite put_nowhere. apply wp_exec_ret. reflexivity. }
  eapply wp_mono; [exact H|]. intros r t' ->. cbn [fst snd]. apply wp_exec_bind. apply wp_exec_bind, wp_exec_local. eapply wp_mono; [apply shuffle_spec|]. intros l t2 _. cbn [fst snd].
  rewrite put_nowhere. apply wp_exec_ret. cbn [fst snd]. apply wp_exec_ret. reflexivity.
Qed.
End Facts.
