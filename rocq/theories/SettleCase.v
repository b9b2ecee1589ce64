(* Two nodes whose load balancing hands one large centroid to and fro. *)
From Verif Require Import Base Num MathUtils Knn Env Centroid CManager DataSpec MgrSpec Wp TestEnv Proc Server ServerSpec TestWorld
  EventLoop CoreSpec SettleSpec ServerFacts Owns.
From Coq Require Import SpecFloat.
Local Open Scope nat_scope.

Definition loop_at (a : str) : el_cfg := MkEl a [nA; nB] (MkSkips 1 1 1 1 1 1 1 1 1) 1 1 1 1 9 0 3 true 5.
(* One datapoint at A, one at B, and twelve in one centroid at B, which lies between them. *)
Definition seesaw : World f64 :=
  after cosE
  (repeat (nA, QAdd ns1 (dp [1;1]%Z)) 12 ++ [(nB, QAdd ns1 (dp [0;1]%Z)); (nB, QSteal 5 nA ns1 12); (nA, QAdd ns1 (dp [1;0]%Z))])
  (fresh [(nA, 20%Z); (nB, 20%Z)]).
Definition go (a : str) (w : World f64) : World f64 :=
  match exec (task_body cosE (loop_at a) TBalance) w 0 with Ok ((_, w'), _) => w' | _ => w end.
Definition seesaw1 : World f64 :=
  go nA seesaw.


(* Equality of worlds is decided by computation. *)
Definition same_float (x y : spec_float) : {x = y} + {x <> y}.
Proof. repeat decide equality. Defined.
Definition same_point (x y : DataPoint f64) : {x = y} + {x <> y}.
Proof. decide equality; [apply Bool.bool_dec|apply Z.eq_dec|apply list_eq_dec, Byte.byte_eq_dec|apply (list_eq_dec same_float)]. Defined.
Definition same_centroid (x y : Centroid f64) : {x = y} + {x <> y}.
Proof. decide equality; [apply list_eq_dec, same_point|apply (list_eq_dec same_float)]. Defined.
Definition same_manager (x y : CM f64) : {x = y} + {x <> y}.
Proof. decide equality; [apply Z.eq_dec|apply list_eq_dec, same_centroid|apply (list_eq_dec same_float)]. Defined.
Definition same_name (x y : str) : {x = y} + {x <> y} := list_eq_dec Byte.byte_eq_dec x y.
Definition same_node (x y : Node f64) : {x = y} + {x <> y}.
Proof.
  decide equality; [apply Z.eq_dec|apply list_eq_dec; decide equality; [apply Nat.eq_dec|apply same_name]|
    apply list_eq_dec; decide equality; [apply same_manager|apply same_name]].
Defined.
Definition same_world (x y : World f64) : {x = y} + {x <> y}.
Proof.
  decide equality; [apply list_eq_dec; decide equality; [apply same_point|apply same_name]|
    apply list_eq_dec; decide equality; [apply same_node|apply same_name]].
Defined.
Definition leads (o : outcome ((unit * World f64) * nat)) (w : World f64) : bool :=
  match o with Ok ((_, w'), _) => if same_world w' w then true else false | _ => false end.
Lemma leads_check o w : leads o w = true -> exists t, o = Ok ((tt, w), t).
Proof.
  unfold leads. destruct o as [[[u w'] t]| |]; intros H; [|discriminate H|discriminate H]. destruct u. destruct (same_world w' w) as [->|]; [|discriminate H].
  exists t. reflexivity.
Qed.

Lemma there t : exists t', exec (task_body cosE (loop_at nA) TBalance) seesaw t = Ok ((tt, seesaw1), t').
Proof. apply leads_check. vm_compute. reflexivity. Qed.
Lemma back t : exists t', exec (task_body cosE (loop_at nB) TBalance) seesaw1 t = Ok ((tt, seesaw), t').
Proof. apply leads_check. vm_compute. reflexivity. Qed.

(* Some loops run their load balancing, one after the other. *)
Fixpoint in_turn (E : Env f64) (cs : list el_cfg) (w : World f64) : M (World f64) :=
  match cs with
  | [] => ret w
  | c :: r => bind (exec (task_body E c TBalance) w) (fun x => in_turn E r (snd x))
  end.

Lemma rounds (n : nat) : forall t, exists t1, in_turn cosE (concat (repeat [loop_at nA; loop_at nB] n)) seesaw t = Ok (seesaw, t1).
Proof.
  induction n as [|n IH]; intros t; [exists t; reflexivity|]. cbn [repeat concat app in_turn]. unfold bind at 1.
  destruct (there t) as (t1 & ->). cbn [fst snd]. unfold bind at 1. destruct (back t1) as (t2 & ->). cbn [fst snd]. apply IH.
Qed.

(* A world without datapoints that expire. *)
Definition lasting (w : World f64) : bool :=
  forallb (fun e => forallb (fun s => forallb (fun c => forallb (fun d => negb (dp_expire_enabled d)) (c_dps c)) (cm_cs (snd s))) (nd_heap (snd e))) (w_nodes w).
Lemma lasting_check E (w : World f64) : lasting w = true -> forall b ns, never_expired E (data_at w b ns).
Proof.
  unfold lasting. rewrite forallb_forall. intros H b ns k d Hd. unfold data_at, centroids_at, manager, node_at in Hd.
  destruct (assoc b (w_nodes w)) as [nd|] eqn:Hn; [|destruct Hd]. apply assoc_in in Hn. specialize (H _ Hn). cbn [snd] in H. rewrite forallb_forall in H.
  destruct (assoc ns (nd_tbl nd)) as [p|]; [|destruct Hd]. destruct (nth_error (nd_heap nd) p) as [s|] eqn:Hp; cbn [option_map] in Hd; [|destruct Hd].
  apply nth_error_In in Hp. specialize (H _ Hp). rewrite forallb_forall in H. unfold stored in Hd. apply in_concat in Hd.
  destruct Hd as (l & Hl & Hd). apply in_map_iff in Hl. destruct Hl as (c & <- & Hc). specialize (H _ Hc). rewrite forallb_forall in H.
  specialize (H _ Hd). unfold expired_at. destruct (dp_expire_enabled d); [discriminate H|reflexivity].
Qed.
Definition few (k : nat) (w : World f64) : bool :=
  forallb (fun e => forallb (fun s => length (cm_cs (snd s)) <? k) (nd_heap (snd e))) (w_nodes w).
Lemma few_check k (w : World f64) : 0 < k -> few k w = true -> forall b ns, length (centroids_at w b ns) < k.
Proof.
  unfold few. rewrite forallb_forall. intros H0 H b ns. unfold centroids_at, manager, node_at.
  destruct (assoc b (w_nodes w)) as [nd|] eqn:Hn; [|exact H0]. apply assoc_in in Hn. specialize (H _ Hn). cbn [snd] in H. rewrite forallb_forall in H.
  destruct (assoc ns (nd_tbl nd)) as [p|]; [|exact H0]. destruct (nth_error (nd_heap nd) p) as [s|] eqn:Hp; cbn [option_map]; [|exact H0].
  apply nth_error_In in Hp. specialize (H _ Hp). apply Nat.ltb_lt in H. exact H.
Qed.

Lemma up_to_check (w : World f64) addrs ns s :
  forallb (fun b => forallb (fun cen => (Z.of_nat (length (c_dps cen)) <=? s)%Z) (centroids_at w b ns)) addrs = true -> centroids_up_to w addrs ns s.
Proof.
  rewrite forallb_forall. intros H b cen Hb Hc. specialize (H b Hb). rewrite forallb_forall in H. apply Z.leb_le. exact (H cen Hc).
Qed.

Lemma manager_check (w : World f64) b ns : match manager w b ns with Some _ => true | None => false end = true -> manager w b ns <> None.
Proof. destruct (manager w b ns); intros H; [intros He; discriminate He|discriminate H]. Qed.
Lemma sees_check (E : Env f64) v cs : match e_knn E v (map c_vec cs) 1%Z with Ok (_ :: _) => true | _ => false end = true -> sees E v cs.
Proof. unfold sees. destruct (e_knn E v (map c_vec cs) 1%Z) as [[|i idx]| |]; intros H; try discriminate H. exists i, idx. reflexivity. Qed.
Definition offering (E : Env f64) (w : World f64) (a b ns : str) : bool :=
  match manager w b ns with
  | None => true
  | Some mr => forallb (fun c => negb (length (c_dps c) =? 0)) (cm_cs mr) &&
      match e_knn E (match manager w a ns with Some m => cm_vec m | None => cm_vec mr end) (map c_vec (cm_cs mr)) 1%Z with Ok (_ :: _) => true | _ => false end
  end.
Lemma offers_check (E : Env f64) w a b ns : offering E w a b ns = true -> offers E w a b ns.
Proof.
  unfold offering, offers. intros H mr Hmr. rewrite Hmr in H. apply andb_prop in H. destruct H as (H1 & H2). split; [|apply sees_check; exact H2].
  apply Forall_forall. intros c Hc He. rewrite forallb_forall in H1. specialize (H1 c Hc). rewrite He in H1. discriminate H1.
Qed.

Lemma seesaw_refuted : exists (E : Env f64) a b w ns, EnvOk E /\ all_delivered E /\ WorldOk w /\ DimsOk (fun _ n => n = 2) w /\
  (forall x ns, never_expired E (data_at w x ns)) /\
  forall n, exists w1 t1 w2 t2, in_turn E (concat (repeat [a; b] n)) w 0 = Ok (w1, t1) /\
    exec (task_body E a TBalance) w1 t1 = Ok ((tt, w2), t2) /\ size_at w1 (el_local a) ns = 1%Z /\ size_at w2 (el_local a) ns = 13%Z /\
    mean_size w1 (el_remote a) ns = 7%Z.
Proof.
  exists cosE, (loop_at nA), (loop_at nB), seesaw, ns1. splits.
  - exact cosE_ok.
  - intros k; reflexivity.
  - apply world_check; vm_compute; reflexivity.
  - apply dims_check; vm_compute; reflexivity.
  - apply lasting_check; vm_compute; reflexivity.
  - intros n. destruct (rounds n 0) as (t1 & H). destruct (there t1) as (t2 & H2). exists seesaw, t1, seesaw1, t2. splits; [exact H|exact H2| | |]; vm_compute; reflexivity.
Qed.
