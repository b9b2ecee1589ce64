(* Property C115: a put goes to the closest node. *)
From Verif Require Import Base Num MathUtils Knn SearchSpec Env Centroid CManager DataSpec MgrSpec Wp NumFacts
  MathSpec TestEnv Proc Owns Server ServerSpec ServerFacts TestWorld Core CoreSpec Settle Closest.
Local Open Scope nat_scope.

(* With "accurate" off the closest node is the one whose vector is most similar to that of the
   datapoint; with it on, the one that has the most similar centroid of all nodes. *)
Theorem C115_closest : forall (N : Num) (E : Env N), EnvOk E -> NumOrd N -> forall D addrs (o : put_opts N) w t,
  all_delivered E -> WorldOk w -> DimsOk D w -> D (po_ns o) (length (wi_vec (po_dp o))) ->
  e_knn E = knn_cos -> wi_vec (po_dp o) <> [] ->
  let vecs := (if po_accurate o then centroid_vec w (po_ns o) else node_vec w (po_ns o)) in
  (exists a u s, In a addrs /\ vecs a u /\ similar (wi_vec (po_dp o)) u s) ->
  wp (exec (put_http E addrs (Some o)) w) t (fun r t' => fst r = Http 200 None /\
    exists a t1, In a addrs /\ closest vecs addrs (wi_vec (po_dp o)) a /\
      exec (serve E a (QAdd (po_ns o) (to_dp (po_dp o)))) w t1 = Ok ((ABool true, snd r), t')).
Proof. exact @put_closest. Qed.
Print Assumptions C115_closest.

(* An accurate put lands in a centroid whose vector was as close as that of any centroid at any node. *)
Theorem C115_centroid : forall (N : Num) (E : Env N), EnvOk E -> NumOrd N -> forall D addrs (o : put_opts N) w t,
  all_delivered E -> WorldOk w -> DimsOk D w -> D (po_ns o) (length (wi_vec (po_dp o))) ->
  e_knn E = knn_cos -> wi_vec (po_dp o) <> [] -> po_accurate o = true ->
  (exists a u s, In a addrs /\ centroid_vec w (po_ns o) a u /\ similar (wi_vec (po_dp o)) u s) ->
  (forall a, In a addrs -> never_expired E (data_at w a (po_ns o) ++ [to_dp (po_dp o)])) ->
  wp (exec (put_http E addrs (Some o)) w) t (fun r t' => fst r = Http 200 None /\
    exists a i c s, In a addrs /\ similar (wi_vec (po_dp o)) (c_vec c) s /\
      (forall b u' s', In b addrs -> centroid_vec w (po_ns o) b u' -> cosine_similarity (wi_vec (po_dp o)) u' = Some s' -> fltb s s' = false) /\
      lands w (snd r) (po_ns o) a i c (to_dp (po_dp o))).
Proof. exact @put_lands. Qed.
Print Assumptions C115_centroid.

(* A query asks such a node first, and no other if that one has enough. *)
Theorem C115_query : forall (N : Num) (E : Env N), EnvOk E -> NumOrd N -> forall D addrs (o : query_opts N) w t,
  all_delivered E -> WorldOk w -> DimsOk D w -> (0 <= qo_n o)%Z ->
  (forall a, Forall carries (data_at w a (qo_ns o))) -> e_knn E = knn_cos -> qo_vec o <> [] ->
  let vecs := (if qo_accurate o then centroid_vec w (qo_ns o) else node_vec w (qo_ns o)) in
  (exists a u s, In a addrs /\ vecs a u /\ similar (qo_vec o) u s) ->
  wp (exec (query_http E addrs (Some o)) w) t (fun r t' =>
    exists a t1 t2 w2 x rest, In a addrs /\ closest vecs addrs (qo_vec o) a /\
      exec (serve E a (QKnnLookup (qo_ns o) (qo_vec o) (qo_n o) (qo_drain o))) w t1 = Ok ((x, w2), t2) /\
      fst (fst r) = Http 200 (Some (of_dps (found_in x ++ rest))) /\
      ((qo_n o <= Z.of_nat (length (found_in x)))%Z -> rest = [] /\ snd r = w2)).
Proof. exact @query_closest. Qed.
Print Assumptions C115_query.

(* The same datapoint goes to either node: B's vector is closer than A's, but A has the closest centroid. *)
Definition put10 (accurate : bool) : put_opts f64 := MkPut ns1 accurate (of_dp (dp [1;0]%Z)).
Definition two_dims (ns : str) : nat := 2.
Example C115_case : EnvOk cosE /\ NumOrd f64 /\ all_delivered cosE /\ WorldOk w_even /\ DimsOk (dims_are two_dims) w_even /\
  e_knn cosE = knn_cos /\
  (exists s, node_vec w_even ns1 nB (fv [2;1]%Z) /\ similar (fv [1;0]%Z) (fv [2;1]%Z) s) /\
  (exists s, centroid_vec w_even ns1 nA (fv [1;0]%Z) /\ similar (fv [1;0]%Z) (fv [1;0]%Z) s) /\
  wp (exec (put_http cosE [nA; nB] (Some (put10 false))) w_even) 0 (fun r _ =>
    map (fun a => length (data_at (snd r) a ns1)) [nA; nB] = [4; 3]) /\
  wp (exec (put_http cosE [nA; nB] (Some (put10 true))) w_even) 0 (fun r _ =>
    map (fun a => length (data_at (snd r) a ns1)) [nA; nB] = [5; 2]).
Proof.
  split; [apply cosE_ok|]. split; [apply f64_ord|]. split; [intros k; reflexivity|]. split; [apply world_check; vm_compute; reflexivity|].
  split; [apply dims_check; vm_compute; reflexivity|]. split; [reflexivity|]. split; [|split; [|vm_compute; auto]].
  - eexists. split; [eexists; split; reflexivity|]. split; vm_compute; reflexivity.
  - eexists. split; [|split; vm_compute; reflexivity]. do 2 eexists. split; [reflexivity|]. split; [right; left; reflexivity|reflexivity].
Qed.

Example C115_centroid_case : never_expired cosE (data_at w_even nA ns1 ++ data_at w_even nB ns1 ++ [dp [1;0]%Z]) /\
  wp (exec (put_http cosE [nA; nB] (Some (put10 true))) w_even) 0 (fun r _ =>
    map (fun c => length (c_dps c)) (centroids_at w_even nA ns1) = [2; 2] /\
    map (fun c => length (c_dps c)) (centroids_at (snd r) nA ns1) = [2; 3]).
Proof.
  split; [|vm_compute; auto]. intros k d Hd. cbn in Hd. repeat destruct Hd as [<-|Hd]; try reflexivity. destruct Hd.
Qed.

Definition query10 (accurate : bool) : query_opts f64 := MkQuery ns1 accurate (fv [1;0]%Z) 2 true.
Example C115_query_case :
  forallb (fun a => forallb (fun d => encodable (of_dp d)) (data_at w_even a ns1)) [nA; nB] = true /\
  wp (exec (query_http cosE [nA; nB] (Some (query10 false))) w_even) 0 (fun r _ =>
    map (fun a => length (data_at (snd r) a ns1)) [nA; nB] = [4; 0]) /\
  wp (exec (query_http cosE [nA; nB] (Some (query10 true))) w_even) 0 (fun r _ =>
    map (fun a => length (data_at (snd r) a ns1)) [nA; nB] = [2; 2]).
Proof. vm_compute. auto. Qed.
