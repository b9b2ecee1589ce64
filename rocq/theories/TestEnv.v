(* Concrete environments for examples and counterexamples. *)
From Verif Require Import Base Num MathUtils Knn Env Centroid CManager NumFacts KnnProofs MathSpec.
From Coq Require Import QArith Qcanon SpecFloat.
From Coq.Init Require Import Byte.
From Coq.Strings Require Import Byte.
Local Open Scope nat_scope.

(* Natural map order, the given clock, network fates and search functions. *)
Definition plain_env {N : Num} (now : nat -> Z) (net : nat -> fate) (knn kfn : search N) : Env N :=
  MkEnv N now (fun _ n => seq 0 n) net (fun _ => 0) knn kfn.

Lemma plain_ok {N : Num} now net (knn kfn : search N) :
  SearchOk knn -> SearchOk kfn -> EnvOk (plain_env now net knn kfn).
Proof. intros H1 H2. split; [|auto]. intros k n. apply Permutation_refl. Qed.

(* IEEE arithmetic, cosine searches, a clock that stands still, a perfect network: the
   configuration of cmd/service. *)
Definition cosE : Env f64 := plain_env (fun _ => 0%Z) (fun _ => Delivered) knn_cos kfn_cos.
Lemma cosE_ok : EnvOk cosE.
Proof. apply plain_ok; [apply (knn_cos_ok f64_ord)|apply (kfn_cos_ok f64_ord)]. Qed.

(* IEEE arithmetic, distance searches. *)
Definition eucE : Env f64 := plain_env (fun _ => 0%Z) (fun _ => Delivered) knn_euc kfn_euc.
Lemma eucE_ok : EnvOk eucE.
Proof. apply plain_ok; [apply (knn_euc_ok f64_ord)|apply (kfn_euc_ok f64_ord)]. Qed.

(* As eucE, with a clock that shows the tick number. *)
Definition clockE : Env f64 := plain_env Z.of_nat (fun _ => Delivered) knn_euc kfn_euc.
Lemma clockE_ok : EnvOk clockE.
Proof. apply plain_ok; [apply (knn_euc_ok f64_ord)|apply (kfn_euc_ok f64_ord)]. Qed.

(* Exact rationals, distance searches. *)
Definition ratE : Env qc := plain_env (fun _ => 0%Z) (fun _ => Delivered) knn_euc kfn_euc.
Lemma ratE_ok : EnvOk ratE.
Proof. apply plain_ok; [apply (knn_euc_ok qc_ord)|apply (kfn_euc_ok qc_ord)]. Qed.

(* Datapoints without / with expiry. *)
Definition dp (l : list Z) : DataPoint f64 := MkDP (fv l) [] 0%Z false.
Definition dpx (l : list Z) (e : Z) : DataPoint f64 := MkDP (fv l) [] e true.
Definition qv (l : list Z) : vec qc := map (fun z => Q2Qc (inject_Z z)) l.
Definition dq (l : list Z) : DataPoint qc := MkDP (qv l) [] 0%Z false.

(* Rational vectors are equal when their reduced fractions are. *)
Lemma qv_ext (a b : vec qc) : map this a = map this b -> a = b.
Proof.
  revert b; induction a as [|x a IH]; intros [|y b] H; try discriminate; auto.
  cbn [map] in H. injection H as H1 H2. f_equal; auto. apply Qc_is_canon. rewrite H1. reflexivity.
Qed.

(* The contents of datapoints and centroids, for comparison by computation. *)
Definition shows (l : list (DataPoint f64)) := map (fun d => (dp_vec d, dp_expires d, dp_expire_enabled d)) l.
Definition showc (c : Centroid f64) := (c_vec c, shows (c_dps c)).

(* Equality of datapoints, decided. *)
Definition sf_same (a b : spec_float) : bool :=
  match a, b with
  | S754_zero s, S754_zero s' => Bool.eqb s s'
  | S754_infinity s, S754_infinity s' => Bool.eqb s s'
  | S754_nan, S754_nan => true
  | S754_finite s m e, S754_finite s' m' e' => Bool.eqb s s' && Pos.eqb m m' && Z.eqb e e'
  | _, _ => false
  end.
Lemma sf_same_eq a b : sf_same a b = true -> a = b.
Proof.
  destruct a, b; cbn [sf_same]; intros H; try discriminate; auto; rewrite ?andb_true_iff in H.
  - apply Bool.eqb_prop in H. congruence.
  - apply Bool.eqb_prop in H. congruence.
  - destruct H as ((H1 & H2) & H3). apply Bool.eqb_prop in H1. apply Pos.eqb_eq in H2. apply Z.eqb_eq in H3. congruence.
Qed.
Fixpoint list_same {A : Type} (f : A -> A -> bool) (a b : list A) : bool :=
  match a, b with
  | [], [] => true
  | x :: a', y :: b' => f x y && list_same f a' b'
  | _, _ => false
  end.
Lemma list_same_eq {A} (f : A -> A -> bool) : (forall a b, f a b = true -> a = b) ->
  forall a b, list_same f a b = true -> a = b.
Proof.
  intros Hf. induction a as [|x a IH]; intros [|y b] H; cbn [list_same] in H; try discriminate; auto.
  apply andb_prop in H. destruct H as (H1 & H2). f_equal; auto.
Qed.
Definition dp_same (a b : DataPoint f64) : bool :=
  list_same sf_same (dp_vec a) (dp_vec b) && list_same Byte.eqb (dp_payload a) (dp_payload b) &&
  Z.eqb (dp_expires a) (dp_expires b) && Bool.eqb (dp_expire_enabled a) (dp_expire_enabled b).
Lemma dp_same_eq a b : dp_same a b = true -> a = b.
Proof.
  unfold dp_same. rewrite !andb_true_iff. intros (((H1 & H2) & H3) & H4). destruct a as [v1 p1 e1 b1], b as [v2 p2 e2 b2]; cbn [dp_vec dp_payload dp_expires dp_expire_enabled] in *.
  apply Bool.eqb_prop in H4. apply Z.eqb_eq in H3. apply (list_same_eq sf_same sf_same_eq) in H1.
  assert (H5 : p1 = p2).
  { apply (list_same_eq Byte.eqb); auto. intros x y H. apply Byte.byte_dec_bl in H. auto. }
  congruence.
Qed.
Definition has_dp (d : DataPoint f64) (l : list (DataPoint f64)) : bool := existsb (dp_same d) l.
Lemma has_dp_in d l : has_dp d l = true -> In d l.
Proof. unfold has_dp. rewrite existsb_exists. intros (x & Hx & H). apply dp_same_eq in H. subst; auto. Qed.

(* A brute-force search for which all vectors of one dimension are equally near, so that it
   always finds something. *)
Definition tie {N : Num} (a b : vec N) : option (F N) := if length a =? length b then Some f0 else None.
Definition tieE : Env f64 := plain_env (fun _ => 0%Z) (fun _ => Delivered) (knn_brute tie true) (knn_brute tie true).
Lemma tie_some {N : Num} (a b : vec N) s : tie a b = Some s -> length a = length b.
Proof. unfold tie. destruct (Nat.eqb_spec (length a) (length b)); auto; discriminate. Qed.
Lemma tieE_ok : EnvOk tieE.
Proof. apply plain_ok; apply (knn_brute_ok f64_ord), tie_some. Qed.
