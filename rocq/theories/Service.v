(* Model of cfg/cfg.go and cmd/service/service.go: the configuration that is shipped, and
   clusters of services that run it. *)
From Verif Require Import Base Num MathUtils Knn Env Centroid CManager Proc Server ServerSpec Core EventLoop CoreSpec.

(* cfg/cfg.go:62-174 ELT, for any local address and any list of addresses (lines 25-30, the
   list should include the local one); [fuel] bounds the loop of each steal in the model. *)
Definition shipped (local : str) (remote : list str) (fuel : nat) : el_cfg :=
  MkEl local remote (MkSkips 20 10 4 8 3 3 3 7 1) 100 50 200 1000 1000000 (-1) 100 true fuel.

(* cfg/cfg.go:46, 49 and 187, cmd/service/service.go:15-27: the searches and the threshold of
   the managers. *)
Definition shipped_env (now : nat -> Z) (perm : nat -> nat -> list nat) (fates : nat -> fate) (rnd : nat -> nat) : Env f64 :=
  MkEnv f64 now perm fates rnd knn_cos kfn_cos.
Definition shipped_threshold : Z := 10000.

(* cmd/service/service.go:29-53: services at all of the addresses, each a node without
   namespaces, an event loop, and an HTTP interface that uses all nodes. *)
Definition service_start (addrs : list str) : World f64 := fresh (map (fun a => (a, shipped_threshold)) addrs).
Definition service_loops (addrs : list str) (fuel n : nat) (stop : str -> nat -> bool) : list (job f64) :=
  map (fun a => JLoop (shipped a addrs fuel) (stop a) n) addrs.
Inductive http_call := HPut (body : option (put_opts f64)) | HQuery (body : option (query_opts f64)).
Definition service_http (addrs : list str) (h : http_call) : job f64 :=
  match h with HPut b => JPut addrs b | HQuery b => JQuery addrs b end.
