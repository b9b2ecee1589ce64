(* Emptying the table of a node while requests are in progress. *)
From Verif Require Import Base Num MathUtils Env Centroid CManager Proc Server Core EventLoop CoreSpec.

Section Reset.
Context {N : Num}.

(* pkg/kmeans/rpc/rpc.go:126-132, CManagerTable.Reset: under the lock of the table a new, empty
   map takes the place of the old one.  The slots themselves are not changed: goroutines that
   have looked one up before keep their pointer to it, so the heap of the node stays.  Only
   core/testutils/network.go:158 calls it; to the other nodes it looks like a process that ends and
   is started again at the same address.  For that the model is an over-approximation:
   what was running on the node and is never scheduled again has died with it, calls that were in
   progress have lost their answer ([RespLost]), and calls while it is away [ReqLost]. *)
Definition forget (w : World N) (a : str) : World N :=
  match assoc a (w_nodes w) with
  | None => w
  | Some nd => set_node w a (MkNode (nd_heap nd) [] (nd_thresh nd))
  end.
Definition h_reset (a : str) : proc' N unit := Act (Some (LTable a)) (fun w => ret (tt, forget w a)) Ret.
Definition run_reset (a : str) : proc' N (done N) := call _ <- h_reset a; Ret DIdle.

(* Jobs, and nodes that are emptied, each at some time. *)
Definition with_resets (E : Env N) (js : list (job N)) (rs : list str) : list (proc' N (done N)) :=
  map (run_job E) js ++ map run_reset rs.
End Reset.
