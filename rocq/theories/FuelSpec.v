(* The same configuration with another bound on the loop of a steal (the bound exists in the model only). *)
From Verif Require Import Base EventLoop.
Definition with_fuel (c : el_cfg) (f : nat) : el_cfg :=
  MkEl (el_local c) (el_remote c) (el_skip c) (el_fast_n c) (el_accurate_n c) (el_internal_n c) (el_split_min c) (el_split_max c)
    (el_merge_min c) (el_merge_max c) (el_local_only c) f.
