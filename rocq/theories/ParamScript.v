(** Model of /repo/Utilities/Parameter_Generation_Scripts/seed_tree_param_computer.py. *)
From Verif Require Import Base.

(** seed_tree_param_computer.py:5-12, [worst_case_seed_tree_cost]: the size in bytes that the parameters reserve
    for the published seeds. Simplified: the script computes with floating point numbers; here [sec_param] is meant
    to be a multiple of 8, so that all values are integers, and [ceil(log2(x))] is the exact logarithm rounded up.
    The warning printed on lines 8-9 is left out. *)
Definition worst_case_seed_tree_cost (t omega sec_param : Z) : Z :=
  if t / 2 <? omega then omega * sec_param
  else (sec_param / 8) * (2 ^ Z.log2_up omega + omega * (Z.log2_up t - Z.log2_up omega - 1)).
