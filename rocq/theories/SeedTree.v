(** Seed tree: Reference_Implementation/lib/seedtree.c.
    The flat byte array seed_tree[NUM_NODES * SEED_LENGTH_BYTES] is modelled as an array of
    NUM_NODES cells, each holding the SEED_LENGTH_BYTES bytes of one node (the C code only
    accesses it in such cells). *)
From Verif Require Import Base Params Prim.

Section ST.
Variable X : prim.
Variable p : params.
Let L := num_leaves p.
Let slen := seed_len p.

(** seedtree.c:42-49 and 167-172: expand the two children of node [i] *)
Definition expand_children (tree : list (list Z)) (salt : list Z) (i : nat) : res (list (list Z)) :=
  s <- get tree i ;;
  let (bs, _) := x_squeeze X (2 * slen) (x_init X (salt ++ s)) in
  t1 <- set tree (2 * i + 1) (firstn slen bs) ;;
  set t1 (2 * i + 2) (skipn slen bs).

(** seedtree.c:25-51 *)
Definition generate_seed_tree_from_root (tree : list (list Z)) (root salt : list Z)
  : res (list (list Z)) :=
  t0 <- set tree 0 root ;;
  for_ (L - 1) 0 (fun i t => expand_children t salt i) t0.

(** seedtree.c:74-75: TO_PUBLISH = 0, NOT_TO_PUBLISH = 1; 77-99.
    The loop runs i = L-2 .. 0. *)
Definition compute_seeds_to_publish (flags indices : list Z) : res (list Z) :=
  d <- rd indices 0 (pT p) ;;
  f0 <- wr flags (L - 1) d ;;
  for_ (L - 1) 0 (fun k fl =>
    let i := (L - 2 - k)%nat in
    a <- get fl (2 * i + 1) ;;
    b <- get fl (2 * i + 2) ;;
    set fl i (b2z ((a =? 1) || (b =? 1)))) f0.

(** seedtree.c:6 PARENT(i) = (i-1)/2 on uint32_t: for i = 0 this is 0x7fffffff, outside
    every array of at most 2^31 - 1 cells. *)
Definition get_parent (flags : list Z) (i : nat) : res Z :=
  match i with O => UB | S j => get flags (j / 2) end.

(** seedtree.c:103-132; [storage] is sig->seed_storage. Returns the number of seeds and
    the new storage. The && at 122-123 short-circuits. *)
Definition seed_tree_path (tree : list (list Z)) (indices storage : list Z)
  : res (nat * list Z) :=
  flags <- compute_seeds_to_publish (repeat 0 (num_nodes p)) indices ;;
  for_ (num_nodes p) 0 (fun i s =>
    let '(num, stg) := s in
    f <- get flags i ;;
    if f =? 0 then
      (pf <- get_parent flags i ;;
       if pf =? 1 then
         (sd <- get tree i ;;
          stg' <- wr stg (num * slen) sd ;;
          Ok (S num, stg'))
       else Ok (num, stg))
    else Ok (num, stg)) (0%nat, storage).

(** seedtree.c:136-178; [stored] is the memory starting at stored_seeds *)
Definition rebuild_seed_tree_leaves (tree : list (list Z)) (indices stored salt : list Z)
  : res (nat * list (list Z)) :=
  flags <- compute_seeds_to_publish (repeat 0 (num_nodes p)) indices ;;
  for_ (num_nodes p) 0 (fun i s =>
    let '(used, t) := s in
    f <- get flags i ;;
    if f =? 0 then
      (pf <- get_parent flags i ;;
       ' (used', t') <- (if pf =? 1
          then (sd <- rd stored (slen * used) slen ;;
                t' <- set t i sd ;; Ok (S used, t'))
          else Ok (used, t)) ;;
       if (i <? L - 1)%nat
       then (t'' <- expand_children t' salt i ;; Ok (used', t''))
       else Ok (used', t'))
    else Ok (used, t)) (0%nat, tree).

End ST.
