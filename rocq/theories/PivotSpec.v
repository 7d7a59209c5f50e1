(** The pivots that Gaussian elimination takes, said without elimination: which rows of the given matrix depend on rows
    taken before, on the columns taken before and the column in question. *)
From Verif Require Import Base Spec.

(** The row in position [r] of the order [rho] is, on the columns cols(0), ..., cols(i-1) and [c], a combination of the
    rows in the positions 0, ..., i-1. *)
Definition dependent (M : matf) (i : nat) (rho cols : nat -> nat) (r c : nat) : Prop :=
  exists x : nat -> Z, forall d, d = c \/ (exists k, (k < i)%nat /\ d = cols k) ->
    M (rho r) d == sumn i (fun k => x k * M (rho k) d).

Definition exchange (rho : nat -> nat) (i r : nat) : nat -> nat :=
  fun j => rho (if Nat.eqb j i then r else if Nat.eqb j r then i else j).
Definition extend (cols : nat -> nat) (i c : nat) : nat -> nat := fun k => if Nat.eqb k i then c else cols k.

(** [l] lists the pivots from step [i] on: in each step the leftmost column in which a row not yet taken is independent,
    and the first such row; it changes places with the row in position [i]. The list ends when all rows are taken or
    all remaining rows are dependent. *)
Inductive pivots_from (K N : nat) (M : matf) : nat -> (nat -> nat) -> (nat -> nat) -> list (nat * nat) -> Prop :=
| pivots_all rho cols : pivots_from K N M K rho cols []
| pivots_none i rho cols : (i < K)%nat ->
    (forall r c, (i <= r < K)%nat -> (c < N)%nat -> dependent M i rho cols r c) -> pivots_from K N M i rho cols []
| pivots_next i rho cols r c l : (i <= r < K)%nat -> (c < N)%nat -> ~ dependent M i rho cols r c ->
    (forall r' c', (i <= r' < K)%nat -> (c' < N)%nat -> (c' < c)%nat \/ (c' = c /\ (r' < r)%nat) -> dependent M i rho cols r' c') ->
    pivots_from K N M (S i) (exchange rho i r) (extend cols i c) l ->
    pivots_from K N M i rho cols ((r, c) :: l).

Definition pivots (K N : nat) (M : matf) (l : list (nat * nat)) : Prop := pivots_from K N M 0 (fun j => j) (fun _ => O) l.
