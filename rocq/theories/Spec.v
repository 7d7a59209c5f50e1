(** Mathematical specifications, independent of the model of the code.
    Matrices are functions [nat -> nat -> Z] (row, column) over Z modulo 127. *)
From Coq Require Import Permutation Sorted.
From Verif Require Import Base.

(** Congruence modulo 127. *)
Definition cong (a b : Z) : Prop := exists k, a = b + k * 127.
Infix "==" := cong (at level 70, no associativity).

(** Reduced representatives. *)
Definition fq (a : Z) : Prop := 0 <= a < 127.

(** f 0 + ... + f (n-1) *)
Fixpoint sumn (n : nat) (f : nat -> Z) : Z :=
  match n with O => 0 | S n' => sumn n' f + f n' end.

(** [g] is a bijection of [0,n). *)
Definition bij (n : nat) (g : nat -> nat) : Prop :=
  (forall i, (i < n)%nat -> (g i < n)%nat) /\
  (forall i j, (i < n)%nat -> (j < n)%nat -> g i = g j -> i = j).

Definition matf := nat -> nat -> Z.

(** The word [v] (N coordinates) belongs to the code generated by the K rows of [M]. *)
Definition in_code (K N : nat) (M : matf) (v : nat -> Z) : Prop :=
  exists a : nat -> Z, forall j, (j < N)%nat -> v j == sumn K (fun i => a i * M i j).

(** Two matrices generate the same code. *)
Definition same_code (K N : nat) (M M' : matf) : Prop :=
  forall v, in_code K N M v <-> in_code K N M' v.

(** The K rows of [M] are linearly independent. *)
Definition full_rank (K N : nat) (M : matf) : Prop :=
  forall a : nat -> Z,
    (forall j, (j < N)%nat -> sumn K (fun i => a i * M i j) == 0) ->
    forall i, (i < K)%nat -> a i == 0.

(** All entries are reduced. *)
Definition reduced (K N : nat) (M : matf) : Prop :=
  forall i j, (i < K)%nat -> (j < N)%nat -> fq (M i j).

(** Reduced row-echelon form with K pivots, in columns [piv 0 < piv 1 < ...]. *)
Definition is_rref (K N : nat) (M : matf) (piv : nat -> nat) : Prop :=
  (forall i, (i < K)%nat -> (piv i < N)%nat) /\
  (forall i j, (i < j)%nat -> (j < K)%nat -> (piv i < piv j)%nat) /\
  (forall i j, (i < K)%nat -> (j < K)%nat -> M i (piv j) = if Nat.eqb i j then 1 else 0) /\
  (forall i c, (i < K)%nat -> (c < piv i)%nat -> M i c = 0).

(** [flags] marks exactly the pivot columns. *)
Definition flags_of (K N : nat) (piv : nat -> nat) (flags : list Z) : Prop :=
  length flags = N /\
  forall c, (c < N)%nat ->
    ((exists i, (i < K)%nat /\ piv i = c) -> nth c flags 0 = 1) /\
    ((forall i, (i < K)%nat -> piv i <> c) -> nth c flags 0 = 0).

(** [M'] is obtained from [M] by permuting columns and scaling each by a non-zero factor:
    column [a] of [M'] is [e a] times column [g a] of [M]. *)
Definition col_monomial (K N : nat) (M M' : matf) (g : nat -> nat) (e : nat -> Z) : Prop :=
  bij N g /\ (forall a, (a < N)%nat -> ~ e a == 0) /\
  (forall i a, (i < K)%nat -> (a < N)%nat -> M' i a == e a * M i (g a)).

(** *** Columns and their lexicographic order *)

(** Column [c] of a matrix with [K] rows. *)
Definition column (K : nat) (M : matf) (c : nat) : list Z := map (fun i => M i c) (seq 0 K).

(** Columns 0 .. w-1. *)
Definition columns (K w : nat) (M : matf) : list (list Z) := map (column K M) (seq 0 w).

(** Lexicographic order, first row first. *)
Fixpoint lex_le (a b : list Z) : Prop :=
  match a, b with
  | [], _ => True
  | _ :: _, [] => False
  | x :: a', y :: b' => x < y \/ (x = y /\ lex_le a' b')
  end.

(** [b] is a non-zero multiple of [a], modulo 127. *)
Definition proportional (a b : list Z) : Prop :=
  length a = length b /\
  exists e, ~ e == 0 /\ forall i, (i < length a)%nat -> nth i b 0 == e * nth i a 0.

(** [b] is the lexicographically least reduced non-zero multiple of [a]. *)
Definition least_multiple (a b : list Z) : Prop :=
  proportional a b /\ Forall fq b /\
  forall c, proportional a c -> Forall fq c -> lex_le b c.

(** [l] lists every one of 0 .. n-1 exactly once. *)
Definition perm_list (n : nat) (l : list Z) : Prop :=
  Permutation l (map Z.of_nat (seq 0 n)).

(** Non-zero field element. *)
Definition fq_unit (a : Z) : Prop := 1 <= a < 127.

(** Number of non-zero entries. *)
Definition weight (l : list Z) : nat := length (filter (fun x => negb (x =? 0)) l).

(** Complete binary tree numbered in heap order: node [j] is [i] or below it. *)
Inductive below (i : nat) : nat -> Prop :=
| below_refl : below i i
| below_left j : below i j -> below i (2 * j + 1)
| below_right j : below i j -> below i (2 * j + 2).

(** *** Canonical forms of codes *)

(** Columns without a pivot, in increasing order. *)
Definition nonpivots (K N : nat) (piv : nat -> nat) : list nat :=
  filter (fun c => negb (existsb (fun i => Nat.eqb (piv i) c) (seq 0 K))) (seq 0 N).

(** [V] (K rows, N-K columns) is the normal form of the code generated by [M]: take the reduced
    row-echelon form, drop the pivot columns, replace every other column by its least multiple
    and sort the columns. *)
Definition normal_form (K N : nat) (M : matf) (V : list (list Z)) : Prop :=
  exists R piv cs,
    same_code K N M R /\ reduced K N R /\ is_rref K N R piv /\
    Forall2 least_multiple (map (column K R) (nonpivots K N piv)) cs /\
    shape K (N - K) V /\
    Permutation cs (columns K (N - K) (ent V)) /\
    StronglySorted lex_le (columns K (N - K) (ent V)).

(** [M] is the matrix [G] multiplied by the monomial matrix (perm, coef): column [s] of [G], times
    [coef s], becomes column [perm s]. *)
Definition times_monomial (K N : nat) (G : matf) (perm coef : list Z) (M : matf) : Prop :=
  forall i s, (i < K)%nat -> (s < N)%nat -> M i (Z.to_nat (nth s perm 0)) == nth s coef 0 * G i s.

(** Columns not listed in [perm], in increasing order. *)
Definition unused (N : nat) (perm : list Z) : list nat :=
  filter (fun c => negb (existsb (Z.eqb (Z.of_nat c)) perm)) (seq 0 N).

(** [M] is made of the columns [perm 0], ..., [perm (K-1)] of [G] scaled by [coef], followed by the
    other columns of [G]. *)
Definition times_action (K N : nat) (G : matf) (perm coef : list Z) (M : matf) : Prop :=
  (forall i k, (i < K)%nat -> (k < K)%nat -> M i k == nth k coef 0 * G i (Z.to_nat (nth k perm 0))) /\
  (forall i k, (i < K)%nat -> (k < N - K)%nat -> M i (K + k)%nat == G i (nth k (unused N perm) 0%nat)).

(** A partial monomial matrix: [K] distinct positions below [N] and [K] non-zero coefficients. *)
Definition good_action (K N : nat) (perm coef : list Z) : Prop :=
  length perm = K /\ length coef = K /\ NoDup perm /\
  Forall (fun x => 0 <= x < Z.of_nat N) perm /\ Forall fq_unit coef.

(** A monomial matrix: a permutation of the [N] positions and [N] non-zero coefficients. *)
Definition good_monomial (N : nat) (perm coef : list Z) : Prop :=
  perm_list N perm /\ length coef = N /\ Forall fq_unit coef.

(** Two codes are equivalent: equal up to permuting and scaling coordinates. *)
Definition equivalent_codes (K N : nat) (A B : matf) : Prop :=
  exists M g e, col_monomial K N A M g e /\ same_code K N M B.

(** *** Seed trees *)

(** A tree of height [h] has 2^d nodes at depth [d]; at most [T / 2^(h-d)] rounded up of them have one
    of the first [T] leaves below them. Hence at most [inner_max h T W] inner nodes lie above W of
    the first T leaves, and at most [most_published h T W] subtrees avoid them all. *)
Fixpoint inner_max (d h T W : nat) : nat :=
  match d with
  | O => 0
  | S d' => inner_max d' h T W + Nat.min W ((T - 1) / 2 ^ (h - d') + 1)
  end.
Definition most_published (h T W : nat) : nat := inner_max h h T W + 1 - W.
