(** The column sort of codes.c with counters: calls of lex_compare_with_pivot, calls of column_swap, calls of
    col_lex_quicksort and the largest number of those active at the same time. The definitions are those of Codes.v
    with the counters added; [C68_result] states that the counters change nothing. *)
From Verif Require Import Base Params Fq Codes.

(** Calls of lex_compare_with_pivot, column_swap and col_lex_quicksort; depth of the recursion. *)
Record cost := { compared : Z; swapped : Z; called : Z; depth : Z }.

Section S.
Variable p : params.
Let N := pN p.
Let K := pK p.

(** codes.c:207-209 *)
Fixpoint scan_up_n (fuel : nat) (V : mat) (i : Z) (pivot : list Z) (n : Z) : res (Z * Z) :=
  match fuel with
  | O => NoFuel
  | S f =>
      let i' := pos_t p (i + 1) in
      c <- lex_compare_with_pivot p V i' pivot ;;
      if c =? 1 then scan_up_n f V i' pivot (n + 1) else Ok (i', n + 1)
  end.

(** codes.c:210-212 *)
Fixpoint scan_down_n (fuel : nat) (V : mat) (j : Z) (pivot : list Z) (n : Z) : res (Z * Z) :=
  match fuel with
  | O => NoFuel
  | S f =>
      let j' := pos_t p (j - 1) in
      c <- lex_compare_with_pivot p V j' pivot ;;
      if c =? -1 then scan_down_n f V j' pivot (n + 1) else Ok (j', n + 1)
  end.

(** codes.c:206-217 *)
Fixpoint hoare_loop_n (fuel : nat) (V : mat) (i j : Z) (pivot : list Z) (n s : Z) : res (Z * mat * Z * Z) :=
  match fuel with
  | O => NoFuel
  | S f =>
      ' (i', n1) <- scan_up_n (N + 2) V i pivot n ;;
      ' (j', n2) <- scan_down_n (N + 2) V j pivot n1 ;;
      if i' >=? j' then Ok (j', V, n2, s)
      else (V' <- column_swap p V (Z.to_nat i') (Z.to_nat j') ;; hoare_loop_n f V' i' j' pivot n2 (s + 1))
  end.

(** codes.c:198-219 *)
Definition Hoare_partition_n (V : mat) (col_l col_h : Z) : res (Z * mat * Z * Z) :=
  pivot <- for_ K 0 (fun i pv =>
     v <- get2 V i (Z.to_nat col_l) ;; set pv i v) (repeat 0 K) ;;
  hoare_loop_n (N + 2) V (pos_t p (col_l - 1)) (pos_t p (col_h + 1)) pivot 0 0.

(** codes.c:222-230 *)
Fixpoint col_lex_quicksort_n (fuel : nat) (V : mat) (start end_ : Z) : res (mat * cost) :=
  match fuel with
  | O => NoFuel
  | S f =>
      if start <? end_ then
        ' (j, V1, n, s) <- Hoare_partition_n V (pos_t p start) (pos_t p end_) ;;
        ' (V2, a) <- col_lex_quicksort_n f V1 start j ;;
        ' (V3, b) <- col_lex_quicksort_n f V2 (j + 1) end_ ;;
        Ok (V3, {| compared := n + compared a + compared b; swapped := s + swapped a + swapped b;
                   called := 1 + called a + called b; depth := 1 + Z.max (depth a) (depth b) |})
      else Ok (V, {| compared := 0; swapped := 0; called := 1; depth := 1 |})
  end.

(** codes.c:234-236 *)
Definition lex_sort_cols_n (V : mat) : res (mat * cost) :=
  col_lex_quicksort_n (N + 1) V 0 (Z.of_nat N - Z.of_nat K - 1).
End S.
