(** Branches and addresses of the computation of a commitment: codes.c of Reference_Implementation. The conventions are those
    of Leak.v: the condition of a loop with && is recorded one operand at a time, and a false left operand ends it. *)
From Verif Require Import Base Params Fq Prim Samplers Monomial Codes Leak.

Definition no_fuel {A} : tm A := ([], NoFuel).

Section T.
Variable p : params.
Let N := pN p.
Let K := pK p.

(** codes.c:64-72 *)
Definition swap_rows_t (G : mat) (r s : nat) : tm mat :=
  tfor N 0 (fun i G =>
    tmp <~ load2 G_values G r i ;;
    y <~ load2 G_values G s i ;;
    G1 <~ store2 G_values G r i y ;;
    store2 G_values G1 s i tmp) G.

(** codes.c:84-87 *)
Fixpoint pivot_row_scan_t (fuel : nat) (G : mat) (prow pcol : nat) : tm nat :=
  match fuel with
  | O => no_fuel
  | S f =>
      b <~ branch (prow <? K)%nat ;;
      if b then
        (g <~ load2 G_values G prow pcol ;;
         z <~ branch (g =? 0) ;;
         if z then pivot_row_scan_t f G (S prow) pcol else ret prow)
      else ret prow
  end.

(** codes.c:81-92 *)
Fixpoint pivot_search_t (fuel : nat) (G : mat) (row prow pcol : nat) : tm (nat * nat) :=
  match fuel with
  | O => no_fuel
  | S f =>
      b <~ branch (pcol <? N)%nat ;;
      if b then
        (g <~ load2 G_values G prow pcol ;;
         z <~ branch (g =? 0) ;;
         if z then
           (prow' <~ pivot_row_scan_t (S K) G prow pcol ;;
            e <~ branch (K <=? prow')%nat ;;
            if e then pivot_search_t f G row row (S pcol) else pivot_search_t f G row prow' pcol)
         else ret (prow, pcol))
      else ret (prow, pcol)
  end.

(** codes.c:112-115 *)
Definition rescale_row_t (G : mat) (row pcol : nat) (sf : Z) : tm mat :=
  tfor (N - pcol) pcol (fun i G =>
    g <~ load2 G_values G row i ;;
    store2 G_values G row i (fq_red (sf * g))) G.

(** codes.c:124-133 *)
Definition eliminate_row_t (G : mat) (row r : nat) (mult : Z) : tm mat :=
  tfor N 0 (fun c G =>
    pv <~ load2 G_values G row c ;;
    let tmp := fq_red (mult * pv) in
    g <~ load2 G_values G r c ;;
    let tmp2 := u16 (127 + g - tmp) in
    store2 G_values G r c (u8 (fq_red tmp2))) G.

(** codes.c:119-135 *)
Definition eliminate_rows_t (G : mat) (row pcol : nat) : tm mat :=
  tfor K 0 (fun r G =>
    b <~ branch (negb (Nat.eqb r row)) ;;
    if b then (mult <~ load2 G_values G r pcol ;; eliminate_row_t G row r mult) else ret G) G.

(** codes.c:96-135: one row, once the pivot is found *)
Definition reduce_step_t (G : mat) (piv : list Z) (row prow pcol : nat) : tm (mat * list Z) :=
  piv' <~ store Is_pivot piv pcol 1 ;;
  b <~ branch (negb (Nat.eqb row prow)) ;;
  G1 <~ (if b then swap_rows_t G row prow else ret G) ;;
  g <~ load2 G_values G1 row pcol ;;
  sf <~ fq_inv_t g ;;
  G2 <~ rescale_row_t G1 row pcol sf ;;
  G3 <~ eliminate_rows_t G2 row pcol ;;
  ret (G3, piv').

(** codes.c:77-137 *)
Fixpoint rref_rows_t (n row : nat) (G : mat) (piv : list Z) : tm (Z * mat * list Z) :=
  match n with
  | O => _ <~ branch false ;; ret (1, G, piv)
  | S n' =>
      _ <~ branch true ;;
      ' (prow, pcol) <~ pivot_search_t (N + 2) G row row row ;;
      b <~ branch (N <=? pcol)%nat ;;
      if b then ret (0, G, piv)
      else (' (G3, piv') <~ reduce_step_t G piv row prow pcol ;; rref_rows_t n' (S row) G3 piv')
  end.

(** codes.c:74-138 *)
Definition generator_RREF_t (G : mat) (piv : list Z) : tm (Z * mat * list Z) := rref_rows_t K 0 G piv.

(** codes.c:257-263 *)
Definition extract_col_t (Q : monomial) (col : nat) : tm (Z * Z) :=
  tfor N 0 (fun i s =>
    pi <~ load Q_perm (m_perm Q) i ;;
    b <~ branch (pi =? Z.of_nat col) ;;
    if b then (c <~ load Q_coef (m_coef Q) i ;; ret (pos_t p (Z.of_nat i), c)) else ret s) (0, 0).

(** codes.c:244-277: prepare_digest_input up to the sort of the columns. memset and the initialisation of is_pivot_column
    have no record. *)
Definition commit_t (V : mat) (Qbar : action) (G : mat) (Q : monomial) : tm (mat * action) :=
  G1 <~ generator_monomial_mul_t p (repeat (repeat 0 N) K) G Q ;;
  ' (_, Gd, piv) <~ generator_RREF_t G1 (repeat 0 N) ;;
  ' (V1, Qbar1, _, _) <~ tfor N 0 (fun col s =>
      let '(V, Qb, piv_idx, non_piv_idx) := s in
      ' (row_idx, val) <~ extract_col_t Q col ;;
      f <~ load Is_pivot piv col ;;
      b <~ branch (f =? 0) ;;
      if b then
        (V' <~ lex_minimize_t p V (Z.to_nat (pos_t p (non_piv_idx - Z.of_nat K))) Gd col ;;
         ret (V', Qb, piv_idx, pos_t p (non_piv_idx + 1)))
      else
        (perm <~ store Out_perm (a_perm Qb) (Z.to_nat piv_idx) row_idx ;;
         coef <~ store Out_coef (a_coef Qb) (Z.to_nat piv_idx) (u8 val) ;;
         ret (V, {| a_perm := perm; a_coef := coef |}, pos_t p (piv_idx + 1), non_piv_idx)))
    (V, Qbar, 0, pos_t p (Z.of_nat K)) ;;
  ret (V1, Qbar1).

(** codes.c:169-179 *)
Definition column_swap_t (V : mat) (c1 c2 : nat) : tm mat :=
  tfor K 0 (fun i V =>
    tmp <~ load2 V_values V i c2 ;;
    y <~ load2 V_values V i c1 ;;
    V1 <~ store2 V_values V i c2 y ;;
    store2 V_values V1 i c1 (u8 (pos_t p tmp))) V.

(** codes.c:207-209 and 210-212 *)
Fixpoint scan_up_t (fuel : nat) (V : mat) (i : Z) (pivot : list Z) : tm Z :=
  match fuel with
  | O => no_fuel
  | S f =>
      let i' := pos_t p (i + 1) in
      c <~ lex_compare_with_pivot_t p V i' pivot ;;
      b <~ branch (c =? 1) ;;
      if b then scan_up_t f V i' pivot else ret i'
  end.
Fixpoint scan_down_t (fuel : nat) (V : mat) (j : Z) (pivot : list Z) : tm Z :=
  match fuel with
  | O => no_fuel
  | S f =>
      let j' := pos_t p (j - 1) in
      c <~ lex_compare_with_pivot_t p V j' pivot ;;
      b <~ branch (c =? -1) ;;
      if b then scan_down_t f V j' pivot else ret j'
  end.

(** codes.c:206-217 *)
Fixpoint hoare_loop_t (fuel : nat) (V : mat) (i j : Z) (pivot : list Z) : tm (Z * mat) :=
  match fuel with
  | O => no_fuel
  | S f =>
      i' <~ scan_up_t (N + 2) V i pivot ;;
      j' <~ scan_down_t (N + 2) V j pivot ;;
      b <~ branch (i' >=? j') ;;
      if b then ret (j', V)
      else (V' <~ column_swap_t V (Z.to_nat i') (Z.to_nat j') ;; hoare_loop_t f V' i' j' pivot)
  end.

(** codes.c:198-219 *)
Definition Hoare_partition_t (V : mat) (col_l col_h : Z) : tm (Z * mat) :=
  pivot <~ tfor K 0 (fun i pv =>
     v <~ load2 V_values V i (Z.to_nat col_l) ;; store Pivot pv i v) (repeat 0 K) ;;
  hoare_loop_t (N + 2) V (pos_t p (col_l - 1)) (pos_t p (col_h + 1)) pivot.

(** codes.c:222-230 *)
Fixpoint col_lex_quicksort_t (fuel : nat) (V : mat) (start end_ : Z) : tm mat :=
  match fuel with
  | O => no_fuel
  | S f =>
      b <~ branch (start <? end_) ;;
      if b then
        ' (j, V1) <~ Hoare_partition_t V (pos_t p start) (pos_t p end_) ;;
        V2 <~ col_lex_quicksort_t f V1 start j ;;
        col_lex_quicksort_t f V2 (j + 1) end_
      else ret V
  end.

(** codes.c:234-236 *)
Definition lex_sort_cols_t (V : mat) : tm mat :=
  col_lex_quicksort_t (N + 1) V 0 (Z.of_nat N - Z.of_nat K - 1).

(** codes.c:239-279 *)
Definition prepare_digest_input_t (V : mat) (Qbar : action) (G : mat) (Q : monomial) : tm (mat * action) :=
  ' (V1, Qbar1) <~ commit_t V Qbar G Q ;;
  V2 <~ lex_sort_cols_t V1 ;;
  ret (V2, Qbar1).

End T.
