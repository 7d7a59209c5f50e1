(** The printing functions of the reference implementation (codes.c:565-606, monomial.c:142-191), as the text they
    send to stderr. The optimised implementation has the same functions. *)
From Coq Require Import String Ascii.
From Verif Require Import Base Params Fq Samplers Monomial Codes KatMain.

(** Conversion %u of fprintf for a 32-bit value (at most ten digits, so that the fuel does not end; %d of a
    non-negative value is the same). *)
Fixpoint digits (fuel : nat) (n : Z) : list Z :=
  match fuel with
  | O => []
  | S f => if n <? 10 then [48 + n] else digits f (n / 10) ++ [48 + n mod 10]
  end.
Definition fmt_u (n : Z) : list Z := digits 10 n.

(** Conversion %03u: at least three characters, padded with zeros. *)
Definition fmt_03u (n : Z) : list Z := repeat 48 (3 - List.length (fmt_u n))%nat ++ fmt_u n.

Definition newline : list Z := [10].

Section P.
Variable p : params.
Notation N := (pN p).
Notation K := (pK p).

(** The loop over one array of [n] values: all but the last followed by ", ", the last one by [closing]
    (codes.c:571-574; the same text is repeated in the source for each array). *)
Definition print_values (fmt : Z -> list Z) (n : nat) (l : list Z) (closing out : list Z) : res (list Z) :=
  out <- for_ (n - 1) 0 (fun j o => v <- get l j ;; Ok (o ++ fmt v ++ str ", ")) out ;;
  v <- get l (n - 1) ;;
  Ok (out ++ fmt v ++ closing).

(** Rows of a matrix with [r] rows of [c] values (codes.c:569-580, 588-599, monomial.c:179-190). *)
Definition print_rows (r c : nat) (G : mat) (closing out : list Z) : res (list Z) :=
  out <- for_ (r - 1) 0 (fun i o =>
    row <- get G i ;; print_values fmt_u c row (str " ]," ++ newline) (o ++ str "[")) out ;;
  row <- get G (r - 1) ;;
  print_values fmt_u c row closing (out ++ str "[").

(** codes.c:566-581 *)
Definition generator_pretty_print_name (name : list Z) (G : mat) : res (list Z) :=
  print_rows K N G (str " ] ])" ++ newline) (name ++ str " = M([").

(** codes.c:584-606 *)
Definition generator_rref_pretty_print_name (name : list Z) (G : rref_mat) : res (list Z) :=
  out <- print_rows K (N - K) (r_vals G) (str " ] ]" ++ newline) (name ++ str " =" ++ newline ++ str "[") ;;
  out <- for_ K 0 (fun x o => v <- get (r_pos G) x ;; Ok (o ++ str " " ++ fmt_u v ++ str " "))
           (out ++ str "column_pos = " ++ newline ++ str " [ ") ;;
  Ok (out ++ str "]" ++ newline).

(** monomial.c:156-168 *)
Definition monomial_mat_pretty_print_name (name : list Z) (Q : monomial) : res (list Z) :=
  out <- print_values fmt_03u N (m_perm Q) (str " ]" ++ newline) (name ++ str " = [") ;;
  print_values fmt_03u N (m_coef Q) (str " ]" ++ newline) (out ++ str "coeffs = [").

(** monomial.c:143-154 (the same text with the name "perm") *)
Definition monomial_mat_pretty_print (Q : monomial) : res (list Z) :=
  out <- print_values fmt_03u N (m_perm Q) (str " ]" ++ newline) (str "perm = [") ;;
  print_values fmt_03u N (m_coef Q) (str " ]" ++ newline) (out ++ str "coeffs = [").

(** monomial.c:170-191; [mu] is the local N x N array. *)
Definition monomial_mat_print_exp_name (name : list Z) (Q : monomial) : res (list Z) :=
  mu <- for_ N 0 (fun i mu => a <- get (m_perm Q) i ;; c <- get (m_coef Q) i ;; set2 mu (Z.to_nat a) i c)
          (repeat (repeat 0 N) N) ;;
  print_rows N N mu (str " ] ])" ++ newline) (name ++ str " = Mon([").
End P.
