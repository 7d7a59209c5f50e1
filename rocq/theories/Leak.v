(** What an observer of branches and addresses sees: functions of Reference_Implementation that treat secrets, or that the
    source says to be constant time, with every branch taken and every element of an array loaded or stored recorded in
    order. The values computed are those of the models without the record (PropLeak.v).

    Conditions of loops, of if and while, and the left operands of && and || are branches. Operands are evaluated in
    the order of the models without the record, where C leaves the order open. Scalar local variables are in registers. The permutation Keccak-f and the copying of bytes into and out of its state have no
    branches or addresses that depend on data, only on lengths, and are not recorded. *)
From Verif Require Import Base Params Fq Prim Samplers Monomial Codes.

(** The arrays: names of parameters and local variables in the source. *)
Inductive array :=
| A_bytes | B_bytes                      (* a, b of timing_safe_memcmp *)
| G_values | V_values | Res_values       (* G->values, V->values, res->values *)
| Pivot                                  (* pivot of lex_compare_with_pivot *)
| Q_perm | Q_coef                        (* monom, to_invert, Q_in: permutation and coefficients *)
| R_perm | R_coef                        (* res of monomial_mat_inv, reverse_Q *)
| In_perm | In_coef | Out_perm | Out_coef (* in and out of monomial_compose_action *)
| Rand | Perm                            (* rand_u32 and permutation of yt_shuffle_state *)
| Buffer                                 (* buffer of the samplers *)
| Is_pivot.                              (* is_pivot_column *)

(** The second index is 0 for one-dimensional arrays. *)
Inductive event := Load (a : array) (i j : nat) | Store (a : array) (i j : nat) | Branch (b : bool).

(** A computation with its record. *)
Definition tm (A : Type) : Type := (list event * res A)%type.
Definition ret {A} (a : A) : tm A := ([], Ok a).
Definition tbind {A B} (m : tm A) (k : A -> tm B) : tm B :=
  match m with
  | (t, Ok a) => let r := k a in (t ++ fst r, snd r)
  | (t, UB) => (t, UB)
  | (t, NoFuel) => (t, NoFuel)
  end.
Notation "x <~ m ;; k" := (tbind m (fun x => k)) (at level 61, m at next level, right associativity).
Notation "' p <~ m ;; k" := (tbind m (fun x => match x with p => k end)) (at level 61, p pattern, m at next level, right associativity).

Definition load (a : array) (l : list Z) (i : nat) : tm Z := ([Load a i 0], get l i).
Definition load2 (a : array) (m : mat) (i j : nat) : tm Z := ([Load a i j], get2 m i j).
Definition store (a : array) (l : list Z) (i : nat) (x : Z) : tm (list Z) := ([Store a i 0], set l i x).
Definition store2 (a : array) (m : mat) (i j : nat) (x : Z) : tm mat := ([Store a i j], set2 m i j x).
Definition branch (b : bool) : tm bool := ([Branch b], Ok b).

(** for (i = start; i < start + n; i++) *)
Fixpoint tfor {S} (n start : nat) (body : nat -> S -> tm S) (s : S) : tm S :=
  match n with
  | O => _ <~ branch false ;; ret s
  | Datatypes.S n' => _ <~ branch true ;; s' <~ body start s ;; tfor n' (Datatypes.S start) body s'
  end.

(** x && y and x || y with a local variable on the right, and x || y with one on the left *)
Definition and_t (x : tm bool) (y : bool) : tm bool := b <~ x ;; _ <~ branch b ;; ret (b && y).
Definition or_t (x : tm bool) (y : bool) : tm bool := b <~ x ;; _ <~ branch b ;; ret (b || y).
Definition orl_t (x : bool) (y : tm bool) : tm bool := _ <~ branch x ;; if x then ret true else y.

(** LESS.c:193-202 *)
Definition timing_safe_memcmp_t (a b : list Z) (len : nat) : tm Z :=
  tfor len 0 (fun i d =>
    x <~ load A_bytes a i ;; y <~ load B_bytes b i ;;
    ret (Z.lor d (b2z (negb (x =? y))))) 0.

(** fq_arith.h:141-147: while (exp) { if (exp & 1) ... } *)
Fixpoint fq_pow_loop_t (e : positive) (accum xlift : Z) : tm Z :=
  _ <~ branch true ;;
  match e with
  | xH => _ <~ branch true ;; _ <~ branch false ;; ret (fq_red (accum * xlift))
  | xO e' => _ <~ branch false ;; fq_pow_loop_t e' accum (fq_red (xlift * xlift))
  | xI e' => _ <~ branch true ;; fq_pow_loop_t e' (fq_red (accum * xlift)) (fq_red (xlift * xlift))
  end.
Definition fq_inv_t (x : Z) : tm Z := a <~ fq_pow_loop_t 125 1 (u8 x) ;; ret (fq_red a).

Section T.
Variable X : prim.
Variable p : params.
Let N := pN p.
Let K := pK p.

(** codes.c:142-166; found is nonzero_idx_found *)
Definition lex_minimize_t (V : mat) (dst : nat) (G : mat) (col : nat) : tm mat :=
  ' (_, fval, _) <~ tfor K 0 (fun i s =>
      let '(fidx, fval, found) := s in
      let nonzero := (g <~ load2 G_values G i col ;; ret (negb (g =? 0))) in
      let zero := (g <~ load2 G_values G i col ;; ret (g =? 0)) in
      h1 <~ and_t nonzero (negb found) ;;
      m1 <~ or_t zero found ;;
      let fidx' := pos_t p (Z.of_nat i * b2z h1 + fidx * b2z m1) in
      g <~ load2 G_values G i col ;;
      h2 <~ and_t nonzero (negb found) ;;
      m2 <~ or_t zero found ;;
      let fval' := u8 (g * b2z h2 + fval * b2z m2) in
      found' <~ orl_t found nonzero ;;
      ret (fidx', fval', found')) (0, 0, false) ;;
  inv_first <~ fq_inv_t fval ;;
  tfor K 0 (fun i V =>
    g <~ load2 G_values G i col ;;
    store2 V_values V i dst (fq_red (g * inv_first))) V.

(** codes.c:184-196: [n] = K - i rows left *)
Fixpoint lex_compare_from_t (n i : nat) (V : mat) (col : nat) (pivot : list Z) : tm Z :=
  match n with
  | O => _ <~ branch false ;; _ <~ branch true ;; ret 0
  | S n' =>
      _ <~ branch true ;;
      v <~ load2 V_values V i col ;;
      pv <~ load Pivot pivot i ;;
      b <~ branch (v - pv =? 0) ;;
      if b then lex_compare_from_t n' (S i) V col pivot
      else
        _ <~ branch false ;;
        v <~ load2 V_values V i col ;;
        pv <~ load Pivot pivot i ;;
        b <~ branch (v - pv >? 0) ;;
        ret (if b then -1 else 1)
  end.
Definition lex_compare_with_pivot_t (V : mat) (col : Z) (pivot : list Z) : tm Z :=
  lex_compare_from_t K 0 V (Z.to_nat col) pivot.

(** codes.c:34-45 *)
Definition generator_monomial_mul_t (r G : mat) (Q : monomial) : tm mat :=
  tfor N 0 (fun src r =>
    tfor K 0 (fun row r =>
      d <~ load Q_perm (m_perm Q) src ;;
      g <~ load2 G_values G row src ;;
      c <~ load Q_coef (m_coef Q) src ;;
      store2 Res_values r row (Z.to_nat d) (fq_red (g * c))) r) r.

(** monomial.c:125-132 *)
Definition monomial_mat_inv_t (r A : monomial) : tm monomial :=
  tfor N 0 (fun i r =>
    a <~ load Q_perm (m_perm A) i ;;
    perm <~ store R_perm (m_perm r) (Z.to_nat a) (pos_t p (Z.of_nat i)) ;;
    c <~ load Q_coef (m_coef A) i ;;
    inv <~ fq_inv_t c ;;
    a <~ load Q_perm (m_perm A) i ;;
    coef <~ store R_coef (m_coef r) (Z.to_nat a) inv ;;
    ret {| m_coef := coef; m_perm := perm |}) r.

(** monomial.c:196-214 *)
Definition monomial_compose_action_t (rev0 : monomial) (out : action) (Q : monomial) (inp : action) : tm action :=
  rev <~ tfor N 0 (fun i r =>
    a <~ load Q_perm (m_perm Q) i ;;
    perm <~ store R_perm (m_perm r) (Z.to_nat a) (pos_t p (Z.of_nat i)) ;;
    c <~ load Q_coef (m_coef Q) i ;;
    a <~ load Q_perm (m_perm Q) i ;;
    coef <~ store R_coef (m_coef r) (Z.to_nat a) c ;;
    ret {| m_coef := coef; m_perm := perm |}) rev0 ;;
  tfor K 0 (fun i o =>
    a <~ load In_perm (a_perm inp) i ;;
    b <~ load R_perm (m_perm rev) (Z.to_nat a) ;;
    perm <~ store Out_perm (a_perm o) i b ;;
    c <~ load In_coef (a_coef inp) i ;;
    a <~ load In_perm (a_perm inp) i ;;
    d <~ load R_coef (m_coef rev) (Z.to_nat a) ;;
    coef <~ store Out_coef (a_coef o) i (fq_red (c * d)) ;;
    ret {| a_perm := perm; a_coef := coef |}) out.

(** monomial.c:36-52 yt_shuffle_state *)
Definition yt_shuffle_state_t (st : xstate X) (perm : list Z) : tm (list Z * xstate X) :=
  let (bs, st') := x_squeeze X (4 * N) st in
  rand_u32 <~ tfor (N - 1) 0 (fun i r =>
      x <~ load Rand r i ;;
      store Rand r i (u32 (Z.of_nat i + x mod (Z.of_nat N - Z.of_nat i)))) (words32 N bs) ;;
  perm' <~ tfor (N - 1) 0 (fun i pm =>
      tmp <~ load Perm pm i ;;
      r <~ load Rand rand_u32 i ;;
      y <~ load Perm pm (Z.to_nat r) ;;
      pm1 <~ store Perm pm i y ;;
      r <~ load Rand rand_u32 i ;;
      store Perm pm1 (Z.to_nat r) tmp) perm ;;
  ret (perm', st').

(** fq_arith.h:56-61 *)
Fixpoint rand_chunks_t (chunks : nat) (minv span req : Z) (num : nat)
         (word : Z) (count : nat) (buf : list Z) : tm (bool * (nat * list Z)) :=
  match chunks with
  | O => _ <~ branch false ;; ret (false, (count, buf))
  | S c =>
      _ <~ branch true ;;
      let v := u8 (Z.land word (2 ^ req - 1)) in
      b <~ branch (v <=? span) ;;
      ' (count', buf') <~
        (if b then (b <~ store Buffer buf count (u8 (v + minv)) ;; ret (S count, b))
         else ret (count, buf)) ;;
      e <~ branch (num <=? count')%nat ;;
      if e then ret (true, (count', buf'))
      else rand_chunks_t c minv span req num (Z.shiftr word req) count' buf'
  end.

(** fq_arith.h:54-62 *)
Fixpoint rand_loop_t (fuel : nat) (minv span req : Z) (num : nat)
         (st : xstate X) (count : nat) (buf : list Z) : tm (list Z * xstate X) :=
  match fuel with
  | O => ([], NoFuel)
  | S f =>
      let (bs, st') := x_squeeze X 8 st in
      ' (fin, (count', buf')) <~
        rand_chunks_t (Z.to_nat (64 / req)) minv span req num (le_val bs) count buf ;;
      if fin then ret (buf', st') else rand_loop_t f minv span req num st' count' buf'
  end.

(** monomial.c:90-101 *)
Definition monomial_mat_seed_expand_prikey_t (fuel : nat) (r : monomial) (seed : list Z) : tm monomial :=
  ' (coefs, st1) <~ rand_loop_t fuel 1 125 (bits_to_represent 125) N (x_init X seed) 0 (m_coef r) ;;
  perm <~ tfor N 0 (fun i pm => store Perm pm i (pos_t p (Z.of_nat i))) (m_perm r) ;;
  ' (perm', _) <~ yt_shuffle_state_t st1 perm ;;
  ret {| m_coef := coefs; m_perm := perm' |}.

(** LESS.c:69-78: the part of one round of LESS_keygen that works on the private monomial; [q0] and [qi0] are the
    uninitialised private_Q and private_Q_inv, [r0] the uninitialised result_G *)
Definition keygen_secret_t (fuel : nat) (q0 qi0 : monomial) (r0 G : mat) (seed : list Z) : tm mat :=
  qi <~ monomial_mat_seed_expand_prikey_t fuel qi0 seed ;;
  q <~ monomial_mat_inv_t q0 qi ;;
  generator_monomial_mul_t r0 G q.

(** LESS.c:177-181: the part of one round of LESS_sign that works on the private monomial; [q0], [rev0] and [out0] are the
    uninitialised Q_to_multiply, reverse_Q and mono_action *)
Definition sign_secret_t (fuel : nat) (q0 rev0 : monomial) (out0 : action) (bar : action) (seed : list Z) : tm action :=
  q <~ monomial_mat_seed_expand_prikey_t fuel q0 seed ;;
  monomial_compose_action_t rev0 out0 q bar.

End T.
