(** Error monad, checked arrays and loops used to model the C code.

    [UB] stands for any out-of-bounds access of a C array; [NoFuel] for a loop
    whose iteration bound (an artefact of the model) was exhausted. *)
From Coq Require Export ZArith List Lia Bool Arith.
From Coq Require Export ZifyBool ZifyNat.
Export ListNotations.
Global Open Scope Z_scope.

Ltac Zify.zify_post_hook ::= Z.div_mod_to_equations.

Inductive res (A : Type) : Type :=
| Ok (a : A)
| UB
| NoFuel.
Arguments Ok {A} a.
Arguments UB {A}.
Arguments NoFuel {A}.

Definition bind {A B} (m : res A) (f : A -> res B) : res B :=
  match m with
  | Ok a => f a
  | UB => UB
  | NoFuel => NoFuel
  end.

Notation "x <- m ;; k" := (bind m (fun x => k))
  (at level 61, m at next level, right associativity).
Notation "' p <- m ;; k" := (bind m (fun x => match x with p => k end))
  (at level 61, p pattern, m at next level, right associativity).

(** Machine integer truncation. *)
Definition u8 (x : Z) : Z := x mod 256.
Definition u16 (x : Z) : Z := x mod 65536.
Definition u32 (x : Z) : Z := x mod 4294967296.
Definition u64 (x : Z) : Z := x mod 18446744073709551616.

Definition b2z (b : bool) : Z := if b then 1 else 0.

(** In-place update; only meaningful when the index is in range. *)
Fixpoint upd {A} (l : list A) (i : nat) (x : A) : list A :=
  match l, i with
  | [], _ => []
  | _ :: t, O => x :: t
  | h :: t, S i' => h :: upd t i' x
  end.

(** Array read [l[i]] and write [l[i] = x]. *)
Definition get {A} (l : list A) (i : nat) : res A :=
  match nth_error l i with Some x => Ok x | None => UB end.

Definition set {A} (l : list A) (i : nat) (x : A) : res (list A) :=
  if (i <? length l)%nat then Ok (upd l i x) else UB.

(** Two-dimensional arrays [m[i][j]], stored row by row. *)
Definition get2 {A} (m : list (list A)) (i j : nat) : res A :=
  r <- get m i ;; get r j.

Definition set2 {A} (m : list (list A)) (i j : nat) (x : A) : res (list (list A)) :=
  r <- get m i ;; r' <- set r j x ;; set m i r'.

(** [memcpy]-style slice read/write of [len] cells at offset [off]. *)
Definition rd {A} (l : list A) (off len : nat) : res (list A) :=
  if (off + len <=? length l)%nat then Ok (firstn len (skipn off l)) else UB.

Definition wr {A} (l : list A) (off : nat) (d : list A) : res (list A) :=
  if (off + length d <=? length l)%nat
  then Ok (firstn off l ++ d ++ skipn (off + length d) l) else UB.

(** [for (i = start; i < start + n; i++) s = body(i, s)] *)
Fixpoint for_ {S} (n start : nat) (body : nat -> S -> res S) (s : S) : res S :=
  match n with
  | O => Ok s
  | Datatypes.S n' => s' <- body start s ;; for_ n' (Datatypes.S start) body s'
  end.

(** Little-endian value of a list of bytes. *)
Fixpoint le_val (l : list Z) : Z :=
  match l with [] => 0 | b :: t => b + 256 * le_val t end.

(** The [n] low bytes of [x], little endian. *)
Fixpoint le_bytes (n : nat) (x : Z) : list Z :=
  match n with O => [] | S n' => x mod 256 :: le_bytes n' (x / 256) end.

Definition is_byte (x : Z) : Prop := 0 <= x < 256.
Definition bytes (l : list Z) : Prop := Forall is_byte l.

(** Entry of a matrix, 0 outside. Only used in specifications and proofs. *)
Definition nthZ (l : list Z) (i : nat) : Z := nth i l 0.
Definition ent (m : list (list Z)) (i j : nat) : Z := nth j (nth i m []) 0.

Definition shape (r c : nat) (m : list (list Z)) : Prop :=
  length m = r /\ Forall (fun row => length row = c) m.
