(** FIPS 202, written from the standard and independently of the C code: the step mappings on the state array
    (sections 3.2 and 3.3), the sponge construction (4), pad10*1 (5.1), SHA-3 and SHAKE (6.1, 6.2), and the
    conversion between bytes and bits (B.1). *)
From Verif Require Import Base.

(** A state array A[x, y, z], 0 <= x, y < 5, 0 <= z < 64. *)
Definition array := nat -> nat -> nat -> bool.

(** 3.2.1 theta *)
Definition colsum (A : array) (x z : nat) : bool :=
  xorb (xorb (xorb (xorb (A x 0%nat z) (A x 1%nat z)) (A x 2%nat z)) (A x 3%nat z)) (A x 4%nat z).
Definition theta (A : array) : array := fun x y z =>
  xorb (A x y z) (xorb (colsum A ((x + 4) mod 5) z) (colsum A ((x + 1) mod 5) ((z + 63) mod 64))).

(** 3.2.2 rho: the offset of lane (x, y) is (t+1)(t+2)/2 if (x, y) is the [t]-th point of the walk from (1, 0) with
    (x, y) -> (y, 2x+3y); lane (0, 0) is not moved. *)
Fixpoint rho_walk (n t x y : nat) : list (nat * nat * nat) :=
  match n with
  | O => []
  | S n' => (x, y, (t + 1) * (t + 2) / 2)%nat :: rho_walk n' (S t) y ((2 * x + 3 * y) mod 5)
  end.
Definition rho_offset (x y : nat) : nat :=
  match find (fun '(a, b, _) => (a =? x)%nat && (b =? y)%nat) (rho_walk 24 0 1 0) with
  | Some (_, _, o) => o mod 64
  | None => 0
  end.
Definition rho (A : array) : array := fun x y z => A x y ((z + (64 - rho_offset x y)) mod 64)%nat.

(** 3.2.3 pi *)
Definition pi (A : array) : array := fun x y z => A ((x + 3 * y) mod 5)%nat x z.

(** 3.2.4 chi *)
Definition chi (A : array) : array := fun x y z =>
  xorb (A x y z) (andb (xorb (A ((x + 1) mod 5)%nat y z) true) (A ((x + 2) mod 5)%nat y z)).

(** 3.2.5 iota, with the shift register of algorithm 5 *)
Definition lfsr_step (R : list bool) : list bool :=
  match R with
  | [r0; r1; r2; r3; r4; r5; r6; r7] => [r7; r0; r1; r2; xorb r3 r7; xorb r4 r7; xorb r5 r7; r6]
  | _ => R
  end.
Definition rc_bit (t : nat) : bool :=
  nth 0 (Nat.iter (t mod 255) lfsr_step [true; false; false; false; false; false; false; false]) false.
Definition RC_bit (ir z : nat) : bool :=
  existsb (fun j => (z =? 2 ^ j - 1)%nat && rc_bit (j + 7 * ir)) (seq 0 7).
Definition iota (ir : nat) (A : array) : array := fun x y z =>
  if (x =? 0)%nat && (y =? 0)%nat then xorb (A x y z) (RC_bit ir z) else A x y z.

Definition Rnd (A : array) (ir : nat) : array := iota ir (chi (pi (rho (theta A)))).

(** 3.3, 3.4: Keccak-f[1600] = Keccak-p[1600, 24] *)
Definition keccak_p (A : array) : array := fold_left Rnd (seq 0 24) A.

(** 3.1.2, 3.1.3: bit [i] of the state string is A[x, y, z] with i = 64 (5 y + x) + z. *)
Definition to_array (S : nat -> bool) : array := fun x y z => S (64 * (5 * y + x) + z)%nat.
Definition of_array (A : array) : nat -> bool := fun i => A ((i / 64) mod 5)%nat (i / 64 / 5)%nat (i mod 64)%nat.
Definition keccak_f (S : nat -> bool) : nat -> bool := of_array (keccak_p (to_array S)).

(** 4, algorithm 8, for a rate [r] and an input whose padded form is [P]: absorb the blocks of [P], then
    squeeze [n] blocks. *)
Fixpoint absorb (n r : nat) (S : nat -> bool) (P : list bool) : nat -> bool :=
  match n with
  | O => S
  | Datatypes.S n' => absorb n' r (keccak_f (fun i => xorb (S i) (if (i <? r)%nat then nth i P false else false))) (skipn r P)
  end.
Fixpoint squeeze (n r : nat) (S : nat -> bool) : list bool :=
  match n with
  | O => []
  | Datatypes.S n' => map S (seq 0 r) ++ squeeze n' r (keccak_f S)
  end.

(** 5.1 pad10*1: 1 0^j 1 with j = (-m-2) mod x *)
Definition pad (x m : nat) : list bool :=
  [true] ++ repeat false (Z.to_nat ((- Z.of_nat m - 2) mod Z.of_nat x)) ++ [true].

(** The output has [d] bits, taken from the first 1 + d / r blocks. *)
Definition sponge (r : nat) (N : list bool) (d : nat) : list bool :=
  let P := N ++ pad r (length N) in
  firstn d (squeeze (S (d / r)) r (absorb (length P / r) r (fun _ => false) P)).

(** B.1: bit [i] of a byte is its coefficient of 2^i *)
Definition byte_bits (b : Z) : list bool := map (fun i => Z.testbit b (Z.of_nat i)) (seq 0 8).
Definition bits_of (M : list Z) : list bool := flat_map byte_bits M.

(** 6.1, 6.2, with capacity 1600 - r *)
Definition SHA3_256 (M : list Z) : list bool := sponge 1088 (bits_of M ++ [false; true]) 256.
Definition SHA3_384 (M : list Z) : list bool := sponge 832 (bits_of M ++ [false; true]) 384.
Definition SHA3_512 (M : list Z) : list bool := sponge 576 (bits_of M ++ [false; true]) 512.
Definition SHAKE128 (M : list Z) (d : nat) : list bool := sponge 1344 (bits_of M ++ [true; true; true; true]) d.
Definition SHAKE256 (M : list Z) (d : nat) : list bool := sponge 1088 (bits_of M ++ [true; true; true; true]) d.
