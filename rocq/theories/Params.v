(** Parameters of LESS: Reference_Implementation/include/parameters.h *)
From Verif Require Import Base.

(** parameters.h:32,72,104 — compile-time switch CATEGORY_1/3/5. *)
Inductive category := Cat1 | Cat3 | Cat5.

(** parameters.h:31-139. Q is 127 in every set and is inlined below.
    [p_maxbytes] is SEED_TREE_MAX_PUBLISHED_BYTES. *)
Record params := {
  p_cat : category;
  pN : nat;
  pK : nat;
  p_nk : nat;       (* NUM_KEYPAIRS *)
  pT : nat;
  pW : nat;
  p_maxbytes : Z }.

(** parameters.h:40-135, the seven supported parameter sets. *)
Definition cat1_balanced     := Build_params Cat1 252 126 2 247 30 1472.
Definition cat1_intermediate := Build_params Cat1 252 126 4 244 20 1152.
Definition cat1_short_sig    := Build_params Cat1 252 126 8 198 17 1056.
Definition cat3_balanced     := Build_params Cat3 400 200 2 759 33 3912.
Definition cat3_short_sig    := Build_params Cat3 400 200 3 895 26 3264.
Definition cat5_balanced     := Build_params Cat5 548 274 2 1352 40 7168.
Definition cat5_short_sig    := Build_params Cat5 548 274 3 907 37 5600.

Definition less_params : list params :=
  [cat1_balanced; cat1_intermediate; cat1_short_sig;
   cat3_balanced; cat3_short_sig; cat5_balanced; cat5_short_sig].

(** parameters.h:33,73,106 SEED_LENGTH_BYTES *)
Definition seed_len (p : params) : nat :=
  match p_cat p with Cat1 => 16 | Cat3 => 24 | Cat5 => 32 end.

(** parameters.h:147,150 HASH_DIGEST_LENGTH, PRIVATE_KEY_SEED_LENGTH_BYTES *)
Definition hash_len (p : params) : nat := 2 * seed_len p.
Definition prikey_seed_len (p : params) : nat := 2 * seed_len p.

(** parameters.h:144 MAX_PUBLISHED_SEEDS *)
Definition max_seeds (p : params) : Z := p_maxbytes p / Z.of_nat (seed_len p).

(** parameters.h:37,86,99,119,132: POSITION_T is uint8_t in category 1 and
    uint16_t otherwise; [pos_t] is the conversion to that type. *)
Definition pos_mod (p : params) : Z :=
  match p_cat p with Cat1 => 256 | _ => 65536 end.
Definition pos_t (p : params) (x : Z) : Z := x mod pos_mod p.

(** parameters.h:156-178 *)
Definition is_representable_in (D n : Z) : Z :=
  if (2 ^ (D - 1) <=? n) && (n <? 2 ^ D) then D else -1.

Definition bits_to_represent (n : Z) : Z :=
  if n =? 0 then 1
  else 15 + is_representable_in 1 n + is_representable_in 2 n + is_representable_in 3 n
          + is_representable_in 4 n + is_representable_in 5 n + is_representable_in 6 n
          + is_representable_in 7 n + is_representable_in 8 n + is_representable_in 9 n
          + is_representable_in 10 n + is_representable_in 11 n + is_representable_in 12 n
          + is_representable_in 13 n + is_representable_in 14 n + is_representable_in 15 n
          + is_representable_in 16 n.

(** parameters.h:152-153 MASK_Q, MASK_N *)
Definition mask_q : Z := 2 ^ bits_to_represent 127 - 1.
Definition mask_n (p : params) : Z := 2 ^ bits_to_represent (Z.of_nat (pN p)) - 1.

(** parameters.h:180-181 *)
Definition tree_height (p : params) : nat := Z.to_nat (bits_to_represent (Z.of_nat (pT p))).
Definition num_leaves (p : params) : nat := 2 ^ tree_height p.
Definition num_nodes (p : params) : nat := 2 * num_leaves p - 1.

(** parameters.h:183 RREF_MAT_PACKEDBYTES *)
Definition rref_bytes (p : params) : nat :=
  Z.to_nat ((bits_to_represent 127 * (Z.of_nat (pN p) - Z.of_nat (pK p)) * Z.of_nat (pK p) + 7) / 8
            + (Z.of_nat (pN p) + 7) / 8).

(** parameters.h:186 MONO_ACTION_PACKEDBYTES *)
Definition mono_bytes (p : params) : nat :=
  Z.to_nat ((bits_to_represent 127 * Z.of_nat (pK p) + 7) / 8
            + (bits_to_represent (Z.of_nat (pN p)) * Z.of_nat (pK p) + 7) / 8).

(** parameters.h:192-193 LESS_CRYPTO_MAX_BYTES and LESS_CRYPTO_BYTES(n), a uint32_t *)
Definition less_crypto_max_bytes (p : params) : Z :=
  Z.of_nat (hash_len p) * 2 + Z.of_nat (mono_bytes p) * Z.of_nat (pW p) + p_maxbytes p + 1.
Definition less_crypto_bytes (p : params) (n : Z) : Z :=
  u32 (Z.of_nat (hash_len p) * 2 + Z.of_nat (mono_bytes p) * Z.of_nat (pW p)
       + n * Z.of_nat (seed_len p) + 1).

(** include/LESS.h: sign_t { tree_salt[HASH]; monom_actions[W][MONO]; digest[HASH];
    seed_storage[SEED_TREE_MAX_PUBLISHED_BYTES+1] }: offsets of the fields
    (arrays of unsigned char, hence no padding). *)
Definition off_salt (p : params) : nat := 0.
Definition off_monom (p : params) (i : nat) : nat := hash_len p + i * mono_bytes p.
Definition off_digest (p : params) : nat := hash_len p + pW p * mono_bytes p.
Definition off_seeds (p : params) : nat := hash_len p + pW p * mono_bytes p + hash_len p.
Definition seed_storage_len (p : params) : nat := Z.to_nat (p_maxbytes p) + 1.
Definition sizeof_sign (p : params) : nat := off_seeds p + seed_storage_len p.

(** include/LESS.h: pubkey_t { G_0_seed[SEED]; SF_G[NUM_KEYPAIRS-1][RREF_MAT_PACKEDBYTES] } *)
Definition off_sf (p : params) (i : nat) : nat := seed_len p + i * rref_bytes p.
Definition sizeof_pk (p : params) : nat := seed_len p + (p_nk p - 1) * rref_bytes p.

(** include/LESS.h: prikey_t { compressed_sk[PRIVATE_KEY_SEED_LENGTH_BYTES]; G_0_seed[SEED] } *)
Definition off_sk_g0 (p : params) : nat := prikey_seed_len p.
Definition sizeof_sk (p : params) : nat := prikey_seed_len p + seed_len p.

(** parameters.h:188-189 LESS_CRYPTO_PUBLICKEYBYTES, LESS_CRYPTO_SECRETKEYBYTES (used nowhere) *)
Definition less_crypto_publickeybytes (p : params) : nat := p_nk p * rref_bytes p.
Definition less_crypto_secretkeybytes (p : params) : nat := (p_nk p - 1) * seed_len p + rref_bytes p.

(** Conditions on a parameter set under which the theorems hold.
    They are proved of the seven sets above in [ParamsProofs.v]. *)
Record wf_params (p : params) : Prop := {
  wf_K : (1 <= pK p < pN p)%nat;
  wf_cat : match p_cat p with
           | Cat1 => (128 <= pN p < 256 /\ pN p mod 8 = 4)%nat
           | Cat3 => (256 <= pN p < 512 /\ pN p mod 8 = 0 /\ pK p mod 8 = 0)%nat
           | Cat5 => (512 <= pN p < 1024 /\ pN p mod 8 = 4 /\ pK p mod 8 = 2)%nat
           end;
  wf_nk : (2 <= p_nk p <= 128)%nat;
  wf_W : (1 <= pW p <= pT p)%nat;
  wf_T : (2 <= pT p <= 2048)%nat;
  (** round numbers fit in POSITION_T *)
  wf_pos : Z.of_nat (pT p) <= pos_mod p;
  (** SEED_TREE_MAX_PUBLISHED_BYTES as computed by
      Utilities/Parameter_Generation_Scripts/seed_tree_param_computer.py *)
  wf_max : p_maxbytes p = Z.of_nat (seed_len p) *
             (2 ^ Z.log2_up (Z.of_nat (pW p))
              + Z.of_nat (pW p) * (Z.of_nat (tree_height p) - Z.log2_up (Z.of_nat (pW p)) - 1));
  wf_max_byte : max_seeds p < 256 }.
