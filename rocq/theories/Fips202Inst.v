(** The primitives of LESS: the interface of Prim.v implemented by the model of fips202.c, as in sha3.h and rng.c.
    A state is a context together with the fact that it is one the functions can reach: 25 lanes of 64 bits and a
    position below the rate. *)
From Verif Require Import Base BaseLemmas Params Prim Keccak KeccakSpec KeccakProofs Fips202 Fips202Proofs.

Record rate := { rate_n :> nat; rate_1 : (1 <= rate_n)%nat; rate_2 : (rate_n <= 200)%nat }.
Definition state (r : rate) : Type := { c : incctx | ctx_ok r c }.

Definition or_else {A} (m : res A) (d : A) : A := match m with Ok a => a | _ => d end.

Ltac rt r := first [assumption | (pose proof (rate_1 r); pose proof (rate_2 r); assumption) | idtac].

Lemma init_ok (r : rate) : ctx_ok r keccak_inc_init.
Proof. split. apply lanes_init. cbn [snd keccak_inc_init]. pose proof (rate_1 r). lia. Qed.
Lemma absorb_ok (r : rate) (s : state r) m : ctx_ok r (or_else (keccak_inc_absorb r (proj1_sig s) m) (proj1_sig s)).
Proof.
  destruct s as [c Hc]. cbn [proj1_sig]. rewrite inc_absorb_ok by rt r. cbn [or_else].
  apply astep_fold_ok; rt r.
Qed.
Lemma final_ok (r : rate) p (s : state r) : ctx_ok r (or_else (keccak_inc_finalize r (proj1_sig s) p) (proj1_sig s)).
Proof. destruct s as [c Hc]. cbn [proj1_sig]. rewrite inc_finalize_ok by rt r. apply ffinal_ok; rt r. Qed.
Lemma squeeze_ok (r : rate) n (s : state r) :
  ctx_ok r (snd (or_else (keccak_inc_squeeze r (repeat 0 n) n (proj1_sig s)) (repeat 0 n, proj1_sig s))).
Proof.
  destruct s as [c Hc]. cbn [proj1_sig]. rewrite inc_squeeze_ok by (rt r; rewrite ?repeat_length; auto).
  apply sq_ok; rt r.
Qed.

Definition s_init (r : rate) : state r := exist _ keccak_inc_init (init_ok r).
Definition s_absorb (r : rate) (s : state r) (m : list Z) : state r := exist _ _ (absorb_ok r s m).
Definition s_final (r : rate) (p : Z) (s : state r) : state r := exist _ _ (final_ok r p s).
Definition s_squeeze (r : rate) (n : nat) (s : state r) : list Z * state r :=
  (fst (or_else (keccak_inc_squeeze r (repeat 0 n) n (proj1_sig s)) (repeat 0 n, proj1_sig s)), exist _ _ (squeeze_ok r n s)).
(** [n] digest bytes; the local block of sha3_..._inc_finalize is taken to be zero, it does not matter
    (C25_sha3_incremental). *)
Definition s_digest (r : rate) (n : nat) (s : state r) : list Z :=
  or_else (sha3_inc_finalize r n (repeat 0 n) (repeat 0 r) (proj1_sig s)) (repeat 0 n).

Definition rate168 : rate := {| rate_n := SHAKE128_RATE; rate_1 := ltac:(vm_compute; lia); rate_2 := ltac:(vm_compute; lia) |}.
Definition rate136 : rate := {| rate_n := SHAKE256_RATE; rate_1 := ltac:(vm_compute; lia); rate_2 := ltac:(vm_compute; lia) |}.
Definition rate104 : rate := {| rate_n := SHA3_384_RATE; rate_1 := ltac:(vm_compute; lia); rate_2 := ltac:(vm_compute; lia) |}.
Definition rate72 : rate := {| rate_n := SHA3_512_RATE; rate_1 := ltac:(vm_compute; lia); rate_2 := ltac:(vm_compute; lia) |}.

(** sha3.h:122-126 and sha3.h:177-195: SHAKE128 for category 1 and SHAKE256 otherwise; SHA-3 with the digest length
    of the category. *)
Definition xof_rate (p : params) : rate := match p_cat p with Cat1 => rate168 | _ => rate136 end.
Definition hash_rate (p : params) : rate := match p_cat p with Cat1 => rate136 | Cat3 => rate104 | Cat5 => rate72 end.

(** initialize_csprng (rng.c:40-48), csprng_randombytes (rng.h:36-41), LESS_SHA3_INC_* (sha3.h:177-195). The lengths
    passed as unsigned int fit: seeds and requests are shorter than 2^32. *)
Definition lessX (p : params) : prim :=
  {| xstate := state (xof_rate p);
     x_init := fun seed => s_final _ 31 (s_absorb _ (s_init _) seed);
     x_squeeze := s_squeeze (xof_rate p);
     hstate := state (hash_rate p);
     h_init := s_init _;
     h_absorb := s_absorb (hash_rate p);
     h_final := s_digest (hash_rate p) (hash_len p) |}.

Lemma s_squeeze_eq (r : rate) n (s : state r) : fst (s_squeeze r n s) = fst (sq r n (proj1_sig s)) /\ proj1_sig (snd (s_squeeze r n s)) = snd (sq r n (proj1_sig s)).
Proof.
  destruct s as [c Hc]. cbn [s_squeeze fst snd proj1_sig]. rewrite inc_squeeze_ok by (rt r; rewrite ?repeat_length; auto).
  cbn [or_else fst snd]. rewrite skipn_all2 by (rewrite repeat_length; auto). rewrite app_nil_r. auto.
Qed.

Lemma s_absorb_eq (r : rate) (s : state r) m : proj1_sig (s_absorb r s m) = fold_left (astep r) m (proj1_sig s).
Proof. destruct s as [c Hc]. cbn [s_absorb proj1_sig]. rewrite inc_absorb_ok by rt r. reflexivity. Qed.

Lemma s_final_eq (r : rate) p (s : state r) : proj1_sig (s_final r p s) = ffinal r p (proj1_sig s).
Proof. destruct s as [c Hc]. cbn [s_final proj1_sig]. rewrite inc_finalize_ok by rt r. reflexivity. Qed.

Lemma s_digest_eq (r : rate) n (s : state r) : (n <= r)%nat -> s_digest r n s = fst (sq r n (ffinal r 6 (proj1_sig s))).
Proof.
  intros Hn. destruct s as [c Hc]. unfold s_digest. cbn [proj1_sig].
  rewrite sha3_inc_finalize_ok by (rt r; rewrite ?repeat_length; auto). cbn [or_else].
  rewrite skipn_all2 by (rewrite repeat_length; auto). apply app_nil_r.
Qed.

Lemma hash_fits p : (hash_len p <= hash_rate p)%nat.
Proof. apply Nat.leb_le. unfold hash_len, seed_len, hash_rate. destruct (p_cat p); reflexivity. Qed.

Theorem lessX_lawful p : lawful (lessX p) (hash_len p).
Proof.
  constructor.
  - intros n s. change (length (fst (s_squeeze (xof_rate p) n s)) = n). rewrite (proj1 (s_squeeze_eq _ n s)). apply sq_length; [apply rate_1|apply rate_2].
  - intros n s. change (bytes (fst (s_squeeze (xof_rate p) n s))). rewrite (proj1 (s_squeeze_eq _ n s)). apply sq_bytes.
  - intros s. change (length (s_digest (hash_rate p) (hash_len p) s) = hash_len p). rewrite s_digest_eq by apply hash_fits. apply sq_length; [apply rate_1|apply rate_2].
  - intros s. change (bytes (s_digest (hash_rate p) (hash_len p) s)). rewrite s_digest_eq by apply hash_fits. apply sq_bytes.
  - intros s a b _ _.
    change (s_digest (hash_rate p) (hash_len p) (s_absorb _ (s_absorb _ s a) b) = s_digest (hash_rate p) (hash_len p) (s_absorb _ s (a ++ b))).
    rewrite !s_digest_eq by apply hash_fits. rewrite !s_absorb_eq, fold_left_app. reflexivity.
Qed.
