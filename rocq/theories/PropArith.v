(** Properties C22 (field arithmetic), C31 (digest comparison), C35 (distinct XOF inputs) and
    C36 (declared sizes). *)
From Verif Require Import Base BaseLemmas Params ParamsProofs Fq Prim Samplers Monomial SeedTree Less Spec
  FqProofs VerifyProofs BitCodec.

(** *** C22 *)

(** fq_red is reduction modulo 127 on the whole range of its uint16_t argument. *)
Theorem C22_reduction : forall x, 0 <= x < 65536 -> fq_red x = x mod 127.
Proof. exact fq_red_spec. Qed.

(** Products of any two bytes fit the uint16_t argument, so multiplication is exact. *)
Theorem C22_product : forall a b, 0 <= a < 256 -> 0 <= b < 256 -> fq_red (a * b) = (a * b) mod 127.
Proof. intros a b Ha Hb. apply fq_red_spec. nia. Qed.

Lemma fq_inv_pow_sweep : forallb (fun x => fq_inv x =? (x ^ 125) mod 127) (zrange 256) = true.
Proof. vm_compute. reflexivity. Qed.

(** fq_inv computes x^125 mod 127 exactly: no truncation in the square-and-multiply loop loses
    anything, for every byte. *)
Theorem C22_power : forall x, 0 <= x < 256 -> fq_inv x = (x ^ 125) mod 127.
Proof.
  intros x Hx. pose proof fq_inv_pow_sweep as S. rewrite forallb_forall in S.
  apply Z.eqb_eq, S. apply in_zrange. lia.
Qed.

(** fq_inv is the inverse of every byte not divisible by 127 and 0 on the two that are. *)
Theorem C22_inverse : forall x, 0 <= x < 256 ->
  0 <= fq_inv x < 127 /\
  (x mod 127 <> 0 -> (fq_inv x * x) mod 127 = 1) /\ (x mod 127 = 0 -> fq_inv x = 0).
Proof.
  intros x Hx. split. apply fq_inv_range.
  destruct (fq_inv_cases x Hx) as [[H1 H2]|[H1 H2]]; split; intros; auto; try congruence.
  rewrite (proj1 (cong_iff _ _) H2). reflexivity.
Qed.

(** The subtraction of an elimination step (uint16_t: 127 + g - t) does not wrap and is exact. *)
Theorem C22_subtraction : forall m v g, 0 <= m < 127 -> 0 <= v < 127 -> 0 <= g < 127 ->
  u8 (fq_red (u16 (127 + g - fq_red (m * v)))) = (g - m * v) mod 127.
Proof.
  intros m v g Hm Hv Hg. assert (B := fq_mul_bound m v Hm Hv).
  rewrite (fq_red_spec (m * v)) by auto.
  assert (R := Z.mod_pos_bound (m * v) 127 ltac:(lia)).
  rewrite u16_id by lia. rewrite fq_red_spec by lia.
  rewrite u8_id by (pose proof (Z.mod_pos_bound (127 + g - (m * v) mod 127) 127 ltac:(lia)); lia).
  replace (127 + g - (m * v) mod 127) with (g - (m * v) mod 127 + 1 * 127) by lia.
  rewrite Z.mod_add by lia. rewrite Zminus_mod_idemp_r. reflexivity.
Qed.

Example C22_example : fq_red 65535 = 3 /\ fq_inv 5 = 51 /\ (51 * 5) mod 127 = 1 /\ fq_inv 254 = 0.
Proof. repeat split; vm_compute; reflexivity. Qed.

(** *** C31 *)

(** The comparison returns 0 exactly on equal buffers and 1 otherwise. *)
Theorem C31_memcmp : forall a b n, (n <= length a)%nat -> (n <= length b)%nat ->
  exists d, timing_safe_memcmp a b n = Ok d /\ (d = 0 \/ d = 1) /\
    (d = 0 <-> forall i, (i < n)%nat -> nth i a 0 = nth i b 0).
Proof.
  intros a b n Ha Hb. pose proof (timing_safe_memcmp_spec a b n Ha Hb) as H.
  destruct H as (d & E0 & H1 & H2). exists d. split; [exact E0|]. split; [exact H1|]. split.
  - intros E i Hi. apply H2 in E. rewrite <- (nth_firstn a n i), <- (nth_firstn b n i) by auto. congruence.
  - intros E. apply H2. apply (list_ext 0); rewrite !firstn_length; [lia|].
    intros i Hi. rewrite !nth_firstn by lia. apply E. lia.
Qed.

(** There is no early exit: the accesses do not depend on the contents, since a buffer that is too
    short is always overrun, even when the first bytes already differ. *)
Theorem C31_no_early_exit : forall a b n, (length a < n)%nat \/ (length b < n)%nat ->
  timing_safe_memcmp a b n = UB.
Proof.
  intros a b n. unfold timing_safe_memcmp. set (body := fun i d => _).
  assert (G : forall n start d, (start <= length a)%nat -> (start <= length b)%nat ->
    (length a < start + n)%nat \/ (length b < start + n)%nat -> for_ n start body d = UB).
  { clear n. induction n; intros start d H1 H2 H3; [lia|]. cbn [for_]. unfold body at 1.
    destruct (Nat.eq_dec start (length a)). { rewrite get_ub by lia. reflexivity. }
    rewrite (get_ok a start 0) by lia. cbn [bind].
    destruct (Nat.eq_dec start (length b)). { rewrite get_ub by lia. reflexivity. }
    rewrite (get_ok b start 0) by lia. cbn [bind]. apply IHn; lia. }
  intros H. apply G; lia.
Qed.

Example C31_example : timing_safe_memcmp [7; 8; 9] [7; 8; 1] 3 = Ok 1 /\ timing_safe_memcmp [7; 8; 9] [7; 8; 1] 2 = Ok 0 /\
  timing_safe_memcmp [1; 2] [9; 9; 9] 3 = UB.
Proof. repeat split; reflexivity. Qed.

(** *** C35 *)

(** The string absorbed to expand round [i] determines the seed, the salt and the round. *)
Theorem C35_round_inputs : forall p, wf_params p -> exists input : list Z -> list Z -> nat -> list Z,
  (forall X fuel r seed salt i,
     monomial_mat_seed_expand_salt_rnd X p fuel r seed salt i =
     monomial_mat_seed_expand_prikey X p fuel r (input seed salt i)) /\
  (forall seed salt i seed' salt' i',
     length seed = seed_len p -> length seed' = seed_len p ->
     length salt = hash_len p -> length salt' = hash_len p -> (i < pT p)%nat -> (i' < pT p)%nat ->
     input seed salt i = input seed' salt' i' -> seed = seed' /\ salt = salt' /\ i = i').
Proof.
  intros p wf. exists (fun seed salt i => seed ++ salt ++ round_bytes i). split.
  { intros. reflexivity. }
  intros seed salt i seed' salt' i' L1 L2 L3 L4 Hi Hi' E.
  assert (A : forall (a a' b b' : list Z), length a = length a' -> a ++ b = a' ++ b' -> a = a' /\ b = b').
  { clear. induction a as [|x a IH]; intros [|y a'] b b' H E; cbn in *; try discriminate; auto.
    injection E as -> E. destruct (IH a' b b') as [-> ->]; auto. }
  apply A in E; [|congruence]. destruct E as [-> E]. apply A in E; [|congruence]. destruct E as [-> E].
  repeat split; auto. pose proof (wf_T p wf).
  unfold round_bytes in E. rewrite !u16_id in E by lia. cbn [le_bytes] in E. injection E as E1 E2.
  lia.
Qed.

(** Strings absorbed for round monomials, for the children of tree nodes, for the expansion of a
    generator and for the expansion of a key pair seed (or a digest) have four different lengths, so
    none of the first three is ever confused with another. *)
Theorem C35_domains : forall p X fuel r seed salt i tree node t', wf_params p ->
  length seed = seed_len p -> length salt = hash_len p ->
  (exists s, length s = (seed_len p + hash_len p + 2)%nat /\
     monomial_mat_seed_expand_salt_rnd X p fuel r seed salt i = monomial_mat_seed_expand_prikey X p fuel r s) /\
  (Forall (fun s => length s = seed_len p) tree -> expand_children X p tree salt node = Ok t' ->
   exists s bs, length s = (hash_len p + seed_len p)%nat /\ bs = fst (x_squeeze X (2 * seed_len p) (x_init X s)) /\
     t' = upd (upd tree (2 * node + 1) (firstn (seed_len p) bs)) (2 * node + 2) (skipn (seed_len p) bs)) /\
  (seed_len p < hash_len p < hash_len p + seed_len p)%nat /\
  prikey_seed_len p = hash_len p.
Proof.
  intros p X fuel r seed salt i tree node t' wf L1 L2. split; [|split; [|split]].
  - exists (seed ++ salt ++ round_bytes i). split; [|reflexivity].
    rewrite !app_length. unfold round_bytes. cbn [le_bytes length]. lia.
  - intros HT HB. unfold expand_children in HB. destruct (Nat.lt_ge_cases node (length tree)) as [Hn|Hn].
    2:{ rewrite get_ub in HB by lia. discriminate. }
    rewrite (get_ok tree node []) in HB by auto. cbn [bind] in HB.
    exists (salt ++ nth node tree []).
    destruct (x_squeeze X (2 * seed_len p) (x_init X (salt ++ nth node tree []))) as [bs st] eqn:E.
    apply bind_ok in HB. destruct HB as (t1 & H1 & H2).
    apply set_inv in H1. apply set_inv in H2. destruct H1 as [_ ->]. destruct H2 as [_ ->].
    exists bs. cbn [fst]. repeat split; auto. rewrite app_length, L2.
    rewrite Forall_forall in HT. rewrite (HT (nth node tree [])); auto. apply nth_In. auto.
  - unfold hash_len, seed_len. destruct (p_cat p); lia.
  - reflexivity.
Qed.

Example C35_example : round_bytes 258 = [2; 1] /\ round_bytes 1 <> round_bytes 257 /\
  (hash_len cat1_balanced, seed_len cat1_balanced) = (32, 16)%nat.
Proof. repeat split. discriminate. Qed.

(** *** C36 *)

(** The struct sign_t has the declared size. *)
Theorem C36_sizeof_sign : forall p, wf_params p -> Z.of_nat (sizeof_sign p) = less_crypto_max_bytes p.
Proof.
  intros p wf. unfold sizeof_sign, less_crypto_max_bytes, off_seeds, seed_storage_len.
  assert (0 <= p_maxbytes p); [|lia].
  pose proof (wf_max_byte p wf). rewrite (wf_max p wf). pose proof (wf_W p wf). pose proof (wf_T p wf).
  assert (0 <= Z.log2_up (Z.of_nat (pW p))) by apply Z.log2_up_nonneg.
  assert (Z.log2_up (Z.of_nat (pW p)) <= Z.of_nat (tree_height p)).
  { unfold tree_height. rewrite bits_spec by lia.
    rewrite Z2Nat.id by (pose proof (Z.log2_nonneg (Z.of_nat (pT p))); lia).
    transitivity (Z.log2_up (Z.of_nat (pT p))). apply Z.log2_up_le_mono; lia.
    apply Z.le_log2_up_succ_log2. }
  assert (Z.of_nat (pW p) <= 2 ^ Z.log2_up (Z.of_nat (pW p))).
  { destruct (Nat.eq_dec (pW p) 1) as [->|]. { vm_compute; discriminate. } pose proof (Z.log2_up_spec (Z.of_nat (pW p)) ltac:(lia)). lia. }
  assert (0 <= Z.of_nat (seed_len p)) by lia. apply Z.mul_nonneg_nonneg; auto.
  destruct (Z.eq_dec (Z.of_nat (tree_height p)) (Z.log2_up (Z.of_nat (pW p)))) as [E|E].
  - rewrite E. nia.
  - assert (0 <= Z.of_nat (tree_height p) - Z.log2_up (Z.of_nat (pW p)) - 1) by lia. nia.
Qed.

(** The macro BITS_TO_REPRESENT is the binary length, for all 16-bit arguments. *)
Theorem C36_bits : forall n, 0 < n < 65536 -> 2 ^ (bits_to_represent n - 1) <= n < 2 ^ bits_to_represent n.
Proof.
  intros n H. rewrite bits_spec by lia. destruct (Z.log2_spec n) as [A B]; [lia|].
  replace (Z.log2 n + 1 - 1) with (Z.log2 n) by lia. rewrite <- Z.add_1_r in B. lia.
Qed.

(** The types chosen for positions, rounds, key indices, counts and lengths hold every value used,
    and the declared sizes have no rounding gaps, in each of the seven parameter sets. *)
Definition sizes_ok (p : params) : Prop :=
  Z.of_nat (pN p) < pos_mod p /\ Z.of_nat (pT p) < pos_mod p /\ Z.of_nat (pT p) <= 65536 /\
  Z.of_nat (p_nk p) < 256 /\ Z.of_nat (pW p) < 256 /\ max_seeds p < 256 /\
  Z.of_nat (num_nodes p) * Z.of_nat (seed_len p) < 2 ^ 31 /\
  (pT p <= num_leaves p)%nat /\
  p_maxbytes p = max_seeds p * Z.of_nat (seed_len p) /\
  less_crypto_bytes p (max_seeds p) = less_crypto_max_bytes p /\
  (forall n, 0 <= n <= max_seeds p ->
     less_crypto_bytes p n = Z.of_nat (off_seeds p) + n * Z.of_nat (seed_len p) + 1 /\
     less_crypto_bytes p n <= less_crypto_max_bytes p) /\
  8 * Z.of_nat (rref_bytes p) - 7 <= 8 * ((Z.of_nat (pN p) + 7) / 8) + 7 * Z.of_nat (pK p) * Z.of_nat (pN p - pK p)
    <= 8 * Z.of_nat (rref_bytes p) /\
  8 * Z.of_nat (mono_bytes p) - 7 <= (7 + bits_to_represent (Z.of_nat (pN p))) * Z.of_nat (pK p)
    <= 8 * Z.of_nat (mono_bytes p).

Theorem C36_sizes : Forall sizes_ok less_params.
Proof.
  unfold less_params. repeat (apply Forall_cons || apply Forall_nil).
  all: unfold sizes_ok; split; [vm_compute; reflexivity|]; split; [vm_compute; reflexivity|];
    split; [vm_compute; discriminate|]; split; [vm_compute; reflexivity|]; split; [vm_compute; reflexivity|];
    split; [vm_compute; reflexivity|]; split; [vm_compute; reflexivity|].
  all: split; [apply Nat.leb_le; vm_compute; reflexivity|]; split; [vm_compute; reflexivity|];
    split; [vm_compute; reflexivity|].
  all: split; [|split; split; vm_compute; discriminate].
  all: intros n Hn; match type of Hn with 0 <= n <= max_seeds ?p =>
      let m := eval vm_compute in (max_seeds p) in change (max_seeds p) with m in Hn;
      let o := eval vm_compute in (Z.of_nat (off_seeds p)) in change (Z.of_nat (off_seeds p)) with o;
      let b := eval vm_compute in (Z.of_nat (hash_len p) * 2 + Z.of_nat (mono_bytes p) * Z.of_nat (pW p)) in
      unfold less_crypto_bytes; change (Z.of_nat (hash_len p) * 2 + Z.of_nat (mono_bytes p) * Z.of_nat (pW p)) with b;
      let s := eval vm_compute in (Z.of_nat (seed_len p)) in change (Z.of_nat (seed_len p)) with s;
      let mm := eval vm_compute in (less_crypto_max_bytes p) in change (less_crypto_max_bytes p) with mm end;
    unfold u32; rewrite Z.mod_small by lia; lia.
Qed.

(** The two size macros that nothing uses do not describe the key structs. *)
Theorem C36_key_size_macros_refuted :
  Forall (fun p => less_crypto_publickeybytes p <> sizeof_pk p /\ less_crypto_secretkeybytes p <> sizeof_sk p) less_params.
Proof.
  assert (H : forallb (fun p => negb (less_crypto_publickeybytes p =? sizeof_pk p)%nat &&
     negb (less_crypto_secretkeybytes p =? sizeof_sk p)%nat) less_params = true) by (vm_compute; reflexivity).
  apply Forall_forall. intros p Hp. rewrite forallb_forall in H. apply H in Hp.
  apply andb_prop in Hp. destruct Hp as [A B]. apply negb_true_iff, Nat.eqb_neq in A, B. auto.
Qed.

Example C36_example :
  map (fun p => (less_crypto_max_bytes p, Z.of_nat (sizeof_pk p), Z.of_nat (sizeof_sk p))) less_params =
  [(8647, 13940, 48); (5957, 41788, 48); (5150, 97484, 48); (17209, 35074, 72); (13761, 70124, 72);
   (30617, 65793, 96); (27300, 131554, 96)].
Proof. vm_compute. reflexivity. Qed.

Print Assumptions C22_reduction.
Print Assumptions C22_product.
Print Assumptions C22_power.
Print Assumptions C22_inverse.
Print Assumptions C22_subtraction.
Print Assumptions C31_memcmp.
Print Assumptions C31_no_early_exit.
Print Assumptions C35_round_inputs.
Print Assumptions C35_domains.
Print Assumptions C36_sizeof_sign.
Print Assumptions C36_bits.
Print Assumptions C36_sizes.
Print Assumptions C36_key_size_macros_refuted.
