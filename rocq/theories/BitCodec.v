(** Bit packing: single steps of the encoders and decoders. *)
From Verif Require Import Base BaseLemmas Params ParamsProofs Monomial.

(** *** Little-endian integers *)
Lemma pow256 n : 256 ^ Z.of_nat n = 2 ^ (8 * Z.of_nat n).
Proof. rewrite Z.pow_mul_r by lia. reflexivity. Qed.

Lemma le_val_app a b : le_val (a ++ b) = le_val a + 256 ^ Z.of_nat (length a) * le_val b.
Proof.
  induction a; cbn [app le_val length]. { rewrite Z.pow_0_r. lia. }
  rewrite IHa. rewrite Nat2Z.inj_succ, Z.pow_succ_r by lia. ring.
Qed.

Lemma le_val_range l : bytes l -> 0 <= le_val l < 256 ^ Z.of_nat (length l).
Proof.
  induction 1 as [|x l Hx Hl IH]; cbn [le_val length]. { rewrite Z.pow_0_r. lia. }
  unfold is_byte in Hx. rewrite Nat2Z.inj_succ, Z.pow_succ_r by lia. lia.
Qed.

Lemma le_val_split n l : (n <= length l)%nat ->
  le_val l = le_val (firstn n l) + 256 ^ Z.of_nat n * le_val (skipn n l).
Proof.
  intros H. rewrite <- (firstn_skipn n l) at 1. rewrite le_val_app, firstn_length, Nat.min_l by lia. auto.
Qed.

Lemma firstn_S {A} (l : list A) n d : (n < length l)%nat -> firstn (S n) l = firstn n l ++ [nth n l d].
Proof.
  revert n. induction l; intros n H; simpl in *; [lia|]. destruct n; auto. simpl. f_equal. apply IHl. lia.
Qed.

Lemma skipn_S {A} (l : list A) n d : (n < length l)%nat -> skipn n l = nth n l d :: skipn (S n) l.
Proof.
  revert n. induction l; intros n H; simpl in *; [lia|]. destruct n; auto. apply IHl. lia.
Qed.

Lemma firstn_upd_ge {A} (l : list A) n i x : (n <= i)%nat -> firstn n (upd l i x) = firstn n l.
Proof.
  revert n i. induction l; intros n i H; simpl; auto. destruct n; auto. destruct i; [lia|].
  simpl. f_equal. apply IHl. lia.
Qed.

Lemma bytes_upd l i x : bytes l -> is_byte x -> bytes (upd l i x).
Proof. apply Forall_upd. Qed.

Lemma bytes_nth l i : bytes l -> (i < length l)%nat -> is_byte (nth i l 0).
Proof. intros H Hi. unfold bytes in H. rewrite Forall_forall in H. apply H. apply nth_In; auto. Qed.

(** *** Bit operations as arithmetic *)
Lemma testbit_high a n k : 0 <= n -> 0 <= a < 2 ^ n -> n <= k -> Z.testbit a k = false.
Proof.
  intros Hn Ha Hk. rewrite <- (Z.mod_small a (2 ^ n)) by auto. apply Z.mod_pow2_bits_high. lia.
Qed.

Lemma lor_add a b n : 0 <= n -> 0 <= a < 2 ^ n -> Z.lor a (Z.shiftl b n) = a + b * 2 ^ n.
Proof.
  intros Hn Ha. rewrite <- Z.shiftl_mul_pow2 by auto.
  assert (D : Z.land a (Z.shiftl b n) = 0).
  { apply Z.bits_inj'. intros k Hk. rewrite Z.land_spec, Z.bits_0.
    destruct (Z.lt_ge_cases k n).
    - rewrite Z.shiftl_spec_low by auto. apply andb_false_r.
    - rewrite (testbit_high a n k) by auto. auto. }
  rewrite Z.add_nocarry_lxor by auto.
  apply Z.bits_inj'. intros k Hk. rewrite Z.lxor_spec, Z.lor_spec.
  assert (T : Z.testbit a k && Z.testbit (Z.shiftl b n) k = false).
  { rewrite <- Z.land_spec, D. apply Z.bits_0. }
  destruct (Z.testbit a k), (Z.testbit (Z.shiftl b n) k); auto; discriminate.
Qed.

Lemma land_pred x n : 0 <= n -> Z.land x (2 ^ n - 1) = x mod 2 ^ n.
Proof. intros H. rewrite Z.sub_1_r, <- Z.ones_equiv. apply Z.land_ones. auto. Qed.

(** [(x / 2^q) mod 2^b] only depends on [x mod 2^t] when q + b <= t. *)
Lemma slice_mod x t q b : 0 <= q -> 0 <= b -> q + b <= t -> (x mod 2 ^ t / 2 ^ q) mod 2 ^ b = (x / 2 ^ q) mod 2 ^ b.
Proof.
  intros Hq Hb Ht. apply Z.bits_inj'. intros k Hk.
  destruct (Z.lt_ge_cases k b).
  - rewrite !Z.mod_pow2_bits_low by lia. rewrite !Z.div_pow2_bits by lia.
    rewrite Z.mod_pow2_bits_low by lia. auto.
  - rewrite !Z.mod_pow2_bits_high by lia. auto.
Qed.

Lemma slice_add s r t q b : 0 <= q -> 0 <= b -> q + b <= t ->
  ((s + 2 ^ t * r) / 2 ^ q) mod 2 ^ b = (s / 2 ^ q) mod 2 ^ b.
Proof.
  intros Hq Hb Ht. rewrite <- (slice_mod (s + 2 ^ t * r) t), <- (slice_mod s t) by auto.
  rewrite (Z.mul_comm (2 ^ t)), Z.mod_add; auto. apply Z.pow_nonzero; lia.
Qed.

(** *** Streams of [b]-bit values *)
Fixpoint sval (b : Z) (l : list Z) : Z :=
  match l with [] => 0 | x :: r => x + 2 ^ b * sval b r end.

Lemma sval_app b l x : 0 <= b -> sval b (l ++ [x]) = sval b l + 2 ^ (b * Z.of_nat (length l)) * x.
Proof.
  intros Hb. induction l; cbn [app sval length].
  - change (Z.of_nat 0) with 0. rewrite !Z.mul_0_r, Z.pow_0_r. lia.
  - rewrite IHl. rewrite Nat2Z.inj_succ, Z.mul_succ_r, Z.pow_add_r by lia. ring.
Qed.

Lemma sval_range b l : 0 <= b -> Forall (fun x => 0 <= x < 2 ^ b) l -> 0 <= sval b l < 2 ^ (b * Z.of_nat (length l)).
Proof.
  intros Hb. induction 1 as [|x l Hx Hl IH]; cbn [sval length]. { change (Z.of_nat 0) with 0. rewrite Z.mul_0_r, Z.pow_0_r. lia. }
  rewrite Nat2Z.inj_succ, Z.mul_succ_r, Z.pow_add_r by lia.
  assert (0 < 2 ^ b) by (apply Z.pow_pos_nonneg; lia). nia.
Qed.

Lemma sval_nth b l j : 0 <= b -> Forall (fun x => 0 <= x < 2 ^ b) l -> (j < length l)%nat ->
  (sval b l / 2 ^ (b * Z.of_nat j)) mod 2 ^ b = nth j l 0.
Proof.
  intros Hb H. revert j. assert (P : 0 < 2 ^ b) by (apply Z.pow_pos_nonneg; lia).
  induction H as [|x l Hx Hl IH]; intros j Hj; cbn [length sval] in *; [lia|].
  destruct j; cbn [nth].
  - change (Z.of_nat 0) with 0. rewrite Z.mul_0_r, Z.pow_0_r, Z.div_1_r. rewrite (Z.mul_comm (2 ^ b)), Z.mod_add by lia.
    apply Z.mod_small. auto.
  - replace (b * Z.of_nat (S j)) with (b + b * Z.of_nat j) by lia. rewrite Z.pow_add_r by lia.
    rewrite <- Z.div_div by (try apply Z.pow_pos_nonneg; lia).
    rewrite (Z.mul_comm (2 ^ b) (sval b l)), Z.div_add by lia.
    rewrite (Z.div_small x) by auto. rewrite Z.add_0_l. apply IH. lia.
Qed.

(** *** Encoder steps *)

(** The first [t] bits of [buf] hold the integer [s]; the rest of the last byte is zero. *)
Definition encd (buf : list Z) (t s : Z) : Prop :=
  0 <= t <= 8 * Z.of_nat (length buf) /\ bytes buf /\ 0 <= s < 2 ^ t /\
  le_val (firstn (Z.to_nat ((t + 7) / 8)) buf) = s.

Lemma encd_byte buf idx u s : 1 <= u <= 7 -> encd buf (8 * Z.of_nat idx + u) s ->
  (idx < length buf)%nat /\ 0 <= nth idx buf 0 < 2 ^ u /\
  s = le_val (firstn idx buf) + 2 ^ (8 * Z.of_nat idx) * nth idx buf 0.
Proof.
  intros Hu ((H1 & H1') & H2 & H3 & H4).
  replace (Z.to_nat ((8 * Z.of_nat idx + u + 7) / 8)) with (S idx) in H4 by lia.
  assert (L : (idx < length buf)%nat) by lia. split; auto.
  rewrite (firstn_S buf idx 0) in H4 by auto. rewrite le_val_app in H4.
  rewrite firstn_length, Nat.min_l in H4 by lia. cbn [le_val] in H4. rewrite Z.mul_0_r, Z.add_0_r in H4.
  rewrite pow256 in H4. split; auto. 
  pose proof (bytes_nth buf idx H2 L) as B. unfold is_byte in B.
  pose proof (le_val_range (firstn idx buf) (Forall_firstn _ _ _ H2)) as R.
  rewrite Z.pow_add_r in H3 by lia. assert (0 < 2 ^ (8 * Z.of_nat idx)) by (apply Z.pow_pos_nonneg; lia).
  nia.
Qed.

Lemma mod_byte a b q : 0 <= a < 256 -> 0 <= q -> b = a + 256 * q -> a = b mod 256 /\ q = b / 256.
Proof. lia. Qed.

Lemma enc_split_spec buf idx u b v s t : 1 <= u <= 7 -> 1 <= b -> 9 <= u + b <= 16 ->
  0 <= v < 2 ^ b -> t = 8 * Z.of_nat idx + u -> encd buf t s -> t + b <= 8 * Z.of_nat (length buf) ->
  okp (enc_split buf idx v u (8 - u)) (fun '(buf', idx') =>
    length buf' = length buf /\ idx' = S idx /\ encd buf' (t + b) (s + 2 ^ t * v)).
Proof.
  intros Hu Hb Hub Hv -> HE HL. destruct (encd_byte buf idx u s Hu HE) as (L & C & Es).
  destruct HE as (H1 & H2 & H3 & H4).
  unfold enc_split. rewrite (get_ok _ idx 0) by auto. cbn [bind]. rewrite set_ok by auto. cbn [bind].
  assert (L2 : (S idx < length buf)%nat) by lia.
  rewrite set_ok by (rewrite upd_length; auto). cbn [bind]. apply okp_ok.
  set (c := nth idx buf 0) in *.
  rewrite lor_add by lia. rewrite Z.shiftr_div_pow2 by lia.
  assert (P8 : 2 ^ u * 2 ^ (8 - u) = 256) by (rewrite <- Z.pow_add_r by lia; replace (u + (8 - u)) with 8 by lia; reflexivity).
  assert (Pu : 0 < 2 ^ u) by (apply Z.pow_pos_nonneg; lia).
  assert (Pr : 0 < 2 ^ (8 - u)) by (apply Z.pow_pos_nonneg; lia).
  assert (Y : v / 2 ^ (8 - u) = (c + v * 2 ^ u) / 256).
  { rewrite <- P8. rewrite <- Z.div_div by lia. rewrite Z.div_add by lia. rewrite (Z.div_small c) by auto. auto. }
  assert (Yb : 0 <= v / 2 ^ (8 - u) < 256).
  { split. { apply Z.div_pos; lia. } apply Z.div_lt_upper_bound; auto.
    apply Z.lt_le_trans with (2 ^ b); [lia|]. replace 256 with (2 ^ 8) by reflexivity. rewrite <- Z.pow_add_r by lia.
    apply Z.pow_le_mono_r; lia. }
  set (y := v / 2 ^ (8 - u)) in *.
  split. { rewrite !upd_length. auto. } split; auto.
  split. { rewrite !upd_length. lia. }
  split. { apply bytes_upd. apply bytes_upd; auto. apply is_byte_u8. apply is_byte_u8. }
  split.
  { split. { assert (0 < 2 ^ (8 * Z.of_nat idx + u)) by (apply Z.pow_pos_nonneg; lia). nia. }
    rewrite (Z.pow_add_r _ _ b) by lia. nia. }
  replace (Z.to_nat ((8 * Z.of_nat idx + u + b + 7) / 8)) with (S (S idx)) by lia.
  rewrite (firstn_S _ (S idx) 0) by (rewrite !upd_length; auto).
  rewrite (firstn_S _ idx 0) by (rewrite !upd_length; auto).
  rewrite !firstn_upd_ge by lia.
  rewrite nth_upd_other by lia. rewrite nth_upd_same by auto.
  rewrite nth_upd_same by (rewrite upd_length; auto).
  rewrite <- app_assoc. rewrite le_val_app. rewrite firstn_length, Nat.min_l by lia. cbn [app le_val].
  rewrite Es. rewrite pow256. rewrite (Z.pow_add_r 2 _ u) by lia.
  rewrite (u8_id y) by auto. unfold u8.
  assert (E : (c + v * 2 ^ u) mod 256 + 256 * y = c + v * 2 ^ u) by lia.
  rewrite Z.mul_0_r, Z.add_0_r, E. ring.
Qed.

(** Write a value of [b] <= 8 bits at a byte boundary. *)
Lemma enc_fresh_spec buf idx b v s t : 1 <= b <= 8 -> 0 <= v < 2 ^ b -> t = 8 * Z.of_nat idx ->
  encd buf t s -> t + b <= 8 * Z.of_nat (length buf) ->
  okp (set buf idx (u8 v)) (fun buf' => length buf' = length buf /\ encd buf' (t + b) (s + 2 ^ t * v)).
Proof.
  intros Hb Hv -> (H1 & H2 & H3 & H4) HL. rewrite set_ok by lia. apply okp_ok.
  assert (Vb : 0 <= v < 256). { split; [lia|]. apply Z.lt_le_trans with (2 ^ b); [lia|].
    replace 256 with (2 ^ 8) by reflexivity. apply Z.pow_le_mono_r; lia. }
  rewrite u8_id by auto.
  split. { apply upd_length. } split. { rewrite upd_length. lia. } split. { apply bytes_upd; auto. }
  split. { assert (0 < 2 ^ (8 * Z.of_nat idx)) by (apply Z.pow_pos_nonneg; lia).
    rewrite (Z.pow_add_r _ _ b) by lia. nia. }
  replace (Z.to_nat ((8 * Z.of_nat idx + 7) / 8)) with idx in H4 by lia.
  replace (Z.to_nat ((8 * Z.of_nat idx + b + 7) / 8)) with (S idx) by lia.
  rewrite (firstn_S _ idx 0) by (rewrite upd_length; lia). rewrite firstn_upd_ge by lia.
  rewrite nth_upd_same by lia. rewrite le_val_app, firstn_length, Nat.min_l by lia. cbn [le_val].
  rewrite H4, pow256. ring.
Qed.

(** Write a value of 9..16 bits at a byte boundary. *)
Lemma enc_fresh2_spec buf idx b v s t : 9 <= b <= 16 -> 0 <= v < 2 ^ b -> t = 8 * Z.of_nat idx ->
  encd buf t s -> t + b <= 8 * Z.of_nat (length buf) ->
  okp (b1 <- set buf idx (u8 v) ;; b2 <- set b1 (S idx) (u8 (Z.shiftr v 8)) ;; Ok (b2, S idx))
    (fun '(buf', idx') => length buf' = length buf /\ idx' = S idx /\ encd buf' (t + b) (s + 2 ^ t * v)).
Proof.
  intros Hb Hv -> (H1 & H2 & H3 & H4) HL. rewrite set_ok by lia. cbn [bind].
  rewrite set_ok by (rewrite upd_length; lia). cbn [bind]. apply okp_ok.
  assert (Vb : 0 <= v < 65536). { split; [lia|]. apply Z.lt_le_trans with (2 ^ b); [lia|].
    replace 65536 with (2 ^ 16) by reflexivity. apply Z.pow_le_mono_r; lia. }
  rewrite Z.shiftr_div_pow2 by lia. replace (2 ^ 8) with 256 by reflexivity.
  split. { rewrite !upd_length; auto. } split; auto. split. { rewrite !upd_length. lia. }
  split. { apply bytes_upd. apply bytes_upd; auto. apply is_byte_u8. apply is_byte_u8. }
  split. { assert (0 < 2 ^ (8 * Z.of_nat idx)) by (apply Z.pow_pos_nonneg; lia).
    rewrite (Z.pow_add_r _ _ b) by lia. nia. }
  replace (Z.to_nat ((8 * Z.of_nat idx + 7) / 8)) with idx in H4 by lia.
  replace (Z.to_nat ((8 * Z.of_nat idx + b + 7) / 8)) with (S (S idx)) by lia.
  rewrite (firstn_S _ (S idx) 0) by (rewrite !upd_length; lia).
  rewrite (firstn_S _ idx 0) by (rewrite !upd_length; lia).
  rewrite !firstn_upd_ge by lia.
  rewrite nth_upd_other by lia. rewrite nth_upd_same by lia.
  rewrite nth_upd_same by (rewrite upd_length; lia).
  rewrite <- app_assoc. rewrite le_val_app. rewrite firstn_length, Nat.min_l by lia. cbn [app le_val].
  rewrite H4, pow256. unfold u8. rewrite (Z.mod_small (v / 256)) by lia.
  assert (E : v mod 256 + 256 * (v / 256) = v) by lia.
  rewrite Z.mul_0_r, Z.add_0_r, E. ring.
Qed.

(** Complete a byte: u + b = 8. *)
Lemma enc_fill_spec buf idx u b v s t : 1 <= u <= 7 -> u + b = 8 -> 0 <= v < 2 ^ b ->
  t = 8 * Z.of_nat idx + u -> encd buf t s -> t + b <= 8 * Z.of_nat (length buf) ->
  okp (c <- get buf idx ;; b1 <- set buf idx (u8 (Z.lor c (Z.shiftl v u))) ;; Ok (b1, S idx))
    (fun '(buf', idx') => length buf' = length buf /\ idx' = S idx /\ encd buf' (t + b) (s + 2 ^ t * v)).
Proof.
  intros Hu Hub Hv -> HE HL. destruct (encd_byte buf idx u s Hu HE) as (L & C & Es).
  destruct HE as (H1 & H2 & H3 & H4).
  rewrite (get_ok _ idx 0) by auto. cbn [bind]. rewrite set_ok by auto. cbn [bind]. apply okp_ok.
  set (c := nth idx buf 0) in *. rewrite lor_add by lia.
  assert (P8 : 2 ^ u * 2 ^ b = 256) by (rewrite <- Z.pow_add_r by lia; rewrite Hub; reflexivity).
  assert (Pu : 0 < 2 ^ u) by (apply Z.pow_pos_nonneg; lia).
  assert (B : 0 <= c + v * 2 ^ u < 256) by nia.
  rewrite u8_id by auto.
  split. { apply upd_length. } split; auto. split. { rewrite upd_length. lia. } split. { apply bytes_upd; auto. }
  split.
  { split. { assert (0 < 2 ^ (8 * Z.of_nat idx + u)) by (apply Z.pow_pos_nonneg; lia). nia. }
    rewrite (Z.pow_add_r _ _ b) by lia. nia. }
  replace (Z.to_nat ((8 * Z.of_nat idx + u + b + 7) / 8)) with (S idx) by lia.
  rewrite (firstn_S _ idx 0) by (rewrite upd_length; lia). rewrite firstn_upd_ge by lia.
  rewrite nth_upd_same by lia. rewrite le_val_app, firstn_length, Nat.min_l by lia. cbn [le_val].
  rewrite Es, pow256. rewrite (Z.pow_add_r 2 _ u) by lia. ring.
Qed.

(** *** Decoder steps *)
Lemma slice_bytes l idx n q b : bytes l -> (n <= length l)%nat -> (idx <= n)%nat -> 0 <= q -> 0 <= b ->
  8 * Z.of_nat idx <= q -> q + b <= 8 * Z.of_nat n ->
  (le_val l / 2 ^ q) mod 2 ^ b =
  (le_val (firstn (n - idx) (skipn idx l)) / 2 ^ (q - 8 * Z.of_nat idx)) mod 2 ^ b.
Proof.
  intros HB Hn Hi Hq Hb Hl Hu.
  rewrite (le_val_split n l) by auto. rewrite pow256. rewrite slice_add by lia.
  assert (E : firstn n l = firstn idx l ++ firstn (n - idx) (skipn idx l)).
  { rewrite <- (firstn_skipn idx (firstn n l)). rewrite firstn_firstn, Nat.min_l by lia.
    rewrite firstn_skipn_comm. replace (idx + (n - idx))%nat with n by lia. auto. }
  rewrite E. rewrite le_val_app, firstn_length, Nat.min_l by lia. rewrite pow256.
  replace (2 ^ q) with (2 ^ (8 * Z.of_nat idx) * 2 ^ (q - 8 * Z.of_nat idx)).
  2:{ rewrite <- Z.pow_add_r by lia. f_equal. lia. }
  assert (0 < 2 ^ (8 * Z.of_nat idx)) by (apply Z.pow_pos_nonneg; lia).
  rewrite <- Z.div_div by (try apply Z.pow_pos_nonneg; lia).
  rewrite (Z.mul_comm (2 ^ (8 * Z.of_nat idx)) (le_val _)), Z.div_add by lia.
  rewrite (Z.div_small (le_val (firstn idx l))). { rewrite Z.add_0_l. auto. }
  rewrite <- pow256. pose proof (le_val_range (firstn idx l) (Forall_firstn _ _ _ HB)) as R.
  rewrite firstn_length, Nat.min_l in R by lia. auto.
Qed.

Lemma dec_split_spec buf idx u b q : bytes buf -> 0 <= u <= 7 -> 1 <= b -> 8 < u + b <= 16 ->
  q = 8 * Z.of_nat idx + u -> q + b <= 8 * Z.of_nat (length buf) ->
  dec_split buf idx u (8 - u) (2 ^ b - 1) = Ok ((le_val buf / 2 ^ q) mod 2 ^ b).
Proof.
  intros HB Hu Hb Hub -> HL. unfold dec_split.
  assert (L : (S idx < length buf)%nat) by lia.
  rewrite (get_ok _ idx 0) by lia. cbn [bind]. rewrite (get_ok _ (S idx) 0) by lia. cbn [bind]. f_equal.
  rewrite land_pred by lia.
  rewrite (slice_bytes buf idx (S (S idx))) by (auto; lia).
  replace (S (S idx) - idx)%nat with 2%nat by lia.
  rewrite (skipn_S buf idx 0) by lia. rewrite (skipn_S buf (S idx) 0) by lia. cbn [firstn le_val].
  replace (8 * Z.of_nat idx + u - 8 * Z.of_nat idx) with u by lia.
  set (c := nth idx buf 0). set (d := nth (S idx) buf 0).
  pose proof (bytes_nth buf idx HB ltac:(lia)) as Bc. fold c in Bc. unfold is_byte in Bc.
  rewrite Z.shiftr_div_pow2 by lia.
  assert (P8 : 2 ^ u * 2 ^ (8 - u) = 256) by (rewrite <- Z.pow_add_r by lia; replace (u + (8 - u)) with 8 by lia; reflexivity).
  assert (Pu : 0 < 2 ^ u) by (apply Z.pow_pos_nonneg; lia).
  rewrite lor_add.
  - f_equal. rewrite Z.mul_0_r, Z.add_0_r.
    replace (c + 256 * d) with (c + d * 2 ^ (8 - u) * 2 ^ u) by (rewrite <- Z.mul_assoc, (Z.mul_comm (2 ^ (8 - u))), P8; ring).
    rewrite Z.div_add by lia. auto.
  - lia.
  - split. { apply Z.div_pos; lia. } apply Z.div_lt_upper_bound; lia.
Qed.

Lemma dec_one_spec buf idx u b q : bytes buf -> 0 <= u <= 7 -> 1 <= b -> u + b <= 8 ->
  q = 8 * Z.of_nat idx + u -> q + b <= 8 * Z.of_nat (length buf) ->
  (c <- get buf idx ;; Ok (Z.land (Z.shiftr c u) (2 ^ b - 1))) = Ok ((le_val buf / 2 ^ q) mod 2 ^ b).
Proof.
  intros HB Hu Hb Hub -> HL.
  assert (L : (idx < length buf)%nat) by lia.
  rewrite (get_ok _ idx 0) by lia. cbn [bind]. f_equal.
  rewrite land_pred by lia.
  rewrite (slice_bytes buf idx (S idx)) by (auto; lia).
  replace (S idx - idx)%nat with 1%nat by lia.
  rewrite (skipn_S buf idx 0) by lia. cbn [firstn le_val].
  replace (8 * Z.of_nat idx + u - 8 * Z.of_nat idx) with u by lia.
  rewrite Z.shiftr_div_pow2 by lia. rewrite Z.mul_0_r, Z.add_0_r. auto.
Qed.

(** *** 7-bit values *)
Definition pos7 (st idx : nat) : Z := 8 * Z.of_nat idx + (7 * Z.of_nat st) mod 8.

Lemma next7_lt st : (st < 8)%nat -> (next_state 7 st < 8)%nat.
Proof. unfold next_state. destruct (Nat.eqb_spec st 7); lia. Qed.

Lemma enc7_step_spec st buf idx v s t : (st < 8)%nat -> 0 <= v < 128 -> t = pos7 st idx ->
  encd buf t s -> t + 7 <= 8 * Z.of_nat (length buf) ->
  okp (enc7_step st buf idx v) (fun '(buf', idx') => length buf' = length buf /\
    pos7 (next_state 7 st) idx' = t + 7 /\ encd buf' (t + 7) (s + 2 ^ t * v)).
Proof.
  intros Hst Hv Ht HE HL. replace 128 with (2 ^ 7) in Hv by reflexivity.
  unfold pos7 in *.
  destruct st as [|[|[|[|[|[|[|[|]]]]]]]]; [..|lia]; cbn [enc7_step next_state Nat.eqb].
  - eapply okp_bind. { apply (enc_fresh_spec buf idx 7 v s t); auto; lia. }
    intros b (H1 & H2). apply okp_ok. split; auto. split; [lia|auto].
  - eapply okp_mono. { apply (enc_split_spec buf idx 7 7 v s t); auto; lia. }
    intros [b i] (H1 & -> & H2). split; auto. split; [lia|auto].
  - eapply okp_mono. { apply (enc_split_spec buf idx 6 7 v s t); auto; lia. }
    intros [b i] (H1 & -> & H2). split; auto. split; [lia|auto].
  - eapply okp_mono. { apply (enc_split_spec buf idx 5 7 v s t); auto; lia. }
    intros [b i] (H1 & -> & H2). split; auto. split; [lia|auto].
  - eapply okp_mono. { apply (enc_split_spec buf idx 4 7 v s t); auto; lia. }
    intros [b i] (H1 & -> & H2). split; auto. split; [lia|auto].
  - eapply okp_mono. { apply (enc_split_spec buf idx 3 7 v s t); auto; lia. }
    intros [b i] (H1 & -> & H2). split; auto. split; [lia|auto].
  - eapply okp_mono. { apply (enc_split_spec buf idx 2 7 v s t); auto; lia. }
    intros [b i] (H1 & -> & H2). split; auto. split; [lia|auto].
  - eapply okp_mono. { apply (enc_fill_spec buf idx 1 7 v s t); auto; lia. }
    intros [b i] (H1 & -> & H2). split; auto. split; [lia|auto].
Qed.

Lemma dec7_step_spec st buf idx q : (st < 8)%nat -> bytes buf -> q = pos7 st idx ->
  q + 7 <= 8 * Z.of_nat (length buf) ->
  exists idx', dec7_step st buf idx = Ok ((le_val buf / 2 ^ q) mod 128, idx') /\
    pos7 (next_state 7 st) idx' = q + 7.
Proof.
  intros Hst HB Hq HL. unfold pos7 in *. replace 128 with (2 ^ 7) by reflexivity.
  replace mask_q with (2 ^ 7 - 1) by reflexivity.
  destruct st as [|[|[|[|[|[|[|[|]]]]]]]]; [..|lia]; cbn [dec7_step next_state Nat.eqb];
    replace mask_q with (2 ^ 7 - 1) by reflexivity.
  - exists idx. split; [|lia].
    pose proof (dec_one_spec buf idx 0 7 q HB ltac:(lia) ltac:(lia) ltac:(lia) ltac:(lia) ltac:(lia)) as E.
    destruct (get buf idx); cbn [bind] in *; try discriminate. rewrite Z.shiftr_0_r in E.
    injection E as ->. auto.
  - exists (S idx). split; [|lia]. change 1 with (8 - 7) at 1. rewrite (dec_split_spec buf idx 7 7 q); auto; lia.
  - exists (S idx). split; [|lia]. change 2 with (8 - 6) at 1. rewrite (dec_split_spec buf idx 6 7 q); auto; lia.
  - exists (S idx). split; [|lia]. change 3 with (8 - 5) at 1. rewrite (dec_split_spec buf idx 5 7 q); auto; lia.
  - exists (S idx). split; [|lia]. change (dec_split buf idx 4 4) with (dec_split buf idx 4 (8 - 4)). rewrite (dec_split_spec buf idx 4 7 q); auto; lia.
  - exists (S idx). split; [|lia]. change (dec_split buf idx 3 5) with (dec_split buf idx 3 (8 - 3)). rewrite (dec_split_spec buf idx 3 7 q); auto; lia.
  - exists (S idx). split; [|lia]. change (dec_split buf idx 2 6) with (dec_split buf idx 2 (8 - 2)). rewrite (dec_split_spec buf idx 2 7 q); auto; lia.
  - exists (S idx). split; [|lia].
    pose proof (dec_one_spec buf idx 1 7 q HB ltac:(lia) ltac:(lia) ltac:(lia) ltac:(lia) ltac:(lia)) as E.
    destruct (get buf idx); cbn [bind] in *; try discriminate. injection E as ->. auto.
Qed.

(** *** Permutation entries: 8, 9 or 10 bits *)
Section P.
Variable p : params.
Hypothesis wf : wf_params p.

Definition nbits : Z := match p_cat p with Cat1 => 8 | Cat3 => 9 | Cat5 => 10 end.
Definition posP (st idx : nat) : Z := 8 * Z.of_nat idx +
  match p_cat p with Cat1 => 0 | Cat3 => Z.of_nat st | Cat5 => 2 * Z.of_nat st end.
Definition stP (st : nat) : Prop := match p_cat p with Cat1 => st = 0%nat | Cat3 => (st < 8)%nat | Cat5 => (st < 4)%nat end.

Lemma nbits_N : bits_to_represent (Z.of_nat (pN p)) = nbits.
Proof. unfold nbits. rewrite bits_N by auto. destruct (p_cat p); auto. Qed.

Lemma mask_nbits : mask_n p = 2 ^ nbits - 1.
Proof. unfold mask_n. rewrite nbits_N. auto. Qed.

Lemma enc_perm_step_spec st buf idx v s t : stP st -> 0 <= v < 2 ^ nbits -> t = posP st idx ->
  encd buf t s -> t + nbits <= 8 * Z.of_nat (length buf) ->
  okp (enc_perm_step p st buf idx v) (fun '(buf', idx', st') => length buf' = length buf /\
    stP st' /\ posP st' idx' = t + nbits /\ encd buf' (t + nbits) (s + 2 ^ t * v)).
Proof.
  unfold stP, nbits, posP, enc_perm_step. intros Hst Hv Ht HE HL. destruct (p_cat p).
  - subst st. eapply okp_bind. { apply (enc_fresh_spec buf idx 8 v s t); auto; lia. }
    intros b (H1 & H2). apply okp_ok. split; auto. split; auto. split; [lia|auto].
  - assert (G : okp (enc9_step st buf idx v) (fun '(buf', idx') => length buf' = length buf /\
      8 * Z.of_nat idx' + Z.of_nat (next_state 7 st) = t + 9 /\ encd buf' (t + 9) (s + 2 ^ t * v))).
    { destruct st as [|[|[|[|[|[|[|[|]]]]]]]]; [..|lia]; cbn [enc9_step next_state Nat.eqb].
      - eapply okp_mono. { apply (enc_fresh2_spec buf idx 9 v s t); auto; lia. }
        intros [b i] (H1 & -> & H2). split; auto. split; [lia|auto].
      - eapply okp_mono. { apply (enc_split_spec buf idx 1 9 v s t); auto; lia. }
        intros [b i] (H1 & -> & H2). split; auto. split; [lia|auto].
      - eapply okp_mono. { apply (enc_split_spec buf idx 2 9 v s t); auto; lia. }
        intros [b i] (H1 & -> & H2). split; auto. split; [lia|auto].
      - eapply okp_mono. { apply (enc_split_spec buf idx 3 9 v s t); auto; lia. }
        intros [b i] (H1 & -> & H2). split; auto. split; [lia|auto].
      - eapply okp_mono. { apply (enc_split_spec buf idx 4 9 v s t); auto; lia. }
        intros [b i] (H1 & -> & H2). split; auto. split; [lia|auto].
      - eapply okp_mono. { apply (enc_split_spec buf idx 5 9 v s t); auto; lia. }
        intros [b i] (H1 & -> & H2). split; auto. split; [lia|auto].
      - eapply okp_mono. { apply (enc_split_spec buf idx 6 9 v s t); auto; lia. }
        intros [b i] (H1 & -> & H2). split; auto. split; [lia|auto].
      - eapply okp_bind. { apply (enc_split_spec buf idx 7 9 v s t); auto; lia. }
        intros [b i] (H1 & -> & H2). apply okp_ok. split; auto. split; [lia|auto]. }
    eapply okp_bind; [exact G|]. intros [b i] (H1 & H2 & H3). apply okp_ok.
    split; auto. split. { apply next7_lt; auto. } split; auto.
  - assert (G : okp (enc10_step st buf idx v) (fun '(buf', idx') => length buf' = length buf /\
      8 * Z.of_nat idx' + 2 * Z.of_nat (next_state 3 st) = t + 10 /\ encd buf' (t + 10) (s + 2 ^ t * v))).
    { destruct st as [|[|[|[|]]]]; [..|lia]; cbn [enc10_step next_state Nat.eqb].
      - eapply okp_mono. { apply (enc_fresh2_spec buf idx 10 v s t); auto; lia. }
        intros [b i] (H1 & -> & H2). split; auto. split; [lia|auto].
      - eapply okp_mono. { apply (enc_split_spec buf idx 2 10 v s t); auto; lia. }
        intros [b i] (H1 & -> & H2). split; auto. split; [lia|auto].
      - eapply okp_mono. { apply (enc_split_spec buf idx 4 10 v s t); auto; lia. }
        intros [b i] (H1 & -> & H2). split; auto. split; [lia|auto].
      - eapply okp_bind. { apply (enc_split_spec buf idx 6 10 v s t); auto; lia. }
        intros [b i] (H1 & -> & H2). apply okp_ok. split; auto. split; [lia|auto]. }
    eapply okp_bind; [exact G|]. intros [b i] (H1 & H2 & H3). apply okp_ok.
    split; auto. split. { unfold next_state. destruct (Nat.eqb_spec st 3); lia. } split; auto.
Qed.

Lemma dec_perm_step_spec st buf idx q : stP st -> bytes buf -> q = posP st idx ->
  q + nbits <= 8 * Z.of_nat (length buf) ->
  exists idx' st', dec_perm_step p st buf idx = Ok ((le_val buf / 2 ^ q) mod 2 ^ nbits, idx', st') /\
    stP st' /\ posP st' idx' = q + nbits.
Proof.
  pose proof mask_nbits as MN.
  unfold stP, nbits, posP, dec_perm_step in *. intros Hst HB Hq HL. destruct (p_cat p).
  - subst st. exists (S idx), 0%nat. split; [|lia].
    pose proof (dec_one_spec buf idx 0 8 q HB ltac:(lia) ltac:(lia) ltac:(lia) ltac:(lia) ltac:(lia)) as E.
    rewrite (get_ok _ idx 0) in * by lia. cbn [bind] in *. rewrite Z.shiftr_0_r in E.
    rewrite land_pred in E by lia.
    pose proof (bytes_nth buf idx HB ltac:(lia)) as B. unfold is_byte in B.
    replace (2 ^ 8) with 256 in * by reflexivity. rewrite Z.mod_small in E by lia. congruence.
  - assert (G : exists idx', dec9_step p st buf idx = Ok ((le_val buf / 2 ^ q) mod 2 ^ 9, idx') /\
      8 * Z.of_nat idx' + Z.of_nat (next_state 7 st) = q + 9).
    { destruct st as [|[|[|[|[|[|[|[|]]]]]]]]; [..|lia]; cbn [dec9_step next_state Nat.eqb]; rewrite MN.
      - exists (S idx). split; [|lia]. change (dec_split buf idx 0 8) with (dec_split buf idx 0 (8 - 0)). rewrite (dec_split_spec buf idx 0 9 q); auto; lia.
      - exists (S idx). split; [|lia]. change (dec_split buf idx 1 7) with (dec_split buf idx 1 (8 - 1)). rewrite (dec_split_spec buf idx 1 9 q); auto; lia.
      - exists (S idx). split; [|lia]. change (dec_split buf idx 2 6) with (dec_split buf idx 2 (8 - 2)). rewrite (dec_split_spec buf idx 2 9 q); auto; lia.
      - exists (S idx). split; [|lia]. change (dec_split buf idx 3 5) with (dec_split buf idx 3 (8 - 3)). rewrite (dec_split_spec buf idx 3 9 q); auto; lia.
      - exists (S idx). split; [|lia]. change (dec_split buf idx 4 4) with (dec_split buf idx 4 (8 - 4)). rewrite (dec_split_spec buf idx 4 9 q); auto; lia.
      - exists (S idx). split; [|lia]. change (dec_split buf idx 5 3) with (dec_split buf idx 5 (8 - 5)). rewrite (dec_split_spec buf idx 5 9 q); auto; lia.
      - exists (S idx). split; [|lia]. change (dec_split buf idx 6 2) with (dec_split buf idx 6 (8 - 6)). rewrite (dec_split_spec buf idx 6 9 q); auto; lia.
      - exists (S (S idx)). split; [|lia]. change (dec_split buf idx 7 1) with (dec_split buf idx 7 (8 - 7)). rewrite (dec_split_spec buf idx 7 9 q); auto; lia. }
    destruct G as (i & -> & H). exists i, (next_state 7 st). cbn [bind]. split; auto. split; auto. apply next7_lt; auto.
  - assert (G : exists idx', dec10_step p st buf idx = Ok ((le_val buf / 2 ^ q) mod 2 ^ 10, idx') /\
      8 * Z.of_nat idx' + 2 * Z.of_nat (next_state 3 st) = q + 10).
    { destruct st as [|[|[|[|]]]]; [..|lia]; cbn [dec10_step next_state Nat.eqb]; rewrite MN.
      - exists (S idx). split; [|lia]. change (dec_split buf idx 0 8) with (dec_split buf idx 0 (8 - 0)). rewrite (dec_split_spec buf idx 0 10 q); auto; lia.
      - exists (S idx). split; [|lia]. change (dec_split buf idx 2 6) with (dec_split buf idx 2 (8 - 2)). rewrite (dec_split_spec buf idx 2 10 q); auto; lia.
      - exists (S idx). split; [|lia]. change (dec_split buf idx 4 4) with (dec_split buf idx 4 (8 - 4)). rewrite (dec_split_spec buf idx 4 10 q); auto; lia.
      - exists (S (S idx)). split; [|lia]. change (dec_split buf idx 6 2) with (dec_split buf idx 6 (8 - 6)). rewrite (dec_split_spec buf idx 6 10 q); auto; lia. }
    destruct G as (i & -> & H). exists i, (next_state 3 st). cbn [bind]. split; auto. split; auto.
    unfold next_state. destruct (Nat.eqb_spec st 3); lia.
Qed.

End P.
