(** Lane-by-lane meaning of the vector operations. *)
From Verif Require Import Base BaseLemmas Fq FqProofs Vec OptCodes.

Lemma map2_length {A B C} (f : A -> B -> C) a b : length (map2 f a b) = Nat.min (length a) (length b).
Proof. revert b. induction a as [|x a IH]; intros [|y b]; cbn; auto. Qed.
Lemma map2_nth {A B C} (f : A -> B -> C) a b i da db dc : (i < length a)%nat -> (i < length b)%nat ->
  nth i (map2 f a b) dc = f (nth i a da) (nth i b db).
Proof.
  revert b i. induction a as [|x a IH]; intros [|y b] [|i] H1 H2; cbn in *; try lia; auto. apply IH; lia.
Qed.
Lemma map2_app {A B C} (f : A -> B -> C) a a' b b' : length a = length b ->
  map2 f (a ++ a') (b ++ b') = map2 f a b ++ map2 f a' b'.
Proof. revert b. induction a as [|x a IH]; intros [|y b] H; cbn in *; try discriminate; auto. f_equal. apply IH. lia. Qed.
Lemma map2_map {A B C D} (f : A -> B -> C) (g : C -> D) a b : map g (map2 f a b) = map2 (fun x y => g (f x y)) a b.
Proof. revert b. induction a as [|x a IH]; intros [|y b]; cbn; auto. f_equal. auto. Qed.
Lemma map2_repeat {A B C} (f : A -> B -> C) a y n : length a = n -> map2 f a (repeat y n) = map (fun x => f x y) a.
Proof. intros <-. induction a as [|x a IH]; cbn; auto. f_equal. auto. Qed.
Lemma map2_self {A C} (f : A -> A -> C) (g : A -> A) a : map2 f (map g a) a = map (fun x => f (g x) x) a.
Proof. induction a as [|x a IH]; cbn; auto. f_equal. auto. Qed.
Lemma map2_self_r {A C} (f : A -> A -> C) (g : A -> A) a : map2 f a (map g a) = map (fun x => f x (g x)) a.
Proof. induction a as [|x a IH]; cbn; auto. f_equal. auto. Qed.
Lemma Forall_map2 {A B C} (P : C -> Prop) (f : A -> B -> C) a b : (forall x y, P (f x y)) -> Forall P (map2 f a b).
Proof. intros H. revert b. induction a as [|x a IH]; intros [|y b]; cbn; constructor; auto. Qed.

Lemma land1 x : Z.land x 1 = x mod 2.
Proof. change 1 with (Z.ones 1). rewrite Z.land_ones by lia. reflexivity. Qed.
Lemma land127 x : Z.land x 127 = x mod 128.
Proof. change 127 with (Z.ones 7). rewrite Z.land_ones by lia. reflexivity. Qed.
Lemma shr7 x : Z.shiftr x 7 = x / 128.
Proof. rewrite Z.shiftr_div_pow2 by lia. reflexivity. Qed.
Lemma shl7 x : Z.shiftl x 7 = x * 128.
Proof. rewrite Z.shiftl_mul_pow2 by lia. reflexivity. Qed.

(** Induction two bytes at a time. *)
Lemma pair_ind (P : list Z -> Prop) : P [] -> (forall x y l, P l -> P (x :: y :: l)) ->
  forall n l, length l = (2 * n)%nat -> P l.
Proof.
  intros H0 H2. induction n as [|n IH]; intros l Hl.
  - destruct l; [auto|discriminate].
  - destruct l as [|x [|y l]]; try (cbn in Hl; lia). apply H2, IH. cbn in Hl. lia.
Qed.

(** The sign bit of every byte. *)
Lemma sign_bits n v : length v = (2 * n)%nat -> bytes v -> vand (vsrl16 v 7) (repeat 1 (2 * n)) = map (fun x => x / 128) v.
Proof.
  intros Hl HB. assert (HL : length (vsrl16 v 7) = (2 * n)%nat).
  { unfold vsrl16. clear HB. revert v Hl. induction n as [|n IH]; intros v Hl.
    - destruct v; [reflexivity|discriminate].
    - destruct v as [|x [|y v]]; try (cbn in Hl; lia). cbn [words map unwords length]. rewrite IH by (cbn in Hl; lia). lia. }
  unfold vand. rewrite map2_repeat by auto. unfold vsrl16. clear HL. revert HB.
  apply (pair_ind (fun v => bytes v -> map (fun x => Z.land x 1) (unwords (map (fun x => Z.shiftr x 7) (words v))) = map (fun x => x / 128) v))
    with (n := n); auto.
  intros x y l IH HB. inversion HB as [|? ? Hx HB']. inversion HB' as [|? ? Hy HB'']. cbn [words map unwords]. subst.
  rewrite IH by auto. rewrite !shr7, !land1. unfold u8, is_byte in *. f_equal; [|f_equal]; lia.
Qed.

(** *** The reductions *)

(** One byte of [barrett_red8]. *)
Definition red8 (x : Z) : Z := Z.land (u8 (x + x / 128)) 127.
(** One byte of [W_RED127_]. *)
Definition red8' (x : Z) : Z := Z.land (u8 (u8 (x + 1) / 128 + x)) 127.

Lemma barrett_red8_spec a : length a = 32%nat -> bytes a -> barrett_red8 a (vset8 127) (vset8 1) = map red8 a.
Proof.
  intros Hl HB. unfold barrett_red8, vset8. rewrite (sign_bits 16) by auto. unfold vadd8, vand.
  rewrite map2_self_r. rewrite map2_repeat by (rewrite map_length; auto). rewrite map_map. reflexivity.
Qed.

Lemma W_RED127_spec x : length x = 32%nat -> bytes x -> W_RED127_ x (vset8 1) (vset8 127) = map red8' x.
Proof.
  intros Hl HB. unfold W_RED127_, vset8, vadd8.
  rewrite (map2_repeat (fun x y => u8 (x + y))) by auto.
  rewrite (sign_bits 16).
  2:{ rewrite map_length. auto. }
  2:{ apply Forall_forall. intros y Hy. apply in_map_iff in Hy. destruct Hy as (z & <- & _). apply is_byte_u8. }
  unfold vand. rewrite map_map. rewrite map2_self. rewrite map2_repeat by (rewrite map_length; auto).
  rewrite map_map. reflexivity.
Qed.

Lemma W_RED127_old_spec x : length x = 32%nat -> bytes x -> W_RED127 x (vset8 1) (vset8 127) = map red8 x.
Proof.
  intros Hl HB. unfold W_RED127, vset8. rewrite (sign_bits 16) by auto. unfold vadd8, vand.
  rewrite map2_self_r. rewrite map2_repeat by (rewrite map_length; auto). rewrite map_map. reflexivity.
Qed.

Lemma red8_range x : 0 <= red8 x < 128.
Proof. unfold red8. rewrite land127. lia. Qed.
Lemma red8'_range x : 0 <= red8' x < 128.
Proof. unfold red8'. rewrite land127. lia. Qed.

Lemma red8_val x : is_byte x -> red8 x = if (x =? 127) || (x =? 254) then 127 else if x =? 255 then 0 else x mod 127.
Proof. unfold red8, is_byte, u8. intros H. rewrite land127. destruct (Z.eqb_spec x 127), (Z.eqb_spec x 254), (Z.eqb_spec x 255); cbn [orb]; lia. Qed.
Lemma red8'_val x : is_byte x -> red8' x = if x =? 254 then 127 else if x =? 255 then 127 else x mod 127.
Proof. unfold red8', is_byte, u8. intros H. rewrite land127. destruct (Z.eqb_spec x 254), (Z.eqb_spec x 255); lia. Qed.

Definition addr (x y : Z) : Z := red8' (u8 (x + y)).
Lemma add_red_spec a b : length a = 32%nat -> length b = 32%nat -> add_red a b = map2 addr a b.
Proof.
  intros La Lb. unfold add_red. rewrite W_RED127_spec.
  - unfold vadd8. rewrite map2_map. reflexivity.
  - unfold vadd8. rewrite map2_length. lia.
  - unfold vadd8. apply Forall_map2. intros. apply is_byte_u8.
Qed.
Lemma addr_fq x y : fq x -> fq y -> addr x y = (x + y) mod 127.
Proof.
  unfold fq, addr. intros Hx Hy. rewrite u8_id by lia. rewrite red8'_val by (unfold is_byte; lia).
  destruct (Z.eqb_spec (x + y) 254), (Z.eqb_spec (x + y) 255); lia.
Qed.
Lemma addr_byte x y : is_byte (addr x y).
Proof. pose proof (red8'_range (u8 (x + y))). unfold addr, is_byte. lia. Qed.

(** *** Barrett multiplication *)

Definition is_word (x : Z) : Prop := 0 <= x < 65536.
Lemma words_unwords w : Forall is_word w -> words (unwords w) = w.
Proof.
  induction 1 as [|x w Hx _ IH]; cbn [unwords words]; auto. rewrite IH. f_equal. unfold u8, is_word in *. lia.
Qed.
Lemma is_word_u16 x : is_word (u16 x).
Proof. unfold is_word, u16. lia. Qed.
Lemma bytes_words l : bytes l -> Forall is_word l.
Proof. apply Forall_impl. unfold is_byte, is_word. lia. Qed.

(** One 16-bit lane of [barrett_mul_u16]. *)
Definition shr16 (i : isa) (x : Z) : Z := match i with AVX2 => u16 (Z.shiftr (s16 x) 7) | NEON => Z.shiftr x 7 end.
Definition mulw (i : isa) (x y : Z) : Z :=
  let a := u16 (x * y) in
  let t := shr16 i a in
  u16 (u16 (a + t) - u16 (Z.shiftl t 7)).

Lemma shr16_word i x : is_word x -> is_word (shr16 i x).
Proof. destruct i; cbn; intros H. apply is_word_u16. rewrite shr7. unfold is_word in *. lia. Qed.

Lemma barrett_mul_spec i a b : Forall is_word a -> Forall is_word b ->
  barrett_mul_u16 i (unwords a) (unwords b) = unwords (map2 (mulw i) a b).
Proof.
  intros Ha Hb. unfold barrett_mul_u16, vmul_lo16, vsr16, vadd16, vsl16, vsub16.
  rewrite !(words_unwords a), !(words_unwords b) by auto.
  set (m := map2 (fun x y => u16 (x * y)) a b).
  assert (Hm : Forall is_word m) by (apply Forall_map2; intros; apply is_word_u16).
  rewrite !(words_unwords m) by auto.
  set (t := map _ m).
  assert (Et : t = map (shr16 i) m) by reflexivity.
  assert (Ht : Forall is_word t).
  { rewrite Et. apply Forall_forall. intros x Hx. apply in_map_iff in Hx. destruct Hx as (y & <- & Hy).
    apply shr16_word. rewrite Forall_forall in Hm. auto. }
  rewrite !(words_unwords t) by auto.
  rewrite !words_unwords.
  2:{ apply Forall_forall. intros x Hx. apply in_map_iff in Hx. destruct Hx as (y & <- & Hy). apply is_word_u16. }
  2:{ apply Forall_map2. intros. apply is_word_u16. }
  f_equal. rewrite Et. rewrite map2_self_r. rewrite map_map. unfold m.
  clear. revert b. induction a as [|x a IH]; intros [|y b]; cbn [map2 map]; auto. f_equal. apply IH.
Qed.

Ltac list16 l H := do 16 (destruct l as [|? l]; [discriminate H|]); destruct l; [|discriminate H].

Lemma pack_spec i w w' : length w = 16%nat -> length w' = 16%nat ->
  vpermute2 i (vpermute_4x64 (vshuffle8 i (unwords w) shuff_low_half) 216)
              (vpermute_4x64 (vshuffle8 i (unwords w') shuff_low_half) 216) 32 = map u8 w ++ map u8 w'.
Proof. intros H H'. list16 w H. list16 w' H'. destruct i; reflexivity. Qed.

Definition mulb (i : isa) (x y : Z) : Z := red8 (u8 (mulw i x y)).

Lemma mul_block_spec i g m : length g = 32%nat -> length m = 32%nat -> bytes g -> bytes m -> mul_block i g m = map2 (mulb i) g m.
Proof.
  intros Lg Lm Bg Bm. unfold mul_block, vextend8_16, vget_lo, vget_hi.
  rewrite !barrett_mul_spec by (apply bytes_words; first [apply Forall_firstn; assumption | apply Forall_skipn; assumption]).
  rewrite pack_spec by (rewrite map2_length, ?firstn_length, ?skipn_length; lia).
  rewrite <- map_app. rewrite <- map2_app by (rewrite !firstn_length; lia). rewrite !firstn_skipn.
  rewrite barrett_red8_spec.
  - rewrite !map2_map. reflexivity.
  - rewrite map_length, map2_length. lia.
  - apply Forall_forall. intros x Hx. apply in_map_iff in Hx. destruct Hx as (y & <- & _). apply is_byte_u8.
Qed.
Lemma mulb_byte i x y : is_byte (mulb i x y).
Proof. pose proof (red8_range (u8 (mulw i x y))). unfold mulb, is_byte. lia. Qed.

(** *** The scalar versions *)

(** The folded product, the common core of br_mul and of a lane of barrett_mul_u16. *)
Definition fold7 (m : Z) : Z := m mod 128 + m / 128.
Lemma fold7_cong m : fold7 m == m.
Proof. unfold fold7. exists (- (m / 128)). lia. Qed.

Lemma mulw_fq i x y : fq x -> fq y -> mulw i x y = fold7 (x * y).
Proof.
  intros Hx Hy. pose proof (fq_mul_bound x y Hx Hy). assert (B : 0 <= x * y <= 126 * 126) by (unfold fq in *; nia).
  unfold mulw. cbv zeta. rewrite !(u16_id (x * y)) by auto. assert (E : shr16 i (x * y) = x * y / 128).
  { destruct i; cbn [shr16]. - unfold s16. destruct (Z.ltb_spec (x * y) 32768); [|lia]. rewrite shr7. apply u16_id. lia. - apply shr7. }
  rewrite E, shl7. unfold fold7, u16. set (m := x * y) in *. lia.
Qed.

Lemma fold7_red m : 0 <= m <= 126 * 126 -> (m <> 0 -> ~ m == 0) -> red8 (fold7 m) = m mod 127.
Proof.
  intros B NZ. rewrite red8_val by (unfold is_byte, fold7; lia).
  assert (C : fold7 m mod 127 = m mod 127) by (apply cong_iff, fold7_cong).
  destruct (Z.eqb_spec (fold7 m) 127) as [E|]; cbn [orb].
  - exfalso. apply NZ. { intros ->. discriminate E. } apply cong_iff. rewrite <- C, E. reflexivity.
  - destruct (Z.eqb_spec (fold7 m) 254). { unfold fold7 in *. lia. }
    destruct (Z.eqb_spec (fold7 m) 255). { unfold fold7 in *. lia. } auto.
Qed.

Lemma prod_nz x y : fq x -> fq y -> x * y <> 0 -> ~ x * y == 0.
Proof.
  intros Hx Hy H E. assert (x <> 0) by (intros ->; auto). assert (y <> 0) by (intros ->; lia).
  apply (fq_nz y); auto. apply (cong_mul0 x y); auto. apply fq_nz; auto.
Qed.

Lemma mulb_fq i x y : fq x -> fq y -> mulb i x y = fq_red (x * y).
Proof.
  intros Hx Hy. assert (B : 0 <= x * y <= 126 * 126) by (unfold fq in *; nia).
  rewrite fq_red_spec by (apply fq_mul_bound; auto). unfold mulb. rewrite mulw_fq by auto.
  rewrite u8_id by (unfold fold7; lia). apply fold7_red; auto. apply prod_nz; auto.
Qed.

Lemma br_mul_fq x y : fq x -> fq y -> br_mul x y = fold7 (x * y).
Proof.
  intros Hx Hy. assert (B : 0 <= x * y <= 126 * 126) by (unfold fq in *; nia).
  unfold br_mul, fold7. rewrite shr7, shl7. unfold u16, u8. set (m := x * y) in *. lia.
Qed.
Lemma br_red_red8 x : is_byte x -> br_red x = red8 x.
Proof.
  intros H. unfold br_red, red8. rewrite shr7. rewrite (land127 (x / 128)). unfold is_byte in H.
  rewrite (Z.mod_small (x / 128) 128) by lia. reflexivity.
Qed.
Lemma br_mulred_fq x y : fq x -> fq y -> br_red (br_mul x y) = fq_red (x * y).
Proof.
  intros Hx Hy. assert (B : 0 <= x * y <= 126 * 126) by (unfold fq in *; nia).
  rewrite br_mul_fq by auto. rewrite br_red_red8 by (unfold is_byte, fold7; lia).
  rewrite fq_red_spec by (apply fq_mul_bound; auto). apply fold7_red; auto. apply prod_nz; auto.
Qed.

Lemma br_inv_sweep : forallb (fun x => br_inv x =? fq_inv x) (zrange 127) = true.
Proof. vm_compute. reflexivity. Qed.
Lemma br_inv_fq x : fq x -> br_inv x = fq_inv x.
Proof.
  intros H. pose proof br_inv_sweep as S. rewrite forallb_forall in S. apply Z.eqb_eq. apply (S x).
  apply in_zrange. unfold fq in H. lia.
Qed.
