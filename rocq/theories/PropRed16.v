(** Property C59: the sixteen-bit reduction of the optimised implementation and the width of its intermediate type. *)
From Verif Require Import Base BaseLemmas Params Fq FqProofs OptCodes.

(** The quotient that is subtracted. *)
Lemma br_red16_wide x : 0 <= x < 65536 -> br_red16 4294967296 x = x - 127 * (129 * (x + 1) / 16384).
Proof.
  intros Hx. unfold br_red16. cbv zeta. rewrite !Z.shiftl_mul_pow2, Z.shiftr_div_pow2 by lia.
  change (2 ^ 7) with 128. change (2 ^ 14) with 16384.
  rewrite (Z.mod_small (x + 1)) by lia. rewrite (Z.mod_small ((x + 1) * 128 + (x + 1))) by lia.
  replace ((x + 1) * 128 + (x + 1)) with (129 * (x + 1)) by lia.
  assert (0 <= 129 * (x + 1) / 16384 <= 516) by lia. set (q := 129 * (x + 1) / 16384) in *.
  unfold u16. rewrite (Z.mod_small q) by lia. rewrite (Z.mod_small (q * 128 - q)) by lia.
  rewrite Z.mod_small by (subst q; lia). lia.
Qed.
Lemma br_red16_narrow x : 0 <= x < 65536 ->
  exists q, 0 <= q <= 3 /\ br_red16 65536 x = (x - 127 * q) mod 65536 /\
    (x < 508 -> q = 129 * (x + 1) / 16384).
Proof.
  intros Hx. unfold br_red16. cbv zeta. rewrite !Z.shiftl_mul_pow2, Z.shiftr_div_pow2 by lia.
  change (2 ^ 7) with 128. change (2 ^ 14) with 16384.
  set (a := (((x + 1) mod 65536) * 128 + (x + 1) mod 65536) mod 65536).
  assert (Ha : 0 <= a < 65536) by (apply Z.mod_pos_bound; lia).
  exists (a / 16384). assert (0 <= a / 16384 <= 3) by lia. split; [auto|]. split.
  - unfold u16. rewrite (Z.mod_small (a / 16384)) by lia. rewrite (Z.mod_small (a / 16384 * 128 - a / 16384)) by lia.
    f_equal. lia.
  - intros L. subst a. rewrite (Z.mod_small (x + 1)) by lia.
    replace ((x + 1) * 128 + (x + 1)) with (129 * (x + 1)) by lia. destruct (Z.eq_dec x 507) as [->|]; [reflexivity|].
    rewrite Z.mod_small by lia. reflexivity.
Qed.

(** With a uint32_t the value is determined for every argument: the remainder modulo 127, to which 127 is added exactly
    when the quotient exceeds 129 times one more than the remainder. *)
Theorem C59_wide : forall x, 0 <= x < 65536 ->
  br_red16 4294967296 x = if 129 * (x mod 127 + 1) <? x / 127 then x mod 127 + 127 else x mod 127.
Proof.
  intros x Hx. rewrite br_red16_wide by auto.
  pose proof (Z.div_mod x 127 ltac:(lia)). pose proof (Z.mod_pos_bound x 127 ltac:(lia)).
  set (q := x / 127) in *. set (r := x mod 127) in *. assert (0 <= q <= 516) by lia.
  destruct (Z.ltb_spec (129 * (r + 1)) q).
  - replace (129 * (x + 1) / 16384) with (q - 1); [lia|]. apply Z.div_unique with (129 * (x + 1) - 16384 * (q - 1)); lia.
  - replace (129 * (x + 1) / 16384) with q; [lia|]. apply Z.div_unique with (129 * (x + 1) - 16384 * q); lia.
Qed.

(** It is the reduction modulo 127 of every product of two values below 128, and 16510 is the least argument on which
    it is not. *)
Theorem C59_range :
  (forall x, 0 <= x < 16510 -> br_red16 4294967296 x = x mod 127) /\ br_red16 4294967296 16510 = 127 /\
  (forall a b, 0 <= a <= 127 -> 0 <= b <= 127 -> br_red16 4294967296 (a * b) = (a * b) mod 127).
Proof.
  assert (R : forall x, 0 <= x < 16510 -> br_red16 4294967296 x = x mod 127).
  { intros x Hx. rewrite C59_wide by lia. destruct (Z.ltb_spec (129 * (x mod 127 + 1)) (x / 127)); [lia|reflexivity]. }
  split; [exact R|]. split; [reflexivity|]. intros a b Ha Hb. apply R.
  split; [apply Z.mul_nonneg_nonneg; lia|]. assert (a * b <= 127 * 127) by (apply Z.mul_le_mono_nonneg; lia). lia.
Qed.

(** With a uint16_t it is the reduction modulo 127 of the arguments below 508 and of no other. *)
Theorem C59_narrow : forall x, 0 <= x < 65536 -> (br_red16 65536 x = x mod 127 <-> x < 508).
Proof.
  intros x Hx. destruct (br_red16_narrow x Hx) as (q & Hq & E & Q). rewrite E. split.
  - intros E1. destruct (Z.lt_ge_cases x 508); [auto|]. rewrite Z.mod_small in E1 by lia. lia.
  - intros L. rewrite (Q L), <- br_red16_wide by lia. rewrite (proj1 C59_range x) by lia. apply Z.mod_small. lia.
Qed.

(** Of the seven parameter sets, the reduction multiplies correctly in all but category 3 BALANCED. *)
Theorem C59_sets : forall p, In p less_params ->
  ((forall a b, fq a -> fq b -> br_red16 (triple_mod p) (a * b) = (a * b) mod 127) <-> p <> cat3_balanced).
Proof.
  intros p I. unfold less_params in I. cbn [In] in I.
  assert (W : triple_mod p = 4294967296 -> p <> cat3_balanced ->
    ((forall a b, fq a -> fq b -> br_red16 (triple_mod p) (a * b) = (a * b) mod 127) <-> p <> cat3_balanced)).
  { intros -> N. split; [auto|]. intros _ a b Ha Hb. unfold fq in *. apply C59_range; lia. }
  destruct I as [<-|[<-|[<-|[<-|[<-|[<-|[<-|[]]]]]]]]; try (apply W; [reflexivity|discriminate]).
  split; [|congruence]. intros H. specialize (H 22 24 ltac:(unfold fq; lia) ltac:(unfold fq; lia)). discriminate H.
Qed.

(** In category 3 BALANCED the product of 22 and 24 is returned as it is, 528. *)
Theorem C59_category3_refuted :
  triple_mod cat3_balanced = 65536 /\ fq 22 /\ fq 24 /\ br_red16 (triple_mod cat3_balanced) (22 * 24) = 528 /\ 528 mod 127 = 20.
Proof. repeat split; try reflexivity; unfold fq; lia. Qed.

Example C59_example :
  br_red16 4294967296 16129 = 0 /\ br_red16 4294967296 16129 = 16129 mod 127 /\ br_red16 4294967296 (100 * 100) = 94 /\
  br_red16 65536 507 = 126 /\ br_red16 65536 508 = 508.
Proof. vm_compute. repeat split. Qed.

Print Assumptions C59_wide.
Print Assumptions C59_range.
Print Assumptions C59_narrow.
Print Assumptions C59_sets.
Print Assumptions C59_category3_refuted.
