(** Arithmetic modulo 127. *)
From Coq Require Import Setoid Morphisms.
From Verif Require Import Base BaseLemmas Fq.
From Verif Require Export Spec.

Global Arguments fq_red : simpl never.
Global Arguments fq_inv : simpl never.

Lemma cong_iff a b : a == b <-> a mod 127 = b mod 127.
Proof.
  split.
  - intros [k ->]. apply Z.mod_add. lia.
  - intros H. exists (a / 127 - b / 127). lia.
Qed.

Global Instance cong_equiv : Equivalence cong.
Proof.
  split.
  - intros a. exists 0. lia.
  - intros a b [k H]. exists (-k). lia.
  - intros a b c [k H] [l H']. exists (k + l). lia.
Qed.

Global Instance cong_add : Proper (cong ==> cong ==> cong) Z.add.
Proof. intros a b [k H] c d [l H']. exists (k + l). lia. Qed.
Global Instance cong_mul : Proper (cong ==> cong ==> cong) Z.mul.
Proof. intros a b [k ->] c d [l ->]. exists (b * l + k * d + k * l * 127). ring. Qed.
Global Instance cong_sub : Proper (cong ==> cong ==> cong) Z.sub.
Proof. intros a b [k H] c d [l H']. exists (k - l). lia. Qed.
Global Instance cong_opp : Proper (cong ==> cong) Z.opp.
Proof. intros a b [k H]. exists (- k). lia. Qed.

Lemma cong_mod a : a mod 127 == a.
Proof. apply cong_iff. apply Z.mod_mod. lia. Qed.

Lemma cong_sub0 a b : a == b <-> a - b == 0.
Proof.
  split; intros H.
  - rewrite H. rewrite Z.sub_diag. reflexivity.
  - rewrite <- (Z.sub_add b a). rewrite H. reflexivity.
Qed.

Lemma cong_eq a b : fq a -> fq b -> a == b -> a = b.
Proof. unfold fq. intros Ha Hb H. apply cong_iff in H. rewrite !Z.mod_small in H by lia. auto. Qed.

Lemma fq_mod a : fq (a mod 127).
Proof. unfold fq. lia. Qed.

Lemma fq_0 : fq 0. Proof. unfold fq; lia. Qed.
Lemma fq_1 : fq 1. Proof. unfold fq; lia. Qed.
Global Hint Resolve fq_0 fq_1 fq_mod : fq.

(** fq_red on every 16-bit value. *)
Lemma fq_red_spec x : 0 <= x < 65536 -> fq_red x = x mod 127.
Proof.
  intros H. unfold fq_red. rewrite u16_id by auto.
  replace (127 + x) with (x + 1 * 127) by lia. rewrite Z.mod_add by lia.
  apply u8_id. lia.
Qed.

Lemma fq_red_mod x : fq_red x = (u16 x) mod 127.
Proof.
  unfold fq_red. replace (127 + u16 x) with (u16 x + 1 * 127) by lia. rewrite Z.mod_add by lia.
  apply u8_id. lia.
Qed.

Lemma fq_red_range x : fq (fq_red x).
Proof. rewrite fq_red_mod. apply fq_mod. Qed.
Global Hint Resolve fq_red_range : fq.

Lemma fq_red_cong x : 0 <= x < 65536 -> fq_red x == x.
Proof. intros H. rewrite fq_red_spec by auto. apply cong_mod. Qed.

Lemma fq_mul_bound a b : fq a -> fq b -> 0 <= a * b < 65536.
Proof. unfold fq. intros. nia. Qed.

Lemma byte_mul_bound a b : is_byte a -> is_byte b -> 0 <= a * b < 65536.
Proof. unfold is_byte. intros. nia. Qed.

Lemma fq_red_mul a b : fq a -> fq b -> fq_red (a * b) == a * b.
Proof. intros. apply fq_red_cong. apply fq_mul_bound; auto. Qed.

Definition zrange (n : nat) : list Z := map Z.of_nat (seq 0 n).
Lemma in_zrange n x : 0 <= x < Z.of_nat n -> In x (zrange n).
Proof.
  intros H. unfold zrange. apply in_map_iff. exists (Z.to_nat x). split; [lia|].
  apply in_seq. lia.
Qed.

Lemma fq_inv_sweep : forallb (fun x => (fq_inv x =? if x mod 127 =? 0 then 0 else fq_inv x)
   && ((x mod 127 =? 0) || ((fq_inv x * x) mod 127 =? 1))) (zrange 256) = true.
Proof. vm_compute. reflexivity. Qed.

Lemma fq_inv_cases x : is_byte x ->
  (x mod 127 = 0 /\ fq_inv x = 0) \/ (x mod 127 <> 0 /\ fq_inv x * x == 1).
Proof.
  intros H. pose proof fq_inv_sweep as S. rewrite forallb_forall in S.
  specialize (S x). cbv beta in S.
  assert (I : In x (zrange 256)) by (apply in_zrange; unfold is_byte in H; lia).
  specialize (S I). apply andb_prop in S. destruct S as [S1 S2].
  destruct (Z.eqb_spec (x mod 127) 0).
  - left. split; auto. apply Z.eqb_eq in S1. auto.
  - right. split; auto. rewrite orb_false_l in S2. apply Z.eqb_eq in S2. apply cong_iff. rewrite S2. reflexivity.
Qed.

Lemma fq_inv_range x : fq (fq_inv x).
Proof. unfold fq_inv. apply fq_red_range. Qed.
Global Hint Resolve fq_inv_range : fq.

Lemma fq_byte a : fq a -> is_byte a.
Proof. unfold fq, is_byte; lia. Qed.

Lemma fq_inv_l x : fq x -> x <> 0 -> fq_inv x * x == 1.
Proof.
  intros H Hx. destruct (fq_inv_cases x) as [[E _]|[_ E]]; auto.
  - apply fq_byte; auto.
  - unfold fq in H. rewrite Z.mod_small in E by lia. lia.
Qed.

Lemma fq_inv_0 : fq_inv 0 = 0.
Proof. reflexivity. Qed.

(** 127 is prime: no zero divisors. *)
Lemma cong_inv a : ~ a == 0 -> exists b, fq b /\ b * a == 1.
Proof.
  intros H. exists (fq_inv (a mod 127)). split; [apply fq_inv_range|].
  transitivity (fq_inv (a mod 127) * (a mod 127)). { apply cong_mul; [reflexivity|]. symmetry. apply cong_mod. }
  apply fq_inv_l; [apply fq_mod|]. intros E. apply H. apply cong_iff. rewrite E. reflexivity.
Qed.

Lemma cong_mul0 a b : a * b == 0 -> ~ a == 0 -> b == 0.
Proof.
  intros H Ha. destruct (cong_inv a Ha) as (c & _ & Hc).
  assert (E : c * (a * b) == b). { rewrite Z.mul_assoc. rewrite Hc. rewrite Z.mul_1_l. reflexivity. }
  rewrite <- E, H. rewrite Z.mul_0_r. reflexivity.
Qed.

Lemma cong_unit_nz a b : a * b == 1 -> ~ a == 0.
Proof. intros H E. rewrite E in H. rewrite Z.mul_0_l in H. apply cong_iff in H. discriminate. Qed.

Lemma fq_nz a : fq a -> a <> 0 -> ~ a == 0.
Proof. intros H Hn E. apply Hn. apply cong_eq; auto with fq. Qed.

Lemma fq_cong0 a : fq a -> a == 0 -> a = 0.
Proof. intros. apply cong_eq; auto with fq. Qed.

Lemma fq_inv_nz x : fq x -> x <> 0 -> fq_inv x <> 0.
Proof.
  intros H Hx E. pose proof (fq_inv_l x H Hx) as L. rewrite E in L. apply cong_iff in L. discriminate.
Qed.
