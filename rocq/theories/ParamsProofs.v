From Verif Require Import Base BaseLemmas Params.

Lemma less_params_wf : Forall wf_params less_params.
Proof.
  unfold less_params. repeat (apply Forall_cons; [|]); try apply Forall_nil;
    (constructor; [split; apply Nat.leb_le; reflexivity|repeat apply conj; first [apply Nat.leb_le; reflexivity | reflexivity]|
      split; apply Nat.leb_le; reflexivity|split; apply Nat.leb_le; reflexivity|split; apply Nat.leb_le; reflexivity|..]);
    try (vm_compute; reflexivity); try (vm_compute; discriminate); try lia.
Qed.

(** A small parameter set used for executable examples. *)
Definition toy_params : params := Build_params Cat1 132 3 3 6 2 64.
Lemma toy_wf : wf_params toy_params.
Proof.
  constructor; cbn [p_cat pN pK p_nk pT pW p_maxbytes toy_params]; try lia;
    try (repeat split; try lia; reflexivity); try (vm_compute; reflexivity);
    try (vm_compute; discriminate).
Qed.

Lemma bits_spec n : 0 < n < 65536 -> bits_to_represent n = Z.log2 n + 1.
Proof.
  intros H. unfold bits_to_represent.
  destruct (Z.eqb_spec n 0); [lia|].
  assert (E : forall D, 1 <= D -> is_representable_in D n = if Z.eqb (Z.log2 n + 1) D then D else -1).
  { intros D HD. unfold is_representable_in.
    destruct (Z.eqb_spec (Z.log2 n + 1) D) as [E|E].
    - destruct (Z.log2_spec n) as [L1 L2]; [lia|].
      replace (D - 1) with (Z.log2 n) by lia. replace D with (Z.succ (Z.log2 n)) by lia.
      destruct (Z.leb_spec (2 ^ Z.log2 n) n), (Z.ltb_spec n (2 ^ Z.succ (Z.log2 n))); simpl; auto; lia.
    - destruct (Z.leb_spec (2 ^ (D - 1)) n), (Z.ltb_spec n (2 ^ D)); simpl; auto.
      exfalso. apply E. assert (Z.log2 n = D - 1); [|lia].
      apply Z.log2_unique; try lia. replace (Z.succ (D - 1)) with D by lia. lia. }
  rewrite !E by lia.
  assert (Hl : 0 <= Z.log2 n <= 15).
  { split. apply Z.log2_nonneg. assert (Z.log2 n < 16); [|lia]. apply Z.log2_lt_pow2; lia. }
  assert (C : Z.log2 n = 0 \/ Z.log2 n = 1 \/ Z.log2 n = 2 \/ Z.log2 n = 3 \/ Z.log2 n = 4 \/
    Z.log2 n = 5 \/ Z.log2 n = 6 \/ Z.log2 n = 7 \/ Z.log2 n = 8 \/ Z.log2 n = 9 \/ Z.log2 n = 10 \/
    Z.log2 n = 11 \/ Z.log2 n = 12 \/ Z.log2 n = 13 \/ Z.log2 n = 14 \/ Z.log2 n = 15) by lia.
  repeat (destruct C as [C|C]; [rewrite C; reflexivity|]). rewrite C; reflexivity.
Qed.

Lemma bits_127 : bits_to_represent 127 = 7.
Proof. reflexivity. Qed.
Lemma mask_q_val : mask_q = 127.
Proof. reflexivity. Qed.

Lemma bits_N p : wf_params p -> bits_to_represent (Z.of_nat (pN p)) =
  match p_cat p with Cat1 => 8 | Cat3 => 9 | Cat5 => 10 end.
Proof.
  intros W. pose proof (wf_cat p W) as C.
  destruct (p_cat p); (rewrite bits_spec by lia).
  - rewrite (Z.log2_unique _ 7); lia.
  - rewrite (Z.log2_unique _ 8); lia.
  - rewrite (Z.log2_unique _ 9); lia.
Qed.
