(** The unrolled permutation of keccakf1600.c computes Keccak-f[1600]. *)
From Verif Require Import Base BaseLemmas Keccak KeccakSpec.

Definition lane_ok (a : Z) : Prop := 0 <= a < 2 ^ 64.
Definition lanes (st : list Z) : Prop := length st = 25%nat /\ Forall lane_ok st.

(** Bit [z] of lane (x, y). *)
Definition bitat (st : list Z) : array := fun x y z => Z.testbit (nth (x + 5 * y) st 0) (Z.of_nat z).

Lemma lane_high a n : lane_ok a -> 64 <= n -> Z.testbit a n = false.
Proof.
  intros [H1 H2] Hn. destruct (Z.eq_dec a 0) as [->|]. { apply Z.bits_0. }
  apply Z.bits_above_log2; [lia|]. apply Z.log2_lt_pow2; [lia|]. eapply Z.lt_le_trans; [exact H2|].
  apply Z.pow_le_mono_r; lia.
Qed.

Lemma lane_ok_bits a : 0 <= a -> (forall n, 64 <= n -> Z.testbit a n = false) -> lane_ok a.
Proof.
  intros H0 H. split; auto. destruct (Z.eq_dec a 0) as [->|]; [reflexivity|].
  apply Z.log2_lt_pow2; [lia|]. destruct (Z.lt_ge_cases (Z.log2 a) 64) as [|L]; auto.
  pose proof (Z.bit_log2 a ltac:(lia)) as B. rewrite H in B by auto. discriminate.
Qed.

Lemma lxor_ok a b : lane_ok a -> lane_ok b -> lane_ok (Z.lxor a b).
Proof.
  intros HA HB. apply lane_ok_bits. { apply Z.lxor_nonneg. split; intros; [apply HB|apply HA]. }
  intros n Hn. rewrite Z.lxor_spec, !lane_high by auto. auto.
Qed.

Lemma land_ok a b : lane_ok a -> lane_ok b -> lane_ok (Z.land a b).
Proof.
  intros HA HB. apply lane_ok_bits. { apply Z.land_nonneg. left. apply HA. }
  intros n Hn. rewrite Z.land_spec, !lane_high by auto. auto.
Qed.

Lemma not64_eq a : not64 a = Z.lnot a + 2 ^ 64.
Proof. unfold not64, Z.lnot. lia. Qed.

Lemma not64_ok a : lane_ok a -> lane_ok (not64 a).
Proof. unfold lane_ok, not64. intros H. change (2 ^ 64) with 18446744073709551616 in *. lia. Qed.

Lemma not64_spec a z : lane_ok a -> (z < 64)%nat -> Z.testbit (not64 a) (Z.of_nat z) = negb (Z.testbit a (Z.of_nat z)).
Proof.
  intros HA Hz. assert (E : not64 a = (Z.lnot a) mod 2 ^ 64).
  { unfold not64, Z.lnot. destruct HA. change (2 ^ 64) with 18446744073709551616 in *.
    apply Z.mod_unique_pos with (q := -1); lia. }
  rewrite E, Z.mod_pow2_bits_low by lia. apply Z.lnot_spec. lia.
Qed.

Lemma u64_ok a : lane_ok (u64 a).
Proof. unfold u64, lane_ok. change (2 ^ 64) with 18446744073709551616. apply Z.mod_pos_bound. lia. Qed.

Lemma shiftr_ok a k : 0 <= k -> lane_ok a -> lane_ok (Z.shiftr a k).
Proof.
  intros Hk HA. apply lane_ok_bits. { apply Z.shiftr_nonneg. apply HA. }
  intros n Hn. rewrite Z.shiftr_spec by lia. apply lane_high; auto. lia.
Qed.

Lemma rol64_ok a k : 0 <= k <= 64 -> lane_ok a -> lane_ok (rol64 a k).
Proof. intros Hk HA. unfold rol64. apply lxor_ok. apply u64_ok. apply shiftr_ok; auto. lia. Qed.

Lemma rol64_spec a k z : (0 < k < 64)%nat -> lane_ok a -> (z < 64)%nat ->
  Z.testbit (rol64 a (Z.of_nat k)) (Z.of_nat z) = Z.testbit a (Z.of_nat ((z + (64 - k)) mod 64)).
Proof.
  intros Hk HA Hz. unfold rol64, u64. change 18446744073709551616 with (2 ^ 64).
  rewrite Z.lxor_spec, Z.mod_pow2_bits_low, Z.shiftr_spec, Z.shiftl_spec by lia.
  destruct (Nat.lt_ge_cases z k) as [L|L].
  - rewrite Z.testbit_neg_r by lia. rewrite Nat.mod_small by lia. rewrite xorb_false_l. f_equal. lia.
  - rewrite (lane_high a (Z.of_nat z + (64 - Z.of_nat k))) by (auto; lia). rewrite xorb_false_r. f_equal.
    replace (z + (64 - k))%nat with ((z - k) + 1 * 64)%nat by lia. rewrite Nat.mod_add, Nat.mod_small by lia. lia.
Qed.

Lemma rol64_bit a K z : (0 <? K) && (K <? 64) = true -> lane_ok a -> (z < 64)%nat ->
  Z.testbit (rol64 a K) (Z.of_nat z) = Z.testbit a (Z.of_nat ((z + (64 - Z.to_nat K)) mod 64)).
Proof.
  intros HK HA Hz. rewrite <- (Z2Nat.id K) at 1 by lia. apply rol64_spec; auto. lia.
Qed.

(** *** One round *)
Definition rep (a : Z) (f : nat -> bool) : Prop := lane_ok a /\ forall i, (i < 64)%nat -> Z.testbit a (Z.of_nat i) = f i.

Lemma mod64_lt z k : ((z + k) mod 64 < 64)%nat.
Proof. apply Nat.mod_upper_bound. lia. Qed.

Lemma mod64_0 z : (z < 64)%nat -> ((z + 64) mod 64)%nat = z.
Proof. intros. replace (z + 64)%nat with (z + 1 * 64)%nat by lia. rewrite Nat.mod_add, Nat.mod_small by lia. lia. Qed.

Lemma rep_ok a f : rep a f -> lane_ok a.
Proof. intros [H _]. exact H. Qed.
Lemma rep_lxor a b f g : rep a f -> rep b g -> rep (Z.lxor a b) (fun i => xorb (f i) (g i)).
Proof. intros [A1 A2] [B1 B2]. split; [apply lxor_ok; auto|]. intros i Hi. rewrite Z.lxor_spec, A2, B2 by auto. auto. Qed.
Lemma rep_land a b f g : rep a f -> rep b g -> rep (Z.land a b) (fun i => andb (f i) (g i)).
Proof. intros [A1 A2] [B1 B2]. split; [apply land_ok; auto|]. intros i Hi. rewrite Z.land_spec, A2, B2 by auto. auto. Qed.
Lemma rep_not a f : rep a f -> rep (not64 a) (fun i => xorb (f i) true).
Proof. intros [A1 A2]. split; [apply not64_ok; auto|]. intros i Hi. rewrite not64_spec, A2 by auto. destruct (f i); auto. Qed.
Lemma rep_rol a K f : (0 <? K) && (K <? 64) = true -> rep a f -> rep (rol64 a K) (fun i => f ((i + (64 - Z.to_nat K)) mod 64)%nat).
Proof. intros HK [A1 A2]. split; [apply rol64_ok; auto; lia|]. intros i Hi. rewrite rol64_bit by auto. apply A2. apply mod64_lt. Qed.

Definition is_round (f : Z -> list Z -> res (list Z)) : Prop :=
  forall rc st ir, lane_ok rc -> (forall z, (z < 64)%nat -> Z.testbit rc (Z.of_nat z) = RC_bit ir z) -> lanes st ->
  exists st', f rc st = Ok st' /\ lanes st' /\
    forall x y z, (x < 5)%nat -> (y < 5)%nat -> (z < 64)%nat -> bitat st' x y z = Rnd (bitat st) ir x y z.

Lemma lt5 n : (n < 5)%nat -> n = 0%nat \/ n = 1%nat \/ n = 2%nat \/ n = 3%nat \/ n = 4%nat.
Proof. lia. Qed.

Lemma list25 (st : list Z) : length st = 25%nat -> exists a0 a1 a2 a3 a4 a5 a6 a7 a8 a9 a10 a11 a12 a13 a14 a15 a16 a17 a18 a19 a20 a21 a22 a23 a24,
  st = [a0; a1; a2; a3; a4; a5; a6; a7; a8; a9; a10; a11; a12; a13; a14; a15; a16; a17; a18; a19; a20; a21; a22; a23; a24].
Proof.
  intros H. do 25 (destruct st as [|? st]; [discriminate H|]). destruct st; [|discriminate H].
  repeat eexists.
Qed.

(** rho with the unmoved lane kept apart *)
Definition rho_alt (A : array) : array := fun x y z =>
  A x y (match rho_offset x y with O => z | S k => (z + (63 - k)) mod 64 end)%nat.
Definition Rnd_alt (A : array) (ir : nat) : array := iota ir (chi (pi (rho_alt (theta A)))).

Lemma rho_alt_eq A x y z : (z < 64)%nat -> rho_alt A x y z = rho A x y z.
Proof.
  intros Hz. unfold rho_alt, rho. destruct (rho_offset x y) as [|k]; auto.
  change (64 - 0)%nat with 64%nat. rewrite mod64_0 by auto. auto.
Qed.

Lemma Rnd_alt_eq A ir x y z : (z < 64)%nat -> Rnd_alt A ir x y z = Rnd A ir x y z.
Proof.
  intros Hz. unfold Rnd_alt, Rnd, iota, chi, pi. rewrite !rho_alt_eq by auto. auto.
Qed.

Lemma round_alt A ir (m : res (list Z)) :
  (exists st', m = Ok st' /\ lanes st' /\
    forall x y z, (x < 5)%nat -> (y < 5)%nat -> (z < 64)%nat -> bitat st' x y z = Rnd_alt A ir x y z) ->
  exists st', m = Ok st' /\ lanes st' /\
    forall x y z, (x < 5)%nat -> (y < 5)%nat -> (z < 64)%nat -> bitat st' x y z = Rnd A ir x y z.
Proof.
  intros (st'&H1&H2&H3). exists st'. repeat split; auto; try apply H2. intros. rewrite H3 by auto. apply Rnd_alt_eq. auto.
Qed.

Lemma let_rep (e : Z) f (b : Z -> res (list Z)) (Q : list Z -> Prop) :
  rep e f -> (forall v, rep v f -> exists st', b v = Ok st' /\ Q st') -> exists st', (let v := e in b v) = Ok st' /\ Q st'.
Proof. intros HE HB. cbv zeta. auto. Qed.

Lemma rep_at (a : Z) f z (Y : bool) : rep a f -> (z < 64)%nat -> f z = Y -> Z.testbit a (Z.of_nat z) = Y.
Proof. intros [_ H] Hz <-. auto. Qed.

Ltac rep_tac := first [ eassumption
  | (eapply rep_rol; [reflexivity|rep_tac]) | (eapply rep_not; rep_tac)
  | (eapply rep_lxor; [rep_tac|rep_tac]) | (eapply rep_land; [rep_tac|rep_tac]) ].

Ltac let_step :=
  lazymatch goal with |- exists st', (let v := ?e in @?b v) = Ok st' /\ @?Q st' =>
    eapply (let_rep e _ b Q); [rep_tac|let v := fresh "v" in let H := fresh "RV" in intros v H; cbv beta in H |- *] end.

Lemma round_even_ok : is_round round_even.
Proof.
  intros rc st ir HR HC [HL HF]. destruct (list25 st HL) as (a0&a1&a2&a3&a4&a5&a6&a7&a8&a9&a10&a11&a12&a13&a14&a15&a16&a17&a18&a19&a20&a21&a22&a23&a24&->). clear HL.
  repeat match goal with H : Forall _ (_ :: _) |- _ => apply Forall_cons_iff in H; let L := fresh "LA" in destruct H as [L H] end.
  set (A := bitat [a0; a1; a2; a3; a4; a5; a6; a7; a8; a9; a10; a11; a12; a13; a14; a15; a16; a17; a18; a19; a20; a21; a22; a23; a24]) in *.
  assert (R0 : rep a0 (fun i => A 0%nat 0%nat i)) by (split; [assumption|intros; reflexivity]).
  assert (R1 : rep a1 (fun i => A 1%nat 0%nat i)) by (split; [assumption|intros; reflexivity]).
  assert (R2 : rep a2 (fun i => A 2%nat 0%nat i)) by (split; [assumption|intros; reflexivity]).
  assert (R3 : rep a3 (fun i => A 3%nat 0%nat i)) by (split; [assumption|intros; reflexivity]).
  assert (R4 : rep a4 (fun i => A 4%nat 0%nat i)) by (split; [assumption|intros; reflexivity]).
  assert (R5 : rep a5 (fun i => A 0%nat 1%nat i)) by (split; [assumption|intros; reflexivity]).
  assert (R6 : rep a6 (fun i => A 1%nat 1%nat i)) by (split; [assumption|intros; reflexivity]).
  assert (R7 : rep a7 (fun i => A 2%nat 1%nat i)) by (split; [assumption|intros; reflexivity]).
  assert (R8 : rep a8 (fun i => A 3%nat 1%nat i)) by (split; [assumption|intros; reflexivity]).
  assert (R9 : rep a9 (fun i => A 4%nat 1%nat i)) by (split; [assumption|intros; reflexivity]).
  assert (R10 : rep a10 (fun i => A 0%nat 2%nat i)) by (split; [assumption|intros; reflexivity]).
  assert (R11 : rep a11 (fun i => A 1%nat 2%nat i)) by (split; [assumption|intros; reflexivity]).
  assert (R12 : rep a12 (fun i => A 2%nat 2%nat i)) by (split; [assumption|intros; reflexivity]).
  assert (R13 : rep a13 (fun i => A 3%nat 2%nat i)) by (split; [assumption|intros; reflexivity]).
  assert (R14 : rep a14 (fun i => A 4%nat 2%nat i)) by (split; [assumption|intros; reflexivity]).
  assert (R15 : rep a15 (fun i => A 0%nat 3%nat i)) by (split; [assumption|intros; reflexivity]).
  assert (R16 : rep a16 (fun i => A 1%nat 3%nat i)) by (split; [assumption|intros; reflexivity]).
  assert (R17 : rep a17 (fun i => A 2%nat 3%nat i)) by (split; [assumption|intros; reflexivity]).
  assert (R18 : rep a18 (fun i => A 3%nat 3%nat i)) by (split; [assumption|intros; reflexivity]).
  assert (R19 : rep a19 (fun i => A 4%nat 3%nat i)) by (split; [assumption|intros; reflexivity]).
  assert (R20 : rep a20 (fun i => A 0%nat 4%nat i)) by (split; [assumption|intros; reflexivity]).
  assert (R21 : rep a21 (fun i => A 1%nat 4%nat i)) by (split; [assumption|intros; reflexivity]).
  assert (R22 : rep a22 (fun i => A 2%nat 4%nat i)) by (split; [assumption|intros; reflexivity]).
  assert (R23 : rep a23 (fun i => A 3%nat 4%nat i)) by (split; [assumption|intros; reflexivity]).
  assert (R24 : rep a24 (fun i => A 4%nat 4%nat i)) by (split; [assumption|intros; reflexivity]).
  clearbody A. assert (RR : rep rc (RC_bit ir)) by (split; assumption).
  clear HF HR HC. repeat match goal with H : lane_ok _ |- _ => clear H end.
  apply (round_alt A ir). cbv beta iota delta [round_even].
  repeat let_step.
  eexists. split; [reflexivity|]. split.
  - split; [reflexivity|]. repeat (apply Forall_cons; [eapply rep_ok; eassumption|]). apply Forall_nil.
  - intros x y z Hx Hy Hz.
    destruct (lt5 x Hx) as [->|[->|[->|[->| ->]]]]; destruct (lt5 y Hy) as [->|[->|[->|[->| ->]]]];
      (unfold bitat; cbn [nth Nat.add Nat.mul]; eapply rep_at; [eassumption|exact Hz|cbv beta; reflexivity]).
Qed.

Lemma round_odd_ok : is_round round_odd.
Proof.
  intros rc st ir HR HC [HL HF]. destruct (list25 st HL) as (a0&a1&a2&a3&a4&a5&a6&a7&a8&a9&a10&a11&a12&a13&a14&a15&a16&a17&a18&a19&a20&a21&a22&a23&a24&->). clear HL.
  repeat match goal with H : Forall _ (_ :: _) |- _ => apply Forall_cons_iff in H; let L := fresh "LA" in destruct H as [L H] end.
  set (A := bitat [a0; a1; a2; a3; a4; a5; a6; a7; a8; a9; a10; a11; a12; a13; a14; a15; a16; a17; a18; a19; a20; a21; a22; a23; a24]) in *.
  assert (R0 : rep a0 (fun i => A 0%nat 0%nat i)) by (split; [assumption|intros; reflexivity]).
  assert (R1 : rep a1 (fun i => A 1%nat 0%nat i)) by (split; [assumption|intros; reflexivity]).
  assert (R2 : rep a2 (fun i => A 2%nat 0%nat i)) by (split; [assumption|intros; reflexivity]).
  assert (R3 : rep a3 (fun i => A 3%nat 0%nat i)) by (split; [assumption|intros; reflexivity]).
  assert (R4 : rep a4 (fun i => A 4%nat 0%nat i)) by (split; [assumption|intros; reflexivity]).
  assert (R5 : rep a5 (fun i => A 0%nat 1%nat i)) by (split; [assumption|intros; reflexivity]).
  assert (R6 : rep a6 (fun i => A 1%nat 1%nat i)) by (split; [assumption|intros; reflexivity]).
  assert (R7 : rep a7 (fun i => A 2%nat 1%nat i)) by (split; [assumption|intros; reflexivity]).
  assert (R8 : rep a8 (fun i => A 3%nat 1%nat i)) by (split; [assumption|intros; reflexivity]).
  assert (R9 : rep a9 (fun i => A 4%nat 1%nat i)) by (split; [assumption|intros; reflexivity]).
  assert (R10 : rep a10 (fun i => A 0%nat 2%nat i)) by (split; [assumption|intros; reflexivity]).
  assert (R11 : rep a11 (fun i => A 1%nat 2%nat i)) by (split; [assumption|intros; reflexivity]).
  assert (R12 : rep a12 (fun i => A 2%nat 2%nat i)) by (split; [assumption|intros; reflexivity]).
  assert (R13 : rep a13 (fun i => A 3%nat 2%nat i)) by (split; [assumption|intros; reflexivity]).
  assert (R14 : rep a14 (fun i => A 4%nat 2%nat i)) by (split; [assumption|intros; reflexivity]).
  assert (R15 : rep a15 (fun i => A 0%nat 3%nat i)) by (split; [assumption|intros; reflexivity]).
  assert (R16 : rep a16 (fun i => A 1%nat 3%nat i)) by (split; [assumption|intros; reflexivity]).
  assert (R17 : rep a17 (fun i => A 2%nat 3%nat i)) by (split; [assumption|intros; reflexivity]).
  assert (R18 : rep a18 (fun i => A 3%nat 3%nat i)) by (split; [assumption|intros; reflexivity]).
  assert (R19 : rep a19 (fun i => A 4%nat 3%nat i)) by (split; [assumption|intros; reflexivity]).
  assert (R20 : rep a20 (fun i => A 0%nat 4%nat i)) by (split; [assumption|intros; reflexivity]).
  assert (R21 : rep a21 (fun i => A 1%nat 4%nat i)) by (split; [assumption|intros; reflexivity]).
  assert (R22 : rep a22 (fun i => A 2%nat 4%nat i)) by (split; [assumption|intros; reflexivity]).
  assert (R23 : rep a23 (fun i => A 3%nat 4%nat i)) by (split; [assumption|intros; reflexivity]).
  assert (R24 : rep a24 (fun i => A 4%nat 4%nat i)) by (split; [assumption|intros; reflexivity]).
  clearbody A. assert (RR : rep rc (RC_bit ir)) by (split; assumption).
  clear HF HR HC. repeat match goal with H : lane_ok _ |- _ => clear H end.
  apply (round_alt A ir). cbv beta iota delta [round_odd].
  repeat let_step.
  eexists. split; [reflexivity|]. split.
  - split; [reflexivity|]. repeat (apply Forall_cons; [eapply rep_ok; eassumption|]). apply Forall_nil.
  - intros x y z Hx Hy Hz.
    destruct (lt5 x Hx) as [->|[->|[->|[->| ->]]]]; destruct (lt5 y Hy) as [->|[->|[->|[->| ->]]]];
      (unfold bitat; cbn [nth Nat.add Nat.mul]; eapply rep_at; [eassumption|exact Hz|cbv beta; reflexivity]).
Qed.

(** *** The whole permutation *)
Definition near (A B : array) : Prop := forall x y z, (x < 5)%nat -> (y < 5)%nat -> (z < 64)%nat -> A x y z = B x y z.

Lemma mod5_lt n : (n mod 5 < 5)%nat.
Proof. apply Nat.mod_upper_bound. lia. Qed.

Lemma mod64_lt' n : (n mod 64 < 64)%nat.
Proof. apply Nat.mod_upper_bound. lia. Qed.

Lemma Rnd_near A B ir : near A B -> near (Rnd A ir) (Rnd B ir).
Proof.
  intros H. assert (HT : near (theta A) (theta B)).
  { intros x y z Hx Hy Hz. unfold theta, colsum. rewrite !H; auto using mod5_lt, mod64_lt'; lia. }
  assert (HP : near (pi (rho (theta A))) (pi (rho (theta B)))).
  { intros x y z Hx Hy Hz. unfold pi, rho. apply HT; auto using mod5_lt, mod64_lt'. }
  assert (HC : near (chi (pi (rho (theta A)))) (chi (pi (rho (theta B))))).
  { intros x y z Hx Hy Hz. unfold chi. rewrite !HP; auto using mod5_lt, mod64_lt'. }
  intros x y z Hx Hy Hz. unfold Rnd, iota. rewrite !HC; auto.
Qed.

Lemma rounds_near l : forall A B, near A B -> near (fold_left Rnd l A) (fold_left Rnd l B).
Proof. induction l as [|i l IH]; intros A B H; cbn [fold_left]; auto. apply IH, Rnd_near, H. Qed.

Lemma near_trans A B C : near A B -> near B C -> near A C.
Proof. intros H1 H2 x y z Hx Hy Hz. rewrite H1 by auto. auto. Qed.

Lemma constants_bits : forallb (fun ir => forallb (fun z =>
  Bool.eqb (Z.testbit (nth ir KeccakF_RoundConstants 0) (Z.of_nat z)) (RC_bit ir z)) (seq 0 64)) (seq 0 24) = true.
Proof. vm_compute. reflexivity. Qed.

Lemma constants_ok : forallb (fun c => (0 <=? c) && (c <? 18446744073709551616)) KeccakF_RoundConstants = true.
Proof. reflexivity. Qed.

Lemma constant_spec ir : (ir < 24)%nat -> lane_ok (nth ir KeccakF_RoundConstants 0) /\
  forall z, (z < 64)%nat -> Z.testbit (nth ir KeccakF_RoundConstants 0) (Z.of_nat z) = RC_bit ir z.
Proof.
  intros Hi. split.
  - pose proof constants_ok as C. rewrite forallb_forall in C. specialize (C (nth ir KeccakF_RoundConstants 0)).
    unfold lane_ok. change (2 ^ 64) with 18446744073709551616. assert (In (nth ir KeccakF_RoundConstants 0) KeccakF_RoundConstants) by (apply nth_In; exact Hi).
    specialize (C H). lia.
  - intros z Hz. pose proof constants_bits as C. rewrite forallb_forall in C. specialize (C ir).
    assert (I : In ir (seq 0 24)) by (apply in_seq; lia). specialize (C I). cbv beta in C. rewrite forallb_forall in C.
    assert (J : In z (seq 0 64)) by (apply in_seq; lia). specialize (C z J). apply Bool.eqb_prop in C. exact C.
Qed.

(** The bits of the state string of FIPS 202, 3.1. *)
Definition sbit (st : list Z) (i : nat) : bool := Z.testbit (nth (i / 64) st 0) (Z.of_nat (i mod 64)).
Definition same (S S' : nat -> bool) : Prop := forall i, (i < 1600)%nat -> S i = S' i.

Lemma StatePermute_rounds st : lanes st ->
  okp (StatePermute st) (fun st' => lanes st' /\ near (bitat st') (keccak_p (bitat st))).
Proof.
  intros HL. unfold StatePermute.
  apply okp_mono with (P := fun st' => lanes st' /\ near (bitat st') (fold_left Rnd (seq 0 (2 * 12)) (bitat st))); [|intros ? H; exact H].
  apply (okp_for (fun i st' => lanes st' /\ near (bitat st') (fold_left Rnd (seq 0 (2 * i)) (bitat st)))).
  { split; auto. intros x y z _ _ _. reflexivity. }
  intros i s [_ Hi] [HS HN]. change (NROUNDS / 2)%nat with 12%nat in Hi.
  destruct (constant_spec (2 * i)) as [C1 C2]; [lia|]. destruct (constant_spec (2 * i + 1)) as [D1 D2]; [lia|].
  rewrite (get_ok _ _ 0) by (change (length KeccakF_RoundConstants) with 24%nat; lia). cbn [bind].
  destruct (round_even_ok _ s (2 * i)%nat C1 C2 HS) as (e & -> & E1 & E2). cbn [bind].
  rewrite (get_ok _ _ 0) by (change (length KeccakF_RoundConstants) with 24%nat; lia). cbn [bind].
  destruct (round_odd_ok _ e (2 * i + 1)%nat D1 D2 E1) as (s' & -> & F1 & F2).
  apply okp_ok. split; auto.
  replace (2 * S i)%nat with (2 * i + 1 + 1)%nat by lia. rewrite seq_app, fold_left_app. cbn [seq fold_left Nat.add].
  rewrite seq_app, fold_left_app. cbn [seq fold_left]. rewrite Nat.add_0_l.
  eapply near_trans; [exact F2|]. apply Rnd_near. eapply near_trans; [exact E2|]. apply Rnd_near. exact HN.
Qed.

Definition perm (st : list Z) : list Z := match StatePermute st with Ok s => s | _ => st end.

Lemma StatePermute_ok st : lanes st -> StatePermute st = Ok (perm st) /\ lanes (perm st) /\
  same (sbit (perm st)) (keccak_f (sbit st)).
Proof.
  intros HL. destruct (StatePermute_rounds st HL) as (st' & E & H1 & H2). unfold perm. rewrite E.
  split; auto. split; auto. intros i Hi. unfold keccak_f, of_array.
  assert (D : (i / 64 < 25)%nat) by (apply Nat.div_lt_upper_bound; lia).
  assert (M : (i mod 64 < 64)%nat) by (apply mod64_lt').
  assert (D5 : (i / 64 / 5 < 5)%nat) by (apply Nat.div_lt_upper_bound; lia).
  assert (HN : near (bitat st) (to_array (sbit st))).
  { intros x y z Hx Hy Hz. unfold bitat, to_array, sbit.
    replace (64 * (5 * y + x) + z)%nat with (z + (5 * y + x) * 64)%nat by lia.
    rewrite Nat.div_add, Nat.mod_add, Nat.div_small, Nat.mod_small by lia. do 2 f_equal. lia. }
  assert (E' : keccak_p (to_array (sbit st)) ((i / 64) mod 5)%nat (i / 64 / 5)%nat (i mod 64)%nat =
    keccak_p (bitat st) ((i / 64) mod 5)%nat (i / 64 / 5)%nat (i mod 64)%nat).
  { symmetry. apply rounds_near; auto using mod5_lt. }
  rewrite E', <- H2 by auto using mod5_lt. unfold sbit, bitat. do 2 f_equal.
  pose proof (Nat.div_mod (i / 64) 5 ltac:(lia)). lia.
Qed.

Lemma keccak_f_same S S' : same S S' -> same (keccak_f S) (keccak_f S').
Proof.
  intros H i Hi. unfold keccak_f, of_array. apply rounds_near; auto using mod5_lt, mod64_lt'.
  - intros x y z Hx Hy Hz. unfold to_array. apply H. lia.
  - apply Nat.div_lt_upper_bound; [lia|]. apply Nat.div_lt_upper_bound; lia.
Qed.
