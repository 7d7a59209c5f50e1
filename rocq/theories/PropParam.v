(** Property C44: the script that computes the storage for the published seeds; property C12 continued. *)
From Verif Require Import Base BaseLemmas Params ParamsProofs Prim SeedTree Spec EnumProofs SeedTreeProofs TreeFacts TreeMax ParamScript.

(** *** C12: the exact maximum, for every parameter set and every weight *)
Theorem C12_maximum : forall p, wf_params p -> forall w, (1 <= w <= pT p)%nat ->
  forall tree stg, shape (num_nodes p) (seed_len p) tree -> (num_leaves p * seed_len p <= length stg)%nat ->
  (exists ind stg', length ind = pT p /\ Forall (fun x => x = 0 \/ x = 1) ind /\ weight ind = w /\
     seed_tree_path p tree ind stg = Ok (most_published (tree_height p) (pT p) w, stg')) /\
  forall ind, length ind = pT p -> Forall (fun x => x = 0 \/ x = 1) ind -> weight ind = w ->
    exists n stg', seed_tree_path p tree ind stg = Ok (n, stg') /\ (n <= most_published (tree_height p) (pT p) w)%nat.
Proof.
  intros p wf w Hw tree stg HT HS. split.
  - pose proof (pattern_len p w) as P1. pose proof (pattern_01 p w) as P2. pose proof (pattern_weight p wf w Hw) as P3.
    exists (pattern p w).
    destruct (seed_tree_path_gen p wf (pattern p w) P1 P2 tree stg HT ltac:(lia)) as (fl & FS & _ & E).
    { apply (room_ok p wf (pattern p w) P1 P2); [lia|right; auto]. }
    rewrite (npub_pattern p wf w Hw fl FS) in E. eexists. split; [exact P1|]. split; [exact P2|]. split; [exact P3|exact E].
  - intros ind P1 P2 P3. destruct (seed_tree_path_gen p wf ind P1 P2 tree stg HT ltac:(lia)) as (fl & FS & _ & E).
    { apply (room_ok p wf ind P1 P2); [lia|right; auto]. }
    exists (npub p fl). eexists. split; [exact E|]. rewrite <- P3. apply (npub_most p wf ind P1 P2 fl FS). lia.
Qed.

(** *** C44 *)

(** The seven values of SEED_TREE_MAX_PUBLISHED_BYTES are what the script prints. *)
Theorem C44_script_table : forall p, In p less_params ->
  p_maxbytes p = worst_case_seed_tree_cost (Z.of_nat (pT p)) (Z.of_nat (pW p)) (8 * Z.of_nat (seed_len p)).
Proof.
  intros p Hp. assert (A : forallb (fun p => p_maxbytes p =? worst_case_seed_tree_cost (Z.of_nat (pT p)) (Z.of_nat (pW p)) (8 * Z.of_nat (seed_len p))) less_params = true)
    by (vm_compute; reflexivity).
  rewrite forallb_forall in A. apply Z.eqb_eq. auto.
Qed.

(** What the script prints is enough for every pattern, if the number of rounds is not a power of two
    or more than half of the leaves are hidden. *)
Theorem C44_script_bound : forall p, wf_params p -> forall ind tree stg,
  length ind = pT p -> Forall (fun x => x = 0 \/ x = 1) ind -> (0 < weight ind)%nat ->
  (forall k, pT p <> 2 ^ k)%nat \/ (pT p / 2 < weight ind)%nat ->
  shape (num_nodes p) (seed_len p) tree -> (num_leaves p * seed_len p <= length stg)%nat ->
  exists n stg', seed_tree_path p tree ind stg = Ok (n, stg') /\
    Z.of_nat (n * seed_len p) <= worst_case_seed_tree_cost (Z.of_nat (pT p)) (Z.of_nat (weight ind)) (8 * Z.of_nat (seed_len p)).
Proof.
  intros p wf ind tree stg P1 P2 P3 HK HT HS.
  destruct (seed_tree_path_gen p wf ind P1 P2 tree stg HT P3) as (fl & FS & _ & E).
  { apply (room_ok p wf ind P1 P2); [lia|right; auto]. }
  exists (npub p fl). eexists. split; [exact E|]. unfold worst_case_seed_tree_cost.
  rewrite <- (Nat2Z.inj_div _ 2). pose proof (slen_pos p) as SP. pose proof (wf_T p wf) as HT2. pose proof (height_log p wf) as HH.
  destruct (Z.ltb_spec (Z.of_nat (pT p / 2)) (Z.of_nat (weight ind))) as [D|D].
  - pose proof (npub_eq p wf ind P1 P2 fl FS P3) as E1. pose proof (cnt_le (F fl) (num_leaves p - 1)) as E2.
    assert (LT : (num_leaves p <= 2 * pT p)%nat).
    { apply Nat2Z.inj_le. rewrite L_pow, HH, Nat2Z.inj_mul. destruct (Z.log2_spec (Z.of_nat (pT p)) ltac:(lia)) as [L1 _].
      rewrite Z.pow_add_r by (try apply Z.log2_nonneg; lia). change (2 ^ 1) with 2. lia. }
    assert (TW : (pT p <= 2 * weight ind)%nat) by (pose proof (Nat.div_mod (pT p) 2 ltac:(lia)); pose proof (Nat.mod_upper_bound (pT p) 2 ltac:(lia)); lia).
    assert (npub p fl <= 3 * weight ind)%nat by lia. nia.
  - destruct HK as [HK|HK]; [|lia]. pose proof (npub_bound p wf ind P1 P2 fl FS P3) as B. cbv zeta in B.
    rewrite (Z.mul_comm 8), Z.div_mul by lia.
    assert (EL : Z.of_nat (tree_height p) = Z.log2_up (Z.of_nat (pT p))).
    { rewrite HH. pose proof (Z.le_log2_log2_up (Z.of_nat (pT p))). pose proof (Z.le_log2_up_succ_log2 (Z.of_nat (pT p))).
      destruct (Z.eq_dec (Z.log2 (Z.of_nat (pT p))) (Z.log2_up (Z.of_nat (pT p)))) as [EQ|NE]; [|lia].
      apply Z.log2_log2_up_exact in EQ; [|lia]. destruct EQ as (b & Eb). exfalso.
      destruct (Z.lt_ge_cases b 0) as [N|N]. { rewrite Z.pow_neg_r in Eb by lia. lia. }
      apply (HK (Z.to_nat b)). apply Nat2Z.inj. rewrite Nat2Z.inj_pow, Z2Nat.id by lia. exact Eb. }
    rewrite EL in B. nia.
Qed.

(** If the number of rounds is a power of two the script is wrong: NUM_LEAVES_OF_SEED_TREE is then twice the number
    of rounds, the right half of the tree is published as one more seed, and for every weight up to half of
    the rounds there is a pattern that needs exactly one seed more than the script reserves. *)
Theorem C44_power_of_two_refuted : forall p k, wf_params p -> pT p = (2 ^ k)%nat ->
  forall w, (1 <= w)%nat -> (w <= pT p / 2)%nat ->
  exists ind, length ind = pT p /\ Forall (fun x => x = 0 \/ x = 1) ind /\ weight ind = w /\
  forall tree stg, shape (num_nodes p) (seed_len p) tree -> (num_leaves p * seed_len p <= length stg)%nat ->
  exists n stg', seed_tree_path p tree ind stg = Ok (n, stg') /\
    Z.of_nat (n * seed_len p) =
      worst_case_seed_tree_cost (Z.of_nat (pT p)) (Z.of_nat w) (8 * Z.of_nat (seed_len p)) + Z.of_nat (seed_len p).
Proof.
  intros p k wf ET w Hw1 Hw2. pose proof (wf_T p wf) as HT2.
  assert (T2 : (pT p / 2 <= pT p)%nat) by (apply Nat.div_le_upper_bound; lia).
  assert (Hw : (1 <= w <= pT p)%nat) by lia.
  pose proof (pattern_len p w) as P1. pose proof (pattern_01 p w) as P2. pose proof (pattern_weight p wf w Hw) as P3.
  exists (pattern p w). split; [exact P1|]. split; [exact P2|]. split; [exact P3|]. intros tree stg HT HS.
  destruct (seed_tree_path_gen p wf (pattern p w) P1 P2 tree stg HT ltac:(lia)) as (fl & FS & _ & E).
  { apply (room_ok p wf (pattern p w) P1 P2); [lia|right; auto]. }
  exists (npub p fl). eexists. split; [exact E|]. rewrite (npub_pattern p wf w Hw fl FS).
  assert (LT : Z.log2_up (Z.of_nat (pT p)) = Z.of_nat k).
  { rewrite ET, Nat2Z.inj_pow. apply Z.log2_up_pow2. lia. }
  assert (HH : tree_height p = S k).
  { pose proof (height_log p wf) as HH. rewrite ET, Nat2Z.inj_pow, Z.log2_pow2 in HH by lia. lia. }
  unfold worst_case_seed_tree_cost. rewrite <- (Nat2Z.inj_div _ 2).
  destruct (Z.ltb_spec (Z.of_nat (pT p / 2)) (Z.of_nat w)); [lia|].
  rewrite (Z.mul_comm 8), Z.div_mul by lia. rewrite LT, HH. unfold most_published.
  set (c := Z.to_nat (Z.log2_up (Z.of_nat w))). assert (C0 : 0 <= Z.log2_up (Z.of_nat w)) by apply Z.log2_up_nonneg.
  assert (EC : Z.log2_up (Z.of_nat w) = Z.of_nat c) by (unfold c; lia). rewrite EC.
  assert (PC : Z.of_nat (2 ^ c) = 2 ^ Z.of_nat c) by (rewrite Nat2Z.inj_pow; auto). rewrite <- PC.
  assert (WC : (w <= 2 ^ c)%nat).
  { apply Nat2Z.inj_le. rewrite PC, <- EC. destruct (Z.eq_dec (Z.of_nat w) 1) as [->|]; [cbn; lia|]. apply Z.log2_up_spec. lia. }
  assert (CW : (2 ^ (c - 1) < w \/ c = 0)%nat).
  { destruct (Nat.eq_dec c 0); auto. left. apply Nat2Z.inj_lt. rewrite Nat2Z.inj_pow.
    destruct (Z.eq_dec (Z.of_nat w) 1) as [E1|]. { exfalso. assert (c = 0)%nat; [|lia]. unfold c. rewrite E1. reflexivity. }
    pose proof (Z.log2_up_spec (Z.of_nat w) ltac:(lia)) as [L1 _]. rewrite EC in L1. replace (Z.of_nat (c - 1)) with (Z.pred (Z.of_nat c)) by lia. exact L1. }
  assert (CK : (c < k)%nat).
  { destruct k as [|k']. { cbn in ET. lia. } assert (HALF : (w <= 2 ^ k')%nat).
    { rewrite ET, Nat.pow_succ_r' in Hw2. rewrite Nat.mul_comm, Nat.div_mul in Hw2 by lia. auto. }
    destruct CW as [CW| ->]; [|lia]. destruct (Nat.lt_ge_cases c (S k')); auto.
    assert (2 ^ k' <= 2 ^ (c - 1))%nat by (apply Nat.pow_le_mono_r; lia). lia. }
  rewrite ET. rewrite (inner_pow2 k w c k Hw1 CW WC (le_n _)). destruct (Nat.leb_spec k c); [lia|].
  assert (ME : (2 ^ c + (k - c) * w + 1 - w = 2 ^ c + (k - c - 1) * w + 1)%nat) by (replace (k - c)%nat with (S (k - c - 1)) by lia; lia).
  rewrite ME. nia.
Qed.

(** Eight rounds, two of them hidden: the script reserves four seeds, leaves 0 and 4 need five. *)
Definition toy8 : params := Build_params Cat1 132 3 3 8 2 96.
Lemma toy8_wf : wf_params toy8.
Proof.
  constructor; cbn [p_cat pN pK p_nk pT pW p_maxbytes toy8]; try lia; try (repeat split; try lia; reflexivity); try (vm_compute; reflexivity); try (vm_compute; discriminate).
Qed.
Example C44_example :
  worst_case_seed_tree_cost 8 2 128 = 64 /\ pattern toy8 2 = [1; 0; 0; 0; 1; 0; 0; 0] /\
  pT toy8 = (2 ^ 3)%nat /\ (2 <= pT toy8 / 2)%nat /\
  match seed_tree_path toy8 (map (fun i => repeat (Z.of_nat i) 16) (seq 0 31)) (pattern toy8 2) (repeat 255 256) with
  | Ok (n, _) => n = 5%nat
  | _ => False
  end.
Proof.
  split; [reflexivity|]. split; [vm_compute; reflexivity|]. split; [reflexivity|]. split; [apply Nat.leb_le; reflexivity|].
  vm_compute. reflexivity.
Qed.
(** The toy set of the other examples, with six rounds: four seeds, and no pattern needs more. *)
Example C44_bound_example : worst_case_seed_tree_cost 6 2 128 = 64 /\ (forall k, pT toy_params <> 2 ^ k)%nat /\
  most_published (tree_height toy_params) (pT toy_params) 2 = 4%nat /\ pattern toy_params 2 = [1; 0; 0; 0; 1; 0].
Proof.
  split; [reflexivity|]. split; [|split; vm_compute; reflexivity]. intros k. change (pT toy_params) with 6%nat.
  destruct k as [|[|[|k]]]; try discriminate. rewrite !Nat.pow_succ_r'. pose proof (Nat.pow_nonzero 2 k). lia.
Qed.

Print Assumptions C12_maximum.
Print Assumptions C44_script_table.
Print Assumptions C44_script_bound.
Print Assumptions C44_power_of_two_refuted.
