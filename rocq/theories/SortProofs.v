(** Column sorting: [lex_sort_cols]. *)
From Coq Require Import Permutation Sorted.
From Verif Require Import Base BaseLemmas Params ParamsProofs Fq FqProofs Sums LinAlg Codes LexProofs.

(** *** The lexicographic order *)
Lemma lex_le_trans a b c : lex_le a b -> lex_le b c -> lex_le a c.
Proof.
  revert b c. induction a as [|x a IH]; intros [|y b] [|z c]; simpl; auto; try tauto.
  intros [H|[-> H]] [H'|[-> H']]; auto; try (left; lia). right. split; auto. eapply IH; eauto.
Qed.

Lemma lex_le_antisym a b : lex_le a b -> lex_le b a -> a = b.
Proof.
  revert b. induction a as [|x a IH]; intros [|y b]; simpl; auto; try tauto.
  intros [H|[-> H]] [H'|[E H']]; try lia. f_equal; auto.
Qed.

(** Result of lex_compare_with_pivot: 1 if a < b, -1 if a > b, 0 if equal. *)
Fixpoint lcmp (a b : list Z) : Z :=
  match a, b with
  | x :: a', y :: b' => if x - y =? 0 then lcmp a' b' else if x - y >? 0 then -1 else 1
  | _, _ => 0
  end.

Lemma lcmp_refl a : lcmp a a = 0.
Proof. induction a; simpl; auto. rewrite Z.sub_diag. auto. Qed.

Lemma lcmp_not1 a b : length a = length b -> lcmp a b <> 1 -> lex_le b a.
Proof.
  revert b. induction a as [|x a IH]; intros [|y b]; simpl; auto; try lia.
  intros L H. destruct (Z.eqb_spec (x - y) 0).
  - right. split; [lia|]. apply IH; auto.
  - destruct (Z.gtb_spec (x - y) 0); auto; lia.
Qed.

Lemma lcmp_notm1 a b : length a = length b -> lcmp a b <> -1 -> lex_le a b.
Proof.
  revert b. induction a as [|x a IH]; intros [|y b]; simpl; auto; try lia.
  intros L H. destruct (Z.eqb_spec (x - y) 0).
  - right. split; [lia|]. apply IH; auto.
  - destruct (Z.gtb_spec (x - y) 0); auto; lia.
Qed.

Lemma lcmp_range a b : lcmp a b = 0 \/ lcmp a b = 1 \/ lcmp a b = -1.
Proof.
  revert b. induction a as [|x a IH]; intros [|y b]; simpl; auto.
  destruct (x - y =? 0); auto. destruct (x - y >? 0); auto.
Qed.

(** Sorted permutations are unique. *)
Lemma sorted_perm_unique (l l' : list (list Z)) :
  StronglySorted lex_le l -> StronglySorted lex_le l' -> Permutation l l' -> l = l'.
Proof.
  revert l'. induction l as [|x l IH]; intros l' S S' P.
  - apply Permutation_nil in P. auto.
  - destruct l' as [|y l']. { apply Permutation_sym, Permutation_nil in P. discriminate. }
    inversion S as [|? ? S1 F1]; subst. inversion S' as [|? ? S2 F2]; subst.
    assert (E : x = y).
    { apply lex_le_antisym.
      - assert (I : In y (x :: l)) by (eapply Permutation_in; [apply Permutation_sym; eauto|simpl; auto]).
        destruct I as [->|I]; [apply lex_le_refl|]. rewrite Forall_forall in F1. auto.
      - assert (I : In x (y :: l')) by (eapply Permutation_in; [eauto|simpl; auto]).
        destruct I as [->|I]; [apply lex_le_refl|]. rewrite Forall_forall in F2. auto. }
    subst y. f_equal. apply IH; auto. eapply Permutation_cons_inv; eauto.
Qed.

Section R.
Variable p : params.
Hypothesis wf : wf_params p.
Notation N := (pN p).
Notation K := (pK p).
Notation w := (pN p - pK p)%nat.

Definition bytm (V : mat) : Prop := forall i j, (i < K)%nat -> (j < w)%nat -> is_byte (ent V i j).

Notation C V := (column K (ent V)).

Lemma pos_mod_N : Z.of_nat N < pos_mod p /\ 256 <= pos_mod p.
Proof.
  pose proof (wf_cat p wf) as H. unfold pos_mod. destruct (p_cat p); lia.
Qed.

Lemma pos_t_id x : 0 <= x <= Z.of_nat N -> pos_t p x = x.
Proof. intros H. unfold pos_t. apply Z.mod_small. pose proof pos_mod_N. lia. Qed.

Lemma pos_t_succ x y : 0 <= x + y <= Z.of_nat N -> pos_t p (pos_t p x + y) = x + y.
Proof.
  intros H. unfold pos_t. pose proof pos_mod_N. rewrite Z.add_mod_idemp_l by lia. apply Z.mod_small. lia.
Qed.

Lemma pos_t_byte x : is_byte x -> pos_t p x = x.
Proof. intros H. unfold pos_t, is_byte in *. apply Z.mod_small. pose proof pos_mod_N. lia. Qed.

Lemma column_swap_spec V a b : shape K w V -> bytm V -> (a < w)%nat -> (b < w)%nat -> a <> b ->
  okp (column_swap p V a b) (fun V' => shape K w V' /\ bytm V' /\
    forall c, (c < w)%nat -> C V' c = C V (swp a b c)).
Proof.
  intros HV HB Ha Hb Hab. unfold column_swap.
  eapply okp_mono. eapply okp_for with (I := fun n V' => shape K w V' /\
    forall i j, (i < K)%nat -> (j < w)%nat ->
      ent V' i j = if (i <? n)%nat then ent V i (swp a b j) else ent V i j).
  - split; auto.
  - intros n V' Hn (H1 & H2).
    rewrite (get2_ok _ K w) by (auto; lia). cbn [bind].
    rewrite (get2_ok _ K w) by (auto; lia). cbn [bind].
    rewrite (set2_ok _ K w) by (auto; lia). cbn [bind].
    rewrite (set2_ok _ K w) by (auto using shape_upd2; try apply shape_upd2; auto; lia).
    apply okp_ok. split. { apply shape_upd2; [apply shape_upd2|]; auto; lia. }
    intros i j Hi Hj.
    rewrite (ent_upd2 _ K w) by (try apply shape_upd2; auto; lia).
    rewrite (ent_upd2 _ K w) by (auto; lia).
    rewrite !H2 by (auto; lia). rewrite Nat.ltb_irrefl.
    rewrite (pos_t_byte (ent V n b)) by (apply HB; lia).
    rewrite u8_id by (apply HB; lia).
    unfold swp.
    destruct (Nat.eqb_spec n i), (Nat.eqb_spec a j), (Nat.eqb_spec b j), (Nat.eqb_spec j a), (Nat.eqb_spec j b),
      (Nat.ltb_spec i n), (Nat.ltb_spec i (S n)); subst; simpl; auto; try lia.
  - intros V' (H1 & H2).
    assert (H3 : forall i j, (i < K)%nat -> (j < w)%nat -> ent V' i j = ent V i (swp a b j)).
    { intros i j Hi Hj. rewrite H2 by auto. destruct (Nat.ltb_spec i (0 + K)); auto; lia. }
    split; auto. split.
    + intros i j Hi Hj. rewrite H3 by auto. apply HB; auto. apply swp_lt; auto.
    + intros c Hc. apply column_ext. intros i Hi. rewrite H3 by auto. reflexivity.
Qed.

Lemma lex_compare_from_spec n i V col pv : shape K w V -> (col < w)%nat -> length pv = K -> (i + n = K)%nat ->
  lex_compare_from n i V col pv = Ok (lcmp (skipn i (C V col)) (skipn i pv)).
Proof.
  intros HV Hc Hp. revert i. induction n as [|n IH]; intros i Hi; cbn [lex_compare_from].
  - rewrite !skipn_all2; auto; try lia. rewrite column_length. lia.
  - rewrite (get2_ok _ K w) by (auto; lia). cbn [bind].
    rewrite (get_ok _ i 0) by lia. cbn [bind].
    assert (E : forall l, length l = K -> skipn i l = nth i l 0 :: skipn (S i) l).
    { clear -Hi. intros l Hl. assert (Hi' : (i < length l)%nat) by lia. clear Hi Hl.
      revert i Hi'. induction l; intros i Hi'; simpl in *; [lia|]. destruct i; auto. apply IHl. lia. }
    rewrite (E (C V col)) by (apply column_length). rewrite (E pv) by auto.
    cbn [lcmp]. rewrite column_nth by lia. rewrite IH by lia.
    destruct (_ =? 0); auto. destruct (_ >? 0); auto.
Qed.

Lemma lex_compare_spec V c pv : shape K w V -> 0 <= c < Z.of_nat w -> length pv = K ->
  lex_compare_with_pivot p V c pv = Ok (lcmp (C V (Z.to_nat c)) pv).
Proof.
  intros HV Hc Hp. unfold lex_compare_with_pivot. rewrite lex_compare_from_spec; auto; lia.
Qed.

Lemma scan_up_spec fuel V i k pv : shape K w V -> length pv = K ->
  -1 <= i -> i < k -> k < Z.of_nat w -> k - i <= Z.of_nat fuel ->
  lcmp (C V (Z.to_nat k)) pv <> 1 ->
  okp (scan_up p fuel V (pos_t p i) pv) (fun r => i < r <= k /\
    (forall c, i < c < r -> lcmp (C V (Z.to_nat c)) pv = 1) /\ lcmp (C V (Z.to_nat r)) pv <> 1).
Proof.
  intros HV Hp. revert i. induction fuel; intros i Hi Hik Hk Hf HN; [lia|].
  cbn [scan_up]. rewrite pos_t_succ by lia. rewrite lex_compare_spec by (auto; lia). cbn [bind].
  destruct (Z.eqb_spec (lcmp (C V (Z.to_nat (i + 1))) pv) 1).
  - assert (i + 1 <> k). { intros E. subst k. auto. }
    rewrite <- (pos_t_id (i + 1)) by lia.
    eapply okp_mono. { apply IHfuel; auto; lia. }
    intros r (H1 & H2 & H3). split; [lia|]. split; auto. intros c Hc.
    destruct (Z.eq_dec c (i + 1)); subst; auto. apply H2. lia.
  - apply okp_ok. split; [lia|]. split; auto. intros; lia.
Qed.

Lemma scan_down_spec fuel V j k pv : shape K w V -> length pv = K ->
  0 <= k -> k < j -> j <= Z.of_nat w -> j - k <= Z.of_nat fuel ->
  lcmp (C V (Z.to_nat k)) pv <> -1 ->
  okp (scan_down p fuel V (pos_t p j) pv) (fun r => k <= r < j /\
    (forall c, r < c < j -> lcmp (C V (Z.to_nat c)) pv = -1) /\ lcmp (C V (Z.to_nat r)) pv <> -1).
Proof.
  intros HV Hp. revert j. induction fuel; intros j Hk Hkj Hj Hf HN; [lia|].
  cbn [scan_down]. rewrite <- Z.add_opp_r. rewrite pos_t_succ by lia. rewrite Z.add_opp_r.
  rewrite lex_compare_spec by (auto; lia). cbn [bind].
  destruct (Z.eqb_spec (lcmp (C V (Z.to_nat (j - 1))) pv) (-1)).
  - assert (j - 1 <> k). { intros E. subst k. auto. }
    rewrite <- (pos_t_id (j - 1)) by lia.
    eapply okp_mono. { apply IHfuel; auto; lia. }
    intros r (H1 & H2 & H3). split; [lia|]. split; auto. intros c Hc.
    destruct (Z.eq_dec c (j - 1)); subst; auto. apply H2. lia.
  - apply okp_ok. split; [lia|]. split; auto. intros; lia.
Qed.

(** [V'] is [V] with the columns lo..hi reordered. *)
Definition reord (lo hi : Z) (V V' : mat) : Prop :=
  exists g, bij w g /\ (forall c, (c < w)%nat -> ~ (lo <= Z.of_nat c <= hi) -> g c = c) /\
    (forall c, (c < w)%nat -> lo <= Z.of_nat c <= hi -> lo <= Z.of_nat (g c) <= hi) /\
    (forall c, (c < w)%nat -> C V' c = C V (g c)).

Lemma reord_refl lo hi V : reord lo hi V V.
Proof. exists (fun c => c). split; [split|]; auto. Qed.

Lemma reord_trans lo hi A B D : reord lo hi A B -> reord lo hi B D -> reord lo hi A D.
Proof.
  intros (g & G1 & G2 & G3 & G4) (h & H1 & H2 & H3 & H4).
  destruct G1 as [G1 G1']. destruct H1 as [H1 H1'].
  exists (fun c => g (h c)). split; [split|split; [|split]].
  - auto.
  - intros i j Hi Hj E. apply H1'; auto.
  - intros c Hc Hn. rewrite (H2 c) by auto. auto.
  - intros c Hc Hn. apply G3; auto.
  - intros c Hc. rewrite H4 by auto. rewrite G4 by auto. auto.
Qed.

Lemma reord_weaken lo hi lo' hi' A B : lo' <= lo -> hi <= hi' -> reord lo hi A B -> reord lo' hi' A B.
Proof.
  intros Hl Hh (g & G1 & G2 & G3 & G4). exists g. split; auto. split; [|split]; auto.
  - intros c Hc Hn. apply G2; auto. lia.
  - intros c Hc Hn. destruct (Z.le_gt_cases lo (Z.of_nat c)), (Z.le_gt_cases (Z.of_nat c) hi).
    + specialize (G3 c). lia.
    + rewrite G2 by lia. lia.
    + rewrite G2 by lia. lia.
    + rewrite G2 by lia. lia.
Qed.

Lemma reord_swap lo hi V V' a b : (a < w)%nat -> (b < w)%nat ->
  lo <= Z.of_nat a <= hi -> lo <= Z.of_nat b <= hi ->
  (forall c, (c < w)%nat -> C V' c = C V (swp a b c)) -> reord lo hi V V'.
Proof.
  intros Ha Hb La Lb H. exists (swp a b). split. { apply swp_bij; auto. } split; [|split]; auto.
  - intros c Hc Hn. unfold swp. destruct (Nat.eqb_spec c a), (Nat.eqb_spec c b); subst; auto; lia.
  - intros c Hc Hn. unfold swp. destruct (Nat.eqb_spec c a), (Nat.eqb_spec c b); subst; auto; lia.
Qed.

Lemma reord_forall lo hi V V' (P : list Z -> Prop) : reord lo hi V V' ->
  (forall c, (c < w)%nat -> lo <= Z.of_nat c <= hi -> P (C V c)) ->
  forall c, (c < w)%nat -> lo <= Z.of_nat c <= hi -> P (C V' c).
Proof.
  intros (g & [G1 _] & G2 & G3 & G4) H c Hc Hr. rewrite G4 by auto. apply H; auto.
Qed.

Lemma reord_outside lo hi V V' c : reord lo hi V V' -> (c < w)%nat -> ~ (lo <= Z.of_nat c <= hi) -> C V' c = C V c.
Proof. intros (g & G1 & G2 & G3 & G4) Hc Hn. rewrite G4 by auto. rewrite G2; auto. Qed.

Lemma hoare_loop_spec fuel lo hi pv : 0 <= lo -> lo < hi -> hi < Z.of_nat w -> length pv = K ->
  forall V i j, shape K w V -> bytm V ->
  lo - 1 <= i -> i < j -> j <= hi + 1 -> j - i <= Z.of_nat fuel ->
  (forall c, lo <= c <= i -> lex_le (C V (Z.to_nat c)) pv) ->
  (forall c, j <= c <= hi -> lex_le pv (C V (Z.to_nat c))) ->
  ((i = lo - 1 /\ j = hi + 1 /\ C V (Z.to_nat lo) = pv) \/
   (lo <= i /\ j <= hi /\ lcmp (C V (Z.to_nat i)) pv <> -1 /\ lcmp (C V (Z.to_nat j)) pv <> 1)) ->
  okp (hoare_loop p fuel V (pos_t p i) (pos_t p j) pv) (fun '(r, V') =>
    lo <= r < hi /\ shape K w V' /\ bytm V' /\ reord lo hi V V' /\
    (forall c, lo <= c <= r -> lex_le (C V' (Z.to_nat c)) pv) /\
    (forall c, r < c <= hi -> lex_le pv (C V' (Z.to_nat c)))).
Proof.
  intros Hlo Hlh Hhi Hp. induction fuel as [|f IH]; intros V i j HV HB Hi Hij Hj Hf L1 L2 Hs; [lia|].
  cbn [hoare_loop].
  assert (Lc : forall V c, length (C V c) = length pv) by (intros; rewrite column_length; auto).
  assert (E1 : okp (scan_up p (N + 2) V (pos_t p i) pv) (fun r => i < r <= hi /\ (i = lo - 1 -> r = lo) /\ (lo <= i -> r <= j) /\
    (forall c, i < c < r -> lcmp (C V (Z.to_nat c)) pv = 1) /\ lcmp (C V (Z.to_nat r)) pv <> 1)).
  { destruct Hs as [(-> & -> & E)|(H1 & H2 & H3 & H4)].
    - eapply okp_mono. { apply scan_up_spec with (k := lo); auto; try lia. rewrite E, lcmp_refl. lia. }
      intros r (R1 & R2 & R3). repeat (split; auto); lia.
    - eapply okp_mono. { apply scan_up_spec with (k := j); auto; try lia. }
      intros r (R1 & R2 & R3). repeat (split; auto); lia. }
  eapply okp_bind; [exact E1|]. clear E1. intros i' (I1 & I2 & I2' & I3 & I4).
  assert (E2 : okp (scan_down p (N + 2) V (pos_t p j) pv) (fun r => lo <= r < j /\ i <= r /\
    (forall c, r < c < j -> lcmp (C V (Z.to_nat c)) pv = -1) /\ lcmp (C V (Z.to_nat r)) pv <> -1)).
  { destruct Hs as [(-> & -> & E)|(H1 & H2 & H3 & H4)].
    - eapply okp_mono. { apply scan_down_spec with (k := lo); auto; try lia. rewrite E, lcmp_refl. lia. }
      intros r (R1 & R2 & R3). repeat (split; auto); lia.
    - eapply okp_mono. { apply scan_down_spec with (k := i); auto; try lia. }
      intros r (R1 & R2 & R3). repeat (split; auto); lia. }
  eapply okp_bind; [exact E2|]. clear E2. intros j' (J1 & J2 & J3 & J4).
  assert (A1 : forall c, lo <= c < i' -> lex_le (C V (Z.to_nat c)) pv).
  { intros c Hc. destruct (Z.le_gt_cases c i). { apply L1; lia. }
    apply lcmp_notm1; auto. rewrite I3 by lia. lia. }
  assert (A2 : forall c, j' < c <= hi -> lex_le pv (C V (Z.to_nat c))).
  { intros c Hc. destruct (Z.le_gt_cases j c). { apply L2; lia. }
    apply lcmp_not1; auto. rewrite J3 by lia. lia. }
  destruct (Z.geb_spec i' j').
  - apply okp_ok. split.
    { destruct Hs as [(E1 & E2 & E)|(H1 & H2 & H3 & H4)]; lia. }
    split; auto. split; auto. split. { apply reord_refl. } split; auto.
    intros c Hc. destruct (Z.eq_dec c i').
    + subst c. assert (i' = j') by lia. subst j'. apply lcmp_notm1; auto.
    + apply A1. lia.
  - eapply okp_bind. { apply (column_swap_spec V (Z.to_nat i') (Z.to_nat j')); auto; lia. }
    intros V' (V1 & V2 & V3).
    assert (R : reord lo hi V V') by (eapply reord_swap; [| | | |exact V3]; lia).
    assert (Ei : C V' (Z.to_nat i') = C V (Z.to_nat j')).
    { rewrite V3 by lia. unfold swp. rewrite Nat.eqb_refl. auto. }
    assert (Ej : C V' (Z.to_nat j') = C V (Z.to_nat i')).
    { rewrite V3 by lia. unfold swp. destruct (Nat.eqb_spec (Z.to_nat j') (Z.to_nat i')); [lia|].
      rewrite Nat.eqb_refl. auto. }
    assert (Eo : forall c, 0 <= c < Z.of_nat w -> c <> i' -> c <> j' -> C V' (Z.to_nat c) = C V (Z.to_nat c)).
    { intros c Hc H1 H2. rewrite V3 by lia. unfold swp.
      clear -Hc H1 H2 I1 J1 Hlo Hi.
      destruct (Nat.eqb_spec (Z.to_nat c) (Z.to_nat i')), (Nat.eqb_spec (Z.to_nat c) (Z.to_nat j')); auto; lia. }
    rewrite <- (pos_t_id i') by lia. rewrite <- (pos_t_id j') by lia.
    eapply okp_mono. { apply IH; auto; try lia.
      - intros c Hc. destruct (Z.eq_dec c i'). { subst. rewrite Ei. apply lcmp_notm1; auto. }
        rewrite Eo by lia. apply A1. lia.
      - intros c Hc. destruct (Z.eq_dec c j'). { subst. rewrite Ej. apply lcmp_not1; auto. }
        rewrite Eo by lia. apply A2. lia.
      - right. rewrite Ei, Ej. repeat split; auto; lia. }
    intros [r W] (R1 & R2 & R3 & R4 & R5 & R6). repeat (split; auto); try lia.
    eapply reord_trans; eauto.
Qed.

Lemma Hoare_partition_spec V lo hi : 0 <= lo -> lo < hi -> hi < Z.of_nat w -> shape K w V -> bytm V ->
  okp (Hoare_partition p V lo hi) (fun '(r, V') =>
    lo <= r < hi /\ shape K w V' /\ bytm V' /\ reord lo hi V V' /\
    (forall c, lo <= c <= r -> lex_le (C V' (Z.to_nat c)) (C V (Z.to_nat lo))) /\
    (forall c, r < c <= hi -> lex_le (C V (Z.to_nat lo)) (C V' (Z.to_nat c)))).
Proof.
  intros Hlo Hlh Hhi HV HB. unfold Hoare_partition.
  eapply okp_bind with (Q := fun pv => pv = C V (Z.to_nat lo)).
  - eapply okp_mono. eapply okp_for with (I := fun n pv => length pv = K /\
      forall i, (i < n)%nat -> nth i pv 0 = ent V i (Z.to_nat lo)).
    + rewrite repeat_length. split; auto. intros; lia.
    + intros n pv Hn (H1 & H2). rewrite (get2_ok _ K w) by (auto; lia). cbn [bind].
      rewrite set_ok by lia. apply okp_ok. split. { rewrite upd_length; auto. }
      intros i Hi. rewrite nth_upd by lia. destruct (Nat.eqb_spec n i); subst; auto. apply H2. lia.
    + intros pv (H1 & H2). apply (list_ext 0). { rewrite column_length. auto. }
      intros i Hi. rewrite H2 by lia. rewrite column_nth by lia. auto.
  - intros pv ->. 
    apply hoare_loop_spec; auto; try lia. apply column_length.
Qed.

Lemma col_lex_quicksort_spec fuel : forall V lo hi, 0 <= lo -> lo <= hi -> hi < Z.of_nat w ->
  hi - lo < Z.of_nat fuel -> shape K w V -> bytm V ->
  okp (col_lex_quicksort p fuel V lo hi) (fun V' =>
    shape K w V' /\ bytm V' /\ reord lo hi V V' /\
    forall a b, lo <= a <= b -> b <= hi -> lex_le (C V' (Z.to_nat a)) (C V' (Z.to_nat b))).
Proof.
  induction fuel as [|f IH]; intros V lo hi Hlo Hlh Hhi Hf HV HB; [lia|].
  cbn [col_lex_quicksort]. destruct (Z.ltb_spec lo hi).
  - rewrite !pos_t_id by lia.
    eapply okp_bind. { apply Hoare_partition_spec; auto; lia. }
    intros [r V1] (P1 & P2 & P3 & P4 & P5 & P6).
    eapply okp_bind. { apply (IH V1 lo r); auto; lia. }
    intros V2 (Q1 & Q2 & Q3 & Q4).
    eapply okp_mono. { apply (IH V2 (r + 1) hi); auto; lia. }
    intros V3 (R1 & R2 & R3 & R4). split; auto. split; auto.
    split. { eapply reord_trans; [exact P4|]. eapply reord_trans.
      - apply (reord_weaken lo r); [lia|lia|exact Q3].
      - apply (reord_weaken (r + 1) hi); [lia|lia|exact R3]. }
    (* left part of V3 is that of V2, right part of V2 is that of V1 *)
    set (pv := C V (Z.to_nat lo)) in *.
    assert (A : forall c, lo <= c <= r -> C V3 (Z.to_nat c) = C V2 (Z.to_nat c)).
    { intros c Hc. eapply reord_outside; eauto; lia. }
    assert (B : forall c, lo <= c <= r -> lex_le (C V3 (Z.to_nat c)) pv).
    { intros c Hc. rewrite A by auto.
      refine (reord_forall lo r V1 V2 (fun x => lex_le x pv) Q3 _ (Z.to_nat c) _ _); try lia.
      intros d Hd Hr. specialize (P5 (Z.of_nat d)). rewrite Nat2Z.id in P5. apply P5. lia. }
    assert (D : forall c, r < c <= hi -> lex_le pv (C V3 (Z.to_nat c))).
    { intros c Hc. refine (reord_forall (r + 1) hi V2 V3 (fun x => lex_le pv x) R3 _ (Z.to_nat c) _ _); try lia.
      intros d Hd Hr. rewrite (reord_outside lo r V1 V2) by (auto; lia).
      specialize (P6 (Z.of_nat d)). rewrite Nat2Z.id in P6. apply P6. lia. }
    intros a b Ha Hb. destruct (Z.le_gt_cases b r).
    + rewrite !A by lia. apply Q4; lia.
    + destruct (Z.le_gt_cases a r).
      * eapply lex_le_trans; [apply B|apply D]; lia.
      * apply R4; lia.
  - apply okp_ok. split; auto. split; auto. split. { apply reord_refl. }
    intros a b Ha Hb. replace b with a by lia. apply lex_le_refl.
Qed.

Lemma reord_perm lo hi V V' : reord lo hi V V' ->
  Permutation (columns K w (ent V)) (columns K w (ent V')).
Proof.
  intros (g & G1 & G2 & G3 & G4). unfold columns.
  replace (map (C V') (seq 0 w)) with (map (C V) (map g (seq 0 w))).
  - apply Permutation_map. apply Permutation_sym. apply bij_perm. auto.
  - rewrite map_map. apply map_ext_in. intros c Hc. apply in_seq in Hc. symmetry. apply G4. lia.
Qed.

Lemma sorted_of_index (l : list (list Z)) :
  (forall a b, (a <= b)%nat -> (b < length l)%nat -> lex_le (nth a l []) (nth b l [])) ->
  StronglySorted lex_le l.
Proof.
  induction l as [|x l IH]; intros H; constructor.
  - apply IH. intros a b Hab Hb. apply (H (S a) (S b)); simpl; lia.
  - apply Forall_forall. intros y Hy. apply In_nth with (d := []) in Hy. destruct Hy as (n & Hn & <-).
    apply (H O (S n)); simpl; lia.
Qed.

Lemma columns_length M : length (columns K w M) = w.
Proof. unfold columns. rewrite map_length, seq_length. auto. Qed.

Lemma columns_nth M c : (c < w)%nat -> nth c (columns K w M) [] = column K M c.
Proof. intros H. unfold columns. apply (nth_map_seq (column K M)); auto. Qed.

(** [lex_sort_cols] sorts the columns. *)
Lemma lex_sort_cols_spec V : shape K w V -> bytm V ->
  okp (lex_sort_cols p V) (fun V' => shape K w V' /\ bytm V' /\
    Permutation (columns K w (ent V)) (columns K w (ent V')) /\
    StronglySorted lex_le (columns K w (ent V'))).
Proof.
  intros HV HB. pose proof (wf_K p wf) as HK. unfold lex_sort_cols.
  eapply okp_mono. { apply col_lex_quicksort_spec; auto; lia. }
  intros V' (H1 & H2 & H3 & H4). split; auto. split; auto. split.
  { eapply reord_perm; eauto. }
  apply sorted_of_index. intros a b Hab Hb. rewrite columns_length in Hb.
  rewrite !columns_nth by lia. specialize (H4 (Z.of_nat a) (Z.of_nat b)).
  rewrite !Nat2Z.id in H4. apply H4; lia.
Qed.

(** A matrix is determined by its columns. *)
Lemma columns_eq V V' : shape K w V -> shape K w V' ->
  columns K w (ent V) = columns K w (ent V') -> V = V'.
Proof.
  intros H H' E. apply (mat_ext V V' K w); auto. intros i j Hi Hj.
  rewrite <- (column_nth K (ent V) j i) by auto. rewrite <- (column_nth K (ent V') j i) by auto.
  rewrite <- !columns_nth by auto. rewrite E. auto.
Qed.

(** The result only depends on the multiset of columns. *)
Lemma lex_sort_cols_canonical V W : shape K w V -> bytm V -> shape K w W -> bytm W ->
  Permutation (columns K w (ent V)) (columns K w (ent W)) ->
  exists S, lex_sort_cols p V = Ok S /\ lex_sort_cols p W = Ok S.
Proof.
  intros HV BV HW BW HP.
  destruct (lex_sort_cols_spec V HV BV) as (S1 & E1 & A1 & A2 & A3 & A4).
  destruct (lex_sort_cols_spec W HW BW) as (S2 & E2 & B1 & B2 & B3 & B4).
  exists S1. split; auto. rewrite E2. f_equal. apply columns_eq; auto.
  apply sorted_perm_unique; auto.
  eapply Permutation_trans; [apply Permutation_sym; exact B3|].
  eapply Permutation_trans; [apply Permutation_sym; exact HP|]. auto.
Qed.

End R.
