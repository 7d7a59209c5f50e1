(** C68: how much work the column sort does. *)
From Coq Require Import Permutation Sorted.
From Verif Require Import Base BaseLemmas Params ParamsProofs Fq FqProofs Sums LinAlg Codes LexProofs SortProofs SortCost Toy.

(** Strictly smaller in the lexicographic order. *)
Definition lex_lt (a b : list Z) : Prop := lex_le a b /\ a <> b.

Lemma lcmp_lt a b : length a = length b -> lex_lt a b -> lcmp a b = 1.
Proof.
  intros L [H NE]. destruct (lcmp_range a b) as [E|[E|E]]; auto; exfalso; apply NE, lex_le_antisym; auto; apply lcmp_not1; auto; lia.
Qed.
Lemma lcmp_gt a b : length a = length b -> lex_lt b a -> lcmp a b = -1.
Proof.
  intros L [H NE]. destruct (lcmp_range a b) as [E|[E|E]]; auto; exfalso; apply NE, lex_le_antisym; auto; apply lcmp_notm1; auto; lia.
Qed.

(** *** The counters change nothing *)
Section E.
Variable p : params.

Lemma scan_up_erase fuel V pv : forall i n, scan_up p fuel V i pv = bind (scan_up_n p fuel V i pv n) (fun r => Ok (fst r)).
Proof.
  induction fuel as [|f IH]; intros i n; cbn [scan_up scan_up_n]; [reflexivity|].
  destruct (lex_compare_with_pivot p V (pos_t p (i + 1)) pv) as [c| |]; cbn [bind]; [|reflexivity|reflexivity]. destruct (c =? 1); [apply IH|reflexivity].
Qed.

Lemma scan_down_erase fuel V pv : forall i n, scan_down p fuel V i pv = bind (scan_down_n p fuel V i pv n) (fun r => Ok (fst r)).
Proof.
  induction fuel as [|f IH]; intros i n; cbn [scan_down scan_down_n]; [reflexivity|].
  destruct (lex_compare_with_pivot p V (pos_t p (i - 1)) pv) as [c| |]; cbn [bind]; [|reflexivity|reflexivity]. destruct (c =? -1); [apply IH|reflexivity].
Qed.

Lemma hoare_loop_erase fuel pv : forall V i j n s,
  hoare_loop p fuel V i j pv = bind (hoare_loop_n p fuel V i j pv n s) (fun '(j, V, _, _) => Ok (j, V)).
Proof.
  induction fuel as [|f IH]; intros V i j n s; cbn [hoare_loop hoare_loop_n]; [reflexivity|].
  rewrite (scan_up_erase _ V pv i n). destruct (scan_up_n p (pN p + 2) V i pv n) as [[i' n1]| |]; cbn [bind fst]; [|reflexivity|reflexivity].
  rewrite (scan_down_erase _ V pv j n1). destruct (scan_down_n p (pN p + 2) V j pv n1) as [[j' n2]| |]; cbn [bind fst]; [|reflexivity|reflexivity].
  destruct (i' >=? j'); [reflexivity|]. destruct (column_swap p V (Z.to_nat i') (Z.to_nat j')) as [V'| |]; cbn [bind]; [|reflexivity|reflexivity]. apply IH.
Qed.

Lemma quicksort_erase fuel : forall V lo hi, col_lex_quicksort p fuel V lo hi = bind (col_lex_quicksort_n p fuel V lo hi) (fun r => Ok (fst r)).
Proof.
  induction fuel as [|f IH]; intros V lo hi; cbn [col_lex_quicksort col_lex_quicksort_n]; [reflexivity|]. destruct (lo <? hi); [|reflexivity].
  unfold Hoare_partition, Hoare_partition_n. destruct (for_ _ _ _ _) as [pv| |]; cbn [bind]; [|reflexivity|reflexivity].
  rewrite (hoare_loop_erase _ pv _ _ _ 0 0). destruct (hoare_loop_n _ _ _ _ _ _ _ _) as [[[[j V1] n] s]| |]; cbn [bind]; [|reflexivity|reflexivity].
  rewrite IH. destruct (col_lex_quicksort_n p f V1 lo j) as [[V2 a]| |]; cbn [bind fst]; [|reflexivity|reflexivity].
  rewrite IH. destruct (col_lex_quicksort_n p f V2 (j + 1) hi) as [[V3 b]| |]; reflexivity.
Qed.
End E.

Section R.
Variable p : params.
Hypothesis wf : wf_params p.
Notation N := (pN p).
Notation K := (pK p).
Notation w := (pN p - pK p)%nat.
Notation C V := (column K (ent V)).

Lemma scan_up_n_spec fuel V k pv : shape K w V -> length pv = K -> forall i n,
  -1 <= i -> i < k -> k < Z.of_nat w -> k - i <= Z.of_nat fuel ->
  lcmp (C V (Z.to_nat k)) pv <> 1 ->
  okp (scan_up_n p fuel V (pos_t p i) pv n) (fun '(r, n') => i < r <= k /\ n' = n + (r - i) /\
    (forall c, i < c < r -> lcmp (C V (Z.to_nat c)) pv = 1) /\ lcmp (C V (Z.to_nat r)) pv <> 1).
Proof.
  intros HV Hp. induction fuel as [|f IH]; intros i n Hi Hik Hk Hf HN; [lia|].
  cbn [scan_up_n]. rewrite pos_t_succ by (auto; lia). rewrite lex_compare_spec by (auto; lia). cbn [bind].
  destruct (Z.eqb_spec (lcmp (C V (Z.to_nat (i + 1))) pv) 1).
  - assert (i + 1 <> k). { intros E. subst k. auto. }
    rewrite <- (pos_t_id p wf (i + 1)) by lia. eapply okp_mono. { apply IH; auto; lia. }
    intros [r n'] (H1 & H2 & H3 & H4). split; [lia|]. split; [lia|]. split; auto. intros c Hc.
    destruct (Z.eq_dec c (i + 1)); subst; auto. apply H3. lia.
  - apply okp_ok. split; [lia|]. split; [lia|]. split; auto. intros; lia.
Qed.

Lemma scan_down_n_spec fuel V k pv : shape K w V -> length pv = K -> forall j n,
  0 <= k -> k < j -> j <= Z.of_nat w -> j - k <= Z.of_nat fuel ->
  lcmp (C V (Z.to_nat k)) pv <> -1 ->
  okp (scan_down_n p fuel V (pos_t p j) pv n) (fun '(r, n') => k <= r < j /\ n' = n + (j - r) /\
    (forall c, r < c < j -> lcmp (C V (Z.to_nat c)) pv = -1) /\ lcmp (C V (Z.to_nat r)) pv <> -1).
Proof.
  intros HV Hp. induction fuel as [|f IH]; intros j n Hk Hkj Hj Hf HN; [lia|].
  cbn [scan_down_n]. rewrite <- Z.add_opp_r. rewrite pos_t_succ by (auto; lia). rewrite Z.add_opp_r.
  rewrite lex_compare_spec by (auto; lia). cbn [bind].
  destruct (Z.eqb_spec (lcmp (C V (Z.to_nat (j - 1))) pv) (-1)).
  - assert (j - 1 <> k). { intros E. subst k. auto. }
    rewrite <- (pos_t_id p wf (j - 1)) by lia. eapply okp_mono. { apply IH; auto; lia. }
    intros [r n'] (H1 & H2 & H3 & H4). split; [lia|]. split; [lia|]. split; auto. intros c Hc.
    destruct (Z.eq_dec c (j - 1)); subst; auto. apply H3. lia.
  - apply okp_ok. split; [lia|]. split; [lia|]. split; auto. intros; lia.
Qed.

(** From columns [i], [j] on, the two scans together pass every column between them once, and at most one twice. *)
Lemma hoare_loop_n_spec fuel lo hi pv : 0 <= lo -> lo < hi -> hi < Z.of_nat w -> length pv = K ->
  forall V i j n s, shape K w V -> bytm p V ->
  lo - 1 <= i -> i < j -> j <= hi + 1 -> j - i <= Z.of_nat fuel ->
  ((i = lo - 1 /\ j = hi + 1 /\ C V (Z.to_nat lo) = pv) \/
   (lo <= i /\ j <= hi /\ lcmp (C V (Z.to_nat i)) pv <> -1 /\ lcmp (C V (Z.to_nat j)) pv <> 1)) ->
  okp (hoare_loop_n p fuel V (pos_t p i) (pos_t p j) pv n s) (fun '(r, V', n', s') =>
    lo <= r < hi /\ shape K w V' /\ bytm p V' /\ n + (j - i) <= n' <= n + (j - i) + 1 /\ s <= s' /\ 2 * (s' - s) + 2 <= n' - n).
Proof.
  intros Hlo Hlh Hhi Hp. induction fuel as [|f IH]; intros V i j n s HV HB Hi Hij Hj Hf Hs; [lia|].
  cbn [hoare_loop_n].
  assert (E1 : okp (scan_up_n p (N + 2) V (pos_t p i) pv n) (fun '(r, n') => i < r <= hi /\ (i = lo - 1 -> r = lo) /\ (lo <= i -> r <= j) /\ n' = n + (r - i) /\
    (forall c, i < c < r -> lcmp (C V (Z.to_nat c)) pv = 1) /\ lcmp (C V (Z.to_nat r)) pv <> 1)).
  { destruct Hs as [(-> & -> & E)|(H1 & H2 & H3 & H4)].
    - eapply okp_mono. { apply scan_up_n_spec with (k := lo); auto; try lia. rewrite E, lcmp_refl. lia. }
      intros [r n'] (R1 & R2 & R3 & R4). repeat (split; auto); lia.
    - eapply okp_mono. { apply scan_up_n_spec with (k := j); auto; try lia. }
      intros [r n'] (R1 & R2 & R3 & R4). repeat (split; auto); lia. }
  eapply okp_bind; [exact E1|]. clear E1. intros [i' n1] (I1 & I2 & I2' & I5 & I3 & I4).
  assert (E2 : okp (scan_down_n p (N + 2) V (pos_t p j) pv n1) (fun '(r, n') => lo <= r < j /\ i <= r /\ n' = n1 + (j - r) /\
    (forall c, r < c < j -> lcmp (C V (Z.to_nat c)) pv = -1) /\ lcmp (C V (Z.to_nat r)) pv <> -1)).
  { destruct Hs as [(-> & -> & E)|(H1 & H2 & H3 & H4)].
    - eapply okp_mono. { apply scan_down_n_spec with (k := lo); auto; try lia. rewrite E, lcmp_refl. lia. }
      intros [r n'] (R1 & R2 & R3 & R4). repeat (split; auto); lia.
    - eapply okp_mono. { apply scan_down_n_spec with (k := i); auto; try lia. }
      intros [r n'] (R1 & R2 & R3 & R4). repeat (split; auto); lia. }
  eapply okp_bind; [exact E2|]. clear E2. intros [j' n2] (J1 & J2 & J5 & J3 & J4).
  destruct (Z.geb_spec i' j').
  - apply okp_ok.
    assert (i' <= j' + 1).
    { destruct (Z.le_gt_cases i' (j' + 1)); auto. exfalso.
      assert (A : lcmp (C V (Z.to_nat (j' + 1))) pv = 1) by (apply I3; lia).
      assert (B : lcmp (C V (Z.to_nat (j' + 1))) pv = -1) by (apply J3; destruct Hs as [(E1 & E2 & E)|(H1 & H2 & H3 & H4)]; lia).
      lia. }
    split. { destruct Hs as [(E1 & E2 & E)|(H1 & H2 & H3 & H4)]; lia. }
    split; [exact HV|]. split; [exact HB|]. lia.
  - eapply okp_bind. { apply (column_swap_spec p wf V (Z.to_nat i') (Z.to_nat j')); auto; lia. }
    intros V' (V1 & V2 & V3).
    assert (Ei : C V' (Z.to_nat i') = C V (Z.to_nat j')).
    { rewrite V3 by lia. unfold swp. rewrite Nat.eqb_refl. auto. }
    assert (Ej : C V' (Z.to_nat j') = C V (Z.to_nat i')).
    { rewrite V3 by lia. unfold swp. destruct (Nat.eqb_spec (Z.to_nat j') (Z.to_nat i')); [lia|].
      rewrite Nat.eqb_refl. auto. }
    rewrite <- (pos_t_id p wf i') by lia. rewrite <- (pos_t_id p wf j') by lia.
    eapply okp_mono. { apply IH; auto; try lia. right. rewrite Ei, Ej. repeat split; auto; lia. }
    intros [[[r W] n'] s'] (R1 & R2 & R3 & R4 & R5 & R6). split; [lia|]. split; [exact R2|]. split; [exact R3|]. lia.
Qed.

Lemma pivot_copy V lo : shape K w V -> 0 <= lo < Z.of_nat w ->
  okp (for_ K 0 (fun i pv => v <- get2 V i (Z.to_nat lo) ;; set pv i v) (repeat 0 K)) (fun pv => pv = C V (Z.to_nat lo)).
Proof.
  intros HV Hl. eapply okp_mono. eapply okp_for with (I := fun n pv => length pv = K /\
      forall i, (i < n)%nat -> nth i pv 0 = ent V i (Z.to_nat lo)).
    + rewrite repeat_length. split; auto. intros; lia.
    + intros n pv Hn (H1 & H2). rewrite (get2_ok _ K w) by (auto; lia). cbn [bind].
      rewrite set_ok by lia. apply okp_ok. split. { rewrite upd_length; auto. }
      intros i Hi. rewrite nth_upd by lia. destruct (Nat.eqb_spec n i); subst; auto. apply H2. lia.
    + intros pv (H1 & H2). apply (list_ext 0). { rewrite column_length. auto. }
      intros i Hi. rewrite H2 by lia. rewrite column_nth by lia. auto.
Qed.

Lemma Hoare_partition_n_spec V lo hi : 0 <= lo -> lo < hi -> hi < Z.of_nat w -> shape K w V -> bytm p V ->
  okp (Hoare_partition_n p V lo hi) (fun '(r, V', n, s) =>
    lo <= r < hi /\ shape K w V' /\ bytm p V' /\ hi - lo + 2 <= n <= hi - lo + 3 /\ 0 <= s /\ 2 * s + 2 <= n).
Proof.
  intros Hlo Hlh Hhi HV HB. unfold Hoare_partition_n. eapply okp_bind. { apply pivot_copy; auto; lia. } intros pv ->.
  eapply okp_mono. { apply hoare_loop_n_spec with (lo := lo) (hi := hi); auto; try lia. apply column_length. }
  intros [[[r V'] n] s] (R1 & R2 & R3 & R4 & R5 & R6). split; [exact R1|]. split; [exact R2|]. split; [exact R3|]. lia.
Qed.

(** Twice the largest number of comparisons for [n] columns. *)
Definition worst2 (n : Z) : Z := n * n + 5 * n - 6.

Lemma quicksort_n_spec fuel : forall V lo hi, 0 <= lo -> lo <= hi -> hi < Z.of_nat w ->
  hi - lo < Z.of_nat fuel -> shape K w V -> bytm p V ->
  okp (col_lex_quicksort_n p fuel V lo hi) (fun '(V', c) => shape K w V' /\ bytm p V' /\
    called c = 2 * (hi - lo + 1) - 1 /\ 1 <= depth c <= hi - lo + 1 /\
    0 <= swapped c /\ 2 * swapped c + 2 * (hi - lo) <= compared c /\ 2 * compared c <= worst2 (hi - lo + 1)).
Proof.
  induction fuel as [|f IH]; intros V lo hi Hlo Hlh Hhi Hf HV HB; [lia|].
  cbn [col_lex_quicksort_n]. destruct (Z.ltb_spec lo hi).
  - rewrite !pos_t_id by (auto; lia).
    eapply okp_bind. { apply Hoare_partition_n_spec; auto; lia. }
    intros [[[r V1] n] s] (P1 & P2 & P3 & P4 & P5 & P6).
    eapply okp_bind. { apply (IH V1 lo r); auto; lia. }
    intros [V2 a] (Q1 & Q2 & Q3 & Q4 & Q5 & Q6 & Q7).
    eapply okp_bind. { apply (IH V2 (r + 1) hi); auto; lia. }
    intros [V3 b] (R1 & R2 & R3 & R4 & R5 & R6 & R7). apply okp_ok. cbn [called depth swapped compared].
    split; [exact R1|]. split; [exact R2|]. split; [lia|]. split; [lia|]. split; [lia|]. split; [lia|].
    unfold worst2 in *. assert (0 <= (r - lo) * (hi - (r + 1))) by nia. nia.
  - apply okp_ok. cbn [called depth swapped compared]. replace hi with lo by lia. unfold worst2.
    split; [exact HV|]. split; [exact HB|]. lia.
Qed.

(** *** The worst order *)
(** Columns [lo] to [hi - 1] increase, and column [hi] is smaller than all of them. *)
Definition rotated (V : mat) (lo hi : Z) : Prop :=
  (forall a b, lo <= a < b -> b < hi -> lex_lt (C V (Z.to_nat a)) (C V (Z.to_nat b))) /\
  (lo < hi -> lex_lt (C V (Z.to_nat hi)) (C V (Z.to_nat lo))).

Lemma Hoare_rotated V lo hi : 0 <= lo -> lo < hi -> hi < Z.of_nat w -> shape K w V -> bytm p V -> rotated V lo hi ->
  okp (Hoare_partition_n p V lo hi) (fun '(r, V', n, s) => r = lo /\ shape K w V' /\ bytm p V' /\ rotated V' (lo + 1) hi /\ n = hi - lo + 3 /\ s = 1).
Proof.
  intros Hlo Hlh Hhi HV HB [HI HL]. specialize (HL Hlh). unfold Hoare_partition_n.
  eapply okp_bind. { apply pivot_copy; auto; lia. } intros pv ->. set (pv := C V (Z.to_nat lo)) in *.
  assert (Lp : length pv = K) by apply column_length.
  assert (Lc : forall M c, length (C M c) = length pv) by (intros; rewrite Lp; apply column_length).
  replace (N + 2)%nat with (S (S N)) by lia. cbn [hoare_loop_n].
  eapply okp_bind. { apply scan_up_n_spec with (k := lo); auto; try lia. fold pv. rewrite lcmp_refl. lia. }
  intros [i1 n1] (A1 & A2 & _ & _). assert (i1 = lo) by lia. subst i1.
  eapply okp_bind. { apply scan_down_n_spec with (k := hi); auto; try lia. rewrite lcmp_lt; auto. lia. }
  intros [j1 n2] (B1 & B2 & _ & _). assert (j1 = hi) by lia. subst j1.
  destruct (Z.geb_spec lo hi); [lia|].
  eapply okp_bind. { apply (column_swap_spec p wf V (Z.to_nat lo) (Z.to_nat hi)); auto; lia. } intros V' (V1 & V2 & V3).
  assert (El : C V' (Z.to_nat lo) = C V (Z.to_nat hi)). { rewrite V3 by lia. unfold swp. rewrite Nat.eqb_refl. auto. }
  assert (Eh : C V' (Z.to_nat hi) = pv).
  { rewrite V3 by lia. unfold swp. destruct (Nat.eqb_spec (Z.to_nat hi) (Z.to_nat lo)); [lia|]. rewrite Nat.eqb_refl. auto. }
  assert (Eo : forall c, lo < c < hi -> C V' (Z.to_nat c) = C V (Z.to_nat c)).
  { intros c Hc. rewrite V3 by lia. unfold swp.
    destruct (Nat.eqb_spec (Z.to_nat c) (Z.to_nat lo)); [lia|]. destruct (Nat.eqb_spec (Z.to_nat c) (Z.to_nat hi)); [lia|]. reflexivity. }
  rewrite <- (pos_t_id p wf lo) at 1 by lia.
  eapply okp_bind.
  { apply scan_up_n_spec with (k := lo + 1); auto; try lia. destruct (Z.eq_dec (lo + 1) hi) as [E|E].
    - rewrite E, Eh, lcmp_refl. lia.
    - rewrite Eo by lia. rewrite lcmp_gt; auto; [lia|]. apply HI; lia. }
  intros [i2 n3] (C1 & C2 & _ & _). assert (i2 = lo + 1) by lia. subst i2. rewrite <- (pos_t_id p wf hi) at 1 by lia.
  eapply okp_bind. { apply scan_down_n_spec with (k := lo); auto; try lia. rewrite El, lcmp_lt; auto. lia. }
  intros [j2 n4] (D1 & D2 & D3 & D4).
  assert (j2 = lo).
  { destruct (Z.eq_dec j2 lo) as [E|E]; auto. exfalso. apply D4. rewrite Eo by lia. apply lcmp_gt; auto. apply HI; lia. }
  subst j2. destruct (Z.geb_spec (lo + 1) lo); [|lia]. apply okp_ok.
  split; [reflexivity|]. split; [exact V1|]. split; [exact V2|]. split; [|lia]. split.
  - intros a b Ha Hb. rewrite !Eo by lia. apply HI; lia.
  - intros Hl. rewrite Eh, Eo by lia. apply HI; lia.
Qed.

Lemma quicksort_rotated fuel : forall V lo hi, 0 <= lo -> lo <= hi -> hi < Z.of_nat w ->
  hi - lo < Z.of_nat fuel -> shape K w V -> bytm p V -> rotated V lo hi ->
  okp (col_lex_quicksort_n p fuel V lo hi) (fun '(V', c) =>
    depth c = hi - lo + 1 /\ swapped c = hi - lo /\ 2 * compared c = worst2 (hi - lo + 1)).
Proof.
  induction fuel as [|f IH]; intros V lo hi Hlo Hlh Hhi Hf HV HB HR; [lia|].
  cbn [col_lex_quicksort_n]. destruct (Z.ltb_spec lo hi).
  - rewrite !pos_t_id by (auto; lia).
    eapply okp_bind. { apply Hoare_rotated; auto; lia. }
    intros [[[r V1] n] s] (-> & P2 & P3 & P4 & P5 & P6).
    destruct f as [|f]; [lia|].
    eapply okp_bind with (Q := fun '(V', c) => V' = V1 /\ c = {| compared := 0; swapped := 0; called := 1; depth := 1 |}).
    { cbn [col_lex_quicksort_n]. rewrite Z.ltb_irrefl. apply okp_ok. auto. }
    intros [V2 a] (-> & ->).
    eapply okp_bind. { apply (IH V1 (lo + 1) hi); auto; lia. }
    intros [V3 b] (R1 & R2 & R3). apply okp_ok. cbn [called depth swapped compared]. unfold worst2 in *. split; [lia|]. split; [lia|]. nia.
  - apply okp_ok. cbn [called depth swapped compared]. replace hi with lo by lia. unfold worst2. lia.
Qed.
End R.

(** *** C68 *)

(** The counters belong to the program: without them it is [lex_sort_cols]. *)
Theorem C68_result : forall p V, lex_sort_cols p V = bind (lex_sort_cols_n p V) (fun r => Ok (fst r)).
Proof. intros p V. apply quicksort_erase. Qed.

(** For [n] columns there are exactly 2n - 1 calls of col_lex_quicksort, at most n of them active at a time; at most
    (n^2 + 5n - 6) / 2 comparisons; and at most half as many swaps as comparisons, less n - 1. *)
Theorem C68_bounds : forall p, wf_params p -> forall V,
  shape (pK p) (pN p - pK p) V -> (forall i j, (i < pK p)%nat -> (j < pN p - pK p)%nat -> is_byte (ent V i j)) ->
  let n := Z.of_nat (pN p) - Z.of_nat (pK p) in
  exists S c, lex_sort_cols_n p V = Ok (S, c) /\
    called c = 2 * n - 1 /\ 1 <= depth c <= n /\ compared c <= (n * n + 5 * n - 6) / 2 /\ 0 <= swapped c /\ 2 * swapped c <= compared c - 2 * (n - 1).
Proof.
  intros p wf V HS HB n. pose proof (wf_K p wf) as HK. unfold lex_sort_cols_n.
  destruct (quicksort_n_spec p wf (pN p + 1) V 0 (Z.of_nat (pN p) - Z.of_nat (pK p) - 1)) as ([S c] & E & _ & _ & H1 & H2 & H3 & H4 & H5); auto; try lia.
  exists S, c. split; [exact E|]. unfold worst2 in H5. fold n in H1, H2, H4, H5. replace (n - 1 - 0 + 1) with n in H1, H2, H5 by lia. replace (n - 1 - 0) with (n - 1) in H4 by lia.
  split; [lia|]. split; [lia|]. split; [|lia]. apply Z.div_le_lower_bound; lia.
Qed.

(** The bounds on depth and comparisons are attained: if the columns are increasing, except that the last one is smaller than all others. *)
Theorem C68_worst : forall p, wf_params p -> forall V,
  shape (pK p) (pN p - pK p) V -> (forall i j, (i < pK p)%nat -> (j < pN p - pK p)%nat -> is_byte (ent V i j)) ->
  let n := Z.of_nat (pN p) - Z.of_nat (pK p) in
  (forall a b, (a < b)%nat -> (b + 1 < pN p - pK p)%nat -> lex_lt (column (pK p) (ent V) a) (column (pK p) (ent V) b)) ->
  (1 < n -> lex_lt (column (pK p) (ent V) (pN p - pK p - 1)) (column (pK p) (ent V) 0)) ->
  exists S c, lex_sort_cols_n p V = Ok (S, c) /\ depth c = n /\ compared c = (n * n + 5 * n - 6) / 2 /\ swapped c = n - 1.
Proof.
  intros p wf V HS HB n HI HL. pose proof (wf_K p wf) as HK. unfold lex_sort_cols_n.
  destruct (quicksort_rotated p wf (pN p + 1) V 0 (Z.of_nat (pN p) - Z.of_nat (pK p) - 1)) as ([S c] & E & H1 & H2 & H3); auto; try lia.
  - split.
    + intros a b Ha Hb. apply HI; lia.
    + intros H. specialize (HL ltac:(lia)). replace (Z.to_nat (Z.of_nat (pN p) - Z.of_nat (pK p) - 1)) with (pN p - pK p - 1)%nat by lia. exact HL.
  - exists S, c. split; [exact E|]. unfold worst2 in H3. fold n in H1, H2, H3. replace (n - 1 - 0 + 1) with n in H1, H3 by lia.
    split; [lia|]. split; [|lia]. rewrite <- H3. rewrite Z.mul_comm, Z.div_mul by lia. reflexivity.
Qed.

(** Such columns exist for every parameter set with at least two rows: write the position in base 127. *)
Definition worst_entry (w i j : nat) : Z :=
  let v := Z.of_nat (if Nat.eqb (S j) w then 0 else S j) in
  match i with 0%nat => v / 127 | 1%nat => v mod 127 | _ => 0 end.
Definition worst_columns (p : params) : mat :=
  map (fun i => map (worst_entry (pN p - pK p) i) (seq 0 (pN p - pK p))) (seq 0 (pK p)).

Lemma ent_map_seq f a b i j : (i < a)%nat -> (j < b)%nat -> ent (map (fun i => map (f i) (seq 0 b)) (seq 0 a)) i j = f i j.
Proof. intros Hi Hj. unfold ent. rewrite nth_map_seq by auto. apply nth_map_seq; auto. Qed.

Lemma worst_value w i j : (j < w)%nat -> (i < 2)%nat -> 0 <= worst_entry w i j /\ 127 * worst_entry w 0 j + worst_entry w 1 j = (if Nat.eqb (S j) w then 0 else Z.of_nat (S j)) /\ worst_entry w 1 j < 127.
Proof.
  intros Hj Hi. assert (E : i = 0%nat \/ i = 1%nat) by lia. unfold worst_entry.
  set (v := Z.of_nat (if Nat.eqb (S j) w then 0 else S j)). assert (0 <= v) by lia.
  pose proof (Z.div_mod v 127 ltac:(lia)). pose proof (Z.mod_pos_bound v 127 ltac:(lia)). pose proof (Z.div_pos v 127 ltac:(lia) ltac:(lia)).
  split; [destruct E as [-> | ->]; lia|]. split; [|lia]. rewrite <- H0. unfold v. destruct (Nat.eqb (S j) w); reflexivity.
Qed.

Lemma worst_lt p a b : wf_params p -> (2 <= pK p)%nat -> (a < pN p - pK p)%nat -> (b < pN p - pK p)%nat ->
  (if Nat.eqb (S a) (pN p - pK p) then 0 else Z.of_nat (S a)) < (if Nat.eqb (S b) (pN p - pK p) then 0 else Z.of_nat (S b)) ->
  lex_lt (column (pK p) (ent (worst_columns p)) a) (column (pK p) (ent (worst_columns p)) b).
Proof.
  intros wf HK Ha Hb H. set (w := (pN p - pK p)%nat) in *.
  assert (EC : forall j, (j < w)%nat -> column (pK p) (ent (worst_columns p)) j = worst_entry w 0 j :: worst_entry w 1 j :: repeat 0 (pK p - 2)).
  { intros j Hj. apply (list_ext 0). { rewrite column_length. cbn [length]. rewrite repeat_length. lia. }
    rewrite column_length. intros i Hi. rewrite column_nth by auto. unfold worst_columns. fold w. rewrite ent_map_seq by auto.
    destruct i as [|[|i]]; [reflexivity|reflexivity|]. cbn [nth]. rewrite nth_repeat. reflexivity. }
  rewrite !EC by auto.
  destruct (worst_value w 0 a Ha ltac:(lia)) as (A1 & A2 & A3). destruct (worst_value w 1 a Ha ltac:(lia)) as (A4 & _ & _).
  destruct (worst_value w 0 b Hb ltac:(lia)) as (B1 & B2 & B3). destruct (worst_value w 1 b Hb ltac:(lia)) as (B4 & _ & _).
  split.
  - cbn [lex_le]. destruct (Z.eq_dec (worst_entry w 0 a) (worst_entry w 0 b)) as [E|E]; [right; split; [exact E|]; left; lia|left; lia].
  - intros E. pose proof (f_equal (fun l => nth 0 l 0) E) as E0. pose proof (f_equal (fun l => nth 1 l 0) E) as E1. cbn [nth] in E0, E1. lia.
Qed.

Theorem C68_attained : forall p, wf_params p -> (2 <= pK p)%nat -> Z.of_nat (pN p) <= 127 * 127 ->
  let n := Z.of_nat (pN p) - Z.of_nat (pK p) in
  exists V S c, shape (pK p) (pN p - pK p) V /\ (forall i j, (i < pK p)%nat -> (j < pN p - pK p)%nat -> 0 <= ent V i j < 127) /\
    lex_sort_cols_n p V = Ok (S, c) /\ depth c = n /\ compared c = (n * n + 5 * n - 6) / 2 /\ swapped c = n - 1.
Proof.
  intros p wf HK HN n. exists (worst_columns p).
  assert (HS : shape (pK p) (pN p - pK p) (worst_columns p)).
  { unfold worst_columns. split. { rewrite map_length, seq_length. reflexivity. }
    apply Forall_forall. intros r Hr. apply in_map_iff in Hr. destruct Hr as (i & <- & _). rewrite map_length, seq_length. reflexivity. }
  assert (HB : forall i j, (i < pK p)%nat -> (j < pN p - pK p)%nat -> 0 <= ent (worst_columns p) i j < 127).
  { intros i j Hi Hj. unfold worst_columns. rewrite ent_map_seq by auto.
    destruct (worst_value (pN p - pK p) 0 j Hj ltac:(lia)) as (A1 & A2 & A3). destruct (worst_value (pN p - pK p) 1 j Hj ltac:(lia)) as (A4 & _ & _).
    destruct i as [|[|i]]; [|lia|cbn [worst_entry]; lia].
    assert ((if Nat.eqb (S j) (pN p - pK p) then 0 else Z.of_nat (S j)) < 127 * 127) by (destruct (Nat.eqb_spec (S j) (pN p - pK p)); lia). lia. }
  destruct (C68_worst p wf (worst_columns p) HS) as (S & c & E & H).
  - intros i j Hi Hj. specialize (HB i j Hi Hj). unfold is_byte. lia.
  - intros a b Ha Hb. apply worst_lt; auto; try lia.
    destruct (Nat.eqb_spec (Datatypes.S a) (pN p - pK p)); destruct (Nat.eqb_spec (Datatypes.S b) (pN p - pK p)); lia.
  - intros Hn. apply worst_lt; auto; try lia.
    destruct (Nat.eqb_spec (Datatypes.S (pN p - pK p - 1)) (pN p - pK p)); destruct (Nat.eqb_spec 1 (pN p - pK p)); lia.
  - exists S, c. split; [exact HS|]. split; [exact HB|]. split; [exact E|exact H].
Qed.

(** The seven parameter sets: depth and comparisons in the worst case. *)
Theorem C68_less : Forall (fun p => wf_params p /\ (2 <= pK p)%nat /\ Z.of_nat (pN p) <= 127 * 127) less_params /\
  map (fun p => let n := Z.of_nat (pN p) - Z.of_nat (pK p) in (n, (n * n + 5 * n - 6) / 2)) less_params =
    [(126, 8250); (126, 8250); (126, 8250); (200, 20497); (200, 20497); (274, 38220); (274, 38220)].
Proof.
  split; [|vm_compute; reflexivity]. pose proof less_params_wf as W. rewrite Forall_forall in *. intros p Hp. split; [auto|].
  assert (H : forallb (fun p => (2 <=? pK p)%nat && (Z.of_nat (pN p) <=? 127 * 127)) less_params = true) by (vm_compute; reflexivity).
  rewrite forallb_forall in H. specialize (H p Hp). apply andb_true_iff in H. destruct H as [H1 H2]. apply Nat.leb_le in H1. apply Z.leb_le in H2. auto.
Qed.

(** Three rows and 129 columns: already sorted, and in the worst order. *)
Example C68_example :
  bind (lex_sort_cols_n toy_params (map (fun i => map (fun j => match i with 0%nat => 1 | _ => Z.of_nat j end) (seq 0 129)) (seq 0 3)))
    (fun r => Ok (compared (snd r), swapped (snd r), called (snd r), depth (snd r))) = Ok (8512, 0, 257, 129) /\
  bind (lex_sort_cols_n toy_params (worst_columns toy_params)) (fun r => Ok (compared (snd r), swapped (snd r), called (snd r), depth (snd r))) =
    Ok (8640, 128, 257, 129) /\ (129 * 129 + 5 * 129 - 6) / 2 = 8640.
Proof. split; [vm_compute; reflexivity|]. split; vm_compute; reflexivity. Qed.

Print Assumptions C68_result.
Print Assumptions C68_bounds.
Print Assumptions C68_worst.
Print Assumptions C68_attained.
Print Assumptions C68_less.
