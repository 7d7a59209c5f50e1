(** Property C71: what the branches and addresses of the sort of columns reveal. *)
From Coq Require Import Setoid Morphisms Permutation Sorted.
From Verif Require Import Base BaseLemmas Params ParamsProofs Fq FqProofs Sums LinAlg Monomial Codes Spec RrefProofs EnumProofs MonoProofs LexProofs SortProofs ActionProofs RoundProofs
  AnyKeyProofs PropMono PropCanon PropLinAlg Leak LeakProofs LeakRref PivotSpec LeakRrefProofs PropLeak PropRref Toy.

(** *** Order of columns, entry by entry *)
(** Columns [a] and [b] agree in the first [c] rows. *)
Definition agree (V : mat) (a b c : nat) : Prop := forall j, (j < c)%nat -> ent V j a = ent V j b.
(** Column [a] comes before column [b]. *)
Definition before (K : nat) (V : mat) (a b : nat) : Prop := exists c, (c < K)%nat /\ agree V a b c /\ ent V c a < ent V c b.
(** In both matrices each pair of columns is in the same order and begins to differ in the same row. *)
Definition same_pattern (K w : nat) (V V' : mat) : Prop := forall a b, (a < w)%nat -> (b < w)%nat ->
  (before K V a b <-> before K V' a b) /\ forall c, (c <= K)%nat -> (agree V a b c <-> agree V' a b c).

(** K rows of N-K bytes. *)
Definition good_matrix_w (p : params) (V : mat) : Prop := shape (pK p) (pN p - pK p) V /\
  forall i j, (i < pK p)%nat -> (j < pN p - pK p)%nat -> is_byte (ent V i j).

(** *** Two runs side by side *)
Definition alike {A} (R : A -> A -> Prop) (x y : res A) : Prop :=
  match x, y with Ok a, Ok b => R a b | UB, UB => True | NoFuel, NoFuel => True | _, _ => False end.
(** Equal records have related results; under [P] the records are equal. *)
Definition runs (P : Prop) {A} (m m' : tm A) (R : A -> A -> Prop) : Prop :=
  (forall t t', fst m ++ t = fst m' ++ t' -> t = t' /\ alike R (snd m) (snd m')) /\ (P -> fst m = fst m' /\ alike R (snd m) (snd m')).

Lemma runs_ret P {A} (a a' : A) (R : A -> A -> Prop) : R a a' -> runs P (ret a) (ret a') R.
Proof. intros H. split; [|intros _; split; [reflexivity|exact H]]. intros t t' E. cbn in E. auto. Qed.
Lemma runs_bind P {A B} (m m' : tm A) (k k' : A -> tm B) R S : runs P m m' R -> (forall a a', R a a' -> runs P (k a) (k' a') S) -> runs P (tbind m k) (tbind m' k') S.
Proof.
  intros (H1 & H2) HK. split.
  - intros t t'. rewrite !fst_tbind, <- !app_assoc. intros E. apply H1 in E. destruct E as (E & H).
    rewrite !snd_tbind. unfold alike in H. destruct (snd m), (snd m'); try contradiction; cbn [bind]; [|split; auto..]. apply (HK a a0 H). exact E.
  - intros HP. destruct (H2 HP) as (E & H). rewrite !fst_tbind, !snd_tbind, E. unfold alike in H. destruct (snd m), (snd m'); try contradiction; cbn [bind]; [|split; auto..].
    destruct (HK a a0 H) as (_ & H3). destruct (H3 HP) as (E3 & H4). rewrite E3. auto.
Qed.
Lemma runs_mono P {A} (m m' : tm A) (R S : A -> A -> Prop) : runs P m m' R -> (forall a a', R a a' -> S a a') -> runs P m m' S.
Proof.
  intros (H1 & H2) H. assert (L : alike R (snd m) (snd m') -> alike S (snd m) (snd m')) by (unfold alike; destruct (snd m), (snd m'); auto).
  split; [intros t t' E; destruct (H1 t t' E); auto|intros HP; destruct (H2 HP); auto].
Qed.
Lemma runs_branch (P : Prop) b b' : (P -> b = b') -> runs P (branch b) (branch b') (fun c c' => c = c' /\ c = b /\ c' = b').
Proof.
  intros H. split.
  - intros t t' E. apply cons_inv in E as (E1 & E2). apply branch_inv in E1. subst b'. cbn. auto.
  - intros HP. rewrite <- (H HP). cbn. auto.
Qed.
Lemma runs_for P {S} (I : nat -> S -> S -> Prop) (f f' : nat -> S -> tm S) n : forall start s s',
  (forall i s s', (start <= i < start + n)%nat -> I i s s' -> runs P (f i s) (f' i s') (I (Datatypes.S i))) -> I start s s' ->
  runs P (tfor n start f s) (tfor n start f' s') (I (start + n)%nat).
Proof.
  induction n; intros start s s' H H0; cbn [tfor].
  - eapply runs_bind. { apply runs_branch. auto. } intros _ _ _. apply runs_ret. rewrite Nat.add_0_r. auto.
  - eapply runs_bind. { apply runs_branch. auto. } intros _ _ _. eapply runs_bind. { apply H; [lia|exact H0]. } intros a a' Ha.
    replace (start + Datatypes.S n)%nat with (Datatypes.S start + n)%nat by lia. apply IHn; auto. intros i x x' Hi. apply H. lia.
Qed.
Lemma runs_traces P {A} (m m' : tm A) T (Q Q' : A -> Prop) : traces m T Q -> traces m' T Q' -> runs P m m' (fun a a' => Q a /\ Q' a').
Proof.
  intros (H1 & a & H2 & H3) (H1' & a' & H2' & H3'). unfold runs. rewrite H1, H1', H2, H2'. cbn [alike]. split; auto. intros t t' E. apply app_inv_head in E. auto.
Qed.
Lemma runs_load2 P arr V V' r c i j : shape r c V -> shape r c V' ->
  runs P (load2 arr V i j) (load2 arr V' i j) (fun x x' => (i < r)%nat /\ (j < c)%nat /\ x = ent V i j /\ x' = ent V' i j).
Proof.
  intros HV HV'. assert (D : forall W, shape r c W -> if ((i <? r) && (j <? c))%nat%bool then get2 W i j = Ok (ent W i j) else get2 W i j = UB).
  { intros W HW. destruct (Nat.ltb_spec i r); cbn [andb].
    - destruct (Nat.ltb_spec j c). { apply (get2_ok _ r c); auto. }
      destruct HW as (L & F). unfold get2, get. destruct (nth_error W i) as [row|] eqn:E; [|reflexivity]. cbn [bind].
      rewrite Forall_forall in F. apply nth_error_In in E. apply F in E. destruct (nth_error row j) eqn:E2; [|reflexivity].
      assert (j < length row)%nat by (apply nth_error_Some; congruence). lia.
    - destruct HW as (L & F). unfold get2, get. destruct (nth_error W i) eqn:E; [|reflexivity]. assert (i < length W)%nat by (apply nth_error_Some; congruence). lia. }
  pose proof (D V HV) as D1. pose proof (D V' HV') as D2. unfold runs. cbn [load2 fst snd].
  destruct (Nat.ltb_spec i r), (Nat.ltb_spec j c); cbn [andb] in *; rewrite D1, D2; cbn [alike];
    (split; [intros t t' E; apply cons_inv in E as (_ & E); split; [exact E|auto]|intros _; split; [reflexivity|auto]]).
Qed.
Lemma runs_load P arr l l' i : length l = length l' ->
  runs P (load arr l i) (load arr l' i) (fun x x' => (i < length l)%nat /\ x = nth i l 0 /\ x' = nth i l' 0).
Proof.
  intros L. unfold runs. cbn [load fst snd]. destruct (Nat.lt_ge_cases i (length l)) as [H|H].
  - rewrite (get_ok l i 0), (get_ok l' i 0) by lia. cbn [alike]. split; [intros t t' E; apply cons_inv in E as (_ & E); auto|auto].
  - assert (U : forall l : list Z, (length l <= i)%nat -> get l i = UB) by (intros x Hx; unfold get; rewrite (proj2 (nth_error_None x i)) by auto; reflexivity).
    rewrite !U by lia. cbn [alike]. split; [intros t t' E; apply cons_inv in E as (_ & E); auto|auto].
Qed.
Lemma runs_store P arr l l' i x x' : length l = length l' ->
  runs P (store arr l i x) (store arr l' i x') (fun m m' => (i < length l)%nat /\ m = upd l i x /\ m' = upd l' i x').
Proof.
  intros L. unfold runs. cbn [store fst snd]. unfold set. rewrite <- L. destruct (Nat.ltb_spec i (length l)); cbn [alike];
    (split; [intros t t' E; apply cons_inv in E as (_ & E); auto|auto]).
Qed.

Lemma pos_t_nonneg p x : 0 <= pos_t p x.
Proof. unfold pos_t. apply Z.mod_pos_bound. unfold pos_mod. destruct (p_cat p); lia. Qed.

Section S.
Variable p : params.
Hypothesis wf : wf_params p.
Notation N := (pN p).
Notation K := (pK p).
Notation w := (pN p - pK p)%nat.
Variables V0 V0' : mat.
Let P := same_pattern K w V0 V0'.

Definition reordered (sg : nat -> nat) (V W : mat) : Prop :=
  shape K w W /\ bytm p W /\ forall i j, (i < K)%nat -> (j < w)%nat -> ent W i j = ent V i (sg j).
Definition bothr (sg : nat -> nat) (W W' : mat) : Prop := bij w sg /\ reordered sg V0 W /\ reordered sg V0' W'.
Definition pivots_at (q : nat) (pv pv' : list Z) : Prop := (q < w)%nat /\ length pv = K /\ length pv' = K /\
  forall j, (j < K)%nat -> nth j pv 0 = ent V0 j q /\ nth j pv' 0 = ent V0' j q.
(** Columns [a] and [b] first differ in row [c], where [a] is smaller. *)
Definition splits (V : mat) (a b c : nat) : Prop := (c < K)%nat /\ agree V a b c /\ ent V c a < ent V c b.
(** The pair is equal in both matrices, or in the same order from the same row on. *)
Definition known (a b : nat) : Prop := (agree V0 a b K /\ agree V0' a b K) \/
  (exists c, splits V0 a b c /\ splits V0' a b c) \/ (exists c, splits V0 b a c /\ splits V0' b a c).

Lemma agree_sym V a b c : agree V a b c -> agree V b a c.
Proof. intros H j Hj. symmetry. auto. Qed.
Lemma known_sym a b : known a b -> known b a.
Proof. intros [(H1 & H2)|[H|H]]; [left; split; apply agree_sym; auto|right; right; auto|right; left; auto]. Qed.
Lemma known_refl a : known a a.
Proof. left. split; intros j _; reflexivity. Qed.

Lemma splits_agree V a b c d : splits V a b c -> (agree V a b d <-> (d <= c)%nat).
Proof.
  intros (H1 & H2 & H3). split.
  - intros H. destruct (Nat.le_gt_cases d c); auto. specialize (H c ltac:(lia)). lia.
  - intros H j Hj. apply H2. lia.
Qed.
Lemma splits_not V a b c : splits V a b c -> ~ before K V b a.
Proof.
  intros (H1 & H2 & H3) (d & D1 & D2 & D3). destruct (Nat.lt_trichotomy c d) as [L|[->|L]]; [specialize (D2 c L)| |specialize (H2 d L)]; lia.
Qed.
Lemma known_pattern a b : known a b -> (before K V0 a b <-> before K V0' a b) /\ forall c, (c <= K)%nat -> (agree V0 a b c <-> agree V0' a b c).
Proof.
  intros [(H1 & H2)|[(c & H1 & H2)|(c & H1 & H2)]].
  - split. { split; intros (c & C1 & C2 & C3); [specialize (H1 c C1)|specialize (H2 c C1)]; lia. }
    intros c Hc. split; intros _ j Hj; [apply H2|apply H1]; lia.
  - split. { split; intros _; exists c; [exact H2|exact H1]. } intros d _. rewrite (splits_agree _ _ _ _ _ H1), (splits_agree _ _ _ _ _ H2). tauto.
  - split. { split; intros H; exfalso; [exact (splits_not _ _ _ _ H1 H)|exact (splits_not _ _ _ _ H2 H)]. } intros d _.
    assert (X : forall V, agree V a b d <-> agree V b a d) by (intros V; split; apply agree_sym).
    rewrite !X, (splits_agree _ _ _ _ _ H1), (splits_agree _ _ _ _ _ H2). tauto.
Qed.

Lemma lex_le_nth : forall a b c, length a = length b -> (c < length a)%nat -> (forall j, (j < c)%nat -> nth j a 0 = nth j b 0) -> lex_le a b -> nth c a 0 <= nth c b 0.
Proof.
  induction a as [|x a IH]; intros [|y b] c L Hc HA H; cbn [length] in *; try lia. cbn [lex_le] in H. destruct c; cbn [nth].
  - lia.
  - destruct H as [H|(-> & H)]. { specialize (HA 0%nat ltac:(lia)). cbn in HA. lia. } apply IH; auto; try lia. intros j Hj. apply (HA (S j)). lia.
Qed.
Lemma le_not_splits V a b c : lex_le (column K (ent V) a) (column K (ent V) b) -> ~ splits V b a c.
Proof.
  intros H (H1 & H2 & H3). apply (lex_le_nth _ _ c) in H.
  - rewrite !column_nth in H by auto. lia.
  - rewrite !column_length. auto.
  - rewrite column_length. auto.
  - intros j Hj. rewrite !column_nth by lia. symmetry. auto.
Qed.

Lemma splits_trans V a q b c d : splits V a q c -> splits V q b d -> splits V a b (Nat.min c d).
Proof.
  intros (H1 & H2 & H3) (D1 & D2 & D3). split; [lia|]. split.
  - intros j Hj. rewrite H2, D2 by lia. auto.
  - destruct (Nat.lt_trichotomy c d) as [L|[->|L]].
    + rewrite Nat.min_l by lia. rewrite <- (D2 c) by lia. auto.
    + rewrite Nat.min_id. lia.
    + rewrite Nat.min_r by lia. rewrite (H2 d) by lia. auto.
Qed.
Lemma splits_left V a q b c : agree V a q K -> splits V q b c -> splits V a b c.
Proof. intros H (H1 & H2 & H3). split; auto. split. { intros j Hj. rewrite H by lia. auto. } rewrite H by lia. auto. Qed.
Lemma splits_right V a q b c : splits V a q c -> agree V q b K -> splits V a b c.
Proof. intros (H1 & H2 & H3) H. split; auto. split. { intros j Hj. rewrite <- H by lia. auto. } rewrite <- H by lia. auto. Qed.
Lemma known_trans a q b : known a q -> known b q -> lex_le (column K (ent V0) a) (column K (ent V0) q) -> lex_le (column K (ent V0) q) (column K (ent V0) b) -> known a b.
Proof.
  intros HA HB LA LB. destruct HA as [(A1 & A2)|[(c & A1 & A2)|(c & A1 & _)]]; [| |exfalso; exact (le_not_splits _ _ _ _ LA A1)].
  - destruct HB as [(B1 & B2)|[(d & B1 & _)|(d & B1 & B2)]].
    + left. split; intros j Hj; [rewrite A1, B1|rewrite A2, B2]; auto.
    + exfalso. exact (le_not_splits _ _ _ _ LB B1).
    + right. left. exists d. split; eapply splits_left; eauto.
  - destruct HB as [(B1 & B2)|[(d & B1 & _)|(d & B1 & B2)]].
    + right. left. exists c. apply agree_sym in B1. apply agree_sym in B2. split; eapply splits_right; eauto.
    + exfalso. exact (le_not_splits _ _ _ _ LB B1).
    + right. left. exists (Nat.min c d). split; eapply splits_trans; eauto.
Qed.

Lemma compare_runs W W' sg q pv pv' col : bothr sg W W' -> pivots_at q pv pv' -> forall n i, (i + n = K)%nat ->
  ((0 < n)%nat \/ (col < w)%nat) -> ((col < w)%nat -> agree V0 (sg col) q i /\ agree V0' (sg col) q i) ->
  runs P (lex_compare_from_t n i W col pv) (lex_compare_from_t n i W' col pv') (fun c c' => c = c' /\ (col < w)%nat /\ known (sg col) q).
Proof.
  intros ((B1 & _) & (S1 & _ & E1) & (S2 & _ & E2)) (Hq & L1 & L2 & HP). induction n; intros i Hi Hn HA.
  - destruct Hn as [Hn|Hn]; [lia|]. cbn [lex_compare_from_t]. eapply runs_bind. { apply runs_branch. auto. } intros _ _ _.
    eapply runs_bind. { apply runs_branch. auto. } intros _ _ _. apply runs_ret. split; auto. split; auto. left. replace K with i by lia. auto.
  - cbn [lex_compare_from_t]. eapply runs_bind. { apply runs_branch. auto. } intros _ _ _.
    eapply runs_bind. { apply runs_load2 with (r := K) (c := w); auto. } intros v v' (_ & Hc & -> & ->).
    eapply runs_bind. { apply runs_load. lia. } intros x x' (_ & -> & ->).
    rewrite E1, E2 by (auto; lia). destruct (HP i ltac:(lia)) as (-> & ->). destruct (HA Hc) as (A1 & A2).
    set (a := sg col) in *. assert (Ha : (a < w)%nat) by (apply B1; auto).
    assert (AS : forall V, agree V a q i -> (agree V a q (S i) <-> ent V i a = ent V i q)).
    { intros V HV. split; [intros H; apply H; lia|]. intros H j Hj. destruct (Nat.eq_dec j i) as [->|]; auto. apply HV. lia. }
    eapply runs_bind.
    { apply runs_branch. intros HPP. destruct (HPP a q Ha Hq) as (_ & H). specialize (H (S i) ltac:(lia)). rewrite (AS V0), (AS V0') in H by auto.
      destruct (Z.eqb_spec (ent V0 i a - ent V0 i q) 0), (Z.eqb_spec (ent V0' i a - ent V0' i q) 0); auto; exfalso; lia. }
    intros b b' (<- & Eb & Eb'). destruct b.
    + symmetry in Eb, Eb'. apply Z.eqb_eq in Eb. apply Z.eqb_eq in Eb'. apply IHn; [lia|auto|]. intros _. split; apply AS; auto; lia.
    + symmetry in Eb, Eb'. apply Z.eqb_neq in Eb. apply Z.eqb_neq in Eb'. eapply runs_bind. { apply runs_branch. auto. } intros _ _ _.
      eapply runs_bind. { apply runs_load2 with (r := K) (c := w); auto. } intros v v' (_ & _ & -> & ->).
      eapply runs_bind. { apply runs_load. lia. } intros x x' (_ & -> & ->).
      rewrite E1, E2 by (auto; lia). destruct (HP i ltac:(lia)) as (-> & ->). fold a.
      assert (BE : forall V, agree V a q i -> ent V i a - ent V i q <> 0 -> (before K V a q <-> ent V i a < ent V i q)).
      { intros V HV NE. split; [|intros H; exists i; split; [lia|auto]]. intros (c & Hcc & HC & HL).
        destruct (Nat.lt_trichotomy c i) as [L|[->|L]]; auto; exfalso; [specialize (HV c L); lia|specialize (HC i L); lia]. }
      eapply runs_bind.
      { apply runs_branch. intros HPP. destruct (HPP a q Ha Hq) as (H & _). rewrite (BE V0), (BE V0') in H by auto.
        rewrite !Z.gtb_ltb. destruct (Z.ltb_spec 0 (ent V0 i a - ent V0 i q)), (Z.ltb_spec 0 (ent V0' i a - ent V0' i q)); auto; exfalso; lia. }
      intros b b' (<- & Eg & Eg'). apply runs_ret. split; auto. split; auto. rewrite Z.gtb_ltb in Eg, Eg'.
      destruct b; symmetry in Eg, Eg'; [apply Z.ltb_lt in Eg; apply Z.ltb_lt in Eg'|apply Z.ltb_ge in Eg; apply Z.ltb_ge in Eg'].
      * right. right. exists i. split; (split; [lia|split; [apply agree_sym; auto|lia]]).
      * right. left. exists i. split; (split; [lia|split; [auto|lia]]).
Qed.
Lemma compare_with_runs W W' sg q pv pv' c : bothr sg W W' -> pivots_at q pv pv' ->
  runs P (lex_compare_with_pivot_t p W c pv) (lex_compare_with_pivot_t p W' c pv') (fun x x' => x = x' /\ (Z.to_nat c < w)%nat /\ known (sg (Z.to_nat c)) q).
Proof.
  intros HB HQ. pose proof (wf_K p wf) as HK. eapply (compare_runs W W' sg q); eauto; try lia. intros _. split; intros j Hj; lia.
Qed.

Lemma scan_up_runs f W W' sg q pv pv' : bothr sg W W' -> pivots_at q pv pv' -> forall i, -1 <= i < Z.of_nat w ->
  runs P (scan_up_t p f W (pos_t p i) pv) (scan_up_t p f W' (pos_t p i) pv') (fun r r' => r = r' /\ i < r < Z.of_nat w /\ forall c, i < c <= r -> known (sg (Z.to_nat c)) q).
Proof.
  intros HB HQ. induction f; intros i Hi; cbn [scan_up_t]. { split; [intros t t' E; cbn in *; auto|intros _; cbn; auto]. }
  cbv zeta. rewrite pos_t_succ by (auto; lia). eapply runs_bind. { eapply compare_with_runs; eauto. } intros c c' (<- & Hc & KN). eapply runs_bind. { apply runs_branch. auto. }
  intros b b' (<- & _). destruct b.
  - rewrite <- (pos_t_id p wf (i + 1)) by lia. eapply runs_mono. { apply IHf. lia. } intros r r' (<- & Hr & KR). split; auto. split; [lia|].
    intros d Hd. destruct (Z.eq_dec d (i + 1)) as [->|]; auto. apply KR. lia.
  - apply runs_ret. split; auto. split; [lia|]. intros d Hd. replace d with (i + 1) by lia. auto.
Qed.
Lemma scan_down_runs f W W' sg q pv pv' : bothr sg W W' -> pivots_at q pv pv' -> forall j, 0 <= j <= Z.of_nat w ->
  runs P (scan_down_t p f W (pos_t p j) pv) (scan_down_t p f W' (pos_t p j) pv') (fun r r' => r = r' /\ 0 <= r < j /\ forall c, r <= c < j -> known (sg (Z.to_nat c)) q).
Proof.
  intros HB HQ. induction f; intros j Hj; cbn [scan_down_t]. { split; [intros t t' E; cbn in *; auto|intros _; cbn; auto]. }
  cbv zeta. destruct (Z.eq_dec j 0) as [->|NZ].
  { eapply runs_bind. { eapply compare_with_runs; eauto. } intros c c' (_ & Hc & _). exfalso. pose proof (pos_mod_N p wf) as M.
    rewrite (pos_t_id p wf 0) in Hc by lia. unfold pos_t in Hc. change (0 - 1) with (-1) in Hc. replace (-1 mod pos_mod p) with (pos_mod p - 1) in Hc; [lia|].
    apply (Z.mod_unique_pos _ _ (-1)); lia. }
  rewrite <- Z.add_opp_r, pos_t_succ, Z.add_opp_r by (auto; lia). eapply runs_bind. { eapply compare_with_runs; eauto. } intros c c' (<- & Hc & KN). eapply runs_bind. { apply runs_branch. auto. }
  intros b b' (<- & _). destruct b.
  - rewrite <- (pos_t_id p wf (j - 1)) by lia. eapply runs_mono. { apply IHf. lia. } intros r r' (<- & Hr & KR). split; auto. split; [lia|].
    intros d Hd. destruct (Z.eq_dec d (j - 1)) as [->|]; auto. apply KR. lia.
  - apply runs_ret. split; auto. split; [lia|]. intros d Hd. replace d with (j - 1) by lia. auto.
Qed.

Definition col_swap_record (a b : nat) : list event := loop (fun i => [Load V_values i b; Load V_values i a; Store V_values i b; Store V_values i a]) 0 K.
Lemma column_swap_ok V W sg a b : reordered sg V W -> (a < w)%nat -> (b < w)%nat -> a <> b ->
  traces (column_swap_t p W a b) (col_swap_record a b) (reordered (fun c => sg (swp a b c)) V).
Proof.
  intros (H1 & H2 & H3) Ha Hb Hab.
  assert (T : traces (column_swap_t p W a b) (col_swap_record a b) (shape K w)).
  { unfold column_swap_t, col_swap_record. apply (tr_for (fun _ V => shape K w V)); auto. intros i W1 Hi HW1.
    apply (tr_eq _ ([Load V_values i b] ++ [Load V_values i a] ++ [Store V_values i b] ++ [Store V_values i a])); [|reflexivity].
    eapply tr_bind. { eapply tr_load2; eauto; lia. } intros x _. eapply tr_bind. { eapply tr_load2; eauto; lia. } intros y _.
    eapply tr_bind. { eapply tr_store2; eauto; lia. } intros W2 HW2. eapply tr_store2; eauto; lia. }
  destruct T as (T & _). split; auto. destruct (column_swap_spec p wf W a b H1 H2 Ha Hb Hab) as (W' & E & S1 & S2 & S3). exists W'. rewrite column_swap_erase. split; auto.
  split; auto. split; auto. intros i j Hi Hj. rewrite <- (column_nth K (ent W') j i), S3, column_nth by auto. apply H3; auto.
  unfold swp. destruct (Nat.eqb j a), (Nat.eqb j b); auto.
Qed.

(** [g] moves only the positions lo..hi. *)
Definition inner (lo hi : Z) (g : nat -> nat) : Prop := bij w g /\ (forall c, (c < w)%nat -> ~ (lo <= Z.of_nat c <= hi) -> g c = c) /\
  forall c, (c < w)%nat -> lo <= Z.of_nat c <= hi -> lo <= Z.of_nat (g c) <= hi.
Lemma inner_id lo hi : inner lo hi (fun c => c).
Proof. split; [split|]; auto. Qed.
Lemma inner_comp lo hi g h : inner lo hi g -> inner lo hi h -> inner lo hi (fun c => g (h c)).
Proof.
  intros ((G1 & G1') & G2 & G3) ((H1 & H1') & H2 & H3). split; [split|split].
  - auto.
  - intros i j Hi Hj E. apply H1'; auto.
  - intros c Hc Hn. rewrite (H2 c) by auto. auto.
  - intros c Hc Hn. apply G3; auto.
Qed.
Lemma inner_weaken lo hi lo' hi' g : lo' <= lo -> hi <= hi' -> inner lo hi g -> inner lo' hi' g.
Proof.
  intros Hl Hh (G1 & G2 & G3). split; auto. split.
  - intros c Hc Hn. apply G2; auto. lia.
  - intros c Hc Hn. destruct (Z.le_gt_cases lo (Z.of_nat c)), (Z.le_gt_cases (Z.of_nat c) hi); [specialize (G3 c); lia|rewrite G2 by lia; lia..].
Qed.
Lemma inner_swap lo hi a b : (a < w)%nat -> (b < w)%nat -> lo <= Z.of_nat a <= hi -> lo <= Z.of_nat b <= hi -> inner lo hi (swp a b).
Proof.
  intros Ha Hb La Lb. split. { apply swp_bij; auto. } split.
  - intros c Hc Hn. unfold swp. destruct (Nat.eqb_spec c a), (Nat.eqb_spec c b); subst; auto; lia.
  - intros c Hc Hn. unfold swp. destruct (Nat.eqb_spec c a), (Nat.eqb_spec c b); subst; auto; lia.
Qed.
Lemma bij_comp sg g : bij w sg -> bij w g -> bij w (fun c => sg (g c)).
Proof. intros (A1 & A2) (B1 & B2). split; auto. Qed.

Lemma hoare_loop_runs q pv pv' lo hi : pivots_at q pv pv' -> 0 <= lo -> hi < Z.of_nat w -> forall f W W' sg i j, bothr sg W W' -> lo - 1 <= i < Z.of_nat w -> 0 <= j <= hi + 1 ->
  (forall c, lo <= c <= i -> c <= hi -> known (sg (Z.to_nat c)) q) -> (forall c, j <= c <= hi -> known (sg (Z.to_nat c)) q) ->
  runs P (hoare_loop_t p f W (pos_t p i) (pos_t p j) pv) (hoare_loop_t p f W' (pos_t p i) (pos_t p j) pv') (fun s s' => fst s = fst s' /\
    exists g, inner lo hi g /\ bothr (fun c => sg (g c)) (snd s) (snd s') /\ forall c, lo <= c <= hi -> known (sg (g (Z.to_nat c))) q).
Proof.
  intros HQ Hlo Hhi. induction f; intros W W' sg i j HB Hi Hj KI KJ; cbn [hoare_loop_t]. { split; [intros t t' E; cbn in *; auto|intros _; cbn; auto]. }
  eapply runs_bind. { eapply scan_up_runs; eauto. lia. } intros i' i'' (<- & Hi' & KI').
  eapply runs_bind. { eapply scan_down_runs; eauto. lia. } intros j' j'' (<- & Hj' & KJ').
  assert (K1 : forall c, lo <= c <= i' -> c <= hi -> known (sg (Z.to_nat c)) q).
  { intros c Hc Hch. destruct (Z.le_gt_cases c i); [apply KI; lia|apply KI'; lia]. }
  assert (K2 : forall c, j' <= c <= hi -> known (sg (Z.to_nat c)) q).
  { intros c Hc. destruct (Z.le_gt_cases j c); [apply KJ; lia|apply KJ'; lia]. }
  eapply runs_bind. { apply runs_branch. auto. } intros b b' (<- & Eb & _). symmetry in Eb. rewrite Z.geb_leb in Eb. destruct b.
  { apply Z.leb_le in Eb. apply runs_ret. cbn [fst snd]. split; auto. exists (fun c => c). split; [apply inner_id|]. split; auto.
    intros c Hc. destruct (Z.le_gt_cases c i'); [apply K1; lia|apply K2; lia]. }
  apply Z.leb_gt in Eb. set (a := Z.to_nat i') in *. set (b := Z.to_nat j') in *. destruct HB as (HB & H1 & H2).
  eapply runs_bind. { apply runs_traces with (T := col_swap_record a b); apply column_swap_ok; eauto; lia. }
  intros U U' (U1 & U2). assert (IS : inner lo hi (swp a b)) by (apply inner_swap; lia).
  assert (HB' : bothr (fun c => sg (swp a b c)) U U') by (split; [apply bij_comp; [exact HB|apply IS]|auto]).
  rewrite <- (pos_t_id p wf i'), <- (pos_t_id p wf j') by lia.
  assert (KS : forall c, lo <= c <= hi -> (c <= i' \/ j' <= c) -> known (sg (swp a b (Z.to_nat c))) q).
  { intros c Hc Hd. unfold swp. destruct (Nat.eqb_spec (Z.to_nat c) a). { apply K2. lia. } destruct (Nat.eqb_spec (Z.to_nat c) b). { apply K1; lia. }
    destruct Hd; [apply K1|apply K2]; lia. }
  eapply runs_mono. { apply (IHf U U' (fun c => sg (swp a b c)) i' j'); auto; try lia; intros c Hc; intros; apply KS; lia. }
  intros [r X] [r' X'] (E & g & G1 & G2 & G3). cbn [fst snd] in *. split; auto. exists (fun c => swp a b (g c)). split; [apply inner_comp; auto|]. auto.
Qed.

Lemma runs_and {A} (m m' : tm A) (R : A -> A -> Prop) (Q : A -> Prop) : runs P m m' R -> okp (snd m) Q -> runs P m m' (fun a a' => R a a' /\ Q a).
Proof.
  intros (H1 & H2) (a & E & HQ). assert (L : alike R (snd m) (snd m') -> alike (fun a a' => R a a' /\ Q a) (snd m) (snd m')).
  { rewrite E. cbn [alike]. destruct (snd m'); auto. }
  split; [intros t t' X; destruct (H1 t t' X); auto|intros HP; destruct (H2 HP); auto].
Qed.

Lemma reordered_column sg V W c : reordered sg V W -> (c < w)%nat -> column K (ent W) c = column K (ent V) (sg c).
Proof. intros (_ & _ & H) Hc. apply column_ext. intros i Hi. auto. Qed.

Lemma partition_runs W W' sg lo hi : bothr sg W W' -> 0 <= lo -> lo < hi -> hi < Z.of_nat w ->
  runs P (Hoare_partition_t p W lo hi) (Hoare_partition_t p W' lo hi) (fun s s' => fst s = fst s' /\ lo <= fst s < hi /\
    exists g, inner lo hi g /\ bothr (fun c => sg (g c)) (snd s) (snd s') /\
      forall x y, lo <= x <= fst s -> fst s < y <= hi -> known (sg (g (Z.to_nat x))) (sg (g (Z.to_nat y)))).
Proof.
  intros HW Hlo Hlh Hhi. pose proof HW as (HB & R1 & R2). pose proof R1 as (S1 & B1 & E1). pose proof R2 as (S2 & B2 & E2). pose proof (wf_K p wf) as HK.
  assert (M : runs P (Hoare_partition_t p W lo hi) (Hoare_partition_t p W' lo hi) (fun s s' => fst s = fst s' /\
    exists g, inner lo hi g /\ bothr (fun c => sg (g c)) (snd s) (snd s') /\ forall c, lo <= c <= hi -> known (sg (g (Z.to_nat c))) (sg (Z.to_nat lo)))).
  { unfold Hoare_partition_t. eapply runs_bind.
    { apply (runs_for P (fun n pv pv' => length pv = K /\ length pv' = K /\
        forall j, (j < n)%nat -> nth j pv 0 = ent W j (Z.to_nat lo) /\ nth j pv' 0 = ent W' j (Z.to_nat lo))).
      - intros i pv pv' Hi (L1 & L2 & HP). eapply runs_bind. { apply runs_load2 with (r := K) (c := w); auto. } intros x x' (_ & Hl & -> & ->).
        eapply runs_mono. { apply runs_store. lia. } intros m m' (_ & -> & ->). rewrite !upd_length. split; auto. split; auto.
        intros j Hj. rewrite !nth_upd by lia. destruct (Nat.eqb_spec i j) as [<-|]; auto. apply HP. lia.
      - rewrite !repeat_length. split; auto. split; auto. intros; lia. }
    intros pv pv' (L1 & L2 & HP). cbn [Nat.add] in *.
    apply hoare_loop_runs; auto; try lia; try (intros; lia). split. { apply HB. lia. } split; auto. split; auto.
    intros j Hj. destruct (HP j Hj) as (-> & ->). rewrite E1, E2 by (auto; lia). auto. }
  pose proof (Hoare_partition_spec p wf W lo hi Hlo Hlh Hhi S1 B1) as U. rewrite <- hoare_erase in U.
  eapply runs_mono. { exact (runs_and _ _ _ _ M U). } clear M U. intros [r X] [r' X'] ((E & g & G1 & G2 & G3) & Hr & _ & _ & _ & LE & GE). cbn [fst snd] in *.
  split; auto. split; auto. exists g. split; auto. split; auto. intros x y Hx Hy. destruct G2 as (_ & G2 & _).
  pose proof (fun c => reordered_column (fun c => sg (g c)) V0 X c G2) as CX. cbn beta in CX. rewrite (reordered_column sg V0 W (Z.to_nat lo) R1) in LE, GE by lia.
  apply (known_trans _ (sg (Z.to_nat lo))).
  - apply G3. lia.
  - apply G3. lia.
  - rewrite <- CX by lia. apply LE. lia.
  - rewrite <- CX by lia. apply GE. lia.
Qed.

Lemma quicksort_runs : forall f W W' sg lo hi, bothr sg W W' -> 0 <= lo -> lo <= hi -> hi < Z.of_nat w ->
  runs P (col_lex_quicksort_t p f W lo hi) (col_lex_quicksort_t p f W' lo hi) (fun X X' => exists g, inner lo hi g /\ bothr (fun c => sg (g c)) X X' /\
    forall x y, lo <= x <= hi -> lo <= y <= hi -> known (sg (g (Z.to_nat x))) (sg (g (Z.to_nat y)))).
Proof.
  induction f; intros W W' sg lo hi HW Hlo Hlh Hhi; cbn [col_lex_quicksort_t]. { split; [intros t t' E; cbn in *; auto|intros _; cbn; auto]. }
  eapply runs_bind. { apply runs_branch. auto. } intros b b' (<- & Eb & _). symmetry in Eb. destruct b.
  - apply Z.ltb_lt in Eb. rewrite !(pos_t_id p wf) by lia. eapply runs_bind. { apply partition_runs; eauto. }
    intros [r U] [r' U'] (E & Hr & g1 & G1 & G2 & G3). cbn [fst snd] in *. subst r'.
    eapply runs_bind. { apply (IHf U U' (fun c => sg (g1 c)) lo r); auto; lia. } intros X X' (g2 & A1 & A2 & A3). cbn beta in *.
    eapply runs_mono. { apply (IHf X X' (fun c => sg (g1 (g2 c))) (r + 1) hi); auto; lia. } intros Y Y' (g3 & C1 & C2 & C3). cbn beta in *.
    exists (fun c => g1 (g2 (g3 c))). split.
    { apply inner_comp; auto. apply (inner_comp lo hi g2 g3); eapply inner_weaken; [| |exact A1| | |exact C1]; lia. }
    split; auto. destruct A1 as (_ & A1 & A1'). destruct C1 as ((C0 & _) & C1 & C1').
    assert (LR : forall x y, lo <= x <= r -> r < y <= hi -> known (sg (g1 (g2 (g3 (Z.to_nat x))))) (sg (g1 (g2 (g3 (Z.to_nat y)))))).
    { intros x y Hx Hy. rewrite (C1 (Z.to_nat x)) by lia. specialize (A1' (Z.to_nat x) ltac:(lia) ltac:(lia)). specialize (C1' (Z.to_nat y) ltac:(lia) ltac:(lia)).
      rewrite (A1 (g3 (Z.to_nat y))) by (try apply C0; lia). specialize (G3 (Z.of_nat (g2 (Z.to_nat x))) (Z.of_nat (g3 (Z.to_nat y))) ltac:(lia) ltac:(lia)).
      rewrite !Nat2Z.id in G3. exact G3. }
    intros x y Hx Hy. destruct (Z.le_gt_cases x r), (Z.le_gt_cases y r).
    + rewrite !C1 by lia. apply A3; lia.
    + apply LR; lia.
    + apply known_sym. apply LR; lia.
    + apply C3; lia.
  - apply Z.ltb_ge in Eb. apply runs_ret. exists (fun c => c). split; [apply inner_id|]. split; auto. intros x y Hx Hy. replace y with x by lia. apply known_refl.
Qed.
End S.

(** C71: the record of the sort depends on the order of each pair of columns and on the row where they begin to differ, and shows exactly that. *)
Theorem C71_sort : forall p, wf_params p -> forall V V', good_matrix_w p V -> good_matrix_w p V' ->
  snd (lex_sort_cols_t p V) = lex_sort_cols p V /\
  (fst (lex_sort_cols_t p V) = fst (lex_sort_cols_t p V') <-> same_pattern (pK p) (pN p - pK p) V V').
Proof.
  intros p wf V V' (HS & HB) (HS' & HB'). split. { apply quicksort_erase. }
  pose proof (wf_K p wf) as HK. assert (B : bothr p V V' (fun c => c) V V') by (split; [split; auto|split; (split; [auto|split; auto])]).
  destruct (quicksort_runs p wf V V' (pN p + 1) V V' (fun c => c) 0 (Z.of_nat (pN p) - Z.of_nat (pK p) - 1) B ltac:(lia) ltac:(lia) ltac:(lia)) as (D & H).
  fold (lex_sort_cols_t p V) in D, H. fold (lex_sort_cols_t p V') in D, H. split; [|intros X; apply H; exact X].
  intros E. destruct (D [] []) as (_ & A). { rewrite E. reflexivity. }
  destruct (lex_sort_cols_spec p wf V HS HB) as (S & ES & _). unfold lex_sort_cols in ES. rewrite <- quicksort_erase in ES. fold (lex_sort_cols_t p V) in ES. rewrite ES in A.
  cbn [alike] in A. destruct (snd (lex_sort_cols_t p V')); try contradiction. destruct A as (g & (G & _) & _ & KN).
  assert (SU : forall c, (c < pN p - pK p)%nat -> exists d, (d < pN p - pK p)%nat /\ g d = c) by (apply bij_surj; auto).
  intros x y Hx Hy. apply known_pattern. destruct (SU x Hx) as (x' & Hx' & <-). destruct (SU y Hy) as (y' & Hy' & <-).
  specialize (KN (Z.of_nat x') (Z.of_nat y') ltac:(lia) ltac:(lia)). rewrite !Nat2Z.id in KN. exact KN.
Qed.

(** Values changed row by row in an increasing way: nothing of the change appears in the record. *)
Theorem C71_increasing : forall p, wf_params p -> forall V V' (f : nat -> Z -> Z), good_matrix_w p V -> good_matrix_w p V' ->
  (forall i x y, (i < pK p)%nat -> x < y -> f i x < f i y) ->
  (forall i j, (i < pK p)%nat -> (j < pN p - pK p)%nat -> ent V' i j = f i (ent V i j)) ->
  fst (lex_sort_cols_t p V) = fst (lex_sort_cols_t p V').
Proof.
  intros p wf V V' f HV HV' HF HE. apply (C71_sort p wf V V' HV HV').
  assert (EQ : forall i x y, (i < pK p)%nat -> (f i x = f i y <-> x = y)).
  { intros i x y Hi. split; [|intros ->; reflexivity]. intros E. destruct (Z.lt_trichotomy x y) as [L|[L|L]]; auto; apply (HF i) in L; auto; lia. }
  intros a b Ha Hb. assert (AG : forall c, (c <= pK p)%nat -> (agree V a b c <-> agree V' a b c)).
  { intros c Hc. split; intros H j Hj; specialize (H j Hj); rewrite !HE in * by (auto; lia); apply (EQ j); auto; lia. }
  split; auto. split; intros (c & C1 & C2 & C3); exists c; (split; [auto|]); (split; [apply AG; auto; lia|]); rewrite !HE in * by auto.
  - apply HF; auto.
  - destruct (Z.lt_trichotomy (ent V c a) (ent V c b)) as [L|[L|L]]; auto; [rewrite L in C3; lia|apply (HF c) in L; auto; lia].
Qed.

Lemma commit_bytes p V Qb G Q W a : vmem p V -> snd (commit_t p V Qb G Q) = Ok (W, a) -> vmem p W.
Proof.
  intros HV E. assert (PC : pc (snd (commit_t p V Qb G Q)) (fun s => vmem p (fst s))); [|exact (PC _ E)].
  unfold commit_t. rewrite snd_tbind. apply pc_any. intros G1 _. rewrite snd_tbind. apply pc_any. intros [[r Gd] piv] _. rewrite snd_tbind, snd_tfor. eapply pc_bind.
  { apply (pc_for (fun _ s => vmem p (fst (fst (fst s))))); auto. intros i [[[V1 Qb1] pi] npi] Hi Hs. rewrite snd_tbind. apply pc_any. intros [ri v] _.
    rewrite snd_tbind. apply pc_any. intros f _. rewrite snd_tbind, snd_branch. cbn [bind]. destruct (f =? 0).
    - rewrite snd_tbind, lex_minimize_erase. eapply pc_bind. { apply lex_minimize_pc. exact Hs. } intros V2 H2. apply pc_ok. exact H2.
    - rewrite snd_tbind. apply pc_any. intros pm _. rewrite snd_tbind. apply pc_any. intros cf _. apply pc_ok. exact Hs. }
  intros [[[V1 Qb1] pi] npi] H. apply pc_ok. exact H.
Qed.

(** A whole commitment: its record shows the permutation of the ephemeral monomial, the order of the normalised columns before the
    sort and where each pair begins to differ, and nothing more. *)
Theorem C71_prepare : forall p, wf_params p -> forall V V' Qb Qb' G Q Q',
  good_matrix_w p V -> good_matrix_w p V' -> act_array p Qb -> act_array p Qb' -> good_matrix p G -> good_mono p Q -> good_mono p Q' ->
  snd (prepare_digest_input_t p V Qb G Q) = prepare_digest_input p V Qb G Q /\
  exists W W' a a', snd (commit_t p V Qb G Q) = Ok (W, a) /\ snd (commit_t p V' Qb' G Q') = Ok (W', a') /\
    prepare_digest_input p V Qb G Q = (V2 <- lex_sort_cols p W ;; Ok (V2, a)) /\
    (fst (prepare_digest_input_t p V Qb G Q) = fst (prepare_digest_input_t p V' Qb' G Q') <->
     same_permutation Q Q' /\ same_pattern (pK p) (pN p - pK p) W W').
Proof.
  intros p wf V V' Qb Qb' G Q Q' HV HV' HB HB' HG HQ HQ'. destruct HV as (HV & BV). destruct HV' as (HV' & BV').
  destruct (C70_prepare p wf V V' Qb Qb' G Q Q' HV HV' HB HB' HG HQ HQ') as (E & W & W' & a & a' & E1 & E2 & E3 & E4).
  split; auto. exists W, W', a, a'. split; auto. split; auto. split; auto. rewrite E4.
  destruct (C71_sort p wf W W') as (_ & H); [apply (commit_bytes p V Qb G Q W a); auto; split; auto|apply (commit_bytes p V' Qb' G Q' W' a'); auto; split; auto|].
  rewrite H. reflexivity.
Qed.

(** *** Examples *)
Definition wide (p : params) (f : nat -> nat -> Z) : mat := map (fun i => map (f i) (seq 0 (pN p - pK p))) (seq 0 (pK p)).
Lemma wide_shape p f : shape (pK p) (pN p - pK p) (wide p f).
Proof.
  split. { unfold wide. rewrite map_length, seq_length. auto. } apply Forall_forall. intros x Hx. apply in_map_iff in Hx. destruct Hx as (i & <- & _).
  rewrite map_length, seq_length. auto.
Qed.
Lemma wide_ent p f i c : (i < pK p)%nat -> (c < pN p - pK p)%nat -> ent (wide p f) i c = f i c.
Proof. intros Hi Hc. unfold ent, wide. rewrite (nth_map_seq (fun i => map (f i) (seq 0 (pN p - pK p)))) by auto. apply nth_map_seq. auto. Qed.
Lemma wide_good p f : (forall i c, is_byte (f i c)) -> good_matrix_w p (wide p f).
Proof. intros H. split; [apply wide_shape|]. intros i j Hi Hj. rewrite wide_ent by auto. apply H. Qed.

(** Columns that begin with one of five values, in no order, then with one of 127. *)
Definition mixed (i c : nat) : Z := if Nat.eqb i 0 then (Z.of_nat c * 3) mod 5 else (Z.of_nat c * 50 + Z.of_nat i) mod 127.
(** Its values doubled leave the same record; one entry changed, so that two columns differ from their first row on, does not. *)
Example C71_example : let p := toy_params in
  let V := wide p mixed in let V2 := wide p (fun i c => 2 * mixed i c) in
  let V3 := wide p (fun i c => if ((i =? 0) && (c =? 5))%nat%bool then 1 else mixed i c) in
  good_matrix_w p V /\ good_matrix_w p V2 /\ good_matrix_w p V3 /\ V <> V2 /\
  fst (lex_sort_cols_t p V) = fst (lex_sort_cols_t p V2) /\ fst (lex_sort_cols_t p V) <> fst (lex_sort_cols_t p V3).
Proof.
  cbv zeta. set (p := toy_params). assert (HP : pK p = 3%nat /\ (pN p - pK p)%nat = 129%nat) by (split; reflexivity). destruct HP as (HK & Hw).
  assert (M : forall i c, 0 <= mixed i c < 127).
  { intros i c. unfold mixed. destruct (Nat.eqb i 0); [pose proof (Z.mod_pos_bound (Z.of_nat c * 3) 5)|pose proof (Z.mod_pos_bound (Z.of_nat c * 50 + Z.of_nat i) 127)]; lia. }
  assert (G1 : good_matrix_w p (wide p mixed)) by (apply wide_good; intros i c; specialize (M i c); unfold is_byte; lia).
  assert (G2 : good_matrix_w p (wide p (fun i c => 2 * mixed i c))) by (apply wide_good; intros i c; specialize (M i c); unfold is_byte; lia).
  assert (G3 : good_matrix_w p (wide p (fun i c => if ((i =? 0) && (c =? 5))%nat%bool then 1 else mixed i c))).
  { apply wide_good. intros i c. specialize (M i c). unfold is_byte. destruct ((i =? 0) && (c =? 5))%nat%bool; lia. }
  split; auto. split; auto. split; auto. split. { intros E. apply (f_equal (fun V => ent V 0 1)) in E. rewrite !wide_ent in E by lia. discriminate E. }
  split.
  - apply (C71_increasing p toy_wf _ _ (fun _ x => 2 * x)); auto. { intros i x y _ L. lia. } intros i j Hi Hj. rewrite !wide_ent by auto. reflexivity.
  - intros E. apply (C71_sort p toy_wf _ _ G1 G3) in E. destruct (E 0%nat 5%nat ltac:(lia) ltac:(lia)) as (_ & H). specialize (H 1%nat ltac:(lia)).
    assert (A : agree (wide p mixed) 0 5 1). { intros j Hj. replace j with O by lia. rewrite !wide_ent by lia. reflexivity. }
    apply H in A. specialize (A 0%nat ltac:(lia)). rewrite !wide_ent in A by lia. discriminate A.
Qed.

(** A commitment: of two monomials that differ only in their first coefficient, one puts the last normalised column before the
    others and one after them. *)
Definition two_cols (x : res (mat * action)) : list Z := match x with Ok (W, _) => [ent W 0 0; ent W 1 0; ent W 2 0; ent W 0 128; ent W 1 128; ent W 2 128] | _ => [] end.
Definition ex_commit (x : Z) : res (mat * action) :=
  snd (commit_t toy_params ex_V {| a_perm := repeat 0 (pK toy_params); a_coef := repeat 0 (pK toy_params) |} sort_G (sort_Q x)).
Lemma ex_V_good : good_matrix_w toy_params ex_V.
Proof.
  split. { split; [reflexivity|]. apply Forall_forall. intros y Hy. apply repeat_spec in Hy. subst y. reflexivity. }
  intros i j Hi _. unfold ent, ex_V. rewrite nth_indep with (d' := repeat 0 (pN toy_params - pK toy_params)) by (rewrite repeat_length; exact Hi).
  rewrite !nth_repeat. unfold is_byte. lia.
Qed.
Example C71_example_prepare :
  let p := toy_params in let Qb := {| a_perm := repeat 0 (pK p); a_coef := repeat 0 (pK p) |} in
  good_matrix_w p ex_V /\ act_array p Qb /\ good_matrix p sort_G /\ good_mono p (sort_Q 1) /\ good_mono p (sort_Q 64) /\ same_permutation (sort_Q 1) (sort_Q 64) /\
  (exists W W' a a', ex_commit 1 = Ok (W, a) /\ ex_commit 64 = Ok (W', a') /\ before 3 W 0 128 /\ before 3 W' 128 0) /\
  fst (prepare_digest_input_t p ex_V Qb sort_G (sort_Q 1)) <> fst (prepare_digest_input_t p ex_V Qb sort_G (sort_Q 64)).
Proof.
  cbv zeta. assert (A0 : act_array toy_params {| a_perm := repeat 0 (pK toy_params); a_coef := repeat 0 (pK toy_params) |}) by (split; reflexivity).
  assert (Q1 : good_mono toy_params (sort_Q 1)) by (apply sort_Q_good; unfold fq_unit; lia).
  assert (Q2 : good_mono toy_params (sort_Q 64)) by (apply sort_Q_good; unfold fq_unit; lia).
  pose proof ex_V_good as GV. pose proof sort_G_good as GG.
  split; auto. split; auto. split; auto. split; auto. split; auto. split; [reflexivity|].
  destruct (C71_prepare toy_params toy_wf _ _ _ _ sort_G (sort_Q 1) (sort_Q 64) GV GV A0 A0 GG Q1 Q2) as (_ & W & W' & a & a' & E1 & E2 & _ & H).
  fold (ex_commit 1) in E1. fold (ex_commit 64) in E2.
  assert (T1 : two_cols (ex_commit 1) = [1; 1; 1; 1; 2; 2]) by (vm_compute; reflexivity).
  assert (T2 : two_cols (ex_commit 64) = [1; 64; 64; 1; 1; 1]) by (vm_compute; reflexivity).
  rewrite E1 in T1. rewrite E2 in T2. cbn [two_cols] in T1, T2. injection T1 as X1 X2 X3 X4 X5 X6. injection T2 as Y1 Y2 Y3 Y4 Y5 Y6.
  assert (B1 : before 3 W 0 128). { exists 1%nat. split; [lia|]. split; [|lia]. intros j Hj. replace j with O by lia. lia. }
  assert (B2 : before 3 W' 128 0). { exists 1%nat. split; [lia|]. split; [|lia]. intros j Hj. replace j with O by lia. lia. }
  split. { exists W, W', a, a'. auto. } rewrite H. intros (_ & SP). change (pK toy_params) with 3%nat in SP. change (pN toy_params - 3)%nat with 129%nat in SP.
  destruct (SP 0%nat 128%nat ltac:(lia) ltac:(lia)) as (SB & _). apply SB in B1. destruct B1 as (c & C1 & C2 & C3), B2 as (d & D1 & D2 & D3).
  destruct (Nat.lt_trichotomy c d) as [L|[->|L]]; [specialize (D2 c L)| |specialize (C2 d L)]; lia.
Qed.

Print Assumptions C71_sort.
Print Assumptions C71_increasing.
Print Assumptions C71_prepare.
