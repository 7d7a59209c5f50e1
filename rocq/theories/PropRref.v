(** Property C70: what branches and addresses reveal of the computation of a commitment. *)
From Coq Require Import Setoid Morphisms Permutation.
From Verif Require Import Base BaseLemmas Params ParamsProofs Fq FqProofs Sums LinAlg Monomial Codes Spec RrefProofs EnumProofs MonoProofs ActionProofs RoundProofs SortProofs
  PropMono PropCanon Leak LeakProofs LeakRref PivotSpec LeakRrefProofs PropLeak Toy.

(** *** Reducing a matrix *)

(** The record of generator_RREF tells the list of pivots, and nothing else about the matrix. *)
Theorem C70_reduction : forall p, (pK p <= pN p)%nat -> forall G G',
  shape (pK p) (pN p) G -> reduced (pK p) (pN p) (ent G) -> shape (pK p) (pN p) G' -> reduced (pK p) (pN p) (ent G') ->
  let run G := generator_RREF_t p G (repeat 0 (pN p)) in
  snd (run G) = generator_RREF p G (repeat 0 (pN p)) /\
  exists l l', (forall m, pivots (pK p) (pN p) (ent G) m <-> m = l) /\ (forall m, pivots (pK p) (pN p) (ent G') m <-> m = l') /\
    (fst (run G) = fst (run G') <-> l = l').
Proof.
  intros p HKN G G' HS HR HS' HR' run. split. { apply RREF_erase. }
  destruct (pivots_exist p (pK p) 0 _ _ _ _ _ eq_refl HKN (state_start p G HS HR)) as (l & Hl).
  destruct (pivots_exist p (pK p) 0 _ _ _ _ _ eq_refl HKN (state_start p G' HS' HR')) as (l' & Hl').
  exists l, l'. split. { intros m. split; [intros H; eapply pivots_det; eauto|intros ->; exact Hl]. }
  split. { intros m. split; [intros H; eapply pivots_det; eauto|intros ->; exact Hl']. }
  pose proof (record_pivots p (pK p) 0 _ _ _ _ G G' _ _ l l' [] [] eq_refl HKN (state_start p G HS HR) (state_start p G' HS' HR') Hl Hl') as E.
  rewrite !app_nil_r in E. unfold run, generator_RREF_t. tauto.
Qed.

Section C.
Variable p : params.
Hypothesis wf : wf_params p.
Notation N := (pN p).
Notation K := (pK p).
Notation w := (pN p - pK p)%nat.
Notation zeros := (repeat (repeat 0 N) K).

Lemma zeros_shape : shape K N zeros.
Proof. split. apply repeat_length. apply Forall_forall. intros x Hx. apply repeat_spec in Hx. subst. apply repeat_length. Qed.

Lemma code_chain A B C : same_code K N A B -> same_code K N B C -> same_code K N A C.
Proof. intros H1 H2 v. rewrite (H1 v). apply H2. Qed.
Lemma choice n (P : nat -> Z * Z -> Prop) : (forall d, (d < n)%nat -> exists x, P d x) -> exists f, forall d, (d < n)%nat -> P d (f d).
Proof.
  induction n; intros H. { exists (fun _ => (0, 0)). intros; lia. }
  destruct IHn as (f & Hf). { intros d Hd. apply H. lia. } destruct (H n ltac:(lia)) as (x & Hx).
  exists (fun d => if Nat.eqb d n then x else f d). intros d Hd. destruct (Nat.eqb_spec d n) as [->|]; auto. apply Hf. lia.
Qed.

(** Products with two monomials with the same permutation differ by a scaling of the columns. *)
Lemma mul_scaled G Q Q' : shape K N G -> redm p G -> mono_ok p Q -> mono_ok p Q' -> m_perm Q = m_perm Q' ->
  exists M M' e e', generator_monomial_mul p zeros G Q = Ok M /\ generator_monomial_mul p zeros G Q' = Ok M' /\
    shape K N M /\ redm p M /\ shape K N M' /\ redm p M' /\ (forall d, (d < N)%nat -> e' d * e d == 1) /\
    (forall a d, (a < K)%nat -> (d < N)%nat -> ent M' a d == ent M a d * e d) /\
    (forall a d, (a < K)%nat -> (d < N)%nat -> ent M a d == ent M' a d * e' d).
Proof.
  intros HG HR HQ HQ' EP.
  destruct (generator_monomial_mul_spec p zeros G Q zeros_shape HG HQ HR) as (M & EM & S1 & R1 & V1).
  destruct (generator_monomial_mul_spec p zeros G Q' zeros_shape HG HQ' HR) as (M' & EM' & S1' & R1' & V1').
  destruct (choice N (fun d x => snd x * fst x == 1 /\ forall a, (a < K)%nat -> ent M' a d == ent M a d * fst x /\ ent M a d == ent M' a d * snd x)) as (f & Hf).
  - intros d Hd. destruct (perm_surj p Q d HQ Hd) as (s & Hs & <-).
    destruct (cong_inv _ (fq_unit_nz _ (mono_coef p Q s HQ Hs))) as (c & _ & Hc).
    destruct (cong_inv _ (fq_unit_nz _ (mono_coef p Q' s HQ' Hs))) as (c' & _ & Hc').
    set (x := nthZ (m_coef Q) s) in *. set (x' := nthZ (m_coef Q') s) in *.
    exists (x' * c, x * c'). cbn [fst snd]. split.
    { replace (x * c' * (x' * c)) with ((c * x) * (c' * x')) by ring. rewrite Hc, Hc'. reflexivity. }
    intros a Ha. specialize (V1 a s Ha Hs). specialize (V1' a s Ha Hs). rewrite <- EP in V1'. fold x in V1. fold x' in V1'. rewrite V1, V1'. split.
    + replace (x * ent G a s * (x' * c)) with ((c * x) * (x' * ent G a s)) by ring. rewrite Hc, Z.mul_1_l. reflexivity.
    + replace (x' * ent G a s * (x * c')) with ((c' * x') * (x * ent G a s)) by ring. rewrite Hc', Z.mul_1_l. reflexivity.
  - exists M, M', (fun d => fst (f d)), (fun d => snd (f d)). split; auto. split; auto. split; auto. split; auto. split; auto. split; auto.
    split. { intros d Hd. apply (Hf d Hd). } split; intros a d Ha Hd; apply (Hf d Hd); auto.
Qed.

Lemma RREF_record_scaled M M' e e' : shape K N M -> redm p M -> shape K N M' -> redm p M' ->
  (forall a d, (a < K)%nat -> (d < N)%nat -> ent M' a d == ent M a d * e d) ->
  (forall a d, (a < K)%nat -> (d < N)%nat -> ent M a d == ent M' a d * e' d) ->
  fst (generator_RREF_t p M (repeat 0 N)) = fst (generator_RREF_t p M' (repeat 0 N)).
Proof.
  intros S1 R1 S2 R2 E E'. pose proof (wf_K p wf) as HK.
  destruct (C70_reduction p ltac:(lia) M M' S1 R1 S2 R2) as (_ & l & l' & Hl & Hl' & H). apply H.
  apply Hl'. apply (pivots_scale K N (ent M) (ent M') e e' E E'); [apply Hl; reflexivity|auto|intros; lia].
Qed.

(** The reduced forms have the same pivots and the same zeros. *)
Lemma RREF_scaled M M' R R' e e' pv pv' : (forall d, (d < N)%nat -> e' d * e d == 1) ->
  (forall a d, (a < K)%nat -> (d < N)%nat -> ent M' a d == ent M a d * e d) ->
  row_equiv K N (ent M) (ent R) -> row_equiv K N (ent M') (ent R') -> redm p R -> redm p R' ->
  is_rref K N (ent R) pv -> is_rref K N (ent R') pv' ->
  (forall i, (i < K)%nat -> pv i = pv' i) /\ forall i c, (i < K)%nat -> (c < N)%nat -> (ent R i c = 0 <-> ent R' i c = 0).
Proof.
  intros He HM EQ EQ' HR HR' RR RR'. set (D := fun i c => (e' (pv i) * (e c * ent R i c)) mod 127).
  pose proof RR as (P1 & P2 & P3 & P4).
  assert (RD : is_rref K N D pv).
  { split; auto. split; auto. split.
    - intros i j Hi Hj. unfold D. rewrite P3 by auto. destruct (Nat.eqb_spec i j) as [->|].
      + apply cong_eq; [apply fq_mod|unfold fq; lia|]. etransitivity; [apply cong_mod|]. rewrite Z.mul_1_r. apply He. auto.
      + rewrite !Z.mul_0_r. reflexivity.
    - intros i c Hi Hc. unfold D. rewrite P4 by auto. rewrite !Z.mul_0_r. reflexivity. }
  assert (SC : same_code K N D (ent R')).
  { apply (code_chain _ (fun i c => e c * ent R i c)).
    - intros v. split; intros (a & Ha).
      + exists (fun i => a i * e' (pv i)). intros j Hj. rewrite Ha by auto. apply sumn_cong. intros i Hi. unfold D.
        rewrite <- Z.mul_assoc. apply cong_mul; [reflexivity|]. apply cong_mod.
      + exists (fun i => a i * e (pv i)). intros j Hj. rewrite Ha by auto. apply sumn_cong. intros i Hi. unfold D.
        rewrite (cong_mod (e' (pv i) * (e j * ent R i j))).
        replace (a i * e (pv i) * (e' (pv i) * (e j * ent R i j))) with ((e' (pv i) * e (pv i)) * (a i * (e j * ent R i j))) by ring.
        rewrite He by auto. rewrite Z.mul_1_l. reflexivity.
    - apply (code_chain _ (fun i c => e c * ent M i c)).
      + apply (cols_same_code K N (ent R) (ent M) (fun a => a) e); auto. intros v. symmetry. apply row_equiv_same_code. exact EQ.
      + apply (code_chain _ (ent M')); [|apply row_equiv_same_code; exact EQ']. apply cong_code. intros i j Hi Hj. rewrite HM by auto. rewrite Z.mul_comm. reflexivity. }
  destruct (rref_unique K N D (ent R') pv pv' SC RD RR') as (U1 & U2). split; auto.
  intros i c Hi Hc. specialize (U2 i c Hi Hc). split; intros Z.
  - apply cong_eq; [apply HR'; auto|unfold fq; lia|]. rewrite <- U2. unfold D. rewrite Z, !Z.mul_0_r. reflexivity.
  - apply cong_eq; [apply HR; auto|unfold fq; lia|]. rewrite Z in U2. unfold D in U2. rewrite cong_mod in U2.
    assert (NZ : forall d, (d < N)%nat -> ~ e' d == 0 /\ ~ e d == 0).
    { intros d Hd. specialize (He d Hd). split; intros C; rewrite C in He; [rewrite Z.mul_0_l in He|rewrite Z.mul_0_r in He]; apply cong_eq in He; try discriminate He; unfold fq; lia. }
    apply cong_mul0 in U2; [|apply NZ; auto]. apply cong_mul0 in U2; [exact U2|apply NZ; auto].
Qed.

(** *** The loop over the columns *)
Definition extract_record (Q : monomial) (col : nat) : list event :=
  loop (fun i => [Load Q_perm i 0; Branch (nth i (m_perm Q) 0 =? Z.of_nat col)] ++
    (if nth i (m_perm Q) 0 =? Z.of_nat col then [Load Q_coef i 0] else [])) 0 N.
Lemma extract_record_ok Q col : mono_ok p Q -> traces (extract_col_t p Q col) (extract_record Q col) (fun _ => True).
Proof.
  intros HQ. destruct (mono_idx p Q HQ) as (C & I). unfold extract_col_t, extract_record. apply (tr_for (fun _ _ => True)); auto. intros i s Hi _.
  match goal with |- traces _ (?T ++ ?U) _ => apply (tr_eq _ ([Load Q_perm i 0] ++ [Branch (nth i (m_perm Q) 0 =? Z.of_nat col)] ++ U)); [|reflexivity] end.
  eapply tr_bind. { apply tr_load. destruct I. lia. } intros x ->. eapply tr_bind. { apply tr_branch. } intros b ->.
  destruct (nth i (m_perm Q) 0 =? Z.of_nat col); [|apply tr_ret; auto].
  apply (tr_eq _ ([Load Q_coef i 0] ++ [])); [|reflexivity]. eapply tr_bind. { apply tr_load. lia. } intros y _. apply tr_ret. auto.
Qed.

Definition col_record (Q : monomial) (R : mat) (fl : list Z) (col : nat) : list event :=
  extract_record Q col ++ [Load Is_pivot col 0] ++ [Branch (is_np fl col)] ++
  if is_np fl col then minimize_record p R (cnt (is_np fl) col) col
  else [Store Out_perm (cnt (is_pv fl) col) 0] ++ [Store Out_coef (cnt (is_pv fl) col) 0].

Lemma commit_record V Qb G Q M : shape K w V -> act_mem p Qb -> G_ok p G -> mono_ok p Q -> generator_monomial_mul p zeros G Q = Ok M ->
  exists R pv fl, row_equiv K N (ent M) (ent R) /\ shape K N R /\ redm p R /\ is_rref K N (ent R) pv /\ flags_of K N pv fl /\
  traces (commit_t p V Qb G Q) (mul_record p Q ++ fst (generator_RREF_t p M (repeat 0 N)) ++ loop (col_record Q R fl) 0 N) (fun s => shape K w (fst s)).
Proof.
  intros HV (Q1 & Q2) (HG & HR & HFR) HQ EM. pose proof (wf_K p wf) as HK. destruct (mono_idx p Q HQ) as (C & I).
  destruct (generator_monomial_mul_spec p zeros G Q zeros_shape HG HQ HR) as (M1 & EM1 & G1a & G1b & G1c). rewrite EM in EM1. injection EM1 as <-.
  pose proof (perm_list_bij N _ (mo_perm p Q HQ)) as BJ.
  destruct (generator_RREF_spec p M G1a G1b ltac:(lia)) as ([[rt R] fl] & ER & Gd1 & Gd2 & Gd3 & Gd4).
  assert (FR1 : full_rank K N (ent M)).
  { intros a Ha. apply HFR. intros j Hj.
    assert (E : nthZ (m_coef Q) j * sumn K (fun i => a i * ent G i j) == 0).
    { rewrite <- (Ha (pf (m_perm Q) j)) by (apply BJ; auto). rewrite <- sumn_scal. apply sumn_cong.
      intros i Hi. rewrite G1c by auto. rewrite !Z.mul_assoc, (Z.mul_comm (a i)). reflexivity. }
    apply cong_mul0 in E; auto. apply fq_unit_nz. eapply mono_coef; eauto. }
  destruct Gd4 as [(-> & pv & RR & FL)|(_ & X)]; [|contradiction].
  exists R, pv, fl. split; auto. split; auto. split; auto. split; auto. split; auto.
  pose proof (flags_cnt_np K N (ent R) pv fl RR FL) as Enp. destruct (flags_cnt_pv K N (ent R) pv fl RR FL) as [Epv _]. pose proof FL as (Lfl & _).
  unfold commit_t. eapply tr_bind with (P := fun x => x = M).
  { destruct (mul_record_ok p zeros G Q zeros_shape HG C I) as (T & a & Ea & _). split; auto. exists a. split; auto. rewrite mul_erase, EM in Ea. congruence. }
  intros x ->. eapply tr_bind with (P := fun x => x = (1, R, fl)). { split; auto. exists (1, R, fl). split; auto. rewrite RREF_erase. auto. }
  intros x ->. apply (tr_eq _ (loop (col_record Q R fl) 0 N ++ [])); [|apply app_nil_r].
  eapply tr_bind with (P := fun s => shape K w (fst (fst (fst s)))); [|intros [[[V1 Qb1] pi] npi] H; apply tr_ret; auto].
  eapply tr_mono. { apply (tr_for (fun n s => let '(V', Qb', pi, npi) := s in shape K w V' /\ act_mem p Qb' /\
      pi = Z.of_nat (cnt (is_pv fl) n) /\ npi = Z.of_nat (K + cnt (is_np fl) n))).
    2:{ split; auto. split. { split; auto. } rewrite !cnt_0. split; auto. rewrite pos_t_id by (auto; lia). lia. }
    intros n [[[V1 Qb1] pi] npi] Hn (I1 & (I2a & I2b) & -> & ->). unfold col_record.
    eapply tr_bind. { apply extract_record_ok. auto. } intros [ri val] _.
    eapply tr_bind. { apply tr_load. lia. } intros f ->. eapply tr_bind. { apply tr_branch. } intros b ->. fold (is_np fl n).
    pose proof (cnt_le (is_np fl) n) as Cn. pose proof (cnt_le (is_pv fl) n) as Cp. pose proof (cnt_mono (is_np fl) n N ltac:(lia)) as Mn.
    destruct (is_np fl n) eqn:Enp1.
    - assert (Epv1 : is_pv fl n = false). { rewrite is_np_pv in Enp1. apply negb_true_iff; auto. }
      replace (Z.to_nat (pos_t p (Z.of_nat (K + cnt (is_np fl) n) - Z.of_nat K))) with (cnt (is_np fl) n).
      2:{ rewrite pos_t_id by (auto; lia). lia. }
      pose proof (cnt_lt (is_np fl) n N ltac:(lia) Enp1) as Ln.
      match goal with |- traces _ ?T _ => apply (tr_eq _ (T ++ [])); [|apply app_nil_r] end.
      eapply tr_bind. { apply (minimize_record_ok p V1 (cnt (is_np fl) n) R n N w); auto; lia. }
      intros V2 H2. apply tr_ret. split; auto. split. { split; auto. } rewrite !cnt_S, Enp1, Epv1. split; [lia|]. rewrite pos_t_id by (auto; lia). lia.
    - assert (Epv1 : is_pv fl n = true). { rewrite is_np_pv in Enp1. apply negb_false_iff; auto. }
      pose proof (cnt_lt (is_pv fl) n N ltac:(lia) Epv1) as Lp. rewrite Nat2Z.id.
      match goal with |- traces _ (?A ++ ?B) _ => apply (tr_eq _ (A ++ B ++ [])); [|reflexivity] end.
      eapply tr_bind. { apply tr_store. lia. } intros pm ->. eapply tr_bind. { apply tr_store. lia. } intros cf ->.
      apply tr_ret. split; auto. split. { split; cbn [a_perm a_coef]; rewrite upd_length; auto. } rewrite !cnt_S, Enp1, Epv1.
      split; [|lia]. rewrite pos_t_id by (auto; lia). lia. }
  intros [[[V1 Qb1] pi] npi] (H & _). exact H.
Qed.

Lemma mul_record_split Q Q' t t' : mono_ok p Q -> mono_ok p Q' -> mul_record p Q ++ t = mul_record p Q' ++ t' -> m_perm Q = m_perm Q' /\ t = t'.
Proof.
  intros HQ HQ' E. pose proof (wf_K p wf) as HK. destruct (mono_idx p Q HQ) as (C & I). destruct (mono_idx p Q' HQ') as (C' & I'). unfold mul_record in E.
  apply loop_split in E.
  - destruct E as (E & H). split; auto. rewrite (idx_eq p N) by auto. intros i Hi. specialize (H i ltac:(lia)).
    rewrite loop_inj in H by (intros j Hj; apply codes_len; reflexivity). specialize (H 0%nat ltac:(lia)). injection H as H. exact H.
  - intros i Hi. apply codes_len. unfold loop. rewrite !app_length. f_equal. generalize (seq 0 K). intros l.
    induction l as [|x l IH]; [reflexivity|]. cbn [flat_map]. rewrite !app_length, IH. reflexivity.
Qed.

Lemma minimize_same R R' dst col : (forall i, (i < K)%nat -> (ent R i col = 0 <-> ent R' i col = 0)) -> minimize_record p R dst col = minimize_record p R' dst col.
Proof.
  intros H. unfold minimize_record. f_equal. apply loop_ext. intros i Hi.
  assert (Z : forall j, (j < K)%nat -> (ent R j col =? 0) = (ent R' j col =? 0)).
  { intros j Hj. specialize (H j Hj). destruct (Z.eqb_spec (ent R j col) 0), (Z.eqb_spec (ent R' j col) 0); tauto. }
  assert (B : nonzero_before R col i = nonzero_before R' col i).
  { unfold nonzero_before. assert (S : forall j, In j (seq 0 i) -> (j < K)%nat) by (intros j Hj; apply in_seq in Hj; lia).
    induction (seq 0 i) as [|j l IH]; cbn [existsb]; auto. rewrite (Z j) by (apply S; left; auto). f_equal. apply IH. intros k Hk. apply S. right. auto. }
  unfold minimize_round. rewrite B, (Z i) by lia. reflexivity.
Qed.

Lemma commit_split V V' Qb Qb' G Q Q' t t' : shape K w V -> shape K w V' -> act_mem p Qb -> act_mem p Qb' -> G_ok p G -> mono_ok p Q -> mono_ok p Q' ->
  (fst (commit_t p V Qb G Q) ++ t = fst (commit_t p V' Qb' G Q') ++ t' <-> m_perm Q = m_perm Q' /\ t = t').
Proof.
  intros HV HV' HB HB' HG HQ HQ'. pose proof HG as (HG1 & HG2 & HG3).
  assert (SAME : m_perm Q = m_perm Q' -> fst (commit_t p V Qb G Q) = fst (commit_t p V' Qb' G Q')).
  { intros EP. destruct (mul_scaled G Q Q' HG1 HG2 HQ HQ' EP) as (M & M' & e & e' & EM & EM' & S1 & R1 & S1' & R1' & He & H1 & H2).
    destruct (commit_record V Qb G Q M HV HB HG HQ EM) as (R & pv & fl & A1 & A2 & A3 & A4 & A5 & (A6 & _)).
    destruct (commit_record V' Qb' G Q' M' HV' HB' HG HQ' EM') as (R' & pv' & fl' & B1 & B2 & B3 & B4 & B5 & (B6 & _)).
    destruct (RREF_scaled M M' R R' e e' pv pv' He H1 A1 B1 A3 B3 A4 B4) as (U1 & U2).
    pose proof (flags_det p pv pv' fl fl' U1 A5 B5) as <-.
    rewrite A6, B6, (RREF_record_scaled M M' e e') by auto. unfold mul_record. rewrite EP. f_equal. f_equal. apply loop_ext. intros c Hc.
    unfold col_record. rewrite (minimize_same R R') by (intros i Hi; apply U2; auto; lia). unfold extract_record. rewrite EP. reflexivity. }
  split.
  - intros E. assert (EP : m_perm Q = m_perm Q').
    { destruct (generator_monomial_mul_spec p zeros G Q zeros_shape HG1 HQ HG2) as (M & EM & _).
      destruct (generator_monomial_mul_spec p zeros G Q' zeros_shape HG1 HQ' HG2) as (M' & EM' & _).
      destruct (commit_record V Qb G Q M HV HB HG HQ EM) as (R & pv & fl & _ & _ & _ & _ & _ & (A6 & _)).
      destruct (commit_record V' Qb' G Q' M' HV' HB' HG HQ' EM') as (R' & pv' & fl' & _ & _ & _ & _ & _ & (B6 & _)).
      rewrite A6, B6, <- !app_assoc in E. apply mul_record_split in E; auto. apply E. }
    split; auto. rewrite (SAME EP) in E. apply app_inv_head in E. auto.
  - intros (EP & ->). rewrite SAME; auto.
Qed.

Lemma commit_ok V Qb G Q : shape K w V -> act_mem p Qb -> G_ok p G -> mono_ok p Q -> exists V1 a, snd (commit_t p V Qb G Q) = Ok (V1, a) /\ shape K w V1.
Proof.
  intros HV HB HG HQ. pose proof HG as (HG1 & HG2 & HG3).
  destruct (generator_monomial_mul_spec p zeros G Q zeros_shape HG1 HQ HG2) as (M & EM & _).
  destruct (commit_record V Qb G Q M HV HB HG HQ EM) as (R & pv & fl & _ & _ & _ & _ & _ & (_ & [V1 a] & E & H)). eauto.
Qed.
End C.

(** Reducing the product with a private monomial: its coefficients leave no trace in the record. *)
Theorem C70_coefficients : forall p, wf_params p -> forall G Q Q', shape (pK p) (pN p) G -> reduced (pK p) (pN p) (ent G) ->
  good_mono p Q -> good_mono p Q' -> same_permutation Q Q' ->
  exists M M', generator_monomial_mul p (repeat (repeat 0 (pN p)) (pK p)) G Q = Ok M /\
    generator_monomial_mul p (repeat (repeat 0 (pN p)) (pK p)) G Q' = Ok M' /\
    fst (generator_RREF_t p M (repeat 0 (pN p))) = fst (generator_RREF_t p M' (repeat 0 (pN p))).
Proof.
  intros p wf G Q Q' HG HR HQ HQ' EP. rewrite good_mono_ok in HQ, HQ'.
  destruct (mul_scaled p G Q Q' HG HR HQ HQ' EP) as (M & M' & e & e' & EM & EM' & S1 & R1 & S1' & R1' & He & H1 & H2).
  exists M, M'. split; auto. split; auto. apply (RREF_record_scaled p wf M M' e e'); auto.
Qed.

(** The computation of a commitment up to the sort tells the permutation of the ephemeral monomial, and nothing about its
    coefficients and about the memory it writes to. *)
Theorem C70_commitment : forall p, wf_params p -> forall V V' Qb Qb' G Q Q',
  shape (pK p) (pN p - pK p) V -> shape (pK p) (pN p - pK p) V' -> act_array p Qb -> act_array p Qb' ->
  good_matrix p G -> good_mono p Q -> good_mono p Q' ->
  (fst (commit_t p V Qb G Q) = fst (commit_t p V' Qb' G Q') <-> same_permutation Q Q').
Proof.
  intros p wf V V' Qb Qb' G Q Q' HV HV' HB HB' HG HQ HQ'. rewrite good_mono_ok in HQ, HQ'.
  pose proof (commit_split p wf V V' Qb Qb' G Q Q' [] [] HV HV' HB HB' HG HQ HQ') as H. rewrite !app_nil_r in H. unfold same_permutation. tauto.
Qed.

(** All of prepare_digest_input tells in addition what the sort of the normalised columns tells. *)
Theorem C70_prepare : forall p, wf_params p -> forall V V' Qb Qb' G Q Q',
  shape (pK p) (pN p - pK p) V -> shape (pK p) (pN p - pK p) V' -> act_array p Qb -> act_array p Qb' ->
  good_matrix p G -> good_mono p Q -> good_mono p Q' ->
  snd (prepare_digest_input_t p V Qb G Q) = prepare_digest_input p V Qb G Q /\
  exists W W' a a', snd (commit_t p V Qb G Q) = Ok (W, a) /\ snd (commit_t p V' Qb' G Q') = Ok (W', a') /\
    prepare_digest_input p V Qb G Q = (V2 <- lex_sort_cols p W ;; Ok (V2, a)) /\
    (fst (prepare_digest_input_t p V Qb G Q) = fst (prepare_digest_input_t p V' Qb' G Q') <->
     same_permutation Q Q' /\ fst (lex_sort_cols_t p W) = fst (lex_sort_cols_t p W')).
Proof.
  intros p wf V V' Qb Qb' G Q Q' HV HV' HB HB' HG HQ HQ'. rewrite good_mono_ok in HQ, HQ'. split. { apply prepare_erase. }
  destruct (commit_ok p wf V Qb G Q HV HB HG HQ) as (W & a & E & _). destruct (commit_ok p wf V' Qb' G Q' HV' HB' HG HQ') as (W' & a' & E' & _).
  exists W, W', a, a'. split; auto. split; auto. split.
  { rewrite <- prepare_erase. unfold prepare_digest_input_t. rewrite snd_tbind, E. cbn [bind]. rewrite snd_tbind. apply bind_eq'; [apply quicksort_erase|]. reflexivity. }
  unfold prepare_digest_input_t. rewrite !fst_tbind, E, E'. rewrite !fst_tbind.
  rewrite (commit_split p wf V V' Qb Qb' G Q Q' _ _ HV HV' HB HB' HG HQ HQ'). unfold same_permutation.
  assert (R : forall A B (m : tm A) (k : A -> B), (match snd m with Ok x => fst (ret (k x)) | _ => [] end) = []) by (intros A B m k; destruct (snd m); reflexivity).
  rewrite !(R _ _ _ (fun V2 => (V2, _))), !app_nil_r. reflexivity.
Qed.

(** *** Neither part is constant time *)
Definition table (p : params) (f : nat -> nat -> Z) : mat := map (fun i => map (f i) (seq 0 (pN p))) (seq 0 (pK p)).
Lemma table_shape p f : shape (pK p) (pN p) (table p f).
Proof.
  split. { unfold table. rewrite map_length, seq_length. auto. } apply Forall_forall. intros x Hx. apply in_map_iff in Hx. destruct Hx as (i & <- & _).
  rewrite map_length, seq_length. auto.
Qed.
Lemma table_ent p f i c : (i < pK p)%nat -> (c < pN p)%nat -> ent (table p f) i c = f i c.
Proof.
  intros Hi Hc. unfold ent, table. rewrite (nth_indep _ [] (map (f O) (seq 0 (pN p)))) by (rewrite map_length, seq_length; auto).
  rewrite (map_nth (fun i => map (f i) (seq 0 (pN p))) (seq 0 (pK p)) O i), seq_nth by auto. cbn [Nat.add].
  rewrite (nth_indep _ 0 (f i O)) by (rewrite map_length, seq_length; auto). rewrite (map_nth (f i) (seq 0 (pN p)) O c), seq_nth by auto. reflexivity.
Qed.
(** A matrix with an identity in the columns from [s] on *)
Lemma table_good p s f : (pK p + s <= pN p)%nat -> (forall i c, fq (f i c)) ->
  (forall i j, (i < pK p)%nat -> (j < pK p)%nat -> f i (j + s)%nat = if Nat.eqb i j then 1 else 0) -> good_matrix p (table p f).
Proof.
  intros HN HF HI. split; [apply table_shape|]. split. { intros i j Hi Hj. rewrite table_ent by auto. apply HF. }
  intros a Ha j Hj. specialize (Ha (j + s)%nat ltac:(lia)). rewrite <- Ha. rewrite (sumn_ext (pK p) _ (fun i => if Nat.eqb i j then a i else 0)).
  - rewrite (sumn_delta (pK p) j a) by auto. reflexivity.
  - intros i Hi. rewrite table_ent by (auto; lia). rewrite HI by auto. destruct (Nat.eqb i j); ring.
Qed.

Definition shifted (p : params) (s : nat) : mat := table p (fun i c => if Nat.eqb c (i + s) then 1 else 0).
Lemma shifted_good p s : (pK p + s <= pN p)%nat -> good_matrix p (shifted p s).
Proof.
  intros H. apply (table_good p s); auto.
  - intros i c. destruct (Nat.eqb c (i + s)); unfold fq; lia.
  - intros i j Hi Hj. destruct (Nat.eqb_spec (j + s) (i + s)), (Nat.eqb_spec i j); auto; lia.
Qed.

(** The reduction: two generator matrices of full rank with different records, in every parameter set. *)
Theorem C70_reduction_refuted : forall p, wf_params p -> exists G G', good_matrix p G /\ good_matrix p G' /\
  fst (generator_RREF_t p G (repeat 0 (pN p))) <> fst (generator_RREF_t p G' (repeat 0 (pN p))).
Proof.
  intros p wf. pose proof (wf_K p wf) as HK. exists (shifted p 0), (shifted p 1).
  assert (G0 : good_matrix p (shifted p 0)) by (apply shifted_good; lia). assert (G1 : good_matrix p (shifted p 1)) by (apply shifted_good; lia).
  split; auto. split; auto. destruct G0 as (S0 & R0 & _). destruct G1 as (S1 & R1 & _).
  destruct (C70_reduction p ltac:(lia) _ _ S0 R0 S1 R1) as (_ & l & l' & Hl & Hl' & H). intros E. apply H in E. subst l'.
  pose proof (proj2 (Hl l) eq_refl) as P0. pose proof (proj2 (Hl' l) eq_refl) as P1. clear H Hl Hl'.
  assert (D : forall M r c, dependent M 0 (fun j => j) (fun _ => O) r c <-> M r c == 0).
  { intros M r c. split. { intros (x & Hx). apply (Hx c). auto. } intros Z. exists (fun _ => 0). intros d [->|(k & Hk & _)]; [exact Z|lia]. }
  assert (E1 : forall c, (c < pK p)%nat -> ~ dependent (ent (shifted p 0)) 0 (fun j => j) (fun _ => O) c c).
  { intros c Hc. rewrite D. unfold shifted. rewrite table_ent by lia. rewrite Nat.add_0_r, Nat.eqb_refl. intros C. apply cong_eq in C; try discriminate C; unfold fq; lia. }
  assert (E0 : forall r, (r < pK p)%nat -> dependent (ent (shifted p 1)) 0 (fun j => j) (fun _ => O) r 0).
  { intros r Hr. rewrite D. unfold shifted. rewrite table_ent by lia. destruct (Nat.eqb_spec 0 (r + 1)); [lia|reflexivity]. }
  unfold pivots in P0, P1. inversion P0 as [rho0 cols0 HH|i0 rho0 cols0 Hi0 HD0|i0 rho0 cols0 r c m Hr Hc HN HB HP]; subst.
  - lia.
  - apply (E1 0%nat ltac:(lia)). apply HD0; lia.
  - assert (c = 0)%nat. { destruct c; auto. exfalso. apply (E1 0%nat ltac:(lia)). apply HB; lia. } subst c.
    inversion P1; subst. match goal with H : ~ dependent (ent (shifted p 1)) _ _ _ _ _ |- _ => apply H end. apply E0. lia.
Qed.

(** The sort: two ephemeral monomials with the same permutation whose commitments have different records. The normalised
    columns are compared in order, and the coefficients decide which is smaller. *)
Definition sort_G : mat := table toy_params (fun i c =>
  if (c <? pK toy_params)%nat then (if Nat.eqb c i then 1 else 0) else if Nat.eqb c (pN toy_params - 1) then (if Nat.eqb i 0 then 1 else 2) else 1).
Definition sort_Q (x : Z) : monomial :=
  {| m_coef := x :: repeat 1 (pN toy_params - 1); m_perm := map Z.of_nat (seq 0 (pN toy_params)) |}.
Lemma sort_G_good : good_matrix toy_params sort_G.
Proof.
  apply (table_good toy_params 0).
  - apply Nat.leb_le. vm_compute. reflexivity.
  - intros i c. destruct (c <? pK toy_params)%nat; [destruct (Nat.eqb c i)|destruct (Nat.eqb c (pN toy_params - 1)); [destruct (Nat.eqb i 0)|]]; unfold fq; lia.
  - intros i j Hi Hj. rewrite Nat.add_0_r. destruct (Nat.ltb_spec j (pK toy_params)); [|lia]. destruct (Nat.eqb_spec j i), (Nat.eqb_spec i j); auto; lia.
Qed.
Lemma sort_Q_good x : fq_unit x -> good_mono toy_params (sort_Q x).
Proof.
  intros H. split. { apply Permutation_refl. } split; [reflexivity|]. constructor; auto. apply Forall_forall. intros y Hy. apply repeat_spec in Hy. subst y. unfold fq_unit. lia.
Qed.
Lemma event_eqb_refl a : event_eqb a a = true.
Proof. destruct a as [x i j|x i j|b]; cbn [event_eqb]; [destruct (array_dec x x); [|congruence]; rewrite !Nat.eqb_refl; auto..|apply Bool.eqb_reflx]. Qed.
Lemma record_eqb_refl s : record_eqb s s = true.
Proof. induction s; cbn [record_eqb]; auto. rewrite event_eqb_refl. auto. Qed.

Theorem C70_prepare_refuted : exists p V Qb G Q Q', wf_params p /\ shape (pK p) (pN p - pK p) V /\ act_array p Qb /\ good_matrix p G /\
  good_mono p Q /\ good_mono p Q' /\ same_permutation Q Q' /\
  fst (prepare_digest_input_t p V Qb G Q) <> fst (prepare_digest_input_t p V Qb G Q').
Proof.
  exists toy_params, ex_V, {| a_perm := repeat 0 (pK toy_params); a_coef := repeat 0 (pK toy_params) |}, sort_G, (sort_Q 1), (sort_Q 64).
  split; [exact toy_wf|]. split. { split; [reflexivity|]. apply Forall_forall. intros y Hy. apply repeat_spec in Hy. subst y. reflexivity. }
  split. { split; reflexivity. } split; [exact sort_G_good|]. split. { apply sort_Q_good. unfold fq_unit. lia. } split. { apply sort_Q_good. unfold fq_unit. lia. }
  split; [reflexivity|]. intros E.
  match type of E with ?a = ?b => assert (F : record_eqb a b = false) by (vm_compute; reflexivity) end. rewrite E, record_eqb_refl in F. discriminate F.
Qed.

(** A matrix whose first column is zero and whose second row agrees with a multiple of the first in the first four columns:
    its pivots, and the records of its reduction, of that of a matrix with scaled columns and of that of another one. *)
Definition piv_rows : list (list Z) := [[0; 2; 3; 5; 1]; [0; 4; 6; 10; 9]; [0; 1; 9; 9; 9]].
Definition piv_G : mat := table toy_params (fun i c => nth c (nth i piv_rows []) 0).
Lemma piv_ent i c : (i < 3)%nat -> (c < 132)%nat -> ent piv_G i c = nth c (nth i piv_rows []) 0.
Proof. intros Hi Hc. unfold piv_G. apply table_ent; auto. Qed.
Example C70_example_pivots : pivots (pK toy_params) (pN toy_params) (ent piv_G) [(0, 1); (2, 2); (2, 4)]%nat.
Proof.
  change (pK toy_params) with 3%nat. change (pN toy_params) with 132%nat.
  assert (D : forall i rho cols r c, (i < 3)%nat -> (r < 3)%nat -> (c < 132)%nat -> (forall j, (j < 3)%nat -> (rho j < 3)%nat) -> (forall k, (k < i)%nat -> (cols k < 132)%nat) ->
    (dependent (ent piv_G) i rho cols r c <-> dependent (fun i c => nth c (nth i piv_rows []) 0) i rho cols r c)).
  { intros i rho cols r c Hi Hr Hc HR HC. split; intros (x & Hx); exists x; intros d Hd; specialize (Hx d Hd);
      (assert (Ld : (d < 132)%nat) by (destruct Hd as [->|(k & Hk & ->)]; auto));
      rewrite piv_ent in * by auto; [rewrite Hx|rewrite Hx]; (rewrite (sumn_ext i _ (fun k => x k * nth d (nth (rho k) piv_rows []) 0)); [reflexivity|intros k Hk; rewrite piv_ent by (auto; apply HR; lia); reflexivity]) ||
      (symmetry; rewrite (sumn_ext i _ (fun k => x k * nth d (nth (rho k) piv_rows []) 0)); [reflexivity|intros k Hk; rewrite piv_ent by (auto; apply HR; lia); reflexivity]). }
  assert (R1 : forall j, (j < 3)%nat -> (exchange (fun j => j) 0 0 j < 3)%nat) by (apply exchange_lt; lia).
  assert (R2 : forall j, (j < 3)%nat -> (exchange (exchange (fun j => j) 0 0) 1 2 j < 3)%nat) by (apply exchange_lt; auto; lia).
  apply pivots_next; try lia.
  { rewrite D by (auto; lia). intros (x & Hx). specialize (Hx 1%nat (or_introl eq_refl)). destruct Hx as (k & Hk). cbn in Hk. lia. }
  { intros r c Hr Hc L. rewrite D by (auto; lia). exists (fun _ => 0). intros d [->|(k & Hk & _)]; [|lia].
    assert (c = 0 /\ (r = 0 \/ r = 1 \/ r = 2))%nat as (-> & [->|[->| ->]]) by lia; apply cong_iff; reflexivity. }
  assert (C1 : forall k, (k < 1)%nat -> (extend (fun _ => O) 0 1 k < 132)%nat) by (apply extend_lt; intros; lia).
  apply pivots_next; try lia.
  { rewrite D by (auto; lia). intros (x & Hx). pose proof (Hx 2%nat (or_introl eq_refl)) as H2. specialize (Hx 1%nat (or_intror (ex_intro _ O (conj Nat.lt_0_1 eq_refl)))).
    destruct Hx as (k & Hk). destruct H2 as (k2 & Hk2). cbn in Hk, Hk2. lia. }
  { intros r c Hr Hc L. rewrite D by (auto; lia). exists (fun _ => if Nat.eqb r 1 then 2 else 64). intros d Hd.
    assert (Ld : d = c \/ d = 1%nat). { destruct Hd as [->|(k & Hk & ->)]; auto. right. replace k with O by lia. reflexivity. }
    assert (r = 1 /\ (c = 0 \/ c = 1 \/ c = 2) \/ r = 2 /\ (c = 0 \/ c = 1))%nat as [(-> & [->|[->| ->]])|(-> & [->| ->])] by lia;
      destruct Ld as [->| ->]; apply cong_iff; reflexivity. }
  assert (C2 : forall k, (k < 2)%nat -> (extend (extend (fun _ => O) 0 1) 1 2 k < 132)%nat) by (apply extend_lt; auto; lia).
  apply pivots_next; try lia.
  { rewrite D by (auto; lia). intros (x & Hx). pose proof (Hx 4%nat (or_introl eq_refl)) as H4.
    pose proof (Hx 1%nat (or_intror (ex_intro _ O (conj Nat.lt_0_2 eq_refl)))) as H1.
    pose proof (Hx 2%nat (or_intror (ex_intro _ 1%nat (conj Nat.lt_1_2 eq_refl)))) as H2. destruct H1 as (k1 & Hk1). destruct H2 as (k2 & Hk2). destruct H4 as (k4 & Hk4). cbn in Hk1, Hk2, Hk4. lia. }
  { intros r c Hr Hc L. rewrite D by (auto; lia). exists (fun k => if Nat.eqb k 0 then 2 else 0). intros d Hd.
    assert (Ld : (d < 4)%nat). { destruct Hd as [->|(k & Hk & ->)]; [lia|]. assert (k = 0 \/ k = 1)%nat as [->| ->] by lia; cbn; lia. }
    assert (r = 2)%nat by lia. subst r. assert (d = 0 \/ d = 1 \/ d = 2 \/ d = 3)%nat as [->|[->|[->| ->]]] by lia; apply cong_iff; reflexivity. }
  apply pivots_all.
Qed.
Example C70_example :
  let run G := fst (generator_RREF_t toy_params G (repeat 0 (pN toy_params))) in
  record_eqb (run piv_G) (run (table toy_params (fun i c => ent piv_G i c * (Z.of_nat c + 1) mod 127))) = true /\
  record_eqb (run piv_G) (run (shifted toy_params 1)) = false.
Proof. split; vm_compute; reflexivity. Qed.

Print Assumptions C70_reduction.
Print Assumptions C70_coefficients.
Print Assumptions C70_commitment.
Print Assumptions C70_prepare.
Print Assumptions C70_reduction_refuted.
Print Assumptions C70_prepare_refuted.
