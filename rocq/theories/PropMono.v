(** Property C21: monomial matrices form a group acting on generator matrices. All results are equal
    as arrays, and none depends on the previous content of the destination. *)
From Coq Require Import Permutation.
From Verif Require Import Base BaseLemmas Params ParamsProofs Fq Prim Samplers Monomial Codes Spec
  FqProofs Sums LinAlg MonoProofs CanonProofs.

Definition good_mono (p : params) (Q : monomial) : Prop := good_monomial (pN p) (m_perm Q) (m_coef Q).
Definition mono_array (p : params) (Q : monomial) : Prop := length (m_coef Q) = pN p /\ length (m_perm Q) = pN p.
Definition matrix (p : params) (G : mat) : Prop := shape (pK p) (pN p) G.

Section G.
Variable p : params.
Hypothesis wf : wf_params p.
Notation N := (pN p).
Notation K := (pK p).

Lemma good_mono_ok Q : good_mono p Q <-> mono_ok p Q.
Proof. split. { intros (A & B & C). constructor; auto. } { intros [A B C]. repeat split; auto. } Qed.

Lemma pf_nth l i : 0 <= nthZ l i -> nthZ l i = Z.of_nat (pf l i).
Proof. unfold pf. lia. Qed.

Lemma mono_ext A B : mono_ok p A -> mono_ok p B ->
  (forall i, (i < N)%nat -> pf (m_perm A) i = pf (m_perm B) i) ->
  (forall i, (i < N)%nat -> nthZ (m_coef A) i = nthZ (m_coef B) i) -> A = B.
Proof.
  intros [A1 A2 A3] [B1 B2 B3] HP HC. destruct A as [ac ap], B as [bc bp]. cbn in *. f_equal.
  - apply (list_ext 0); [congruence|]. intros i Hi. apply HC. lia.
  - pose proof (perm_list_len _ _ A1). pose proof (perm_list_len _ _ B1).
    apply (list_ext 0); [congruence|]. intros i Hi.
    change (nthZ ap i = nthZ bp i). rewrite (pf_nth ap), (pf_nth bp). rewrite HP by lia. auto.
    apply (perm_list_range N); auto; lia. apply (perm_list_range N); auto; lia.
Qed.

Lemma red_mul_assoc a b c : fq a -> fq b -> fq c -> fq_red (fq_red (a * b) * c) = fq_red (a * fq_red (b * c)).
Proof.
  intros Ha Hb Hc. apply cong_eq; try apply fq_red_range.
  rewrite fq_red_mul by (auto; apply fq_red_range). rewrite fq_red_mul by auto.
  rewrite fq_red_mul by (auto; apply fq_red_range). rewrite (fq_red_mul b c) by auto.
  rewrite Z.mul_assoc. reflexivity.
Qed.

Lemma fq_red_1_l a : fq a -> fq_red (1 * a) = a.
Proof. intros H. apply cong_eq; auto. apply fq_red_range. rewrite fq_red_mul by (auto using fq_1). rewrite Z.mul_1_l. reflexivity. Qed.
Lemma fq_red_1_r a : fq a -> fq_red (a * 1) = a.
Proof. intros H. rewrite Z.mul_comm. apply fq_red_1_l. auto. Qed.

Lemma mo_c Q i : mono_ok p Q -> (i < N)%nat -> fq (nthZ (m_coef Q) i).
Proof. intros H Hi. apply fq_unit_fq. apply (mono_coef p); auto. Qed.
Lemma mo_p Q i : mono_ok p Q -> (i < N)%nat -> (pf (m_perm Q) i < N)%nat.
Proof. intros H Hi. destruct (perm_list_bij N (m_perm Q) (mo_perm p Q H)) as [B _]. auto. Qed.

Lemma mul_assoc r1 r2 r3 r4 A B C : mono_mem p r1 -> mono_mem p r2 -> mono_mem p r3 -> mono_mem p r4 ->
  mono_ok p A -> mono_ok p B -> mono_ok p C ->
  exists AB BC ABC, monomial_mat_mul p r1 A B = Ok AB /\ monomial_mat_mul p r2 B C = Ok BC /\
    monomial_mat_mul p r3 AB C = Ok ABC /\ monomial_mat_mul p r4 A BC = Ok ABC /\ mono_ok p ABC.
Proof.
  intros R1 R2 R3 R4 HA HB HC.
  destruct (monomial_mat_mul_spec p r1 A B R1 HA HB) as (AB & E1 & O1 & P1 & C1).
  destruct (monomial_mat_mul_spec p r2 B C R2 HB HC) as (BC & E2 & O2 & P2 & C2).
  destruct (monomial_mat_mul_spec p r3 AB C R3 O1 HC) as (D & E3 & O3 & P3 & C3).
  destruct (monomial_mat_mul_spec p r4 A BC R4 HA O2) as (D' & E4 & O4 & P4 & C4).
  exists AB, BC, D. rewrite E4. repeat (split; auto). f_equal. apply mono_ext; auto.
  - intros i Hi. rewrite P4, P3, P1, P2; auto. apply mo_p; auto.
  - intros i Hi. rewrite C4, C3, C1, P1, C2 by (auto; apply mo_p; auto).
    symmetry. apply red_mul_assoc; repeat apply mo_c; auto; repeat apply mo_p; auto.
Qed.

Lemma mul_id r r1 r2 A : mono_mem p r -> mono_mem p r1 -> mono_mem p r2 -> mono_ok p A ->
  exists I, monomial_mat_id p r = Ok I /\ mono_ok p I /\ monomial_mat_mul p r1 I A = Ok A /\ monomial_mat_mul p r2 A I = Ok A.
Proof.
  intros R R1 R2 HA.
  destruct (monomial_mat_id_spec p wf r R) as (I & E & O & P & C).
  assert (P' : forall i, (i < N)%nat -> pf (m_perm I) i = i) by (intros; unfold pf; rewrite P by auto; lia).
  destruct (monomial_mat_mul_spec p r1 I A R1 O HA) as (D & E1 & O1 & P1 & C1).
  destruct (monomial_mat_mul_spec p r2 A I R2 HA O) as (D' & E2 & O2 & P2 & C2).
  exists I. rewrite E1, E2. repeat (split; auto); f_equal; apply mono_ext; auto.
  - intros i Hi. rewrite P1, P'; auto.
  - intros i Hi. rewrite C1, C, P' by auto. apply fq_red_1_l. apply mo_c; auto.
  - intros i Hi. rewrite P2, P'; auto. apply mo_p; auto.
  - intros i Hi. rewrite C2, C by (auto; apply mo_p; auto). apply fq_red_1_r. apply mo_c; auto.
Qed.

Lemma mul_inv r r0 r1 r2 A : mono_mem p r -> mono_mem p r0 -> mono_mem p r1 -> mono_mem p r2 -> mono_ok p A ->
  exists I B, monomial_mat_id p r0 = Ok I /\ monomial_mat_inv p r A = Ok B /\ mono_ok p B /\
    monomial_mat_mul p r1 A B = Ok I /\ monomial_mat_mul p r2 B A = Ok I.
Proof.
  intros R R0 R1 R2 HA.
  destruct (monomial_mat_id_spec p wf r0 R0) as (I & E & O & P & C).
  assert (P' : forall i, (i < N)%nat -> pf (m_perm I) i = i) by (intros; unfold pf; rewrite P by auto; lia).
  destruct (monomial_mat_inv_spec p wf r A R HA) as (B & Eb & Ob & Pb & Cb).
  destruct (monomial_mat_mul_spec p r1 A B R1 HA Ob) as (D & E1 & O1 & P1 & C1).
  destruct (monomial_mat_mul_spec p r2 B A R2 Ob HA) as (D' & E2 & O2 & P2 & C2).
  assert (U : forall i, (i < N)%nat -> fq_red (nthZ (m_coef A) i * fq_inv (nthZ (m_coef A) i)) = 1).
  { intros i Hi. assert (HU := mono_coef p A i HA Hi). apply cong_eq; auto using fq_red_range, fq_1.
    rewrite fq_red_mul; auto using fq_unit_fq, fq_inv_range. rewrite Z.mul_comm. apply fq_unit_inv_l. auto. }
  assert (S : forall c, (c < N)%nat -> exists i, (i < N)%nat /\ pf (m_perm A) i = c).
  { intros c Hc. pose proof (mo_perm p A HA) as PL.
    assert (HIn : In (Z.of_nat c) (m_perm A)).
    { eapply Permutation_in. apply Permutation_sym. apply PL. apply in_map. apply in_seq. lia. }
    apply In_nth with (d := 0) in HIn. destruct HIn as (i & Hi & Ei). rewrite (perm_list_len _ _ PL) in Hi.
    exists i. split; auto. unfold pf, nthZ. rewrite Ei. lia. }
  exists I, B. rewrite E1, E2. repeat (split; auto); f_equal; apply mono_ext; auto.
  - intros i Hi. rewrite P1, Pb, P'; auto.
  - intros i Hi. rewrite C1, Cb, C; auto.
  - intros c Hc. destruct (S c Hc) as (i & Hi & <-). rewrite P2, Pb, P' by auto. auto.
  - intros c Hc. destruct (S c Hc) as (i & Hi & <-). rewrite C2, Cb, Pb, C by auto. rewrite Z.mul_comm. auto.
Qed.

Lemma perm_cols Q c : mono_ok p Q -> (c < N)%nat -> exists s, (s < N)%nat /\ pf (m_perm Q) s = c.
Proof.
  intros HQ Hc. pose proof (mo_perm p Q HQ) as PL.
  assert (HIn : In (Z.of_nat c) (m_perm Q)).
  { eapply Permutation_in. apply Permutation_sym. apply PL. apply in_map. apply in_seq. lia. }
  apply In_nth with (d := 0) in HIn. destruct HIn as (i & Hi & Ei). rewrite (perm_list_len _ _ PL) in Hi.
  exists i. split; auto. unfold pf, nthZ. rewrite Ei. lia.
Qed.

Lemma act_mul r1 r2 r3 r4 G A B : matrix p r1 -> matrix p r2 -> matrix p r3 -> mono_mem p r4 ->
  matrix p G -> reduced K N (ent G) -> mono_ok p A -> mono_ok p B ->
  exists GA AB GAB, generator_monomial_mul p r1 G A = Ok GA /\ monomial_mat_mul p r4 A B = Ok AB /\
    generator_monomial_mul p r2 GA B = Ok GAB /\ generator_monomial_mul p r3 G AB = Ok GAB /\
    matrix p GAB /\ reduced K N (ent GAB).
Proof.
  intros R1 R2 R3 R4 HG HR HA HB.
  destruct (generator_monomial_mul_entries p r1 G A R1 HG HA) as (GA & E1 & S1 & V1).
  destruct (monomial_mat_mul_spec p r4 A B R4 HA HB) as (AB & E2 & O2 & P2 & C2).
  destruct (generator_monomial_mul_entries p r2 GA B R2 S1 HB) as (GAB & E3 & S3 & V3).
  destruct (generator_monomial_mul_entries p r3 G AB R3 HG O2) as (GAB' & E4 & S4 & V4).
  exists GA, AB, GAB. rewrite E4.
  assert (V3' : forall i s, (i < K)%nat -> (s < N)%nat ->
    ent GAB i (pf (m_perm B) (pf (m_perm A) s)) = fq_red (fq_red (ent G i s * nthZ (m_coef A) s) * nthZ (m_coef B) (pf (m_perm A) s))).
  { intros i s Hi Hs. rewrite V3 by (auto; apply mo_p; auto). rewrite V1 by auto. auto. }
  assert (Sj : forall c, (c < N)%nat -> exists s, (s < N)%nat /\ pf (m_perm B) (pf (m_perm A) s) = c).
  { intros c Hc. destruct (perm_cols B c HB Hc) as (t & Ht & <-). destruct (perm_cols A t HA Ht) as (s & Hs & <-). exists s. auto. }
  do 3 (split; [assumption|]). split; [|split; [assumption|]].
  - f_equal. apply (mat_ext GAB' GAB K N); auto. intros i c Hi Hc. destruct (Sj c Hc) as (s & Hs & <-).
    rewrite V3' by auto. rewrite <- P2 by auto. rewrite V4, C2 by auto.
    symmetry. apply red_mul_assoc; auto. apply mo_c; auto. apply mo_c; auto. apply mo_p; auto.
  - intros i c Hi Hc. destruct (Sj c Hc) as (s & Hs & <-). rewrite V3' by auto. apply fq_red_range.
Qed.

Lemma act_inv r r1 r2 G Q : mono_mem p r -> matrix p r1 -> matrix p r2 -> matrix p G -> reduced K N (ent G) -> mono_ok p Q ->
  exists Qi GQ, monomial_mat_inv p r Q = Ok Qi /\ generator_monomial_mul p r1 G Q = Ok GQ /\
    generator_monomial_mul p r2 GQ Qi = Ok G.
Proof.
  intros R R1 R2 HG HR HQ.
  destruct (monomial_mat_inv_spec p wf r Q R HQ) as (B & Eb & Ob & Pb & Cb).
  destruct (generator_monomial_mul_entries p r1 G Q R1 HG HQ) as (GQ & E1 & S1 & V1).
  destruct (generator_monomial_mul_entries p r2 GQ B R2 S1 Ob) as (D & E2 & S2 & V2).
  exists B, GQ. rewrite E2. repeat (split; auto). f_equal. apply (mat_ext D G K N); auto.
  intros i c Hi Hc. rewrite <- (Pb c Hc) at 1. rewrite V2 by (auto; apply mo_p; auto).
  rewrite V1, Cb by auto. rewrite red_mul_assoc; auto using fq_inv_range. 2:{ apply mo_c; auto. }
  assert (HU := mono_coef p Q c HQ Hc).
  replace (fq_red (nthZ (m_coef Q) c * fq_inv (nthZ (m_coef Q) c))) with 1. apply fq_red_1_r. auto.
  symmetry. apply cong_eq; auto using fq_red_range, fq_1.
  rewrite fq_red_mul; auto using fq_unit_fq, fq_inv_range. rewrite Z.mul_comm. apply fq_unit_inv_l. auto.
Qed.
End G.

Theorem C21_associative : forall p, wf_params p -> forall r1 r2 r3 r4 A B C,
  mono_array p r1 -> mono_array p r2 -> mono_array p r3 -> mono_array p r4 ->
  good_mono p A -> good_mono p B -> good_mono p C ->
  exists AB BC ABC, monomial_mat_mul p r1 A B = Ok AB /\ monomial_mat_mul p r2 B C = Ok BC /\
    monomial_mat_mul p r3 AB C = Ok ABC /\ monomial_mat_mul p r4 A BC = Ok ABC /\ good_mono p ABC.
Proof.
  intros p wf r1 r2 r3 r4 A B C R1 R2 R3 R4 HA HB HC. rewrite good_mono_ok in HA, HB, HC.
  destruct (mul_assoc p r1 r2 r3 r4 A B C R1 R2 R3 R4 HA HB HC) as (x & y & z & H1 & H2 & H3 & H4 & H5).
  exists x, y, z. rewrite good_mono_ok. auto.
Qed.

Theorem C21_identity : forall p, wf_params p -> forall r r1 r2 A,
  mono_array p r -> mono_array p r1 -> mono_array p r2 -> good_mono p A ->
  exists I, monomial_mat_id p r = Ok I /\ good_mono p I /\
    monomial_mat_mul p r1 I A = Ok A /\ monomial_mat_mul p r2 A I = Ok A.
Proof.
  intros p wf r r1 r2 A R R1 R2 HA. rewrite good_mono_ok in HA.
  destruct (mul_id p wf r r1 r2 A R R1 R2 HA) as (I & H1 & H2 & H3). exists I. rewrite good_mono_ok. auto.
Qed.

Theorem C21_inverse : forall p, wf_params p -> forall r r0 r1 r2 A,
  mono_array p r -> mono_array p r0 -> mono_array p r1 -> mono_array p r2 -> good_mono p A ->
  exists I B, monomial_mat_id p r0 = Ok I /\ monomial_mat_inv p r A = Ok B /\ good_mono p B /\
    monomial_mat_mul p r1 A B = Ok I /\ monomial_mat_mul p r2 B A = Ok I.
Proof.
  intros p wf r r0 r1 r2 A R R0 R1 R2 HA. rewrite good_mono_ok in HA.
  destruct (mul_inv p wf r r0 r1 r2 A R R0 R1 R2 HA) as (I & B & H1 & H2 & H3 & H4). exists I, B. rewrite good_mono_ok. auto.
Qed.

(** generator_monomial_mul is the product of the matrix and the monomial matrix ... *)
Theorem C21_product : forall p, wf_params p -> forall r G Q,
  matrix p r -> matrix p G -> reduced (pK p) (pN p) (ent G) -> good_mono p Q ->
  exists GQ, generator_monomial_mul p r G Q = Ok GQ /\ matrix p GQ /\ reduced (pK p) (pN p) (ent GQ) /\
    times_monomial (pK p) (pN p) (ent G) (m_perm Q) (m_coef Q) (ent GQ).
Proof.
  intros p wf r G Q R HG HR HQ. rewrite good_mono_ok in HQ.
  destruct (generator_monomial_mul_spec p r G Q R HG HQ HR) as (GQ & H1 & H2 & H3 & H4).
  exists GQ. repeat (split; auto).
Qed.

(** ... it is a right action of the group ... *)
Theorem C21_action : forall p, wf_params p -> forall r1 r2 r3 r4 G A B,
  matrix p r1 -> matrix p r2 -> matrix p r3 -> mono_array p r4 ->
  matrix p G -> reduced (pK p) (pN p) (ent G) -> good_mono p A -> good_mono p B ->
  exists GA AB GAB, generator_monomial_mul p r1 G A = Ok GA /\ monomial_mat_mul p r4 A B = Ok AB /\
    generator_monomial_mul p r2 GA B = Ok GAB /\ generator_monomial_mul p r3 G AB = Ok GAB.
Proof.
  intros p wf r1 r2 r3 r4 G A B R1 R2 R3 R4 HG HR HA HB. rewrite good_mono_ok in HA, HB.
  destruct (act_mul p r1 r2 r3 r4 G A B R1 R2 R3 R4 HG HR HA HB) as (x & y & z & H1 & H2 & H3 & H4 & _).
  exists x, y, z. auto.
Qed.

(** ... and multiplying by the inverse undoes it. *)
Theorem C21_undo : forall p, wf_params p -> forall r r1 r2 G Q,
  mono_array p r -> matrix p r1 -> matrix p r2 -> matrix p G -> reduced (pK p) (pN p) (ent G) -> good_mono p Q ->
  exists Qi GQ, monomial_mat_inv p r Q = Ok Qi /\ generator_monomial_mul p r1 G Q = Ok GQ /\
    generator_monomial_mul p r2 GQ Qi = Ok G.
Proof.
  intros p wf r r1 r2 G Q R R1 R2 HG HR HQ. rewrite good_mono_ok in HQ.
  exact (act_inv p wf r r1 r2 G Q R R1 R2 HG HR HQ).
Qed.

(** A monomial matrix satisfying the hypotheses: rotate by 5 and scale column i by 1 + (3 i mod 126). *)
Definition ex_mono : monomial :=
  {| m_coef := map (fun i => 1 + (3 * Z.of_nat i) mod 126) (seq 0 132);
     m_perm := map (fun i => (Z.of_nat i + 5) mod 132) (seq 0 132) |}.
Example C21_example : good_mono toy_params ex_mono /\
  bind (monomial_mat_inv toy_params {| m_coef := repeat 9 132; m_perm := repeat 9 132 |} ex_mono)
    (fun B => Ok (firstn 6 (m_perm B))) = Ok [127; 128; 129; 130; 131; 0].
Proof.
  split; [|vm_compute; reflexivity]. split; [|split].
  - apply perm_list_intro. reflexivity.
    + intros i Hi. unfold ex_mono, nthZ. cbn [m_perm]. rewrite nth_map_seq by exact Hi. change (pN toy_params) with 132%nat in *. lia.
    + intros i j Hi Hj. unfold ex_mono, nthZ. cbn [m_perm]. rewrite !nth_map_seq by assumption.
      change (pN toy_params) with 132%nat in *. lia.
  - reflexivity.
  - apply Forall_forall. intros x Hx. apply in_map_iff in Hx. destruct Hx as (i & <- & _). unfold fq_unit. lia.
Qed.

Print Assumptions C21_associative.
Print Assumptions C21_identity.
Print Assumptions C21_inverse.
Print Assumptions C21_product.
Print Assumptions C21_action.
Print Assumptions C21_undo.
