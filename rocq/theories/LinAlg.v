(** Linear algebra over F_127 for the row-reduction proofs. *)
From Coq Require Import Setoid Morphisms.
From Verif Require Import Base BaseLemmas FqProofs Sums.

Section L.
Variables K N : nat.

(** [M'] is [T M] for an invertible coefficient map. *)
Definition row_sub (M' M : matf) : Prop :=
  exists phi : (nat -> Z) -> (nat -> Z),
    (forall a j, (j < N)%nat ->
       sumn K (fun i => a i * M' i j) == sumn K (fun i => phi a i * M i j)) /\
    (forall a, (forall i, (i < K)%nat -> phi a i == 0) -> forall i, (i < K)%nat -> a i == 0).

Definition row_equiv (M M' : matf) : Prop := row_sub M' M /\ row_sub M M'.

Lemma row_sub_trans A B C : row_sub A B -> row_sub B C -> row_sub A C.
Proof.
  intros (f & F1 & F2) (g & G1 & G2). exists (fun a => g (f a)). split.
  - intros a j Hj. rewrite F1 by auto. apply G1; auto.
  - intros a H. apply F2. apply G2. auto.
Qed.

Lemma row_equiv_sym A B : row_equiv A B -> row_equiv B A.
Proof. intros [H1 H2]; split; auto. Qed.

Lemma row_equiv_trans A B C : row_equiv A B -> row_equiv B C -> row_equiv A C.
Proof. intros [H1 H2] [H3 H4]; split; eapply row_sub_trans; eauto. Qed.

Lemma row_sub_cong A B : (forall i j, (i < K)%nat -> (j < N)%nat -> A i j == B i j) -> row_sub A B.
Proof.
  intros H. exists (fun a => a). split; auto.
  intros a j Hj. apply sumn_cong. intros i Hi. rewrite H by auto. reflexivity.
Qed.

Lemma row_equiv_cong A B : (forall i j, (i < K)%nat -> (j < N)%nat -> A i j == B i j) -> row_equiv A B.
Proof. intros H; split; apply row_sub_cong; auto. intros; symmetry; auto. Qed.

Lemma row_equiv_refl A : row_equiv A A.
Proof. apply row_equiv_cong. reflexivity. Qed.

Lemma row_sub_in_code A B v : row_sub A B -> in_code K N A v -> in_code K N B v.
Proof.
  intros (f & F1 & F2) (a & Ha). exists (f a). intros j Hj. rewrite Ha by auto. auto.
Qed.

Lemma row_equiv_same_code A B : row_equiv A B -> same_code K N A B.
Proof. intros [H1 H2] v. split; eapply row_sub_in_code; eauto. Qed.

Lemma row_sub_full_rank A B : row_sub A B -> full_rank K N B -> full_rank K N A.
Proof.
  intros (f & F1 & F2) H a Ha. apply F2. apply H. intros j Hj. rewrite <- F1 by auto. auto.
Qed.

Lemma row_equiv_full_rank A B : row_equiv A B -> full_rank K N A -> full_rank K N B.
Proof. intros [H1 H2]. apply row_sub_full_rank; auto. Qed.

Lemma cong_in_code A v w : (forall j, (j < N)%nat -> v j == w j) -> in_code K N A v -> in_code K N A w.
Proof. intros H (a & Ha). exists a. intros j Hj. rewrite <- H by auto. auto. Qed.

(** Row [i] is in the code. *)
Lemma row_in_code A i : (i < K)%nat -> in_code K N A (A i).
Proof.
  intros Hi. exists (fun l => if Nat.eqb l i then 1 else 0). intros j Hj.
  rewrite (sumn_single K i); auto.
  - rewrite Nat.eqb_refl. rewrite Z.mul_1_l. reflexivity.
  - intros l Hl Hne. destruct (Nat.eqb_spec l i); [lia|]. reflexivity.
Qed.

(** *** Elementary operations *)
Definition swp (r s i : nat) : nat := if Nat.eqb i r then s else if Nat.eqb i s then r else i.

Lemma swp_invol r s i : swp r s (swp r s i) = i.
Proof.
  unfold swp. destruct (Nat.eqb_spec i r).
  - destruct (Nat.eqb_spec s r); subst; auto. rewrite Nat.eqb_refl. auto.
  - destruct (Nat.eqb_spec i s); subst. rewrite Nat.eqb_refl; auto.
    destruct (Nat.eqb_spec i r), (Nat.eqb_spec i s); auto; lia.
Qed.

Lemma swp_lt r s i : (r < K)%nat -> (s < K)%nat -> (i < K)%nat -> (swp r s i < K)%nat.
Proof. unfold swp. destruct (Nat.eqb_spec i r), (Nat.eqb_spec i s); lia. Qed.

Lemma swp_bij r s : (r < K)%nat -> (s < K)%nat -> bij K (swp r s).
Proof.
  intros Hr Hs. split. { intros; apply swp_lt; auto. }
  intros i j _ _ E. rewrite <- (swp_invol r s i), E. apply swp_invol.
Qed.

Lemma row_equiv_swap A B r s : (r < K)%nat -> (s < K)%nat ->
  (forall i j, (i < K)%nat -> (j < N)%nat -> B i j == A (swp r s i) j) -> row_equiv A B.
Proof.
  intros Hr Hs H.
  assert (E : forall C D, (forall i j, (i < K)%nat -> (j < N)%nat -> D i j == C (swp r s i) j) -> row_sub D C).
  { intros C D HCD. exists (fun a i => a (swp r s i)). split.
    - intros a j Hj.
      rewrite <- (sumn_reindex K (swp r s) (fun i => a (swp r s i) * C i j)) by (apply swp_bij; auto).
      apply sumn_cong. intros i Hi. rewrite swp_invol. rewrite HCD by auto. reflexivity.
    - intros a Ha i Hi. rewrite <- (swp_invol r s i). apply (Ha (swp r s i)). apply swp_lt; auto. }
  split; [apply E; auto|]. apply E. intros i j Hi Hj.
  rewrite H by (auto; apply swp_lt; auto). rewrite swp_invol. reflexivity.
Qed.

Lemma row_sub_scale A B r c : (r < K)%nat -> ~ c == 0 ->
  (forall i j, (i < K)%nat -> (j < N)%nat -> B i j == if Nat.eqb i r then c * A i j else A i j) ->
  row_sub B A.
Proof.
  intros Hr Hc H. exists (fun a i => if Nat.eqb i r then c * a i else a i). split.
  - intros a j Hj. apply sumn_cong. intros i Hi. rewrite H by auto.
    destruct (Nat.eqb i r); [|reflexivity]. rewrite Z.mul_assoc, (Z.mul_comm (a i)). reflexivity.
  - intros a Ha i Hi. specialize (Ha i Hi). cbv beta in Ha.
    destruct (Nat.eqb i r); auto. eapply cong_mul0; eauto.
Qed.

Lemma row_equiv_scale A B r c : (r < K)%nat -> ~ c == 0 ->
  (forall i j, (i < K)%nat -> (j < N)%nat -> B i j == if Nat.eqb i r then c * A i j else A i j) ->
  row_equiv A B.
Proof.
  intros Hr Hc H. split. { eapply row_sub_scale; eauto. }
  destruct (cong_inv c Hc) as (d & _ & Hd).
  apply row_sub_scale with (r := r) (c := d); auto.
  - apply cong_unit_nz with (b := c). auto.
  - intros i j Hi Hj. specialize (H i j Hi Hj). destruct (Nat.eqb i r); [|symmetry; auto].
    rewrite H. rewrite Z.mul_assoc, Hd, Z.mul_1_l. reflexivity.
Qed.

(** Add multiples of row [r] to all the other rows. *)
Lemma row_sub_elim A B r m : (r < K)%nat -> m r = 0 ->
  (forall i j, (i < K)%nat -> (j < N)%nat -> B i j == A i j + m i * A r j) ->
  row_sub B A.
Proof.
  intros Hr Hm H.
  exists (fun a i => a i + (if Nat.eqb i r then sumn K (fun l => a l * m l) else 0)). split.
  - intros a j Hj.
    transitivity (sumn K (fun i => a i * A i j) + sumn K (fun l => a l * m l) * A r j).
    + rewrite <- sumn_scal_r. rewrite <- sumn_add. apply sumn_cong. intros i Hi. rewrite H by auto.
      rewrite Z.mul_add_distr_l, Z.mul_assoc. reflexivity.
    + rewrite <- (sumn_delta K r (fun i => sumn K (fun l => a l * m l) * A i j)) by auto.
      rewrite <- sumn_add. apply sumn_cong. intros i Hi.
      destruct (Nat.eqb i r); rewrite Z.mul_add_distr_r; reflexivity.
  - intros a Ha.
    assert (E : forall i, (i < K)%nat -> i <> r -> a i == 0).
    { intros i Hi Hn. specialize (Ha i Hi). cbv beta in Ha. destruct (Nat.eqb_spec i r); [lia|].
      rewrite Z.add_0_r in Ha. auto. }
    intros i Hi. destruct (Nat.eq_dec i r) as [->|]; auto.
    specialize (Ha r Hr). cbv beta in Ha. rewrite Nat.eqb_refl in Ha. rewrite sumn_zero in Ha.
    + rewrite Z.add_0_r in Ha. auto.
    + intros l Hl. destruct (Nat.eq_dec l r) as [->|]. { rewrite Hm, Z.mul_0_r. reflexivity. }
      rewrite E by auto. reflexivity.
Qed.

Lemma row_equiv_elim A B r m : (r < K)%nat -> m r = 0 ->
  (forall i j, (i < K)%nat -> (j < N)%nat -> B i j == A i j + m i * A r j) ->
  row_equiv A B.
Proof.
  intros Hr Hm H. split. { eapply row_sub_elim; eauto. }
  apply row_sub_elim with (r := r) (m := fun i => - m i); auto.
  { rewrite Hm. reflexivity. }
  intros i j Hi Hj. rewrite H by auto. rewrite (H r) by auto. rewrite Hm.
  rewrite Z.mul_0_l, Z.add_0_r. rewrite <- Z.add_assoc, <- Z.mul_add_distr_r.
  rewrite Z.add_opp_diag_r. rewrite Z.mul_0_l, Z.add_0_r. reflexivity.
Qed.

(** A zero row contradicts independence. *)
Lemma zero_row_not_full_rank A r : (r < K)%nat ->
  (forall j, (j < N)%nat -> A r j == 0) -> ~ full_rank K N A.
Proof.
  intros Hr Hz H. specialize (H (fun i => if Nat.eqb i r then 1 else 0)).
  assert (E : (if Nat.eqb r r then 1 else 0) == 0).
  { apply H; auto. intros j Hj. apply sumn_zero. intros i Hi.
    destruct (Nat.eqb_spec i r); subst; [|reflexivity]. rewrite Hz by auto. reflexivity. }
  rewrite Nat.eqb_refl in E. apply cong_iff in E. discriminate.
Qed.

(** *** Column operations commute with row operations *)
Lemma row_sub_cols A B g e : (forall a, (a < N)%nat -> (g a < N)%nat) ->
  row_sub A B -> row_sub (fun i a => e a * A i (g a)) (fun i a => e a * B i (g a)).
Proof.
  intros Hg (f & F1 & F2). exists f. split; auto.
  intros a j Hj.
  transitivity (e j * sumn K (fun i => a i * A i (g j))).
  { rewrite <- sumn_scal. apply sumn_cong. intros i Hi.
    rewrite !Z.mul_assoc, (Z.mul_comm (a i)). reflexivity. }
  rewrite F1 by auto. rewrite <- sumn_scal. apply sumn_cong. intros i Hi.
  rewrite !Z.mul_assoc, (Z.mul_comm (e j)). reflexivity.
Qed.

Lemma row_equiv_cols A B g e : (forall a, (a < N)%nat -> (g a < N)%nat) ->
  row_equiv A B -> row_equiv (fun i a => e a * A i (g a)) (fun i a => e a * B i (g a)).
Proof. intros Hg [H1 H2]; split; apply row_sub_cols; auto. Qed.

(** *** Reduced row-echelon form *)
Lemma rref_full_rank M piv : is_rref K N M piv -> full_rank K N M.
Proof.
  intros (R1 & R2 & R3 & R4) a Ha i Hi. specialize (Ha (piv i) (R1 i Hi)).
  rewrite (sumn_single K i) in Ha; auto.
  - rewrite R3 in Ha by auto. rewrite Nat.eqb_refl, Z.mul_1_r in Ha. auto.
  - intros l Hl Hn. rewrite R3 by auto. destruct (Nat.eqb_spec l i); [lia|].
    rewrite Z.mul_0_r. reflexivity.
Qed.

(** The coefficients of a codeword on an RREF basis are its values at the pivots. *)
Lemma rref_coeffs M piv a v : is_rref K N M piv ->
  (forall j, (j < N)%nat -> v j == sumn K (fun i => a i * M i j)) ->
  forall l, (l < K)%nat -> a l == v (piv l).
Proof.
  intros (R1 & R2 & R3 & R4) Hv l Hl. rewrite Hv by auto. rewrite (sumn_single K l); auto.
  - rewrite R3 by auto. rewrite Nat.eqb_refl, Z.mul_1_r. reflexivity.
  - intros i Hi Hn. rewrite R3 by auto. destruct (Nat.eqb_spec i l); [lia|].
    rewrite Z.mul_0_r. reflexivity.
Qed.

Definition leading (M : matf) (c : nat) : Prop :=
  (c < N)%nat /\ exists v, in_code K N M v /\ ~ v c == 0 /\ forall j, (j < c)%nat -> v j == 0.

Lemma cong0_dec a : {a == 0} + {~ a == 0}.
Proof.
  destruct (Z.eq_dec (a mod 127) 0) as [E|E]; [left|right].
  - apply cong_iff. rewrite E. reflexivity.
  - intros H. apply cong_iff in H. rewrite H in E. apply E. reflexivity.
Qed.

(** First index with a property. *)
Lemma first_nonzero n (a : nat -> Z) :
  (forall i, (i < n)%nat -> a i == 0) \/
  (exists l, (l < n)%nat /\ ~ a l == 0 /\ forall i, (i < l)%nat -> a i == 0).
Proof.
  induction n. { left. intros; lia. }
  destruct IHn as [H|(l & Hl & H1 & H2)].
  - destruct (cong0_dec (a n)) as [E|E].
    + left. intros i Hi. destruct (Nat.eq_dec i n); subst; auto. apply H. lia.
    + right. exists n. split; auto.
  - right. exists l. split; auto.
Qed.

Lemma rref_leading M piv c : is_rref K N M piv ->
  (leading M c <-> exists i, (i < K)%nat /\ piv i = c).
Proof.
  intros R. pose proof R as (R1 & R2 & R3 & R4). split.
  - intros (Hc & v & (a & Ha) & Hnz & Hz).
    destruct (first_nonzero K a) as [H|(l & Hl & H1 & H2)].
    + exfalso. apply Hnz. rewrite Ha by auto. apply sumn_zero. intros i Hi. rewrite H by auto. reflexivity.
    + exists l. split; auto.
      assert (E : forall j, (j < piv l)%nat -> (j < N)%nat -> v j == 0).
      { intros j Hj HjN. rewrite Ha by auto. apply sumn_zero. intros i Hi.
        destruct (Nat.lt_ge_cases i l). { rewrite H2 by auto. reflexivity. }
        rewrite (R4 i j); auto. { rewrite Z.mul_0_r. reflexivity. }
        destruct (Nat.eq_dec i l); subst; auto. specialize (R2 l i). lia. }
      assert (E2 : v (piv l) == a l).
      { symmetry. eapply rref_coeffs; eauto. }
      destruct (Nat.lt_trichotomy (piv l) c) as [L|[L|L]]; auto; exfalso.
      * apply H1. rewrite <- E2. apply Hz. auto.
      * apply Hnz. apply E; auto.
  - intros (i & Hi & <-). split; auto. exists (M i). split. { apply row_in_code; auto. }
    split.
    + rewrite R3 by auto. rewrite Nat.eqb_refl. intros E. apply cong_iff in E. discriminate.
    + intros j Hj. rewrite R4 by auto. reflexivity.
Qed.

Lemma same_code_leading A B c : same_code K N A B -> leading A c -> leading B c.
Proof.
  intros H (Hc & v & Hv & Hr). split; auto. exists v. split; auto. apply H; auto.
Qed.

(** Two strictly increasing enumerations of the same set agree. *)
Lemma incr_enum_le k (f g : nat -> nat) :
  (forall i j, (i < j)%nat -> (j < k)%nat -> (f i < f j)%nat) ->
  (forall i j, (i < j)%nat -> (j < k)%nat -> (g i < g j)%nat) ->
  (forall i, (i < k)%nat -> exists j, (j < k)%nat /\ g j = f i) ->
  (forall i, (i < k)%nat -> exists j, (j < k)%nat /\ f j = g i) ->
  forall i, (i < k)%nat -> f i = g i.
Proof.
  intros Hf Hg Hfg Hgf i. induction i as [i IH] using lt_wf_ind. intros Hi.
  assert (mono : forall h : nat -> nat, (forall i j, (i < j)%nat -> (j < k)%nat -> (h i < h j)%nat) ->
     forall a b, (a < k)%nat -> (b < k)%nat -> h a = h b -> a = b).
  { intros h Hh a b Ha Hb E. destruct (Nat.lt_trichotomy a b) as [L|[L|L]]; auto.
    - specialize (Hh a b). lia.
    - specialize (Hh b a). lia. }
  destruct (Hfg i Hi) as (j & Hj & Ej). destruct (Hgf i Hi) as (l & Hl & El).
  destruct (Nat.lt_trichotomy j i) as [L|[L|L]].
  - rewrite <- (IH j L Hj) in Ej. apply (mono f) in Ej; auto. lia.
  - subst; auto.
  - destruct (Nat.lt_trichotomy l i) as [L'|[L'|L']].
    + rewrite (IH l L' Hl) in El. apply (mono g) in El; auto. lia.
    + subst; auto.
    + specialize (Hf i l L' Hl). specialize (Hg i j L Hj). lia.
Qed.

(** Uniqueness of the reduced row-echelon form of a code. *)
Lemma rref_unique A B p q : same_code K N A B -> is_rref K N A p -> is_rref K N B q ->
  (forall i, (i < K)%nat -> p i = q i) /\
  (forall i j, (i < K)%nat -> (j < N)%nat -> A i j == B i j).
Proof.
  intros S RA RB.
  assert (E : forall i, (i < K)%nat -> p i = q i).
  { apply incr_enum_le.
    - apply RA.
    - apply RB.
    - intros i Hi. apply (rref_leading B q _ RB). eapply same_code_leading; eauto.
      apply (rref_leading A p _ RA). eauto.
    - intros i Hi. apply (rref_leading A p _ RA). eapply same_code_leading.
      { intros v. symmetry. apply S. }
      apply (rref_leading B q _ RB). eauto. }
  split; auto.
  intros i j Hi Hj.
  assert (I : in_code K N B (A i)) by (apply S; apply row_in_code; auto).
  destruct I as (a & Ha).
  assert (C : forall l, (l < K)%nat -> a l == if Nat.eqb i l then 1 else 0).
  { intros l Hl. rewrite (rref_coeffs B q a (A i) RB Ha l Hl). rewrite <- E by auto.
    destruct RA as (_ & _ & R3 & _). rewrite R3 by auto. reflexivity. }
  rewrite Ha by auto. rewrite (sumn_single K i); auto.
  - rewrite C by auto. rewrite Nat.eqb_refl, Z.mul_1_l. reflexivity.
  - intros l Hl Hn. rewrite C by auto. destruct (Nat.eqb_spec i l); [lia|]. reflexivity.
Qed.

End L.
