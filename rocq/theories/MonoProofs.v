(** Monomial matrices and their action on generator matrices. *)
From Coq Require Import Permutation Setoid Morphisms.
From Verif Require Import Base BaseLemmas Params ParamsProofs Fq FqProofs Sums EnumProofs LinAlg Monomial Codes LexProofs SortProofs.

Lemma fq_unit_fq a : fq_unit a -> fq a.
Proof. unfold fq_unit, fq; lia. Qed.
Lemma fq_unit_nz a : fq_unit a -> ~ a == 0.
Proof. intros H. apply fq_nz. apply fq_unit_fq; auto. unfold fq_unit in H; lia. Qed.
Lemma fq_unit_intro a : fq a -> ~ a == 0 -> fq_unit a.
Proof.
  intros H H0. unfold fq, fq_unit in *. assert (a <> 0); [|lia]. intros ->. apply H0. reflexivity.
Qed.
Lemma fq_unit_inv a : fq_unit a -> fq_unit (fq_inv a).
Proof.
  intros H. apply fq_unit_intro; auto with fq. apply fq_nz; auto with fq. apply fq_inv_nz.
  apply fq_unit_fq; auto. unfold fq_unit in H; lia.
Qed.
Lemma fq_unit_inv_l a : fq_unit a -> fq_inv a * a == 1.
Proof. intros H. apply fq_inv_l. apply fq_unit_fq; auto. unfold fq_unit in H; lia. Qed.
Lemma fq_unit_mul a b : fq_unit a -> fq_unit b -> fq_unit (fq_red (a * b)).
Proof.
  intros Ha Hb. apply fq_unit_intro; auto with fq.
  rewrite fq_red_mul by (apply fq_unit_fq; auto). apply cong_nonzero_mul; apply fq_unit_nz; auto.
Qed.
Global Hint Resolve fq_unit_fq fq_unit_nz fq_unit_inv fq_unit_mul : fq.

(** *** Permutations given as arrays *)
Definition pf (l : list Z) (i : nat) : nat := Z.to_nat (nthZ l i).

Lemma perm_list_len n l : perm_list n l -> length l = n.
Proof. intros H. apply Permutation_length in H. rewrite map_length, seq_length in H. auto. Qed.

Lemma perm_list_in n l x : perm_list n l -> In x l -> 0 <= x < Z.of_nat n.
Proof.
  intros H I. eapply Permutation_in in I; [|exact H]. apply in_map_iff in I.
  destruct I as (i & <- & I). apply in_seq in I. lia.
Qed.

Lemma perm_list_nodup n l : perm_list n l -> NoDup l.
Proof.
  intros H. eapply Permutation_NoDup; [apply Permutation_sym; exact H|].
  apply FinFun.Injective_map_NoDup; [|apply seq_NoDup]. intros a b; lia.
Qed.

Lemma perm_list_range n l i : perm_list n l -> (i < n)%nat -> 0 <= nthZ l i < Z.of_nat n.
Proof. intros H Hi. apply (perm_list_in n l); auto. apply nth_In. rewrite (perm_list_len n); auto. Qed.

Lemma perm_list_bij n l : perm_list n l -> bij n (pf l).
Proof.
  intros H. split.
  - intros i Hi. unfold pf. pose proof (perm_list_range n l i H Hi). lia.
  - intros i j Hi Hj E. unfold pf in E.
    pose proof (perm_list_range n l i H Hi). pose proof (perm_list_range n l j H Hj).
    pose proof (perm_list_nodup n l H) as ND. rewrite (NoDup_nth l 0) in ND.
    apply ND; rewrite ?(perm_list_len n l H); auto. unfold nthZ in *. lia.
Qed.

Lemma perm_list_intro n l : length l = n -> (forall i, (i < n)%nat -> 0 <= nthZ l i < Z.of_nat n) ->
  (forall i j, (i < n)%nat -> (j < n)%nat -> nthZ l i = nthZ l j -> i = j) -> perm_list n l.
Proof.
  intros HL HR HI. apply NoDup_Permutation_bis.
  - apply (NoDup_nth l 0). rewrite HL. intros i j Hi Hj E. apply HI; auto.
  - rewrite map_length, seq_length. lia.
  - intros x Hx. apply In_nth with (d := 0) in Hx. destruct Hx as (i & Hi & <-).
    specialize (HR i ltac:(lia)). unfold nthZ in HR. apply in_map_iff. exists (Z.to_nat (nth i l 0)).
    split; [lia|]. apply in_seq. lia.
Qed.

Section R.
Variable p : params.
Hypothesis wf : wf_params p.
Notation N := (pN p).
Notation K := (pK p).

(** A well-formed monomial matrix. *)
Record mono_ok (Q : monomial) : Prop := {
  mo_perm : perm_list N (m_perm Q);
  mo_clen : length (m_coef Q) = N;
  mo_coef : Forall fq_unit (m_coef Q) }.

Lemma mono_coef Q i : mono_ok Q -> (i < N)%nat -> fq_unit (nthZ (m_coef Q) i).
Proof.
  intros [H1 H2 H3] Hi. rewrite Forall_forall in H3. apply H3. apply nth_In. lia.
Qed.

(** Storage of the right size, arbitrary content. *)
Definition mono_mem (Q : monomial) : Prop := length (m_coef Q) = N /\ length (m_perm Q) = N.

Lemma mono_ok_mem Q : mono_ok Q -> mono_mem Q.
Proof. intros [H1 H2 H3]. split; auto. apply perm_list_len; auto. Qed.

Ltac pr := match goal with
  | H : mono_ok ?Q, Hi : (?i < N)%nat |- _ =>
      lazymatch goal with
      | _ : 0 <= nthZ (m_perm Q) i < Z.of_nat N |- _ => fail
      | _ => pose proof (perm_list_range N (m_perm Q) i (mo_perm Q H) Hi)
      end end.

(** *** generator_monomial_mul *)
Lemma generator_monomial_mul_entries r G Q : shape K N r -> shape K N G -> mono_ok Q ->
  okp (generator_monomial_mul p r G Q) (fun r' => shape K N r' /\
    forall i s, (i < K)%nat -> (s < N)%nat ->
      ent r' i (pf (m_perm Q) s) = fq_red (ent G i s * nthZ (m_coef Q) s)).
Proof.
  intros Hr HG HQ. pose proof (perm_list_bij N _ (mo_perm Q HQ)) as [B1 B2].
  pose proof (perm_list_len N _ (mo_perm Q HQ)) as Lp. pose proof (mo_clen Q HQ) as Lc.
  unfold generator_monomial_mul.
  eapply okp_mono. eapply okp_for with (I := fun n r' => shape K N r' /\
    forall i s, (i < K)%nat -> (s < n)%nat ->
      ent r' i (pf (m_perm Q) s) = fq_red (ent G i s * nthZ (m_coef Q) s)).
  - split; auto. intros; lia.
  - intros n r1 Hn (H1 & H2).
    eapply okp_mono. eapply okp_for with (I := fun k r' => shape K N r' /\
      (forall i, (i < k)%nat -> ent r' i (pf (m_perm Q) n) = fq_red (ent G i n * nthZ (m_coef Q) n)) /\
      forall i s, (i < K)%nat -> (s < n)%nat ->
        ent r' i (pf (m_perm Q) s) = fq_red (ent G i s * nthZ (m_coef Q) s)).
    + split; auto. split; auto. intros; lia.
    + intros k r2 Hk (H3 & H4 & H5).
      rewrite (get_ok _ n 0) by lia. cbn [bind].
      rewrite (get2_ok _ K N) by (auto; lia). cbn [bind].
      rewrite (get_ok _ n 0) by lia. cbn [bind].
      fold (nthZ (m_perm Q) n). fold (nthZ (m_coef Q) n). fold (pf (m_perm Q) n).
      rewrite (set2_ok _ K N) by (auto; try lia; apply B1; lia).
      apply okp_ok. split. { apply shape_upd2; auto; lia. } split.
      * intros i Hi. rewrite (ent_upd2 _ K N) by (auto; try lia; apply B1; lia).
        rewrite Nat.eqb_refl, andb_true_r. destruct (Nat.eqb_spec k i); subst; auto. apply H4. lia.
      * intros i s Hi Hs. rewrite (ent_upd2 _ K N) by (auto; try lia; apply B1; lia).
        destruct (Nat.eqb_spec (pf (m_perm Q) n) (pf (m_perm Q) s)) as [E|E].
        { apply B2 in E; lia. }
        rewrite andb_false_r. apply H5; auto.
    + intros r2 (H3 & H4 & H5). split; auto. intros i s Hi Hs.
      destruct (Nat.eq_dec s n); subst. apply H4; auto. apply H5; auto; lia.
  - intros r' (H1 & H2). split; auto.
Qed.

(** The product is a column-monomial transform of G. *)
Lemma generator_monomial_mul_spec r G Q : shape K N r -> shape K N G -> mono_ok Q ->
  (forall i j, (i < K)%nat -> (j < N)%nat -> fq (ent G i j)) ->
  okp (generator_monomial_mul p r G Q) (fun r' => shape K N r' /\
    (forall i j, (i < K)%nat -> (j < N)%nat -> fq (ent r' i j)) /\
    (forall i s, (i < K)%nat -> (s < N)%nat ->
       ent r' i (pf (m_perm Q) s) == nthZ (m_coef Q) s * ent G i s)).
Proof.
  intros Hr HG HQ HF. eapply okp_mono. { apply generator_monomial_mul_entries; eauto. }
  intros r' (H1 & H2). pose proof (perm_list_bij N _ (mo_perm Q HQ)) as B.
  split; auto. split.
  - intros i j Hi Hj. destruct (bij_surj N _ B j Hj) as (s & Hs & <-). rewrite H2 by auto. auto with fq.
  - intros i s Hi Hs. rewrite H2 by auto. rewrite fq_red_mul.
    + rewrite Z.mul_comm. reflexivity.
    + auto.
    + apply fq_unit_fq. apply mono_coef; auto.
Qed.

(** *** monomial_mat_inv *)
Lemma monomial_mat_inv_spec r A : mono_mem r -> mono_ok A ->
  okp (monomial_mat_inv p r A) (fun B => mono_ok B /\
    (forall i, (i < N)%nat -> pf (m_perm B) (pf (m_perm A) i) = i) /\
    (forall i, (i < N)%nat -> nthZ (m_coef B) (pf (m_perm A) i) = fq_inv (nthZ (m_coef A) i))).
Proof.
  intros [M1 M2] HA. pose proof (perm_list_bij N _ (mo_perm A HA)) as BJ. pose proof BJ as [B1 B2].
  pose proof (perm_list_len N _ (mo_perm A HA)) as Lp. pose proof (mo_clen A HA) as Lc.
  unfold monomial_mat_inv.
  eapply okp_mono. eapply okp_for with (I := fun n B => mono_mem B /\
    (forall i, (i < n)%nat -> nthZ (m_perm B) (pf (m_perm A) i) = Z.of_nat i) /\
    (forall i, (i < n)%nat -> nthZ (m_coef B) (pf (m_perm A) i) = fq_inv (nthZ (m_coef A) i))).
  - split. { split; auto. } split; intros; lia.
  - intros n B Hn ((L1 & L2) & H1 & H2).
    rewrite (get_ok _ n 0) by lia. cbn [bind]. fold (nthZ (m_perm A) n). fold (pf (m_perm A) n).
    specialize (B1 n ltac:(lia)).
    rewrite set_ok by lia. cbn [bind].
    rewrite (get_ok _ n 0) by lia. cbn [bind]. rewrite set_ok by lia. cbn [bind].
    apply okp_ok. cbn [m_perm m_coef]. split. { split; cbn [m_perm m_coef]; rewrite upd_length; auto. }
    split; intros i Hi; unfold nthZ; rewrite nth_upd by lia;
      (destruct (Nat.eqb_spec (pf (m_perm A) n) (pf (m_perm A) i)) as [E|E];
       [apply B2 in E; try lia; subst i|]).
    + apply pos_t_id; auto. lia.
    + apply H1. assert (i <> n) by congruence. lia.
    + reflexivity.
    + apply H2. assert (i <> n) by congruence. lia.
  - intros B ((L1 & L2) & H1 & H2).
    split; [constructor|split]; auto.
    + apply perm_list_intro; auto.
      * intros j Hj. destruct (bij_surj N _ BJ j Hj) as (i & Hi & <-). rewrite H1 by auto. lia.
      * intros j j' Hj Hj' E. destruct (bij_surj N _ BJ j Hj) as (i & Hi & <-).
        destruct (bij_surj N _ BJ j' Hj') as (i' & Hi' & <-).
        rewrite !H1 in E by auto. f_equal. lia.
    + apply Forall_nth_Z. rewrite L1. intros j Hj. destruct (bij_surj N _ BJ j Hj) as (i & Hi & <-).
      rewrite H2 by auto. apply fq_unit_inv. apply mono_coef; auto.
    + intros i Hi. unfold pf at 1. rewrite H1 by auto. apply Nat2Z.id.
Qed.

(** *** monomial_mat_mul *)
Lemma monomial_mat_mul_spec r A B : mono_mem r -> mono_ok A -> mono_ok B ->
  okp (monomial_mat_mul p r A B) (fun C => mono_ok C /\
    (forall i, (i < N)%nat -> pf (m_perm C) i = pf (m_perm B) (pf (m_perm A) i)) /\
    (forall i, (i < N)%nat -> nthZ (m_coef C) i =
        fq_red (nthZ (m_coef A) i * nthZ (m_coef B) (pf (m_perm A) i)))).
Proof.
  intros [M1 M2] HA HB.
  pose proof (perm_list_bij N _ (mo_perm A HA)) as [A1 A2].
  pose proof (perm_list_bij N _ (mo_perm B HB)) as [B1 B2].
  pose proof (perm_list_len N _ (mo_perm A HA)) as Lp. pose proof (mo_clen A HA) as Lc.
  pose proof (perm_list_len N _ (mo_perm B HB)) as Lpb. pose proof (mo_clen B HB) as Lcb.
  unfold monomial_mat_mul.
  eapply okp_mono. eapply okp_for with (I := fun n C => mono_mem C /\
    (forall i, (i < n)%nat -> nthZ (m_perm C) i = nthZ (m_perm B) (pf (m_perm A) i)) /\
    (forall i, (i < n)%nat -> nthZ (m_coef C) i =
        fq_red (nthZ (m_coef A) i * nthZ (m_coef B) (pf (m_perm A) i)))).
  - split. { split; auto. } split; intros; lia.
  - intros n C Hn ((L1 & L2) & H1 & H2). specialize (A1 n ltac:(lia)).
    rewrite (get_ok _ n 0) by lia. cbn [bind]. fold (nthZ (m_perm A) n). fold (pf (m_perm A) n).
    rewrite (get_ok _ _ 0) by lia. cbn [bind]. rewrite set_ok by lia. cbn [bind].
    rewrite (get_ok _ n 0) by lia. cbn [bind]. rewrite (get_ok _ _ 0) by lia. cbn [bind].
    rewrite set_ok by lia. cbn [bind].
    apply okp_ok. cbn [m_perm m_coef]. split. { split; cbn [m_perm m_coef]; rewrite upd_length; auto. }
    split; intros i Hi; unfold nthZ at 1; rewrite nth_upd by lia;
      (destruct (Nat.eqb_spec n i) as [<-|E]); auto; [apply H1|apply H2]; lia.
  - intros C ((L1 & L2) & H1 & H2). split; [constructor|split]; auto.
    + apply perm_list_intro; auto.
      * intros j Hj. rewrite H1 by auto. apply perm_list_range; auto. apply HB.
      * intros j j' Hj Hj' E. rewrite !H1 in E by auto.
        apply A2; auto. apply B2; auto. unfold pf. unfold pf in E. congruence.
    + apply Forall_nth_Z. rewrite L1. intros j Hj. rewrite H2 by auto.
      apply fq_unit_mul; apply mono_coef; auto.
    + intros i Hi. unfold pf at 1. rewrite H1 by auto. auto.
Qed.

(** *** monomial_mat_id *)
Lemma monomial_mat_id_spec r : mono_mem r ->
  okp (monomial_mat_id p r) (fun C => mono_ok C /\
    (forall i, (i < N)%nat -> nthZ (m_perm C) i = Z.of_nat i) /\
    (forall i, (i < N)%nat -> nthZ (m_coef C) i = 1)).
Proof.
  intros [M1 M2]. unfold monomial_mat_id.
  eapply okp_mono. eapply okp_for with (I := fun n C => mono_mem C /\
    (forall i, (i < n)%nat -> nthZ (m_perm C) i = Z.of_nat i) /\
    (forall i, (i < n)%nat -> nthZ (m_coef C) i = 1)).
  - split. { split; auto. } split; intros; lia.
  - intros n C Hn ((L1 & L2) & H1 & H2).
    rewrite set_ok by lia. cbn [bind]. rewrite set_ok by lia. cbn [bind].
    apply okp_ok. cbn [m_perm m_coef]. split. { split; cbn [m_perm m_coef]; rewrite upd_length; auto. }
    split; intros i Hi; unfold nthZ; rewrite nth_upd by lia;
      (destruct (Nat.eqb_spec n i) as [<-|E]); auto; [| apply H1|apply H2]; try lia.
    apply pos_t_id; auto. lia.
  - intros C ((L1 & L2) & H1 & H2). split; [constructor|split]; auto.
    + apply perm_list_intro; auto.
      * intros j Hj. rewrite H1 by auto. lia.
      * intros j j' Hj Hj' E. rewrite !H1 in E by auto. lia.
    + apply Forall_nth_Z. rewrite L1. intros j Hj. rewrite H2 by auto. unfold fq_unit. lia.
Qed.

(** *** monomial_compose_action *)
Definition act_mem (a : action) : Prop := length (a_perm a) = K /\ length (a_coef a) = K.

(** A valid action: K distinct columns and non-zero factors. *)
Record act_ok (a : action) : Prop := {
  ao_mem : act_mem a;
  ao_range : forall i, (i < K)%nat -> 0 <= nthZ (a_perm a) i < Z.of_nat N;
  ao_inj : forall i j, (i < K)%nat -> (j < K)%nat -> nthZ (a_perm a) i = nthZ (a_perm a) j -> i = j;
  ao_coef : forall i, (i < K)%nat -> fq_unit (nthZ (a_coef a) i) }.

Lemma monomial_compose_action_spec rev0 out Q a : mono_mem rev0 -> act_mem out -> mono_ok Q -> act_ok a ->
  okp (monomial_compose_action p rev0 out Q a) (fun b => act_ok b /\
    (forall k s, (k < K)%nat -> (s < N)%nat -> pf (a_perm a) k = pf (m_perm Q) s ->
       pf (a_perm b) k = s /\
       nthZ (a_coef b) k == nthZ (a_coef a) k * nthZ (m_coef Q) s)).
Proof.
  intros [M1 M2] [O1 O2] HQ [[a1 a2] a3 a4 a5].
  pose proof (perm_list_bij N _ (mo_perm Q HQ)) as BJ. pose proof BJ as [B1 B2].
  pose proof (perm_list_len N _ (mo_perm Q HQ)) as Lp. pose proof (mo_clen Q HQ) as Lc.
  unfold monomial_compose_action.
  eapply okp_bind with (Q := fun B => mono_mem B /\
    (forall i, (i < N)%nat -> nthZ (m_perm B) (pf (m_perm Q) i) = Z.of_nat i) /\
    (forall i, (i < N)%nat -> nthZ (m_coef B) (pf (m_perm Q) i) = nthZ (m_coef Q) i)).
  - eapply okp_for with (I := fun n B => mono_mem B /\
    (forall i, (i < n)%nat -> nthZ (m_perm B) (pf (m_perm Q) i) = Z.of_nat i) /\
    (forall i, (i < n)%nat -> nthZ (m_coef B) (pf (m_perm Q) i) = nthZ (m_coef Q) i)).
    + split. { split; auto. } split; intros; lia.
    + intros n B Hn ((L1 & L2) & H1 & H2).
      rewrite (get_ok _ n 0) by lia. cbn [bind]. fold (nthZ (m_perm Q) n). fold (pf (m_perm Q) n).
      specialize (B1 n ltac:(lia)).
      rewrite set_ok by lia. cbn [bind].
      rewrite (get_ok _ n 0) by lia. cbn [bind]. rewrite set_ok by lia. cbn [bind].
      apply okp_ok. cbn [m_perm m_coef]. split. { split; cbn [m_perm m_coef]; rewrite upd_length; auto. }
      split; intros i Hi; unfold nthZ; rewrite nth_upd by lia;
        (destruct (Nat.eqb_spec (pf (m_perm Q) n) (pf (m_perm Q) i)) as [E|E];
         [apply B2 in E; try lia; subst i|]).
      * apply pos_t_id; auto. lia.
      * apply H1. assert (i <> n) by congruence. lia.
      * reflexivity.
      * apply H2. assert (i <> n) by congruence. lia.
  - intros R ((R1 & R2) & R3 & R4).
    assert (Rg : forall k, (k < K)%nat -> (pf (a_perm a) k < N)%nat).
    { intros k Hk. unfold pf. specialize (a3 k Hk). lia. }
    eapply okp_mono. eapply okp_for with (I := fun n o => act_mem o /\
      (forall k, (k < n)%nat -> nthZ (a_perm o) k = nthZ (m_perm R) (pf (a_perm a) k)) /\
      (forall k, (k < n)%nat -> nthZ (a_coef o) k =
          fq_red (nthZ (a_coef a) k * nthZ (m_coef R) (pf (a_perm a) k)))).
    + split. { split; auto. } split; intros; lia.
    + intros n o Hn ((L1 & L2) & H1 & H2). specialize (Rg n ltac:(lia)).
      rewrite (get_ok _ n 0) by lia. cbn [bind]. fold (nthZ (a_perm a) n). fold (pf (a_perm a) n).
      rewrite (get_ok _ _ 0) by lia. cbn [bind]. rewrite set_ok by lia. cbn [bind].
      rewrite (get_ok _ n 0) by lia. cbn [bind]. rewrite (get_ok _ _ 0) by lia. cbn [bind].
      rewrite set_ok by lia. cbn [bind].
      apply okp_ok. cbn [a_perm a_coef]. split. { split; cbn [a_perm a_coef]; rewrite upd_length; auto. }
      split; intros i Hi; unfold nthZ at 1; rewrite nth_upd by lia;
        (destruct (Nat.eqb_spec n i) as [<-|E]); auto; [apply H1|apply H2]; lia.
    + intros o ((L1 & L2) & H1 & H2).
      assert (V : forall k s, (k < K)%nat -> (s < N)%nat -> pf (a_perm a) k = pf (m_perm Q) s ->
        nthZ (a_perm o) k = Z.of_nat s /\ nthZ (a_coef o) k = fq_red (nthZ (a_coef a) k * nthZ (m_coef Q) s)).
      { intros k s Hk Hs E. rewrite H1, H2 by auto. rewrite E. rewrite R3, R4 by auto. auto. }
      assert (VX : forall k, (k < K)%nat -> exists s, (s < N)%nat /\ pf (a_perm a) k = pf (m_perm Q) s).
      { intros k Hk. destruct (bij_surj N _ BJ (pf (a_perm a) k)) as (s & Hs & E); auto. eauto. }
      split; [constructor|].
      * split; auto.
      * intros k Hk. destruct (VX k Hk) as (s & Hs & E). destruct (V k s Hk Hs E) as [-> _]. lia.
      * intros k k' Hk Hk' E. destruct (VX k Hk) as (s & Hs & Es). destruct (VX k' Hk') as (s' & Hs' & Es').
        destruct (V k s Hk Hs Es) as [E1 _]. destruct (V k' s' Hk' Hs' Es') as [E2 _].
        assert (s = s') by lia. subst s'. apply a4; auto. rewrite <- Es' in Es. unfold pf in Es.
        pose proof (a3 k Hk). pose proof (a3 k' Hk'). lia.
      * intros k Hk. destruct (VX k Hk) as (s & Hs & E). destruct (V k s Hk Hs E) as [_ ->].
        apply fq_unit_mul; auto. apply mono_coef; auto.
      * intros k s Hk Hs E. destruct (V k s Hk Hs E) as [E1 E2]. split.
        -- unfold pf. rewrite E1. apply Nat2Z.id.
        -- rewrite E2. apply fq_red_mul; apply fq_unit_fq; auto. apply mono_coef; auto.
Qed.

(** *** extract_col *)
Lemma extract_col_spec Q s : mono_ok Q -> (s < N)%nat ->
  extract_col p Q (pf (m_perm Q) s) = Ok (Z.of_nat s, nthZ (m_coef Q) s).
Proof.
  intros HQ Hs. pose proof (perm_list_bij N _ (mo_perm Q HQ)) as [B1 B2].
  pose proof (perm_list_len N _ (mo_perm Q HQ)) as Lp. pose proof (mo_clen Q HQ) as Lc.
  unfold extract_col.
  assert (H : okp (for_ N 0 (fun i s0 =>
    pi <- get (m_perm Q) i ;;
    if pi =? Z.of_nat (pf (m_perm Q) s) then (c <- get (m_coef Q) i ;; Ok (pos_t p (Z.of_nat i), c))
    else Ok s0) (0, 0)) (fun r => r = (Z.of_nat s, nthZ (m_coef Q) s))).
  { eapply okp_mono. eapply okp_for with (I := fun n r => (s < n)%nat -> r = (Z.of_nat s, nthZ (m_coef Q) s)).
    - intros; lia.
    - intros n r Hn H. rewrite (get_ok _ n 0) by lia. cbn [bind]. fold (nthZ (m_perm Q) n).
      pose proof (perm_list_range N _ n (mo_perm Q HQ) ltac:(lia)) as Rn.
      destruct (Z.eqb_spec (nthZ (m_perm Q) n) (Z.of_nat (pf (m_perm Q) s))) as [E|E].
      + assert (n = s). { apply B2; try lia. unfold pf in *. lia. } subst n.
        rewrite (get_ok _ s 0) by lia. cbn [bind]. apply okp_ok. intros _.
        rewrite pos_t_id by (auto; lia). reflexivity.
      + apply okp_ok. intros Hs'. apply H. assert (s <> n); [|lia]. intros ->. apply E.
        unfold pf. lia.
    - intros r H. apply H. lia. }
  destruct H as (r & -> & ->). reflexivity.
Qed.

End R.
