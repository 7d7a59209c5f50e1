(** Property C53: what a response reveals. The answers of the signer to a challenge, over all ephemeral
    monomials, are the answers that anybody can compute from the public component alone. *)
From Coq Require Import Permutation.
From Verif Require Import Base BaseLemmas Params ParamsProofs Fq Prim Samplers Monomial Codes Less Spec
  FqProofs Sums LinAlg RrefProofs LexProofs SortProofs EnumProofs MonoProofs ActionProofs CanonProofs RoundProofs
  PropCodec PropMono PropLinAlg PropCanon Toy LessSpec SpecSampling SpecBridge SpecMain SpecVerify PropSpec PropBind.

(** LESS.c:144 (prepare_digest_input) and 179-181 (monomial_compose_action): what LESS_sign computes for one challenged round, from the ephemeral
    monomial [Q] and the private monomial [Qs]: the matrix it hashes and the response it packs (in LESS_sign the
    two statements are in different loops). [V0], [Qb], [rev], [out] are the previous contents of the
    destinations. *)
Definition signer_answer (p : params) (V0 : mat) (Qb : action) (rev : monomial) (out : action)
  (G0 : mat) (Qs Q : monomial) : res (mat * action) :=
  ' (V, a) <- prepare_digest_input p V0 Qb G0 Q ;;
  b <- monomial_compose_action p rev out Qs a ;;
  Ok (V, b).

(** [Gx] is a public component for the private monomial [Qs]: it generates the code of M with M Qs = G0. *)
Definition public_for (p : params) (G0 : mat) (Qs : monomial) (Gx : mat) : Prop :=
  exists M, times_monomial (pK p) (pN p) M (m_perm Qs) (m_coef Qs) (ent G0) /\ same_code (pK p) (pN p) M (ent Gx).

(** The columns of [G] named by [perm] are independent. *)
Definition information_set (K : nat) (G : matf) (perm : list Z) : Prop :=
  full_rank K K (fun i k => G i (Z.to_nat (nth k perm 0))).

Section S.
Variable p : params.
Hypothesis wf : wf_params p.
Notation N := (pN p).
Notation K := (pK p).
Notation w := (pN p - pK p)%nat.

(** G0 Q and Gx (Qs Q) generate the same code. *)
Lemma sim_code G0 Mx Gx M1 M2 Qs Q R : mono_ok p Qs -> mono_ok p Q -> mono_ok p R ->
  (forall i, (i < N)%nat -> pf (m_perm R) i = pf (m_perm Q) (pf (m_perm Qs) i)) ->
  (forall i, (i < N)%nat -> nthZ (m_coef R) i == nthZ (m_coef Qs) i * nthZ (m_coef Q) (pf (m_perm Qs) i)) ->
  times_monomial K N Mx (m_perm Qs) (m_coef Qs) G0 -> same_code K N Mx Gx ->
  times_monomial K N G0 (m_perm Q) (m_coef Q) M1 -> times_monomial K N Gx (m_perm R) (m_coef R) M2 ->
  same_code K N M1 M2.
Proof using.
  intros HQs HQ HR EP EC T0 SC T1 T2.
  pose proof (perm_list_bij N _ (mo_perm p R HR)) as BR. destruct (bij_inv N _ BR) as (h & Bh & H1 & H2).
  pose proof (perm_list_bij N _ (mo_perm p Qs HQs)) as BQ.
  set (e := fun c => nthZ (m_coef R) (h c)).
  apply same_code_trans with (B := fun i c => e c * Mx i (h c)).
  { apply cong_code. intros i c Hi Hc. assert (Hh : (h c < N)%nat) by (apply Bh; auto).
    assert (Hs : (pf (m_perm Qs) (h c) < N)%nat) by (apply BQ; auto).
    rewrite <- (H2 c Hc) at 1. rewrite (EP (h c) Hh).
    pose proof (T1 i (pf (m_perm Qs) (h c)) Hi Hs) as E1.
    pose proof (T0 i (h c) Hi Hh) as E0.
    unfold pf in *. unfold nthZ in *. rewrite E1, E0. unfold e, nthZ.
    rewrite (EC (h c) Hh). rewrite Z.mul_assoc. rewrite (Z.mul_comm (nth (Z.to_nat (nth (h c) (m_perm Qs) 0)) (m_coef Q) 0)). reflexivity. }
  eapply same_code_trans. { apply (cols_same_code K N Mx Gx h e); auto. apply Bh. }
  apply cong_code. intros i c Hi Hc. assert (Hh : (h c < N)%nat) by (apply Bh; auto).
  rewrite <- (H2 c Hc) at 3. symmetry. exact (T2 i (h c) Hi Hh).
Qed.

Lemma act_ext a b : act_ok p a -> act_ok p b ->
  (forall k, (k < K)%nat -> pf (a_perm a) k = pf (a_perm b) k) ->
  (forall k, (k < K)%nat -> nthZ (a_coef a) k = nthZ (a_coef b) k) -> a = b.
Proof using.
  intros [[A1 A2] A3 _ _] [[B1 B2] B3 _ _] HP HC. destruct a as [ap ac], b as [bp bc]. cbn in *. f_equal.
  - apply (list_ext 0); [congruence|]. intros i Hi. specialize (HP i ltac:(lia)). specialize (A3 i ltac:(lia)).
    specialize (B3 i ltac:(lia)). unfold pf, nthZ in *. lia.
  - apply (list_ext 0); [congruence|]. intros i Hi. apply HC. lia.
Qed.

Lemma sim_round G0 Gx Qs Q R V a b V' b' : mono_ok p Qs -> mono_ok p Q -> mono_ok p R ->
  (forall i, (i < N)%nat -> pf (m_perm R) i = pf (m_perm Q) (pf (m_perm Qs) i)) ->
  (forall i, (i < N)%nat -> nthZ (m_coef R) i == nthZ (m_coef Qs) i * nthZ (m_coef Q) (pf (m_perm Qs) i)) ->
  public_for p G0 Qs Gx -> prep_rel p G0 Q V a -> prep_rel p Gx R V' b' -> act_ok p b ->
  (forall k s, (k < K)%nat -> (s < N)%nat -> pf (a_perm a) k = pf (m_perm Qs) s ->
       pf (a_perm b) k = s /\ nthZ (a_coef b) k == nthZ (a_coef a) k * nthZ (m_coef Qs) s) ->
  V' = V /\ b' = b.
Proof using.
  intros HQs HQ HR EP EC (Mx & T0 & SC) (HA & M1 & R1 & pv1 & fl1 & A1 & A2 & A3 & A4 & A5 & A6 & A7)
    (HB' & M2 & R2 & pv2 & fl2 & B1 & B2 & B3 & B4 & B5 & B6 & B7) HB HC.
  assert (S12 : same_code K N R1 R2).
  { apply same_code_trans with (B := M1). { apply same_code_sym. apply row_equiv_same_code. exact A2. }
    apply same_code_trans with (B := M2). 2:{ apply row_equiv_same_code. exact B2. }
    apply (sim_code (ent G0) Mx (ent Gx) M1 M2 Qs Q R); auto. }
  destruct (rref_unique K N R1 R2 pv1 pv2 S12 A4 B4) as [EV _].
  split. { symmetry. apply (digest_det p R1 R2 pv1 pv2 fl1 fl2); auto. }
  pose proof (perm_list_bij N _ (mo_perm p Q HQ)) as BQ.
  pose proof (perm_list_bij N _ (mo_perm p Qs HQs)) as BS.
  assert (EK : forall k, (k < K)%nat -> pf (a_perm a) k = pf (m_perm Qs) (pf (a_perm b') k)).
  { intros k Hk. destruct (A7 k Hk) as (X1 & X2 & _). destruct (B7 k Hk) as (Y1 & Y2 & _).
    apply (proj2 BQ); auto. { apply BS. auto. }
    rewrite X1, (EV k Hk), <- Y1. apply EP. auto. }
  apply act_ext; auto.
  - intros k Hk. destruct (B7 k Hk) as (_ & Y2 & _). symmetry. apply (HC k _ Hk Y2). apply EK. auto.
  - intros k Hk. destruct (B7 k Hk) as (_ & Y2 & Y3). destruct (A7 k Hk) as (_ & X2 & X3).
    destruct (HC k _ Hk Y2 (EK k Hk)) as (_ & Z2).
    apply cong_eq. { apply fq_unit_fq. apply (ao_coef p b'); auto. } { apply fq_unit_fq. apply (ao_coef p b); auto. }
    rewrite Z2, Y3, X3. rewrite EC by auto. rewrite <- (EK k Hk). rewrite Z.mul_comm. reflexivity.
Qed.
End S.

(** *** One answer *)

(** The signer's answer with the ephemeral monomial Q and the private monomial Qs is the answer of anybody who runs
    the commitment function on the public component with the monomial Qs Q: same matrix, same response. *)
Theorem C53_simulator : forall p, wf_params p -> forall G0 Gx Qs Q,
  good_matrix p G0 -> good_matrix p Gx -> good_mono p Qs -> good_mono p Q -> public_for p G0 Qs Gx ->
  exists R V b, good_mono p R /\ good_act p b /\
    (forall r, mono_array p r -> monomial_mat_mul p r Qs Q = Ok R) /\
    (forall V0 Qb rev out, shape (pK p) (pN p - pK p) V0 -> act_array p Qb -> mono_array p rev -> act_array p out ->
       signer_answer p V0 Qb rev out G0 Qs Q = Ok (V, b)) /\
    (forall V0 Qb, shape (pK p) (pN p - pK p) V0 -> act_array p Qb -> prepare_digest_input p V0 Qb Gx R = Ok (V, b)).
Proof.
  intros p wf G0 Gx Qs Q HG HGx HQs HQ HP. apply good_mono_ok in HQ. apply good_mono_ok in HQs.
  pose proof (junk_monomial_mem p (fun _ _ => 0) 0) as J1.
  pose proof (junk_action_mem p (fun _ _ => 0) 0) as J2.
  pose proof (junk_mat_shape (fun _ _ => 0) 0 (pK p) (pN p - pK p)) as J3.
  destruct (monomial_mat_mul_spec p _ Qs Q J1 HQs HQ) as (R & ER & OR & PR & CR).
  destruct (prep_round p wf _ _ Gx R J3 J2 HGx OR) as ([V b] & Eb & HB).
  assert (CR' : forall i, (i < pN p)%nat -> nthZ (m_coef R) i == nthZ (m_coef Qs) i * nthZ (m_coef Q) (pf (m_perm Qs) i)).
  { intros i Hi. rewrite CR by auto. apply fq_red_mul; apply (mo_c p); auto. apply mo_p; auto. }
  exists R, V, b. split. { apply good_mono_ok. auto. } split. { apply good_act_ok. apply HB. } split; [|split].
  - intros r Hr. destruct (monomial_mat_mul_spec p r Qs Q Hr HQs HQ) as (R' & ER' & OR' & PR' & CR2).
    rewrite ER'. f_equal. apply (mono_ext p); auto. { intros. rewrite PR, PR'; auto. } { intros. rewrite CR, CR2; auto. }
  - intros V0 Qb rev out H1 H2 H3 H4. unfold signer_answer.
    destruct (prep_round p wf V0 Qb G0 Q H1 H2 HG HQ) as ([V' a] & Ea & HA). rewrite Ea. cbn [bind].
    destruct (monomial_compose_action_spec p wf rev out Qs a H3 H4 HQs (proj1 HA)) as (z & Ez & Oz & Hz).
    rewrite Ez. cbn [bind].
    destruct (sim_round p G0 Gx Qs Q R V' a z V b HQs HQ OR PR CR' HP HA HB Oz Hz) as [-> ->]. reflexivity.
  - intros V0 Qb H1 H2. destruct (prep_round p wf V0 Qb Gx R H1 H2 HGx OR) as ([V' b'] & Eb' & HB'). rewrite Eb'.
    (* the result does not depend on the destinations: simulate with the identity *)
    destruct (monomial_mat_id_spec p wf _ J1) as (I & EI & OI & PI & CI).
    assert (PI' : forall i, (i < pN p)%nat -> pf (m_perm I) i = i) by (intros i Hi; unfold pf; rewrite PI by auto; lia).
    destruct (sim_round p Gx Gx I R R V b b V' b') as [-> ->]; auto.
    + intros i Hi. rewrite PI' by auto. reflexivity.
    + intros i Hi. rewrite CI, PI' by auto. rewrite Z.mul_1_l. reflexivity.
    + exists (ent Gx). split; [|intros v; reflexivity]. intros i s Hi Hs. 
      pose proof (PI' s Hs) as E. pose proof (CI s Hs) as F. unfold pf, nthZ in E, F. rewrite E, F, Z.mul_1_l. reflexivity.
    + apply HB.
    + intros k s Hk Hs E. rewrite PI' in E by auto. split; auto. rewrite CI by auto. rewrite Z.mul_1_r. reflexivity.
Qed.

(** The monomials R of the simulation: each comes from exactly one Q. *)
Theorem C53_bijection : forall p, wf_params p -> forall Qs R, good_mono p Qs -> good_mono p R ->
  exists Q, good_mono p Q /\ (forall r, mono_array p r -> monomial_mat_mul p r Qs Q = Ok R) /\
    forall r Q', mono_array p r -> good_mono p Q' -> monomial_mat_mul p r Qs Q' = Ok R -> Q' = Q.
Proof.
  intros p wf Qs R HQs HR.
  pose proof (junk_monomial_mem p (fun _ _ => 0) 0) as J. set (j := junk_monomial p (fun _ _ => 0) 0) in *.
  destruct (C21_inverse p wf j j j j Qs J J J J HQs) as (I & B & E0 & EB & HB & E1 & E2).
  destruct (C21_associative p wf j j j j Qs B R J J J J HQs HB HR) as (x & Q & y & F1 & F2 & F3 & F4 & F5).
  rewrite E1 in F1. injection F1 as <-.
  destruct (C21_identity p wf j j j R J J J HR) as (I' & G0 & GI & G1 & G2). rewrite E0 in G0. injection G0 as <-.
  rewrite G1 in F3. injection F3 as <-.
  assert (HQ : good_mono p Q).
  { apply good_mono_ok. apply good_mono_ok in HB. apply good_mono_ok in HR.
    destruct (monomial_mat_mul_spec p j B R J HB HR) as (q & Eq & Oq & _). rewrite F2 in Eq. injection Eq as <-. auto. }
  assert (IND : forall r A C D, mono_array p r -> good_mono p A -> good_mono p C ->
    monomial_mat_mul p j A C = Ok D -> monomial_mat_mul p r A C = Ok D).
  { intros r A C D Hr HA HC E. rewrite good_mono_ok in HA, HC.
    destruct (monomial_mat_mul_spec p j A C J HA HC) as (D1 & ED1 & O1 & P1 & C1).
    destruct (monomial_mat_mul_spec p r A C Hr HA HC) as (D2 & ED2 & O2 & P2 & C2).
    rewrite E in ED1. injection ED1 as <-. rewrite ED2. f_equal. apply (mono_ext p); auto.
    intros. rewrite P1, P2; auto. intros. rewrite C1, C2; auto. }
  exists Q. split; auto. split. { intros r Hr. apply IND; auto. }
  intros r Q' Hr HQ' E.
  assert (E' : monomial_mat_mul p j Qs Q' = Ok R).
  { rewrite good_mono_ok in HQs, HQ'.
    destruct (monomial_mat_mul_spec p j Qs Q' J HQs HQ') as (D1 & ED1 & O1 & P1 & C1).
    destruct (monomial_mat_mul_spec p r Qs Q' Hr HQs HQ') as (D2 & ED2 & O2 & P2 & C2).
    rewrite E in ED2. injection ED2 as <-. rewrite ED1. f_equal. apply (mono_ext p); auto.
    intros. rewrite P1, P2; auto. intros. rewrite C1, C2; auto. }
  destruct (C21_associative p wf j j j j B Qs Q' J J J J HB HQs HQ') as (x & y & z & K1 & K2 & K3 & K4 & K5).
  rewrite E2 in K1. injection K1 as <-. rewrite E' in K2. injection K2 as <-. rewrite F2 in K4. injection K4 as <-.
  destruct (C21_identity p wf j j j Q' J J J HQ') as (I' & L0 & LI & L1 & L2). rewrite E0 in L0. injection L0 as <-.
  rewrite L1 in K3. injection K3 as <-. reflexivity.
Qed.

(** *** Any secret for the same public component gives the same answers *)

(** If Qs and Qs' are both secrets for Gx (even for different G0), the ephemeral monomials can be paired off so that
    both signers give the same answer: an answer says nothing on which secret was used. *)
Theorem C53_witness : forall p, wf_params p -> forall G0 Qs G0' Qs' Gx,
  good_matrix p G0 -> good_matrix p G0' -> good_matrix p Gx -> good_mono p Qs -> good_mono p Qs' ->
  public_for p G0 Qs Gx -> public_for p G0' Qs' Gx ->
  exists f g, (forall Q, good_mono p Q -> good_mono p (f Q) /\ g (f Q) = Q) /\
    (forall Q, good_mono p Q -> good_mono p (g Q) /\ f (g Q) = Q) /\
    forall V0 Qb rev out Q, shape (pK p) (pN p - pK p) V0 -> act_array p Qb -> mono_array p rev -> act_array p out -> good_mono p Q ->
      exists V b, signer_answer p V0 Qb rev out G0 Qs Q = Ok (V, b) /\ signer_answer p V0 Qb rev out G0' Qs' (f Q) = Ok (V, b).
Proof.
  assert (HALF : forall p, wf_params p -> forall A B, good_mono p A -> good_mono p B -> exists f, forall Q, good_mono p Q -> good_mono p (f Q) /\
    exists R, good_mono p R /\ (forall r, mono_array p r -> monomial_mat_mul p r A Q = Ok R) /\ (forall r, mono_array p r -> monomial_mat_mul p r B (f Q) = Ok R)).
  { intros p wf A B HA HB. pose proof (junk_monomial_mem p (fun _ _ => 0) 0) as J. set (j := junk_monomial p (fun _ _ => 0) 0) in *.
    destruct (C21_inverse p wf j j j j B J J J J HB) as (I & Bi & E0 & EB & HBi & E1 & E2).
    exists (fun Q => match monomial_mat_mul p j A Q with Ok R => match monomial_mat_mul p j Bi R with Ok Q' => Q' | _ => Q end | _ => Q end).
    intros Q HQ. pose proof HA as HA'. pose proof HQ as HQ'. rewrite good_mono_ok in HA', HQ'.
    destruct (monomial_mat_mul_spec p j A Q J HA' HQ') as (R & ER & OR & PR & CR). rewrite ER.
    assert (HR : good_mono p R) by (apply good_mono_ok; auto).
    destruct (C21_associative p wf j j j j B Bi R J J J J HB HBi HR) as (x & S0 & y & F1 & F2 & F3 & F4 & F5).
    rewrite F2. rewrite E1 in F1. injection F1 as <-.
    destruct (C21_identity p wf j j j R J J J HR) as (I' & G0 & GI & G1 & G2). rewrite E0 in G0. injection G0 as <-.
    rewrite G1 in F3. injection F3 as <-.
    destruct (C53_bijection p wf B R HB HR) as (S1 & HS & ES & US).
    assert (S0 = S1). { apply (US j S0 J); auto. apply good_mono_ok. apply good_mono_ok in HBi.
      destruct (monomial_mat_mul_spec p j Bi R J HBi OR) as (q & Eq & Oq & _). rewrite F2 in Eq. injection Eq as <-. auto. }
    subst S1. split; auto. exists R. split; auto. split; auto.
    intros r Hr. destruct (monomial_mat_mul_spec p r A Q Hr HA' HQ') as (R' & ER' & OR' & PR' & CR2).
    rewrite ER'. f_equal. apply (mono_ext p); auto. { intros. rewrite PR, PR'; auto. } { intros. rewrite CR, CR2; auto. } }
  intros p wf G0 Qs G0' Qs' Gx HG HG' HGx HQs HQs' HP HP'.
  pose proof (junk_monomial_mem p (fun _ _ => 0) 0) as J.
  destruct (HALF p wf Qs Qs' HQs HQs') as (f & Hf). destruct (HALF p wf Qs' Qs HQs' HQs) as (g & Hg).
  assert (CAN : forall A B h k, good_mono p A -> good_mono p B ->
    (forall Q, good_mono p Q -> good_mono p (h Q) /\ exists R, good_mono p R /\
      (forall r, mono_array p r -> monomial_mat_mul p r A Q = Ok R) /\ (forall r, mono_array p r -> monomial_mat_mul p r B (h Q) = Ok R)) ->
    (forall Q, good_mono p Q -> good_mono p (k Q) /\ exists R, good_mono p R /\
      (forall r, mono_array p r -> monomial_mat_mul p r B Q = Ok R) /\ (forall r, mono_array p r -> monomial_mat_mul p r A (k Q) = Ok R)) ->
    forall Q, good_mono p Q -> good_mono p (h Q) /\ k (h Q) = Q).
  { intros A B h k HA HB Hh Hk Q HQ. destruct (Hh Q HQ) as (H1 & R & HR & H2 & H3). split; auto.
    destruct (Hk (h Q) H1) as (K1 & R' & HR' & K2 & K3).
    pose proof (H3 _ J) as E. rewrite (K2 _ J) in E. injection E as <-.
    destruct (C53_bijection p wf A R' HA HR') as (S0 & HS & _ & US).
    transitivity S0. { apply (US _ _ J); auto. } symmetry. apply (US _ _ J); auto. }
  exists f, g. split. { apply (CAN Qs Qs'); auto. } split. { apply (CAN Qs' Qs); auto. }
  intros V0 Qb rev out Q H1 H2 H3 H4 HQ. destruct (Hf Q HQ) as (HfQ & R & HR & M1 & M2).
  destruct (C53_simulator p wf G0 Gx Qs Q HG HGx HQs HQ HP) as (R1 & V & b & _ & _ & E1 & S1 & P1).
  destruct (C53_simulator p wf G0' Gx Qs' (f Q) HG' HGx HQs' HfQ HP') as (R2 & V' & b' & _ & _ & E2 & S2 & P2).
  pose proof (E1 _ J) as X1. rewrite (M1 _ J) in X1. injection X1 as <-.
  pose proof (E2 _ J) as X2. rewrite (M2 _ J) in X2. injection X2 as <-.
  exists V, b. split. { apply S1; auto. } rewrite S2 by auto. rewrite <- (P2 V0 Qb), <- (P1 V0 Qb) by auto. reflexivity.
Qed.

(** *** Which answers there are *)
Section R.
Variable p : params.
Hypothesis wf : wf_params p.
Notation N := (pN p).
Notation K := (pK p).

Lemma row_sub_sel n A B g e : (forall k, (k < n)%nat -> (g k < N)%nat) -> row_sub K N A B ->
  row_sub K n (fun i k => e k * A i (g k)) (fun i k => e k * B i (g k)).
Proof using.
  intros Hg (f & F1 & F2). exists f. split; auto. intros a k Hk.
  rewrite (sumn_ext K (fun i => a i * (e k * A i (g k))) (fun i => e k * (a i * A i (g k)))) by (intros; ring).
  rewrite (sumn_ext K (fun i => f a i * (e k * B i (g k))) (fun i => e k * (f a i * B i (g k)))) by (intros; ring).
  rewrite !sumn_scal. rewrite F1 by auto. reflexivity.
Qed.

(** If the first K columns are independent, they are the pivot columns. *)
Lemma leading_pivots R pv : is_rref K N R pv -> full_rank K K R -> forall i, (i < K)%nat -> pv i = i.
Proof using.
  intros (R1 & R2 & R3 & R4) HF.
  assert (MONO : forall d i, (i + d < K)%nat -> (pv i + d <= pv (i + d))%nat).
  { induction d as [|d IH]; intros i Hi. { rewrite !Nat.add_0_r. lia. }
    specialize (IH i ltac:(lia)). specialize (R2 (i + d)%nat (i + S d)%nat ltac:(lia) Hi). lia. }
  intros i Hi.
  assert (L : (pv (K - 1) < K)%nat).
  { destruct (Nat.lt_ge_cases (pv (K - 1)%nat) K) as [H|H]; auto. exfalso.
    apply (zero_row_not_full_rank K K R (K - 1)%nat); auto; [lia|].
    intros j Hj. rewrite R4 by lia. reflexivity. }
  pose proof (MONO (K - 1 - i)%nat i ltac:(lia)) as M1. replace (i + (K - 1 - i))%nat with (K - 1)%nat in M1 by lia.
  pose proof (MONO i 0%nat ltac:(lia)) as M2. cbn [Nat.add] in M2. lia.
Qed.


Lemma id_key Gx I : mono_ok p I -> (forall i, (i < N)%nat -> nthZ (m_perm I) i = Z.of_nat i) ->
  (forall i, (i < N)%nat -> nthZ (m_coef I) i = 1) -> key_rel p Gx I Gx.
Proof using.
  intros OI PI CI. exists (ent Gx). split; [|apply row_equiv_refl].
  intros i j Hi Hj. unfold pf. rewrite PI, CI by auto. rewrite Nat2Z.id. change (fq_inv 1) with 1. rewrite Z.mul_1_l. reflexivity.
Qed.

(** The verifier recomputes the matrix of a simulated answer. *)
Lemma sim_accept Gx R V b V1 : G_ok p Gx -> mono_ok p R -> prep_rel p Gx R V b -> shape K (N - K) V1 -> verifier_round p V1 Gx b = Ok V.
Proof using wf.
  intros HGx OR HB S1. destruct (monomial_mat_id_spec p wf _ (junk_monomial_mem p (fun _ _ => 0) 0)) as (I & _ & OI & PI & CI).
  destruct (chal_round p wf V1 Gx b S1 HGx (proj1 HB)) as (V2 & E2 & _ & HC). unfold verifier_round. rewrite E2. f_equal.
  apply (chal_match p wf Gx R V b I Gx b V2 1); auto.
  - intros C; apply cong_eq in C; try discriminate; unfold fq; lia.
  - apply HB.
  - apply id_key; auto.
  - intros k s Hk Hs E. unfold pf in E at 2. rewrite PI in E by auto. rewrite Nat2Z.id in E. split; auto.
    rewrite CI by auto. rewrite Z.mul_1_r, Z.mul_1_l. reflexivity.
Qed.

Lemma sim_information Gx R V b : mono_ok p R -> prep_rel p Gx R V b -> information_set K (ent Gx) (a_perm b).
Proof using wf.
  intros OR (HB & M & Rr & pv & fl & B1 & B2 & B3 & B4 & B5 & B6 & B7) a Ha.
  assert (H : full_rank K K (fun i k => 1 * M i (pv k))).
  { apply (row_sub_full_rank K K _ (fun i k => 1 * Rr i (pv k))).
    - apply row_sub_sel. { intros k Hk. apply B4. auto. } apply row_equiv_sym in B2. apply B2.
    - intros c Hc i Hi. specialize (Hc i Hi). destruct B4 as (R1 & R2 & R3 & R4).
      rewrite (sumn_single K i) in Hc; auto.
      + rewrite R3 in Hc by auto. rewrite Nat.eqb_refl, !Z.mul_1_r in Hc. exact Hc.
      + intros l Hl Hn. rewrite R3 by auto. destruct (Nat.eqb_spec l i); [lia|]. rewrite !Z.mul_0_r. reflexivity. }
  apply H. intros k Hk. destruct (B7 k Hk) as (P1 & P2 & P3).
  transitivity (nthZ (m_coef R) (pf (a_perm b) k) * sumn K (fun i => a i * ent Gx i (pf (a_perm b) k))).
  - rewrite <- sumn_scal. apply sumn_cong. intros i Hi. rewrite <- P1, Z.mul_1_l. rewrite B1 by auto.
    rewrite !Z.mul_assoc, (Z.mul_comm (a i)). reflexivity.
  - specialize (Ha k Hk). unfold pf, nthZ in *. rewrite Ha, Z.mul_0_r. reflexivity.
Qed.

(** A monomial that carries the columns of an action to the front, scaled. *)
Lemma sim_front b : act_ok p b -> exists R, mono_ok p R /\
  (forall k, (k < N)%nat -> pf (m_perm R) (act_src p b k) = k /\
     nthZ (m_coef R) (act_src p b k) = if (k <? K)%nat then nthZ (a_coef b) k else 1).
Proof using wf.
  intros HB. destruct (bij_inv N _ (act_src_bij p wf b HB)) as (h & (Bh1 & Bh2) & H1 & H2).
  exists {| m_perm := map (fun s => Z.of_nat (h s)) (seq 0 N);
            m_coef := map (fun s => if (h s <? K)%nat then nthZ (a_coef b) (h s) else 1) (seq 0 N) |}. split.
  - constructor; cbn [m_perm m_coef].
    + apply perm_list_intro. { rewrite map_length, seq_length. auto. }
      * intros i Hi. unfold nthZ. rewrite nth_map_seq by auto. specialize (Bh1 i Hi). lia.
      * intros i j Hi Hj. unfold nthZ. rewrite !nth_map_seq by auto. intros E. apply Bh2; auto. lia.
    + rewrite map_length, seq_length. auto.
    + apply Forall_forall. intros x Hx. apply in_map_iff in Hx. destruct Hx as (s & <- & _).
      destruct (Nat.ltb_spec (h s) K). { apply (ao_coef p b HB). auto. } unfold fq_unit. lia.
  - intros k Hk. assert (Hs : (act_src p b k < N)%nat) by (apply (act_src_bij p wf b HB); auto).
    cbn [m_perm m_coef]. unfold pf, nthZ at 1 2. rewrite !nth_map_seq by auto. rewrite Nat2Z.id, H1 by auto. auto.
Qed.

Lemma sim_reach Gx b : G_ok p Gx -> act_ok p b -> information_set K (ent Gx) (a_perm b) ->
  exists R, mono_ok p R /\ forall V b', prep_rel p Gx R V b' -> b' = b.
Proof using wf.
  intros HGx HB HI. destruct (sim_front b HB) as (R & OR & HR). exists R. split; auto.
  intros V b' (HB' & M & Rr & pv & fl & B1 & B2 & B3 & B4 & B5 & B6 & B7). pose proof (wf_K p wf) as HK.
  pose proof (act_src_bij p wf b HB) as BA.
  assert (EM : forall i k, (i < K)%nat -> (k < K)%nat -> M i k == nthZ (a_coef b) k * ent Gx i (pf (a_perm b) k)).
  { intros i k Hi Hk. destruct (HR k ltac:(lia)) as [P1 P2]. specialize (B1 i (act_src p b k) Hi ltac:(apply BA; lia)).
    rewrite P1, P2 in B1. assert (EA : act_src p b k = pf (a_perm b) k) by (unfold act_src; destruct (Nat.ltb_spec k K); [auto|lia]).
    rewrite EA in B1. destruct (Nat.ltb_spec k K); [exact B1|lia]. }
  assert (FR : full_rank K K Rr).
  { apply (row_sub_full_rank K K _ M).
    - destruct B2 as [(f & F1 & F2) _]. exists f. split; auto. intros a j Hj. apply F1. lia.
    - intros a Ha. apply HI. intros k Hk. specialize (Ha k Hk).
      assert (U : fq_unit (nthZ (a_coef b) k)) by (apply (ao_coef p b HB); auto).
      assert (E : nthZ (a_coef b) k * sumn K (fun i => a i * ent Gx i (pf (a_perm b) k)) == 0).
      { rewrite <- sumn_scal. etransitivity; [|exact Ha]. apply sumn_cong. intros i Hi. rewrite EM by auto.
        rewrite !Z.mul_assoc, (Z.mul_comm (a i)). reflexivity. }
      assert (E2 : fq_inv (nthZ (a_coef b) k) * (nthZ (a_coef b) k * sumn K (fun i => a i * ent Gx i (pf (a_perm b) k))) == 0).
      { rewrite E, Z.mul_0_r. reflexivity. }
      rewrite Z.mul_assoc, fq_unit_inv_l, Z.mul_1_l in E2 by auto. exact E2. }
  pose proof (leading_pivots Rr pv B4 FR) as EP.
  pose proof (perm_list_bij N _ (mo_perm p R OR)) as BR.
  assert (EQ : forall k, (k < K)%nat -> pf (a_perm b') k = act_src p b k).
  { intros k Hk. destruct (B7 k Hk) as (P1 & P2 & P3). apply (proj2 BR); auto. { apply BA. lia. }
    rewrite P1, EP by auto. symmetry. apply HR. lia. }
  apply (act_ext p); auto.
  - intros k Hk. rewrite EQ by auto. unfold act_src. destruct (Nat.ltb_spec k K); [auto|lia].
  - intros k Hk. destruct (B7 k Hk) as (P1 & P2 & P3). rewrite P3, EQ by auto.
    destruct (HR k ltac:(lia)) as [_ P4]. rewrite P4. destruct (Nat.ltb_spec k K); [auto|lia].
Qed.
End R.

(** The answers of the signer, over all ephemeral monomials, are exactly the well-formed responses that name an
    information set of the public code, each with the matrix the verifier recomputes from it: no such answer is
    impossible, and the secret does not appear. *)
Theorem C53_answers : forall p, wf_params p -> forall G0 Gx Qs,
  good_matrix p G0 -> good_matrix p Gx -> good_mono p Qs -> public_for p G0 Qs Gx ->
  forall V0 Qb rev out V1, shape (pK p) (pN p - pK p) V0 -> act_array p Qb -> mono_array p rev -> act_array p out ->
  shape (pK p) (pN p - pK p) V1 ->
  forall V b, (exists Q, good_mono p Q /\ signer_answer p V0 Qb rev out G0 Qs Q = Ok (V, b)) <->
    (good_act p b /\ information_set (pK p) (ent Gx) (a_perm b) /\ verifier_round p V1 Gx b = Ok V).
Proof.
  intros p wf G0 Gx Qs HG HGx HQs HP V0 Qb rev out V1 S0 AQ MR AO S1 V b. split.
  - intros (Q & HQ & E). destruct (C53_simulator p wf G0 Gx Qs Q HG HGx HQs HQ HP) as (R & V' & b' & HR & HB & _ & X1 & X2).
    rewrite X1 in E by auto. injection E as <- <-. rewrite good_mono_ok in HR.
    destruct (prep_round p wf V0 Qb Gx R S0 AQ HGx HR) as ([V b] & E & HPR). rewrite X2 in E by auto. injection E as <- <-.
    split; auto. split. { apply (sim_information p wf Gx R V' b'); auto. } apply (sim_accept p wf Gx R V' b' V1); auto.
  - intros (HB & HI & EV). rewrite good_act_ok in HB. destruct (sim_reach p wf Gx b HGx HB HI) as (R & OR & HR).
    destruct (prep_round p wf V0 Qb Gx R S0 AQ HGx OR) as ([V' b'] & E & HPR). pose proof (HR _ _ HPR) as ->.
    pose proof (sim_accept p wf Gx R V' b V1 HGx OR HPR S1) as EV'. rewrite EV in EV'. injection EV' as <-.
    assert (GR : good_mono p R) by (apply good_mono_ok; auto).
    destruct (C53_bijection p wf Qs R HQs GR) as (Q & HQ & EQ & _). exists Q. split; auto.
    destruct (C53_simulator p wf G0 Gx Qs Q HG HGx HQs HQ HP) as (R' & V' & b' & _ & _ & Y1 & Y2 & Y3).
    pose proof (junk_monomial_mem p (fun _ _ => 0) 0) as J. pose proof (Y1 _ J) as Z1. rewrite (EQ _ J) in Z1. injection Z1 as <-.
    rewrite Y2 by auto. rewrite <- (Y3 V0 Qb) by auto. exact E.
Qed.

(** *** Signatures *)

(** What one can make from the public matrix [G] alone with any monomial matrix (perm, coef): the normal form [V] of
    the code of G (perm, coef), and in [chunk] the packed columns of G that reach its pivots. *)
Definition simulated (p : params) (G : matf) (V : list (list Z)) (chunk : list Z) : Prop :=
  exists perm coef M R piv rp rc,
    good_monomial (pN p) perm coef /\ times_monomial (pK p) (pN p) G perm coef M /\ normal_form (pK p) (pN p) M V /\
    same_code (pK p) (pN p) M R /\ is_rref (pK p) (pN p) R piv /\
    packed_action p chunk rp rc /\ length rp = pK p /\ length rc = pK p /\
    forall k, (k < pK p)%nat -> exists j, (j < pN p)%nat /\ nth k rp 0 = Z.of_nat j /\
      nth j perm 0 = Z.of_nat (piv k) /\ nth k rc 0 = nth j coef 0.

(** Every response of an honest signature, with the normal form that was hashed, is one that is made from the
    public key in this way. *)
Theorem C53_signature : forall X p, wf_params p -> lawful X (hash_len p) ->
  forall r1 sk pk r1', generates X p r1 sk pk r1' ->
  forall r2 m old sig num r2', signs X p r2 sk m old sig num r2' ->
  exists chal Vs, challenge_of X p (bytes_at sig (off_digest p) (hash_len p)) chal /\ length Vs = pT p /\
    bytes_at sig (off_digest p) (hash_len p) = hash X (concat (map (@concat Z) Vs) ++ m ++ bytes_at sig 0 (hash_len p)) /\
    forall t, (t < pT p)%nat -> nth t chal 0 <> 0 -> exists G, key_matrix X p pk (nth t chal 0) G /\
      simulated p G (nth t Vs []) (bytes_at sig (off_monom p (weight (firstn t chal))) (mono_bytes p)).
Proof.
  intros X p wf LX r1 sk pk r1' HG r2 m old sig num r2'
    (root & salt & rng1 & G0 & rounds & chal & nodes & seeds & A1 & A2 & A3 & A4 & A5 & A6 & A7 & A8 & A9 & A10 & _).
  pose proof (C39_keys X p wf LX _ _ _ _ HG) as (_ & SL & _).
  destruct HG as (csk & g0 & rr & G0' & B1 & B2 & B3 & B4 & B5 & B6 & B7).
  pose proof (law_sq_len _ _ LX (prikey_seed_len p) r1) as L1. rewrite B1 in L1. cbn [fst] in L1.
  pose proof (law_sq_len _ _ LX (seed_len p) rr) as L2. rewrite B2 in L2. cbn [fst] in L2.
  assert (E1 : bytes_at sk 0 (prikey_seed_len p) = csk).
  { unfold bytes_at. rewrite B3. cbn [skipn]. rewrite firstn_app, L1, Nat.sub_diag, firstn_O, app_nil_r. apply firstn_all2. lia. }
  assert (E2 : bytes_at sk (off_sk_g0 p) (seed_len p) = g0).
  { unfold bytes_at, off_sk_g0. rewrite B3, skipn_app, L1, Nat.sub_diag. rewrite skipn_all2 by lia. cbn [skipn app]. apply firstn_all2. lia. }
  rewrite E2 in A3. rewrite E1 in A9.
  pose proof (generator_of_det X p _ _ _ A3 B6) as EG.
  exists chal, (map snd rounds). split. { rewrite A10. exact A6. } split. { rewrite map_length. exact A4. }
  split. { rewrite A10, A8, map_map. reflexivity. }
  intros t Ht Hn. destruct (challenge_of_ok X p wf _ _ A6) as (CL & _ & CR).
  assert (RG : 0 <= nth t chal 0 < Z.of_nat (p_nk p)). { rewrite Forall_forall in CR. apply CR. apply nth_In. lia. }
  destruct (nth t rounds ([], [], fun _ => 0%nat, [])) as [[[perm coef] piv] V] eqn:ER.
  assert (EV : nth t (map snd rounds) [] = V). { change ([] : list (list Z)) with (snd (([], [], (fun _ => 0%nat), []) : list Z * list Z * (nat -> nat) * list (list Z))). rewrite map_nth, ER. reflexivity. }
  rewrite EV. destruct (A5 t Ht _ _ _ _ ER) as (seed & M & R & C1 & C2 & C3 & C4 & C5 & C6).
  destruct (A9 t Ht Hn _ _ _ _ ER) as (pb & cb & D1 & rp & rc & D2 & D3 & D4 & D5 & D6).
  destruct (B7 (Z.to_nat (nth t chal 0 - 1)) ltac:(lia)) as (pb' & cb' & Mx & G & pv & F1 & F2 & F3 & F4 & F5 & F6).
  destruct (monomial_of_det X p _ _ _ _ _ D1 F1) as [<- <-].
  pose proof (monomial_of_ok X p wf LX _ _ _ C2) as OQ. pose proof (monomial_of_ok X p wf LX _ _ _ D1) as OS.
  set (Q := {| m_perm := perm; m_coef := coef |}) in *. set (Qs := {| m_perm := pb; m_coef := cb |}) in *.
  destruct (monomial_mat_mul_spec p _ Qs Q (junk_monomial_mem p (fun _ _ => 0) 0) OS OQ) as (P & _ & OP & PP & CP).
  pose proof (perm_list_bij (pN p) _ (mo_perm p P OP)) as BP. destruct (bij_inv (pN p) _ BP) as (h & Bh & H1 & H2).
  set (M2 := fun i c => nthZ (m_coef P) (h c) * G i (h c)).
  assert (T2 : times_monomial (pK p) (pN p) G (m_perm P) (m_coef P) M2).
  { intros i s Hi Hs. unfold M2. fold (nthZ (m_perm P) s). fold (pf (m_perm P) s). rewrite H1 by auto. reflexivity. }
  assert (CP' : forall i, (i < pN p)%nat -> nthZ (m_coef P) i == nthZ cb i * nthZ coef (pf pb i)).
  { intros i Hi. rewrite CP by auto. apply fq_red_mul. apply (mo_c p Qs); auto. apply (mo_c p Q); auto. apply (mo_p p Qs); auto. }
  assert (SC : same_code (pK p) (pN p) M M2).
  { apply (sim_code p G0' Mx G M M2 Qs Q P); auto. intros i s Hi Hs. rewrite <- EG by auto. apply C3; auto. }
  exists G. split.
  { unfold key_matrix. destruct (Z.eqb_spec (nth t chal 0) 0); [lia|]. exists pv. auto. }
  exists (m_perm P), (m_coef P), M2, R, piv, rp, rc.
  split. { apply (proj2 (good_mono_ok p P) OP). } split. { exact T2. } split.
  { destruct C6 as (R' & piv' & cs & N1 & N2). exists R', piv', cs. split; [|exact N2].
    eapply same_code_trans; [apply same_code_sym; exact SC|exact N1]. }
  split. { eapply same_code_trans; [apply same_code_sym; exact SC|exact C4]. }
  split; auto. split; auto. split; auto. split; auto.
  intros k Hk. destruct (D6 k Hk) as (j & s & Hj & Hs & I1 & I2 & I3 & I4). exists j. split; auto. split; auto.
  assert (ES : pf pb j = s) by (unfold pf, nthZ; rewrite I2; lia).
  split.
  - pose proof (PP j Hj) as E. cbn [m_perm Q Qs] in E. rewrite ES in E.
    assert (E' : pf (m_perm P) j = piv k). { rewrite E. unfold pf, nthZ. rewrite I3. lia. }
    pose proof (perm_list_range (pN p) (m_perm P) j (mo_perm p P OP) Hj) as RGE. unfold pf, nthZ in E', RGE. lia.
  - apply cong_eq.
    + rewrite Forall_forall in D3. apply fq_unit_fq. apply D3. apply nth_In. lia.
    + apply (mo_c p P j OP Hj).
    + rewrite I4. pose proof (CP' j Hj) as E. rewrite ES in E. unfold nthZ in E. rewrite E, Z.mul_comm. reflexivity.
Qed.

(** *** Examples *)

(** A key on the toy parameters: public component [ex_G], private monomial [ex_mono]. *)
Definition ex_G0 : mat := match generator_monomial_mul toy_params (repeat (repeat 9 132) 3) ex_G ex_mono with Ok G => G | _ => [] end.
Example C53_example : good_matrix toy_params ex_G0 /\ good_matrix toy_params ex_G /\ good_mono toy_params ex_mono /\
  public_for toy_params ex_G0 ex_mono ex_G /\ information_set 3 (ent ex_G) [0; 2; 5] /\
  (' (V, b) <- signer_answer toy_params ex_V0 ex_A0 ex_M0 ex_A0 ex_G0 ex_mono ex_mono ;;
   R <- monomial_mat_mul toy_params ex_M0 ex_mono ex_mono ;;
   ' (V', b') <- prepare_digest_input toy_params ex_V0 ex_A0 ex_G R ;;
   Ok (if list_eq_dec (list_eq_dec Z.eq_dec) V V' then true else false, a_perm b, a_coef b, a_perm b', a_coef b')) =
  Ok (true, [122; 123; 0], [79; 64; 16], [122; 123; 0], [79; 64; 16]).
Proof.
  destruct C13_example as (S1 & S2 & S3 & S4). pose proof (proj1 C21_example) as HM.
  assert (HR : matrix toy_params (repeat (repeat 9 132) 3)).
  { split. apply repeat_length. apply Forall_forall. intros x Hx. apply repeat_spec in Hx. subst. apply repeat_length. }
  destruct (C21_product toy_params toy_wf _ ex_G ex_mono HR S1 S2 HM) as (G & E & T1 & T2 & T3).
  assert (EG : ex_G0 = G) by (unfold ex_G0; rewrite E; reflexivity).
  assert (FR : full_rank 3 132 (ent ex_G)) by (apply (rref_full_rank 3 132 _ ex_pivot S3)).
  assert (HG : good_matrix toy_params ex_G) by (split; [exact S1|split; [exact S2|exact FR]]).
  rewrite EG. split; [|split; [|split; [|split; [|split]]]]; auto.
  - split; auto. split; auto. apply good_mono_ok in HM.
    pose proof (perm_list_bij 132 _ (mo_perm toy_params ex_mono HM)) as BJ. destruct (bij_inv 132 _ BJ) as (h & Bh & H1 & H2).
    apply (full_rank_cols toy_params (ent ex_G) (ent G) h (fun c => nthZ (m_coef ex_mono) (h c))); auto.
    + intros c Hc. apply fq_unit_nz. apply (mono_coef toy_params); auto. apply Bh. exact Hc.
    + intros i c Hi Hc. rewrite <- (H2 c Hc) at 1. apply T3; auto. apply Bh. exact Hc.
  - exists (ent ex_G). split; [exact T3|]. intros v. reflexivity.
  - intros a Ha i Hi. destruct S3 as (_ & _ & S3 & _).
    assert (EP : forall k, (k < 3)%nat -> Z.to_nat (nth k [0; 2; 5] 0) = ex_pivot k) by (intros [|[|[|k]]] Hk; try reflexivity; lia).
    specialize (Ha i Hi). rewrite (sumn_single 3 i) in Ha; auto.
    + rewrite EP, S3 in Ha by auto. rewrite Nat.eqb_refl, Z.mul_1_r in Ha. exact Ha.
    + intros l Hl Hn. rewrite EP, S3 by auto. destruct (Nat.eqb_spec l i); [lia|]. rewrite Z.mul_0_r. reflexivity.
  - rewrite <- EG. vm_compute. reflexivity.
Qed.

(** The two responses of the toy signature, made for components 2 and 1 of the key. *)
Example C53_signature_example : exists Vs, length Vs = 6%nat /\ forall t, In t [2; 3]%nat ->
  exists G, key_matrix toyX toy_params toy_pk (nth t [0; 0; 2; 1; 0; 0] 0) G /\
    simulated toy_params G (nth t Vs []) (bytes_at toy_sig80 (off_monom toy_params (t - 2)) (mono_bytes toy_params)).
Proof.
  destruct (C53_signature toyX toy_params toy_wf toyX_lawful _ _ _ _ C39_example _ _ _ _ _ _ C40_example) as (c & Vs & C & L & _ & H).
  assert (E : challenge_of toyX toy_params (bytes_at toy_sig80 (off_digest toy_params) (hash_len toy_params)) [0; 0; 2; 1; 0; 0])
    by (apply toy_challenge_of; vm_compute; reflexivity).
  pose proof (challenge_of_det toyX toy_params _ _ _ C E) as ->.
  exists Vs. split; [exact L|]. intros t [<- | [<- | []]].
  - apply (H 2%nat); [apply Nat.ltb_lt; reflexivity|discriminate].
  - apply (H 3%nat); [apply Nat.ltb_lt; reflexivity|discriminate].
Qed.

Print Assumptions C53_simulator.
Print Assumptions C53_bijection.
Print Assumptions C53_witness.
Print Assumptions C53_answers.
Print Assumptions C53_signature.
