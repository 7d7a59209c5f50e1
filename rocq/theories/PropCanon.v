(** Properties C18 and C33: the normalised matrix that is hashed. *)
From Coq Require Import Permutation Sorted.
From Verif Require Import Base BaseLemmas Params ParamsProofs Fq Prim Samplers Monomial Codes Less Spec
  FqProofs Sums LinAlg RrefProofs LexProofs SortProofs EnumProofs MonoProofs ActionProofs CanonProofs RoundProofs
  PropCodec PropMono PropLinAlg.

(** LESS.c:256-277: the part of a challenge round of LESS_verify between unpacking the response and
    hashing (the text of [verify_loop], repeated here as a function of its own). *)
Definition verifier_round (p : params) (V Gx : mat) (a : action) : res mat :=
  Gh <- apply_action_to_G p (repeat (repeat 0 (pN p)) (pK p)) Gx a ;;
  ' (_, Gr, piv) <- generator_RREF p Gh (repeat 0 (pN p)) ;;
  V1 <- verify_normalize p V Gr piv ;;
  lex_sort_cols p V1.

Definition good_matrix (p : params) (G : mat) : Prop :=
  shape (pK p) (pN p) G /\ reduced (pK p) (pN p) (ent G) /\ full_rank (pK p) (pN p) (ent G).
Definition good_act (p : params) (a : action) : Prop := good_action (pK p) (pN p) (a_perm a) (a_coef a).
Definition act_array (p : params) (a : action) : Prop := length (a_perm a) = pK p /\ length (a_coef a) = pK p.

(** *** Equivalence of codes is an equivalence relation *)
Section E.
Variables K N : nat.

Lemma cols_same_code A B g e : (forall a, (a < N)%nat -> (g a < N)%nat) -> same_code K N A B ->
  same_code K N (fun i a => e a * A i (g a)) (fun i a => e a * B i (g a)).
Proof.
  assert (H : forall A B, (forall a, (a < N)%nat -> (g a < N)%nat) -> same_code K N A B ->
    forall v, in_code K N (fun i a => e a * A i (g a)) v -> in_code K N (fun i a => e a * B i (g a)) v).
  { intros A' B' Hg S v (a & Hv).
    destruct (proj1 (S (fun j => sumn K (fun i => a i * A' i j)))) as (b & Hb). { exists a. reflexivity. }
    exists b. intros j Hj. rewrite Hv by auto.
    rewrite (sumn_ext K (fun i => a i * (e j * A' i (g j))) (fun i => e j * (a i * A' i (g j)))) by (intros; ring).
    rewrite (sumn_ext K (fun i => b i * (e j * B' i (g j))) (fun i => e j * (b i * B' i (g j)))) by (intros; ring).
    rewrite !sumn_scal. rewrite (Hb (g j)) by auto. reflexivity. }
  intros Hg S v. split; apply H; auto. intros u. symmetry. apply S.
Qed.

Lemma cong_code A B : (forall i j, (i < K)%nat -> (j < N)%nat -> A i j == B i j) -> same_code K N A B.
Proof. intros H. apply row_equiv_same_code. apply row_equiv_cong. exact H. Qed.

Lemma equivalent_monomial A M g e : col_monomial K N A M g e -> equivalent_codes K N A M.
Proof. intros H. exists M, g, e. split; auto. intros v. reflexivity. Qed.

Lemma equivalent_code A B : same_code K N A B -> equivalent_codes K N A B.
Proof.
  intros H. exists A, (fun a => a), (fun _ => 1). split; auto. split; [|split].
  - split; auto.
  - intros _ _ C. apply cong_eq in C; try discriminate; unfold fq; lia.
  - intros. rewrite Z.mul_1_l. reflexivity.
Qed.

Lemma equivalent_trans A B C : equivalent_codes K N A B -> equivalent_codes K N B C -> equivalent_codes K N A C.
Proof.
  intros (M & g & e & ((G1 & G2) & He & HM) & S) (M' & g' & e' & ((G1' & G2') & He' & HM') & S').
  exists (fun i a => e' a * M i (g' a)), (fun a => g (g' a)), (fun a => e' a * e (g' a)). split.
  - split; [|split].
    + split; auto.
    + intros a Ha. apply cong_nonzero_mul; auto.
    + intros i a Hi Ha. rewrite HM by auto. rewrite Z.mul_assoc. reflexivity.
  - eapply same_code_trans; [|exact S']. eapply same_code_trans.
    + apply (cols_same_code M B g' e'); auto.
    + apply cong_code. intros i j Hi Hj. symmetry. auto.
Qed.

Lemma inverse_scalars (e : nat -> Z) : (forall a, (a < N)%nat -> ~ e a == 0) ->
  forall a, (a < N)%nat -> fq_inv (e a mod 127) * e a == 1 /\ ~ fq_inv (e a mod 127) == 0.
Proof.
  intros H a Ha. assert (U : fq_unit (e a mod 127)).
  { assert (R := Z.mod_pos_bound (e a) 127 ltac:(lia)). unfold fq_unit.
    assert (e a mod 127 <> 0); [|lia]. intros Z0. apply (H a Ha). exists (e a / 127). rewrite (Z.div_mod (e a) 127) at 1 by lia. lia. }
  assert (C : e a == e a mod 127). { exists (e a / 127). rewrite (Z.div_mod (e a) 127) at 1 by lia. lia. }
  split. { rewrite C at 2. apply fq_unit_inv_l. auto. } apply fq_unit_nz. apply fq_unit_inv. auto.
Qed.

Lemma equivalent_sym A B : equivalent_codes K N A B -> equivalent_codes K N B A.
Proof.
  intros (M & g & e & (BG & He & HM) & S). destruct (bij_inv N g BG) as (h & Bh & H1).
  exists (fun i a => fq_inv (e (h a) mod 127) * B i (h a)), h, (fun a => fq_inv (e (h a) mod 127)). 
  assert (Hh : forall a, (a < N)%nat -> (h a < N)%nat) by apply Bh.
  split; [split; [|split]|].
  - exact Bh.
  - intros a Ha. apply (inverse_scalars e He (h a)). auto.
  - intros. reflexivity.
  - eapply same_code_trans.
    + apply (cols_same_code B M h (fun a => fq_inv (e (h a) mod 127))); auto. apply same_code_sym. auto.
    + apply cong_code. intros i a Hi Ha. rewrite HM by auto. rewrite Z.mul_assoc.
      rewrite (proj1 (inverse_scalars e He (h a) (Hh a Ha))). rewrite Z.mul_1_l. 
      replace (g (h a)) with a. reflexivity. symmetry. apply H1. auto.
Qed.
End E.

Section R.
Variable p : params.
Hypothesis wf : wf_params p.
Notation N := (pN p).
Notation K := (pK p).
Notation w := (pN p - pK p)%nat.

Lemma good_act_ok a : good_act p a <-> act_ok p a.
Proof. symmetry. apply good_action_iff. Qed.

Lemma prep_normal G Q V a : prep_rel p G Q V a ->
  exists M, times_monomial K N (ent G) (m_perm Q) (m_coef Q) M /\ normal_form K N M V.
Proof.
  intros (HA & M & R & pv & fl & A1 & A2 & A3 & A4 & A5 & A6 & A7). exists M. split; [exact A1|].
  apply (digest_normal_form p M R pv fl); auto.
Qed.

Lemma chal_normal Gx a V : act_ok p a -> chal_rel p Gx a V ->
  exists M, times_action K N (ent Gx) (a_perm a) (a_coef a) M /\ normal_form K N M V.
Proof.
  intros HA (M & R & pv & fl & A1 & A2 & A3 & A4 & A5 & A6). exists M. split.
  - apply times_action_src; auto.
  - apply (digest_normal_form p M R pv fl); auto.
Qed.

Lemma action_equivalent G a M : act_ok p a -> times_action K N G (a_perm a) (a_coef a) M -> equivalent_codes K N G M.
Proof.
  intros HA HT. pose proof (proj1 (times_action_src p wf G a M HA) HT) as HT'. clear HT. rename HT' into HT.
  apply (equivalent_monomial K N G M (act_src p a) (fun k => if (k <? K)%nat then nthZ (a_coef a) k else 1)).
  split; [|split].
  - apply act_src_bij; auto.
  - intros k Hk. destruct (Nat.ltb_spec k K). { apply fq_unit_nz. apply (ao_coef p a HA). auto. }
    intros C. apply cong_eq in C; try discriminate; unfold fq; lia.
  - exact HT.
Qed.

Lemma monomial_equivalent G Q M : mono_ok p Q -> times_monomial K N G (m_perm Q) (m_coef Q) M -> equivalent_codes K N G M.
Proof.
  intros HQ HT. pose proof (perm_list_bij N _ (mo_perm p Q HQ)) as BJ. destruct (bij_inv N _ BJ) as (h & Bh & H1).
  apply (equivalent_monomial K N G M h (fun c => nthZ (m_coef Q) (h c))). split; [|split].
  - exact Bh.
  - intros c Hc. apply fq_unit_nz. apply (mono_coef p); auto. apply Bh. auto.
  - intros i c Hi Hc. assert (Hh : (h c < N)%nat) by (apply Bh; auto).
    specialize (HT i (h c) Hi Hh). fold (nthZ (m_perm Q) (h c)) in HT. fold (pf (m_perm Q) (h c)) in HT.
    replace (pf (m_perm Q) (h c)) with c in HT by (symmetry; apply H1; auto). exact HT.
Qed.
End R.

(** *** C18 *)

(** The signer hashes the normal form of the code generated by G * Q, and records the columns of G
    which Q moves to the pivot positions. *)
Theorem C18_signer : forall p, wf_params p -> forall V Qb G Q,
  shape (pK p) (pN p - pK p) V -> act_array p Qb -> good_matrix p G -> good_mono p Q ->
  exists V' a M R piv, prepare_digest_input p V Qb G Q = Ok (V', a) /\ good_act p a /\
    times_monomial (pK p) (pN p) (ent G) (m_perm Q) (m_coef Q) M /\ normal_form (pK p) (pN p) M V' /\
    same_code (pK p) (pN p) M R /\ is_rref (pK p) (pN p) R piv /\
    (forall k, (k < pK p)%nat ->
       nth (Z.to_nat (nth k (a_perm a) 0)) (m_perm Q) 0 = Z.of_nat (piv k) /\
       nth k (a_coef a) 0 = nth (Z.to_nat (nth k (a_perm a) 0)) (m_coef Q) 0).
Proof.
  intros p wf V Qb G Q SV MQ HG HQ. apply good_mono_ok in HQ.
  destruct (prep_round p wf V Qb G Q SV MQ HG HQ) as ([V' a] & E & HP).
  destruct HP as (HA & M & R & pv & fl & A1 & A2 & A3 & A4 & A5 & A6 & A7).
  exists V', a, M, R, pv. split; [exact E|]. split; [apply good_act_ok; auto|]. split; [exact A1|]. split.
  { apply (digest_normal_form p M R pv fl); auto. }
  split; [apply row_equiv_same_code; exact A2|]. split; [exact A4|].
  intros k Hk. destruct (A7 k Hk) as (X1 & X2 & X3). split; [|exact X3].
  rewrite <- X1. unfold pf at 1. rewrite Z2Nat.id. reflexivity.
  apply (perm_list_range (pN p) (m_perm Q)). apply (mo_perm p Q HQ). exact X2.
Qed.

(** The verifier hashes the normal form of the code generated by the matrix rearranged according to
    the response. *)
Theorem C18_verifier : forall p, wf_params p -> forall V Gx a,
  shape (pK p) (pN p - pK p) V -> good_matrix p Gx -> good_act p a ->
  exists V' M, verifier_round p V Gx a = Ok V' /\
    times_action (pK p) (pN p) (ent Gx) (a_perm a) (a_coef a) M /\ normal_form (pK p) (pN p) M V'.
Proof.
  intros p wf V Gx a SV HG HA. apply good_act_ok in HA.
  destruct (chal_round p wf V Gx a SV HG HA) as (V' & E & _ & HC).
  destruct (chal_normal p wf Gx a V' HA HC) as (M & H1 & H2). exists V', M. auto.
Qed.

(** The normal form depends on the code only (existence is part of the two theorems above). *)
Theorem C18_code_only : forall K N A B V W,
  same_code K N A B -> normal_form K N A V -> normal_form K N B W -> V = W.
Proof. exact normal_form_unique. Qed.

(** It does not change when the code is rewritten with its information set first and with the other
    coordinates permuted and scaled at will. *)
Theorem C18_invariant : forall p, wf_params p -> forall A B R piv V W g e lam,
  normal_form (pK p) (pN p) A V -> normal_form (pK p) (pN p) B W ->
  same_code (pK p) (pN p) A R -> is_rref (pK p) (pN p) R piv ->
  bij (pN p) g -> (forall a, (a < pN p)%nat -> ~ e a == 0) ->
  same_code (pK p) (pN p) (fun i a => e a * A i (g a)) B ->
  ~ lam == 0 -> (forall a, (a < pK p)%nat -> g a = piv a /\ e a == lam) -> V = W.
Proof. exact normal_form_invariant. Qed.

(** Both sides of a round agree. The prover commits with Q; the key is a generator Gx of the code of
    G0 * Qs^-1; the response composes the two. Whatever basis Gx was put in, the verifier recomputes
    the matrix the prover hashed. *)
Theorem C18_round : forall p, wf_params p -> forall V0 Qb G0 Q V a Qs r rG Qi M Gx rv out b V1,
  shape (pK p) (pN p - pK p) V0 -> act_array p Qb -> good_matrix p G0 -> good_mono p Q -> good_mono p Qs ->
  prepare_digest_input p V0 Qb G0 Q = Ok (V, a) ->
  mono_array p r -> matrix p rG ->
  monomial_mat_inv p r Qs = Ok Qi -> generator_monomial_mul p rG G0 Qi = Ok M ->
  good_matrix p Gx -> same_code (pK p) (pN p) (ent M) (ent Gx) ->
  mono_array p rv -> act_array p out -> shape (pK p) (pN p - pK p) V1 ->
  monomial_compose_action p rv out Qs a = Ok b ->
  verifier_round p V1 Gx b = Ok V.
Proof.
  intros p wf V0 Qb G0 Q V a Qs r rG Qi M Gx rv out b V1 SV MQ HG HQ HQs EP Rr RG EI EM HGx SC Rv RO SV1 EC.
  apply good_mono_ok in HQ. apply good_mono_ok in HQs.
  destruct (prep_round p wf V0 Qb G0 Q SV MQ HG HQ) as ([V' a'] & E & HP). rewrite EP in E. injection E as <- <-.
  destruct (monomial_mat_inv_spec p wf r Qs Rr HQs) as (x & Ex & O1 & P1 & C1). rewrite EI in Ex. injection Ex as <-.
  destruct HG as (G1 & G2 & G3).
  destruct (generator_monomial_mul_spec p rG G0 Qi RG G1 O1 G2) as (y & Ey & S1 & R1 & V1').
  rewrite EM in Ey. injection Ey as <-.
  destruct (monomial_compose_action_spec p wf rv out Qs a Rv RO HQs (proj1 HP)) as (z & Ez & Ob & Hb).
  rewrite EC in Ez. injection Ez as <-.
  destruct (chal_round p wf V1 Gx b SV1 HGx Ob) as (V2 & E2 & _ & HC).
  unfold verifier_round. rewrite E2. f_equal.
  assert (BQ : bij (pN p) (pf (m_perm Qs))) by (apply perm_list_bij; apply (mo_perm p Qs HQs)).
  assert (RM : forall i j, (i < pK p)%nat -> (j < pN p)%nat ->
    ent M i j == fq_inv (nthZ (m_coef Qs) j) * ent G0 i (pf (m_perm Qs) j)).
  { intros i j Hi Hj. rewrite <- (P1 j) at 1 by auto. rewrite V1' by (auto; apply BQ; auto). rewrite C1 by auto. reflexivity. }
  assert (Hlam : ~ 1 == 0) by (intros C; apply cong_eq in C; try discriminate; unfold fq; lia).
  apply (chal_match p wf G0 Q V a Qs Gx b V2 1 Hlam HQ HQs Ob HP); auto.
  - exists (ent M). split; [exact RM|]. apply same_code_row_equiv; auto.
    + apply (full_rank_cols p (ent G0) (ent M) (pf (m_perm Qs)) (fun j => fq_inv (nthZ (m_coef Qs) j))); auto.
      intros c Hc. apply fq_unit_nz. apply fq_unit_inv. apply (mono_coef p); auto.
    + apply HGx.
  - intros k s Hk Hs Ek. destruct (Hb k s Hk Hs Ek) as [X1 X2]. split; auto. rewrite X2, Z.mul_1_l. reflexivity.
Qed.

(** *** C33 *)

(** Codes with the same normal form are equivalent. *)
Theorem C33_equivalence : forall K N A B V,
  normal_form K N A V -> normal_form K N B V -> equivalent_codes K N A B.
Proof. exact normal_form_equivalent. Qed.

(** Two accepted responses to the same commitment, for two keys, reveal an equivalence between the
    keys ... *)
Theorem C33_two_responses : forall p, wf_params p -> forall V1 V2 G1 G2 a1 a2 V,
  shape (pK p) (pN p - pK p) V1 -> shape (pK p) (pN p - pK p) V2 ->
  good_matrix p G1 -> good_matrix p G2 -> good_act p a1 -> good_act p a2 ->
  verifier_round p V1 G1 a1 = Ok V -> verifier_round p V2 G2 a2 = Ok V ->
  equivalent_codes (pK p) (pN p) (ent G1) (ent G2).
Proof.
  intros p wf V1 V2 G1 G2 a1 a2 V S1 S2 HG1 HG2 HA1 HA2 E1 E2.
  destruct (C18_verifier p wf V1 G1 a1 S1 HG1 HA1) as (x & M1 & X1 & T1 & N1). rewrite E1 in X1. injection X1 as <-.
  destruct (C18_verifier p wf V2 G2 a2 S2 HG2 HA2) as (y & M2 & X2 & T2 & N2). rewrite E2 in X2. injection X2 as <-.
  apply good_act_ok in HA1. apply good_act_ok in HA2.
  apply (equivalent_trans _ _ _ M1). { apply (action_equivalent p wf _ a1); auto. }
  apply (equivalent_trans _ _ _ M2). { apply (C33_equivalence _ _ _ _ V); auto. }
  apply equivalent_sym. apply (action_equivalent p wf _ a2); auto.
Qed.

(** ... and so do a revealed seed and a response. *)
Theorem C33_seed_and_response : forall p, wf_params p -> forall V0 Qb G0 Q a V1 G1 a1 V,
  shape (pK p) (pN p - pK p) V0 -> act_array p Qb -> good_matrix p G0 -> good_mono p Q ->
  shape (pK p) (pN p - pK p) V1 -> good_matrix p G1 -> good_act p a1 ->
  prepare_digest_input p V0 Qb G0 Q = Ok (V, a) -> verifier_round p V1 G1 a1 = Ok V ->
  equivalent_codes (pK p) (pN p) (ent G0) (ent G1).
Proof.
  intros p wf V0 Qb G0 Q a V1 G1 a1 V S0 MQ HG0 HQ S1 HG1 HA1 E0 E1.
  destruct (C18_signer p wf V0 Qb G0 Q S0 MQ HG0 HQ) as (x & a' & M0 & R & pv & X0 & _ & T0 & N0 & _).
  rewrite E0 in X0. injection X0 as <- <-.
  destruct (C18_verifier p wf V1 G1 a1 S1 HG1 HA1) as (y & M1 & X1 & T1 & N1). rewrite E1 in X1. injection X1 as <-.
  apply good_act_ok in HA1. apply good_mono_ok in HQ.
  apply (equivalent_trans _ _ _ M0). { apply (monomial_equivalent p _ Q); auto. }
  apply (equivalent_trans _ _ _ M1). { apply (C33_equivalence _ _ _ _ V); auto. }
  apply equivalent_sym. apply (action_equivalent p wf _ a1); auto.
Qed.

(** A complete round on the toy parameters: commitment with [ex_mono], key from its square. *)
Definition ex_V0 : mat := repeat (repeat 9 129) 3.
Definition ex_M0 : monomial := {| m_coef := repeat 9 132; m_perm := repeat 9 132 |}.
Definition ex_A0 : action := {| a_perm := [9; 9; 9]; a_coef := [9; 9; 9] |}.
Example C18_example :
  (' (V, a) <- prepare_digest_input toy_params ex_V0 ex_A0 ex_G ex_mono ;;
   Qs <- monomial_mat_mul toy_params ex_M0 ex_mono ex_mono ;;
   Qi <- monomial_mat_inv toy_params ex_M0 Qs ;;
   M <- generator_monomial_mul toy_params (repeat (repeat 9 132) 3) ex_G Qi ;;
   ' (ret, Gx, _) <- generator_RREF toy_params M (repeat 0 132) ;;
   b <- monomial_compose_action toy_params ex_M0 ex_A0 Qs a ;;
   V' <- verifier_round toy_params ex_V0 Gx b ;;
   Ok (ret, if list_eq_dec (list_eq_dec Z.eq_dec) V V' then true else false, a_perm a, a_perm b,
       map (fun j => column 3 (ent V) j) [0; 1; 128]%nat)) =
  Ok (1, true, [127; 128; 0], [117; 118; 122], [[0; 0; 1]; [1; 1; 0]; [1; 126; 0]]).
Proof. vm_compute. reflexivity. Qed.

Print Assumptions C18_signer.
Print Assumptions C18_verifier.
Print Assumptions C18_code_only.
Print Assumptions C18_invariant.
Print Assumptions C18_round.
Print Assumptions C33_equivalence.
Print Assumptions C33_two_responses.
Print Assumptions C33_seed_and_response.
