(** What acceptance implies for arbitrary public keys and signatures: only that runs which finish are
    considered (the verification of a malformed key may access memory out of bounds). *)
From Coq Require Import Permutation.
From Verif Require Import Base BaseLemmas Params ParamsProofs Fq Prim Samplers Monomial Codes SeedTree Utils Less Spec
  FqProofs EnumProofs MonoProofs RrefProofs LexProofs SortProofs ActionProofs CodecProofs SamplerProofs CanonProofs RoundProofs VerifyProofs.

Definition pc {A} (m : res A) (P : A -> Prop) : Prop := forall a, m = Ok a -> P a.
Lemma pc_ok {A} (a : A) (P : A -> Prop) : P a -> pc (Ok a) P.
Proof. intros H x E. injection E as <-. auto. Qed.
Lemma pc_bind {A B} (m : res A) (f : A -> res B) (Q : A -> Prop) (P : B -> Prop) :
  pc m Q -> (forall a, Q a -> pc (f a) P) -> pc (bind m f) P.
Proof. intros H1 H2 b E. apply bind_ok in E. destruct E as (a & E1 & E2). apply (H2 a (H1 a E1) b E2). Qed.
Lemma pc_any {A B} (m : res A) (f : A -> res B) (P : B -> Prop) :
  (forall a, m = Ok a -> pc (f a) P) -> pc (bind m f) P.
Proof. intros H b E. apply bind_ok in E. destruct E as (a & E1 & E2). apply (H a E1 b E2). Qed.
Lemma pc_for {S} (I : nat -> S -> Prop) n start (body : nat -> S -> res S) s :
  I start s -> (forall i s, (start <= i < start + n)%nat -> I i s -> pc (body i s) (I (Datatypes.S i))) ->
  pc (for_ n start body s) (I (start + n)%nat).
Proof. intros H0 HS s' E. eapply for_ok_inv; eauto. intros i a b Hi Ha Eb. eapply HS; eauto. Qed.
Lemma okp_pc {A} (m : res A) (P : A -> Prop) : okp m P -> pc m P.
Proof. intros (a & -> & H). apply pc_ok. auto. Qed.
Lemma pc_mono {A} (m : res A) (P Q : A -> Prop) : pc m P -> (forall a, P a -> Q a) -> pc m Q.
Proof. intros H HQ a E. auto. Qed.

Section A.
Variable X : prim.
Variable p : params.
Hypothesis wf : wf_params p.
Hypothesis LX : lawful X (hash_len p).
Notation N := (pN p).
Notation K := (pK p).
Notation w := (pN p - pK p)%nat.

(** An array of bytes of the right shape. *)
Definition vmem (V : mat) : Prop := shape K w V /\ bytm p V.

Lemma vmem_set V i j x : vmem V -> is_byte x -> pc (set2 V i j x) vmem.
Proof.
  intros [S B] Hx V' E. unfold set2 in E. apply bind_ok in E. destruct E as (r & E1 & E2). apply bind_ok in E2. destruct E2 as (r' & E2 & E3).
  apply get_inv in E1. destruct E1 as [H1 H2]. apply set_inv in E2. destruct E2 as [H3 ->]. apply set_inv in E3. destruct E3 as [H4 ->].
  specialize (H2 []). subst r. pose proof (shape_len _ _ _ S) as LS. rewrite LS in H1. rewrite (shape_row V K w i S H1) in H3.
  split.
  - apply shape_upd; auto. rewrite upd_length. apply (shape_row V K w i S H1).
  - intros a b Ha Hb. rewrite (ent_upd V K w i) by auto. destruct (Nat.eqb_spec i a) as [<-|]; [|apply B; auto].
    unfold nthZ. rewrite nth_upd by (rewrite (shape_row V K w i S H1); auto). destruct (Nat.eqb j b); auto. apply B; auto.
Qed.

Lemma lex_minimize_pc V dst G col : vmem V -> pc (lex_minimize p V dst G col) vmem.
Proof.
  intros HV. unfold lex_minimize. apply pc_any. intros [[fi fv] fo] _.
  eapply pc_mono with (P := fun s => vmem s); [|auto].
  apply (pc_for (fun _ s => vmem s)); auto. intros i s Hi Hs. apply pc_any. intros g _.
  apply vmem_set; auto. pose proof (fq_red_range (g * fq_inv fv)) as R. unfold is_byte, fq in *. lia.
Qed.

Lemma verify_normalize_pc V G piv : vmem V -> pc (verify_normalize p V G piv) vmem.
Proof.
  intros HV. unfold verify_normalize. eapply pc_bind.
  { apply (pc_for (fun _ s => vmem (fst s))); auto. intros i [V1 pl] Hi Hs. apply pc_any. intros f _.
    destruct (f =? 0); [|apply pc_ok; auto]. eapply pc_bind. { apply lex_minimize_pc. exact Hs. }
    intros V2 H2. apply pc_ok. exact H2. }
  intros [V1 pl] H. apply pc_ok. exact H.
Qed.

Lemma lex_sort_pc V : vmem V -> pc (lex_sort_cols p V) vmem.
Proof.
  intros [S B]. apply okp_pc. eapply okp_mono. { apply lex_sort_cols_spec; auto. }
  intros V' (A & C & _). split; auto.
Qed.

Lemma prepare_pc V Qb G Q : vmem V -> pc (prepare_digest_input p V Qb G Q) (fun '(V', _) => vmem V').
Proof.
  intros HV. unfold prepare_digest_input. apply pc_any. intros G1 _. apply pc_any. intros [[r Gd] piv] _.
  eapply pc_bind.
  { apply (pc_for (fun _ s => vmem (fst (fst (fst s))))); auto. intros i [[[V1 q] a] b] Hi Hs.
    apply pc_any. intros [ri v] _. apply pc_any. intros f _. destruct (f =? 0).
    - eapply pc_bind. { apply lex_minimize_pc. exact Hs. } intros V2 H2. apply pc_ok. exact H2.
    - apply pc_any. intros pm _. apply pc_any. intros cf _. apply pc_ok. exact Hs. }
  intros [[[V1 q] a] b] H. eapply pc_bind. { apply lex_sort_pc. exact H. }
  intros V2 H2. apply pc_ok. exact H2.
Qed.

Lemma vmem_bytes V : vmem V -> bytes (concat V) /\ length (concat V) = (K * w)%nat.
Proof.
  intros [[L F] B]. assert (R : Forall bytes V).
  { apply Forall_forall. intros r Hr. apply (In_nth _ _ []) in Hr. destruct Hr as (i & Hi & <-).
    apply Forall_nth_Z. intros j Hj. change (is_byte (ent V i j)).
    assert (Li : length (nth i V []) = w) by (rewrite Forall_forall in F; apply F; apply nth_In; auto).
    apply B; lia. }
  split.
  - clear -R. induction R as [|r V Hr _ IH]; cbn [concat]. constructor. apply Forall_app. auto.
  - assert (E : length (concat V) = (length V * w)%nat).
    { clear -F. induction F as [|r V Hr _ IH]; cbn [concat length Nat.mul]. reflexivity. rewrite app_length, IH, Hr. reflexivity. }
    rewrite E, L. reflexivity.
Qed.

(** The chunk [u] of the signature unpacks to [a] whatever the destination held. *)
Lemma verify_loop_pc fuel pk sig salt tree G0 fws : bytes sig -> length fws = pT p ->
  forall n i h V G act disc, vmem V -> act_mem p act -> (i + n = pT p)%nat ->
  pc (verify_loop X p fuel n i pk sig salt tree G0 fws h V G act disc (cnt (nz fws) i)) (fun r =>
    match r with
    | None => True
    | Some h' => (exists Vs, length Vs = n /\ Forall vmem Vs /\ h' = fold_left (absorbV X) Vs h) /\
        forall t, (i <= t < i + n)%nat -> nz fws t = true ->
          exists a, decodes p (sig_chunk p sig (cnt (nz fws) t)) a /\ act_ok p a
    end).
Proof.
  intros HS HF. induction n as [|n IH]; intros i h V G act disc HV HA Hn; cbn [verify_loop].
  - apply pc_ok. split; [|intros; lia]. exists []. auto.
  - rewrite (get_ok _ i 0) by lia. cbn [bind].
    assert (Hcnt : cnt (nz fws) (S i) = (cnt (nz fws) i + (if nz fws i then 1 else 0))%nat) by apply cnt_S.
    destruct (nth i fws 0 =? 0) eqn:E0.
    + assert (En : nz fws i = false) by (unfold nz; rewrite E0; auto).
      apply pc_any. intros G1 _. apply pc_any. intros sd _. apply pc_any. intros Q _.
      eapply pc_bind. { apply prepare_pc. exact HV. } intros [V' disc'] HV'.
      rewrite En, Nat.add_0_r in Hcnt. rewrite <- Hcnt. eapply pc_mono. { apply IH; auto. lia. }
      intros [h'|]; [|auto]. intros ((Vs & L1 & L2 & L3) & H). split.
      * exists (V' :: Vs). split; [cbn; lia|]. split; [constructor; auto|]. exact L3.
      * intros t Ht Hz. destruct (Nat.eq_dec t i) as [->|]; [congruence|]. apply H; auto. lia.
    + assert (En : nz fws i = true) by (unfold nz; rewrite E0; auto).
      apply pc_any. intros buf _. apply pc_any. intros G1 _.
      destruct (Nat.ltb_spec (cnt (nz fws) i) (pW p)) as [HW|HW]; [|intros x E; discriminate].
      apply pc_any. intros ab Eab.
      assert (Lab := rd_length _ _ _ _ Eab).
      assert (Cab : ab = sig_chunk p sig (cnt (nz fws) i)).
      { unfold rd in Eab. destruct (_ <=? _)%nat; [|discriminate]. injection Eab as <-. reflexivity. }
      assert (Bab : bytes ab). { rewrite Cab. apply Forall_firstn, Forall_skipn. auto. }
      destruct (decode_any p wf ab Bab Lab) as (a & HDa). rewrite (proj2 HDa) by auto. cbn [bind].
      destruct (is_monom_action_valid_spec p a (proj1 HDa)) as (r & -> & R1 & R2). cbn [bind].
      destruct (Z.eqb_spec r 0) as [->|Nr]. { apply pc_ok. exact I. }
      assert (AO : act_ok p a) by (apply R1; lia).
      apply pc_any. intros Gh _. apply pc_any. intros [[x Gr] piv] _.
      eapply pc_bind. { apply verify_normalize_pc. exact HV. } intros V1 H1.
      eapply pc_bind. { apply lex_sort_pc. exact H1. } intros V2 H2.
      rewrite En, Nat.add_1_r in Hcnt. rewrite <- Hcnt. eapply pc_mono. { apply IH; auto. apply HDa. lia. }
      intros [h'|]; [|auto]. intros ((Vs & L1 & L2 & L3) & H). split.
      * exists (V2 :: Vs). split; [cbn; lia|]. split; [constructor; auto|]. exact L3.
      * intros t Ht Hz. destruct (Nat.eq_dec t i) as [->|]; [|apply H; auto; lia]. exists a. rewrite <- Cab. auto.
Qed.

(** The digest of a byte string. *)
Definition hash (s : list Z) : list Z := h_final X (h_absorb X (h_init X) s).

Lemma absorb_all Vs h t : Forall vmem Vs -> bytes t ->
  h_final X (h_absorb X (fold_left (absorbV X) Vs h) t) = h_final X (h_absorb X h (concat (map (@concat Z) Vs) ++ t)).
Proof.
  intros HV HT. revert h. induction HV as [|V Vs HVm HVs IH]; intros h; cbn [fold_left map concat]. { reflexivity. }
  rewrite IH. unfold absorbV at 1. rewrite (law_absorb _ _ LX). 
  - rewrite app_assoc. reflexivity.
  - apply vmem_bytes. auto.
  - apply Forall_app. split; auto. clear -HVs. induction HVs as [|V Vs H _ IH]; cbn [map concat]. constructor.
    apply Forall_app. split; auto. apply vmem_bytes. auto.
Qed.

Lemma concat_Vs Vs : Forall vmem Vs -> bytes (concat (map (@concat Z) Vs)) /\
  length (concat (map (@concat Z) Vs)) = (length Vs * (K * w))%nat.
Proof.
  intros H. induction H as [|V Vs HV _ [IH1 IH2]]; cbn [map concat length]. { split; [constructor|reflexivity]. }
  destruct (vmem_bytes V HV) as [B L]. split. { apply Forall_app. auto. } rewrite app_length, IH2, L. lia.
Qed.

Lemma weight_index fws u : challenge_ok p fws -> (u < pW p)%nat -> exists t, (t < pT p)%nat /\ nz fws t = true /\ cnt (nz fws) t = u.
Proof.
  intros (C1 & C2 & _) Hu. rewrite weight_cnt, C1 in C2.
  destruct (cnt_nth_enum (nz fws) (pT p) u 0%nat ltac:(lia)) as (A & B & C). eauto.
Qed.

(** Acceptance of one message determines the answers for all messages. *)
Lemma verify_transcript fuel junk pk m sig : (forall a b, is_byte (junk a b)) -> bytes m -> bytes sig ->
  LESS_verify X p fuel junk pk m sig = Ok 1 ->
  (forall u, (u < pW p)%nat -> exists a, decodes p (sig_chunk p sig u) a /\ act_ok p a) /\
  exists c, bytes c /\ length c = (pT p * (K * w))%nat /\
    forall m', bytes m' -> exists r, LESS_verify X p fuel junk pk m' sig = Ok r /\ (r = 0 \/ r = 1) /\
      (r = 1 <-> hash (c ++ m' ++ sig_salt p sig) = sig_digest p sig).
Proof.
  intros HJ Hm HS E. unfold LESS_verify in *.
  apply bind_ok in E. destruct E as (dig & E1 & E). rewrite E1. cbn [bind].
  assert (Ed : dig = sig_digest p sig /\ length dig = hash_len p).
  { split; [|exact (rd_length _ _ _ _ E1)]. unfold rd in E1. destruct (_ <=? _)%nat; [|discriminate]. injection E1 as <-. reflexivity. }
  apply bind_ok in E. destruct E as (fws & E2 & E). rewrite E2. cbn [bind].
  pose proof (expand_digest_spec X p wf fuel dig) as WD. rewrite E2 in WD. cbn in WD.
  apply bind_ok in E. destruct E as (salt & E3 & E). rewrite E3. cbn [bind].
  assert (Es : salt = sig_salt p sig /\ bytes salt).
  { unfold rd in E3. destruct (_ <=? _)%nat; [|discriminate]. injection E3 as <-. split; [reflexivity|]. apply Forall_firstn. auto. }
  apply bind_ok in E. destruct E as ([t0 tree] & E4 & E). rewrite E4. cbn [bind].
  apply bind_ok in E. destruct E as (g0 & E5 & E). rewrite E5. cbn [bind].
  apply bind_ok in E. destruct E as (G0 & E6 & E). rewrite E6. cbn [bind].
  apply bind_ok in E. destruct E as (r & E7 & E). rewrite E7. cbn [bind].
  assert (VM : vmem (junk_mat junk 10 K w)).
  { split. { apply junk_mat_shape. } intros i j Hi Hj. unfold ent, junk_mat. rewrite nth_map_seq by auto. rewrite nth_map_seq by auto. auto. }
  change 0%nat with (cnt (nz fws) 0) in E7 at 2.
  pose proof (verify_loop_pc fuel pk sig salt tree G0 fws HS (proj1 WD) (pT p) 0 _ _ (junk_mat junk 2 K N) _ (junk_action p junk 24) VM
    (junk_action_mem p junk 22) eq_refl r E7) as HP.
  destruct r as [h|]; [|discriminate]. destruct HP as ((Vs & L1 & L2 & ->) & HC).
  destruct (concat_Vs Vs L2) as [CB CL]. rewrite L1 in CL. destruct Ed as [Ed Ld]. destruct Es as [Es Bs]. rewrite <- Es, <- Ed.
  split.
  { intros u Hu. destruct (weight_index fws u WD Hu) as (t & T1 & T2 & T3). destruct (HC t) as (a & A1 & A2); auto. lia.
    exists a. rewrite <- T3. auto. }
  exists (concat (map (@concat Z) Vs)). split; auto. split; auto. intros m' Hm'.
  assert (EH : h_final X (h_absorb X (h_absorb X (fold_left (absorbV X) Vs (h_init X)) m') salt) =
     hash (concat (map (@concat Z) Vs) ++ m' ++ salt)).
  { rewrite (law_absorb _ _ LX) by auto. rewrite absorb_all; auto. apply Forall_app. auto. }
  cbv zeta. rewrite EH. set (rec := hash _).
  assert (Lr : length rec = hash_len p) by apply (law_h_len _ _ LX).
  destruct (timing_safe_memcmp_spec rec dig (hash_len p)) as (d & -> & D1 & D2); try lia. cbn [bind].
  rewrite <- Lr in D2 at 1. rewrite <- Ld in D2. rewrite !firstn_all in D2.
  exists (b2z (d =? 0)). split; auto. destruct D1 as [-> | ->]; cbn; (split; [auto|]).
  - split; [intros _|auto]. apply D2. auto.
  - split; [discriminate|]. intros C. apply D2 in C. discriminate.
Qed.
End A.
