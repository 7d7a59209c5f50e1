(** Key generation, signing and verification of the optimised implementation give the results of the reference. *)
From Verif Require Import Base BaseLemmas Params ParamsProofs Fq FqProofs EnumProofs Prim Samplers Monomial Codes SeedTree Utils Less Sign
  LinAlg RrefProofs MonoProofs ActionProofs CodecProofs SamplerProofs RoundProofs VerifyProofs AnyKeyProofs Vec OptCodes OptLess VecProofs OptRref OptSim.

Section S.
Variable X : prim.
Variable p : params.
Variable q : pads.
Variable ia : isa.
Hypothesis wf : wf_params p.
Hypothesis LX : lawful X (hash_len p).
Hypothesis wq : wf_pads p q.
Notation N := (pN p).
Notation K := (pK p).
Notation w := (pN p - pK p)%nat.
Notation NP := (n_pad q).
Notation KP := (k_pad q).
Notation NKP := (nk_pad q).
Notation grel := (pm is_byte (pK p) (pN p) (n_pad q)).

Lemma zero_grel : grel (repeat (repeat 0 N) K) (repeat (repeat 0 NP) K).
Proof.
  split. { apply repeat_length. } split. { apply repeat_length. } intros i Hi.
  rewrite nth_indep with (d' := repeat 0 N) by (rewrite repeat_length; auto). rewrite nth_repeat.
  rewrite nth_indep with (d' := repeat 0 NP) by (rewrite repeat_length; auto). rewrite nth_repeat.
  apply pl_repeat; [apply wq|]. unfold is_byte. lia.
Qed.

Lemma prepare_rel buf em V a a' G G' Q Q' : length buf = NP -> shape_em p em -> grel G G' -> redm p G -> mono_ok p Q -> mrel p q Q Q' ->
  arel p q a a' ->
  rsim (fun '(V1, a1) '(V2, a2) => V1 = V2 /\ arel p q a1 a2) (prepare_digest_input p V a G Q)
    (prepare_digest_input_o p q ia buf em V a' G' Q').
Proof.
  intros LB HE HG RG MQ HQ HA. unfold prepare_digest_input, prepare_digest_input_o. destruct wq as (Q1 & _).
  pose proof zero_grel as Z0.
  eapply rsim_bind. { apply (monomial_mul_rel p q ia wf wq); eauto. }
  intros G1 G1' (HG1 & RG1). eapply rsim_bind. { apply (RREF_rel p q wf wq); eauto. }
  intros [[r R] f] [[r' R'] f'] (_ & HR & RR & HF).
  eapply rsim_bind with (R := fun '(V1, a1, _, _) '(V2, a2, _, _) => V1 = V2 /\ arel p q a1 a2).
  { eapply rsim_mono.
    { apply (rsim_for_inv (fun '(V1, a1, i1, j1) '(V2, a2, i2, j2) => V1 = V2 /\ i1 = i2 /\ j1 = j2 /\ arel p q a1 a2)). { auto. }
      intros col [[[V1 a1] i1] j1] [[[V2 a2] i2] j2] _ (<- & <- & <- & (A1 & A2)).
      eapply rsim_bind. { apply (extract_col_o p q). exact HQ. } intros [ri v] ? <-.
      eapply rsim_bind. { apply (rsim_get _ _ _ _ _ _ HF). } intros fl ? (<- & _). destruct (fl =? 0).
      - eapply rsim_bind. { apply (lex_minimize_rel p q); eauto. } intros V' ? <-. apply rsim_ok. split; auto. split; auto. split; auto. split; auto.
      - eapply rsim_bind. { apply (rsim_set _ _ _ _ _ _ _ A1). exact I. } intros x y Hxy.
        eapply rsim_bind. { apply (rsim_set _ _ _ _ _ _ _ A2). exact I. } intros x1 y1 Hxy1. apply rsim_ok. split; auto. split; auto. split; auto. split; auto. }
    intros [[[V1 a1] i1] j1] [[[V2 a2] i2] j2] (<- & _ & _ & H). auto. }
  intros [[[V1 a1] i1] j1] [[[V2 a2] i2] j2] (<- & HA1). eapply rsim_bind. { apply rsim_refl. } intros V3 ? <-. apply rsim_ok. auto.
Qed.

(** The content of the uninitialised locals of the reference, given that of the optimised implementation: the cells in common. *)
Definition cell (n L k : nat) : nat := (k / n * L + k mod n)%nat.
Definition ref_junk (j : nat -> nat -> Z) (tag k : nat) : Z :=
  match tag with
  | 0%nat => u8 (j 0%nat (cell w NKP k))
  | 2%nat | 8%nat => u8 (j tag (cell N NP k))
  | 4%nat | 6%nat | 10%nat | 13%nat | 14%nat | 16%nat | 18%nat | 21%nat | 23%nat | 25%nat => u8 (j tag k)
  | _ => j tag k
  end.
(** In LESS_verify, V_array is zero-initialised. *)
Definition ref_junk_v (j : nat -> nat -> Z) (tag k : nat) : Z := match tag with 10%nat => 0 | _ => ref_junk j tag k end.

Section J.
Variable junk : nat -> nat -> Z.
Variable junk' : nat -> nat -> Z.

Lemma jlist_nth f n k : (k < n)%nat -> nthZ (map f (seq 0 n)) k = f k.
Proof. intros. unfold nthZ. rewrite nth_map_seq by auto. reflexivity. Qed.

Lemma junk_pl t l L : (l <= L)%nat -> (forall k, junk' t k = junk t k) -> pl anyZ l L (junk_list junk' t l) (junk_list junk t L).
Proof.
  intros HL HE. unfold junk_list. split. { rewrite map_length, seq_length. auto. } split. { rewrite map_length, seq_length. auto. }
  split. { intros; exact I. } split; auto. intros k Hk. rewrite !jlist_nth by lia. auto.
Qed.
Lemma jbytes_pl t l L : (l <= L)%nat -> (forall k, junk' t k = u8 (junk t k)) -> pl is_byte l L (junk_list junk' t l) (jbytes junk t L).
Proof.
  intros HL HE. unfold junk_list, jbytes. split. { rewrite map_length, seq_length. auto. } split. { rewrite map_length, seq_length. auto. }
  split. { intros k Hk. rewrite jlist_nth by auto. apply u8_byte. } split; auto. intros k Hk. rewrite !jlist_nth by lia. auto.
Qed.
Lemma jbmat_pm t r l L : (l <= L)%nat -> (forall k, junk' t k = u8 (junk t (cell l L k))) ->
  pm is_byte r l L (junk_mat junk' t r l) (jbmat junk t r L).
Proof.
  intros HL HE. unfold junk_mat, jbmat. split. { rewrite map_length, seq_length. auto. } split. { rewrite map_length, seq_length. auto. }
  intros i Hi. rewrite !nth_map_seq by auto. split. { rewrite map_length, seq_length. auto. } split. { rewrite map_length, seq_length. auto. }
  split. { intros k Hk. rewrite (jlist_nth (fun j => u8 (junk t (i * L + j)))) by auto. apply u8_byte. } split; auto.
  intros k Hk. rewrite (jlist_nth (fun j => u8 (junk t (i * L + j)))), (jlist_nth (fun j => junk' t (i * l + j)%nat)) by lia.
  rewrite HE. unfold cell. do 2 f_equal. rewrite Nat.div_add_l, Nat.div_small by lia. rewrite Nat.add_comm, (Nat.add_comm (i * l) k), Nat.mod_add, Nat.mod_small by lia. lia.
Qed.

End J.

Lemma jem_shape junk c : shape_em p (jem p junk c).
Proof.
  unfold shape_em, jem, jbytes. split. { rewrite map_length, seq_length. auto. }
  apply Forall_forall. intros row Hr. apply in_map_iff in Hr. destruct Hr as (i & <- & _). rewrite map_length, seq_length. auto.
Qed.
Lemma jbuf_length junk c : length (jbuf q junk c) = NP.
Proof. unfold jbuf, jbytes. rewrite map_length, seq_length. auto. Qed.

Lemma pl_any P l L a b : pl P l L a b -> pl anyZ l L a b.
Proof. apply pl_weak. Qed.

Variable junk : nat -> nat -> Z.
Notation rj := (ref_junk junk).

Ltac pads := destruct wq as (? & ? & ? & ?); auto.
Lemma rrel0 : rrel p q (junk_rref p rj 0) (jrref p q junk 0).
Proof. split; [apply jbmat_pm|apply junk_pl]; pads. Qed.
Lemma rrel0v : rrel p q (junk_rref p (ref_junk_v junk) 0) (jrref p q junk 0).
Proof. split; [apply jbmat_pm|apply junk_pl]; pads. Qed.
Lemma grel2 : grel (junk_mat rj 2 K N) (jbmat junk 2 K NP).
Proof. apply jbmat_pm; pads. Qed.
Lemma grel2v : grel (junk_mat (ref_junk_v junk) 2 K N) (jbmat junk 2 K NP).
Proof. apply jbmat_pm; pads. Qed.
Lemma grel8 : grel (junk_mat rj 8 K N) (jbmat junk 8 K NP).
Proof. apply jbmat_pm; pads. Qed.
Lemma mrel_junk t : In t [4; 6; 14; 16; 18]%nat -> mrel p q (junk_monomial p rj t) (jmonomial q junk t).
Proof.
  intros H. cbn in H. repeat (destruct H as [<-|H]; [split; cbn; [apply jbytes_pl|apply junk_pl]; pads|]). contradiction.
Qed.
Lemma arel_junk t : In t [12; 20]%nat -> arel p q (junk_action p rj t) (jaction q junk t).
Proof.
  intros H. cbn in H. repeat (destruct H as [<-|H]; [split; cbn; [apply junk_pl|eapply pl_weak; apply jbytes_pl]; pads|]). contradiction.
Qed.
Lemma arel_junk_v t : In t [22; 24]%nat -> arel p q (junk_action p (ref_junk_v junk) t) (jaction q junk t).
Proof.
  intros H. cbn in H. repeat (destruct H as [<-|H]; [split; cbn; [apply junk_pl|eapply pl_weak; apply jbytes_pl]; pads|]). contradiction.
Qed.

Lemma pc_wp {A} (m : res A) P : wp m P -> pc m P.
Proof. intros H a E. rewrite E in H. exact H. Qed.

Lemma rrel_mem a b : rrel p q a b -> rref_mem p a.
Proof. intros (H1 & H2). constructor. { apply (pm_shape _ _ _ _ _ _ H1). } apply H2. Qed.

(** *** Key generation *)
Theorem keygen_equiv fuel rng sk pk : rsim eq (LESS_keygen X p fuel rj rng sk pk) (LESS_keygen_o X p q ia fuel junk rng sk pk).
Proof.
  unfold LESS_keygen, LESS_keygen_o. destruct (x_squeeze X (prikey_seed_len p) rng) as [csk r1].
  eapply rsim_bind. { apply rsim_refl. } intros sk1 ? <-. cbv zeta. destruct (x_squeeze X (seed_len p) r1) as [g0 r2].
  eapply rsim_bind. { apply rsim_refl. } intros sk2 ? <-.
  eapply rsim_bind. { apply rsim_refl. } intros pk1 ? <-.
  eapply rsim_bind_pc. { apply (generator_SF_o X p q). apply rrel0. } { apply pc_wp. apply (generator_sampled X p wf). apply junk_rref_mem. }
  intros G0 G0' H0 (M0 & M & (_ & HM & GM)).
  eapply rsim_bind_pc. { apply (generator_rref_expand_o p q); [apply grel2|exact H0]. } { intros a E. rewrite HM in E by apply junk_mat_shape. injection E as <-. exact GM. }
  intros G G' HG (SG & RG & _). eapply rsim_bind.
  { apply (rsim_for_inv eq); auto. intros t pk2 ? _ <-.
    eapply rsim_bind. { apply rsim_refl. } intros sd ? <-.
    eapply rsim_bind_pc. { apply (monomial_expand_o X p q). apply (mrel_junk 4); cbn; auto. }
    { apply pc_wp. apply (monomial_expand_spec X p wf); auto. apply junk_monomial_mem. }
    intros Qi Qi' HQi MQi.
    eapply rsim_bind_pc. { apply (monomial_mat_inv_rel p q); [apply (mrel_junk 6); cbn; auto|exact HQi|exact MQi]. }
    { apply okp_pc. apply (monomial_mat_inv_spec p wf); auto. apply junk_monomial_mem. }
    intros Q Q' HQ (MQ & _).
    eapply rsim_bind. { apply (monomial_mul_rel p q ia wf wq); eauto. apply jbuf_length. apply grel8. }
    intros R R' (HR & RR). eapply rsim_bind. { apply (RREF_rel p q wf wq); eauto. apply jem_shape. }
    intros [[r R1] f] [[r' R1'] f'] (_ & HR1 & _ & HF). eapply rsim_bind. { apply rsim_refl. } intros bf ? <-.
    eapply rsim_bind. { eapply (compress_rref_o p q); eauto. } intros b1 ? <-. apply rsim_refl. }
  intros pk2 ? <-. apply rsim_refl.
Qed.

(** *** Signing *)
Lemma jbmat_V : jbmat junk 10 K w = junk_mat rj 10 K w.
Proof. reflexivity. Qed.

Lemma get_Forall2 {A B} (R : A -> B -> Prop) l l' i : Forall2 R l l' -> rsim R (get l i) (get l' i).
Proof.
  intros H. unfold get. revert i. induction H as [|a b l l' H H1 IH]; intros [|i]; cbn; try exact I.
  - exists b. auto.
  - apply IH.
Qed.
Lemma set_Forall2 {A B} (R : A -> B -> Prop) l l' i a b : Forall2 R l l' -> R a b -> rsim (Forall2 R) (set l i a) (set l' i b).
Proof.
  intros H HR. unfold set. assert (E : length l = length l') by (induction H; cbn; auto). rewrite <- E.
  destruct (i <? length l)%nat; [|exact I]. apply rsim_ok. clear E. revert i. induction H; intros [|i]; cbn; constructor; auto.
Qed.
Lemma Forall2_repeat {A B} (R : A -> B -> Prop) a b n : R a b -> Forall2 R (repeat a n) (repeat b n).
Proof. intros. induction n; cbn; constructor; auto. Qed.

Lemma sign_commit_equiv fuel tree salt G G' : grel G G' -> redm p G ->
  rsim (fun '(h, a) '(h', a') => h = h' /\ Forall2 (arel p q) a a') (sign_commit X p fuel rj tree salt G) (sign_commit_o X p q ia fuel junk tree salt G').
Proof.
  intros HG RG. unfold sign_commit, sign_commit_o. rewrite jbmat_V.
  eapply rsim_bind.
  { apply (rsim_for_inv (fun '(h, V, a, Q) '(h', V', a', Q') => h = h' /\ V = V' /\ Forall2 (arel p q) a a' /\ mrel p q Q Q')).
    { split; auto. split; auto. split. { apply Forall2_repeat. apply (arel_junk 12). cbn. auto. } apply (mrel_junk 14). cbn. auto. }
    intros t [[[h V] acts] Qt] [[[h' V'] acts'] Qt'] _ (<- & <- & HA & HQ).
    eapply rsim_bind. { apply rsim_refl. } intros sd ? <-.
    eapply rsim_bind_pc. { apply (monomial_expand_o X p q). exact HQ. } { apply pc_wp. apply (monomial_expand_spec X p wf); auto. eapply mrel_mem; eauto. }
    intros Q Q' HQ1 MQ. eapply rsim_bind. { apply get_Forall2. exact HA. } intros a a' Ha.
    eapply rsim_bind. { apply prepare_rel; eauto. apply jbuf_length. apply jem_shape. }
    intros [V1 a1] [V2 a2] (<- & Ha1). eapply rsim_bind. { apply set_Forall2; eauto. } intros a3 a4 Ha2. apply rsim_ok. auto. }
  intros [[[h V] acts] Qt] [[[h' V'] acts'] Qt'] (<- & _ & HA & _). apply rsim_ok. auto.
Qed.

Lemma sign_respond_equiv fuel seeds acts acts' fws sig : Forall2 (arel p q) acts acts' ->
  rsim eq (sign_respond X p fuel rj seeds acts fws sig) (sign_respond_o X p q fuel junk seeds acts' fws sig).
Proof.
  intros HA. unfold sign_respond, sign_respond_o. eapply rsim_bind.
  { apply (rsim_for_inv (fun '(s, e, a) '(s', e', a') => s = s' /\ e = e' /\ arel p q a a')).
    { split; auto. split; auto. apply (arel_junk 20). cbn. auto. }
    intros t [[s e] a] [[s' e'] a'] _ (<- & <- & Ha). eapply rsim_bind. { apply rsim_refl. } intros x ? <-.
    destruct (x =? 0). { apply rsim_ok. auto. }
    eapply rsim_bind. { apply rsim_refl. } intros sd ? <-.
    eapply rsim_bind. { apply (monomial_expand_o X p q). apply (mrel_junk 16). cbn. auto. } intros Q Q' HQ.
    eapply rsim_bind. { apply get_Forall2. exact HA. } intros b b' Hb.
    eapply rsim_bind. { apply (monomial_compose_o p q); eauto. apply (mrel_junk 18). cbn. auto 10. } intros c c' Hc.
    destruct (e <? pW p)%nat; [|apply rsim_ub].
    eapply rsim_bind. { apply rsim_refl. } intros bf ? <-.
    eapply rsim_bind. { eapply (compress_monom_o p q); eauto. } intros bf2 ? <-.
    eapply rsim_bind. { apply rsim_refl. } intros s2 ? <-. apply rsim_ok. auto. }
  intros [[s e] a] [[s' e'] a'] (<- & _). apply rsim_refl.
Qed.

Theorem sign_equiv fuel rng sk m sig : rsim eq (LESS_sign X p fuel rj rng sk m sig) (LESS_sign_o X p q ia fuel junk rng sk m sig).
Proof.
  unfold LESS_sign, LESS_sign_o.
  eapply rsim_bind. { apply rsim_refl. } intros csk ? <-. cbv zeta.
  destruct (x_squeeze X (seed_len p) rng) as [e r1]. destruct (x_squeeze X (hash_len p) r1) as [salt r2].
  eapply rsim_bind. { apply rsim_refl. } intros s1 ? <-.
  eapply rsim_bind. { apply rsim_refl. } intros tree ? <-.
  eapply rsim_bind. { apply rsim_refl. } intros g0 ? <-.
  eapply rsim_bind_pc. { apply (generator_SF_o X p q). apply rrel0. } { apply pc_wp. apply (generator_sampled X p wf). apply junk_rref_mem. }
  intros G0 G0' H0 (M0 & M & (_ & HM & GM)).
  eapply rsim_bind_pc. { apply (generator_rref_expand_o p q); [apply grel2|exact H0]. } { intros a E. rewrite HM in E by apply junk_mat_shape. injection E as <-. exact GM. }
  intros G G' HG (SG & RG & _).
  eapply rsim_bind. { apply sign_commit_equiv; eauto. } intros [h acts] [h' acts'] (<- & HA).
  eapply rsim_bind. { apply rsim_refl. } intros s2 ? <-.
  eapply rsim_bind. { apply rsim_refl. } intros fws ? <-.
  eapply rsim_bind. { apply rsim_refl. } intros s3 ? <-.
  eapply rsim_bind. { apply rsim_refl. } intros stg ? <-.
  eapply rsim_bind. { apply rsim_refl. } intros [num stg1] ? <-.
  eapply rsim_bind. { apply rsim_refl. } intros s4 ? <-.
  eapply rsim_bind. { apply sign_respond_equiv; eauto. } intros s5 ? <-. apply rsim_refl.
Qed.

(** *** Verification *)

(** Whatever is decoded from the matrices of the key is reduced. *)
Definition pk_reduced (pk : list Z) : Prop :=
  forall x buf full G, rd pk (off_sf p x) (rref_bytes p) = Ok buf -> shape K N full -> expand_to_rref p full buf = Ok G -> redm p G.

Lemma verify_loop_equiv fuel n t pk sig salt tree G0 G0' fws h V G G' act act' disc disc' used :
  pk_reduced pk -> rrel p q G0 G0' -> (exists M, (forall full, shape K N full -> generator_rref_expand p full G0 = Ok M) /\ G_ok p M) ->
  grel G G' -> arel p q act act' -> arel p q disc disc' ->
  rsim eq (verify_loop X p fuel n t pk sig salt tree G0 fws h V G act disc used)
    (verify_loop_o X p q ia fuel junk n t pk sig salt tree G0' fws h V G' act' disc' used).
Proof.
  intros HPK HG0 (M & HM & GM). revert t h V G G' act act' disc disc' used.
  induction n as [|n IH]; intros t h V G G' act act' disc disc' used HG HA HD; cbn [verify_loop verify_loop_o]. { apply rsim_refl. }
  eapply rsim_bind. { apply rsim_refl. } intros x ? <-. destruct (x =? 0).
  - eapply rsim_bind_pc. { apply (generator_rref_expand_o p q); eauto. }
    { intros a E. rewrite HM in E by apply (pm_shape _ _ _ _ _ _ HG). injection E as <-. exact GM. }
    intros G1 G1' HG1 (_ & RG1 & _). eapply rsim_bind. { apply rsim_refl. } intros sd ? <-.
    eapply rsim_bind_pc.
    { apply (monomial_expand_o X p q). split; apply pl_repeat; pads. unfold is_byte. lia. exact I. }
    { apply pc_wp. apply (monomial_expand_spec X p wf); auto. split; apply repeat_length. }
    intros Q Q' HQ MQ. eapply rsim_bind. { apply prepare_rel; eauto. apply jbuf_length. apply jem_shape. }
    intros [V1 d1] [V2 d2] (<- & Hd). apply IH; auto.
  - eapply rsim_bind_pc. { apply rsim_refl. } { intros a E. exact E. } intros buf ? <- EB.
    eapply rsim_bind_pc. { apply (expand_to_rref_rel p q wq). exact HG. }
    { intros G1 E. apply (HPK (Z.to_nat (x - 1)) buf G G1); auto. apply (pm_shape _ _ _ _ _ _ HG). }
    intros G1 G1' HG1 RG1. destruct (used <? pW p)%nat; [|apply rsim_ub].
    eapply rsim_bind. { apply rsim_refl. } intros ab ? <-.
    eapply rsim_bind. { apply (expand_monom_o p q). exact HA. } intros a1 a1' Ha1.
    eapply rsim_bind_pc. { apply (is_valid_o p q). exact Ha1. }
    { apply okp_pc. apply is_monom_action_valid_spec. eapply arel_mem; eauto. }
    intros v ? <- (HV & HV2). destruct (Z.eqb_spec v 0) as [EV|EV]. { apply rsim_refl. }
    assert (AO : act_ok p a1) by (apply HV; lia).
    eapply rsim_bind_pc.
    { apply (apply_action_rel p q wq); [apply zero_grel|exact HG1|exact RG1|exact Ha1|]. intros k Hk. apply fq_unit_fq. apply AO. auto. }
    { apply okp_pc. apply (apply_action_to_G_spec p wf); auto. apply zero_mat_shape. apply (pm_shape _ _ _ _ _ _ HG1). }
    intros Gh Gh' HGh (_ & RGh & _). eapply rsim_bind. { apply (RREF_rel p q wf wq); eauto. apply jem_shape. }
    intros [[r R1] f] [[r' R1'] f'] (_ & HR1 & RR1 & HF). eapply rsim_bind. { eapply (verify_normalize_rel p q); eauto. }
    intros V1 ? <-. eapply rsim_bind. { apply rsim_refl. } intros V2 ? <-. apply IH; auto.
Qed.

Lemma junk_V0 : junk_mat (ref_junk_v junk) 10 K w = repeat (repeat 0 w) K.
Proof.
  unfold junk_mat. cbn [ref_junk_v].
  assert (E : forall (A : Type) (x : A) s n, map (fun _ : nat => x) (seq s n) = repeat x n).
  { intros A x s n. revert s. induction n as [|n IH]; intros s; cbn; [auto|f_equal; auto]. }
  rewrite !E. reflexivity.
Qed.

Theorem verify_equiv fuel pk m sig : pk_reduced pk ->
  rsim eq (LESS_verify X p fuel (ref_junk_v junk) pk m sig) (LESS_verify_o X p q ia fuel junk pk m sig).
Proof.
  intros HPK. unfold LESS_verify, LESS_verify_o. rewrite junk_V0.
  eapply rsim_bind. { apply rsim_refl. } intros dg ? <-.
  eapply rsim_bind. { apply rsim_refl. } intros fws ? <-.
  eapply rsim_bind. { apply rsim_refl. } intros salt ? <-.
  eapply rsim_bind. { apply rsim_refl. } intros [t0 tree] ? <-.
  eapply rsim_bind. { apply rsim_refl. } intros g0 ? <-.
  eapply rsim_bind_pc. { apply (generator_SF_o X p q). apply rrel0v. } { apply pc_wp. apply (generator_sampled X p wf). apply junk_rref_mem. }
  intros G0 G0' H0 (M0 & M & (_ & HM & GM)).
  eapply rsim_bind.
  { apply verify_loop_equiv; eauto. apply grel2v. apply (arel_junk_v 22); cbn; auto. apply (arel_junk_v 24); cbn; auto. }
  intros r ? <-. apply rsim_refl.
Qed.

Lemma pk_wf_reduced pk : pk_wf p pk -> pk_reduced pk.
Proof.
  intros (L & H) x buf full G ER HS EG. unfold rd in ER. destruct (Nat.leb_spec (off_sf p x + rref_bytes p) (length pk)) as [HL|]; [|discriminate].
  injection ER as <-. assert (RB : (0 < rref_bytes p)%nat).
  { pose proof (wf_K p wf). unfold rref_bytes. change (bits_to_represent 127) with 7.
    pose proof (Z.mul_nonneg_nonneg (Z.of_nat N - Z.of_nat K) (Z.of_nat K) ltac:(lia) ltac:(lia)). lia. }
  assert (Hx : (x < p_nk p - 1)%nat). { unfold sizeof_pk, off_sf in *. nia. }
  destruct (H x Hx) as (G' & (_ & D) & GO). fold (pk_chunk p pk x) in EG. rewrite (D full HS) in EG. injection EG as <-. apply GO.
Qed.

(** *** The API functions *)
Theorem keypair_equiv fuel rng pk sk :
  rsim eq (crypto_sign_keypair X p fuel rj rng pk sk) (crypto_sign_keypair_o X p q ia fuel junk rng pk sk).
Proof.
  unfold crypto_sign_keypair, crypto_sign_keypair_o. eapply rsim_bind. { apply rsim_refl. } intros s0 ? <-.
  eapply rsim_bind. { apply rsim_refl. } intros p0 ? <-. eapply rsim_bind. { apply keygen_equiv. } intros r ? <-. apply rsim_refl.
Qed.
Theorem crypto_sign_equiv fuel rng sm m sk :
  rsim eq (crypto_sign X p fuel rj rng sm m sk) (crypto_sign_o X p q ia fuel junk rng sm m sk).
Proof.
  unfold crypto_sign, crypto_sign_o. cbv zeta. eapply rsim_bind. { apply rsim_refl. } intros s0 ? <-.
  eapply rsim_bind. { apply rsim_refl. } intros p0 ? <-. eapply rsim_bind. { apply sign_equiv. } intros r ? <-. apply rsim_refl.
Qed.
Theorem open_equiv fuel m0 sm smlen pk : pk_reduced pk ->
  rsim eq (crypto_sign_open X p fuel (ref_junk_v junk) m0 sm smlen pk) (crypto_sign_open_o X p q ia fuel junk m0 sm smlen pk).
Proof.
  intros HP. unfold crypto_sign_open, crypto_sign_open_o. cbv zeta. destruct (_ <? _); [|apply rsim_ub].
  eapply rsim_bind. { apply rsim_refl. } intros num ? <-. destruct (_ <=? _). { apply rsim_refl. }
  destruct (_ && _); [|apply rsim_ub].
  eapply rsim_bind. { apply rsim_refl. } intros d ? <-. eapply rsim_bind. { apply rsim_refl. } intros m1 ? <-.
  eapply rsim_bind. { apply verify_equiv. auto. } intros r ? <-. apply rsim_refl.
Qed.

End S.

(** The paddings of the three categories. *)
Lemma less_pads_wf : Forall (fun p => wf_pads p (less_pads (p_cat p))) less_params.
Proof. repeat constructor; unfold wf_pads; cbn; lia. Qed.
