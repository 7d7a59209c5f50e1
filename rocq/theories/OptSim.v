(** The functions of the optimised implementation compute on the padded arrays what those of the reference compute. *)
From Verif Require Import Base BaseLemmas Params ParamsProofs Fq FqProofs EnumProofs Prim Samplers Monomial Codes SeedTree Utils Less Sign
  LinAlg RrefProofs MonoProofs ActionProofs SamplerProofs RoundProofs AnyKeyProofs Vec OptCodes OptLess VecProofs OptRref.

(** [m'] gives a related result when [m] succeeds, exhausts the fuel when [m] does. *)
Definition rsim {A B} (R : A -> B -> Prop) (m : res A) (m' : res B) : Prop :=
  match m with
  | Ok a => exists b, m' = Ok b /\ R a b
  | NoFuel => m' = NoFuel
  | UB => True
  end.

Lemma rsim_ok {A B} (R : A -> B -> Prop) a b : R a b -> rsim R (Ok a) (Ok b).
Proof. intros H. exists b. auto. Qed.
Lemma rsim_ub {A B} (R : A -> B -> Prop) m : rsim R (@UB A) m.
Proof. exact I. Qed.
Lemma rsim_bind {A B C D} (R : A -> B -> Prop) (Q : C -> D -> Prop) m m' f f' :
  rsim R m m' -> (forall a b, R a b -> rsim Q (f a) (f' b)) -> rsim Q (bind m f) (bind m' f').
Proof.
  intros H1 H2. destruct m; cbn [rsim bind] in *; auto.
  - destruct H1 as (b & -> & H). cbn [bind]. auto.
  - subst m'. reflexivity.
Qed.
Lemma rsim_bind_pc {A B C D} (P : A -> Prop) (R : A -> B -> Prop) (Q : C -> D -> Prop) m m' f f' :
  rsim R m m' -> pc m P -> (forall a b, R a b -> P a -> rsim Q (f a) (f' b)) -> rsim Q (bind m f) (bind m' f').
Proof.
  intros H1 HP H2. destruct m; cbn [rsim bind] in *; auto.
  - destruct H1 as (b & -> & H). cbn [bind]. auto.
  - subst m'. reflexivity.
Qed.
Lemma rsim_mono {A B} (R Q : A -> B -> Prop) m m' : rsim R m m' -> (forall a b, R a b -> Q a b) -> rsim Q m m'.
Proof. intros H HQ. destruct m; cbn [rsim] in *; auto. destruct H as (b & E & H). eauto. Qed.
Lemma rsim_for {A B} (I : nat -> A -> B -> Prop) n start f f' a b :
  I start a b ->
  (forall i a b, (start <= i < start + n)%nat -> I i a b -> rsim (I (S i)) (f i a) (f' i b)) ->
  rsim (I (start + n)%nat) (for_ n start f a) (for_ n start f' b).
Proof.
  revert start a b. induction n as [|n IH]; intros start a b H0 HS; cbn [for_].
  - rewrite Nat.add_0_r. apply rsim_ok. auto.
  - eapply rsim_bind. { apply HS; [lia|exact H0]. }
    intros a' b' H1. replace (start + S n)%nat with (S start + n)%nat by lia. apply IH; auto.
    intros i x y Hi. apply HS. lia.
Qed.
Lemma rsim_for_inv {A B} (R : A -> B -> Prop) n start f f' a b :
  R a b -> (forall i a b, (start <= i < start + n)%nat -> R a b -> rsim R (f i a) (f' i b)) ->
  rsim R (for_ n start f a) (for_ n start f' b).
Proof. intros H HS. apply (rsim_for (fun _ => R)); auto. Qed.
Lemma rsim_refl {A} (m : res A) : rsim eq m m.
Proof. destruct m; cbn; eauto. Qed.
Lemma rsim_eq {A} (m m' : res A) : rsim eq m m' -> m <> UB -> m' = m.
Proof. destruct m; cbn; intros H E; auto. destruct H as (b & -> & ->). auto. congruence. Qed.
Lemma rsim_okp {A B} (R : A -> B -> Prop) m m' P : okp m P -> (forall a, m = Ok a -> P a -> okp m' (R a)) -> rsim R m m'.
Proof. intros (a & E & H) HS. rewrite E. destruct (HS a E H) as (b & -> & Hb). apply rsim_ok. auto. Qed.

(** Arrays of [l] cells, and of [L] cells satisfying [P], equal on the first [l]. *)
Definition pl (P : Z -> Prop) (l L : nat) (a b : list Z) : Prop :=
  length a = l /\ length b = L /\ (forall j, (j < L)%nat -> P (nthZ b j)) /\ (l <= L)%nat /\ forall j, (j < l)%nat -> nthZ b j = nthZ a j.
Definition pm (P : Z -> Prop) (r l L : nat) (A B : mat) : Prop :=
  length A = r /\ length B = r /\ forall i, (i < r)%nat -> pl P l L (nth i A []) (nth i B []).
Definition anyZ (_ : Z) : Prop := True.

Lemma pl_weak P l L a b : pl P l L a b -> pl anyZ l L a b.
Proof. intros (H1 & H2 & H3 & H4 & H5). split; auto. split; auto. split; auto. intros; exact I. Qed.

Lemma rsim_get P l L a b i : pl P l L a b -> rsim (fun x y => x = y /\ P x /\ (i < l)%nat /\ x = nthZ a i) (get a i) (get b i).
Proof.
  intros (H1 & H2 & H3 & H4 & H5). destruct (Nat.lt_ge_cases i l).
  - rewrite (get_ok a i 0), (get_ok b i 0) by lia. apply rsim_ok. fold (nthZ a i) (nthZ b i). rewrite H5 by auto.
    split; auto. split; auto. rewrite <- H5 by auto. apply H3. lia.
  - rewrite get_ub by lia. apply rsim_ub.
Qed.
Lemma rsim_set (P : Z -> Prop) l L a b i x : pl P l L a b -> P x -> rsim (pl P l L) (set a i x) (set b i x).
Proof.
  intros (H1 & H2 & H3 & H4 & H5) HP. destruct (Nat.lt_ge_cases i l).
  - rewrite !set_ok by lia. apply rsim_ok. split. { rewrite upd_length. auto. } split. { rewrite upd_length. auto. }
    split; [|split; auto].
    + intros j Hj. unfold nthZ. rewrite nth_upd by lia. destruct (Nat.eqb i j); auto. apply H3; auto.
    + intros j Hj. unfold nthZ. rewrite !nth_upd by lia. destruct (Nat.eqb i j); auto. apply H5; auto.
  - rewrite set_ub by lia. apply rsim_ub.
Qed.
Lemma rsim_getrow P r l L A B i : pm P r l L A B -> rsim (pl P l L) (get A i) (get B i).
Proof.
  intros (H1 & H2 & H3). destruct (Nat.lt_ge_cases i r).
  - rewrite (get_ok A i []), (get_ok B i []) by lia. apply rsim_ok. auto.
  - rewrite get_ub by lia. apply rsim_ub.
Qed.
Lemma rsim_setrow P r l L A B i a b : pm P r l L A B -> pl P l L a b -> rsim (pm P r l L) (set A i a) (set B i b).
Proof.
  intros (H1 & H2 & H3) H. destruct (Nat.lt_ge_cases i r).
  - rewrite !set_ok by lia. apply rsim_ok. split. { rewrite upd_length. auto. } split. { rewrite upd_length. auto. }
    intros j Hj. rewrite !nth_upd by lia. destruct (Nat.eqb i j); auto.
  - rewrite set_ub by lia. apply rsim_ub.
Qed.
Lemma rsim_get2 P r l L A B i j : pm P r l L A B ->
  rsim (fun x y => x = y /\ P x /\ (i < r)%nat /\ (j < l)%nat /\ x = ent A i j) (get2 A i j) (get2 B i j).
Proof.
  intros H. unfold get2. destruct (Nat.lt_ge_cases i r).
  - eapply rsim_bind_pc. { apply (rsim_getrow _ _ _ _ _ _ _ H). } { intros a E. apply get_inv in E. exact (proj2 E []). }
    intros a b Hab E. eapply rsim_mono. { apply (rsim_get _ _ _ _ _ _ Hab). }
    intros x y (-> & H1 & H2 & H3). split; auto. split; auto. split; auto. split; auto. unfold ent. rewrite E. auto.
  - destruct H as (H1 & _). rewrite get_ub by lia. apply rsim_ub.
Qed.
Lemma rsim_set2 (P : Z -> Prop) r l L A B i j x : pm P r l L A B -> P x -> rsim (pm P r l L) (set2 A i j x) (set2 B i j x).
Proof.
  intros H HP. unfold set2. eapply rsim_bind. { apply (rsim_getrow _ _ _ _ _ _ _ H). }
  intros a b Hab. eapply rsim_bind. { apply (rsim_set _ _ _ _ _ _ _ Hab HP). }
  intros a' b' Hab'. apply (rsim_setrow _ _ _ _ _ _ _ _ _ H Hab').
Qed.

Lemma pm_shape P r l L A B : pm P r l L A B -> shape r l A /\ shape r L B.
Proof.
  intros (H1 & H2 & H3). split; split; auto.
  - apply Forall_forall. intros x Hx. apply (In_nth _ _ []) in Hx. destruct Hx as (i & Hi & <-). apply H3. lia.
  - apply Forall_forall. intros x Hx. apply (In_nth _ _ []) in Hx. destruct Hx as (i & Hi & <-). apply H3. lia.
Qed.
Lemma pm_intro (P : Z -> Prop) r l L A B : shape r l A -> shape r L B -> (l <= L)%nat ->
  (forall i j, (i < r)%nat -> (j < L)%nat -> P (ent B i j)) -> (forall i j, (i < r)%nat -> (j < l)%nat -> ent B i j = ent A i j) ->
  pm P r l L A B.
Proof.
  intros HA HB HL H1 H2. split; [apply HA|]. split; [apply HB|]. intros i Hi.
  split. { apply (shape_row _ r); auto. } split. { apply (shape_row _ r); auto. } split; [|split; auto].
  - intros j Hj. apply H1; auto.
  - intros j Hj. apply H2; auto.
Qed.
Lemma pm_ent P r l L A B i j : pm P r l L A B -> (i < r)%nat -> (j < l)%nat -> ent B i j = ent A i j.
Proof. intros (H1 & H2 & H3) Hi Hj. apply (H3 i Hi). auto. Qed.
Lemma pm_P P r l L A B i j : pm P r l L A B -> (i < r)%nat -> (j < L)%nat -> P (ent B i j).
Proof. intros (H1 & H2 & H3) Hi Hj. apply (H3 i Hi). auto. Qed.

Lemma u8_byte x : is_byte (u8 x).
Proof. unfold is_byte, u8. lia. Qed.
Lemma b2z_byte b : is_byte (b2z b).
Proof. unfold is_byte. destruct b; cbn; lia. Qed.
Lemma fq_byte x : fq x -> is_byte x.
Proof. unfold fq, is_byte. lia. Qed.

Section S.
Variable X : prim.
Variable p : params.
Variable q : pads.
Variable ia : isa.
Hypothesis wf : wf_params p.
Hypothesis LX : lawful X (hash_len p).
Notation N := (pN p).
Notation K := (pK p).
Notation w := (pN p - pK p)%nat.
Notation NP := (n_pad q).
Notation KP := (k_pad q).
Notation NKP := (nk_pad q).

(** The paddings are large enough, N_pad being a multiple of the vector size. *)
Definition wf_pads : Prop := (N <= NP /\ NP mod 32 = 0 /\ K <= KP /\ w <= NKP)%nat.
Hypothesis wq : wf_pads.

Lemma pads_vec : (32 * num_words p <= NP)%nat.
Proof.
  destruct wq as (H1 & H2 & _). unfold num_words.
  pose proof (Nat.div_mod NP 32 ltac:(lia)). pose proof (Nat.div_mod (N + 31) 32 ltac:(lia)).
  pose proof (Nat.mod_upper_bound (N + 31) 32 ltac:(lia)). lia.
Qed.
Lemma K_le_N : (K <= N)%nat.
Proof. pose proof (wf_K p wf). lia. Qed.

(** *** Samplers *)
Lemma rand_chunks_o chunks minv span req num word c l L b b' : pl is_byte l L b b' ->
  rsim (fun '(f, (c1, b1)) '(f', (c2, b2)) => f = f' /\ c1 = c2 /\ pl is_byte l L b1 b2)
    (rand_chunks chunks minv span req num word c b) (rand_chunks chunks minv span req num word c b').
Proof.
  revert word c b b'. induction chunks as [|n IH]; intros word c b b' HA; cbn [rand_chunks].
  - apply rsim_ok. auto.
  - eapply rsim_bind with (R := fun '(c1, b1) '(c2, b2) => c1 = c2 /\ pl is_byte l L b1 b2).
    + destruct (_ <=? span).
      * eapply rsim_bind. { eapply rsim_set; [exact HA|apply u8_byte]. } intros x y H. apply rsim_ok. auto.
      * apply rsim_ok. auto.
    + intros [c1 b1] [c2 b2] (<- & HA'). destruct (Nat.leb_spec num c1); [apply rsim_ok; auto|apply IH; auto].
Qed.
Lemma rand_loop_o f minv span req num st c l L b b' : pl is_byte l L b b' ->
  rsim (fun '(b1, s1) '(b2, s2) => s1 = s2 /\ pl is_byte l L b1 b2)
    (rand_loop X f minv span req num st c b) (rand_loop X f minv span req num st c b').
Proof.
  revert st c b b'. induction f as [|f IH]; intros st c b b' HA; cbn [rand_loop].
  - reflexivity.
  - destruct (x_squeeze X 8 st) as [bs st']. eapply rsim_bind. { apply rand_chunks_o. exact HA. }
    intros [fin [c1 b1]] [fin' [c2 b2]] (<- & <- & HA'). destruct fin; [apply rsim_ok; auto|apply IH; auto].
Qed.
Lemma yt_shuffle_o st l L b b' : pl anyZ l L b b' ->
  rsim (fun '(b1, s1) '(b2, s2) => s1 = s2 /\ pl anyZ l L b1 b2) (yt_shuffle_state X p st b) (yt_shuffle_state X p st b').
Proof.
  intros H. unfold yt_shuffle_state. destruct (x_squeeze X _ st) as [bs st'].
  eapply rsim_bind. { apply rsim_refl. } intros r ? <-.
  eapply rsim_bind.
  { apply (rsim_for_inv (pl anyZ l L)); [exact H|]. intros i x y _ Hxy.
    eapply rsim_bind. { apply (rsim_get _ _ _ _ _ _ Hxy). } intros v ? (<- & _).
    eapply rsim_bind. { apply rsim_refl. } intros ri ? <-.
    eapply rsim_bind. { apply (rsim_get _ _ _ _ _ _ Hxy). } intros v2 ? (<- & _).
    eapply rsim_bind. { apply (rsim_set _ _ _ _ _ _ _ Hxy). exact I. } intros x1 y1 H1.
    apply (rsim_set _ _ _ _ _ _ _ H1). exact I. }
  intros x y Hxy. apply rsim_ok. auto.
Qed.

Definition mrel (a b : monomial) : Prop := pl is_byte N NP (m_coef a) (m_coef b) /\ pl anyZ N NP (m_perm a) (m_perm b).
Definition arel (a b : action) : Prop := pl anyZ K KP (a_perm a) (a_perm b) /\ pl anyZ K KP (a_coef a) (a_coef b).
Definition rrel (a b : rref_mat) : Prop := pm is_byte K w NKP (r_vals a) (r_vals b) /\ pl anyZ w NKP (r_pos a) (r_pos b).
Notation grel := (pm is_byte K N NP).

Lemma mrel_mem a b : mrel a b -> mono_mem p a.
Proof. intros ((H1 & _) & (H2 & _)). split; auto. Qed.
Lemma arel_mem a b : arel a b -> act_mem p a.
Proof. intros ((H1 & _) & (H2 & _)). split; auto. Qed.

Lemma monomial_expand_o f r r' input : mrel r r' -> rsim mrel (monomial_expand X p f r input) (monomial_expand X p f r' input).
Proof.
  intros (H1 & H2). unfold monomial_expand. eapply rsim_bind. { apply rand_loop_o. exact H1. }
  intros [c s] [c' s'] (<- & HC). eapply rsim_bind.
  { apply (rsim_for_inv (pl anyZ N NP)); [exact H2|]. intros i x y _ Hxy. apply (rsim_set _ _ _ _ _ _ _ Hxy). exact I. }
  intros x y Hxy. eapply rsim_bind. { apply yt_shuffle_o. exact Hxy. }
  intros [x1 s1] [y1 s2] (<- & H3). apply rsim_ok. split; auto.
Qed.

Lemma generator_SF_o f r r' seed : rrel r r' ->
  rsim rrel (generator_SF_seed_expand X p f r seed) (generator_SF_seed_expand X p f r' seed).
Proof.
  intros (H1 & H2). unfold generator_SF_seed_expand. eapply rsim_bind.
  { apply (rsim_for_inv (fun '(v, s) '(v', s') => s = s' /\ pm is_byte K w NKP v v')); [auto|].
    intros i [v s] [v' s'] _ (<- & HV). eapply rsim_bind. { apply (rsim_getrow _ _ _ _ _ _ _ HV). }
    intros a b Hab. eapply rsim_bind. { apply rand_loop_o. exact Hab. }
    intros [a1 s1] [b1 s2] (<- & Hab1). eapply rsim_bind. { eapply rsim_setrow; eauto. }
    intros x y Hxy. apply rsim_ok. auto. }
  intros [v s] [v' s'] (<- & HV). eapply rsim_bind.
  { apply (rsim_for_inv (pl anyZ w NKP)); [exact H2|]. intros i x y _ Hxy. apply (rsim_set _ _ _ _ _ _ _ Hxy). exact I. }
  intros x y Hxy. apply rsim_ok. split; auto.
Qed.

Lemma generator_rref_expand_o g g' r r' : grel g g' -> rrel r r' ->
  rsim grel (generator_rref_expand p g r) (generator_rref_expand p g' r').
Proof.
  intros HG (HV & HP). unfold generator_rref_expand. eapply rsim_bind.
  { apply (rsim_for_inv (fun '(v, s) '(v', s') => s = s' /\ grel v v')); [auto|].
    intros i [v s] [v' s'] _ (<- & Hv).
    eapply rsim_bind with (R := eq).
    { destruct (_ <? _)%nat; [|apply rsim_refl]. eapply rsim_bind. { apply (rsim_get _ _ _ _ _ _ HP). }
      intros x ? (<- & _). apply rsim_refl. }
    intros d ? <-. destruct d.
    - eapply rsim_bind.
      { apply (rsim_for_inv grel); [exact Hv|]. intros row x y _ Hxy.
        eapply rsim_bind. { apply (rsim_get2 _ _ _ _ _ _ _ _ HV). } intros a ? (<- & Ha & _). apply (rsim_set2 _ _ _ _ _ _ _ _ _ Hxy Ha). }
      intros x y Hxy. apply rsim_ok. auto.
    - eapply rsim_bind.
      { apply (rsim_for_inv grel); [exact Hv|]. intros row x y _ Hxy. apply (rsim_set2 _ _ _ _ _ _ _ _ _ Hxy). apply b2z_byte. }
      intros x y Hxy. apply rsim_ok. auto. }
  intros [v s] [v' s'] (_ & H). apply rsim_ok. auto.
Qed.

(** *** Monomials *)
Lemma monomial_mat_inv_rel r r' A A' : mrel r r' -> mrel A A' -> mono_ok p A ->
  rsim mrel (monomial_mat_inv p r A) (monomial_mat_inv_o p r' A').
Proof.
  intros HR (H1 & H2) HA. unfold monomial_mat_inv, monomial_mat_inv_o.
  apply (rsim_for_inv mrel); auto. intros i x y Hi (X1 & X2).
  eapply rsim_bind. { apply (rsim_get _ _ _ _ _ _ H2). } intros a ? (<- & _).
  eapply rsim_bind. { apply (rsim_set _ _ _ _ _ _ _ X2). exact I. } intros pa pb Hp.
  eapply rsim_bind. { apply (rsim_get _ _ _ _ _ _ H1). } intros c ? (<- & _ & _ & ->).
  pose proof (mono_coef p A i HA ltac:(lia)) as U. pose proof (fq_unit_fq _ U). rewrite br_inv_fq by auto.
  eapply rsim_bind. { apply (rsim_set _ _ _ _ _ _ _ X1). apply fq_byte. apply fq_unit_fq. apply fq_unit_inv. auto. }
  intros ca cb Hc. apply rsim_ok. split; auto.
Qed.

Lemma monomial_compose_o rev rev' out out' Q Q' a a' : mrel rev rev' -> arel out out' -> mrel Q Q' -> arel a a' ->
  rsim arel (monomial_compose_action p rev out Q a) (monomial_compose_action p rev' out' Q' a').
Proof.
  intros HR HO (Q1 & Q2) (A1 & A2). unfold monomial_compose_action. eapply rsim_bind.
  { apply (rsim_for_inv mrel); [exact HR|]. intros i x y _ (X1 & X2).
    eapply rsim_bind. { apply (rsim_get _ _ _ _ _ _ Q2). } intros v ? (<- & _).
    eapply rsim_bind. { apply (rsim_set _ _ _ _ _ _ _ X2). exact I. } intros pa pb Hp.
    eapply rsim_bind. { apply (rsim_get _ _ _ _ _ _ Q1). } intros c ? (<- & Hc & _).
    eapply rsim_bind. { apply (rsim_set _ _ _ _ _ _ _ X1). exact Hc. } intros ca cb Hcc. apply rsim_ok. split; auto. }
  intros x y (X1 & X2). apply (rsim_for_inv arel); [exact HO|]. intros i o o' _ (O1 & O2).
  eapply rsim_bind. { apply (rsim_get _ _ _ _ _ _ A1). } intros v ? (<- & _).
  eapply rsim_bind. { apply (rsim_get _ _ _ _ _ _ X2). } intros v2 ? (<- & _).
  eapply rsim_bind. { apply (rsim_set _ _ _ _ _ _ _ O1). exact I. } intros pa pb Hp.
  eapply rsim_bind. { apply (rsim_get _ _ _ _ _ _ A2). } intros c ? (<- & _).
  eapply rsim_bind. { apply (rsim_get _ _ _ _ _ _ X1). } intros d ? (<- & _).
  eapply rsim_bind. { apply (rsim_set _ _ _ _ _ _ _ O2). exact I. } intros ca cb Hcc. apply rsim_ok. split; auto.
Qed.

Lemma compress_monom_o buf a a' : arel a a' -> rsim eq (compress_monom_action p buf a) (compress_monom_action p buf a').
Proof.
  intros (A1 & A2). unfold compress_monom_action. eapply rsim_bind.
  { apply (rsim_for_inv eq); auto. intros i [[b idx] st] ? _ <-.
    eapply rsim_bind. { apply (rsim_get _ _ _ _ _ _ A1). } intros v ? (<- & _). apply rsim_refl. }
  intros [[b idx] st] ? <-. eapply rsim_bind.
  { apply (rsim_for_inv eq); auto. intros i [[b1 idx1] st1] ? _ <-.
    eapply rsim_bind. { apply (rsim_get _ _ _ _ _ _ A2). } intros v ? (<- & _). apply rsim_refl. }
  intros ? ? <-. apply rsim_refl.
Qed.

Lemma expand_monom_o a a' buf : arel a a' -> rsim arel (expand_to_monom_action p a buf) (expand_to_monom_action p a' buf).
Proof.
  intros (A1 & A2). unfold expand_to_monom_action. eapply rsim_bind.
  { apply (rsim_for_inv (fun '(m, i, s) '(m', i', s') => i = i' /\ s = s' /\ pl anyZ K KP m m')); auto.
    intros i [[m idx] st] [[m' idx'] st'] _ (<- & <- & Hm).
    eapply rsim_bind. { apply rsim_refl. } intros [[v i1] s1] ? <-.
    eapply rsim_bind. { apply (rsim_set _ _ _ _ _ _ _ Hm). exact I. } intros x y Hxy. apply rsim_ok. auto. }
  intros [[m idx] st] [[m' idx'] st'] (<- & <- & Hm). eapply rsim_bind.
  { apply (rsim_for_inv (fun '(m, i, s) '(m', i', s') => i = i' /\ s = s' /\ pl anyZ K KP m m')); auto.
    intros i [[c idx1] st1] [[c' idx1'] st1'] _ (<- & <- & Hc).
    eapply rsim_bind. { apply rsim_refl. } intros [v i1] ? <-.
    eapply rsim_bind. { apply (rsim_set _ _ _ _ _ _ _ Hc). exact I. } intros x y Hxy. apply rsim_ok. auto. }
  intros [[c idx1] st1] [[c' idx1'] st1'] (_ & _ & Hc). apply rsim_ok. split; auto.
Qed.

Lemma coefs_valid_o n i l L c c' : pl anyZ l L c c' -> rsim eq (coefs_valid n i c) (coefs_valid n i c').
Proof.
  intros H. revert i. induction n as [|n IH]; intros i; cbn [coefs_valid]. { apply rsim_refl. }
  eapply rsim_bind. { apply (rsim_get _ _ _ _ _ _ H). } intros v ? (<- & _). destruct (_ || _); [apply rsim_refl|apply IH].
Qed.
Lemma perm_valid_o n i l L c c' fl : pl anyZ l L c c' -> rsim eq (perm_valid p n i c fl) (perm_valid p n i c' fl).
Proof.
  intros H. revert i fl. induction n as [|n IH]; intros i fl; cbn [perm_valid]. { apply rsim_refl. }
  eapply rsim_bind. { apply (rsim_get _ _ _ _ _ _ H). } intros v ? (<- & _). destruct (_ || _); [apply rsim_refl|].
  eapply rsim_bind. { apply rsim_refl. } intros f ? <-. destruct (f =? 1); [apply rsim_refl|].
  eapply rsim_bind. { apply rsim_refl. } intros fl' ? <-. apply IH.
Qed.
Lemma is_valid_o a a' : arel a a' -> rsim eq (is_monom_action_valid p a) (is_monom_action_valid p a').
Proof.
  intros (A1 & A2). unfold is_monom_action_valid. eapply rsim_bind. { eapply coefs_valid_o; eauto. }
  intros b ? <-. destruct b; [|apply rsim_refl]. eapply rsim_bind. { eapply perm_valid_o; eauto. } intros ? ? <-. apply rsim_refl.
Qed.

(** *** Generator matrices *)
Lemma pack_flags_o cnt k base P l L c c' : pl P l L c c' -> rsim eq (pack_flags cnt k base c) (pack_flags cnt k base c').
Proof.
  intros H. revert k. induction cnt as [|n IH]; intros k; cbn [pack_flags]. { apply rsim_refl. }
  eapply rsim_bind. { apply (rsim_get _ _ _ _ _ _ H). } intros v ? (<- & _).
  eapply rsim_bind. { apply IH. } intros ? ? <-. apply rsim_refl.
Qed.
Lemma compress_rref_o buf P l L g g' fl fl' : grel g g' -> pl P l L fl fl' -> rsim eq (compress_rref p buf g fl) (compress_rref p buf g' fl').
Proof.
  intros HG HF. unfold compress_rref. eapply rsim_bind.
  { apply (rsim_for_inv eq); auto. intros i b ? _ <-. eapply rsim_bind. { eapply pack_flags_o; eauto. } intros v ? <-. apply rsim_refl. }
  intros b1 ? <-. eapply rsim_bind with (R := eq).
  { destruct (has_tail p); [|apply rsim_refl]. eapply rsim_bind. { eapply pack_flags_o; eauto. } intros v ? <-. apply rsim_refl. }
  intros [b2 idx] ? <-. eapply rsim_bind.
  { apply (rsim_for_inv eq); auto. intros row s ? _ <-. apply (rsim_for_inv eq); auto. intros col [[b ix] st] ? _ <-.
    eapply rsim_bind. { apply (rsim_get _ _ _ _ _ _ HF). } intros f ? (<- & _). destruct (f =? 0); [|apply rsim_refl].
    eapply rsim_bind. { apply (rsim_get2 _ _ _ _ _ _ _ _ HG). } intros v ? (<- & _). apply rsim_refl. }
  intros [[b3 i3] s3] ? <-. apply rsim_refl.
Qed.

Lemma unpack_flags_o cnt k base c l L f f' : pl anyZ l L f f' ->
  rsim (pl anyZ l L) (unpack_flags cnt k base c f) (unpack_flags cnt k base c f').
Proof.
  revert k f f'. induction cnt as [|n IH]; intros k f f' H; cbn [unpack_flags]. { apply rsim_ok. auto. }
  eapply rsim_bind. { apply (rsim_set _ _ _ _ _ _ _ H). exact I. } intros x y Hxy. apply IH. auto.
Qed.

Lemma nthZ_repeat x n j : (j < n)%nat -> nthZ (repeat x n) j = x.
Proof. intros H. unfold nthZ. rewrite nth_indep with (d' := x) by (rewrite repeat_length; auto). apply nth_repeat. Qed.
Lemma pl_repeat l L x (P : Z -> Prop) : (l <= L)%nat -> P x -> pl P l L (repeat x l) (repeat x L).
Proof.
  intros H HP. split. { apply repeat_length. } split. { apply repeat_length. } split; [|split; auto].
  - intros j Hj. rewrite nthZ_repeat by auto. auto.
  - intros j Hj. rewrite !nthZ_repeat by lia. auto.
Qed.

Lemma land_mask_byte x : is_byte (Z.land x mask_q).
Proof. unfold is_byte. change mask_q with (Z.ones 7). rewrite Z.land_ones by lia. change (2 ^ 7) with 128. lia. Qed.
Lemma dec7_step_byte st buf idx : pc (dec7_step st buf idx) (fun '(v, _) => is_byte v).
Proof.
  unfold dec7_step, dec_split.
  do 8 (destruct st as [|st]; [repeat (apply pc_any; intros ? ?); repeat match goal with H : bind _ _ = Ok _ |- _ => apply bind_ok in H; destruct H as (? & ? & H) end;
    repeat match goal with H : Ok _ = Ok _ |- _ => injection H as <- end; apply pc_ok; apply land_mask_byte|]).
  intros a E. discriminate.
Qed.

Lemma expand_to_rref_rel g g' buf : grel g g' -> rsim grel (expand_to_rref p g buf) (expand_to_rref_o p q g' buf).
Proof.
  intros HG. unfold expand_to_rref, expand_to_rref_o. destruct wq as (Q1 & _).
  eapply rsim_bind.
  { apply (rsim_for_inv (pl anyZ N NP)). { apply pl_repeat; auto. exact I. } intros i f f' _ Hf.
    eapply rsim_bind. { apply rsim_refl. } intros c ? <-. apply unpack_flags_o. auto. }
  intros f f' Hf. eapply rsim_bind with (R := fun '(f, i) '(f', i') => i = i' /\ pl anyZ N NP f f').
  { destruct (has_tail p); [|apply rsim_ok; auto]. eapply rsim_bind. { apply rsim_refl. } intros c ? <-.
    eapply rsim_bind. { apply unpack_flags_o. exact Hf. } intros x y Hxy. apply rsim_ok. auto. }
  intros [fl idx] [fl' idx'] (<- & HF). eapply rsim_bind.
  { apply (rsim_for_inv (fun '(g, i, s) '(g', i', s') => i = i' /\ s = s' /\ grel g g')). { auto. }
    intros row [[v ix] st] [[v' ix'] st'] _ (<- & <- & Hv). eapply rsim_bind.
    { apply (rsim_for_inv (fun '(g, i, s, u) '(g', i', s', u') => i = i' /\ s = s' /\ u = u' /\ grel g g')). { auto. }
      intros col [[[v1 ix1] st1] pi1] [[[v1' ix1'] st1'] pi1'] _ (<- & <- & <- & Hv1).
      eapply rsim_bind. { apply (rsim_get _ _ _ _ _ _ HF). } intros b ? (<- & _). destruct (b =? 0).
      - eapply rsim_bind_pc. { apply rsim_refl. } { apply dec7_step_byte. } intros [x i2] ? <- HB.
        eapply rsim_bind. { apply (rsim_set2 _ _ _ _ _ _ _ _ _ Hv1 HB). } intros x1 y1 H1. apply rsim_ok. auto.
      - eapply rsim_bind. { apply (rsim_set2 _ _ _ _ _ _ _ _ _ Hv1). apply b2z_byte. } intros x1 y1 H1. apply rsim_ok. auto. }
    intros [[[v1 ix1] st1] pi1] [[[v1' ix1'] st1'] pi1'] (<- & <- & <- & Hv1). apply rsim_ok. auto. }
  intros [[v1 ix1] st1] [[v1' ix1'] st1'] (_ & _ & H). apply rsim_ok. auto.
Qed.

Lemma lex_minimize_rel V dst G G' col : grel G G' -> redm p G -> rsim eq (lex_minimize p V dst G col) (lex_minimize_o p V dst G' col).
Proof.
  intros HG RG. unfold lex_minimize, lex_minimize_o.
  eapply rsim_bind with (R := fun a b => a = b /\ fq (snd (fst a))).
  { apply (rsim_for_inv (fun a b => a = b /\ fq (snd (fst a)))). { split; auto. unfold fq. cbn. lia. }
    intros i [[fi fv] fo] ? _ (<- & Hfv). cbn [fst snd] in Hfv.
    eapply rsim_bind. { apply (rsim_get2 _ _ _ _ _ _ _ _ HG). } intros g ? (<- & _ & H1 & H2 & ->).
    apply rsim_ok. split; auto. cbn [fst snd]. pose proof (RG i col H1 H2) as F. unfold fq in *.
    destruct (ent G i col =? 0); destruct fo; cbn [negb andb orb b2z]; rewrite ?Z.mul_0_r, ?Z.mul_1_r, ?Z.add_0_r, ?Z.add_0_l; unfold u8; lia. }
  intros [[fi fv] fo] ? (<- & Hfv). cbn [fst snd] in Hfv. apply (rsim_for_inv eq); auto. intros i v ? _ <-.
  eapply rsim_bind. { apply (rsim_get2 _ _ _ _ _ _ _ _ HG). } intros g ? (<- & _ & H1 & H2 & ->).
  rewrite br_inv_fq by auto. rewrite br_mulred_fq; [apply rsim_refl|apply RG; auto|apply fq_inv_range].
Qed.

Lemma extract_col_o Q Q' col : mrel Q Q' -> rsim eq (extract_col p Q col) (extract_col p Q' col).
Proof.
  intros (Q1 & Q2). apply (rsim_for_inv eq); auto. intros i s ? _ <-.
  eapply rsim_bind. { apply (rsim_get _ _ _ _ _ _ Q2). } intros v ? (<- & _). destruct (v =? _); [|apply rsim_refl].
  eapply rsim_bind. { apply (rsim_get _ _ _ _ _ _ Q1). } intros c ? (<- & _). apply rsim_refl.
Qed.

Lemma verify_normalize_rel V G G' P l L fl fl' : grel G G' -> redm p G -> pl P l L fl fl' ->
  rsim eq (verify_normalize p V G fl) (verify_normalize_o p V G' fl').
Proof.
  intros HG RG HF. unfold verify_normalize, verify_normalize_o. eapply rsim_bind.
  { apply (rsim_for_inv eq); auto. intros col [v pl0] ? _ <-.
    eapply rsim_bind. { apply (rsim_get _ _ _ _ _ _ HF). } intros f ? (<- & _). destruct (f =? 0); [|apply rsim_refl].
    eapply rsim_bind. { apply lex_minimize_rel; eauto. } intros ? ? <-. apply rsim_refl. }
  intros [v pl0] ? <-. apply rsim_refl.
Qed.

Lemma apply_action_rel r r' G G' a a' : grel r r' -> grel G G' -> redm p G -> arel a a' ->
  (forall k, (k < K)%nat -> fq (nthZ (a_coef a) k)) ->
  rsim grel (apply_action_to_G p r G a) (apply_action_to_G_o p q r' G' a').
Proof.
  intros HR HG RG (A1 & A2) AC. unfold apply_action_to_G, apply_action_to_G_o. destruct wq as (Q1 & _).
  eapply rsim_bind.
  { apply (rsim_for_inv (fun '(g, f) '(g', f') => grel g g' /\ pl anyZ N NP f f')). { split; auto. apply pl_repeat; auto. exact I. }
    intros dst [g f] [g' f'] Hd (Hg & Hf).
    eapply rsim_bind. { apply (rsim_get _ _ _ _ _ _ A1). } intros s ? (<- & _).
    eapply rsim_bind.
    { apply (rsim_for_inv grel); [exact Hg|]. intros i x y _ Hxy.
      eapply rsim_bind. { apply (rsim_get2 _ _ _ _ _ _ _ _ HG). } intros v ? (<- & _ & H1 & H2 & ->).
      eapply rsim_bind. { apply (rsim_get _ _ _ _ _ _ A2). } intros c ? (<- & _ & H3 & ->).
      rewrite br_mulred_fq by auto. apply (rsim_set2 _ _ _ _ _ _ _ _ _ Hxy). apply fq_byte. apply fq_red_range. }
    intros x y Hxy. eapply rsim_bind. { apply (rsim_set _ _ _ _ _ _ _ Hf). exact I. } intros x1 y1 H1. apply rsim_ok. auto. }
  intros [g f] [g' f'] (Hg & Hf). eapply rsim_bind.
  { apply (rsim_for_inv (fun '(g, d) '(g', d') => d = d' /\ grel g g')). { auto. }
    intros src [x d] [x' d'] _ (<- & Hx). eapply rsim_bind. { apply (rsim_get _ _ _ _ _ _ Hf). } intros b ? (<- & _).
    destruct (b =? 0); [|apply rsim_ok; auto]. eapply rsim_bind.
    { apply (rsim_for_inv grel); [exact Hx|]. intros i x1 y1 _ Hxy.
      eapply rsim_bind. { apply (rsim_get2 _ _ _ _ _ _ _ _ HG). } intros v ? (<- & Hv & _). apply (rsim_set2 _ _ _ _ _ _ _ _ _ Hxy Hv). }
    intros x1 y1 Hxy. apply rsim_ok. auto. }
  intros [x d] [x' d'] (_ & H). apply rsim_ok. auto.
Qed.

Lemma grel_padm G G' : grel G G' -> padm p NP G G'.
Proof.
  intros H. destruct (pm_shape _ _ _ _ _ _ H) as [S1 S2]. split; auto. split.
  - intros i Hi. apply Forall_nth_Z. intros j Hj. rewrite (shape_row _ K NP) in Hj by auto. apply (pm_P _ _ _ _ _ _ _ _ H); auto.
  - intros i j Hi Hj. apply (pm_ent _ _ _ _ _ _ _ _ H); auto.
Qed.
Lemma padm_grel G G' : shape K N G -> padm p NP G G' -> grel G G'.
Proof.
  intros HS H. destruct wq as (Q1 & _). apply pm_intro; auto.
  - exact (proj1 H).
  - intros i j Hi Hj. eapply padm_byte; eauto using pads_vec, K_le_N.
  - exact (proj2 (proj2 H)).
Qed.

Definition shape_em (em : mat) : Prop := shape 128 (32 * num_words p) em.

Lemma rref_rows_flags n r G fl : pc (rref_rows p n r G fl) (fun '(_, _, f) => length f = length fl).
Proof.
  revert r G fl. induction n as [|n IH]; intros r G fl; cbn [rref_rows]. { apply pc_ok. auto. }
  apply pc_any. intros [pr c] _. destruct (_ <=? c)%nat. { apply pc_ok. auto. }
  apply pc_any. intros fl' E. apply set_inv in E. destruct E as [_ ->].
  apply pc_any. intros G1 _. apply pc_any. intros g _. apply pc_any. intros G2 _. apply pc_any. intros G3 _.
  eapply pc_mono. { apply IH. } intros [[a b] f] H. rewrite upd_length in H. auto.
Qed.

Lemma RREF_rel G G' em : grel G G' -> redm p G -> shape_em em ->
  rsim (fun '(r, R, f) '(r', R', f') => r = r' /\ grel R R' /\ redm p R /\ pl anyZ N NP f f')
    (generator_RREF p G (repeat 0 N)) (generator_RREF_o p em G' (repeat 0 NP)).
Proof.
  intros HG RG HE. destruct (pm_shape _ _ _ _ _ _ HG) as [S1 S2]. destruct wq as (Q1 & _).
  destruct (generator_RREF_opt p NP pads_vec K_le_N G G' em S1 RG (grel_padm _ _ HG) HE) as (ret & R & RF & R' & RF' & E1 & E2 & P1 & P2 & P3).
  pose proof (generator_RREF_spec p G S1 RG K_le_N) as (x & EX & SP). rewrite E1 in EX. injection EX as <-. destruct SP as (SR & RR & _).
  pose proof (rref_rows_flags K 0 G (repeat 0 N) _ E1) as LF. cbn in LF. rewrite repeat_length in LF.
  rewrite E1, E2. apply rsim_ok. split; auto. split. { apply padm_grel; auto. } split; auto.
  destruct P2 as [P2 P4]. split; auto. split; auto. split. { intros; exact I. } split; auto. intros j Hj. apply P4. lia.
Qed.

(** Multiplication by a monomial matrix. *)
Lemma mul_row buf G' C row : length buf = NP -> shape K NP G' -> (forall i j, (i < K)%nat -> (j < NP)%nat -> is_byte (ent G' i j)) ->
  length C = NP -> bytes C -> (row < K)%nat ->
  okp (for_ (NP / 32) 0 (fun b buf => g <- ldm G' row b ;; mono <- ldv C b ;; stv buf b (mul_block ia g mono)) buf)
    (fun buf' => length buf' = NP /\ forall j, (j < NP)%nat -> nthZ buf' j = mulb ia (ent G' row j) (nthZ C j)).
Proof.
  intros LB SG BG LC BC Hr. destruct wq as (_ & Q2 & _).
  assert (E32 : (32 * (NP / 32) = NP)%nat). { pose proof (Nat.div_mod NP 32 ltac:(lia)). lia. }
  pose proof (shape_row _ _ _ _ SG Hr) as LR.
  assert (BR : bytes (nth row G' [])). { apply Forall_nth_Z. intros j Hj. rewrite LR in Hj. apply (BG row j); auto. }
  eapply okp_mono.
  - apply (okp_for (fun k b => length b = NP /\ forall j, (j < 32 * k)%nat -> nthZ b j = mulb ia (ent G' row j) (nthZ C j))).
    { split; auto. intros; lia. }
    intros k b Hk (L1 & H1). rewrite (ldm_ok p NP pads_vec K_le_N K NP) by (auto; lia). cbn [bind].
    unfold ldv. rewrite rd_ok by lia. cbn [bind].
    assert (L2 : length (firstn 32 (skipn (32 * k) (nth row G' []))) = 32%nat) by (rewrite firstn_length, skipn_length; lia).
    assert (L3 : length (firstn 32 (skipn (32 * k) C)) = 32%nat) by (rewrite firstn_length, skipn_length; lia).
    rewrite mul_block_spec; auto; try (apply Forall_firstn; apply Forall_skipn; assumption).
    unfold stv. rewrite wr_ok by (rewrite map2_length; lia).
    apply okp_ok. split. { rewrite wr_length; auto. rewrite map2_length. lia. }
    intros j Hj. unfold nthZ. rewrite nth_wr by (rewrite map2_length; lia). rewrite map2_length, L2, L3.
    change (min 32 32) with 32%nat.
    destruct (Nat.ltb_spec j (32 * k)).
    + apply H1. lia.
    + destruct (Nat.ltb_spec j (32 * k + 32)); [|lia].
      rewrite map2_nth with (da := 0) (db := 0) by lia.
      rewrite !nth_firstn, !nth_skipn by lia. replace (32 * k + (j - 32 * k))%nat with j by lia. reflexivity.
  - intros b (L1 & H1). split; auto. intros j Hj. apply H1. lia.
Qed.

Lemma monomial_mul_rel buf r r' G G' Q Q' : length buf = NP -> grel r r' -> grel G G' -> redm p G -> mono_ok p Q -> mrel Q Q' ->
  rsim (fun a b => grel a b /\ redm p a) (generator_monomial_mul p r G Q) (generator_monomial_mul_o p q ia buf r' G' Q').
Proof.
  intros LB HR HG RG HQ (Q1 & Q2).
  destruct (pm_shape _ _ _ _ _ _ HR) as [SR SR']. destruct (pm_shape _ _ _ _ _ _ HG) as [SG SG'].
  pose proof (perm_list_bij N _ (mo_perm p Q HQ)) as B. pose proof (perm_list_len N _ (mo_perm p Q HQ)) as Lp.
  destruct Q1 as (C1 & C2 & C3 & C4 & C5). destruct Q2 as (D1 & D2 & D3 & D4 & D5).
  assert (BC : bytes (m_coef Q')). { apply Forall_nth_Z. intros j Hj. apply C3. lia. }
  eapply rsim_okp. { apply generator_monomial_mul_entries; auto. }
  intros R _ (S1 & E1). cbv beta.
  assert (RR : redm p R).
  { intros i j Hi Hj. destruct (bij_surj N _ B j Hj) as (s & Hs & <-). rewrite E1 by auto. apply fq_red_range. }
  unfold generator_monomial_mul_o.
  eapply okp_bind with (Q := fun '(R', b') => shape K NP R' /\ (forall i j, (i < K)%nat -> (j < NP)%nat -> is_byte (ent R' i j)) /\
     forall i s, (i < K)%nat -> (s < N)%nat -> ent R' i (pf (m_perm Q) s) = mulb ia (ent G' i s) (nthZ (m_coef Q') s)).
  - eapply okp_mono.
    { eapply okp_for with (I := fun k '(R', b') => length b' = NP /\ shape K NP R' /\
        (forall i j, (i < K)%nat -> (j < NP)%nat -> is_byte (ent R' i j)) /\
        forall i s, (i < k)%nat -> (s < N)%nat -> ent R' i (pf (m_perm Q) s) = mulb ia (ent G' i s) (nthZ (m_coef Q') s)).
      { split; auto. split; auto. split. { intros i j Hi Hj. apply (pm_P _ _ _ _ _ _ _ _ HR); auto. } intros; lia. }
      intros row [R1 b1] Hrow (L1 & S2 & B2 & E2). cbn [Nat.add] in Hrow.
      eapply okp_bind. { apply mul_row; auto; try lia. intros i j Hi Hj. apply (pm_P _ _ _ _ _ _ _ _ HG); auto. }
      intros b2 (L2 & E3).
      eapply okp_bind.
      { eapply okp_for with (I := fun n R' => shape K NP R' /\ (forall i j, (i < K)%nat -> (j < NP)%nat -> is_byte (ent R' i j)) /\
          (forall i j, i <> row -> ent R' i j = ent R1 i j) /\
          forall s, (s < n)%nat -> ent R' row (pf (m_perm Q) s) = mulb ia (ent G' row s) (nthZ (m_coef Q') s)).
        { split; auto. split; auto. split; auto. intros; lia. }
        intros c R2 Hc (S3 & B3 & O3 & E4). cbn [Nat.add] in Hc.
        rewrite (get_ok _ c 0), (get_ok _ c 0) by lia. cbn [bind]. fold (nthZ (m_perm Q') c) (nthZ b2 c).
        rewrite D5, E3 by lia. fold (pf (m_perm Q) c).
        assert (HP : (pf (m_perm Q) c < N)%nat) by (apply B; lia).
        rewrite (set2_ok _ K NP) by (auto; lia). apply okp_ok. split. { apply shape_upd2; auto; lia. } split; [|split].
        - intros i j Hi Hj. rewrite (ent_upd2 _ K NP) by (auto; lia). destruct (_ && _); [apply mulb_byte|auto].
        - intros i j Hi. rewrite (ent_upd2 _ K NP) by (auto; lia). destruct (Nat.eqb_spec row i); [congruence|]. cbn [andb]. auto.
        - intros s Hs. rewrite (ent_upd2 _ K NP) by (auto; lia). rewrite Nat.eqb_refl. cbn [andb].
          destruct (Nat.eqb_spec (pf (m_perm Q) c) (pf (m_perm Q) s)) as [E|E].
          + apply B in E; try lia. subst s. reflexivity.
          + apply E4. destruct (Nat.eq_dec s c); [subst; congruence|lia]. }
      intros R2 (S3 & B3 & O3 & E4). apply okp_ok. split; auto. split; auto. split; auto.
      intros i s Hi Hs. destruct (Nat.eq_dec i row) as [->|Ne]; [apply E4; auto|]. rewrite O3 by auto. apply E2; lia. }
    intros [R' b'] (_ & H). exact H.
  - intros [R' b'] (S2 & B2 & E2). apply okp_ok. split; auto. apply pm_intro; auto.
    intros i j Hi Hj. destruct (bij_surj N _ B j Hj) as (s & Hs & <-). rewrite E2, E1 by auto.
    rewrite (pm_ent _ _ _ _ _ _ _ _ HG), C5 by auto. apply mulb_fq; auto. apply fq_unit_fq. apply (mono_coef p); auto.
Qed.

End S.
