(** Properties C27, C28 and C37: the optimised implementation and the reference. *)
From Verif Require Import Base BaseLemmas Params ParamsProofs Fq Prim Samplers Monomial Codes SeedTree Utils Less Sign Spec
  FqProofs LinAlg RrefProofs MonoProofs VerifyProofs SignerProofs ApiProofs Fips202Inst
  Vec OptCodes VecProofs OptRref OptLess OptSim OptEquiv PropMono PropCodec PropLinAlg PropCanon PropScheme PropApi PropDet Toy.

(** *** C27 *)

(** On reduced operands the optimised multiplication and inverse return what the reference ones do. *)
Theorem C27_scalar : forall a b, fq a -> fq b ->
  br_red (br_mul a b) = fq_red (a * b) /\ br_red (br_mul a b) = (a * b) mod 127 /\ br_inv a = fq_inv a /\
  br_red a = fq_red a.
Proof.
  intros a b Ha Hb. split; [apply br_mulred_fq; auto|]. split.
  { rewrite br_mulred_fq by auto. apply fq_red_spec. apply fq_mul_bound; auto. }
  split; [apply br_inv_fq; auto|].
  rewrite br_red_red8 by (apply fq_byte; auto). rewrite red8_val by (apply fq_byte; auto).
  rewrite fq_red_spec by (unfold fq in Ha; lia).
  unfold fq in Ha. destruct (Z.eqb_spec a 127); [lia|]. destruct (Z.eqb_spec a 254); [lia|]. destruct (Z.eqb_spec a 255); [lia|]. reflexivity.
Qed.

(** Unlike fq_red, br_red is not a reduction modulo 127 of all bytes: it returns 127 for 127 and 254 and 0 for 255. *)
Theorem C27_red_all_bytes : forall x, 0 <= x < 256 ->
  br_red x = (if x =? 127 then 127 else if x =? 254 then 127 else if x =? 255 then 0 else x mod 127) /\
  (br_red x = fq_red x <-> x <> 127 /\ x <> 254 /\ x <> 255).
Proof.
  intros x Hx. rewrite br_red_red8, red8_val by auto. rewrite fq_red_spec by lia.
  destruct (Z.eqb_spec x 127); cbn [orb]. { split; [reflexivity|lia]. }
  destruct (Z.eqb_spec x 254). { split; [reflexivity|lia]. }
  destruct (Z.eqb_spec x 255). { split; [reflexivity|lia]. }
  split; [reflexivity|tauto].
Qed.

Lemma fold7_127 m : 0 <= m <= 127 * 127 -> m mod 127 = 0 -> m <> 0 -> fold7 m = 127.
Proof.
  intros B E NZ. assert (Em : exists k, m = 127 * k /\ 1 <= k <= 127) by (exists (m / 127); lia).
  destruct Em as (k & -> & Hk). unfold fold7. assert (D : 127 * k = 128 - k + (k - 1) * 128) by lia.
  rewrite D. rewrite Z.mod_add, Z.div_add by lia.
  rewrite Z.mod_small, Z.div_small by lia. lia.
Qed.
Lemma fold7_red' m : 0 <= m <= 127 * 127 ->
  red8 (fold7 m) = if (m mod 127 =? 0) && negb (m =? 0) then 127 else m mod 127.
Proof.
  intros B. destruct (Z.eqb_spec (m mod 127) 0) as [E|E]; [destruct (Z.eqb_spec m 0) as [->|NZ]|]; cbn [andb negb].
  - reflexivity.
  - rewrite fold7_127 by auto. reflexivity.
  - rewrite red8_val by (unfold is_byte, fold7; lia).
    assert (C : fold7 m mod 127 = m mod 127) by (apply cong_iff, fold7_cong).
    destruct (Z.eqb_spec (fold7 m) 127) as [E1|]; cbn [orb]. { rewrite E1 in C. cbn in C. lia. }
    destruct (Z.eqb_spec (fold7 m) 254). { unfold fold7 in *. lia. }
    destruct (Z.eqb_spec (fold7 m) 255). { unfold fold7 in *. lia. } auto.
Qed.
Lemma mul_bound7 x y : 0 <= x <= 127 -> 0 <= y <= 127 -> 0 <= x * y <= 127 * 127.
Proof. intros. split; [apply Z.mul_nonneg_nonneg; lia|apply Z.mul_le_mono_nonneg; lia]. Qed.
Lemma mulb_7bit i x y : 0 <= x <= 127 -> 0 <= y <= 127 ->
  mulb i x y = if ((x * y) mod 127 =? 0) && negb (x * y =? 0) then 127 else (x * y) mod 127.
Proof.
  intros Hx Hy. pose proof (mul_bound7 x y Hx Hy) as B. rewrite <- fold7_red' by auto.
  unfold mulb, mulw. cbv zeta. set (m := x * y) in *. rewrite !(u16_id m) by lia.
  assert (E : shr16 i m = m / 128).
  { destruct i; cbn [shr16]. - unfold s16. destruct (Z.ltb_spec m 32768); [|lia]. rewrite shr7. apply u16_id. lia. - apply shr7. }
  rewrite E, shl7. f_equal. unfold fold7, u16, u8. lia.
Qed.

(** Multiplying seven-bit operands, as they are unpacked from a public key: a product that is a non-zero multiple of
    127 - that is, one factor is 127 and the other is not 0 - gives 127 where the reference gives 0. *)
Theorem C27_mul_seven_bits : forall x y, 0 <= x <= 127 -> 0 <= y <= 127 ->
  br_red (br_mul x y) = (if ((x =? 127) && negb (y =? 0)) || ((y =? 127) && negb (x =? 0)) then 127 else fq_red (x * y)).
Proof.
  intros x y Hx Hy. pose proof (mul_bound7 x y Hx Hy) as B.
  assert (E : br_red (br_mul x y) = red8 (fold7 (x * y))).
  { assert (F : br_mul x y = fold7 (x * y)).
    { unfold br_mul, fold7. rewrite shr7, shl7. unfold u16, u8. set (m := x * y) in *. lia. }
    rewrite F. apply br_red_red8. unfold is_byte, fold7. lia. }
  rewrite E, fold7_red' by auto. rewrite fq_red_spec by lia.
  destruct (Z.eqb_spec x 127) as [->|Nx]; cbn [andb orb].
  - destruct (Z.eqb_spec y 0) as [->|Ny]; cbn [negb orb]; [reflexivity|].
    replace ((127 * y) mod 127) with 0 by lia. cbn [Z.eqb andb]. destruct (Z.eqb_spec (127 * y) 0); [lia|reflexivity].
  - destruct (Z.eqb_spec y 127) as [->|Ny]; cbn [andb orb].
    + destruct (Z.eqb_spec x 0) as [->|Nx0]; cbn [negb]; [reflexivity|].
      replace ((x * 127) mod 127) with 0 by lia. cbn [Z.eqb andb]. destruct (Z.eqb_spec (x * 127) 0); [lia|reflexivity].
    + destruct (Z.eqb_spec ((x * y) mod 127) 0) as [E0|]; [|reflexivity]. destruct (Z.eqb_spec (x * y) 0); cbn [andb negb]; [auto|].
      exfalso. apply (prod_nz x y); auto; try (unfold fq; lia). apply cong_iff. rewrite E0. reflexivity.
Qed.

(** The vector operations, lane by lane, for both instruction sets. Whatever bytes the other lanes hold, a lane holding
    reduced operands receives the reduced product (the reduced sum); the two reductions agree with br_red, and with
    reduction modulo 127 but for 254 and 255, respectively. *)
Theorem C27_vector : forall i x y, length x = 32%nat -> length y = 32%nat -> bytes x -> bytes y ->
  length (mul_block i x y) = 32%nat /\ length (add_red x y) = 32%nat /\
  forall k, (k < 32)%nat ->
  (fq (nthZ x k) -> fq (nthZ y k) ->
     nthZ (mul_block i x y) k = fq_red (nthZ x k * nthZ y k) /\
     nthZ (add_red x y) k = fq_red (nthZ x k + nthZ y k)) /\
  nthZ (barrett_red8 x (vset8 127) (vset8 1)) k = br_red (nthZ x k) /\
  nthZ (W_RED127_ x (vset8 1) (vset8 127)) k =
    (if (nthZ x k =? 254) || (nthZ x k =? 255) then 127 else fq_red (nthZ x k)).
Proof.
  intros i x y Lx Ly Bx By. rewrite mul_block_spec, add_red_spec by auto.
  split. { rewrite map2_length. lia. } split. { rewrite map2_length. lia. } intros k Hk.
  assert (Kx : is_byte (nthZ x k)) by (unfold bytes in Bx; rewrite Forall_forall in Bx; apply Bx, nth_In; lia).
  split; [|split].
  - intros Hx Hy. unfold nthZ in *. rewrite !(map2_nth _ x y k 0 0 0) by lia. rewrite mulb_fq, addr_fq by auto.
    split; auto. symmetry. apply fq_red_spec. unfold fq in *. lia.
  - rewrite barrett_red8_spec by auto. rewrite br_red_red8 by auto. unfold nthZ.
    rewrite (nth_indep (map red8 x) 0 (red8 0)) by (rewrite map_length; lia). apply map_nth.
  - rewrite W_RED127_spec by auto. unfold nthZ in *.
    rewrite (nth_indep (map red8' x) 0 (red8' 0)) by (rewrite map_length; lia). rewrite map_nth.
    rewrite red8'_val by auto. rewrite fq_red_spec by (unfold is_byte in Kx; lia).
    destruct (nth k x 0 =? 254), (nth k x 0 =? 255); reflexivity.
Qed.

(** Two vectors with reduced and unreduced lanes. *)
Definition ex_vec1 : vec := map (fun k => (37 * Z.of_nat k + 11) mod 256) (seq 0 32).
Definition ex_vec2 : vec := map (fun k => (91 * Z.of_nat k + 60) mod 256) (seq 0 32).
Example C27_example :
  (firstn 3 ex_vec1, firstn 3 ex_vec2, firstn 3 (mul_block AVX2 ex_vec1 ex_vec2), firstn 3 (add_red ex_vec1 ex_vec2),
   if list_eq_dec Z.eq_dec (mul_block AVX2 ex_vec1 ex_vec2) (mul_block NEON ex_vec1 ex_vec2) then true else false,
   map br_red [126; 127; 128; 254; 255], map fq_red [126; 127; 128; 254; 255], br_red (br_mul 127 5), fq_red (127 * 5)) =
  ([11; 48; 85], [60; 151; 242], [25; 9; 123], [71; 72; 71], true, [126; 127; 1; 127; 0], [126; 0; 1; 0; 1], 127, 0).
Proof. vm_compute. reflexivity. Qed.

(** *** C28 *)

(** [G'] is the matrix [G] with its rows extended by arbitrary bytes. *)
Definition padded (p : params) (q : pads) (G G' : mat) : Prop :=
  shape (pK p) (n_pad q) G' /\ Forall bytes G' /\ map (firstn (pN p)) G' = G.
Definition padded_mono (p : params) (q : pads) (Q Q' : monomial) : Prop :=
  length (m_coef Q') = n_pad q /\ length (m_perm Q') = n_pad q /\ bytes (m_coef Q') /\
  firstn (pN p) (m_coef Q') = m_coef Q /\ firstn (pN p) (m_perm Q') = m_perm Q.

Lemma shape_row r c (G : mat) i : shape r c G -> (i < r)%nat -> length (nth i G []) = c.
Proof. intros [H1 H2] Hi. rewrite Forall_forall in H2. apply H2, nth_In. lia. Qed.
Lemma ent_firstn r c (G : mat) n i j : shape r c G -> (i < r)%nat -> (j < n)%nat -> ent (map (firstn n) G) i j = ent G i j.
Proof.
  intros [H1 H2] Hi Hj. unfold ent. rewrite (nth_indep _ [] (firstn n [])) by (rewrite map_length; lia). rewrite map_nth.
  apply nth_firstn. auto.
Qed.
Lemma padded_pm p q G G' : wf_pads p q -> shape (pK p) (pN p) G -> padded p q G G' <-> pm is_byte (pK p) (pN p) (n_pad q) G G'.
Proof.
  intros wq HG. split.
  - intros (S & B & E). apply pm_intro; auto.
    + apply wq.
    + intros i j Hi Hj. rewrite Forall_forall in B. unfold ent.
      assert (I : In (nth i G' []) G') by (apply nth_In; rewrite (proj1 S); auto).
      specialize (B _ I). unfold bytes in B. rewrite Forall_forall in B. apply B. apply nth_In. rewrite (shape_row _ _ _ _ S Hi). auto.
    + intros i j Hi Hj. rewrite <- E. symmetry. eapply ent_firstn; eauto.
  - intros H. pose proof (pm_shape _ _ _ _ _ _ H) as [_ S']. split; auto. split.
    + apply Forall_forall. intros row Hr. apply (In_nth _ _ []) in Hr. destruct Hr as (i & Hi & <-). rewrite (proj1 S') in Hi.
      apply Forall_forall. intros x Hx. apply (In_nth _ _ 0) in Hx. destruct Hx as (j & Hj & <-).
      rewrite (shape_row _ _ _ _ S' Hi) in Hj. apply (pm_P _ _ _ _ _ _ i j H); auto.
    + apply (mat_ext _ _ (pK p) (pN p)); auto.
      * split; [rewrite map_length; apply S'|]. apply Forall_forall. intros row Hr. apply in_map_iff in Hr. destruct Hr as (r & <- & Hr).
        apply (In_nth _ _ []) in Hr. destruct Hr as (i & Hi & <-). rewrite (proj1 S') in Hi.
        rewrite firstn_length, (shape_row _ _ _ _ S' Hi). destruct wq. lia.
      * intros i j Hi Hj. rewrite (ent_firstn _ _ _ _ _ _ S') by auto. apply (pm_ent _ _ _ _ _ _ i j H); auto.
Qed.
Lemma pl_firstn (P : Z -> Prop) l L a b : length a = l -> length b = L -> (l <= L)%nat -> firstn l b = a -> (forall j, (j < L)%nat -> P (nthZ b j)) -> pl P l L a b.
Proof.
  intros H1 H2 H3 H4 H5. repeat split; auto. intros j Hj. rewrite <- H4. unfold nthZ. rewrite nth_firstn by auto. reflexivity.
Qed.
Lemma pl_firstn' P l L a b : pl P l L a b -> firstn l b = a.
Proof.
  intros (H1 & H2 & _ & H3 & H4). apply (list_ext 0). { rewrite firstn_length. lia. }
  intros j Hj. rewrite firstn_length in Hj. rewrite nth_firstn by lia. apply H4. lia.
Qed.

(** generator_RREF: the same return value, and the same matrix and pivot flags in the columns below N, whatever the
    padding columns and the uninitialised table of multiples contain. *)
Theorem C28_rref : forall p q, wf_params p -> wf_pads p q ->
  forall G G' em, matrix p G -> reduced (pK p) (pN p) (ent G) -> padded p q G G' -> shape 128 (32 * num_words p) em ->
  exists ret R f R' f',
    generator_RREF p G (repeat 0 (pN p)) = Ok (ret, R, f) /\
    generator_RREF_o p em G' (repeat 0 (n_pad q)) = Ok (ret, R', f') /\
    padded p q R R' /\ length f' = n_pad q /\ firstn (pN p) f' = f.
Proof.
  intros p q wf wq G G' em HG HR HP HE. apply padded_pm in HP; auto.
  pose proof (RREF_rel p q wf wq G G' em HP HR HE) as S.
  destruct (generator_RREF_spec p G HG HR (K_le_N p wf)) as ([[ret R] f] & E & SR & _).
  rewrite E in *. cbn [rsim] in S. destruct S as ([[ret' R'] f'] & E' & <- & H1 & _ & H2).
  exists ret, R, f, R', f'. split; auto. split; auto. split. { apply padded_pm; auto. }
  split. { apply H2. } eapply pl_firstn'; eauto.
Qed.

(** generator_monomial_mul, for both instruction sets. *)
Theorem C28_mul : forall p q i, wf_params p -> wf_pads p q ->
  forall r r' G G' Q Q' buf, matrix p r -> padded p q r r' -> length buf = n_pad q ->
  matrix p G -> reduced (pK p) (pN p) (ent G) -> padded p q G G' -> good_mono p Q -> padded_mono p q Q Q' ->
  exists GQ GQ', generator_monomial_mul p r G Q = Ok GQ /\ generator_monomial_mul_o p q i buf r' G' Q' = Ok GQ' /\
    padded p q GQ GQ'.
Proof.
  intros p q i wf wq r r' G G' Q Q' buf Hr Pr Hb HG HR PG HQ (P1 & P2 & P3 & P4 & P5).
  apply padded_pm in Pr; auto. apply padded_pm in PG; auto.
  destruct (C21_product p wf r G Q Hr HG HR HQ) as (GQ & E & SQ & _). rewrite good_mono_ok in HQ.
  pose proof (monomial_mul_rel p q i wf wq buf r r' G G' Q Q' Hb Pr PG HR HQ) as S. rewrite E in S.
  assert (M : mrel p q Q Q').
  { pose proof (mono_ok_mem p Q HQ) as [M1 M2]. split; apply pl_firstn; auto; try apply wq.
    - intros j Hj. unfold bytes in P3. rewrite Forall_forall in P3. apply P3, nth_In. lia.
    - intros. exact I. }
  specialize (S M). cbn [rsim] in S. destruct S as (GQ' & E' & H1 & _).
  exists GQ, GQ'. split; auto. split; auto. apply padded_pm; auto.
Qed.

Definition toy_pads : pads := {| n_pad := 160; k_pad := 32; nk_pad := 160 |}.
Lemma toy_pads_wf : wf_pads toy_params toy_pads.
Proof. unfold wf_pads. cbn. lia. Qed.

(** The generators of [C16_example], with different padding and table contents; the product with a monomial matrix. *)
Definition ex_pad (b : Z) (G : mat) : mat := map (fun row => row ++ repeat b 28) G.
Definition ex_mono_pad : monomial := {| m_coef := m_coef ex_mono ++ repeat 255 28; m_perm := m_perm ex_mono ++ repeat (-3) 28 |}.
Example C28_example :
  (' (ret, R, f) <- generator_RREF_o toy_params (repeat (repeat 77 160) 128) (ex_pad 200 (row_mix [[1; 2; 3]; [0; 5; 7]; [4; 4; 4]])) (repeat 0 160) ;;
   Ok (ret, map (firstn 132) R, firstn 132 f)) = Ok (1, ex_G, ex_flags) /\
  (GQ <- generator_monomial_mul toy_params (repeat (repeat 9 132) 3) ex_G ex_mono ;;
   GQ' <- generator_monomial_mul_o toy_params toy_pads NEON (repeat 8 160) (repeat (repeat 7 160) 3) (ex_pad 255 ex_G) ex_mono_pad ;;
   Ok (if list_eq_dec (list_eq_dec Z.eq_dec) (map (firstn 132) GQ') GQ then true else false, firstn 8 (nth 2 GQ []))) =
   Ok (true, [120; 33; 12; 57; 41; 0; 0; 0]).
Proof. split; vm_compute; reflexivity. Qed.

(** Without the bound on the entries the property fails. An entry 127 makes the result depend on the uninitialised first row
    of the table of multiples; a pivot 127 leaves the pointer to the normalised row unset. The reference is defined on both. *)
Definition bad_entry : mat := [1 :: 3 :: repeat 0 130; 127 :: 5 :: 2 :: repeat 1 129; 0 :: 0 :: 1 :: repeat 2 129].
Definition bad_pivot : mat := [127 :: 3 :: repeat 0 130; 0 :: 5 :: 2 :: repeat 1 129; 0 :: 0 :: 1 :: repeat 2 129].
Theorem C28_unreduced_refuted :
  (exists em em' R R' f, shape 128 160 em /\ shape 128 160 em' /\
     generator_RREF_o toy_params em (ex_pad 0 bad_entry) (repeat 0 160) = Ok (1, R, f) /\
     generator_RREF_o toy_params em' (ex_pad 0 bad_entry) (repeat 0 160) = Ok (1, R', f) /\
     ent R 0 0 = 1 /\ ent R' 0 0 = 64) /\
  (exists R f, generator_RREF toy_params bad_entry (repeat 0 132) = Ok (1, R, f)) /\
  (forall em, shape 128 160 em -> generator_RREF_o toy_params em (ex_pad 0 bad_pivot) (repeat 0 160) = UB) /\
  (exists R f, generator_RREF toy_params bad_pivot (repeat 0 132) = Ok (1, R, f)).
Proof.
  assert (S : forall x, shape 128 160 (repeat (repeat x 160) 128)).
  { intros x. split. { apply repeat_length. } apply Forall_forall. intros row Hr. apply repeat_spec in Hr. subst. apply repeat_length. }
  split; [|split; [|split]].
  - exists (repeat (repeat 0 160) 128), (repeat (repeat 1 160) 128). do 3 eexists. split; auto. split; auto.
    split. { vm_compute. reflexivity. } split. { vm_compute. reflexivity. } split; vm_compute; reflexivity.
  - do 2 eexists. vm_compute. reflexivity.
  - intros em Hem.
    assert (HNP : (32 * num_words toy_params <= 160)%nat) by (vm_compute; lia).
    assert (HKN : (pK toy_params <= pN toy_params)%nat) by (cbn; lia).
    unfold generator_RREF_o. cbn [pK toy_params rref_rows_v].
    replace (col_scan toy_params (pN toy_params - 0) 0 0 (ex_pad 0 bad_pivot)) with (Ok (Some (0%nat, 0%nat))) by (vm_compute; reflexivity).
    cbn [bind]. rewrite set_ok by (rewrite repeat_length; lia). cbn [bind Nat.eqb].
    replace (get (ex_pad 0 bad_pivot) 0) with (Ok (127 :: 3 :: repeat 0 158)) by (vm_compute; reflexivity). cbn [bind].
    destruct (fill_em_spec toy_params 160 HNP HKN em (127 :: 3 :: repeat 0 158)) as (em' & E & S'); auto. rewrite E. cbn [bind].
    replace (get (127 :: 3 :: repeat 0 158) 0) with (Ok 127) by reflexivity. cbn [bind].
    replace (fill_ep (repeat None 128) 127) with (Ok (Some 0%nat :: repeat None 126 ++ [Some 0%nat])) by (vm_compute; reflexivity).
    reflexivity.
  - do 2 eexists. vm_compute. reflexivity.
Qed.

(** *** C37 *)

(** [sk], [pk] is the result of a run of the optimised LESS_keygen. *)
Definition keypair_o (X : prim) (p : params) (q : pads) (i : isa) (fuel : nat) (sk pk : list Z) : Prop :=
  exists junk rng rng' sk0 pk0, length sk0 = sizeof_sk p /\ length pk0 = sizeof_pk p /\ bytes pk0 /\
    LESS_keygen_o X p q i fuel junk rng sk0 pk0 = Ok (sk, pk, rng').

Lemma keygen_eq X p q i : wf_params p -> lawful X (hash_len p) -> wf_pads p q ->
  forall fuel junk rng sk0 pk0, length sk0 = sizeof_sk p -> length pk0 = sizeof_pk p -> bytes pk0 ->
  LESS_keygen_o X p q i fuel junk rng sk0 pk0 = LESS_keygen X p fuel (ref_junk p q junk) rng sk0 pk0.
Proof.
  intros wf LX wq fuel junk rng sk0 pk0 H1 H2 H3. apply rsim_eq. { apply keygen_equiv; auto. }
  apply C08_keygen_safe; auto.
Qed.
Lemma sign_eq X p q i : wf_params p -> lawful X (hash_len p) -> wf_pads p q ->
  forall fuel junk rng sk m sig0, length sk = sizeof_sk p -> length sig0 = sizeof_sign p -> bytes sig0 ->
  LESS_sign_o X p q i fuel junk rng sk m sig0 = LESS_sign X p fuel (ref_junk p q junk) rng sk m sig0.
Proof.
  intros wf LX wq fuel junk rng sk m sig0 H1 H2 H3. apply rsim_eq. { apply sign_equiv; auto. }
  apply C08_sign_safe; auto.
Qed.
Lemma keypair_pk_wf X p fuel sk pk : wf_params p -> lawful X (hash_len p) -> keypair X p fuel sk pk -> pk_wf p pk.
Proof. intros wf LX HK. eapply honest_pk_wf. apply keypair_honest; eauto. Qed.
Lemma verify_eq X p q i : wf_params p -> lawful X (hash_len p) -> wf_pads p q ->
  forall fk sk pk, keypair X p fk sk pk ->
  forall fuel junk m sig, length sig = sizeof_sign p -> bytes sig ->
  LESS_verify_o X p q i fuel junk pk m sig = LESS_verify X p fuel (ref_junk_v p q junk) pk m sig.
Proof.
  intros wf LX wq fk sk pk HK fuel junk m sig H1 H2. apply rsim_eq.
  - apply verify_equiv; auto. apply pk_wf_reduced; auto. eapply keypair_pk_wf; eauto.
  - eapply C05_verify_safe; eauto.
Qed.

(** Key generation: the two implementations return the same keys, whatever the uninitialised variables, the tables and the
    output buffers hold in either. *)
Theorem C37_keygen : forall X p q i, wf_params p -> lawful X (hash_len p) -> wf_pads p q ->
  forall fuel junk rng sk0 pk0, length sk0 = sizeof_sk p -> length pk0 = sizeof_pk p -> bytes pk0 ->
  LESS_keygen_o X p q i fuel junk rng sk0 pk0 <> UB /\
  forall fuel' junk' sk0' pk0', (fuel <= fuel')%nat -> length sk0' = sizeof_sk p -> length pk0' = sizeof_pk p -> bytes pk0' ->
  forall sk pk rng',
    (LESS_keygen X p fuel junk rng sk0 pk0 = Ok (sk, pk, rng') -> LESS_keygen_o X p q i fuel' junk' rng sk0' pk0' = Ok (sk, pk, rng')) /\
    (LESS_keygen_o X p q i fuel junk rng sk0 pk0 = Ok (sk, pk, rng') -> LESS_keygen X p fuel' junk' rng sk0' pk0' = Ok (sk, pk, rng')).
Proof.
  intros X p q i wf LX wq fuel junk rng sk0 pk0 H1 H2 H3. rewrite keygen_eq by auto.
  split. { apply C08_keygen_safe; auto. }
  intros fuel' junk' sk0' pk0' Hf H1' H2' H3' sk pk rng'. rewrite keygen_eq by auto.
  split; intros E; destruct (C30_keygen X p wf LX _ _ _ _ _ _ _ _ H1 H2 H3 E) as [_ D]; apply D; auto.
Qed.

Lemma keypair_o_keypair X p q i fuel sk pk : wf_params p -> lawful X (hash_len p) -> wf_pads p q ->
  keypair_o X p q i fuel sk pk <-> keypair X p fuel sk pk.
Proof.
  intros wf LX wq. split; intros (junk & rng & rng' & sk0 & pk0 & H1 & H2 & H3 & E).
  - exists (ref_junk p q junk), rng, rng', sk0, pk0. rewrite keygen_eq in E by auto. auto.
  - exists junk, rng, rng', sk0, pk0. split; auto. split; auto. split; auto.
    destruct (C37_keygen X p q i wf LX wq fuel junk rng sk0 pk0 H1 H2 H3) as [_ H].
    apply (H fuel junk sk0 pk0); auto.
Qed.

(** Signing: the same bytes are sent (the first [off_seeds + num * seed_len + 1]), and only the last byte of the signature
    object may differ, being left as it was. *)
Theorem C37_sign : forall X p q i, wf_params p -> lawful X (hash_len p) -> wf_pads p q ->
  forall fuel junk rng sk m sig0, length sk = sizeof_sk p -> length sig0 = sizeof_sign p -> bytes sig0 ->
  LESS_sign_o X p q i fuel junk rng sk m sig0 <> UB /\
  forall fuel' junk' sig0', (fuel <= fuel')%nat -> length sig0' = sizeof_sign p -> bytes sig0' ->
  forall sig num rng',
    (LESS_sign X p fuel junk rng sk m sig0 = Ok (sig, num, rng') ->
     exists sig', LESS_sign_o X p q i fuel' junk' rng sk m sig0' = Ok (sig', num, rng') /\
       firstn (off_seeds p + num * seed_len p + 1) sig' = firstn (off_seeds p + num * seed_len p + 1) sig /\
       firstn (sizeof_sign p - 1) sig' = firstn (sizeof_sign p - 1) sig) /\
    (LESS_sign_o X p q i fuel junk rng sk m sig0 = Ok (sig, num, rng') ->
     exists sig', LESS_sign X p fuel' junk' rng sk m sig0' = Ok (sig', num, rng') /\
       firstn (off_seeds p + num * seed_len p + 1) sig' = firstn (off_seeds p + num * seed_len p + 1) sig /\
       firstn (sizeof_sign p - 1) sig' = firstn (sizeof_sign p - 1) sig).
Proof.
  intros X p q i wf LX wq fuel junk rng sk m sig0 H1 H2 H3. rewrite sign_eq by auto.
  split. { apply C08_sign_safe; auto. }
  intros fuel' junk' sig0' Hf H2' H3' sig num rng'. rewrite sign_eq by auto.
  split; intros E; destruct (C30_sign X p wf LX _ _ _ _ _ _ _ _ _ H1 H2 H3 E) as [_ D]; apply D; auto.
Qed.

(** Verification with a public key made by key generation: whenever both give a verdict it is the same one. *)
Theorem C37_verify : forall X p q i, wf_params p -> lawful X (hash_len p) -> wf_pads p q ->
  forall fk sk pk, keypair X p fk sk pk ->
  forall m sig, length sig = sizeof_sign p -> bytes sig ->
  (forall fuel junk, exists junk', LESS_verify_o X p q i fuel junk pk m sig = LESS_verify X p fuel junk' pk m sig) /\
  (forall fuel fuel' junk junk' r r',
     LESS_verify_o X p q i fuel junk pk m sig = Ok r -> LESS_verify X p fuel' junk' pk m sig = Ok r' -> r = r').
Proof.
  intros X p q i wf LX wq fk sk pk HK m sig H1 H2. split.
  - intros fuel junk. exists (ref_junk_v p q junk). eapply verify_eq; eauto.
  - intros fuel fuel' junk junk' r r'. erewrite verify_eq by eauto. intros E E'. eapply C30_verify; eauto.
Qed.

(** Interoperability: keys made by either implementation, signatures made by either, are accepted by either. *)
Theorem C37_interoperable : forall X p q i q' i' q'' i'', wf_params p -> lawful X (hash_len p) ->
  wf_pads p q -> wf_pads p q' -> wf_pads p q'' ->
  forall fk sk pk, keypair X p fk sk pk \/ keypair_o X p q i fk sk pk ->
  forall fs junk rng m sig0 sig num rng', length sig0 = sizeof_sign p -> bytes sig0 ->
    LESS_sign X p fs junk rng sk m sig0 = Ok (sig, num, rng') \/ LESS_sign_o X p q' i' fs junk rng sk m sig0 = Ok (sig, num, rng') ->
  forall fv junk', (fs <= fv)%nat ->
    LESS_verify X p fv junk' pk m sig = Ok 1 /\ LESS_verify_o X p q'' i'' fv junk' pk m sig = Ok 1.
Proof.
  intros X p q i q' i' q'' i'' wf LX wq wq' wq'' fk sk pk HK fs junk rng m sig0 sig num rng' H1 H2 E fv junk' Hf.
  assert (HK' : keypair X p fk sk pk) by (destruct HK as [HK|HK]; [auto|apply (keypair_o_keypair X p q i) in HK; auto]). clear HK.
  assert (L : length sk = sizeof_sk p).
  { destruct HK' as (j & r & r' & sk0 & pk0 & A1 & A2 & A3 & A4). apply (C08_keygen_safe X p wf LX fk j r sk0 pk0 A1 A2 A3) in A4. apply A4. }
  assert (E' : exists junk, LESS_sign X p fs junk rng sk m sig0 = Ok (sig, num, rng')).
  { destruct E as [E|E]; [eauto|]. rewrite sign_eq in E by auto. eauto. }
  clear E junk. destruct E' as (junk & E).
  assert (S : length sig = sizeof_sign p /\ bytes sig).
  { apply (C08_sign_safe X p wf LX fs junk rng sk m sig0 L H1 H2) in E. split; apply E. }
  destruct S as [S1 S2]. split.
  - apply (C01_correct X p wf LX fk sk pk HK' fs junk rng m sig0 sig num rng' H1 H2 E); auto.
  - erewrite verify_eq by eauto. apply (C01_correct X p wf LX fk sk pk HK' fs junk rng m sig0 sig num rng' H1 H2 E); auto.
Qed.

(** The two API functions with secret keys, and the whole of crypto_sign_open on inputs where the reference is safe. *)
Theorem C37_api : forall X p q i, wf_params p -> lawful X (hash_len p) -> wf_pads p q ->
  (forall fuel junk rng pk0 sk0, length sk0 = sizeof_sk p -> length pk0 = sizeof_pk p -> bytes pk0 ->
     exists junk', crypto_sign_keypair_o X p q i fuel junk rng pk0 sk0 = crypto_sign_keypair X p fuel junk' rng pk0 sk0) /\
  (forall fuel junk rng sm0 m sk, length sk = sizeof_sk p -> bytes sm0 -> bytes m ->
     (length m + sizeof_sign p <= length sm0)%nat -> Z.of_nat (length sm0) < 2 ^ 64 ->
     exists junk', crypto_sign_o X p q i fuel junk rng sm0 m sk = crypto_sign X p fuel junk' rng sm0 m sk) /\
  (forall fk sk pk, keypair X p fk sk pk ->
   forall fuel junk m0 sm smlen, bytes sm -> Z.of_nat (length sm) < 2 ^ 64 ->
     (1 <= smlen <= length sm)%nat -> (smlen <= length m0)%nat ->
     (forall c, nth (smlen - 1) sm 0 = Z.of_nat c -> Z.of_nat c < max_seeds p ->
        (off_seeds p + c * seed_len p + 1 <= smlen /\ smlen - (off_seeds p + c * seed_len p + 1) + (sizeof_sign p - 1) <= length sm)%nat) ->
     exists junk', crypto_sign_open_o X p q i fuel junk m0 sm (Z.of_nat smlen) pk = crypto_sign_open X p fuel junk' m0 sm (Z.of_nat smlen) pk).
Proof.
  intros X p q i wf LX wq. split; [|split].
  - intros fuel junk rng pk0 sk0 H1 H2 H3. exists (ref_junk p q junk). apply rsim_eq. { apply keypair_equiv; auto. }
    unfold crypto_sign_keypair. rewrite !rd_ok by lia. cbn [bind skipn]. rewrite <- H1, <- H2, !firstn_all.
    destruct (C08_keygen_safe X p wf LX fuel (ref_junk p q junk) rng sk0 pk0 H1 H2 H3) as [N S].
    destruct (LESS_keygen X p fuel (ref_junk p q junk) rng sk0 pk0) as [[[a b] c]| |]; cbn [bind]; try discriminate; auto.
    destruct (S a b c eq_refl) as (L1 & L2 & _). rewrite !wr_ok by lia. discriminate.
  - intros fuel junk rng sm0 m sk H1 H2 H3 H4 H5. exists (ref_junk p q junk). apply rsim_eq. { apply crypto_sign_equiv; auto. }
    pose proof (crypto_sign_spec X p wf LX fuel (ref_junk p q junk) rng sm0 m sk H1 H2 H3 H4 H5) as W.
    intros E. rewrite E in W. destruct W.
  - intros fk sk pk HK fuel junk m0 sm smlen H1 H2 H3 H4 H5. exists (ref_junk_v p q junk). apply rsim_eq.
    { apply open_equiv; auto. apply pk_wf_reduced; auto. eapply keypair_pk_wf; eauto. }
    eapply C04_open_safe_partial; eauto.
Qed.

(** The seven parameter sets with the paddings of parameters.h and the SHAKE and SHA-3 functions. *)
Theorem C37_less : forall p i, In p less_params ->
  forall fk sk pk, keypair (lessX p) p fk sk pk \/ keypair_o (lessX p) p (less_pads (p_cat p)) i fk sk pk ->
  forall fs junk rng m sig0 sig num rng', length sig0 = sizeof_sign p -> bytes sig0 ->
    LESS_sign (lessX p) p fs junk rng sk m sig0 = Ok (sig, num, rng') \/
    LESS_sign_o (lessX p) p (less_pads (p_cat p)) i fs junk rng sk m sig0 = Ok (sig, num, rng') ->
  forall fv junk', (fs <= fv)%nat ->
    LESS_verify (lessX p) p fv junk' pk m sig = Ok 1 /\
    LESS_verify_o (lessX p) p (less_pads (p_cat p)) i fv junk' pk m sig = Ok 1.
Proof.
  intros p i Hp. pose proof less_params_wf as W. pose proof less_pads_wf as V. rewrite Forall_forall in W, V.
  intros fk sk pk. apply (C37_interoperable (lessX p) p (less_pads (p_cat p)) i (less_pads (p_cat p)) i (less_pads (p_cat p)) i); auto.
  apply lessX_lawful.
Qed.

(** The runs of [C01_example] with the optimised implementation, other instruction sets, paddings and memory contents. *)
Definition toy_pads2 : pads := {| n_pad := 192; k_pad := 3; nk_pad := 129 |}.
Example C37_example :
  LESS_keygen_o toyX toy_params toy_pads AVX2 1000 (fun a b => Z.of_nat (3 * a + b)) 5
    (repeat 1 (sizeof_sk toy_params)) (repeat 2 (sizeof_pk toy_params)) = Ok (toy_sk, toy_pk, toy_rng5) /\
  (exists sig, LESS_sign_o toyX toy_params toy_pads2 NEON 1000 (fun _ b => 255 - Z.of_nat b) 80 toy_sk toy_msg
     (repeat 99 (sizeof_sign toy_params)) = Ok (sig, 2%nat, toy_rng80) /\ removelast sig = removelast toy_sig80) /\
  LESS_verify_o toyX toy_params toy_pads AVX2 1000 (fun _ _ => 7) toy_pk toy_msg toy_sig80 = Ok 1.
Proof.
  assert (R : forall x n, 0 <= x < 256 -> bytes (repeat x n)).
  { intros x n Hx. apply Forall_forall. intros y Hy. apply repeat_spec in Hy. subst. exact Hx. }
  assert (W2 : wf_pads toy_params toy_pads2) by (unfold wf_pads; cbn; lia).
  split; [|split].
  - refine (proj1 (proj2 (C37_keygen toyX toy_params toy_pads AVX2 toy_wf toyX_lawful toy_pads_wf _ _ _ _ _ _ _ _) _ _ _ _ (le_n _) _ _ _ _ _ _) toy_keys_run);
      first [apply repeat_length | apply R; lia | reflexivity].
  - destruct (C37_sign toyX toy_params toy_pads2 NEON toy_wf toyX_lawful W2 1000 toy_junk 80 toy_sk toy_msg (repeat 3 (sizeof_sign toy_params))) as [_ S];
      try apply repeat_length; try (apply R; lia); try reflexivity.
    destruct (S 1000%nat (fun _ b => 255 - Z.of_nat b) (repeat 99 (sizeof_sign toy_params)) (le_n _) (repeat_length _ _) (R 99 _ ltac:(lia))
      toy_sig80 2%nat toy_rng80) as [S1 _].
    destruct (S1 toy_sign_run) as (sig & E & _ & E2). exists sig. split; [exact E|].
    assert (L : length sig = sizeof_sign toy_params).
    { rewrite sign_eq in E by first [exact toy_wf | exact toyX_lawful | exact W2 | apply repeat_length | apply R; lia | reflexivity].
      apply (C08_sign_safe toyX toy_params toy_wf toyX_lawful) in E; [apply E|reflexivity|apply repeat_length|apply R; lia]. }
    rewrite !removelast_firstn_len. rewrite L. exact E2.
  - apply (C37_interoperable toyX toy_params toy_pads AVX2 toy_pads AVX2 toy_pads AVX2 toy_wf toyX_lawful toy_pads_wf toy_pads_wf toy_pads_wf 1000 toy_sk toy_pk
      (or_introl (ex_intro _ _ (ex_intro _ _ (ex_intro _ _ (ex_intro _ _ (ex_intro _ _ (conj (repeat_length _ _) (conj (repeat_length _ _) (conj (R 9 _ ltac:(lia)) toy_keys_run)))))))))
      1000 toy_junk 80 toy_msg (repeat 3 (sizeof_sign toy_params)) toy_sig80 2%nat toy_rng80);
      first [apply repeat_length | apply R; lia | left; exact toy_sign_run | apply le_n].
Qed.

(** With a public key that is not reduced (every packed entry is 127) the two differ: the reference rejects, the
    optimised code uses an indeterminate pointer. *)
Definition toy_pk127 : list Z :=
  firstn 16 toy_pk ++ (let r := firstn 17 (skipn 16 toy_pk) ++ repeat 255 339 in r ++ r).
Theorem C37_verify_unreduced_refuted :
  length toy_pk127 = sizeof_pk toy_params /\ bytes toy_pk127 /\
  LESS_verify toyX toy_params 1000 (fun _ _ => 7) toy_pk127 toy_msg toy_sig80 = Ok 0 /\
  LESS_verify_o toyX toy_params toy_pads AVX2 1000 (fun _ _ => 7) toy_pk127 toy_msg toy_sig80 = UB.
Proof.
  split; [reflexivity|]. split.
  { assert (B : forallb (fun x => (0 <=? x) && (x <? 256)) toy_pk127 = true) by (vm_compute; reflexivity).
    apply Forall_forall. intros x Hx. rewrite forallb_forall in B. specialize (B x Hx). unfold is_byte. lia. }
  split; vm_compute; reflexivity.
Qed.

Print Assumptions C27_scalar.
Print Assumptions C27_red_all_bytes.
Print Assumptions C27_mul_seven_bits.
Print Assumptions C27_vector.
Print Assumptions C28_rref.
Print Assumptions C28_mul.
Print Assumptions C28_unreduced_refuted.
Print Assumptions C37_keygen.
Print Assumptions C37_sign.
Print Assumptions C37_verify.
Print Assumptions C37_interoperable.
Print Assumptions C37_api.
Print Assumptions C37_less.
Print Assumptions C37_verify_unreduced_refuted.
