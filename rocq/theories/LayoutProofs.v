(** The packed forms as integers, hence the exact bytes written by the encoders. *)
From Verif Require Import Base BaseLemmas Params ParamsProofs Fq Prim Samplers Monomial Codes Spec
  FqProofs Sums EnumProofs LinAlg RrefProofs LexProofs MonoProofs CanonProofs BitCodec CodecProofs RrefCodec.

Lemma sumn_eq n f g : (forall i, (i < n)%nat -> f i = g i) -> sumn n f = sumn n g.
Proof. induction n; intros H; cbn [sumn]; auto. rewrite IHn, H; auto. Qed.

Lemma sumn_Sl n f : sumn (S n) f = f 0%nat + sumn n (fun i => f (S i)).
Proof. induction n; cbn [sumn] in *; [lia|]. rewrite IHn. lia. Qed.

Lemma sumn_mulc n c f : sumn n (fun i => c * f i) = c * sumn n f.
Proof. induction n; cbn [sumn]; [lia|]. rewrite IHn. lia. Qed.

Lemma sval_sumn b l : 0 <= b -> sval b l = sumn (length l) (fun i => nth i l 0 * 2 ^ (b * Z.of_nat i)).
Proof.
  intros Hb. induction l as [|x l IH]; auto. cbn [sval length]. rewrite sumn_Sl. cbn [nth].
  change (Z.of_nat 0) with 0. rewrite Z.mul_0_r, Z.pow_0_r, Z.mul_1_r. f_equal. rewrite IH, <- sumn_mulc.
  apply sumn_eq. intros i Hi. rewrite Nat2Z.inj_succ, Z.mul_succ_r, Z.pow_add_r by lia. ring.
Qed.

(** Byte strings of equal length and value are equal. *)
Lemma le_val_inj a b : bytes a -> bytes b -> length a = length b -> le_val a = le_val b -> a = b.
Proof.
  intros Ha. revert b. induction Ha as [|x a Hx Ha IH]; intros [|y b] Hb L E; cbn [length le_val] in *; try lia; auto.
  inversion Hb as [|? ? Hy Hb']; subst. unfold is_byte in *.
  assert (x = y /\ le_val a = le_val b) as [-> E2] by lia. f_equal. apply IH; auto.
Qed.

Section F.
Variable p : params.
Hypothesis wf : wf_params p.
Notation N := (pN p).
Notation K := (pK p).
Notation w := (pN p - pK p)%nat.

Lemma mono_bytes_tight : 8 * Z.of_nat (mono_bytes p) <= nbits p * Z.of_nat K + 7 * Z.of_nat K + 7.
Proof.
  unfold mono_bytes, nbits. rewrite bits_127. rewrite (bits_N p wf). pose proof (wf_cat p wf) as C. destruct (p_cat p); lia.
Qed.

Lemma rref_bytes_tight : 8 * Z.of_nat (rref_bytes p) <= 8 * Z.of_nat (idx0 p) + 7 * (Z.of_nat K * Z.of_nat w) + 7.
Proof.
  unfold rref_bytes, idx0. rewrite bits_127. pose proof (wf_K p wf) as HK.
  rewrite Z2Nat.id. 2:{ apply Z.add_nonneg_nonneg; apply Z.div_pos; try lia; nia. }
  replace (Z.of_nat w) with (Z.of_nat N - Z.of_nat K) by lia.
  replace (7 * (Z.of_nat N - Z.of_nat K) * Z.of_nat K) with (7 * (Z.of_nat K * (Z.of_nat N - Z.of_nat K))) by ring.
  generalize (Z.of_nat K * (Z.of_nat N - Z.of_nat K)). intros. lia.
Qed.

Lemma encd_all b t s : encd b t s -> 8 * Z.of_nat (length b) <= t + 7 -> le_val b = s.
Proof.
  intros ((H1 & H1') & H2 & H3 & H4) H. rewrite firstn_all2 in H4; auto. lia.
Qed.

(** Packed actions: positions on 8, 9 or 10 bits, then coefficients on 7 bits, nothing else. *)
Lemma action_layout buf a : bytes buf -> length buf = mono_bytes p -> act_mem p a ->
  (forall i, (i < K)%nat -> 0 <= nthZ (a_perm a) i < 2 ^ nbits p) ->
  (forall i, (i < K)%nat -> 0 <= nthZ (a_coef a) i < 128) ->
  okp (compress_monom_action p buf a) (fun b => length b = mono_bytes p /\ bytes b /\
    le_val b = sumn K (fun i => nthZ (a_perm a) i * 2 ^ (nbits p * Z.of_nat i)) +
      2 ^ (nbits p * Z.of_nat K) * sumn K (fun i => nthZ (a_coef a) i * 2 ^ (7 * Z.of_nat i))).
Proof.
  intros HB HL HA H1 H2. eapply okp_mono. { exact (compress_monom_action_enc p wf buf a HB HL HA H1 H2). }
  intros b (L & E). pose proof mono_bytes_tight as MT. pose proof (nb_vals p) as NV.
  destruct HA as [A1 A2].
  split; [lia|]. split. { apply E. }
  rewrite (encd_all _ _ _ E) by lia. rewrite !sval_sumn by lia. rewrite A1, A2. reflexivity.
Qed.

Lemma rref_layout buf full piv pv : bytes buf -> length buf = rref_bytes p ->
  shape K N full -> reduced K N (ent full) -> is_rref K N (ent full) pv -> flags_of K N pv piv ->
  okp (compress_rref p buf full piv) (fun b => length b = rref_bytes p /\ bytes b /\
    le_val b = sumn N (fun c => nth c piv 0 * 2 ^ Z.of_nat c) +
      2 ^ (8 * Z.of_nat ((N + 7) / 8)) *
      sumn K (fun i => sumn w (fun j =>
        ent full i (nth j (nonpivots K N pv) 0%nat) * 2 ^ (7 * (Z.of_nat i * Z.of_nat w + Z.of_nat j))))).
Proof.
  intros HB HL HS HR HRR HF.
  pose proof (flags_cnt_np _ _ _ _ _ HRR HF) as Hcnt.
  pose proof HF as (Hpl & HFc).
  assert (H01 : bits01 piv).
  { apply Forall_forall. intros x Hx. apply In_nth with (d := 0) in Hx. destruct Hx as (c & Hc & <-).
    rewrite Hpl in Hc. destruct (is_np piv c) eqn:E.
    - unfold is_np in E. apply Z.eqb_eq in E. rewrite E. lia.
    - assert (E2 : is_pv piv c = true). { rewrite is_np_pv in E. destruct (is_pv piv c); auto. }
      apply (flags_pv _ _ _ _ _ HF Hc) in E2. destruct (HFc c Hc) as [A _]. rewrite A by auto. lia. }
  assert (Hv : forall i c, (i < K)%nat -> (c < N)%nat -> 0 <= ent full i c < 128).
  { intros i c Hi Hc. specialize (HR i c Hi Hc). unfold fq in HR. lia. }
  eapply okp_mono. { apply (compress_rref_enc p wf full piv); auto. }
  intros b (L & E). split; auto. split. { apply E. }
  pose proof rref_bytes_tight as RT. rewrite (encd_all _ _ _ E) by lia.
  unfold packed_value. f_equal.
  { rewrite sval_sumn by lia. rewrite Hpl. apply sumn_eq. intros i Hi. do 2 f_equal. lia. }
  f_equal. rewrite (nonpivots_flags K N pv piv HF).
  assert (G : forall r, sval 7 (stream p full piv r) = sumn r (fun i => sumn w (fun j =>
        ent full i (nth j (enum (is_np piv) N) 0%nat) * 2 ^ (7 * (Z.of_nat i * Z.of_nat w + Z.of_nat j))))).
  { induction r. reflexivity. rewrite stream_S, sval_app2, IHr by lia. cbn [sumn]. f_equal.
    rewrite (stream_length p full piv Hpl Hv Hcnt). rewrite sval_sumn by lia. rewrite rv_length, Hcnt.
    rewrite <- sumn_mulc. apply sumn_eq. intros j Hj. unfold rv.
    rewrite nth_indep with (d' := (fun c => ent full r c) 0%nat) by (rewrite map_length; fold (cnt (is_np piv) N); lia).
    rewrite (map_nth (fun c => ent full r c)).
    replace (7 * (Z.of_nat r * Z.of_nat w + Z.of_nat j)) with (7 * Z.of_nat (r * w) + 7 * Z.of_nat j) by lia.
    rewrite Z.pow_add_r by lia. ring. }
  apply G.
Qed.

(** Hence the result does not depend on the previous content of the buffer. *)
Lemma action_old buf buf' a : bytes buf -> length buf = mono_bytes p -> bytes buf' -> length buf' = mono_bytes p ->
  act_mem p a ->
  (forall i, (i < K)%nat -> 0 <= nthZ (a_perm a) i < 2 ^ nbits p) ->
  (forall i, (i < K)%nat -> 0 <= nthZ (a_coef a) i < 128) ->
  compress_monom_action p buf a = compress_monom_action p buf' a.
Proof.
  intros H1 H2 H1' H2' H3 H4 H5.
  destruct (action_layout buf a H1 H2 H3 H4 H5) as (b & -> & A1 & A2 & A3).
  destruct (action_layout buf' a H1' H2' H3 H4 H5) as (b' & -> & B1 & B2 & B3).
  f_equal. apply le_val_inj; congruence.
Qed.

Lemma rref_old buf buf' full piv pv : bytes buf -> length buf = rref_bytes p -> bytes buf' -> length buf' = rref_bytes p ->
  shape K N full -> reduced K N (ent full) -> is_rref K N (ent full) pv -> flags_of K N pv piv ->
  compress_rref p buf full piv = compress_rref p buf' full piv.
Proof.
  intros H1 H2 H1' H2' H3 H4 H5 H6.
  destruct (rref_layout buf full piv pv H1 H2 H3 H4 H5 H6) as (b & -> & A1 & A2 & A3).
  destruct (rref_layout buf' full piv pv H1' H2' H3 H4 H5 H6) as (b' & -> & B1 & B2 & B3).
  f_equal. apply le_val_inj; congruence.
Qed.
End F.
