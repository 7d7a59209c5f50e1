(** Packed systematic generators: decoding inverts encoding. *)
From Verif Require Import Base BaseLemmas Params ParamsProofs Fq Prim Samplers Monomial Codes Spec FqProofs
  EnumProofs MonoProofs BitCodec CodecProofs.

Lemma sval_app2 b l l' : 0 <= b -> sval b (l ++ l') = sval b l + 2 ^ (b * Z.of_nat (length l)) * sval b l'.
Proof.
  intros Hb. induction l; cbn [app sval length].
  - change (Z.of_nat 0) with 0. rewrite !Z.mul_0_r, Z.pow_0_r. lia.
  - rewrite IHl. rewrite Nat2Z.inj_succ, Z.mul_succ_r, Z.pow_add_r by lia. ring.
Qed.

Definition bits01 (l : list Z) : Prop := Forall (fun x => 0 <= x < 2 ^ 1) l.

Lemma pack_flags_spec cnt k base piv : bits01 piv -> (base + k + cnt <= length piv)%nat ->
  pack_flags cnt k base piv = Ok (2 ^ Z.of_nat k * sval 1 (firstn cnt (skipn (base + k) piv))).
Proof.
  intros HB. revert k. induction cnt as [|cnt IH]; intros k H; cbn [pack_flags].
  - cbn [firstn sval]. rewrite Z.mul_0_r. auto.
  - rewrite (get_ok _ _ 0) by lia. cbn [bind]. rewrite IH by lia. cbn [bind]. f_equal.
    replace (base + S k)%nat with (S (base + k)) by lia.
    rewrite (skipn_S piv (base + k) 0) by lia. cbn [firstn sval].
    set (f := nth (base + k) piv 0). set (r := sval 1 _).
    assert (Hf : 0 <= f < 2).
    { unfold bits01 in HB. rewrite Forall_forall in HB. apply (HB f). apply nth_In. lia. }
    rewrite (Z.shiftl_mul_pow2 f) by lia. replace (Z.of_nat (S k)) with (Z.of_nat k + 1) by lia.
    replace (2 ^ (Z.of_nat k + 1) * r) with (Z.shiftl r (Z.of_nat k + 1)) by (rewrite Z.shiftl_mul_pow2 by lia; ring).
    rewrite lor_add.
    + rewrite Z.pow_add_r by lia. ring.
    + lia.
    + rewrite Z.pow_add_r by lia. assert (0 < 2 ^ Z.of_nat k) by (apply Z.pow_pos_nonneg; lia). nia.
Qed.

Lemma bits01_sub l n m : bits01 l -> bits01 (firstn n (skipn m l)).
Proof. intros H. apply Forall_firstn, Forall_skipn. auto. Qed.

Section F.
Variable p : params.
Hypothesis wf : wf_params p.
Notation N := (pN p).
Notation K := (pK p).
Notation w := (pN p - pK p)%nat.

(** Bytes used by the flags. *)
Definition idx0 : nat := ((N + 7) / 8)%nat.

Lemma N_mod8 : if has_tail p then (N mod 8 = 4 /\ idx0 = S (N / 8))%nat else (N mod 8 = 0 /\ idx0 = N / 8)%nat.
Proof. unfold has_tail, idx0. pose proof (wf_cat p wf) as C. destruct (p_cat p); lia. Qed.

Lemma rref_bytes_bits : 8 * Z.of_nat idx0 + 7 * (Z.of_nat K * Z.of_nat w) <= 8 * Z.of_nat (rref_bytes p).
Proof.
  unfold rref_bytes, idx0. rewrite bits_127. pose proof (wf_K p wf) as HK.
  rewrite Z2Nat.id. 2:{ apply Z.add_nonneg_nonneg; apply Z.div_pos; try lia; nia. }
  replace (Z.of_nat w) with (Z.of_nat N - Z.of_nat K) by lia.
  replace (7 * (Z.of_nat N - Z.of_nat K) * Z.of_nat K) with (7 * (Z.of_nat K * (Z.of_nat N - Z.of_nat K))) by ring.
  generalize (Z.of_nat K * (Z.of_nat N - Z.of_nat K)). intros. lia.
Qed.

(** *** Encoding *)
Section Enc.
Variable full : mat.
Variable piv : list Z.
Hypothesis Hpiv : length piv = N.
Hypothesis H01 : bits01 piv.
Hypothesis Hsh : shape K N full.
Hypothesis Hval : forall i c, (i < K)%nat -> (c < N)%nat -> 0 <= ent full i c < 128.
Hypothesis Hcnt : cnt (is_np piv) N = w.

Definition rv (row n : nat) : list Z := map (fun c => ent full row c) (enum (is_np piv) n).
Definition stream (r : nat) : list Z := flat_map (fun row => rv row N) (seq 0 r).

Lemma rv_length row n : length (rv row n) = cnt (is_np piv) n.
Proof. unfold rv. rewrite map_length. auto. Qed.

Lemma stream_S r : stream (S r) = stream r ++ rv r N.
Proof. unfold stream. rewrite seq_S, flat_map_app. simpl. rewrite app_nil_r. auto. Qed.

Lemma stream_length r : length (stream r) = (r * w)%nat.
Proof.
  induction r. auto. rewrite stream_S, app_length, IHr, rv_length, Hcnt. lia.
Qed.

Lemma rv_S row n : rv row (S n) = rv row n ++ (if is_np piv n then [ent full row n] else []).
Proof. unfold rv. rewrite enum_S, map_app. destruct (is_np piv n); auto. Qed.

Lemma rv_vals row n : (row < K)%nat -> (n <= N)%nat -> Forall (fun x => 0 <= x < 2 ^ 7) (rv row n).
Proof.
  intros Hr Hn. apply Forall_forall. intros x Hx. apply in_map_iff in Hx. destruct Hx as (c & <- & Hc).
  apply in_enum in Hc. apply Hval; auto. lia.
Qed.

Lemma stream_vals r : (r <= K)%nat -> Forall (fun x => 0 <= x < 2 ^ 7) (stream r).
Proof.
  induction r; intros H. constructor. rewrite stream_S. apply Forall_app. split; [apply IHr; lia|apply rv_vals; lia].
Qed.

Lemma stream_nth r i c : (i < r)%nat -> (c < N)%nat -> is_np piv c = true ->
  nth (i * w + cnt (is_np piv) c) (stream r) 0 = ent full i c.
Proof.
  intros Hi Hc Hn. induction r; [lia|]. rewrite stream_S.
  pose proof (cnt_lt (is_np piv) c N Hc Hn) as L. rewrite Hcnt in L.
  destruct (Nat.eq_dec i r) as [->|].
  - rewrite app_nth2 by (rewrite stream_length; lia). rewrite stream_length.
    replace (r * w + cnt (is_np piv) c - r * w)%nat with (cnt (is_np piv) c) by lia.
    unfold rv. rewrite nth_indep with (d' := (fun c => ent full r c) c) by (rewrite map_length; fold (cnt (is_np piv) N); lia).
    rewrite (map_nth (fun c => ent full r c)). rewrite nth_enum_cnt; auto.
  - rewrite app_nth1. apply IHr; lia. rewrite stream_length. nia.
Qed.

(** The integer held by the packed form. *)
Definition packed_value : Z := sval 1 piv + 2 ^ (8 * Z.of_nat idx0) * sval 7 (stream K).

Lemma compress_rref_enc buf : bytes buf -> length buf = rref_bytes p ->
  okp (compress_rref p buf full piv) (fun b => length b = rref_bytes p /\
    encd b (8 * Z.of_nat idx0 + 7 * (Z.of_nat K * Z.of_nat w)) packed_value).
Proof.
  intros HB HL. pose proof rref_bytes_bits as TB. pose proof N_mod8 as NM. pose proof (wf_K p wf) as HK.
  assert (TB0 : 8 * Z.of_nat idx0 <= 8 * Z.of_nat (rref_bytes p)) by nia.
  unfold compress_rref.
  (* the flags *)
  eapply okp_bind with (Q := fun b => length b = rref_bytes p /\
     encd b (8 * Z.of_nat (N / 8)) (sval 1 (firstn (8 * (N / 8)) piv))).
  { eapply okp_mono. apply okp_for with (I := fun n b => length b = rref_bytes p /\
       encd b (8 * Z.of_nat n) (sval 1 (firstn (8 * n) piv))).
    - split; auto. split; [lia|]. split; auto. split; [|reflexivity]. cbn. lia.
    - intros cb b Hcb (L & E). rewrite pack_flags_spec by (auto; lia). cbn [bind].
      eapply okp_mono. { apply (enc_fresh_spec b cb 8) with (t := 8 * Z.of_nat cb) (s := sval 1 (firstn (8 * cb) piv)); auto; try lia.
        - change (Z.of_nat 0) with 0. rewrite Z.pow_0_r, Z.mul_1_l, Nat.add_0_r.
          pose proof (sval_range 1 (firstn 8 (skipn (8 * cb) piv)) ltac:(lia) (bits01_sub _ _ _ H01)) as R.
          rewrite firstn_length, skipn_length, Nat.min_l in R by lia. exact R.
        - destruct (has_tail p); lia. }
      intros b' (L' & E'). split; [lia|].
      replace (8 * Z.of_nat (S cb)) with (8 * Z.of_nat cb + 8) by lia.
      replace (firstn (8 * S cb) piv) with (firstn (8 * cb) piv ++ firstn 8 (skipn (8 * cb) piv)).
      2:{ rewrite firstn_skipn_comm. rewrite <- (firstn_skipn (8 * cb) (firstn (8 * S cb) piv)).
          rewrite firstn_firstn, Nat.min_l by lia. replace (8 * cb + 8)%nat with (8 * S cb)%nat by lia. auto. }
      rewrite sval_app2 by lia. rewrite firstn_length, Nat.min_l by lia.
      replace (1 * Z.of_nat (8 * cb)) with (8 * Z.of_nat cb) by lia.
      change (Z.of_nat 0) with 0 in E'. rewrite Z.pow_0_r, Z.mul_1_l, Nat.add_0_r in E'. exact E'.
    - intros b H. cbn [Nat.add] in H. exact H. }
  intros b1 (L1 & E1).
  eapply okp_bind with (Q := fun '(b, idx) => length b = rref_bytes p /\ idx = idx0 /\
     encd b (8 * Z.of_nat idx0) (sval 1 piv)).
  { assert (S1 : 0 <= sval 1 piv < 2 ^ Z.of_nat N).
    { pose proof (sval_range 1 piv ltac:(lia) H01) as R. rewrite Hpiv, Z.mul_1_l in R. auto. }
    destruct (has_tail p).
    - destruct NM as [NM1 NM2]. rewrite pack_flags_spec by (auto; lia). cbn [bind].
      eapply okp_bind. { apply (enc_fresh_spec b1 (N / 8) 4) with (t := 8 * Z.of_nat (N / 8)) (s := sval 1 (firstn (8 * (N / 8)) piv)); auto; try lia.
        change (Z.of_nat 0) with 0. rewrite Z.pow_0_r, Z.mul_1_l, Nat.add_0_r.
        pose proof (sval_range 1 (firstn 4 (skipn (N - 4) piv)) ltac:(lia) (bits01_sub _ _ _ H01)) as R.
        rewrite firstn_length, skipn_length, Nat.min_l in R by lia. exact R. }
      intros b (L & E). apply okp_ok. split; [lia|]. split; auto.
      change (Z.of_nat 0) with 0 in E. rewrite Z.pow_0_r, Z.mul_1_l, Nat.add_0_r in E.
      replace (N - 4)%nat with (8 * (N / 8))%nat in E by lia.
      rewrite (firstn_all2 (n := 4)) in E by (rewrite skipn_length; lia).
      assert (Ev : sval 1 (firstn (8 * (N / 8)) piv) + 2 ^ (8 * Z.of_nat (N / 8)) * sval 1 (skipn (8 * (N / 8)) piv) = sval 1 piv).
      { rewrite <- (firstn_skipn (8 * (N / 8)) piv) at 3. rewrite sval_app2 by lia. rewrite firstn_length, Nat.min_l by lia.
        do 2 f_equal. f_equal. lia. }
      rewrite Ev in E. destruct E as ((X1 & X2) & X3 & X4 & X5).
      split; [lia|]. split; auto. split.
      { split; [lia|]. apply Z.lt_le_trans with (2 ^ Z.of_nat N); [lia|]. apply Z.pow_le_mono_r; lia. }
      rewrite <- X5. do 3 f_equal. lia.
    - destruct NM as [NM1 NM2]. apply okp_ok. split; auto. split; auto. rewrite NM2.
      replace (firstn (8 * (N / 8)) piv) with piv in E1; auto. rewrite firstn_all2; auto. lia. }
  intros [b2 idx] (L2 & -> & E2).
  (* the values *)
  eapply okp_bind with (Q := fun '(b, idx, st) => length b = rref_bytes p /\
     encd b (8 * Z.of_nat idx0 + 7 * (Z.of_nat K * Z.of_nat w)) packed_value).
  { eapply okp_mono. apply okp_for with (I := fun r '(b, idx, st) => length b = rref_bytes p /\ (st < 8)%nat /\
      pos7 st idx = 8 * Z.of_nat idx0 + 7 * (Z.of_nat r * Z.of_nat w) /\
      encd b (8 * Z.of_nat idx0 + 7 * (Z.of_nat r * Z.of_nat w))
        (sval 1 piv + 2 ^ (8 * Z.of_nat idx0) * sval 7 (stream r))).
    - split; auto. split; [lia|]. change (Z.of_nat 0) with 0. rewrite Z.mul_0_l, Z.mul_0_r, Z.add_0_r.
      split. { unfold pos7. change (Z.of_nat 0) with 0. rewrite Z.mul_0_r. rewrite Z.mod_0_l by lia. lia. }
      cbn [stream seq flat_map sval]. rewrite Z.mul_0_r, Z.add_0_r. auto.
    - intros r [[b idx] st] Hr (I1 & I2 & I3 & I4).
      eapply okp_mono. apply okp_for with (I := fun n '(b, idx, st) => length b = rref_bytes p /\ (st < 8)%nat /\
        pos7 st idx = 8 * Z.of_nat idx0 + 7 * (Z.of_nat r * Z.of_nat w + Z.of_nat (cnt (is_np piv) n)) /\
        encd b (8 * Z.of_nat idx0 + 7 * (Z.of_nat r * Z.of_nat w + Z.of_nat (cnt (is_np piv) n)))
          (sval 1 piv + 2 ^ (8 * Z.of_nat idx0) * sval 7 (stream r ++ rv r n))).
      + rewrite cnt_0. change (Z.of_nat 0) with 0. rewrite Z.add_0_r. unfold rv. cbn [enum seq filter map].
        rewrite app_nil_r. auto.
      + intros n [[b' idx'] st'] Hn (J1 & J2 & J3 & J4).
        rewrite (get_ok _ n 0) by lia. cbn [bind]. rewrite cnt_S, rv_S.
        change (nth n piv 0 =? 0) with (is_np piv n). destruct (is_np piv n) eqn:En.
        * rewrite (get2_ok _ K N) by (auto; lia). cbn [bind].
          pose proof (cnt_lt (is_np piv) n N ltac:(lia) En) as CL. rewrite Hcnt in CL.
          eapply okp_bind. { apply (enc7_step_spec st' b' idx' (ent full r n) _ _ J2 (Hval r n ltac:(lia) ltac:(lia)) (eq_sym J3) J4).
            rewrite J1. clear -TB CL Hr. nia. }
          intros [b3 idx3] (G1 & G2 & G3). apply okp_ok. split; [lia|]. split. { apply next7_lt; auto. }
          split. { rewrite G2. lia. }
          rewrite app_assoc. rewrite sval_app by lia. rewrite app_length, stream_length, rv_length.
          replace (8 * Z.of_nat idx0 + 7 * (Z.of_nat r * Z.of_nat w + Z.of_nat (cnt (is_np piv) n + 1)))
            with (8 * Z.of_nat idx0 + 7 * (Z.of_nat r * Z.of_nat w + Z.of_nat (cnt (is_np piv) n)) + 7) by lia.
          rewrite (Z.pow_add_r 2 (8 * Z.of_nat idx0)) in G3 by lia.
          replace (Z.of_nat (r * w + cnt (is_np piv) n)) with (Z.of_nat r * Z.of_nat w + Z.of_nat (cnt (is_np piv) n)) by lia.
          match goal with |- encd _ _ ?x => match type of G3 with encd _ _ ?y => replace x with y by ring end end.
          exact G3.
        * apply okp_ok. rewrite Nat.add_0_r, app_nil_r. auto.
      + intros [[b' idx'] st'] (J1 & J2 & J3 & J4). cbn [Nat.add] in *. rewrite Hcnt in *.
        replace (Z.of_nat (S r) * Z.of_nat w) with (Z.of_nat r * Z.of_nat w + Z.of_nat w) by lia.
        rewrite stream_S. auto.
    - intros [[b idx] st] (I1 & _ & _ & I4). auto. }
  intros [[b3 idx] st] (L3 & E3). apply okp_ok. auto.
Qed.
End Enc.

(** *** Decoding *)
Definition flagbit (buf : list Z) (c : nat) : Z := (le_val buf / 2 ^ Z.of_nat c) mod 2.
Definition flags_in (buf : list Z) : list Z := map (flagbit buf) (seq 0 N).
Definition valfield (buf : list Z) (n : nat) : Z :=
  (le_val buf / 2 ^ (8 * Z.of_nat idx0 + 7 * Z.of_nat n)) mod 128.

Lemma flags_in_length buf : length (flags_in buf) = N.
Proof. unfold flags_in. rewrite map_length, seq_length. auto. Qed.

Lemma flags_in_nth buf c : (c < N)%nat -> nth c (flags_in buf) 0 = flagbit buf c.
Proof. intros H. unfold flags_in. apply nth_map_seq. auto. Qed.

Lemma unpack_flags_spec cnt k base buf cb piv : bytes buf -> (cb < length buf)%nat -> (k + cnt <= 8)%nat ->
  (base + k + cnt <= length piv)%nat -> base = (8 * cb)%nat ->
  okp (unpack_flags cnt k base (nth cb buf 0) piv) (fun piv' => length piv' = length piv /\
    (forall c, (base + k <= c < base + k + cnt)%nat -> nth c piv' 0 = flagbit buf c) /\
    (forall c, (c < base + k)%nat -> nth c piv' 0 = nth c piv 0)).
Proof.
  intros HB Hcb. revert k piv. induction cnt as [|cnt IH]; intros k piv Hk HL Hb; cbn [unpack_flags].
  - apply okp_ok. split; auto. split; auto. intros; lia.
  - rewrite set_ok by lia. cbn [bind].
    assert (E : Z.land (Z.shiftr (nth cb buf 0) (Z.of_nat k)) 1 = flagbit buf (base + k)).
    { pose proof (dec_one_spec buf cb (Z.of_nat k) 1 (Z.of_nat (base + k)) HB ltac:(lia) ltac:(lia) ltac:(lia) ltac:(lia) ltac:(lia)) as D.
      rewrite (get_ok _ cb 0) in D by lia. cbn [bind] in D. injection D as D. exact D. }
    rewrite E. eapply okp_mono. { apply IH; auto; rewrite ?upd_length; lia. }
    intros piv' (H1 & H2 & H3). rewrite upd_length in H1. split; auto. split.
    + intros c Hc. destruct (Nat.eq_dec c (base + k)) as [->|].
      * rewrite H3 by lia. rewrite nth_upd_same by lia. auto.
      * apply H2. lia.
    + intros c Hc. rewrite H3 by lia. rewrite nth_upd_other by lia. auto.
Qed.

Lemma expand_to_rref_spec full buf : bytes buf -> length buf = rref_bytes p -> shape K N full ->
  (cnt (is_np (flags_in buf)) N <= w)%nat ->
  okp (expand_to_rref p full buf) (fun M => shape K N M /\
    forall i c, (i < K)%nat -> (c < N)%nat -> ent M i c =
      if is_np (flags_in buf) c
      then valfield buf (i * cnt (is_np (flags_in buf)) N + cnt (is_np (flags_in buf)) c)
      else b2z (Nat.eqb i (cnt (is_pv (flags_in buf)) c))).
Proof.
  intros HB HL HS HC. pose proof rref_bytes_bits as TB. pose proof N_mod8 as NM. pose proof (wf_K p wf) as HK.
  set (fl := flags_in buf) in *. set (w' := cnt (is_np fl) N) in *.
  assert (TB0 : (idx0 <= rref_bytes p)%nat) by nia.
  unfold expand_to_rref.
  eapply okp_bind with (Q := fun pv => length pv = N /\ forall c, (c < 8 * (N / 8))%nat -> nth c pv 0 = flagbit buf c).
  { eapply okp_mono. apply okp_for with (I := fun n pv => length pv = N /\ forall c, (c < 8 * n)%nat -> nth c pv 0 = flagbit buf c).
    - split. { apply repeat_length. } intros; lia.
    - intros cb pv Hcb (L & H). rewrite (get_ok _ cb 0) by (destruct (has_tail p); lia). cbn [bind].
      eapply okp_mono. { apply (unpack_flags_spec 8 0 (8 * cb) buf cb); auto; destruct (has_tail p); lia. }
      intros pv' (L' & G1 & G2). split; [lia|]. intros c Hc.
      destruct (Nat.lt_ge_cases c (8 * cb)).
      + rewrite G2 by lia. auto.
      + apply G1. lia.
    - intros pv H. cbn [Nat.add] in H. exact H. }
  intros pv1 (L1 & F1).
  eapply okp_bind with (Q := fun '(pv, idx) => pv = fl /\ idx = idx0).
  { destruct (has_tail p).
    - destruct NM as [NM1 NM2]. rewrite (get_ok _ (N / 8) 0) by lia. cbn [bind].
      eapply okp_bind. { apply (unpack_flags_spec 4 0 (N - 4) buf (N / 8)); auto; lia. }
      intros pv (L & G1 & G2). apply okp_ok. split; auto. apply (list_ext 0).
      + unfold fl. rewrite flags_in_length. lia.
      + intros c Hc. unfold fl. rewrite flags_in_nth by lia.
        destruct (Nat.lt_ge_cases c (N - 4)).
        * rewrite G2 by lia. apply F1. lia.
        * apply G1. lia.
    - destruct NM as [NM1 NM2]. apply okp_ok. split; auto. apply (list_ext 0).
      + unfold fl. rewrite flags_in_length. lia.
      + intros c Hc. unfold fl. rewrite flags_in_nth by lia. apply F1. lia. }
  intros [pv idx] (-> & ->).
  set (V := fun i c => if is_np fl c then valfield buf (i * w' + cnt (is_np fl) c)
      else b2z (Nat.eqb i (cnt (is_pv fl) c))).
  eapply okp_bind with (Q := fun '(M, _, _) => shape K N M /\
    forall i c, (i < K)%nat -> (c < N)%nat -> ent M i c = V i c).
  { eapply okp_mono. apply okp_for with (I := fun r '(M, idx, st) => shape K N M /\ (st < 8)%nat /\
      pos7 st idx = 8 * Z.of_nat idx0 + 7 * (Z.of_nat r * Z.of_nat w') /\
      forall i c, (i < r)%nat -> (c < N)%nat -> ent M i c = V i c).
    - split; auto. split; [lia|]. split. 2:{ intros; lia. }
      change (Z.of_nat 0) with 0. unfold pos7. change (Z.of_nat 0) with 0. rewrite Z.mul_0_r, Z.mod_0_l by lia. lia.
    - intros r [[M idx] st] Hr (I1 & I2 & I3 & I4).
      eapply okp_bind with (Q := fun '(M', idx', st', _) => shape K N M' /\ (st' < 8)%nat /\
        pos7 st' idx' = 8 * Z.of_nat idx0 + 7 * (Z.of_nat (S r) * Z.of_nat w') /\
        forall i c, (i < S r)%nat -> (c < N)%nat -> ent M' i c = V i c).
      + eapply okp_mono. apply okp_for with (I := fun n '(M, idx, st, pidx) => shape K N M /\ (st < 8)%nat /\
          pos7 st idx = 8 * Z.of_nat idx0 + 7 * (Z.of_nat r * Z.of_nat w' + Z.of_nat (cnt (is_np fl) n)) /\
          pidx = cnt (is_pv fl) n /\
          (forall i c, (i < r)%nat -> (c < N)%nat -> ent M i c = V i c) /\
          (forall c, (c < n)%nat -> ent M r c = V r c)).
        * rewrite !cnt_0. change (Z.of_nat 0) with 0. rewrite Z.add_0_r. repeat split; auto; try apply I1. intros; lia.
        * intros n [[[M' idx'] st'] pidx] Hn (J1 & J2 & J3 & J4 & J5 & J6).
          rewrite (get_ok fl n 0) by (unfold fl; rewrite flags_in_length; lia). cbn [bind].
          change (nth n fl 0 =? 0) with (is_np fl n). rewrite !cnt_S.
          destruct (is_np fl n) eqn:En.
          -- assert (Ep : is_pv fl n = false). { rewrite is_np_pv in En. destruct (is_pv fl n); auto. }
             rewrite Ep. pose proof (cnt_lt (is_np fl) n N ltac:(lia) En) as CL. fold w' in CL.
             destruct (dec7_step_spec st' buf idx' _ J2 HB (eq_sym J3)) as (idx2 & E & E2).
             { rewrite HL. clear -TB CL Hr HC. nia. }
             rewrite E. cbn [bind]. rewrite (set2_ok _ K N) by (auto; lia). cbn [bind]. apply okp_ok.
             split. { apply shape_upd2; auto; lia. } split. { apply next7_lt; auto. }
             split. { rewrite E2. lia. } split; [lia|]. split.
             ++ intros i c Hi Hc. rewrite (ent_upd2_other _ K N) by (auto; lia). auto.
             ++ intros c Hc. rewrite (ent_upd2 _ K N) by (auto; lia). rewrite Nat.eqb_refl. cbn [andb].
                destruct (Nat.eqb_spec n c) as [<-|]. 2:{ apply J6. lia. }
                unfold V. rewrite En. unfold valfield. do 3 f_equal. lia.
          -- assert (Ep : is_pv fl n = true). { rewrite is_np_pv in En. destruct (is_pv fl n); auto. }
             rewrite Ep. rewrite (set2_ok _ K N) by (auto; lia). cbn [bind]. apply okp_ok.
             split. { apply shape_upd2; auto; lia. } split; auto.
             split. { rewrite J3. lia. } split; [lia|]. split.
             ++ intros i c Hi Hc. rewrite (ent_upd2_other _ K N) by (auto; lia). auto.
             ++ intros c Hc. rewrite (ent_upd2 _ K N) by (auto; lia). rewrite Nat.eqb_refl. cbn [andb].
                destruct (Nat.eqb_spec n c) as [<-|]. 2:{ apply J6. lia. }
                unfold V. rewrite En. rewrite J4. auto.
        * intros [[[M' idx'] st'] pidx] (J1 & J2 & J3 & J4 & J5 & J6). cbn [Nat.add] in *. fold w' in J3.
          split; auto. split; auto. split. { rewrite J3. lia. }
          intros i c Hi Hc. destruct (Nat.eq_dec i r) as [->|]; auto. apply J5; lia.
      + intros [[[M' idx'] st'] pidx] H. apply okp_ok. exact H.
    - intros [[M idx] st] (I1 & I2 & I3 & I4). auto. }
  intros [[M idx] st] (S1 & S2). apply okp_ok. auto.
Qed.

(** Unpacking a packed generator gives it back. *)
Lemma rref_roundtrip buf old full piv pv : bytes buf -> length buf = rref_bytes p -> shape K N old ->
  shape K N full -> reduced K N (ent full) -> is_rref K N (ent full) pv -> flags_of K N pv piv ->
  okp (compress_rref p buf full piv) (fun b => length b = rref_bytes p /\ bytes b /\
     expand_to_rref p old b = Ok full).
Proof.
  intros HB HL HO HS HR HRR HF.
  pose proof (flags_cnt_np _ _ _ _ _ HRR HF) as Hcnt.
  destruct (flags_cnt_pv _ _ _ _ _ HRR HF) as [_ Hpvc].
  pose proof HF as (Hpl & HFc).
  assert (H01 : bits01 piv).
  { apply Forall_forall. intros x Hx. apply In_nth with (d := 0) in Hx. destruct Hx as (c & Hc & <-).
    rewrite Hpl in Hc. destruct (is_np piv c) eqn:E.
    - unfold is_np in E. apply Z.eqb_eq in E. rewrite E. lia.
    - assert (E2 : is_pv piv c = true). { rewrite is_np_pv in E. destruct (is_pv piv c); auto. }
      apply (flags_pv _ _ _ _ _ HF Hc) in E2. destruct (HFc c Hc) as [A _]. rewrite A by auto. lia. }
  assert (Hv : forall i c, (i < K)%nat -> (c < N)%nat -> 0 <= ent full i c < 128).
  { intros i c Hi Hc. specialize (HR i c Hi Hc). unfold fq in HR. lia. }
  eapply okp_mono. { apply (compress_rref_enc full piv); auto. }
  intros b (L & E). pose proof E as ((_ & _) & Bb & _). split; auto. split; auto.
  set (T := 8 * Z.of_nat idx0 + 7 * (Z.of_nat K * Z.of_nat w)) in *.
  assert (HT : Z.of_nat N <= 8 * Z.of_nat idx0) by (unfold idx0; lia).
  assert (EF : flags_in b = piv).
  { apply (list_ext 0). { rewrite flags_in_length. auto. } intros c Hc. rewrite flags_in_length in Hc.
    rewrite flags_in_nth by auto. unfold flagbit. change 2 with (2 ^ 1) at 2.
    rewrite (encd_field _ _ _ _ _ E) by (unfold T; nia). unfold packed_value. rewrite slice_add by lia.
    replace (Z.of_nat c) with (1 * Z.of_nat c) by lia. apply sval_nth; auto; lia. }
  destruct (expand_to_rref_spec old b Bb L HO) as (M & EM & SM & VM). { rewrite EF. lia. }
  rewrite EM. f_equal. apply (mat_ext _ _ K N); auto. intros i c Hi Hc. rewrite VM by auto. rewrite EF, Hcnt.
  destruct (is_np piv c) eqn:En.
  - unfold valfield. change 128 with (2 ^ 7).
    pose proof (cnt_lt (is_np piv) c N Hc En) as CL. rewrite Hcnt in CL.
    rewrite (encd_field _ _ _ _ _ E) by (unfold T; nia). unfold packed_value.
    rewrite Z.pow_add_r by lia.
    rewrite <- Z.div_div by (apply Z.pow_nonzero || apply Z.pow_pos_nonneg; lia).
    rewrite (Z.mul_comm (2 ^ (8 * Z.of_nat idx0)) (sval 7 _)), Z.div_add by (apply Z.pow_nonzero; lia).
    rewrite (Z.div_small (sval 1 piv)).
    2:{ pose proof (sval_range 1 piv ltac:(lia) H01) as R. rewrite Hpl in R. split; [lia|].
        eapply Z.lt_le_trans; [apply R|]. apply Z.pow_le_mono_r; lia. }
    rewrite Z.add_0_l. rewrite sval_nth; try lia.
    + apply stream_nth; auto.
    + apply stream_vals; auto.
    + rewrite stream_length by auto. nia.
  - assert (E2 : is_pv piv c = true). { rewrite is_np_pv in En. destruct (is_pv piv c); auto. }
    apply (flags_pv _ _ _ _ _ HF Hc) in E2. destruct E2 as (k & Hk & <-).
    rewrite Hpvc by auto. destruct HRR as (_ & _ & HRR & _). rewrite HRR by auto.
    destruct (Nat.eqb_spec i k); auto.
Qed.

(** *** Compact form *)
Lemma generator_rref_expand_spec full c (f : nat -> bool) : shape K N full ->
  shape K w (r_vals c) -> length (r_pos c) = w -> cnt f N = w ->
  (forall j, (j < w)%nat -> nthZ (r_pos c) j = Z.of_nat (nth j (enum f N) 0%nat)) ->
  okp (generator_rref_expand p full c) (fun M => shape K N M /\
    forall i j, (i < K)%nat -> (j < N)%nat -> ent M i j =
      if f j then ent (r_vals c) i (cnt f j) else b2z (Nat.eqb i (cnt (fun k => negb (f k)) j))).
Proof.
  intros HS HV HP HC HE. pose proof (wf_K p wf) as HK. unfold generator_rref_expand.
  set (V := fun i j => if f j then ent (r_vals c) i (cnt f j) else b2z (Nat.eqb i (cnt (fun k => negb (f k)) j))).
  eapply okp_bind with (Q := fun '(M, _) => shape K N M /\
    forall i j, (i < K)%nat -> (j < N)%nat -> ent M i j = V i j).
  2:{ intros [M pl] H. apply okp_ok. exact H. }
  eapply okp_mono. apply okp_for with (I := fun n '(M, pl) => shape K N M /\ pl = cnt f n /\
    forall i j, (i < K)%nat -> (j < n)%nat -> ent M i j = V i j).
  - split; auto. split; auto. intros; lia.
  - intros n [M pl] Hn (I1 & -> & I3).
    assert (D : (if (cnt f n <? w)%nat then ps <- get (r_pos c) (cnt f n) ;; Ok (Z.of_nat n =? ps) else Ok false) = Ok (f n)).
    { destruct (Nat.ltb_spec (cnt f n) w) as [L|L].
      - rewrite (get_ok _ _ 0) by lia. cbn [bind]. f_equal. specialize (HE _ L). unfold nthZ in HE. rewrite HE.
        rewrite <- HC in L. destruct (f n) eqn:E.
        + rewrite nth_enum_cnt by (auto; lia). apply Z.eqb_refl.
        + apply Z.eqb_neq. intros X. apply Nat2Z.inj in X.
          destruct (cnt_nth_enum f N (cnt f n) 0%nat L) as (_ & G & _). rewrite <- X in G. congruence.
      - f_equal. destruct (f n) eqn:E; auto. pose proof (cnt_lt f n N ltac:(lia) E). lia. }
    cbv zeta in *. rewrite D. cbn [bind].
    assert (CL : (cnt f n <= n)%nat) by apply cnt_le.
    pose proof (cnt_compl f n) as CC.
    destruct (f n) eqn:En.
    + pose proof (cnt_lt f n N ltac:(lia) En) as CL2. rewrite HC in CL2.
      eapply okp_bind. { apply okp_for with (I := fun r M' => shape K N M' /\
        (forall i j, (i < K)%nat -> (j < n)%nat -> ent M' i j = V i j) /\
        (forall i, (i < r)%nat -> ent M' i n = V i n)).
        - split; auto. split; auto. intros; lia.
        - intros r M' Hr (J1 & J2 & J3). rewrite (get2_ok _ K w) by (auto; lia). cbn [bind].
          rewrite (set2_ok _ K N) by (auto; lia). apply okp_ok. split. { apply shape_upd2; auto; lia. }
          split.
          + intros i j Hi Hj. rewrite (ent_upd2_other _ K N) by (auto; lia). auto.
          + intros i Hi. rewrite (ent_upd2 _ K N) by (auto; lia). rewrite Nat.eqb_refl, andb_true_r.
            destruct (Nat.eqb_spec r i) as [<-|]. 2:{ apply J3. lia. } unfold V. rewrite En. auto. }
      intros M' (J1 & J2 & J3). apply okp_ok. split; auto. split. { rewrite cnt_S, En. lia. }
      intros i j Hi Hj. destruct (Nat.eq_dec j n) as [->|]. apply J3; lia. apply J2; lia.
    + eapply okp_bind. { apply okp_for with (I := fun r M' => shape K N M' /\
        (forall i j, (i < K)%nat -> (j < n)%nat -> ent M' i j = V i j) /\
        (forall i, (i < r)%nat -> ent M' i n = V i n)).
        - split; auto. split; auto. intros; lia.
        - intros r M' Hr (J1 & J2 & J3).
          rewrite (set2_ok _ K N) by (auto; lia). apply okp_ok. split. { apply shape_upd2; auto; lia. }
          split.
          + intros i j Hi Hj. rewrite (ent_upd2_other _ K N) by (auto; lia). auto.
          + intros i Hi. rewrite (ent_upd2 _ K N) by (auto; lia). rewrite Nat.eqb_refl, andb_true_r.
            destruct (Nat.eqb_spec r i) as [<-|]. 2:{ apply J3. lia. } unfold V. rewrite En. f_equal.
            destruct (Nat.eqb_spec r (cnt (fun k => negb (f k)) n)); destruct (Z.eqb_spec (Z.of_nat r) (Z.of_nat n - Z.of_nat (cnt f n))); auto; lia. }
      intros M' (J1 & J2 & J3). apply okp_ok. split; auto. split. { rewrite cnt_S, En. lia. }
      intros i j Hi Hj. destruct (Nat.eq_dec j n) as [->|]. apply J3; lia. apply J2; lia.
  - intros [M pl] (H1 & _ & H3). auto.
Qed.

(** Compacting and expanding a reduced row-echelon matrix gives it back. *)
Lemma pos_t_small x : 0 <= x < 256 \/ (0 <= x < Z.of_nat N) -> pos_t p x = x.
Proof.
  intros H. unfold pos_t, pos_mod. pose proof (wf_cat p wf) as C. apply Z.mod_small. destruct (p_cat p); lia.
Qed.

Lemma generator_rref_compact_spec c full piv pv : shape K w (r_vals c) -> length (r_pos c) = w ->
  shape K N full -> is_rref K N (ent full) pv -> flags_of K N pv piv ->
  okp (generator_rref_compact p c full piv) (fun c' => shape K w (r_vals c') /\ length (r_pos c') = w /\
    (forall j, (j < w)%nat -> nthZ (r_pos c') j = Z.of_nat (nth j (enum (is_np piv) N) 0%nat)) /\
    (forall i j, (i < K)%nat -> (j < w)%nat -> ent (r_vals c') i j = ent full i (nth j (enum (is_np piv) N) 0%nat))).
Proof.
  intros HV HP HS HRR HF. pose proof (wf_K p wf) as HK.
  pose proof (flags_cnt_np _ _ _ _ _ HRR HF) as Hcnt. pose proof HF as (Hpl & _).
  set (f := is_np piv) in *. unfold generator_rref_compact.
  eapply okp_bind with (Q := fun '(c', _) => shape K w (r_vals c') /\ length (r_pos c') = w /\
    (forall j, (j < w)%nat -> nthZ (r_pos c') j = Z.of_nat (nth j (enum f N) 0%nat)) /\
    (forall i j, (i < K)%nat -> (j < w)%nat -> ent (r_vals c') i j = ent full i (nth j (enum f N) 0%nat))).
  2:{ intros [c' d] H. apply okp_ok. exact H. }
  eapply okp_mono. apply okp_for with (I := fun n '(c', d) => d = cnt f n /\ shape K w (r_vals c') /\ length (r_pos c') = w /\
    (forall j, (j < cnt f n)%nat -> nthZ (r_pos c') j = Z.of_nat (nth j (enum f N) 0%nat)) /\
    (forall i j, (i < K)%nat -> (j < cnt f n)%nat -> ent (r_vals c') i j = ent full i (nth j (enum f N) 0%nat))).
  - rewrite cnt_0. repeat split; auto; try apply HV; intros; lia.
  - intros n [c' d] Hn (-> & I1 & I2 & I3 & I4). rewrite (get_ok _ n 0) by lia. cbn [bind].
    change (nth n piv 0 =? 0) with (f n). destruct (f n) eqn:En.
    + pose proof (cnt_lt f n N ltac:(lia) En) as CL. rewrite Hcnt in CL.
      eapply okp_bind. { apply okp_for with (I := fun r v => shape K w v /\
        (forall i j, (i < K)%nat -> (j < cnt f n)%nat -> ent v i j = ent full i (nth j (enum f N) 0%nat)) /\
        (forall i, (i < r)%nat -> ent v i (cnt f n) = ent full i n)).
        - split; auto. split; auto. intros; lia.
        - intros r v Hr (J1 & J2 & J3). rewrite (get2_ok _ K N) by (auto; lia). cbn [bind].
          rewrite (set2_ok _ K w) by (auto; lia). apply okp_ok. split. { apply shape_upd2; auto; lia. } split.
          + intros i j Hi Hj. rewrite (ent_upd2_other _ K w) by (auto; lia). auto.
          + intros i Hi. rewrite (ent_upd2 _ K w) by (auto; lia). rewrite Nat.eqb_refl, andb_true_r.
            destruct (Nat.eqb_spec r i) as [<-|]; auto. apply J3. lia. }
      intros v (J1 & J2 & J3). rewrite set_ok by lia. cbn [bind]. apply okp_ok. cbn [r_vals r_pos].
      rewrite cnt_S, En. split; [lia|]. split; auto. split. { rewrite upd_length; auto. }
      assert (EN : nth (cnt f n) (enum f N) 0%nat = n) by (apply nth_enum_cnt; auto; lia).
      split.
      * intros j Hj. unfold nthZ. rewrite nth_upd by lia. destruct (Nat.eqb_spec (cnt f n) j) as [<-|].
        -- rewrite pos_t_small by lia. rewrite EN. auto.
        -- apply I3. lia.
      * intros i j Hi Hj. destruct (Nat.eq_dec j (cnt f n)) as [->|].
        -- rewrite EN. apply J3. lia.
        -- apply J2; lia.
    + apply okp_ok. rewrite cnt_S, En, Nat.add_0_r. repeat split; auto; apply I1.
  - intros [c' d] (_ & I1 & I2 & I3 & I4). cbn [Nat.add] in *. rewrite Hcnt in *. auto.
Qed.

Lemma compact_expand_roundtrip c full piv pv old : shape K w (r_vals c) -> length (r_pos c) = w ->
  shape K N full -> shape K N old -> is_rref K N (ent full) pv -> flags_of K N pv piv ->
  okp (generator_rref_compact p c full piv) (fun c' => generator_rref_expand p old c' = Ok full).
Proof.
  intros HV HP HS HO HRR HF.
  pose proof (flags_cnt_np _ _ _ _ _ HRR HF) as Hcnt.
  destruct (flags_cnt_pv _ _ _ _ _ HRR HF) as [_ Hpvc].
  eapply okp_mono. { apply (generator_rref_compact_spec c full piv pv); auto. }
  intros c' (S1 & S2 & S3 & S4).
  destruct (generator_rref_expand_spec old c' (is_np piv) HO S1 S2 Hcnt S3) as (M & EM & SM & VM).
  rewrite EM. f_equal. apply (mat_ext _ _ K N); auto. intros i j Hi Hj. rewrite VM by auto.
  destruct (is_np piv j) eqn:En.
  - pose proof (cnt_lt _ j N Hj En) as CL. rewrite S4 by lia. rewrite nth_enum_cnt; auto.
  - assert (E2 : is_pv piv j = true). { rewrite is_np_pv in En. destruct (is_pv piv j); auto. }
    apply (flags_pv _ _ _ _ _ HF Hj) in E2. destruct E2 as (k & Hk & <-).
    rewrite (cnt_ext (fun k => negb (is_np piv k)) (is_pv piv)). 2:{ intros c0 _. rewrite is_np_pv. destruct (is_pv piv c0); auto. }
    rewrite Hpvc by auto. destruct HRR as (_ & _ & HRR & _). rewrite HRR by auto.
    destruct (Nat.eqb_spec i k); auto.
Qed.

End F.
