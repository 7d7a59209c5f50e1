(** Packed actions and packed systematic generators: decoding inverts encoding. *)
From Verif Require Import Base BaseLemmas Params ParamsProofs Fq Prim Samplers Monomial Codes Spec FqProofs
  EnumProofs MonoProofs BitCodec.

Section A.
Variable p : params.
Hypothesis wf : wf_params p.
Notation N := (pN p).
Notation K := (pK p).
Notation nb := (nbits p).

Lemma nb_vals : 8 <= nb <= 10.
Proof. unfold nbits. destruct (p_cat p); lia. Qed.

Lemma N_lt_nb : Z.of_nat N < 2 ^ nb.
Proof. unfold nbits. pose proof (wf_cat p wf) as C. destruct (p_cat p); lia. Qed.

Lemma mono_bytes_bits : nb * Z.of_nat K + 7 * Z.of_nat K <= 8 * Z.of_nat (mono_bytes p).
Proof.
  unfold mono_bytes. rewrite nbits_N by auto. rewrite bits_127. pose proof nb_vals.
  rewrite Z2Nat.id. 2:{ apply Z.add_nonneg_nonneg; apply Z.div_pos; try lia; nia. }
  lia.
Qed.

Lemma coef_start t st idx : t = nb * Z.of_nat K -> stP p st -> posP p st idx = t ->
  pos7 (coef_start_state p) idx = t /\ (coef_start_state p < 8)%nat.
Proof.
  unfold nbits, stP, posP, pos7, coef_start_state. pose proof (wf_cat p wf) as C.
  intros Ht Hs HP. destruct (p_cat p).
  - split; lia.
  - split; lia.
  - destruct C as (_ & _ & C). split; lia.
Qed.

(** Bit fields of the packed form, for an arbitrary buffer. *)
Definition fieldP (buf : list Z) (i : nat) : Z := (le_val buf / 2 ^ (nb * Z.of_nat i)) mod 2 ^ nb.
Definition fieldC (buf : list Z) (i : nat) : Z :=
  (le_val buf / 2 ^ (nb * Z.of_nat K + 7 * Z.of_nat i)) mod 128.

Lemma expand_to_monom_action_spec mono buf : bytes buf -> length buf = mono_bytes p ->
  act_mem p mono ->
  okp (expand_to_monom_action p mono buf) (fun a => act_mem p a /\
    (forall i, (i < K)%nat -> nthZ (a_perm a) i = fieldP buf i) /\
    (forall i, (i < K)%nat -> nthZ (a_coef a) i = fieldC buf i)).
Proof.
  intros HB HL (M1 & M2). pose proof mono_bytes_bits as TB. pose proof nb_vals as NV.
  rewrite <- HL in TB. unfold expand_to_monom_action.
  eapply okp_bind with (Q := fun '(pm, idx, st) => length pm = K /\ stP p st /\
    posP p st idx = nb * Z.of_nat K /\ forall i, (i < K)%nat -> nthZ pm i = fieldP buf i).
  { eapply okp_mono. apply okp_for with (I := fun n '(pm, idx, st) => length pm = K /\ stP p st /\
      posP p st idx = nb * Z.of_nat n /\ forall i, (i < n)%nat -> nthZ pm i = fieldP buf i).
    - split; auto. split. { unfold stP. destruct (p_cat p); lia. }
      split. { unfold posP. destruct (p_cat p); lia. } intros; lia.
    - intros i [[pm idx] st] Hi (H1 & H2 & H3 & H4).
      destruct (dec_perm_step_spec p wf st buf idx (nb * Z.of_nat i)) as (idx' & st' & E & S1 & S2); auto.
      { nia. }
      rewrite E. cbn [bind]. rewrite set_ok by lia. cbn [bind]. apply okp_ok.
      split. { rewrite upd_length; auto. } split; auto. split; [lia|].
      intros j Hj. unfold nthZ. rewrite nth_upd by lia. destruct (Nat.eqb_spec i j); subst; auto. apply H4; lia.
    - intros [[pm idx] st] H. exact H. }
  intros [[pm idx] st] (H1 & H2 & H3 & H4).
  destruct (coef_start _ st idx eq_refl H2 H3) as [C1 C2].
  eapply okp_bind with (Q := fun '(cf, _, _) => length cf = K /\
     forall i, (i < K)%nat -> nthZ cf i = fieldC buf i).
  { eapply okp_mono. apply okp_for with (I := fun n '(cf, idx, st) => length cf = K /\ (st < 8)%nat /\
      pos7 st idx = nb * Z.of_nat K + 7 * Z.of_nat n /\ forall i, (i < n)%nat -> nthZ cf i = fieldC buf i).
    - split; auto. split; auto. split; [lia|]. intros; lia.
    - intros i [[cf jdx] s] Hi (G1 & G2 & G3 & G4).
      destruct (dec7_step_spec s buf jdx (nb * Z.of_nat K + 7 * Z.of_nat i)) as (jdx' & E & S1); auto.
      { nia. }
      rewrite E. cbn [bind]. rewrite set_ok by lia. cbn [bind]. apply okp_ok.
      split. { rewrite upd_length; auto. } split. { apply next7_lt; auto. } split; [lia|].
      intros j Hj. unfold nthZ. rewrite nth_upd by lia. destruct (Nat.eqb_spec i j); subst; auto. apply G4; lia.
    - intros [[cf jdx] s] (G1 & _ & _ & G4). auto. }
  intros [[cf jdx] s] (G1 & G4). apply okp_ok. unfold act_mem. cbn [a_perm a_coef]. auto.
Qed.

Lemma firstn_snoc (l : list Z) i : (i < length l)%nat -> firstn (S i) l = firstn i l ++ [nth i l 0].
Proof. apply firstn_S. Qed.

Lemma compress_monom_action_enc buf a : bytes buf -> length buf = mono_bytes p -> act_mem p a ->
  (forall i, (i < K)%nat -> 0 <= nthZ (a_perm a) i < 2 ^ nb) ->
  (forall i, (i < K)%nat -> 0 <= nthZ (a_coef a) i < 128) ->
  okp (compress_monom_action p buf a) (fun b => length b = length buf /\
    encd b (nb * Z.of_nat K + 7 * Z.of_nat K)
      (sval nb (a_perm a) + 2 ^ (nb * Z.of_nat K) * sval 7 (a_coef a))).
Proof.
  intros HB HL (M1 & M2) RP RC. pose proof mono_bytes_bits as TB. pose proof nb_vals as NV.
  rewrite <- HL in TB. unfold compress_monom_action.
  eapply okp_bind with (Q := fun '(b, idx, st) => length b = length buf /\ stP p st /\
    posP p st idx = nb * Z.of_nat K /\ encd b (nb * Z.of_nat K) (sval nb (a_perm a))).
  { eapply okp_mono. apply okp_for with (I := fun n '(b, idx, st) => length b = length buf /\ stP p st /\
      posP p st idx = nb * Z.of_nat n /\ encd b (nb * Z.of_nat n) (sval nb (firstn n (a_perm a)))).
    - split; auto. split. { unfold stP. destruct (p_cat p); lia. }
      split. { unfold posP. destruct (p_cat p); lia. }
      cbn [firstn sval]. change (Z.of_nat 0) with 0. rewrite Z.mul_0_r.
      split; [lia|]. split; auto. split; [lia|]. reflexivity.
    - intros i [[b idx] st] Hi (H1 & H2 & H3 & H4).
      rewrite (get_ok _ i 0) by lia. cbn [bind].
      eapply okp_mono. { apply (enc_perm_step_spec p st b idx _ _ _ H2 (RP i ltac:(lia)) (eq_sym H3) H4). nia. }
      intros [[b' idx'] st'] (G1 & G2 & G3 & G4). split; [lia|]. split; auto. split; [lia|].
      rewrite firstn_snoc by lia. rewrite sval_app by lia. rewrite firstn_length, Nat.min_l by lia.
      replace (nb * Z.of_nat (S i)) with (nb * Z.of_nat i + nb) by lia. exact G4.
    - intros [[b idx] st] (H1 & H2 & H3 & H4). cbn [Nat.add] in *. rewrite firstn_all2 in H4 by lia. auto. }
  intros [[b idx] st] (H1 & H2 & H3 & H4).
  destruct (coef_start _ st idx eq_refl H2 H3) as [C1 C2].
  eapply okp_bind with (Q := fun '(b, _, _) => length b = length buf /\
    encd b (nb * Z.of_nat K + 7 * Z.of_nat K)
      (sval nb (a_perm a) + 2 ^ (nb * Z.of_nat K) * sval 7 (a_coef a))).
  { eapply okp_mono. apply okp_for with (I := fun n '(b, idx, st) => length b = length buf /\ (st < 8)%nat /\
      pos7 st idx = nb * Z.of_nat K + 7 * Z.of_nat n /\ encd b (nb * Z.of_nat K + 7 * Z.of_nat n)
        (sval nb (a_perm a) + 2 ^ (nb * Z.of_nat K) * sval 7 (firstn n (a_coef a)))).
    - split; auto. split; auto. split; [lia|].
      cbn [firstn sval]. change (Z.of_nat 0) with 0. rewrite !Z.mul_0_r, !Z.add_0_r. auto.
    - intros i [[b1 idx1] st1] Hi (G1 & G2 & G3 & G4).
      rewrite (get_ok _ i 0) by lia. cbn [bind].
      eapply okp_bind. { apply (enc7_step_spec st1 b1 idx1 _ _ _ G2 (RC i ltac:(lia)) (eq_sym G3) G4). nia. }
      intros [b2 idx2] (E1 & E2 & E3). apply okp_ok. split; [lia|]. split. { apply next7_lt; auto. }
      split; [lia|].
      rewrite firstn_snoc by lia. rewrite sval_app by lia. rewrite firstn_length, Nat.min_l by lia.
      replace (nb * Z.of_nat K + 7 * Z.of_nat (S i)) with (nb * Z.of_nat K + 7 * Z.of_nat i + 7) by lia.
      rewrite (Z.pow_add_r 2 (nb * Z.of_nat K)) in E3 by nia.
      match goal with |- encd _ _ ?x => match type of E3 with encd _ _ ?y => replace x with y by (unfold nthZ; ring) end end.
      exact E3.
    - intros [[b1 idx1] st1] (G1 & _ & _ & G4). cbn [Nat.add] in *. rewrite firstn_all2 in G4 by lia. auto. }
  intros [[b1 idx1] st1] (G1 & G4). apply okp_ok. auto.
Qed.

Lemma encd_field b t s q n : encd b t s -> 0 <= q -> 0 <= n -> q + n <= t ->
  (le_val b / 2 ^ q) mod 2 ^ n = (s / 2 ^ q) mod 2 ^ n.
Proof.
  intros ((H1 & H1') & H2 & H3 & H4) Hq Hn Ht.
  rewrite (le_val_split (Z.to_nat ((t + 7) / 8)) b) by lia. rewrite H4, pow256.
  apply slice_add; lia.
Qed.

Lemma Forall_nthZ (P : Z -> Prop) l n : length l = n -> (forall i, (i < n)%nat -> P (nthZ l i)) -> Forall P l.
Proof. intros L H. apply Forall_nth_Z. intros i Hi. apply H. lia. Qed.

(** Unpacking a packed action gives it back, whatever the destinations contained. *)
Lemma action_roundtrip buf old a : bytes buf -> length buf = mono_bytes p -> act_mem p old -> act_mem p a ->
  (forall i, (i < K)%nat -> 0 <= nthZ (a_perm a) i < 2 ^ nb) ->
  (forall i, (i < K)%nat -> 0 <= nthZ (a_coef a) i < 128) ->
  okp (compress_monom_action p buf a) (fun b => length b = mono_bytes p /\ bytes b /\
     expand_to_monom_action p old b = Ok a).
Proof.
  intros HB HL HO HA RP RC. pose proof nb_vals as NV.
  eapply okp_mono. { apply compress_monom_action_enc; auto. }
  intros b (L & E). pose proof E as ((_ & _) & Bb & _). split; [lia|]. split; auto.
  destruct (expand_to_monom_action_spec old b Bb ltac:(lia) HO) as (a' & Ea & (A1 & A2) & P1 & P2).
  rewrite Ea. f_equal. destruct HA as (L1 & L2).
  assert (FP : Forall (fun x => 0 <= x < 2 ^ nb) (a_perm a)) by (eapply Forall_nthZ; eauto).
  assert (FC : Forall (fun x => 0 <= x < 2 ^ 7) (a_coef a)) by (eapply Forall_nthZ; eauto).
  assert (E1 : a_perm a' = a_perm a).
  { apply (list_ext 0); [lia|]. intros i Hi. rewrite A1 in Hi. change (nth i (a_perm a') 0) with (nthZ (a_perm a') i).
    rewrite P1 by auto. unfold fieldP. rewrite (encd_field _ _ _ _ _ E) by nia.
    rewrite slice_add by nia. apply sval_nth; auto; lia. }
  assert (E2 : a_coef a' = a_coef a).
  { apply (list_ext 0); [lia|]. intros i Hi. rewrite A2 in Hi. change (nth i (a_coef a') 0) with (nthZ (a_coef a') i).
    rewrite P2 by auto. unfold fieldC. change 128 with (2 ^ 7). rewrite (encd_field _ _ _ _ _ E) by nia.
    rewrite Z.pow_add_r by nia.
    rewrite <- Z.div_div by (apply Z.pow_nonzero || apply Z.pow_pos_nonneg; nia).
    rewrite (Z.mul_comm (2 ^ (nb * Z.of_nat K))), Z.div_add by (apply Z.pow_nonzero; nia).
    rewrite (Z.div_small (sval nb (a_perm a))). 2:{ rewrite <- L1. apply sval_range; auto. lia. }
    rewrite Z.add_0_l. apply sval_nth; auto; lia. }
  destruct a, a'. cbn in *. congruence.
Qed.

(** *** Validity of unpacked actions *)
Lemma coefs_valid_spec n i coef : (i + n <= length coef)%nat ->
  exists b, coefs_valid n i coef = Ok b /\
    (b = true <-> forall j, (i <= j < i + n)%nat -> fq_unit (nthZ coef j)).
Proof.
  revert i. induction n as [|n IH]; intros i H; cbn [coefs_valid].
  - exists true. split; auto. split; auto. intros; lia.
  - rewrite (get_ok _ i 0) by lia. cbn [bind].
    destruct (Z.leb_spec (nth i coef 0) 0) as [A|A]; cbn [orb].
    { exists false. split; auto. split; [discriminate|]. intros F. specialize (F i ltac:(lia)).
      unfold fq_unit, nthZ in F. lia. }
    destruct (Z.leb_spec 127 (nth i coef 0)) as [B|B].
    { exists false. split; auto. split; [discriminate|]. intros F. specialize (F i ltac:(lia)).
      unfold fq_unit, nthZ in F. lia. }
    destruct (IH (S i)) as (b & E & Hb); [lia|]. exists b. split; auto. rewrite Hb. split.
    + intros F j Hj. destruct (Nat.eq_dec j i) as [->|]. { unfold fq_unit, nthZ. lia. } apply F. lia.
    + intros F j Hj. apply F. lia.
Qed.

Lemma perm_valid_spec n i perm fl : (i + n <= length perm)%nat -> length fl = N ->
  (forall c, (c < N)%nat -> (nth c fl 0 = 0 \/ nth c fl 0 = 1) /\
     (nth c fl 0 = 1 <-> exists j, (j < i)%nat /\ nthZ perm j = Z.of_nat c)) ->
  exists b, perm_valid p n i perm fl = Ok b /\
    (b = true <-> (forall j, (i <= j < i + n)%nat -> 0 <= nthZ perm j < Z.of_nat N) /\
                  (forall j k, (j < k)%nat -> (i <= k < i + n)%nat -> nthZ perm j <> nthZ perm k)).
Proof.
  revert i fl. induction n as [|n IH]; intros i fl H L F; cbn [perm_valid].
  - exists true. split; auto. split; auto. intros _. split; intros; lia.
  - rewrite (get_ok _ i 0) by lia. cbn [bind]. change (nth i perm 0) with (nthZ perm i).
    destruct (Z.ltb_spec (nthZ perm i) 0) as [A|A]; cbn [orb].
    { exists false. split; auto. split; [discriminate|]. intros (G & _). specialize (G i ltac:(lia)). lia. }
    destruct (Z.leb_spec (Z.of_nat N) (nthZ perm i)) as [B|B].
    { exists false. split; auto. split; [discriminate|]. intros (G & _). specialize (G i ltac:(lia)). lia. }
    set (c := Z.to_nat (nthZ perm i)) in *. assert (Hc : (c < N)%nat) by lia.
    rewrite (get_ok _ c 0) by lia. cbn [bind]. destruct (F c Hc) as [F1 F2].
    destruct (Z.eqb_spec (nth c fl 0) 1) as [E|E].
    { exists false. split; auto. split; [discriminate|]. intros (_ & G).
      apply F2 in E. destruct E as (j & Hj & Ej). exfalso. apply (G j i); try lia. }
    rewrite set_ok by lia. cbn [bind].
    destruct (IH (S i) (upd fl c 1)) as (b & Eb & Hb); [lia|rewrite upd_length; auto| |].
    { intros d Hd. rewrite nth_upd by lia. destruct (F d Hd) as [G1 G2].
      destruct (Nat.eqb_spec c d) as [<-|Ne].
      - split; auto. split; auto. intros _. exists i. split; [lia|]. lia.
      - split; auto. rewrite G2. split; intros (j & Hj & Ej); exists j; split; auto; try lia.
        assert (j <> i) by (intros ->; apply Ne; lia). lia. }
    exists b. split; auto. rewrite Hb. clear Hb. split.
    + intros (G1 & G2). split.
      * intros j Hj. destruct (Nat.eq_dec j i) as [->|]; [lia|]. apply G1. lia.
      * intros j k Hj Hk. destruct (Nat.eq_dec k i) as [->|]. 2:{ apply G2; lia. }
        intros Ek. apply E. apply F2. exists j. split; auto. lia.
    + intros (G1 & G2). split; intros; [apply G1|apply G2]; lia.
Qed.

(** The validity check accepts exactly the valid actions. *)
Lemma is_monom_action_valid_spec a : act_mem p a ->
  exists r, is_monom_action_valid p a = Ok r /\ (r = 1 <-> act_ok p a) /\ (r = 0 \/ r = 1).
Proof.
  intros (L1 & L2). unfold is_monom_action_valid.
  destruct (coefs_valid_spec K 0 (a_coef a)) as (b1 & -> & H1); [lia|]. cbn [bind].
  destruct b1.
  - destruct (perm_valid_spec K 0 (a_perm a) (repeat 0 N)) as (b2 & -> & H2); [lia|apply repeat_length| |].
    { intros c Hc. rewrite nth_repeat. split; auto. split; [discriminate|]. intros (j & Hj & _). lia. }
    cbn [bind]. exists (b2z b2). split; auto. destruct H1 as [H1 _]. specialize (H1 eq_refl).
    split. 2:{ destruct b2; auto. }
    destruct b2; cbn [b2z].
    + split; auto. intros _. destruct H2 as [H2 _]. destruct (H2 eq_refl) as (G1 & G2). constructor; auto.
      * split; auto.
      * intros i Hi. apply G1. lia.
      * intros i j Hi Hj E. destruct (Nat.lt_trichotomy i j) as [Lt|[Lt|Lt]]; auto.
        -- exfalso. apply (G2 i j); auto; lia.
        -- exfalso. apply (G2 j i); auto; lia.
      * intros i Hi. apply H1. lia.
    + split; [discriminate|]. intros A. destruct H2 as [_ H2]. exfalso. enough (false = true) by discriminate.
      apply H2. split. { intros j Hj. apply (ao_range p a A). lia. }
      intros j k Hj Hk E. assert (j = k); [|lia]. apply (ao_inj p a A); auto; lia.
  - exists 0. split; auto. split; auto. split; [discriminate|]. intros A. destruct H1 as [_ H1].
    enough (false = true) by discriminate. apply H1. intros j Hj. apply (ao_coef p a A). lia.
Qed.

End A.
