(** Verification: memory safety and what acceptance means. *)
From Coq Require Import Permutation Setoid.
From Verif Require Import Base BaseLemmas Params ParamsProofs Fq FqProofs EnumProofs LinAlg Prim Samplers
  Monomial Codes SeedTree Utils Less RrefProofs LexProofs SortProofs MonoProofs ActionProofs CodecProofs
  RrefCodec SamplerProofs SeedTreeProofs FuelProofs RoundProofs.

Section W.
Variable l : list Z.
Definition nz (t : nat) : bool := negb (nth t l 0 =? 0).
End W.

Lemma weight_cnt l : weight l = cnt (nz l) (length l).
Proof.
  induction l as [|x l IH] using rev_ind. { reflexivity. }
  rewrite weight_app, app_length. cbn [length]. rewrite Nat.add_1_r, cnt_S.
  rewrite (cnt_ext (nz (l ++ [x])) (nz l)).
  2:{ intros c Hc. unfold nz. rewrite app_nth1 by auto. auto. }
  rewrite <- IH. f_equal. unfold nz, weight. rewrite app_nth2, Nat.sub_diag by lia. cbn. destruct (x =? 0); auto.
Qed.

Lemma timing_safe_memcmp_spec a b n : (n <= length a)%nat -> (n <= length b)%nat ->
  okp (timing_safe_memcmp a b n) (fun d => (d = 0 \/ d = 1) /\ (d = 0 <-> firstn n a = firstn n b)).
Proof.
  intros Ha Hb. unfold timing_safe_memcmp.
  eapply okp_mono. apply okp_for with (I := fun k d => (d = 0 \/ d = 1) /\ (d = 0 <-> forall i, (i < k)%nat -> nth i a 0 = nth i b 0)).
  - split; auto. split; auto. intros _ i Hi. lia.
  - intros i d Hi (I1 & I2). rewrite !(get_ok _ i 0) by lia. cbn [bind]. apply okp_ok.
    destruct (Z.eqb_spec (nth i a 0) (nth i b 0)) as [E|E]; cbn [negb b2z].
    + rewrite Z.lor_0_r. split; auto. rewrite I2. split.
      * intros H j Hj. destruct (Nat.eq_dec j i); subst; auto. apply H. lia.
      * intros H j Hj. apply H. lia.
    + assert (Z.lor d 1 = 1) by (destruct I1 as [-> | ->]; reflexivity). rewrite H. split; auto.
      split; [discriminate|]. intros G. exfalso. apply E. apply G. lia.
  - intros d (I1 & I2). split; auto. rewrite I2. cbn [Nat.add]. split.
    + intros H. apply (list_ext 0). { rewrite !firstn_length. lia. }
      intros i Hi. rewrite firstn_length in Hi. rewrite !nth_firstn by lia. apply H. lia.
    + intros H i Hi. rewrite <- (nth_firstn a n i 0), <- (nth_firstn b n i 0) by lia. congruence.
Qed.

Section V.
Variable X : prim.
Variable p : params.
Hypothesis wf : wf_params p.
Hypothesis LX : lawful X (hash_len p).
Notation N := (pN p).
Notation K := (pK p).
Notation w := (pN p - pK p)%nat.
Notation L := (num_leaves p).
Notation nn := (num_nodes p).
Notation slen := (seed_len p).

(** Fields of the structs. *)
Definition sig_chunk (sig : list Z) (u : nat) : list Z := firstn (mono_bytes p) (skipn (off_monom p u) sig).
Definition sig_digest (sig : list Z) : list Z := firstn (hash_len p) (skipn (off_digest p) sig).
Definition sig_salt (sig : list Z) : list Z := firstn (hash_len p) sig.
Definition pk_chunk (pk : list Z) (x : nat) : list Z := firstn (rref_bytes p) (skipn (off_sf p x) pk).
Definition pk_seed (pk : list Z) : list Z := firstn slen pk.

(** A public key whose components unpack to full-rank generators with reduced entries. *)
Definition pk_wf (pk : list Z) : Prop :=
  length pk = sizeof_pk p /\ forall x, (x < p_nk p - 1)%nat -> exists G, decodesG p (pk_chunk pk x) G /\ G_ok p G.

Definition absorbV (h : hstate X) (V : mat) : hstate X := h_absorb X h (concat V).

(** *** The transcript recomputed by the verifier *)
Definition vround (fuel : nat) (pk sig : list Z) (tree : list (list Z)) (fullG : mat) (fws : list Z) (t : nat) (V : mat) : Prop :=
  if nz fws t then
    exists G a, decodesG p (pk_chunk pk (Z.to_nat (nth t fws 0 - 1))) G /\
      decodes p (sig_chunk sig (cnt (nz fws) t)) a /\ act_ok p a /\ chal_rel p G a V
  else
    exists Q a, sampled X p fuel (nth (L - 1 + t) tree [] ++ sig_salt sig ++ round_bytes t) Q /\ prep_rel p fullG Q V a.

Section Loop.
Variables (fuel : nat) (F : Prop) (pk sig : list Z) (tree : list (list Z)) (c : rref_mat) (fullG : mat) (fws : list Z).
Hypothesis HG : forall full, shape K N full -> generator_rref_expand p full c = Ok fullG.
Hypothesis HGok : G_ok p fullG.
Hypothesis Hfws : challenge_ok p fws.
Hypothesis Hpk : pk_wf pk.
Hypothesis Hsb : bytes sig.
Hypothesis Hsl : (off_seeds p <= length sig)%nat.
Hypothesis Htree : tree_mem p tree.
Hypothesis HF : forall t r, (t < pT p)%nat -> nz fws t = false -> mono_mem p r ->
  monomial_expand X p fuel r (nth (L - 1 + t) tree [] ++ sig_salt sig ++ round_bytes t) = NoFuel -> F.

Lemma used_lt t : (t < pT p)%nat -> nz fws t = true -> (cnt (nz fws) t < pW p)%nat.
Proof.
  destruct Hfws as (F1 & F2 & F3). intros Ht Hn. rewrite weight_cnt, F1 in F2. rewrite <- F2. apply cnt_lt; auto.
Qed.

Lemma key_index t : (t < pT p)%nat -> nz fws t = true -> (Z.to_nat (nth t fws 0%Z - 1) < p_nk p - 1)%nat.
Proof using Hfws.
  clear HG HF Hsl.
  destruct Hfws as (F1 & F2 & F3). intros Ht Hn. rewrite Forall_forall in F3.
  assert (I : In (nth t fws 0) fws) by (apply nth_In; lia). specialize (F3 _ I). unfold nz in Hn. lia.
Qed.

Lemma sig_chunk_ok u : (u < pW p)%nat ->
  rd sig (off_monom p u) (mono_bytes p) = Ok (sig_chunk sig u) /\ bytes (sig_chunk sig u) /\ length (sig_chunk sig u) = mono_bytes p.
Proof.
  intros Hu. assert (off_monom p u + mono_bytes p <= length sig)%nat by (unfold off_monom, off_seeds in *; nia).
  split. { apply rd_ok. auto. } unfold sig_chunk. split. { apply Forall_firstn, Forall_skipn. auto. }
  rewrite firstn_length, skipn_length. lia.
Qed.

Lemma verify_loop_spec n i h V G act disc : (i + n = pT p)%nat -> shape K w V -> shape K N G ->
  act_mem p act -> act_mem p disc ->
  gp F (verify_loop X p fuel n i pk sig (sig_salt sig) tree c fws h V G act disc (cnt (nz fws) i)) (fun r =>
    match r with
    | Some h' => exists Vs, length Vs = n /\ h' = fold_left absorbV Vs h /\
        forall j, (j < n)%nat -> vround fuel pk sig tree fullG fws (i + j) (nth j Vs [])
    | None => exists t a, (i <= t < i + n)%nat /\ nz fws t = true /\ decodes p (sig_chunk sig (cnt (nz fws) t)) a /\ ~ act_ok p a
    end).
Proof.
  revert i h V G act disc. induction n as [|n IH]; intros i h V G act disc Hn HV HGs HA HD; cbn [verify_loop].
  - cbn. exists []. split; auto. split; auto. intros; lia.
  - pose proof Hfws as (F1 & F2 & F3). rewrite (get_ok _ i 0) by lia. cbn [bind].
    assert (Hcnt : cnt (nz fws) (S i) = (cnt (nz fws) i + (if nz fws i then 1 else 0))%nat) by apply cnt_S.
    destruct (nth i fws 0 =? 0) eqn:E0.
    + assert (En : nz fws i = false) by (unfold nz; rewrite E0; auto).
      rewrite HG by auto. cbn [bind].
      assert (HL : (L - 1 + i < nn)%nat). { pose proof (T_lt_L p wf). pose proof (nn_L p). lia. }
      rewrite (get_ok _ (L - 1 + i)%nat []) by (rewrite (shape_len _ _ _ Htree); auto). cbn [bind].
      unfold monomial_mat_seed_expand_salt_rnd.
      assert (MZ : mono_mem p {| m_coef := repeat 0 N; m_perm := repeat 0 N |}) by (split; apply repeat_length).
      eapply gp_bind. { eapply wp_gp; [apply expand_sampled; auto|]. intros HNF. eapply HF; eauto. lia. }
      intros Q HQ. eapply gp_bind. { apply gp_okp. apply prep_round; auto. apply HQ. }
      intros [V' disc'] HP. rewrite En, Nat.add_0_r in Hcnt. rewrite <- Hcnt. eapply gp_mono.
      { apply IH; auto; try lia. destruct HP as (_ & M & R & pv & fl & _ & _ & _ & _ & _ & D & _). apply D.
        apply HGok. destruct HP as (P & _). apply P. }
      intros [h'|].
      * intros (Vs & L1 & L2 & L3). exists (V' :: Vs). split; [cbn; lia|]. split; auto.
        intros j Hj. destruct j as [|j].
        -- rewrite Nat.add_0_r. cbn [nth]. unfold vround. rewrite En. eauto.
        -- cbn [nth]. replace (i + S j)%nat with (S i + j)%nat by lia. apply L3. lia.
      * intros (t & a & H1 & H2). exists t, a. split; [lia|auto].
    + assert (En : nz fws i = true) by (unfold nz; rewrite E0; auto).
      pose proof (key_index i ltac:(lia) En) as KI. pose proof (used_lt i ltac:(lia) En) as UL.
      destruct Hpk as (PK1 & PK2). destruct (PK2 _ KI) as (Gx & GD & GO).
      rewrite rd_ok. 2:{ rewrite PK1. unfold sizeof_pk, off_sf. nia. }
      fold (pk_chunk pk (Z.to_nat (nth i fws 0 - 1))). cbn [bind].
      rewrite (proj2 GD) by auto. cbn [bind].
      destruct (Nat.ltb_spec (cnt (nz fws) i) (pW p)); [|lia].
      destruct (sig_chunk_ok _ UL) as (-> & SB & SL). cbn [bind].
      destruct (decode_any p wf _ SB SL) as (a & HDa).
      rewrite (proj2 HDa) by auto. cbn [bind].
      destruct (is_monom_action_valid_spec p a (proj1 HDa)) as (r & -> & R1 & R2). cbn [bind].
      destruct (Z.eqb_spec r 0) as [->|Nr].
      * cbn. exists i, a. split; [lia|]. split; auto. split; auto. intros C. apply R1 in C. discriminate.
      * assert (AO : act_ok p a) by (apply R1; lia).
        rewrite En, Nat.add_1_r in Hcnt. rewrite <- Hcnt.
        destruct (chal_round p wf V Gx a HV GO AO) as (V' & EV & SV & CV).
        destruct (apply_action_to_G p (repeat (repeat 0 N) K) Gx a) as [Gh| |]; try discriminate. cbn [bind] in EV |- *.
        destruct (generator_RREF p Gh (repeat 0 N)) as [[[ret Gr] piv]| |]; try discriminate. cbn [bind] in EV |- *.
        destruct (verify_normalize p V Gr piv) as [V1| |]; try discriminate. cbn [bind] in EV |- *.
        rewrite EV. cbn [bind]. eapply gp_mono.
        { apply IH; auto; try lia. apply GO. apply HDa. }
        intros [h'|].
        -- intros (Vs & L1 & L2 & L3). exists (V' :: Vs). split; [cbn; lia|]. split; auto.
           intros j Hj. destruct j as [|j].
           ++ rewrite Nat.add_0_r. cbn [nth]. unfold vround. rewrite En. exists Gx, a. auto.
           ++ cbn [nth]. replace (i + S j)%nat with (S i + j)%nat by lia. apply L3. lia.
        -- intros (t & b & H1 & H2). exists t, b. split; [lia|auto].
Qed.

End Loop.

Lemma to_publish_ok fws : challenge_ok p fws ->
  length (to_publish fws) = pT p /\ Forall (fun x => x = 0 \/ x = 1) (to_publish fws) /\ weight (to_publish fws) = pW p.
Proof.
  intros (F1 & F2 & F3). unfold to_publish. split. { rewrite map_length. auto. } split.
  - apply Forall_forall. intros x Hx. apply in_map_iff in Hx. destruct Hx as (y & <- & _). destruct (negb (y =? 0)); cbn; auto.
  - rewrite <- F2. clear. unfold weight. induction fws as [|x l IH]; auto. cbn. destruct (x =? 0); cbn; auto.
Qed.

Lemma to_publish_nth fws t : (t < length fws)%nat -> nth t (to_publish fws) 0 = b2z (nz fws t).
Proof.
  intros H. unfold to_publish, nz. apply (map_nth (fun x => b2z (negb (x =? 0))) fws 0 t).
Qed.

(** What the verifier accepts. [tree] is the tree rebuilt from the published seeds. *)
Record accepted (fuel : nat) (pk m sig : list Z) : Prop := {
  acc_ex : exists fws t0 tree c fullG Vs,
    challenge_ok p fws /\
    expand_digest_to_fixed_weight X p fuel (repeat 0 (pT p)) (sig_digest sig) = Ok fws /\
    rebuild_seed_tree_leaves X p (repeat (repeat 0 slen) nn) (to_publish fws) (skipn (off_seeds p) sig) (sig_salt sig) = Ok (t0, tree) /\
    sampledG X p fuel (pk_seed pk) c fullG /\
    length Vs = pT p /\
    (forall t, (t < pT p)%nat -> vround fuel pk sig tree fullG fws t (nth t Vs [])) /\
    h_final X (h_absorb X (h_absorb X (fold_left absorbV Vs (h_init X)) m) (sig_salt sig)) = sig_digest sig }.

Record rejected (fuel : nat) (pk m sig : list Z) : Prop := {
  rej_ex : exists fws t0 tree c fullG,
    challenge_ok p fws /\
    expand_digest_to_fixed_weight X p fuel (repeat 0 (pT p)) (sig_digest sig) = Ok fws /\
    rebuild_seed_tree_leaves X p (repeat (repeat 0 slen) nn) (to_publish fws) (skipn (off_seeds p) sig) (sig_salt sig) = Ok (t0, tree) /\
    sampledG X p fuel (pk_seed pk) c fullG /\
    ((exists t a, (t < pT p)%nat /\ nz fws t = true /\ decodes p (sig_chunk sig (cnt (nz fws) t)) a /\ ~ act_ok p a) \/
     (exists Vs, length Vs = pT p /\ (forall t, (t < pT p)%nat -> vround fuel pk sig tree fullG fws t (nth t Vs [])) /\
        h_final X (h_absorb X (h_absorb X (fold_left absorbV Vs (h_init X)) m) (sig_salt sig)) <> sig_digest sig)) }.

(** Enough published seeds are present in the object holding the signature. *)
Definition seeds_fit (fuel : nat) (sig : list Z) : Prop :=
  (sizeof_sign p - 1 <= length sig)%nat \/
  forall fws fl, expand_digest_to_fixed_weight X p fuel (repeat 0 (pT p)) (sig_digest sig) = Ok fws ->
    flags_spec p (to_publish fws) fl -> (off_seeds p + npub p fl * slen <= length sig)%nat.

Lemma LESS_verify_gp (F : Prop) fuel junk pk m sig : pk_wf pk -> bytes sig -> (off_seeds p <= length sig)%nat ->
  seeds_fit fuel sig ->
  (expand_digest_to_fixed_weight X p fuel (repeat 0 (pT p)) (sig_digest sig) = NoFuel -> F) ->
  (forall r, rref_mem p r -> generator_SF_seed_expand X p fuel r (pk_seed pk) = NoFuel -> F) ->
  (forall fws t0 tree t r,
     expand_digest_to_fixed_weight X p fuel (repeat 0 (pT p)) (sig_digest sig) = Ok fws ->
     rebuild_seed_tree_leaves X p (repeat (repeat 0 slen) nn) (to_publish fws) (skipn (off_seeds p) sig) (sig_salt sig) = Ok (t0, tree) ->
     (t < pT p)%nat -> nz fws t = false -> mono_mem p r ->
     monomial_expand X p fuel r (nth (L - 1 + t) tree [] ++ sig_salt sig ++ round_bytes t) = NoFuel -> F) ->
  gp F (LESS_verify X p fuel junk pk m sig) (fun r => (r = 1 /\ accepted fuel pk m sig) \/ (r = 0 /\ rejected fuel pk m sig)).
Proof.
  intros Hpk Hsb Hsl Hfit HF1 HF2 HF3. unfold LESS_verify.
  assert (HH : (off_digest p + hash_len p <= length sig)%nat) by (unfold off_digest, off_seeds in *; lia).
  rewrite rd_ok by auto. cbn [bind]. fold (sig_digest sig).
  assert (WD := expand_digest_spec X p wf fuel (sig_digest sig)).
  destruct (expand_digest_to_fixed_weight X p fuel (repeat 0 (pT p)) (sig_digest sig)) as [fws| |] eqn:ED; cbn in WD; cbn [bind gp].
  2:{ destruct WD. } 2:{ auto. }
  assert (HH2 : (0 + hash_len p <= length sig)%nat) by (unfold off_digest in *; lia).
  rewrite rd_ok by auto. cbn [bind skipn]. fold (sig_salt sig).
  destruct (to_publish_ok fws WD) as (TP1 & TP2 & TP3).
  assert (TZ : tree_mem p (repeat (repeat 0 slen) nn)) by apply zero_mat_shape.
  destruct (rebuild_spec X p wf (to_publish fws) TP1 TP2 (repeat (repeat 0 slen) nn) (skipn (off_seeds p) sig) (sig_salt sig) LX TZ TP3)
    as (fl & FS & _ & RB).
  { destruct Hfit as [Hfit|Hfit].
    - left. rewrite skipn_length. unfold sizeof_sign, seed_storage_len in Hfit. lia.
    - right. intros fl FS. rewrite skipn_length. specialize (Hfit fws fl ED FS). lia. }
  destruct RB as ([t0 tree] & ER & _ & TM & _). rewrite ER. cbn [bind].
  pose proof Hpk as (PK1 & PK2).
  rewrite rd_ok by (rewrite PK1; apply Nat.le_add_r). cbn [bind skipn]. fold (pk_seed pk).
  eapply gp_bind. { apply wp_gp; [apply generator_sampled; auto; apply junk_rref_mem|]. intros E. eapply HF2; [|exact E]. apply junk_rref_mem. }
  intros c (RM & fullG & SG). pose proof SG as (SG1 & SG2 & SG3).
  change 0%nat with (cnt (nz fws) 0) at 2.
  eapply gp_bind.
  { apply (verify_loop_spec fuel F pk sig tree c fullG fws SG2 SG3 WD Hpk Hsb Hsl TM).
    - intros t r Ht Hn Hr E. eapply HF3; eauto.
    - lia.
    - apply junk_mat_shape.
    - apply junk_mat_shape.
    - apply junk_action_mem.
    - apply junk_action_mem. }
  intros [h|].
  - intros (Vs & V1 & -> & V3).
    set (rec := h_final X (h_absorb X (h_absorb X (fold_left absorbV Vs (h_init X)) m) (sig_salt sig))).
    assert (Lr : length rec = hash_len p) by apply (law_h_len _ _ LX).
    assert (Ld : length (sig_digest sig) = hash_len p). { unfold sig_digest. rewrite firstn_length, skipn_length. lia. }
    eapply gp_bind. { apply gp_okp. apply timing_safe_memcmp_spec; lia. }
    intros d (D1 & D2). rewrite <- Lr in D2 at 1. rewrite <- Ld in D2. rewrite !firstn_all in D2.
    cbn [gp]. destruct D1 as [-> | ->].
    + left. split; auto. constructor. exists fws, t0, tree, c, fullG, Vs.
      split; auto. split; auto. split; auto. split; auto. split; auto. split; auto. apply D2. auto.
    + right. split; auto. constructor. exists fws, t0, tree, c, fullG.
      split; auto. split; auto. split; auto. split; auto. right. exists Vs. split; auto. split; auto.
      intros C. apply D2 in C. discriminate.
  - intros (t & a & H1 & H2). cbn [gp]. right. split; auto. constructor. exists fws, t0, tree, c, fullG.
    split; auto. split; auto. split; auto. split; auto. left. exists t, a. split; [lia|auto].
Qed.

(** The transcript is determined. *)
Lemma vround_det fuel fuel' pk sig tree fullG fws t V V' : vround fuel pk sig tree fullG fws t V ->
  vround fuel' pk sig tree fullG fws t V' -> V = V'.
Proof.
  unfold vround. destruct (nz fws t).
  - intros (G & a & H1 & H2 & H3 & H4) (G' & a' & H1' & H2' & H3' & H4').
    pose proof (decodesG_det p _ _ _ H1 H1') as <-. pose proof (decodes_det p _ _ _ H2 H2') as <-.
    destruct H4 as (M & R & pv & fl & A1 & A2 & A3 & A4 & A5 & A6).
    destruct H4' as (M' & R' & pv' & fl' & B1 & B2 & B3 & B4 & B5 & B6).
    eapply (digest_det p R R'); eauto. apply row_equiv_same_code.
    eapply row_equiv_trans; [apply row_equiv_sym; exact A2|]. eapply row_equiv_trans; [|exact B2].
    apply row_equiv_cong. intros i j Hi Hj. rewrite A1, B1 by auto. reflexivity.
  - intros (Q & a & H1 & H2) (Q' & a' & H1' & H2'). pose proof (sampled_det X p _ _ _ _ _ H1 H1') as <-.
    eapply prep_det; eauto. apply H1.
Qed.

End V.
