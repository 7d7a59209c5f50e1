(** When verification accesses memory out of bounds: the lengths and keys for which it does not. *)
From Coq Require Import Sorted Permutation.
From Verif Require Import Base BaseLemmas Params ParamsProofs Fq FqProofs Prim Samplers Monomial Codes SeedTree Utils Less Spec
  EnumProofs Sums LinAlg BitCodec CodecProofs RrefCodec LayoutProofs RrefProofs MonoProofs ActionProofs CanonProofs SamplerProofs SeedTreeProofs
  FuelProofs SampleSpec RoundProofs VerifyProofs SignerProofs AnyKeyProofs BadInputs PropCanon PropScheme ScriptRun DetProofs LessSpec SpecSampling SpecBridge SpecMain SpecVerify.

Section S.
Variable X : prim.
Variable p : params.
Hypothesis wf : wf_params p.
Hypothesis LX : lawful X (hash_len p).
Notation N := (pN p).
Notation K := (pK p).
Notation w := (pN p - pK p)%nat.
Notation L := (num_leaves p).
Notation nn := (num_nodes p).
Notation slen := (seed_len p).

(** *** The seeds the verifier reads *)
Lemma rebuild_count ind fl tree stored salt : length ind = pT p -> Forall (fun x => x = 0 \/ x = 1) ind -> flags_spec p ind fl ->
  pc (rebuild_seed_tree_leaves X p tree ind stored salt) (fun '(used, _) => used = npub p fl).
Proof.
  intros I1 I2 FS. unfold rebuild_seed_tree_leaves. destruct (compute_seeds_spec p wf ind I1) as (fl' & E & FS').
  rewrite E, (flags_spec_det p ind I1 fl' fl FS' FS). cbn [bind]. clear fl' E FS'.
  pose proof (fs_len p ind fl FS) as Lfl.
  eapply pc_mono.
  { apply (pc_for (fun n '(used, _) => used = cnt (pub fl) n)). { cbn. reflexivity. }
    intros i [used t] Hi ->. rewrite cnt_S. apply pc_any. intros f Ef. apply get_inv in Ef. destruct Ef as [_ Ef]. specialize (Ef 0).
    rewrite (fl_b p ind I1 I2 fl FS) in Ef by lia. subst f.
    destruct (F fl i) eqn:Fi; cbn [b2z].
    - change (1 =? 0) with false. cbn iota. apply pc_ok.
      assert (Ep : pub fl i = false). { destruct i; auto. cbn. rewrite Fi. auto. }
      rewrite Ep, Nat.add_0_r. auto.
    - change (0 =? 0) with true. cbn iota. apply pc_any. intros pf Ef.
      destruct i as [|j]; [discriminate|]. rewrite (get_parent_ok p ind I1 I2 fl FS) in Ef by lia. injection Ef as <-.
      assert (Ep : pub fl (S j) = F fl (j / 2)) by (cbn; rewrite Fi; auto). rewrite Ep.
      eapply pc_bind with (Q := fun '(used', _) => used' = (cnt (pub fl) (S j) + (if F fl (j / 2) then 1 else 0))%nat).
      + destruct (F fl (j / 2)); cbn [b2z].
        * change (1 =? 1) with true. cbn iota. apply pc_any. intros sd _. apply pc_any. intros t' _. apply pc_ok. lia.
        * change (0 =? 1) with false. cbn iota. apply pc_ok. lia.
      + intros [u' t'] Hu. destruct (S j <? L - 1)%nat; [|apply pc_ok; auto]. apply pc_any. intros t'' _. apply pc_ok. auto. }
  intros [used t] ->. reflexivity.
Qed.

Lemma nf_rebuild tree ind stored salt : nf (rebuild_seed_tree_leaves X p tree ind stored salt).
Proof.
  assert (NR : forall o n (l : list Z), nf (rd l o n)) by (intros o n l; unfold rd, nf; destruct (_ <=? _)%nat; discriminate).
  assert (NW : forall o (d l : list Z), nf (wr l o d)) by (intros o d l; unfold wr, nf; destruct (_ <=? _)%nat; discriminate).
  assert (NX : forall t s i, nf (expand_children X p t s i)).
  { intros t s i. unfold expand_children. apply nf_bind; auto with nf. intros sd _.
    repeat (match goal with |- context [let (_, _) := ?e in _] => destruct e end).
    repeat (apply nf_bind; [auto with nf|intros]); auto with nf. }
  unfold rebuild_seed_tree_leaves, compute_seeds_to_publish. apply nf_bind.
  { apply nf_bind; auto. intros d _. apply nf_bind; auto. intros f0 _. apply nf_for. intros i s.
    repeat (apply nf_bind; [auto with nf|intros]); auto with nf. }
  intros fl _. apply nf_for. intros i [used t]. apply nf_bind; auto with nf. intros f _. destruct (f =? 0); auto with nf.
  apply nf_bind. { unfold get_parent. destruct i; [discriminate|auto with nf]. }
  intros pf _. apply nf_bind. { destruct (pf =? 1); auto with nf. repeat (apply nf_bind; [auto with nf|intros]); auto with nf. }
  intros [u' t'] _. destruct (_ <? _)%nat; auto with nf. apply nf_bind; auto with nf.
Qed.

(** A verdict is only reached when all seeds were there. *)
Lemma verify_ok_long fuel junk pk m sig r : LESS_verify X p fuel junk pk m sig = Ok r -> long_enough X p sig.
Proof.
  intros E. unfold LESS_verify in E.
  apply bind_ok in E. destruct E as (dg & Ed & E). apply bind_ok in E. destruct E as (fws & Ef & E).
  apply bind_ok in E. destruct E as (salt & _ & E). apply bind_ok in E. destruct E as ([used tree] & Er & _).
  unfold rd in Ed. destruct (Nat.leb_spec (off_digest p + hash_len p) (length sig)) as [HL|]; [|discriminate]. injection Ed as <-.
  assert (OD : (off_digest p + hash_len p = off_seeds p)%nat) by (unfold off_seeds, off_digest; lia).
  split; [lia|]. intros chal nodes CO PB.
  pose proof (challenge_of_det X p _ _ _ (expand_challenge_of X p wf fuel _ _ Ef) CO) as ->.
  pose proof (challenge_of_ok X p wf _ _ CO) as HC. destruct (to_publish_ok p chal HC) as (T1 & T2 & T3).
  destruct (compute_seeds_spec p wf _ T1) as (fl & _ & FS).
  pose proof (published_det p _ _ _ PB (published_enum p wf chal fl HC FS)) as ->.
  pose proof (rebuild_count _ fl _ _ _ T1 T2 FS _ Er) as U. cbv beta iota in U. subst used.
  pose proof (rebuild_used _ _ _ _ _ _ _ Er) as U. cbv beta iota in U. rewrite skipn_length in U.
  change (length (enum (pub fl) nn)) with (npub p fl). lia.
Qed.

(** Otherwise memory after the object is read, as soon as the challenge is known. *)
Lemma verify_cut fuel junk pk m sig : (length sig < off_seeds p)%nat -> LESS_verify X p fuel junk pk m sig = UB.
Proof.
  intros H. unfold LESS_verify, rd. destruct (Nat.leb_spec (off_digest p + hash_len p) (length sig)); [|reflexivity].
  unfold off_seeds, off_digest in *. lia.
Qed.

Lemma verify_short pk m sig chal nodes : challenge_of X p (bytes_at sig (off_digest p) (hash_len p)) chal -> published p chal nodes ->
  (length sig < off_seeds p + length nodes * slen)%nat ->
  exists f, forall fuel junk, (f <= fuel)%nat -> LESS_verify X p fuel junk pk m sig = UB.
Proof.
  intros CO PB HS. destruct (le_lt_dec (off_seeds p) (length sig)) as [H|H].
  2:{ exists 0%nat. intros fuel junk _. apply verify_cut. auto. }
  assert (OD : (off_digest p + hash_len p = off_seeds p)%nat) by (unfold off_seeds, off_digest; lia).
  destruct (challenge_of_expand X p wf _ _ CO) as (f & Hf). exists f. intros fuel junk Hfu.
  destruct (LESS_verify X p fuel junk pk m sig) as [r| |] eqn:E; auto; exfalso.
  - apply verify_ok_long in E. pose proof (proj2 E chal nodes CO PB). lia.
  - unfold LESS_verify in E. rewrite rd_ok in E by lia. cbn [bind] in E.
    change (firstn (hash_len p) (skipn (off_digest p) sig)) with (bytes_at sig (off_digest p) (hash_len p)) in E.
    rewrite Hf in E by auto. cbn [bind] in E. rewrite rd_ok in E by (unfold off_seeds in *; lia). cbn [bind] in E.
    match type of E with (bind ?m _) = _ => destruct m as [[used tree]| |] eqn:Er end; [|discriminate|].
    2:{ exact (nf_rebuild _ _ _ _ Er). }
    pose proof (challenge_of_ok X p wf _ _ CO) as HC. destruct (to_publish_ok p chal HC) as (T1 & T2 & T3).
    destruct (compute_seeds_spec p wf _ T1) as (fl & _ & FS).
    pose proof (published_det p _ _ _ PB (published_enum p wf chal fl HC FS)) as ->.
    pose proof (rebuild_count _ fl _ _ _ T1 T2 FS _ Er) as U. cbv beta iota in U. subst used.
    pose proof (rebuild_used _ _ _ _ _ _ _ Er) as U. cbv beta iota in U. rewrite skipn_length in U.
    change (length (enum (pub fl) nn)) with (npub p fl) in HS. lia.
Qed.

Lemma safe_long pk m sig : (forall fuel junk, LESS_verify X p fuel junk pk m sig <> UB) -> long_enough X p sig.
Proof.
  intros H. split.
  - destruct (le_lt_dec (off_seeds p) (length sig)) as [HL|HL]; auto. exfalso. apply (H 0%nat (fun _ _ => 0)). apply verify_cut. auto.
  - intros chal nodes CO PB. destruct (le_lt_dec (off_seeds p + length nodes * slen) (length sig)) as [HL|HL]; auto.
    destruct (verify_short pk m sig chal nodes CO PB HL) as (f & Hf). exfalso. apply (H f (fun _ _ => 0)). apply Hf. auto.
Qed.

(** *** Unpacking arbitrary bytes *)

Lemma flagged_cnt buf : (cnt (is_np (flags_in p buf)) N + flagged p buf = N)%nat.
Proof.
  rewrite <- (cnt_compl (is_np (flags_in p buf)) N) at 2. f_equal. unfold flagged, cnt, enum. f_equal. apply filter_ext_in.
  intros c Hc. apply in_seq in Hc. unfold is_np. rewrite flags_in_nth by lia. unfold flagbit.
  pose proof (Z.mod_pos_bound (le_val buf / 2 ^ Z.of_nat c) 2 ltac:(lia)).
  destruct (Z.eqb_spec ((le_val buf / 2 ^ Z.of_nat c) mod 2) 0), (Z.eqb_spec ((le_val buf / 2 ^ Z.of_nat c) mod 2) 1); cbn; lia.
Qed.

Definition usable_component (buf : list Z) : Prop :=
  (K <= flagged p buf)%nat /\ forall u, (u < K * (N - flagged p buf))%nat -> entry_field p buf u < 127.

Lemma usable_decodes buf : bytes buf -> length buf = rref_bytes p -> usable_component buf ->
  exists G, decodesG p buf G /\ G_ok p G.
Proof.
  intros HB HL (U1 & U2). pose proof (flagged_cnt buf) as FC. pose proof (wf_K p wf) as HK.
  assert (HC : (cnt (is_np (flags_in p buf)) N <= w)%nat) by lia.
  destruct (expand_to_rref_spec p wf (repeat (repeat 0 N) K) buf HB HL (zero_mat_shape K N) HC) as (M & EM & SM & VM).
  exists M. split.
  - split; auto. intros old Ho. destruct (expand_to_rref_spec p wf old buf HB HL Ho HC) as (M' & EM' & SM' & VM').
    rewrite EM'. f_equal. apply (mat_ext _ _ K N); auto. intros i c Hi Hc. rewrite VM, VM' by auto. auto.
  - split; auto. split.
    + intros i c Hi Hc. rewrite VM by auto. destruct (is_np (flags_in p buf) c) eqn:En.
      * pose proof (cnt_lt _ c N Hc En) as CL. change (valfield p buf) with (entry_field p buf).
        assert (U : (i * cnt (is_np (flags_in p buf)) N + cnt (is_np (flags_in p buf)) c < K * (N - flagged p buf))%nat).
        { replace (N - flagged p buf)%nat with (cnt (is_np (flags_in p buf)) N) by lia. nia. }
        specialize (U2 _ U). unfold fq. split; auto. unfold entry_field. apply Z.mod_pos_bound. lia.
      * destruct (Nat.eqb _ _); unfold fq; cbn; lia.
    + intros a Ha i Hi.
      pose proof (cnt_compl (is_pv (flags_in p buf)) N) as CP.
      rewrite (cnt_ext (fun c => negb (is_pv (flags_in p buf) c)) (is_np (flags_in p buf))) in CP by (intros; symmetry; apply is_np_pv).
      destruct (cnt_nth_enum (is_pv (flags_in p buf)) N i 0%nat) as (P1 & P2 & P3); [lia|].
      set (c := nth i (enum (is_pv (flags_in p buf)) N) 0%nat) in *.
      assert (Ev : forall l, (l < K)%nat -> ent M l c = b2z (Nat.eqb l i)).
      { intros l Hl. rewrite VM by auto. rewrite is_np_pv, P2. cbn [negb]. rewrite P3. auto. }
      specialize (Ha c P1). rewrite (sumn_single K i) in Ha; auto.
      * rewrite Ev, Nat.eqb_refl in Ha by auto. cbn [b2z] in Ha. rewrite Z.mul_1_r in Ha. auto.
      * intros l Hl Hn. rewrite Ev by auto. destruct (Nat.eqb_spec l i); [lia|]. cbn [b2z]. rewrite Z.mul_0_r. reflexivity.
Qed.

(** With fewer than K flags more fields are read than there are. *)
Lemma unpack_pivots buf : bytes buf -> length buf = rref_bytes p ->
  exists piv1, for_ (N / 8) 0 (fun cb piv => c <- get buf cb ;; unpack_flags 8 0 (8 * cb) c piv) (repeat 0 N) = Ok piv1 /\
  (if has_tail p
      then (c <- get buf (N / 8) ;; pv <- unpack_flags 4 0 (N - 4) c piv1 ;; Ok (pv, S (N / 8)))
      else Ok (piv1, N / 8)%nat) = Ok (flags_in p buf, idx0 p).
Proof.
  intros HB HL. pose proof (rref_bytes_bits p wf) as TB. pose proof (N_mod8 p wf) as NM. pose proof (wf_K p wf) as HK.
  assert (TB0 : (idx0 p <= rref_bytes p)%nat) by nia.
  assert (A : okp (for_ (N / 8) 0 (fun cb piv => c <- get buf cb ;; unpack_flags 8 0 (8 * cb) c piv) (repeat 0 N))
    (fun pv => length pv = N /\ forall c, (c < 8 * (N / 8))%nat -> nth c pv 0 = flagbit buf c)).
  { eapply okp_mono. apply okp_for with (I := fun n pv => length pv = N /\ forall c, (c < 8 * n)%nat -> nth c pv 0 = flagbit buf c).
    - split. { apply repeat_length. } intros; lia.
    - intros cb pv Hcb (L' & H). rewrite (get_ok _ cb 0) by (destruct (has_tail p); lia). cbn [bind].
      eapply okp_mono. { apply (unpack_flags_spec 8 0 (8 * cb) buf cb); auto; destruct (has_tail p); lia. }
      intros pv' (L'' & G1 & G2). split; [lia|]. intros c Hc.
      destruct (Nat.lt_ge_cases c (8 * cb)).
      + rewrite G2 by lia. auto.
      + apply G1. lia.
    - intros pv H. cbn [Nat.add] in H. exact H. }
  destruct A as (piv1 & E1 & L1 & F1). exists piv1. split; auto.
  destruct (has_tail p).
  - destruct NM as [NM1 NM2]. rewrite (get_ok _ (N / 8) 0) by lia. cbn [bind].
    destruct (unpack_flags_spec 4 0 (N - 4) buf (N / 8) piv1) as (pv & E & L' & G1 & G2); auto; try lia.
    rewrite E. cbn [bind]. rewrite NM2. do 2 f_equal. apply (list_ext 0).
    + rewrite flags_in_length. lia.
    + intros c Hc. rewrite flags_in_nth by lia. destruct (Nat.lt_ge_cases c (N - 4)).
      * rewrite G2 by lia. apply F1. lia.
      * apply G1. lia.
  - destruct NM as [NM1 NM2]. rewrite NM2. do 2 f_equal. apply (list_ext 0).
    + rewrite flags_in_length. lia.
    + intros c Hc. rewrite flags_in_nth by lia. apply F1. lia.
Qed.

Lemma expand_few full buf : (2 <= K)%nat -> bytes buf -> length buf = rref_bytes p -> (flagged p buf < K)%nat -> expand_to_rref p full buf = UB.
Proof.
  intros K2 HB HL HF. apply nf_ub. { apply nf_expand. } intros G E. unfold expand_to_rref in E.
  destruct (unpack_pivots buf HB HL) as (piv1 & E1 & E2). rewrite E1 in E. cbn [bind] in E. rewrite E2 in E. cbn [bind] in E.
  pose proof (flagged_cnt buf) as FC. set (fl := flags_in p buf) in *. set (w' := cnt (is_np fl) N) in *. set (idx := idx0 p) in *.
  apply bind_ok in E. destruct E as ([[fl1 ix] st] & E & _).
  assert (Q : (st < 8)%nat /\ bitpos ix st = (8 * idx + 7 * (K * w'))%nat /\ ((0 < K * w')%nat -> (bitpos ix st <= 8 * length buf + 6)%nat)).
  { refine (pc_for (fun r '(_, ix, st) => (st < 8)%nat /\ bitpos ix st = (8 * idx + 7 * (r * w'))%nat /\
       ((0 < r * w')%nat -> (bitpos ix st <= 8 * length buf + 6)%nat)) _ _ _ _ _ _ _ E).
    - split; [lia|]. split; [unfold bitpos; cbn; lia|]. cbn. lia.
    - intros r [[fl2 ix1] st1] Hr (H1 & H2 & H3). eapply pc_bind.
      + apply (pc_for (fun c '(_, ix, st, _) => (st < 8)%nat /\ bitpos ix st = (8 * idx + 7 * (r * w' + cnt (is_np fl) c))%nat /\
          ((0 < r * w' + cnt (is_np fl) c)%nat -> (bitpos ix st <= 8 * length buf + 6)%nat))).
        * rewrite cnt_0, Nat.add_0_r. auto.
        * intros c [[[fl3 ix2] st2] pidx] Hc (J1 & J2 & J3). rewrite cnt_S. apply pc_any. intros f Ef. apply get_inv in Ef.
          destruct Ef as [_ Ef]. specialize (Ef 0). change (f =? 0) with (f =? 0). unfold is_np at 2 4. rewrite Ef. destruct (f =? 0).
          -- apply pc_any. intros [v ix3] Ed. destruct (dec7_pos p K2 st2 buf ix2 J1 _ Ed) as [D1 D2].
             apply pc_any. intros fl4 _. apply pc_ok.
             assert (st3 : (next_state 7 st2 < 8)%nat) by (unfold next_state; destruct (Nat.eqb_spec st2 7); lia).
             split; auto. split. { lia. } intros _. rewrite D2. unfold bitpos. destruct (Nat.eqb_spec st2 0); lia.
          -- apply pc_any. intros fl4 _. apply pc_ok. rewrite Nat.add_0_r. auto.
      + intros [[[fl3 ix2] st2] pidx] (J1 & J2 & J3). apply pc_ok. cbn [Nat.add] in *. fold w' in J2, J3. split; auto.
        replace (S r * w')%nat with (r * w' + w')%nat by lia. auto. }
  destruct Q as (Q1 & Q2 & Q3). pose proof (wf_K p wf) as HK. assert (W' : (w + 1 <= w')%nat) by lia.
  assert (W2 : (K * (w + 1) <= K * w')%nat) by (apply Nat.mul_le_mono_l; auto).
  specialize (Q3 ltac:(nia)). rewrite Q2, HL in Q3. unfold rref_bytes in Q3.
  change (bits_to_represent 127) with 7 in Q3. unfold idx, idx0 in Q3.
  replace (7 * (Z.of_nat N - Z.of_nat K) * Z.of_nat K) with (7 * Z.of_nat (K * w)) in Q3 by nia.
  assert (W3 : (K * w + 2 <= K * w')%nat) by nia.
  generalize dependent (K * w)%nat. generalize dependent (K * w')%nat. intros a b. intros. lia.
Qed.

(** *** Keys *)
Lemma pk_chunk_ok pk x : bytes pk -> length pk = sizeof_pk p -> (x < p_nk p - 1)%nat ->
  bytes (bytes_at pk (off_sf p x) (rref_bytes p)) /\ length (bytes_at pk (off_sf p x) (rref_bytes p)) = rref_bytes p /\
  rd pk (off_sf p x) (rref_bytes p) = Ok (bytes_at pk (off_sf p x) (rref_bytes p)).
Proof.
  intros HB HL Hx. assert (FIT : (off_sf p x + rref_bytes p <= length pk)%nat).
  { rewrite HL. unfold sizeof_pk, off_sf. assert (x + 1 <= p_nk p - 1)%nat by lia. nia. }
  split. { apply Forall_firstn, Forall_skipn. auto. } split. { unfold bytes_at. rewrite firstn_length, skipn_length. lia. }
  apply rd_ok. auto.
Qed.

Lemma usable_pk_wf pk : bytes pk -> usable_key p pk -> pk_wf p pk.
Proof.
  intros HB (HL & HU). split; auto. intros x Hx. destruct (pk_chunk_ok pk x HB HL Hx) as (C1 & C2 & _).
  apply usable_decodes; auto. apply (HU x Hx).
Qed.

(** Generated keys are usable. *)
Lemma packed_usable buf G pv : (2 <= K)%nat -> reduced K N G -> is_rref K N G pv -> packed_matrix p buf G pv -> usable_component buf.
Proof.
  intros K2 RD RR PM. pose proof (packed_matrix_decodes p wf _ _ pv RD RR PM) as (_ & D). destruct PM as (HL & HB & _).
  specialize (D _ (zero_mat_shape K N)). pose proof (flagged_cnt buf) as FC.
  destruct (le_lt_dec K (flagged p buf)) as [FK|FK].
  2:{ rewrite (expand_few _ _ K2 HB HL FK) in D. discriminate. }
  split; auto. intros u Hu.
  destruct (expand_to_rref_spec p wf (repeat (repeat 0 N) K) buf HB HL (zero_mat_shape K N)) as (M & EM & SM & VM); [lia|].
  rewrite D in EM. injection EM as <-. set (fl := flags_in p buf) in *. set (w' := cnt (is_np fl) N) in *.
  replace (N - flagged p buf)%nat with w' in Hu by lia. assert (W0 : w' <> 0%nat) by (intros C; rewrite C in Hu; lia).
  assert (HI : (u / w' < K)%nat) by (apply Nat.div_lt_upper_bound; lia).
  pose proof (Nat.mod_upper_bound u w' W0) as HJ.
  destruct (cnt_nth_enum (is_np fl) N (u mod w') 0%nat HJ) as (P1 & P2 & P3). set (c := nth (u mod w') (enum (is_np fl) N) 0%nat) in *.
  specialize (VM (u / w')%nat c HI P1). rewrite P2, P3 in VM. rewrite (Nat.mul_comm (u / w')), <- Nat.div_mod in VM by auto.
  rewrite (tomat_ent p G) in VM by auto. change (valfield p buf u) with (entry_field p buf u) in VM. rewrite <- VM.
  specialize (RD (u / w')%nat c HI P1). unfold fq in RD. lia.
Qed.

Lemma key_form_usable pk : (2 <= K)%nat -> key_form p pk -> usable_key p pk.
Proof.
  intros K2 (HL & HF). split; auto. intros x Hx. destruct (HF x Hx) as (G & pv & RD & RR & PM).
  apply (packed_usable _ G pv); auto.
Qed.

Lemma usable_safe fuel junk pk m sig : bytes pk -> usable_key p pk -> bytes sig -> long_enough X p sig ->
  wp (LESS_verify X p fuel junk pk m sig) (fun r => r = 0 \/ r = 1).
Proof.
  intros HB HU Hs Hl. apply gp_wp. eapply gp_mono. apply LESS_verify_gp; auto.
  - apply usable_pk_wf; auto.
  - apply Hl.
  - apply (seeds_fit_full X p); auto.
  - intros r [[-> _]|[-> _]]; auto.
Qed.

(** Every component selected before the end is unpacked, so it has K flags. *)
Lemma verify_loop_flags fuel pk sig salt tree G0 fws : (2 <= K)%nat -> bytes pk -> length pk = sizeof_pk p -> challenge_ok p fws ->
  forall n i h V G act disc used, (length fws = i + n)%nat ->
  pc (verify_loop X p fuel n i pk sig salt tree G0 fws h V G act disc used) (fun r =>
    (r <> None -> forall t, (i <= t < i + n)%nat -> nz fws t = true ->
      (K <= flagged p (bytes_at pk (off_sf p (Z.to_nat (nth t fws 0%Z - 1))) (rref_bytes p)))%nat) /\
    ((exists t, (i <= t < i + n)%nat /\ nz fws t = true) -> exists t, (i <= t < i + n)%nat /\ nz fws t = true /\
      (K <= flagged p (bytes_at pk (off_sf p (Z.to_nat (nth t fws 0%Z - 1))) (rref_bytes p)))%nat)).
Proof.
  intros K2 HB HLk HC. induction n as [|n IH]; intros i h V G act disc used HL; cbn [verify_loop].
  { apply pc_ok. split; [intros; lia|]. intros (t & Ht & _). lia. }
  apply pc_any. intros x Ex. apply get_inv in Ex. destruct Ex as [Hi Ex]. specialize (Ex 0).
  destruct (Z.eqb_spec x 0) as [Zx|Zx].
  - apply pc_any. intros G1 _. apply pc_any. intros sd _. apply pc_any. intros Q _. apply pc_any. intros [V' d'] _.
    assert (NI : nz fws i = false) by (unfold nz; rewrite Ex, Zx; reflexivity).
    eapply pc_mono. { apply IH. lia. } intros r [H1 H2]. split.
    + intros Hr t Ht Nz. apply H1; auto. assert (t <> i) by congruence. lia.
    + intros (t & Ht & Nz). destruct H2 as (t' & Ht' & Nz' & F). { exists t. split; auto. assert (t <> i) by congruence. lia. }
      exists t'. split; [lia|]. auto.
  - assert (NI : nz fws i = true). { unfold nz. rewrite Ex. destruct (Z.eqb_spec x 0); [contradiction|auto]. }
    pose proof (key_index p fws HC i ltac:(destruct HC; lia) NI) as KI. rewrite Ex in KI.
    destruct (pk_chunk_ok pk _ HB HLk KI) as (C1 & C2 & C3). rewrite C3. cbn [bind].
    apply pc_any. intros G1 E1.
    assert (FI : (K <= flagged p (bytes_at pk (off_sf p (Z.to_nat (nth i fws 0%Z - 1))) (rref_bytes p)))%nat).
    { rewrite Ex. destruct (le_lt_dec K (flagged p (bytes_at pk (off_sf p (Z.to_nat (x - 1))) (rref_bytes p)))) as [|C]; auto.
      rewrite (expand_few G _ K2 C1 C2 C) in E1. discriminate. }
    destruct (used <? pW p)%nat; [|intros ? C; discriminate].
    apply pc_any. intros ab _. apply pc_any. intros a' _. apply pc_any. intros v _. destruct (v =? 0).
    { apply pc_ok. split; [congruence|]. intros _. exists i. split; [lia|]. auto. }
    apply pc_any. intros Gh _. apply pc_any. intros [[o Gr] piv] _. apply pc_any. intros V1 _. apply pc_any. intros V2 _.
    eapply pc_mono. { apply IH. lia. } intros r [H1 H2]. split.
    + intros Hr t Ht Nz. destruct (Nat.eq_dec t i) as [->|]; auto. apply H1; auto. lia.
    + intros _. exists i. split; [lia|]. auto.
Qed.

Lemma verify_flags fuel junk pk m sig r : (2 <= K)%nat -> bytes pk -> length pk = sizeof_pk p ->
  LESS_verify X p fuel junk pk m sig = Ok r ->
  exists chal, challenge_of X p (bytes_at sig (off_digest p) (hash_len p)) chal /\
    (r = 1 -> forall t, (t < pT p)%nat -> nth t chal 0 <> 0 ->
      (K <= flagged p (bytes_at pk (off_sf p (Z.to_nat (nth t chal 0%Z - 1))) (rref_bytes p)))%nat) /\
    exists t, (t < pT p)%nat /\ nth t chal 0 <> 0 /\
      (K <= flagged p (bytes_at pk (off_sf p (Z.to_nat (nth t chal 0%Z - 1))) (rref_bytes p)))%nat.
Proof.
  intros K2 HB HLk E. unfold LESS_verify in E.
  apply bind_ok in E. destruct E as (dg & Ed & E). apply bind_ok in E. destruct E as (fws & Ef & E).
  apply bind_ok in E. destruct E as (salt & _ & E). apply bind_ok in E. destruct E as ([used tree] & _ & E).
  apply bind_ok in E. destruct E as (g0 & _ & E). apply bind_ok in E. destruct E as (G0 & _ & E).
  apply bind_ok in E. destruct E as (h & Eh & E).
  unfold rd in Ed. destruct (Nat.leb_spec (off_digest p + hash_len p) (length sig)) as [HL|]; [|discriminate]. injection Ed as <-.
  pose proof (expand_challenge_of X p wf fuel _ _ Ef) as CO. pose proof (challenge_of_ok X p wf _ _ CO) as HC.
  exists fws. split; [exact CO|]. pose proof HC as (C1 & C2 & C3).
  destruct (verify_loop_flags fuel pk sig salt tree G0 fws K2 HB HLk HC (pT p) 0 (h_init X) (junk_mat junk 10 K w) (junk_mat junk 2 K N)
    (junk_action p junk 22) (junk_action p junk 24) 0 ltac:(lia) h Eh) as (V1 & V2).
  assert (NZE : forall t, nz fws t = true <-> nth t fws 0 <> 0).
  { intros t. unfold nz. destruct (Z.eqb_spec (nth t fws 0) 0); cbn; split; congruence. }
  split.
  - intros -> t Ht Nt. apply V1; [|lia|apply NZE; auto]. intros ->. discriminate.
  - pose proof (wf_W p wf). destruct (weight_pos fws) as (t & Ht & Nz). { lia. }
    destruct V2 as (t' & Ht' & Nz' & F'). { exists t. split; auto. lia. }
    exists t'. split; [lia|]. split; auto. apply NZE. auto.
Qed.
End S.
