(** Verification decides the predicate [valid] of LessSpec.v. *)
From Coq Require Import Sorted Permutation.
From Verif Require Import Base BaseLemmas Params ParamsProofs Fq FqProofs Prim Samplers Monomial Codes SeedTree Utils Less Spec
  EnumProofs LinAlg BitCodec CodecProofs RrefCodec LayoutProofs RrefProofs MonoProofs ActionProofs CanonProofs SamplerProofs SeedTreeProofs
  FuelProofs SampleSpec RoundProofs VerifyProofs SignerProofs AnyKeyProofs PropCanon PropScheme ScriptRun DetProofs LessSpec SpecSampling SpecBridge SpecMain.

(** A list cut into [n] chunks of [k] entries. *)
Definition chunks (k n : nat) (l : list Z) : list (list Z) := map (fun u => firstn k (skipn (u * k) l)) (seq 0 n).

Lemma nth_chunks k n l u : (u < n)%nat -> nth u (chunks k n l) [] = firstn k (skipn (u * k) l).
Proof. intros H. unfold chunks. rewrite (nth_map_seq (fun u => firstn k (skipn (u * k) l))) by auto. auto. Qed.

Lemma chunks_length k n l : length (chunks k n l) = n.
Proof. unfold chunks. rewrite map_length, seq_length. auto. Qed.

Lemma chunks_Forall k n l : (n * k <= length l)%nat -> Forall (fun s => length s = k) (chunks k n l).
Proof.
  intros H. apply Forall_forall. intros s Hs. unfold chunks in Hs. apply in_map_iff in Hs. destruct Hs as (u & <- & Hu).
  apply in_seq in Hu. rewrite firstn_length, skipn_length. nia.
Qed.

Lemma concat_chunks k n l : (n * k <= length l)%nat -> concat (chunks k n l) = firstn (n * k) l.
Proof.
  induction n as [|n IH]; intros H; [reflexivity|].
  unfold chunks in *. rewrite seq_S, map_app, concat_app, IH by lia. cbn [map concat Nat.add]. rewrite app_nil_r.
  replace (S n * k)%nat with (n * k + k)%nat by lia. symmetry.
  rewrite <- (firstn_skipn (n * k) l) at 1. rewrite firstn_app, firstn_length, firstn_firstn.
  replace (Nat.min (n * k + k) (n * k)) with (n * k)%nat by lia. f_equal.
  replace (n * k + k - Nat.min (n * k) (length l))%nat with k by lia. auto.
Qed.

Lemma concat_inj k (a b : list (list Z)) : length a = length b -> Forall (fun s => length s = k) a -> Forall (fun s => length s = k) b ->
  concat a = concat b -> a = b.
Proof.
  revert b. induction a as [|x a IH]; intros [|y b] HL HA HB E; try discriminate; auto.
  inversion HA; inversion HB; subst. cbn in E. apply app_split in E; [|congruence]. destruct E as [-> E]. f_equal. apply IH; auto.
Qed.

Section B.
Variable X : prim.
Variable p : params.
Hypothesis wf : wf_params p.
Hypothesis LX : lawful X (hash_len p).
Notation N := (pN p).
Notation K := (pK p).
Notation w := (pN p - pK p)%nat.
Notation L := (num_leaves p).
Notation nn := (num_nodes p).
Notation slen := (seed_len p).

(** Rebuilding the tree from any bytes: published nodes take their chunk, and every seed at or below a
    published node is expanded into its children. *)
Lemma rebuild_local ind tree0 stored salt : length ind = pT p -> Forall (fun x => x = 0 \/ x = 1) ind ->
  tree_mem p tree0 -> (0 < weight ind)%nat ->
  (forall fl, flags_spec p ind fl -> (npub p fl * slen <= length stored)%nat) ->
  exists fl, flags_spec p ind fl /\
  okp (rebuild_seed_tree_leaves X p tree0 ind stored salt) (fun '(used, t) => tree_mem p t /\
    (forall i, (i < nn)%nat -> pub fl i = true -> nth i t [] = firstn slen (skipn (cnt (pub fl) i * slen) stored)) /\
    forall i, (i < L - 1)%nat -> F fl i = false ->
      nth (2 * i + 1) t [] = firstn slen (kids X p salt (nth i t [])) /\ nth (2 * i + 2) t [] = skipn slen (kids X p salt (nth i t []))).
Proof.
  intros I1 I2 HT HW HL. destruct (compute_seeds_spec p wf ind I1) as (fl & E & FS). exists fl. split; auto.
  unfold rebuild_seed_tree_leaves. rewrite E. cbn [bind]. pose proof (nn_L p) as NL.
  pose proof (F_root p wf ind I1 I2 fl FS HW) as F0. pose proof (HL fl FS) as HL'. clear HL.
  pose proof (fs_len p ind fl FS) as Lfl.
  eapply okp_mono. apply okp_for with (I := fun n '(used, t) => used = cnt (pub fl) n /\ tree_mem p t /\
    (forall i, (i < n)%nat -> pub fl i = true -> nth i t [] = firstn slen (skipn (cnt (pub fl) i * slen) stored)) /\
    forall i, (i < n)%nat -> (i < L - 1)%nat -> F fl i = false ->
      nth (2 * i + 1) t [] = firstn slen (kids X p salt (nth i t [])) /\ nth (2 * i + 2) t [] = skipn slen (kids X p salt (nth i t []))).
  - rewrite cnt_0. split; auto. split; auto. split; intros; lia.
  - intros i [used t] Hi (-> & J1 & J2 & J3).
    rewrite (get_ok _ i 0) by lia. cbn [bind]. rewrite (fl_b p ind I1 I2 fl FS) by lia.
    rewrite cnt_S. destruct (F fl i) eqn:Fi; cbn [b2z].
    + change (1 =? 0) with false. cbn iota. apply okp_ok.
      assert (Ep : pub fl i = false). { destruct i; auto. cbn. rewrite Fi. auto. }
      rewrite Ep, Nat.add_0_r. split; auto. split; auto. split.
      * intros k Hk Pk. apply J2; auto. assert (k <> i) by congruence. lia.
      * intros k Hk Hk2 Fk. apply J3; auto. assert (k <> i) by congruence. lia.
    + change (0 =? 0) with true. cbn iota. destruct i as [|j]; [congruence|].
      rewrite (get_parent_ok p ind I1 I2 fl FS) by lia. cbn [bind].
      assert (Ep : pub fl (S j) = F fl (j / 2)) by (cbn; rewrite Fi; auto).
      rewrite Ep. pose proof (shape_len _ _ _ J1) as Lt0.
      eapply okp_bind with (Q := fun '(used', t') => used' = (cnt (pub fl) (S j) + (if F fl (j / 2) then 1 else 0))%nat /\
        tree_mem p t' /\
        (forall i, (i < S (S j))%nat -> pub fl i = true -> nth i t' [] = firstn slen (skipn (cnt (pub fl) i * slen) stored)) /\
        forall i, (i < S j)%nat -> (i < L - 1)%nat -> F fl i = false ->
          nth (2 * i + 1) t' [] = firstn slen (kids X p salt (nth i t' [])) /\ nth (2 * i + 2) t' [] = skipn slen (kids X p salt (nth i t' []))).
      { destruct (F fl (j / 2)) eqn:Fp; cbn [b2z].
        - change (1 =? 1) with true. cbn iota.
          assert (C : (cnt (pub fl) (S j) < npub p fl)%nat) by (apply cnt_lt; [lia|auto]).
          rewrite rd_ok by nia. cbn [bind].
          rewrite set_ok by lia. cbn [bind]. apply okp_ok.
          split; [lia|]. split.
          { apply shape_upd; auto. rewrite firstn_length, skipn_length. nia. }
          split.
          + intros i Hi2 Pi. rewrite nth_upd by lia. destruct (Nat.eqb_spec (S j) i) as [<-|Ne].
            * rewrite (Nat.mul_comm slen). auto.
            * apply J2; auto. lia.
          + intros i Hi2 Hi3 Fi2. pose proof (Nat.div_mod j 2 ltac:(lia)) as DM. pose proof (Nat.mod_upper_bound j 2 ltac:(lia)).
            assert (P1 : S j <> (2 * i + 1)%nat). { intros C1. assert (i = (j / 2)%nat) by lia. subst i. congruence. }
            assert (P2 : S j <> (2 * i + 2)%nat). { intros C1. assert (i = (j / 2)%nat) by lia. subst i. congruence. }
            rewrite !nth_upd by lia.
            destruct (Nat.eqb_spec (S j) (2 * i + 1)) as [C1|_]; [contradiction|].
            destruct (Nat.eqb_spec (S j) (2 * i + 2)) as [C1|_]; [contradiction|].
            destruct (Nat.eqb_spec (S j) i) as [C1|_]; [lia|]. apply J3; auto.
        - change (0 =? 1) with false. cbn iota. apply okp_ok. split; [lia|]. split; auto. split; auto.
          intros i Hi2 Pi. apply J2; auto. assert (i <> S j) by congruence. lia. }
      intros [used' t'] (-> & M1 & M2 & M3). pose proof (shape_len _ _ _ M1) as Lt'.
      assert (PK : forall i, pub fl i = true -> i <> (2 * S j + 1)%nat /\ i <> (2 * S j + 2)%nat).
      { intros i Pi. apply (pub_spec p ind I1) in Pi. destruct Pi as (m & Em & _ & Fm). split; intros ->; assert (m = S j) by lia; congruence. }
      destruct (Nat.ltb_spec (S j) (L - 1)) as [Lt|Ge].
      * rewrite (expand_children_ok X p ind I1) by auto. cbn [bind]. apply okp_ok. split; auto.
        destruct (kids_length X p ind I1 salt (nth (S j) t' []) LX) as [K1 K2].
        split. { apply shape_upd; auto. apply shape_upd; auto. }
        split.
        { intros i Hi2 Pi. destruct (PK i Pi). rewrite !nth_upd by (rewrite ?upd_length; lia).
          destruct (Nat.eqb_spec (2 * S j + 2) i); [lia|]. destruct (Nat.eqb_spec (2 * S j + 1) i); [lia|]. auto. }
        intros i Hi2 Hi3 Fi2. rewrite !nth_upd by (rewrite ?upd_length; lia).
        destruct (Nat.eqb_spec (2 * S j + 2) i) as [|_]; [lia|]. destruct (Nat.eqb_spec (2 * S j + 1) i) as [|_]; [lia|].
        destruct (Nat.eqb_spec (2 * S j + 2) (2 * i + 1)) as [|_]; [lia|]. destruct (Nat.eqb_spec (2 * S j + 1) (2 * i + 2)) as [|_]; [lia|].
        destruct (Nat.eqb_spec (2 * S j + 1) (2 * i + 1)) as [E1|N1].
        { assert (i = S j) as -> by lia. rewrite Nat.eqb_refl. auto. }
        destruct (Nat.eqb_spec (2 * S j + 2) (2 * i + 2)) as [|_]; [lia|]. apply M3; auto. lia.
      * apply okp_ok. split; auto. split; auto. split; auto. intros i Hi2 Hi3 Fi2. apply M3; auto. lia.
  - intros [used t] (J1 & J2 & J3 & J4). cbn [Nat.add] in *. split; [auto|]. split; [auto|].
    intros i Hi Fi. apply J4; auto. lia.
Qed.

(** The seeds at and below the published nodes of a rebuilt tree. *)
Lemma rebuilt_seed fl ind salt t : length ind = pT p -> flags_spec p ind fl -> F fl 0 = true ->
  (forall i, (i < L - 1)%nat -> F fl i = false ->
      nth (2 * i + 1) t [] = firstn slen (kids X p salt (nth i t [])) /\ nth (2 * i + 2) t [] = skipn slen (kids X p salt (nth i t []))) ->
  forall j, (j < nn)%nat -> F fl j = false -> exists i, (i <= j)%nat /\ pub fl i = true /\ tree_seed X p salt i (nth i t []) j (nth j t []).
Proof.
  intros I1 FS F0 HK. pose proof (nn_L p) as NL. induction j as [j IH] using lt_wf_ind. intros Hj Fj.
  destruct j as [|k]; [congruence|]. set (m := (k / 2)%nat).
  assert (Hm : (S k = 2 * m + 1 \/ S k = 2 * m + 2)%nat).
  { pose proof (Nat.div_mod k 2 ltac:(lia)) as DM. pose proof (Nat.mod_upper_bound k 2 ltac:(lia)). unfold m. lia. }
  destruct (F fl m) eqn:Fm.
  - exists (S k). split; auto. split; [|constructor]. apply (pub_spec p ind I1). exists m. auto.
  - destruct (IH m ltac:(lia) ltac:(lia) Fm) as (i & Hi & P & TS). exists i. split; [lia|]. split; auto.
    destruct (HK m ltac:(lia) Fm) as [K1 K2]. destruct Hm as [-> | ->]; [rewrite K1|rewrite K2]; constructor; auto.
Qed.

(** At most one published node lies above a leaf, so a leaf has at most one seed. *)
Lemma leaf_seed_det chal nodes seeds salt j u u' s s' : published p chal nodes ->
  (u < length nodes)%nat -> (u' < length nodes)%nat ->
  tree_seed X p salt (nth u nodes 0%nat) (nth u seeds []) j s -> tree_seed X p salt (nth u' nodes 0%nat) (nth u' seeds []) j s' -> s = s'.
Proof.
  intros (SS & PB) Hu Hu' T T'. pose proof (tree_seed_below X p _ _ _ _ _ T) as B. pose proof (tree_seed_below X p _ _ _ _ _ T') as B'.
  destruct (proj1 (PB _) (nth_In _ 0%nat Hu)) as (P1 & P2 & P3). destruct (proj1 (PB _) (nth_In _ 0%nat Hu')) as (Q1 & Q2 & Q3).
  assert (E : nth u nodes 0%nat = nth u' nodes 0%nat).
  { destruct (below_chain p (repeat 0 (pT p)) (repeat_length _ _) _ _ _ B B'); [apply Q3|symmetry; apply P3]; auto. }
  assert (u = u') as <-.
  { assert (ND : NoDup nodes). { clear -SS. induction SS; constructor; auto. intros C. rewrite Forall_forall in H. specialize (H _ C). lia. }
    eapply (proj1 (NoDup_nth nodes 0%nat)); eauto. }
  eapply tree_seed_det; eauto.
Qed.

(** What the specification says of a generated public key, in the terms of the proofs about verification. *)
Definition good_pk (pk : list Z) : Prop := length pk = sizeof_pk p /\ forall x, (x < p_nk p - 1)%nat ->
  exists G pv, decodesG p (pk_chunk p pk x) G /\ G_ok p G /\ is_rref K N (ent G) pv /\ packed_matrix p (pk_chunk p pk x) (ent G) pv.

Lemma key_form_good pk : key_form p pk -> good_pk pk.
Proof.
  intros (HL & HF). split; auto. intros x Hx. destruct (HF x Hx) as (G & pv & RD & RR & PM).
  exists (tomat p G), pv. split. { apply (packed_matrix_decodes p wf _ _ pv); auto. }
  assert (RT : is_rref K N (ent (tomat p G)) pv).
  { apply (is_rref_ext p G); auto. intros i j Hi Hj. symmetry. apply tomat_ent; auto. }
  split. { split; [apply tomat_shape|]. split.
    - intros i j Hi Hj. rewrite tomat_ent by auto. apply RD; auto.
    - eapply rref_full_rank; eauto. }
  split; auto.
  apply (packed_matrix_ext p _ G _ pv pv); auto. intros i j Hi Hj. symmetry. apply tomat_ent; auto.
Qed.

Lemma generates_key_form rng sk pk rng' : generates X p rng sk pk rng' -> key_form p pk.
Proof.
  intros (csk & g0 & r1 & G & A1 & A2 & A3 & A4 & A5 & A6 & A7). split; auto.
  intros x Hx. destruct (A7 x Hx) as (pm & cf & M & H & pv & _ & _ & _ & RD & RR & PM). eauto.
Qed.

Lemma times_action_det G G' rp rc M M' : good_action K N rp rc -> (forall i j, (i < K)%nat -> (j < N)%nat -> G i j = G' i j) ->
  times_action K N G rp rc M -> times_action K N G' rp rc M' -> same_code K N M M'.
Proof.
  intros GA EG T T'. set (a := {| a_perm := rp; a_coef := rc |}). assert (HA : act_ok p a) by (apply good_action_iff; exact GA).
  change rp with (a_perm a) in T, T'. change rc with (a_coef a) in T, T'.
  rewrite (times_action_src p wf _ a _ HA) in T. rewrite (times_action_src p wf _ a _ HA) in T'.
  apply cong_code. intros i k Hi Hk. rewrite (T i k Hi Hk), (T' i k Hi Hk).
  rewrite EG; auto; [reflexivity|]. apply (act_src_bij p wf a HA). auto.
Qed.

Lemma checks_det pk sig salt chal nodes seeds G G' t V V' : published p chal nodes ->
  (forall i j, (i < K)%nat -> (j < N)%nat -> G i j = G' i j) -> (t < pT p)%nat ->
  checks_round X p pk sig salt chal nodes seeds G t V -> checks_round X p pk sig salt chal nodes seeds G' t V' -> V = V'.
Proof.
  intros PB EG Ht. unfold checks_round. destruct (nth t chal 0 =? 0).
  - intros (u & s & pm & cf & M & A1 & A2 & A3 & A4 & A5) (u' & s' & pm' & cf' & M' & B1 & B2 & B3 & B4 & B5).
    pose proof (leaf_seed_det _ _ _ _ _ _ _ _ _ PB A1 B1 A2 B2) as <-.
    destruct (monomial_of_det X p _ _ _ _ _ A3 B3) as [<- <-]. pose proof (monomial_of_ok X p wf LX _ _ _ A3) as HQ.
    eapply (normal_form_unique K N M M'); eauto.
    exact (times_monomial_det p G G' {| m_perm := pm; m_coef := cf |} M M' HQ EG A4 B4).
  - intros (H & pv & rp & rc & M & A1 & A2 & A3 & A4 & A5 & A6 & A7) (H' & pv' & rp' & rc' & M' & B1 & B2 & B3 & B4 & B5 & B6 & B7).
    pose proof (packed_matrix_decodes p wf _ _ _ A2 A3 A1) as D. pose proof (packed_matrix_decodes p wf _ _ _ B2 B3 B1) as D'.
    pose proof (decodesG_det p _ _ _ D D') as EH.
    assert (EHH : forall i j, (i < K)%nat -> (j < N)%nat -> H i j = H' i j).
    { intros i j Hi Hj. rewrite <- (tomat_ent p H i j Hi Hj), <- (tomat_ent p H' i j Hi Hj), EH. auto. }
    assert (rp = rp' /\ rc = rc') as [<- <-].
    { destruct A4 as (L1 & L2 & AA). destruct B4 as (L3 & L4 & BB). split; apply (list_ext 0); try congruence; intros i Hi.
      - rewrite L1 in Hi. destruct (AA i Hi) as [P _]. destruct (BB i Hi) as [Q _]. exact (eq_trans P (eq_sym Q)).
      - rewrite L2 in Hi. destruct (AA i Hi) as [_ P]. destruct (BB i Hi) as [_ Q]. exact (eq_trans P (eq_sym Q)). }
    eapply (normal_form_unique K N M M'); eauto. eapply times_action_det; eauto.
Qed.

Section Fixed.
Variables pk sig m : list Z.
Hypothesis Hpk : good_pk pk.
Hypothesis Hb : bytes sig.
Hypothesis Hl : long_enough X p sig.
Hypothesis Hm : bytes m.

Lemma leaf_unchallenged chal t : (t < pT p)%nat -> nz chal t = false -> unchallenged p chal (leaf p t).
Proof.
  intros Ht Hn t' Ht' Hn' B. pose proof (T_lt_L p wf). apply below_inv in B. destruct B as [E|(m' & B & E)].
  - unfold leaf in E. assert (t' = t) by lia. subst. unfold nz in Hn. destruct (Z.eqb_spec (nth t chal 0) 0); [contradiction|discriminate].
  - apply below_le in B. unfold leaf in *. lia.
Qed.

Lemma checks_vmem salt chal nodes seeds G t V : checks_round X p pk sig salt chal nodes seeds G t V -> vmem p V.
Proof.
  unfold checks_round. destruct (nth t chal 0 =? 0).
  - intros (u & s & pm & cf & M & _ & _ & _ & _ & NF). eapply normal_form_vmem; eauto.
  - intros (H & pv & rp & rc & M & _ & _ & _ & _ & _ & _ & NF). eapply normal_form_vmem; eauto.
Qed.

Lemma good_pk_wf : pk_wf p pk.
Proof. destruct Hpk as (A1 & A3). split; auto. intros x Hx. destruct (A3 x Hx) as (G & pv & B1 & B2 & _). eauto. Qed.

Lemma sig_chunk_ok u : (u < pW p)%nat -> bytes (sig_chunk p sig u) /\ length (sig_chunk p sig u) = mono_bytes p.
Proof.
  intros Hu. unfold sig_chunk. split; [apply Forall_firstn, Forall_skipn; auto|]. rewrite firstn_length, skipn_length.
  pose proof (proj1 Hl). unfold off_seeds, off_monom in *. nia.
Qed.

(** The seeds read by verification. *)
Definition sig_seeds (fl : list Z) : list (list Z) := chunks slen (npub p fl) (skipn (off_seeds p) sig).

Lemma seeds_room chal fl : challenge_of X p (sig_digest p sig) chal -> flags_spec p (to_publish chal) fl ->
  (off_seeds p + npub p fl * slen <= length sig)%nat.
Proof.
  intros CO FS. pose proof (challenge_of_ok X p wf _ _ CO) as HC.
  apply (proj2 Hl chal (enum (pub fl) nn)); auto. apply (published_enum p wf); auto.
Qed.

Lemma sig_seeds_ok chal fl : challenge_of X p (sig_digest p sig) chal -> flags_spec p (to_publish chal) fl ->
  length (sig_seeds fl) = length (enum (pub fl) nn) /\ Forall (fun s => length s = slen) (sig_seeds fl) /\
  bytes_at sig (off_seeds p) (length (enum (pub fl) nn) * slen) = concat (sig_seeds fl).
Proof.
  intros HC FS. pose proof (seeds_room chal fl HC FS) as NB.
  assert (LS : (npub p fl * slen <= length (skipn (off_seeds p) sig))%nat) by (rewrite skipn_length; lia).
  assert (LE : length (enum (pub fl) nn) = npub p fl) by reflexivity. rewrite LE.
  split. { apply chunks_length. } split. { apply chunks_Forall; auto. }
  unfold sig_seeds. rewrite concat_chunks by auto. reflexivity.
Qed.

Lemma seeds_unique chal fl seeds : challenge_of X p (sig_digest p sig) chal -> flags_spec p (to_publish chal) fl ->
  length seeds = length (enum (pub fl) nn) -> Forall (fun s => length s = slen) seeds ->
  bytes_at sig (off_seeds p) (length (enum (pub fl) nn) * slen) = concat seeds -> seeds = sig_seeds fl.
Proof.
  intros HC FS L1 F1 E. destruct (sig_seeds_ok chal fl HC FS) as (L2 & F2 & E2).
  apply (concat_inj slen); auto; congruence.
Qed.

(** The rebuilt tree gives every unchallenged leaf the seed derived from the published one above it. *)
Lemma rebuilt_leaf chal fl t0 tree t : challenge_of X p (sig_digest p sig) chal -> flags_spec p (to_publish chal) fl ->
  rebuild_seed_tree_leaves X p (repeat (repeat 0 slen) nn) (to_publish chal) (skipn (off_seeds p) sig) (sig_salt p sig) = Ok (t0, tree) ->
  (t < pT p)%nat -> nz chal t = false ->
  exists u, (u < length (enum (pub fl) nn))%nat /\
    tree_seed X p (sig_salt p sig) (nth u (enum (pub fl) nn) 0%nat) (nth u (sig_seeds fl) []) (leaf p t) (nth (L - 1 + t) tree []).
Proof.
  intros CO FS ER Ht Hn. pose proof (challenge_of_ok X p wf _ _ CO) as HC.
  destruct (to_publish_ok p chal HC) as (T1 & T2 & T3). pose proof (wf_W p wf) as HW.
  destruct (rebuild_local (to_publish chal) (repeat (repeat 0 slen) nn) (skipn (off_seeds p) sig) (sig_salt p sig) T1 T2 (zero_mat_shape _ _))
    as (fl' & FS' & ([t1 tree'] & ER' & TM & R1 & R2)).
  { lia. }
  { intros f Hf. pose proof (seeds_room chal f CO Hf). rewrite skipn_length. lia. }
  rewrite ER in ER'. injection ER' as <- <-.
  assert (fl' = fl) as ->.
  { eapply (flags_spec_det p); eauto. }
  pose proof (F_root p wf _ T1 T2 fl FS ltac:(lia)) as F0. pose proof (T_lt_L p wf). pose proof (nn_L p).
  assert (FL : F fl (leaf p t) = false).
  { apply (unchallenged_F p wf chal fl (leaf p t) HC FS); [unfold leaf; lia|]. apply leaf_unchallenged; auto. }
  destruct (rebuilt_seed fl _ (sig_salt p sig) tree T1 FS F0 R2 (leaf p t) ltac:(unfold leaf; lia) FL) as (i & Hi & P & TS).
  assert (Hi2 : (i < nn)%nat) by (unfold leaf in Hi; lia).
  exists (cnt (pub fl) i). split. { apply cnt_lt; auto. }
  rewrite nth_enum_cnt by auto. unfold sig_seeds. rewrite nth_chunks by (apply cnt_lt; auto). rewrite <- R1 by auto. exact TS.
Qed.

Lemma vround_checks fuel chal fl t0 tree G t V : challenge_of X p (sig_digest p sig) chal -> flags_spec p (to_publish chal) fl ->
  rebuild_seed_tree_leaves X p (repeat (repeat 0 slen) nn) (to_publish chal) (skipn (off_seeds p) sig) (sig_salt p sig) = Ok (t0, tree) ->
  (t < pT p)%nat -> vround X p fuel pk sig tree G chal t V ->
  checks_round X p pk sig (sig_salt p sig) chal (enum (pub fl) nn) (sig_seeds fl) (ent G) t V.
Proof.
  intros CO FS ER Ht VR. pose proof (challenge_of_ok X p wf _ _ CO) as HC. unfold checks_round, vround in *.
  assert (NZ : nz chal t = negb (nth t chal 0 =? 0)) by reflexivity. destruct (nth t chal 0 =? 0) eqn:E0; cbn [negb] in NZ; rewrite NZ in VR.
  - destruct VR as (Q & a & S & PR). destruct (prep_normal p G Q V a PR) as (M & TM & NF).
    destruct (rebuilt_leaf chal fl t0 tree t CO FS ER Ht NZ) as (u & Hu & TS).
    exists u, (nth (L - 1 + t) tree []), (m_perm Q), (m_coef Q), M. split; auto. split; auto. split; auto.
    rewrite <- (round_bytes_le p wf) by auto. apply (sampled_monomial_of X p wf LX fuel). exact S.
  - destruct VR as (H & a & D & DA & HA & CR). destruct (chal_normal p wf H a V HA CR) as (M & TM & NF).
    destruct Hpk as (_ & PK). destruct (PK _ (key_index p chal HC t Ht NZ)) as (H' & pv & D' & GO & RR & PM).
    pose proof (decodesG_det p _ _ _ D D') as <-.
    assert (Hu : (cnt (nz chal) t < pW p)%nat). { apply (used_lt p); auto. }
    destruct (sig_chunk_ok _ Hu) as [SB SL].
    exists (ent H), pv, (a_perm a), (a_coef a), M. split; auto. split; [apply GO|]. split; auto. split.
    + fold (responses_before chal t). rewrite responses_cnt by (destruct HC; lia). apply (read_action_decodes p wf); auto. destruct a; exact DA.
    + split; auto. apply good_action_iff. auto.
Qed.

Lemma accepted_valid fuel : accepted X p fuel pk m sig -> valid X p pk m sig.
Proof.
  intros [(chal & t0 & tree & c & G & Vs & A1 & A2 & A3 & A4 & A5 & A6 & A7)].
  destruct (to_publish_ok p chal A1) as (T1 & T2 & T3). destruct (compute_seeds_spec p wf _ T1) as (fl & _ & FS).
  pose proof (expand_challenge_of X p wf fuel _ _ A2) as CO. destruct (sig_seeds_ok chal fl CO FS) as (S1 & S2 & S3).
  assert (CK : forall t, (t < pT p)%nat -> checks_round X p pk sig (sig_salt p sig) chal (enum (pub fl) nn) (sig_seeds fl) (ent G) t (nth t Vs [])).
  { intros t Ht. apply (vround_checks fuel chal fl t0 tree); auto. }
  exists chal, (enum (pub fl) nn), (sig_seeds fl), (ent G), Vs.
  split; [exact CO|].
  split. { apply (published_enum p wf); auto. }
  split; auto. split; auto. split; auto. split. { apply (sampledG_generator_of X p wf LX fuel _ c). exact A4. }
  split; auto. split; auto.
  change (bytes_at sig (off_digest p) (hash_len p)) with (sig_digest p sig). rewrite <- A7. symmetry. apply (hash_transcript X p LX); auto.
  - apply (Forall_nth_mat _ Vs (pT p)); auto. intros t Ht. eapply checks_vmem; eauto.
  - apply Forall_firstn. exact Hb.
Qed.

Lemma rejected_invalid fuel : rejected X p fuel pk m sig -> ~ valid X p pk m sig.
Proof.
  intros [(chal & t0 & tree & c & G & A1 & A2 & A3 & A4 & A5)] (chal' & nodes & seeds & G' & Vs' & B1 & B2 & B3 & B4 & B5 & B6 & B7 & B8 & B9).
  pose proof (challenge_of_det X p _ _ _ (expand_challenge_of X p wf fuel _ _ A2) B1) as <-.
  destruct (to_publish_ok p chal A1) as (T1 & T2 & T3). destruct (compute_seeds_spec p wf _ T1) as (fl & _ & FS).
  pose proof (published_det p _ _ _ B2 (published_enum p wf chal fl A1 FS)) as ->.
  pose proof (seeds_unique chal fl seeds B1 FS B3 B4 B5) as ->.
  pose proof (generator_of_det X p _ _ _ (sampledG_generator_of X p wf LX fuel _ _ _ A4) B6) as EG.
  destruct A5 as [(t & a & Ht & Hn & D & NA)|(Vs & V1 & V2 & V3)].
  - specialize (B8 t Ht). unfold checks_round in B8. assert (NZ : nz chal t = negb (nth t chal 0 =? 0)) by reflexivity. rewrite Hn in NZ.
    destruct (nth t chal 0 =? 0); [discriminate|]. destruct B8 as (H & pv & rp & rc & M & C1 & C2 & C3 & C4 & C5 & C6 & C7).
    assert (Hu : (cnt (nz chal) t < pW p)%nat). { apply (used_lt p); auto. }
    destruct (sig_chunk_ok _ Hu) as [SB SL]. fold (responses_before chal t) in C4. rewrite responses_cnt in C4 by (destruct A1; lia).
    apply (read_action_decodes p wf) in C4; auto. pose proof (decodes_det p _ _ _ D C4) as ->. apply NA, good_action_iff. exact C5.
  - assert (Vs = Vs') as <-.
    { apply (list_ext []). { transitivity (pT p); auto. } intros t Ht. assert (Ht' : (t < pT p)%nat) by (rewrite <- V1; exact Ht).
      apply (checks_det pk sig (sig_salt p sig) chal (enum (pub fl) nn) (sig_seeds fl) (ent G) G' t); auto.
      apply (vround_checks fuel chal fl t0 tree); auto. }
    apply V3. change (sig_digest p sig) with (bytes_at sig (off_digest p) (hash_len p)). rewrite <- B9. apply (hash_transcript X p LX); auto.
    + apply (Forall_nth_mat _ Vs (pT p)); auto. intros t Ht. eapply checks_vmem; eauto.
    + apply Forall_firstn. exact Hb.
Qed.

Lemma seeds_fit_full fuel : seeds_fit X p fuel sig.
Proof. right. intros fws fl E FS. apply (seeds_room fws fl); auto. apply (expand_challenge_of X p wf fuel). exact E. Qed.

Lemma verify_valid fuel junk r : LESS_verify X p fuel junk pk m sig = Ok r ->
  (r = 1 /\ valid X p pk m sig) \/ (r = 0 /\ ~ valid X p pk m sig).
Proof.
  intros E. pose proof (LESS_verify_gp X p wf LX True fuel junk pk m sig good_pk_wf Hb) as S.
  rewrite E in S. cbn [gp] in S. destruct S as [[-> S]|[-> S]]; auto.
  - apply Hl.
  - apply seeds_fit_full.
  - left. split; auto. eapply accepted_valid; eauto.
  - right. split; auto. eapply rejected_invalid; eauto.
Qed.

Lemma valid_verify : valid X p pk m sig -> exists f, forall fuel junk, (f <= fuel)%nat -> LESS_verify X p fuel junk pk m sig = Ok 1.
Proof.
  intros VA. pose proof VA as (chal & nodes & seeds & G & Vs & B1 & B2 & B3 & B4 & B5 & B6 & B7 & B8 & B9).
  pose proof (challenge_of_ok X p wf _ _ B1) as HC.
  destruct (to_publish_ok p chal HC) as (T1 & T2 & T3). destruct (compute_seeds_spec p wf _ T1) as (fl & _ & FS).
  pose proof (published_det p _ _ _ B2 (published_enum p wf chal fl HC FS)) as ->.
  pose proof (seeds_unique chal fl seeds B1 FS B3 B4 B5) as ->.
  destruct (challenge_of_expand X p wf _ _ B1) as (f0 & F0).
  destruct (generator_of_sampledG X p wf LX _ _ B6) as (f1 & c & M & SGG & EM).
  destruct (fuel_choice (pT p) (fun t f => nz chal t = false -> exists u s Q, (u < length (enum (pub fl) nn))%nat /\
     tree_seed X p (sig_salt p sig) (nth u (enum (pub fl) nn) 0%nat) (nth u (sig_seeds fl) []) (leaf p t) s /\
     sampled X p f (s ++ sig_salt p sig ++ le_bytes 2 (Z.of_nat t)) Q)) as (f2 & F2).
  { intros t f f' Hf S Hn. destruct (S Hn) as (u & s & Q & U & TS & S'). exists u, s, Q. split; auto. split; auto. eapply sampled_up; eauto. }
  { intros t Ht. destruct (nz chal t) eqn:NZ. { exists 0%nat. discriminate. }
    specialize (B8 t Ht). unfold checks_round in B8. assert (NZ' : nz chal t = negb (nth t chal 0 =? 0)) by reflexivity. rewrite NZ in NZ'.
    destruct (nth t chal 0 =? 0); [|discriminate]. destruct B8 as (u & s & pm & cf & MM & C1 & C2 & C3 & _).
    destruct (monomial_of_sampled X p wf LX _ _ _ C3) as (f & Q & S & _). exists f. intros _. exists u, s, Q. auto. }
  exists (max f0 (max f1 f2)). intros fuel junk Hf.
  assert (S : gp False (LESS_verify X p fuel junk pk m sig) (fun r => (r = 1 /\ accepted X p fuel pk m sig) \/ (r = 0 /\ rejected X p fuel pk m sig))).
  { apply LESS_verify_gp; auto.
    - apply good_pk_wf.
    - apply Hl.
    - apply seeds_fit_full.
    - change (sig_digest p sig) with (bytes_at sig (off_digest p) (hash_len p)). rewrite F0 by lia. discriminate.
    - intros r Hr C. change (pk_seed p pk) with (bytes_at pk 0 slen) in C. rewrite (proj1 SGG fuel r ltac:(lia) Hr) in C. discriminate.
    - intros fws t0 tree t r EF ER Ht Hn Hr C. change (sig_digest p sig) with (bytes_at sig (off_digest p) (hash_len p)) in EF.
      rewrite F0 in EF by lia. injection EF as <-.
      destruct (F2 t Ht Hn) as (u & s & Q & U & TS & (_ & S)). destruct (rebuilt_leaf chal fl t0 tree t B1 FS ER Ht Hn) as (u' & U' & TS').
      pose proof (leaf_seed_det _ _ _ _ _ _ _ _ _ (published_enum p wf chal fl HC FS) U U' TS TS') as ->.
      rewrite (round_bytes_le p wf) in C by auto. rewrite (S fuel r ltac:(lia) Hr) in C. discriminate. }
  destruct (LESS_verify X p fuel junk pk m sig) as [r| |] eqn:E; cbn [gp] in S; try contradiction.
  destruct (verify_valid fuel junk r E) as [[-> _]|[_ C]]; auto. contradiction.
Qed.
End Fixed.

(** Any object of the size of the struct is long enough. *)
Lemma full_size_long_enough sig : (sizeof_sign p - 1 <= length sig)%nat -> long_enough X p sig.
Proof.
  intros HL. unfold sizeof_sign, seed_storage_len in HL. split; [lia|]. intros chal nodes CO PB.
  pose proof (challenge_of_ok X p wf _ _ CO) as HC. destruct (flags_ex p wf chal HC) as (fl & FS).
  rewrite (published_det p _ _ _ PB (published_enum p wf chal fl HC FS)).
  destruct (to_publish_ok p chal HC) as (T1 & T2 & T3). pose proof (npub_bytes p wf _ T1 T2 fl FS T3) as NB.
  change (length (enum (pub fl) nn)) with (npub p fl). lia.
Qed.
End B.
