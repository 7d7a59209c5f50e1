(** Seed tree: what is published, that it suffices and that it fits. *)
From Verif Require Import Base BaseLemmas Params ParamsProofs Prim SeedTree Spec EnumProofs.

(** *** Heap-ordered trees *)
Lemma below_trans i j k : below i j -> below j k -> below i k.
Proof. intros H1 H2. induction H2; auto using below. Qed.

Lemma below_le i j : below i j -> (i <= j)%nat.
Proof. induction 1; lia. Qed.

Lemma skipn_skipn {A} a b (l : list A) : skipn a (skipn b l) = skipn (b + a) l.
Proof. revert l. induction b; intros l; auto. destruct l; cbn; auto. apply skipn_nil. Qed.

Section T.
Variable X : prim.
Variable p : params.
Hypothesis wf : wf_params p.
Notation L := (num_leaves p).
Notation nn := (num_nodes p).
Notation slen := (seed_len p).

Lemma L_pos : (1 <= L)%nat.
Proof. unfold num_leaves. pose proof (Nat.pow_nonzero 2 (tree_height p)). lia. Qed.

Lemma height_log : Z.of_nat (tree_height p) = Z.log2 (Z.of_nat (pT p)) + 1.
Proof.
  unfold tree_height. pose proof (wf_T p wf). rewrite bits_spec by lia.
  assert (0 <= Z.log2 (Z.of_nat (pT p))) by apply Z.log2_nonneg. lia.
Qed.

Lemma L_pow : Z.of_nat L = 2 ^ Z.of_nat (tree_height p).
Proof. unfold num_leaves. rewrite Nat2Z.inj_pow. auto. Qed.

Lemma T_lt_L : (pT p < L)%nat.
Proof.
  apply Nat2Z.inj_lt. rewrite L_pow, height_log. pose proof (wf_T p wf).
  destruct (Z.log2_spec (Z.of_nat (pT p))) as [_ H2]; [lia|]. rewrite Z.add_1_r. auto.
Qed.

Lemma L_ge2 : (2 <= L)%nat.
Proof. pose proof T_lt_L. pose proof (wf_T p wf). lia. Qed.

Lemma nn_L : nn = (2 * L - 1)%nat.
Proof. reflexivity. Qed.

Lemma slen_pos : (1 <= slen)%nat.
Proof. unfold seed_len. destruct (p_cat p); lia. Qed.

(** *** Flags *)
Variable ind : list Z.
Hypothesis Hind : length ind = pT p.
Hypothesis H01 : Forall (fun x => x = 0 \/ x = 1) ind.

Record flags_spec (fl : list Z) : Prop := {
  fs_len : length fl = nn;
  fs_leaf : forall t, (t < L)%nat -> nth (L - 1 + t) fl 0 = if (t <? pT p)%nat then nth t ind 0 else 0;
  fs_node : forall i, (i < L - 1)%nat ->
     nth i fl 0 = b2z ((nth (2 * i + 1) fl 0 =? 1) || (nth (2 * i + 2) fl 0 =? 1)) }.

Lemma compute_seeds_spec : okp (compute_seeds_to_publish p (repeat 0 nn) ind) flags_spec.
Proof.
  pose proof T_lt_L as TL. pose proof nn_L as NL. unfold compute_seeds_to_publish.
  rewrite rd_ok by lia. cbn [bind skipn]. rewrite <- Hind, firstn_all.
  rewrite wr_ok by (rewrite repeat_length; lia). cbn [bind].
  set (f0 := firstn (L - 1) (repeat 0 nn) ++ ind ++ skipn (L - 1 + length ind) (repeat 0 nn)).
  assert (Lf : length f0 = nn). { unfold f0. rewrite wr_length; rewrite ?repeat_length; lia. }
  assert (N0 : forall t, (t < L)%nat -> nth (L - 1 + t) f0 0 = if (t <? pT p)%nat then nth t ind 0 else 0).
  { intros t Ht. unfold f0. rewrite nth_wr by (rewrite repeat_length; lia).
    destruct (Nat.ltb_spec (L - 1 + t) (L - 1)); [lia|]. rewrite Hind.
    destruct (Nat.ltb_spec (L - 1 + t) (L - 1 + pT p)), (Nat.ltb_spec t (pT p)); try lia.
    - f_equal. lia.
    - apply nth_repeat. }
  eapply okp_mono. apply okp_for with (I := fun k fl => length fl = nn /\
    (forall t, (t < L)%nat -> nth (L - 1 + t) fl 0 = if (t <? pT p)%nat then nth t ind 0 else 0) /\
    (forall i, (L - 1 - k <= i < L - 1)%nat ->
      nth i fl 0 = b2z ((nth (2 * i + 1) fl 0 =? 1) || (nth (2 * i + 2) fl 0 =? 1)))).
  - split; auto. split; auto. intros; lia.
  - intros k fl Hk (I1 & I2 & I3). cbv zeta.
    rewrite (get_ok _ _ 0) by lia. cbn [bind]. rewrite (get_ok _ _ 0) by lia. cbn [bind].
    rewrite set_ok by lia. apply okp_ok. split. { rewrite upd_length; auto. } split.
    + intros t Ht. rewrite nth_upd_other by lia. auto.
    + intros i Hi. destruct (Nat.eq_dec i (L - 2 - k)) as [->|].
      * rewrite nth_upd_same by lia. rewrite !nth_upd_other by lia. auto.
      * rewrite !nth_upd_other by lia. apply I3. lia.
  - intros fl (I1 & I2 & I3). constructor; auto. intros i Hi. apply I3. lia.
Qed.

Lemma flags_spec_det fl fl' : flags_spec fl -> flags_spec fl' -> fl = fl'.
Proof.
  intros [A1 A2 A3] [B1 B2 B3]. pose proof nn_L as NL.
  assert (E : forall m i, (i < nn)%nat -> (nn - i <= m)%nat -> nth i fl 0 = nth i fl' 0).
  { induction m as [|m IH]; intros i Hi Hm; [lia|]. destruct (Nat.lt_ge_cases i (L - 1)).
    - rewrite A3, B3 by auto. rewrite (IH (2 * i + 1)%nat), (IH (2 * i + 2)%nat) by lia. auto.
    - replace i with (L - 1 + (i - (L - 1)))%nat by lia. rewrite A2, B2 by lia. auto. }
  apply (list_ext 0); [lia|]. intros i Hi. apply (E nn); lia.
Qed.

Section FL.
Variable fl : list Z.
Hypothesis FS : flags_spec fl.

Definition F (i : nat) : bool := nth i fl 0 =? 1.

Lemma ind_01 t : (t < pT p)%nat -> nth t ind 0 = 0 \/ nth t ind 0 = 1.
Proof. intros H. rewrite Forall_forall in H01. apply H01. apply nth_In. lia. Qed.

Lemma fl_b i : (i < nn)%nat -> nth i fl 0 = b2z (F i).
Proof.
  intros H. unfold F. destruct (Nat.lt_ge_cases i (L - 1)).
  - rewrite (fs_node fl FS i) by auto. destruct (_ || _); auto.
  - pose proof nn_L. replace i with (L - 1 + (i - (L - 1)))%nat by lia. rewrite (fs_leaf fl FS) by lia.
    destruct (Nat.ltb_spec (i - (L - 1)) (pT p)); auto. destruct (ind_01 (i - (L - 1)) ltac:(lia)) as [-> | ->]; auto.
Qed.

Lemma F_node i : (i < L - 1)%nat -> F i = F (2 * i + 1) || F (2 * i + 2).
Proof. intros H. unfold F at 1. rewrite (fs_node fl FS i) by auto. fold (F (2 * i + 1)). fold (F (2 * i + 2)). destruct (_ || _); auto. Qed.

Lemma F_leaf t : (t < L)%nat -> F (L - 1 + t) = (t <? pT p)%nat && (nth t ind 0 =? 1).
Proof. intros H. unfold F. rewrite (fs_leaf fl FS) by auto. destruct (t <? pT p)%nat; auto. Qed.

(** A node is flagged exactly when some challenged leaf lies below it. *)
Lemma F_below i : (i < nn)%nat ->
  (F i = true <-> exists t, (t < pT p)%nat /\ nth t ind 0 = 1 /\ below i (L - 1 + t)).
Proof.
  intros Hi. pose proof nn_L as NL. pose proof T_lt_L. split.
  - remember (nn - i)%nat as m eqn:Em. revert i Hi Em. induction m as [m IH] using lt_wf_ind. intros i Hi -> Hf.
    destruct (Nat.lt_ge_cases i (L - 1)) as [Lt|Ge].
    + rewrite F_node in Hf by auto. apply orb_true_iff in Hf.
      assert (G : forall c, (c = 2 * i + 1 \/ c = 2 * i + 2)%nat -> F c = true ->
        exists t, (t < pT p)%nat /\ nth t ind 0 = 1 /\ below i (L - 1 + t)).
      { intros c Hc Fc. destruct (IH (nn - c)%nat ltac:(lia) c ltac:(lia) eq_refl Fc) as (t & T1 & T2 & T3).
        exists t. split; auto. split; auto. eapply below_trans; [|exact T3].
        destruct Hc as [-> | ->]; [apply below_left|apply below_right]; constructor. }
      destruct Hf as [Hf|Hf]; [apply (G (2 * i + 1)%nat)|apply (G (2 * i + 2)%nat)]; auto.
    + replace i with (L - 1 + (i - (L - 1)))%nat in Hf by lia. rewrite F_leaf in Hf by lia.
      apply andb_true_iff in Hf. destruct Hf as [Hf1 Hf2]. apply Nat.ltb_lt in Hf1. apply Z.eqb_eq in Hf2.
      exists (i - (L - 1))%nat. split; auto. split; auto. replace (L - 1 + (i - (L - 1)))%nat with i by lia. constructor.
  - intros (t & T1 & T2 & T3).
    assert (Fl : F (L - 1 + t) = true).
    { rewrite F_leaf by lia. apply Nat.ltb_lt in T1. rewrite T1, T2. auto. }
    assert (Hb : (L - 1 + t < nn)%nat) by lia. revert Fl Hb. generalize T3. generalize (L - 1 + t)%nat.
    clear - FS NL. intros j B. induction B; intros Fj Hj; auto; apply IHB; try lia;
      rewrite F_node by lia; rewrite Fj; auto using orb_true_r.
Qed.

(** Published nodes: not flagged, below a flagged parent. *)
Definition pub (i : nat) : bool := match i with O => false | S j => negb (F i) && F (j / 2) end.

Definition npub : nat := cnt pub nn.

Lemma pub_left m : pub (2 * m + 1) = negb (F (2 * m + 1)) && F m.
Proof.
  replace (2 * m + 1)%nat with (S (2 * m)) by lia. cbn [pub].
  replace (2 * m / 2)%nat with m by (apply Nat.div_unique with 0%nat; lia). auto.
Qed.

Lemma pub_right m : pub (2 * m + 2) = negb (F (2 * m + 2)) && F m.
Proof.
  replace (2 * m + 2)%nat with (S (2 * m + 1)) by lia. cbn [pub].
  replace ((2 * m + 1) / 2)%nat with m by (apply Nat.div_unique with 1%nat; lia). auto.
Qed.

(** *** Counting *)
Lemma count_eq m : F 0 = true -> (m <= L - 1)%nat ->
  (cnt pub (2 * m + 1) + cnt F (2 * m + 1) = 2 * cnt F m + 1)%nat.
Proof.
  intros F0. induction m; intros H.
  - change (2 * 0 + 1)%nat with 1%nat. rewrite !cnt_S, !cnt_0, F0. auto.
  - replace (2 * S m + 1)%nat with (S (S (2 * m + 1))) by lia. rewrite !(cnt_S _ (S _)), !(cnt_S _ (2 * m + 1)).
    rewrite (cnt_S F m). specialize (IHm ltac:(lia)).
    pose proof (F_node m ltac:(lia)) as FN.
    replace (S (2 * m + 1)) with (2 * m + 2)%nat by lia. rewrite pub_left, pub_right.
    destruct (F m), (F (2 * m + 1)), (F (2 * m + 2)); cbn [negb andb orb] in *; try discriminate; lia.
Qed.

(** Flagged nodes in a range of siblings: at most one per flagged child. *)
Lemma cnt_range f a k : (cnt f (a + k) <= cnt f a + k)%nat.
Proof. induction k. rewrite Nat.add_0_r; lia. rewrite Nat.add_succ_r, cnt_S. destruct (f (a + k)%nat); lia. Qed.

Lemma cnt_children a k : (a + k <= L - 1)%nat ->
  (cnt F (a + k) - cnt F a <= cnt F (2 * a + 1 + 2 * k) - cnt F (2 * a + 1))%nat.
Proof.
  induction k; intros H.
  - rewrite Nat.add_0_r. lia.
  - specialize (IHk ltac:(lia)). rewrite Nat.add_succ_r, cnt_S.
    replace (2 * a + 1 + 2 * S k)%nat with (S (S (2 * (a + k) + 1))) by lia.
    rewrite !(cnt_S _ (S _)), (cnt_S _ (2 * (a + k) + 1)).
    replace (2 * a + 1 + 2 * k)%nat with (2 * (a + k) + 1)%nat in IHk by lia.
    replace (S (2 * (a + k) + 1)) with (2 * (a + k) + 2)%nat by lia.
    pose proof (F_node (a + k) ltac:(lia)) as FN. pose proof (cnt_mono F a (a + k) ltac:(lia)).
    pose proof (cnt_mono F (2 * a + 1) (2 * (a + k) + 1) ltac:(lia)).
    destruct (F (a + k)), (F (2 * (a + k) + 1)), (F (2 * (a + k) + 2)); cbn [orb] in *; try discriminate; lia.
Qed.

(** Flagged nodes at depth [d]. *)
Definition lev (d : nat) : nat := (cnt F (2 ^ (S d) - 1) - cnt F (2 ^ d - 1))%nat.

Lemma pow2_pos d : (1 <= 2 ^ d)%nat.
Proof. pose proof (Nat.pow_nonzero 2 d). lia. Qed.

Lemma pow2_S d : (2 ^ S d = 2 * 2 ^ d)%nat.
Proof. rewrite Nat.pow_succ_r'. auto. Qed.

Lemma lev_le_pow d : (lev d <= 2 ^ d)%nat.
Proof.
  unfold lev. rewrite pow2_S. pose proof (pow2_pos d).
  replace (2 * 2 ^ d - 1)%nat with ((2 ^ d - 1) + 2 ^ d)%nat by lia.
  pose proof (cnt_range F (2 ^ d - 1) (2 ^ d)). lia.
Qed.

Lemma lev_mono d : (d < tree_height p)%nat -> (lev d <= lev (S d))%nat.
Proof.
  intros H. unfold lev. pose proof (pow2_pos d).
  pose proof (cnt_children (2 ^ d - 1) (2 ^ d)) as C.
  assert (2 ^ S d <= L)%nat by (unfold num_leaves; apply Nat.pow_le_mono_r; lia).
  rewrite !pow2_S in *.
  replace (2 * 2 ^ d - 1)%nat with ((2 ^ d - 1) + 2 ^ d)%nat by lia.
  replace (2 * (2 * 2 ^ d) - 1)%nat with (2 * (2 ^ d - 1) + 1 + 2 * 2 ^ d)%nat by lia.
  replace (2 ^ d - 1 + 2 ^ d)%nat with (2 * (2 ^ d - 1) + 1)%nat at 2 by lia.
  apply C. lia.
Qed.

Lemma weight_app a b : weight (a ++ b) = (weight a + weight b)%nat.
Proof. unfold weight. rewrite filter_app, app_length. auto. Qed.

Lemma firstn_S' {A} (l : list A) n d : (n < length l)%nat -> firstn (S n) l = firstn n l ++ [nth n l d].
Proof.
  revert n. induction l; intros n H; simpl in *; [lia|]. destruct n; auto. simpl. f_equal. apply IHl. lia.
Qed.

Lemma count_leaves k : (k <= L)%nat -> cnt F (L - 1 + k) = (cnt F (L - 1) + weight (firstn k ind))%nat.
Proof.
  induction k; intros H.
  - rewrite Nat.add_0_r. cbn. lia.
  - rewrite Nat.add_succ_r, cnt_S, IHk by lia. rewrite F_leaf by lia.
    destruct (Nat.ltb_spec k (pT p)).
    + rewrite (firstn_S' ind k 0) by lia. rewrite weight_app. cbn [andb].
      destruct (ind_01 k) as [E|E]; auto; rewrite E; cbn; lia.
    + cbn [andb]. rewrite !firstn_all2 by lia. lia.
Qed.

Lemma lev_leaves : lev (tree_height p) = weight ind.
Proof.
  unfold lev. rewrite pow2_S. fold L. pose proof L_pos. replace (2 * L - 1)%nat with (L - 1 + L)%nat by lia.
  rewrite count_leaves by lia. rewrite firstn_all2 by (pose proof T_lt_L; lia). lia.
Qed.

Lemma lev_le_weight d : (d <= tree_height p)%nat -> (lev d <= weight ind)%nat.
Proof.
  intros H. remember (tree_height p - d)%nat as k eqn:Ek. revert d H Ek.
  induction k; intros d H Ek.
  - replace d with (tree_height p) by lia. rewrite lev_leaves. lia.
  - pose proof (lev_mono d ltac:(lia)). specialize (IHk (S d) ltac:(lia) ltac:(lia)). lia.
Qed.

Lemma cnt_depth d : cnt F (2 ^ S d - 1) = (cnt F (2 ^ d - 1) + lev d)%nat.
Proof.
  unfold lev. pose proof (cnt_mono F (2 ^ d - 1) (2 ^ S d - 1)). rewrite pow2_S in *. lia.
Qed.

Lemma F_root : (0 < weight ind)%nat -> F 0 = true.
Proof.
  intros H. apply F_below. { pose proof nn_L. pose proof L_pos. lia. }
  assert (E : exists t, (t < length ind)%nat /\ nth t ind 0 = 1).
  { clear -H H01. induction ind as [|x l IH]; cbn in H; [lia|].
    inversion H01; subst. destruct H2 as [-> | ->].
    - cbn in H. destruct IH as (t & T1 & T2); auto. exists (S t). cbn. split; auto. lia.
    - exists 0%nat. cbn. split; auto. lia. }
  destruct E as (t & T1 & T2). exists t. split; [lia|]. split; auto.
  clear. generalize (L - 1 + t)%nat. intros j. induction j as [j IH] using lt_wf_ind.
  destruct j as [|j]. { constructor. }
  destruct (Nat.Even_or_Odd j) as [[m Hm]|[m Hm]]; subst.
  - replace (S (2 * m)) with (2 * m + 1)%nat by lia. apply below_left. apply IH. lia.
  - replace (S (2 * m + 1)) with (2 * m + 2)%nat by lia. apply below_right. apply IH. lia.
Qed.

(** Number of published nodes in terms of the flagged inner nodes. *)
Lemma npub_eq : (0 < weight ind)%nat -> (npub + weight ind = cnt F (L - 1) + 1)%nat.
Proof.
  intros HW. pose proof (F_root HW) as F0. pose proof L_pos.
  pose proof (count_eq (L - 1) F0 ltac:(lia)) as E.
  replace (2 * (L - 1) + 1)%nat with nn in E by (rewrite nn_L; lia). fold npub in E.
  replace nn with (L - 1 + L)%nat in E by (rewrite nn_L; lia). rewrite count_leaves in E by lia.
  rewrite firstn_all2 in E by (pose proof T_lt_L; lia). lia.
Qed.

Lemma cnt_upto c d : (c <= d)%nat -> (d <= tree_height p)%nat ->
  (cnt F (2 ^ d - 1) <= 2 ^ c - 1 + (d - c) * weight ind)%nat.
Proof.
  intros Hc. induction d; intros Hd.
  - assert (c = 0)%nat by lia. subst. change (2 ^ 0 - 1)%nat with 0%nat. rewrite cnt_0. lia.
  - destruct (Nat.eq_dec c (S d)) as [->|].
    + pose proof (cnt_le F (2 ^ S d - 1)). lia.
    + rewrite cnt_depth. pose proof (lev_le_weight d ltac:(lia)). specialize (IHd ltac:(lia) ltac:(lia)).
      replace (S d - c)%nat with (S (d - c)) by lia. nia.
Qed.

Lemma npub_bound : (0 < weight ind)%nat ->
  let c := Z.to_nat (Z.log2_up (Z.of_nat (weight ind))) in
  Z.of_nat npub <= 2 ^ Z.log2_up (Z.of_nat (weight ind)) + Z.of_nat (weight ind) * (Z.of_nat (tree_height p) - Z.log2_up (Z.of_nat (weight ind)) - 1).
Proof.
  intros HW c. pose proof (npub_eq HW) as E.
  assert (WT : (weight ind <= pT p)%nat).
  { rewrite <- Hind. unfold weight. clear. induction ind; cbn; auto. destruct (negb _); cbn; lia. }
  assert (C0 : 0 <= Z.log2_up (Z.of_nat (weight ind))) by apply Z.log2_up_nonneg.
  assert (Ec : Z.of_nat c = Z.log2_up (Z.of_nat (weight ind))) by (unfold c; lia).
  assert (CH : (c <= tree_height p)%nat).
  { assert (Z.log2_up (Z.of_nat (weight ind)) <= Z.of_nat (tree_height p)); [|lia].
    apply Z.log2_up_le_pow2; [lia|]. rewrite <- L_pow. pose proof T_lt_L. lia. }
  pose proof (cnt_upto c (tree_height p) CH (le_n _)) as B. fold L in B.
  rewrite <- Ec. assert (Z.of_nat (2 ^ c) = 2 ^ Z.of_nat c) by (rewrite Nat2Z.inj_pow; auto).
  pose proof (pow2_pos c). rewrite <- H. nia.
Qed.

Lemma npub_max : weight ind = pW p -> Z.of_nat npub <= max_seeds p.
Proof.
  intros E. pose proof (wf_W p wf). pose proof (npub_bound ltac:(lia)) as B. cbv zeta in B.
  rewrite E in B. unfold max_seeds. rewrite (wf_max p wf). pose proof slen_pos.
  rewrite Z.mul_comm, Z.div_mul by lia. auto.
Qed.

Lemma npub_bytes : weight ind = pW p -> (npub * slen <= Z.to_nat (p_maxbytes p))%nat.
Proof.
  intros E. pose proof (wf_W p wf). pose proof (npub_bound ltac:(lia)) as B. cbv zeta in B.
  rewrite E in B. rewrite (wf_max p wf). pose proof slen_pos. nia.
Qed.

(** *** Exact cover *)
Lemma below_inv i j : below i j -> i = j \/ exists m, below i m /\ (j = 2 * m + 1 \/ j = 2 * m + 2)%nat.
Proof. intros B. inversion B; subst; [left; auto|right; eauto|right; eauto]. Qed.

Lemma F_up i j : below i j -> (j < nn)%nat -> F j = true -> F i = true.
Proof.
  intros B Hj Fj. apply F_below; [apply below_le in B; lia|].
  apply F_below in Fj; auto. destruct Fj as (t & T1 & T2 & T3). exists t. split; auto. split; auto.
  eapply below_trans; eauto.
Qed.

Lemma below_chain i i' j : below i j -> below i' j -> below i i' \/ below i' i.
Proof.
  intros B. revert i'. induction B; intros i' B'.
  - auto.
  - apply below_inv in B'. destruct B' as [->|(m & Bm & [E|E])]; try lia.
    + left. apply below_left. auto.
    + apply IHB. replace j with m by lia. auto.
  - apply below_inv in B'. destruct B' as [->|(m & Bm & [E|E])]; try lia.
    + left. apply below_right. auto.
    + apply IHB. replace j with m by lia. auto.
Qed.

Lemma pub_spec i : pub i = true <-> exists m, (i = 2 * m + 1 \/ i = 2 * m + 2)%nat /\ F i = false /\ F m = true.
Proof.
  split.
  - intros H. destruct i as [|j]; [discriminate|]. cbn in H. apply andb_true_iff in H. destruct H as [H1 H2].
    apply negb_true_iff in H1. exists (j / 2)%nat. split; auto.
    pose proof (Nat.div_mod j 2 ltac:(lia)) as DM. pose proof (Nat.mod_upper_bound j 2 ltac:(lia)). lia.
  - intros (m & [-> | ->] & H1 & H2); [rewrite pub_left|rewrite pub_right]; rewrite H1, H2; auto.
Qed.

Lemma cover_exists j : F 0 = true -> F j = false -> exists i, pub i = true /\ below i j.
Proof.
  intros F0. induction j as [j IH] using lt_wf_ind. intros Fj.
  destruct j as [|k]; [congruence|].
  set (m := (k / 2)%nat).
  assert (Hm : (S k = 2 * m + 1 \/ S k = 2 * m + 2)%nat).
  { pose proof (Nat.div_mod k 2 ltac:(lia)) as DM. pose proof (Nat.mod_upper_bound k 2 ltac:(lia)). unfold m. lia. }
  destruct (F m) eqn:Fm.
  - exists (S k). split; [|constructor]. apply pub_spec. exists m. auto.
  - destruct (IH m ltac:(lia) Fm) as (i & P & B). exists i. split; auto.
    destruct Hm as [-> | ->]; [apply below_left|apply below_right]; auto.
Qed.

Lemma cover_unique j i i' : (j < nn)%nat -> pub i = true -> below i j -> pub i' = true -> below i' j -> i = i'.
Proof.
  intros Hj.
  assert (G : forall a b, pub a = true -> pub b = true -> below a b -> (b < nn)%nat -> a = b).
  { intros a b Pa Pb B Hb. apply below_inv in B. destruct B as [->|(m & Bm & E)]; auto. exfalso.
    apply pub_spec in Pa. destruct Pa as (_ & _ & Fa & _). apply pub_spec in Pb. destruct Pb as (m' & E' & _ & Fm).
    assert (m' = m) by lia. subst m'. rewrite (F_up a m Bm) in Fa; auto; try discriminate. lia. }
  intros P B P' B'. pose proof (below_le _ _ B). pose proof (below_le _ _ B').
  destruct (below_chain _ _ _ B B'); [apply G|symmetry; apply G]; auto; lia.
Qed.

(** *** Path and rebuild *)
Definition tree_mem (tree : list (list Z)) : Prop := shape nn slen tree.

Lemma get_parent_ok j : (S j < nn)%nat -> get_parent fl (S j) = Ok (b2z (F (j / 2))).
Proof.
  intros H. cbn [get_parent]. pose proof (fs_len fl FS).
  assert (j / 2 < nn)%nat by (apply Nat.le_lt_trans with j; [apply Nat.div_le_upper_bound; lia|lia]).
  rewrite (get_ok _ _ 0) by lia. f_equal. apply fl_b. auto.
Qed.

Definition pubseeds (tree : list (list Z)) (n : nat) : list Z :=
  concat (map (fun i => nth i tree []) (enum pub n)).

Lemma enum_lt f n i : In i (enum f n) -> (i < n)%nat.
Proof. intros H. apply in_enum in H. lia. Qed.

Lemma pubseeds_length tree n : tree_mem tree -> (n <= nn)%nat -> length (pubseeds tree n) = (cnt pub n * slen)%nat.
Proof.
  intros HT. induction n; intros H. { reflexivity. }
  unfold pubseeds in *. rewrite enum_S, map_app, concat_app, app_length, IHn, cnt_S by lia.
  destruct (pub n); cbn [map concat app length]; [|lia].
  rewrite app_nil_r, (shape_row _ _ _ _ HT) by lia. lia.
Qed.

Lemma pubseeds_S tree n : pubseeds tree (S n) = pubseeds tree n ++ (if pub n then nth n tree [] else []).
Proof.
  unfold pubseeds. rewrite enum_S, map_app, concat_app. destruct (pub n); auto. cbn. rewrite app_nil_r. auto.
Qed.

Lemma path_loop tree stg : tree_mem tree -> F 0 = true -> (npub * slen <= length stg)%nat ->
  okp (for_ nn 0 (fun i s =>
    let '(num, stg) := s in
    f <- get fl i ;;
    if f =? 0 then
      (pf <- get_parent fl i ;;
       if pf =? 1 then
         (sd <- get tree i ;;
          stg' <- wr stg (num * slen) sd ;;
          Ok (S num, stg'))
       else Ok (num, stg))
    else Ok (num, stg)) (0%nat, stg))
   (fun '(num, stg') => num = npub /\ stg' = pubseeds tree nn ++ skipn (npub * slen) stg).
Proof.
  intros HT F0 HL. pose proof (fs_len fl FS) as Lfl.
  eapply okp_mono. apply okp_for with (I := fun n '(num, stg') => num = cnt pub n /\
    stg' = pubseeds tree n ++ skipn (cnt pub n * slen) stg).
  - rewrite cnt_0. split; auto.
  - intros i [num stg'] Hi (-> & ->).
    rewrite (get_ok _ i 0) by lia. cbn [bind]. rewrite fl_b by lia.
    rewrite cnt_S, pubseeds_S.
    destruct (F i) eqn:Fi; cbn [b2z].
    + change (1 =? 0) with false. cbn iota. apply okp_ok.
      assert (E : pub i = false). { destruct i; auto. cbn. rewrite Fi. auto. } rewrite E, Nat.add_0_r, app_nil_r. auto.
    + change (0 =? 0) with true. cbn iota. destruct i as [|j]; [congruence|].
      rewrite get_parent_ok by lia. cbn [bind].
      assert (E : pub (S j) = F (j / 2)) by (cbn; rewrite Fi; auto).
      rewrite E. destruct (F (j / 2)) eqn:Fp; cbn [b2z].
      * change (1 =? 1) with true. cbn iota.
        rewrite (get_ok _ _ []) by (rewrite (shape_len _ _ _ HT); lia). cbn [bind].
        assert (LT : length (nth (S j) tree []) = slen) by (apply (shape_row _ _ _ _ HT); lia).
        assert (C : (cnt pub (S j) < npub)%nat) by (apply cnt_lt; [lia|auto]).
        assert (LP : length (pubseeds tree (S j)) = (cnt pub (S j) * slen)%nat) by (apply pubseeds_length; auto; lia).
        assert (LA : length (pubseeds tree (S j) ++ skipn (cnt pub (S j) * slen) stg) = length stg).
        { rewrite app_length, skipn_length, LP. nia. }
        rewrite wr_ok by (rewrite LA, LT; nia). cbn [bind]. apply okp_ok. split; [lia|].
        rewrite firstn_app, LP, Nat.sub_diag. cbn [firstn]. rewrite app_nil_r.
        rewrite <- LP at 1. rewrite firstn_all. rewrite <- app_assoc. f_equal. f_equal.
        rewrite LT. rewrite skipn_app, LP. rewrite skipn_all2 by lia. cbn [app].
        rewrite skipn_skipn. f_equal. lia.
      * change (0 =? 1) with false. cbn iota. apply okp_ok. rewrite Nat.add_0_r, app_nil_r. auto.
  - intros [num stg'] H. exact H.
Qed.

End FL.

Lemma npub_leaves fl : flags_spec fl -> (0 < weight ind)%nat -> (npub fl <= L)%nat.
Proof.
  intros FS HW. pose proof (npub_eq fl FS HW) as E. pose proof (cnt_le (F fl) (L - 1)). pose proof L_pos. lia.
Qed.

Lemma seed_tree_path_gen tree stg : tree_mem tree -> (0 < weight ind)%nat ->
  (forall fl, flags_spec fl -> (npub fl * slen <= length stg)%nat) ->
  exists fl, flags_spec fl /\ compute_seeds_to_publish p (repeat 0 nn) ind = Ok fl /\
    seed_tree_path p tree ind stg = Ok (npub fl, pubseeds fl tree nn ++ skipn (npub fl * slen) stg).
Proof.
  intros HT HW HL. destruct compute_seeds_spec as (fl & E & FS). exists fl. split; auto. split; auto.
  unfold seed_tree_path. rewrite E. cbn [bind].
  pose proof (F_root fl FS HW) as F0. specialize (HL fl FS).
  destruct (path_loop fl FS tree stg HT F0 HL) as ([num stg'] & -> & -> & ->). auto.
Qed.

Lemma seed_tree_path_spec tree stg : tree_mem tree -> weight ind = pW p ->
  (Z.to_nat (p_maxbytes p) <= length stg)%nat ->
  exists fl, flags_spec fl /\ compute_seeds_to_publish p (repeat 0 nn) ind = Ok fl /\
    seed_tree_path p tree ind stg = Ok (npub fl, pubseeds fl tree nn ++ skipn (npub fl * slen) stg).
Proof.
  intros HT HW HL. pose proof (wf_W p wf). apply seed_tree_path_gen; auto; [lia|].
  intros fl FS. pose proof (npub_bytes fl FS HW). lia.
Qed.

(** *** The tree itself *)
Definition kids (salt s : list Z) : list Z := fst (x_squeeze X (2 * slen) (x_init X (salt ++ s))).

(** Every inner node determines its two children. *)
Definition tree_gen (salt : list Z) (tree : list (list Z)) : Prop := forall i, (i < L - 1)%nat ->
  nth (2 * i + 1) tree [] = firstn slen (kids salt (nth i tree [])) /\
  nth (2 * i + 2) tree [] = skipn slen (kids salt (nth i tree [])).

Lemma expand_children_ok tree salt i : tree_mem tree -> (i < L - 1)%nat ->
  expand_children X p tree salt i =
  Ok (upd (upd tree (2 * i + 1) (firstn slen (kids salt (nth i tree []))))
        (2 * i + 2) (skipn slen (kids salt (nth i tree [])))).
Proof.
  intros HT Hi. pose proof nn_L. pose proof (shape_len _ _ _ HT) as LT.
  unfold expand_children, kids. rewrite (get_ok _ i []) by lia. cbn [bind].
  destruct (x_squeeze X (2 * slen) _) as [bs st]. cbn [fst].
  rewrite set_ok by lia. cbn [bind]. rewrite set_ok by (rewrite upd_length; lia). auto.
Qed.

Lemma kids_length salt s : lawful X (hash_len p) ->
  length (firstn slen (kids salt s)) = slen /\ length (skipn slen (kids salt s)) = slen.
Proof.
  intros LX. unfold kids. pose proof (law_sq_len _ _ LX (2 * slen) (x_init X (salt ++ s))) as E.
  rewrite firstn_length, skipn_length. lia.
Qed.

Lemma kids_bytes salt s : lawful X (hash_len p) ->
  bytes (firstn slen (kids salt s)) /\ bytes (skipn slen (kids salt s)).
Proof.
  intros LX. unfold kids. pose proof (law_sq_bytes _ _ LX (2 * slen) (x_init X (salt ++ s))) as E.
  split; [apply Forall_firstn|apply Forall_skipn]; auto.
Qed.

Lemma generate_seed_tree_spec tree root salt : lawful X (hash_len p) -> tree_mem tree ->
  length root = slen -> bytes root -> Forall bytes tree ->
  okp (generate_seed_tree_from_root X p tree root salt) (fun t => tree_mem t /\ Forall bytes t /\
    nth 0 t [] = root /\ tree_gen salt t).
Proof.
  intros LX HT HR HRb HB. pose proof nn_L as NL. pose proof L_pos. pose proof (shape_len _ _ _ HT) as LT.
  unfold generate_seed_tree_from_root. rewrite set_ok by lia. cbn [bind].
  eapply okp_mono. apply okp_for with (I := fun n t => tree_mem t /\ Forall bytes t /\ nth 0 t [] = root /\
    forall i, (i < n)%nat -> nth (2 * i + 1) t [] = firstn slen (kids salt (nth i t [])) /\
       nth (2 * i + 2) t [] = skipn slen (kids salt (nth i t []))).
  - split. { apply shape_upd; auto. } split. { apply Forall_upd; auto. } split. { apply nth_upd_same. lia. } intros; lia.
  - intros i t Hi (I1 & I2 & I3 & I4). rewrite expand_children_ok by (auto; lia). apply okp_ok.
    destruct (kids_length salt (nth i t []) LX) as [K1 K2]. destruct (kids_bytes salt (nth i t []) LX) as [B1 B2].
    pose proof (shape_len _ _ _ I1) as Lt.
    split. { apply shape_upd; auto. apply shape_upd; auto. } split. { apply Forall_upd; auto. apply Forall_upd; auto. }
    split. { rewrite !nth_upd_other by lia. auto. }
    intros j Hj. destruct (Nat.eq_dec j i) as [->|].
    + rewrite (nth_upd_other _ (2 * i + 2) (2 * i + 1)) by lia. rewrite nth_upd_same by lia.
      rewrite (nth_upd_same _ (2 * i + 2)) by (rewrite upd_length; lia). rewrite !nth_upd_other by lia. auto.
    + rewrite !nth_upd_other by lia. apply I4. lia.
  - intros t (I1 & I2 & I3 & I4). split; auto.
Qed.

(** *** Rebuilding *)
Lemma rebuild_gen tree0 stored salt : lawful X (hash_len p) -> tree_mem tree0 -> (0 < weight ind)%nat ->
  (forall fl, flags_spec fl -> (npub fl * slen <= length stored)%nat) ->
  exists fl, flags_spec fl /\ compute_seeds_to_publish p (repeat 0 nn) ind = Ok fl /\
  okp (rebuild_seed_tree_leaves X p tree0 ind stored salt) (fun '(used, t) => used = npub fl /\ tree_mem t /\
    forall tree, tree_mem tree -> tree_gen salt tree ->
      firstn (npub fl * slen) stored = pubseeds fl tree nn ->
      forall i, (i < nn)%nat -> F fl i = false -> nth i t [] = nth i tree []).
Proof.
  intros LX HT HW HL. destruct compute_seeds_spec as (fl & E & FS). exists fl. split; auto. split; auto.
  unfold rebuild_seed_tree_leaves. rewrite E. cbn [bind]. pose proof nn_L as NL.
  pose proof (F_root fl FS HW) as F0. pose proof (HL fl FS) as HL'. clear HL.
  pose proof (fs_len fl FS) as Lfl.
  eapply okp_mono. apply okp_for with (I := fun n '(used, t) => used = cnt (pub fl) n /\ tree_mem t /\
    forall tree, tree_mem tree -> tree_gen salt tree ->
      firstn (npub fl * slen) stored = pubseeds fl tree nn ->
      forall i, (i < nn)%nat -> F fl i = false ->
       ((i < n)%nat \/ exists j, (j < n)%nat /\ F fl j = false /\ (i = 2 * j + 1 \/ i = 2 * j + 2)%nat) ->
       nth i t [] = nth i tree []).
  - rewrite cnt_0. split; auto. split; auto. intros tree _ _ _ i Hi Fi [Hl|(j & Hj & _)]; lia.
  - intros i [used t] Hi (-> & I1 & I2).
    rewrite (get_ok _ i 0) by lia. cbn [bind]. rewrite (fl_b fl FS) by lia.
    rewrite cnt_S. destruct (F fl i) eqn:Fi; cbn [b2z].
    + change (1 =? 0) with false. cbn iota. apply okp_ok.
      assert (Ep : pub fl i = false). { destruct i; auto. cbn. rewrite Fi. auto. }
      rewrite Ep, Nat.add_0_r. split; auto. split; auto.
      intros tree T1 T2 T3 k Hk Fk D. apply I2; auto. destruct D as [D|(j & Dj & Fj & D)].
      * left. assert (k <> i) by congruence. lia.
      * right. exists j. split; auto. assert (j <> i) by congruence. lia.
    + change (0 =? 0) with true. cbn iota. destruct i as [|j]; [congruence|].
      rewrite (get_parent_ok fl FS) by lia. cbn [bind].
      assert (Ep : pub fl (S j) = F fl (j / 2)) by (cbn; rewrite Fi; auto).
      rewrite Ep.
      eapply okp_bind with (Q := fun '(used', t') => used' = (cnt (pub fl) (S j) + (if F fl (j / 2) then 1 else 0))%nat /\
        tree_mem t' /\ forall tree, tree_mem tree -> tree_gen salt tree ->
        firstn (npub fl * slen) stored = pubseeds fl tree nn ->
        forall i, (i < nn)%nat -> F fl i = false ->
         ((i < S (S j))%nat \/ exists k, (k < S j)%nat /\ F fl k = false /\ (i = 2 * k + 1 \/ i = 2 * k + 2)%nat) ->
         nth i t' [] = nth i tree []).
      { destruct (F fl (j / 2)) eqn:Fp; cbn [b2z].
        - change (1 =? 1) with true. cbn iota.
          assert (C : (cnt (pub fl) (S j) < npub fl)%nat) by (apply cnt_lt; [lia|auto]).
          rewrite rd_ok by nia. cbn [bind].
          rewrite set_ok by (rewrite (shape_len _ _ _ I1); lia). cbn [bind]. apply okp_ok.
          split; [lia|]. split.
          { apply shape_upd; auto. rewrite firstn_length, skipn_length. nia. }
          intros tree T1 T2 T3 i Hi2 Fi2 D. rewrite nth_upd by (rewrite (shape_len _ _ _ I1); lia).
          destruct (Nat.eqb_spec (S j) i) as [<-|Ne].
          + (* the stored seed is that of node S j *)
            assert (PS : pubseeds fl tree nn = pubseeds fl tree (S j) ++ nth (S j) tree [] ++
                         concat (map (fun i => nth i tree []) (filter (pub fl) (seq (S (S j)) (nn - S (S j)))))).
            { unfold pubseeds, enum. replace nn with (S (S j) + (nn - S (S j)))%nat at 1 by lia.
              rewrite seq_app, filter_app, map_app, concat_app. fold (enum (pub fl) (S (S j))).
              change (concat (map (fun i => nth i tree []) (enum (pub fl) (S (S j))))) with (pubseeds fl tree (S (S j))).
              rewrite pubseeds_S, Ep, <- app_assoc. auto. }
            assert (LP : length (pubseeds fl tree (S j)) = (cnt (pub fl) (S j) * slen)%nat) by (apply pubseeds_length; auto; lia).
            assert (LT : length (nth (S j) tree []) = slen) by (apply (shape_row _ _ _ _ T1); lia).
            rewrite <- (firstn_skipn (npub fl * slen) stored). rewrite T3, PS.
            rewrite <- !app_assoc. rewrite skipn_app, LP.
            rewrite skipn_all2 by lia. replace (slen * cnt (pub fl) (S j) - cnt (pub fl) (S j) * slen)%nat with 0%nat by lia.
            cbn [skipn app]. rewrite firstn_app, LT, Nat.sub_diag. cbn [firstn]. rewrite app_nil_r.
            rewrite <- LT at 1. apply firstn_all.
          + apply (I2 tree); auto. destruct D as [D|D]; [left; lia|right; exact D].
        - change (0 =? 1) with false. cbn iota. apply okp_ok. split; [lia|]. split; auto.
          intros tree T1 T2 T3 i Hi2 Fi2 D. apply (I2 tree); auto. destruct D as [D|D]; [|right; exact D].
          destruct (Nat.eq_dec i (S j)) as [->|]; [|left; lia]. right. exists (j / 2)%nat.
          split. { apply Nat.le_lt_trans with j; [apply Nat.div_le_upper_bound; lia|lia]. } split; auto.
          pose proof (Nat.div_mod j 2 ltac:(lia)) as DM. pose proof (Nat.mod_upper_bound j 2 ltac:(lia)). lia. }
      intros [used' t'] (-> & J1 & J2). destruct (Nat.ltb_spec (S j) (L - 1)) as [Lt|Ge].
      * rewrite expand_children_ok by auto. cbn [bind]. apply okp_ok. split; auto.
        destruct (kids_length salt (nth (S j) t' []) LX) as [K1 K2]. pose proof (shape_len _ _ _ J1) as Lt'.
        split. { apply shape_upd; auto. apply shape_upd; auto. }
        intros tree T1 T2 T3 i Hi2 Fi2 D.
        assert (ES : nth (S j) t' [] = nth (S j) tree []). { apply (J2 tree); auto; try lia. }
        destruct (T2 (S j) Lt) as [C1 C2]. rewrite <- ES in C1, C2.
        rewrite nth_upd by (rewrite upd_length; lia). destruct (Nat.eqb_spec (2 * S j + 2) i) as [<-|]; auto.
        rewrite nth_upd by lia. destruct (Nat.eqb_spec (2 * S j + 1) i) as [<-|]; auto.
        apply (J2 tree); auto. destruct D as [D|(k & Dk & Fk & D)]; [left; lia|].
        destruct (Nat.eq_dec k (S j)) as [->|]; [lia|]. right. exists k. split; [lia|]. auto.
      * apply okp_ok. split; auto. split; auto.
        intros tree T1 T2 T3 i Hi2 Fi2 D. apply (J2 tree); auto. destruct D as [D|(k & Dk & Fk & D)]; [left; lia|].
        destruct (Nat.eq_dec k (S j)) as [->|]; [lia|]. right. exists k. split; [lia|]. auto.
  - intros [used t] (I1 & I2 & I3). cbn [Nat.add] in *. split; [auto|]. split; [auto|].
    intros tree T1 T2 T3 i Hi Fi. apply (I3 tree); auto.
Qed.

Lemma rebuild_spec tree0 stored salt : lawful X (hash_len p) -> tree_mem tree0 -> weight ind = pW p ->
  (Z.to_nat (p_maxbytes p) <= length stored)%nat \/
  (forall fl, flags_spec fl -> (npub fl * slen <= length stored)%nat) ->
  exists fl, flags_spec fl /\ compute_seeds_to_publish p (repeat 0 nn) ind = Ok fl /\
  okp (rebuild_seed_tree_leaves X p tree0 ind stored salt) (fun '(used, t) => used = npub fl /\ tree_mem t /\
    forall tree, tree_mem tree -> tree_gen salt tree ->
      firstn (npub fl * slen) stored = pubseeds fl tree nn ->
      forall i, (i < nn)%nat -> F fl i = false -> nth i t [] = nth i tree []).
Proof.
  intros LX HT HW HL. pose proof (wf_W p wf). apply rebuild_gen; auto; [lia|].
  intros fl FS. pose proof (npub_bytes fl FS HW). destruct HL as [HL|HL]; [lia|auto].
Qed.

End T.
