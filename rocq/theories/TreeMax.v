(** The largest number of published seeds is attained, for every number of leaves and every weight. *)
From Verif Require Import Base BaseLemmas Params ParamsProofs Prim SeedTree Spec EnumProofs SeedTreeProofs TreeFacts.

Lemma NoDup_app_intro {A} (a b : list A) : NoDup a -> NoDup b -> (forall x, In x a -> ~ In x b) -> NoDup (a ++ b).
Proof.
  induction 1; intros HB HD; cbn; auto. constructor.
  - intros C. apply in_app_or in C. destruct C as [C|C]; [auto|]. apply (HD x); cbn; auto.
  - apply IHNoDup; auto. intros y Hy. apply HD. cbn. auto.
Qed.

Lemma pow_ge1 d : (1 <= 2 ^ d)%nat.
Proof. pose proof (Nat.pow_nonzero 2 d). lia. Qed.

Section M.
Variable p : params.
Hypothesis wf : wf_params p.
Variable W : nat.
Hypothesis HW : (1 <= W <= pT p)%nat.
Notation h := (tree_height p).
Notation T := (pT p).
Notation L := (num_leaves p).

(** Nodes of depth [d] above one of the first T leaves. *)
Definition avail (d : nat) : nat := ((T - 1) / 2 ^ (h - d) + 1)%nat.
Definition most (d : nat) : nat := Nat.min W (avail d).

Lemma avail_S d : (d < h)%nat -> (avail (S d) <= 2 * avail d)%nat /\ (2 * avail d <= avail (S d) + 1)%nat.
Proof.
  intros Hd. unfold avail. set (x := ((T - 1) / 2 ^ (h - S d))%nat).
  assert (E : ((T - 1) / 2 ^ (h - d) = x / 2)%nat).
  { unfold x. rewrite Nat.div_div by (try apply Nat.pow_nonzero; lia). f_equal. replace (h - d)%nat with (S (h - S d)) by lia.
    rewrite Nat.pow_succ_r'. lia. }
  rewrite E. pose proof (Nat.div_mod x 2 ltac:(lia)). pose proof (Nat.mod_upper_bound x 2 ltac:(lia)). lia.
Qed.

Lemma avail_h : avail h = T.
Proof using wf HW. unfold avail. rewrite Nat.sub_diag. cbn [Nat.pow]. rewrite Nat.div_1_r. lia. Qed.

Lemma avail_0 : avail 0 = 1%nat.
Proof using wf HW. unfold avail. rewrite Nat.sub_0_r. rewrite Nat.div_small. lia. pose proof (T_lt_L p wf). unfold num_leaves in *. lia. Qed.

Lemma avail_pow d : (d <= h)%nat -> (avail d <= 2 ^ d)%nat.
Proof using wf HW.
  induction d; intros Hd. { rewrite avail_0. cbn. lia. }
  destruct (avail_S d ltac:(lia)). rewrite Nat.pow_succ_r'. specialize (IHd ltac:(lia)). lia.
Qed.

(** Spread the hidden leaves as early as possible: every chosen node keeps its left child, and right
    children are added as long as the weight allows. *)
Fixpoint lvl (d : nat) : list nat :=
  match d with
  | O => [0%nat]
  | S d' => map (fun q => 2 * q)%nat (lvl d') ++
      firstn (most (S d') - most d') (filter (fun q => q <? avail (S d'))%nat (map (fun q => 2 * q + 1)%nat (lvl d')))
  end.

Lemma lvl_ok d : (d <= h)%nat -> NoDup (lvl d) /\ (forall q, In q (lvl d) -> (q < avail d)%nat) /\ length (lvl d) = most d.
Proof using wf HW.
  induction d; intros Hd.
  { cbn [lvl]. unfold most. rewrite avail_0. split; [|split]. constructor; [intros []|constructor].
    intros q [<-|[]]. lia. cbn. lia. }
  destruct (IHd ltac:(lia)) as (ND & BD & LD). destruct (avail_S d ltac:(lia)) as [A1 A2]. cbn [lvl].
  set (R := filter _ _). set (k := (most (S d) - most d)%nat).
  assert (NM1 : NoDup (map (fun q => 2 * q)%nat (lvl d))) by (apply FinFun.Injective_map_NoDup; auto; intros a b E; lia).
  assert (NM2 : NoDup (map (fun q => 2 * q + 1)%nat (lvl d))) by (apply FinFun.Injective_map_NoDup; auto; intros a b E; lia).
  assert (NR : NoDup R) by (apply NoDup_filter; auto).
  assert (KR : (k <= length R)%nat).
  { destruct (Nat.le_gt_cases (avail d) W) as [Le|Gt]; [|unfold k, most; lia].
    assert (FULL : forall q, (q < avail d)%nat -> In q (lvl d)).
    { assert (I : incl (seq 0 (avail d)) (lvl d)).
      { apply NoDup_length_incl; auto. rewrite seq_length, LD. unfold most. lia.
        intros q Hq. apply in_seq. specialize (BD q Hq). lia. }
      intros q Hq. apply I. apply in_seq. lia. }
    assert (NI : NoDup (map (fun q => 2 * q + 1)%nat (seq 0 (avail (S d) - avail d)))).
    { apply FinFun.Injective_map_NoDup; [intros a b E; lia|apply seq_NoDup]. }
    assert (II : incl (map (fun q => 2 * q + 1)%nat (seq 0 (avail (S d) - avail d))) R).
    { intros x Hx. apply in_map_iff in Hx. destruct Hx as (q & <- & Hq). apply in_seq in Hq. apply filter_In. split.
      - apply (in_map (fun q => 2 * q + 1)%nat). apply FULL. lia.
      - apply Nat.ltb_lt. lia. }
    pose proof (NoDup_incl_length NI II) as LL. rewrite map_length, seq_length in LL. unfold k, most. lia. }
  assert (FIN : forall x, In x (firstn k R) -> In x R).
  { intros x Hx. rewrite <- (firstn_skipn k R). apply in_or_app. auto. }
  split; [|split].
  - apply NoDup_app_intro; auto.
    + clear -NR. generalize k. clear k. induction NR as [|x l NI NR IH]; intros [|k]; cbn [firstn]; try apply NoDup_nil.
      apply NoDup_cons; [|apply IH]. intros C. apply NI. rewrite <- (firstn_skipn k l). apply in_or_app. auto.
    + intros x H1 H2. apply FIN in H2. apply filter_In in H2. destruct H2 as [H2 _].
      apply in_map_iff in H1. apply in_map_iff in H2. destruct H1 as (a & <- & _), H2 as (b & E & _). lia.
  - intros q Hq. apply in_app_or in Hq. destruct Hq as [Hq|Hq].
    + apply in_map_iff in Hq. destruct Hq as (a & <- & Ha). specialize (BD a Ha). lia.
    + apply FIN in Hq. apply filter_In in Hq. apply Nat.ltb_lt. apply Hq.
  - rewrite app_length, map_length, firstn_length, LD. unfold k, most in *. lia.
Qed.

Lemma lvl_up d q : In q (lvl (S d)) -> In (q / 2)%nat (lvl d).
Proof.
  cbn [lvl]. intros H. apply in_app_or in H. destruct H as [H|H].
  - apply in_map_iff in H. destruct H as (a & <- & Ha). rewrite Nat.mul_comm, Nat.div_mul by lia. auto.
  - assert (H' : In q (filter (fun q => q <? avail (S d))%nat (map (fun q => 2 * q + 1)%nat (lvl d)))).
    { rewrite <- (firstn_skipn (most (S d) - most d)). apply in_or_app. auto. }
    apply filter_In in H'. destruct H' as [H' _]. apply in_map_iff in H'. destruct H' as (a & <- & Ha).
    replace ((2 * a + 1) / 2)%nat with a by (apply Nat.div_unique with 1%nat; lia). auto.
Qed.

Lemma lvl_down d q : In q (lvl d) -> In (2 * q)%nat (lvl (S d)).
Proof. intros H. cbn [lvl]. apply in_or_app. left. apply (in_map (fun q => 2 * q)%nat). auto. Qed.

Definition pattern : list Z := map (fun t => if in_dec Nat.eq_dec t (lvl h) then 1 else 0) (seq 0 T).

Lemma pattern_len : length pattern = T.
Proof. unfold pattern. rewrite map_length, seq_length. auto. Qed.

Lemma pattern_01 : Forall (fun x => x = 0 \/ x = 1) pattern.
Proof. apply Forall_forall. intros x Hx. apply in_map_iff in Hx. destruct Hx as (t & <- & _). destruct (in_dec _ _ _); auto. Qed.

Lemma pattern_nth t : (t < T)%nat -> (nth t pattern 0 =? 1) = if in_dec Nat.eq_dec t (lvl h) then true else false.
Proof.
  intros Ht. unfold pattern.
  assert (G : forall n s, (t < n)%nat -> nth t (map (fun t => if in_dec Nat.eq_dec t (lvl h) then 1 else 0) (seq s n)) 0 =
    if in_dec Nat.eq_dec (s + t)%nat (lvl h) then 1 else 0).
  { clear. induction t; intros [|n] s Hn; try lia; cbn [seq map nth]. { rewrite Nat.add_0_r. auto. }
    rewrite IHt by lia. rewrite Nat.add_succ_r. auto. }
  rewrite G by auto. cbn [Nat.add]. destruct (in_dec _ _ _); auto.
Qed.

Lemma same_size (l : list nat) n f : NoDup l -> (forall q, In q l <-> (q < n)%nat /\ f q = true) -> length (filter f (seq 0 n)) = length l.
Proof.
  intros ND H. apply Nat.le_antisymm; apply NoDup_incl_length; auto.
  - apply NoDup_filter, seq_NoDup.
  - intros q Hq. apply filter_In in Hq. destruct Hq as [H1 H2]. apply in_seq in H1. apply H. split; auto. lia.
  - intros q Hq. apply H in Hq. apply filter_In. split; [apply in_seq; lia|apply Hq].
Qed.

Lemma pattern_weight : weight pattern = W.
Proof using wf HW.
  destruct (lvl_ok h (le_n _)) as (ND & BD & LD). rewrite avail_h in BD. unfold most in LD. rewrite avail_h in LD.
  transitivity (length (lvl h)); [|lia]. rewrite <- (same_size (lvl h) T (fun t => if in_dec Nat.eq_dec t (lvl h) then true else false)); auto.
  - unfold weight, pattern. assert (G : forall n s, length (filter (fun x => negb (x =? 0)) (map (fun t => if in_dec Nat.eq_dec t (lvl h) then 1 else 0) (seq s n))) =
      length (filter (fun t => if in_dec Nat.eq_dec t (lvl h) then true else false) (seq s n))).
    { clear. induction n as [|n IH]; intros s; cbn [seq map filter]; auto.
      destruct (in_dec Nat.eq_dec s (lvl h)); cbn [negb Z.eqb length]; rewrite IH; auto. }
    apply G.
  - intros q. specialize (BD q). destruct (in_dec Nat.eq_dec q (lvl h)); split; intros; auto; try (split; auto); try tauto. destruct H; discriminate.
Qed.

Lemma cnt_shift f a n : cnt f (a + n) = (cnt f a + length (filter (fun q => f (a + q)%nat) (seq 0 n)))%nat.
Proof.
  induction n. { rewrite Nat.add_0_r. cbn. lia. }
  rewrite Nat.add_succ_r, cnt_S, IHn. rewrite seq_S, filter_app, app_length. cbn [Nat.add filter]. destruct (f (a + n)%nat); cbn; lia.
Qed.

Section FL.
Variable fl : list Z.
Hypothesis FS : flags_spec p pattern fl.

Lemma F_lvl k : (k <= h)%nat -> forall q, (q < 2 ^ (h - k))%nat -> F fl (2 ^ (h - k) - 1 + q) = if in_dec Nat.eq_dec q (lvl (h - k)) then true else false.
Proof using wf HW FS.
  pose proof (T_lt_L p wf) as TL. induction k; intros Hk q Hq.
  - rewrite Nat.sub_0_r in *. fold L in Hq |- *. rewrite (F_leaf p pattern fl FS) by auto.
    destruct (Nat.ltb_spec q T); cbn [andb]; [apply pattern_nth; auto|].
    destruct (in_dec Nat.eq_dec q (lvl h)) as [I|]; auto. apply (lvl_ok h (le_n _)) in I. rewrite avail_h in I. lia.
  - specialize (IHk ltac:(lia)). set (d := (h - S k)%nat) in *. assert (Ed : (h - k = S d)%nat) by lia. rewrite Ed in IHk.
    rewrite Nat.pow_succ_r' in IHk. pose proof (pow_ge1 d) as PD.
    assert (PL : (2 ^ S d <= L)%nat) by (unfold num_leaves; apply Nat.pow_le_mono_r; lia). rewrite Nat.pow_succ_r' in PL.
    rewrite (F_node p pattern fl FS) by lia.
    replace (2 * (2 ^ d - 1 + q) + 1)%nat with (2 * 2 ^ d - 1 + 2 * q)%nat by lia.
    replace (2 * (2 ^ d - 1 + q) + 2)%nat with (2 * 2 ^ d - 1 + (2 * q + 1))%nat by lia.
    rewrite !IHk by lia. destruct (in_dec Nat.eq_dec q (lvl d)) as [I|NI].
    + apply lvl_down in I. destruct (in_dec Nat.eq_dec (2 * q)%nat (lvl (S d))); [auto|tauto].
    + destruct (in_dec Nat.eq_dec (2 * q)%nat (lvl (S d))) as [I|_].
      { apply lvl_up in I. rewrite Nat.mul_comm, Nat.div_mul in I by lia. tauto. }
      destruct (in_dec Nat.eq_dec (2 * q + 1)%nat (lvl (S d))) as [I|_]; auto.
      apply lvl_up in I. replace ((2 * q + 1) / 2)%nat with q in I by (apply Nat.div_unique with 1%nat; lia). tauto.
Qed.

Lemma cnt_lvl d : (d <= h)%nat -> cnt (F fl) (2 ^ d - 1) = inner_max d h T W.
Proof using wf HW FS.
  induction d; intros Hd. { reflexivity. }
  cbn [inner_max]. rewrite <- IHd by lia. pose proof (pow_ge1 d).
  replace (2 ^ S d - 1)%nat with (2 ^ d - 1 + 2 ^ d)%nat by (rewrite Nat.pow_succ_r'; lia). rewrite cnt_shift. f_equal.
  destruct (lvl_ok d ltac:(lia)) as (ND & BD & LD). change (Nat.min W _) with (most d). rewrite <- LD. apply same_size; auto.
  pose proof (avail_pow d ltac:(lia)) as AP. intros q.
  assert (FL : (q < 2 ^ d)%nat -> F fl (2 ^ d - 1 + q) = if in_dec Nat.eq_dec q (lvl d) then true else false).
  { pose proof (F_lvl (h - d) ltac:(lia) q) as E. replace (h - (h - d))%nat with d in E by lia. auto. }
  split.
  - intros Hq. specialize (BD q Hq). split; [lia|]. rewrite FL by lia. destruct (in_dec _ _ _); tauto.
  - intros [H1 H2]. rewrite FL in H2 by auto. destruct (in_dec Nat.eq_dec q (lvl d)); [auto|discriminate].
Qed.

Lemma npub_pattern : npub p fl = most_published h T W.
Proof using wf HW FS.
  pose proof (npub_eq p wf pattern pattern_len pattern_01 fl FS) as E. rewrite pattern_weight in E. specialize (E ltac:(lia)).
  unfold num_leaves in E. rewrite cnt_lvl in E by lia. unfold most_published. lia.
Qed.
End FL.

End M.

(** The sums in closed form. *)
(** With T = 2^k leaves the tree of the code has height k + 1 and its right half is padding. *)
Lemma inner_pow2 k W c d : (1 <= W)%nat -> (2 ^ (c - 1) < W \/ c = 0)%nat -> (W <= 2 ^ c)%nat -> (d <= k)%nat ->
  inner_max (S d) (S k) (2 ^ k) W = if (d <=? c)%nat then (2 ^ d)%nat else (2 ^ c + (d - c) * W)%nat.
Proof.
  intros HW Hc1 Hc2. induction d; intros Hd.
  - cbn [inner_max]. rewrite Nat.sub_0_r, Nat.div_small. 2:{ rewrite Nat.pow_succ_r'. pose proof (pow_ge1 k). lia. }
    cbn. lia.
  - cbn [inner_max] in *. rewrite IHd by lia.
    assert (E : ((2 ^ k - 1) / 2 ^ (S k - S d) + 1 = 2 ^ d)%nat).
    { cbn [Nat.sub]. replace k with (d + (k - d))%nat at 1 by lia. rewrite Nat.pow_add_r. pose proof (pow_ge1 d) as A. pose proof (pow_ge1 (k - d)) as B.
      generalize dependent (2 ^ d)%nat. generalize dependent (2 ^ (k - d))%nat. clear. intros y Hy x Hx.
      destruct x as [|x]; [lia|]. destruct y as [|y]; [lia|].
      rewrite <- (Nat.div_unique (S x * S y - 1) (S y) x y); [lia|lia|]. rewrite (Nat.mul_comm (S y) x). cbn [Nat.mul]. lia. }
    rewrite E. destruct (Nat.leb_spec d c) as [A|A], (Nat.leb_spec (S d) c) as [B|B]; [| |exfalso; clear -A B; lia|].
    + assert (P : (2 ^ d <= 2 ^ (c - 1))%nat) by (apply Nat.pow_le_mono_r; clear -B; lia). rewrite Nat.pow_succ_r'.
      rewrite Nat.min_r. { clear. lia. } destruct Hc1 as [Hc1|Hc1]; [|clear -B Hc1; lia].
      eapply Nat.le_trans; [exact P|]. apply Nat.lt_le_incl. exact Hc1.
    + assert (d = c) by (clear -A B; lia). subst d. replace (S c - c)%nat with 1%nat by (clear; lia). rewrite Nat.min_l by exact Hc2. clear. lia.
    + assert (P : (2 ^ c <= 2 ^ d)%nat) by (apply Nat.pow_le_mono_r; clear -A; lia). rewrite Nat.min_l by (eapply Nat.le_trans; eauto).
      replace (S d - c)%nat with (S (d - c)) by (clear -A; lia). rewrite Nat.mul_succ_l. clear. lia.
Qed.
