(** Facts about the seed tree, stated for the property files. *)
From Verif Require Import Base BaseLemmas Params ParamsProofs Prim SeedTree Spec EnumProofs SeedTreeProofs.

(** Node numbers below a node. *)
Lemma below_pos i j : below i j -> exists k, ((i + 1) * 2 ^ k <= j + 1 < (i + 2) * 2 ^ k)%nat.
Proof.
  induction 1.
  - exists 0%nat. cbn. lia.
  - destruct IHbelow as (k & Hk). exists (S k). rewrite Nat.pow_succ_r'. nia.
  - destruct IHbelow as (k & Hk). exists (S k). rewrite Nat.pow_succ_r'. nia.
Qed.

Section T.
Variable X : prim.
Variable p : params.
Hypothesis wf : wf_params p.
Notation L := (num_leaves p).
Notation nn := (num_nodes p).
Notation slen := (seed_len p).

Section I.
Variable ind : list Z.
Hypothesis Hind : length ind = pT p.
Hypothesis H01 : Forall (fun x => x = 0 \/ x = 1) ind.

Section FL.
Variable fl : list Z.
Hypothesis FS : flags_spec p ind fl.

Lemma lev_le_avail d : (d <= tree_height p)%nat -> (lev fl d <= (pT p - 1) / 2 ^ (tree_height p - d) + 1)%nat.
Proof.
  intros Hd. set (A := ((pT p - 1) / 2 ^ (tree_height p - d) + 1)%nat).
  assert (PD : (1 <= 2 ^ d)%nat) by (pose proof (Nat.pow_nonzero 2 d); lia).
  assert (HL2 : L = (2 ^ d * 2 ^ (tree_height p - d))%nat).
  { unfold num_leaves. rewrite <- Nat.pow_add_r. f_equal. lia. }
  destruct (Nat.le_gt_cases (2 ^ d) A) as [Le|Gt].
  { pose proof (lev_le_pow p ind Hind fl d). lia. }
  assert (Z : forall q, (A <= q < 2 ^ d)%nat -> F fl (2 ^ d - 1 + q) = false).
  { intros q Hq. destruct (F fl (2 ^ d - 1 + q)) eqn:E; auto. exfalso.
    assert (Hn : (2 ^ d - 1 + q < nn)%nat).
    { rewrite nn_L. assert (2 ^ d <= L)%nat by (unfold num_leaves; apply Nat.pow_le_mono_r; lia). lia. }
    apply (F_below p wf ind Hind fl FS) in E; auto. destruct E as (t & Ht & _ & B).
    apply below_pos in B. destruct B as (k & Hk).
    replace (2 ^ d - 1 + q + 1)%nat with (2 ^ d + q)%nat in Hk by lia.
    replace (2 ^ d - 1 + q + 2)%nat with (2 ^ d + q + 1)%nat in Hk by lia.
    pose proof (L_pos p). replace (L - 1 + t + 1)%nat with (L + t)%nat in Hk by lia.
    pose proof (T_lt_L p wf) as TL.
    assert (K1 : (d + k < S (tree_height p))%nat).
    { apply (Nat.pow_lt_mono_r_iff 2); [lia|]. rewrite Nat.pow_succ_r'. fold L. rewrite Nat.pow_add_r. nia. }
    assert (K2 : (tree_height p < S d + k)%nat).
    { apply (Nat.pow_lt_mono_r_iff 2); [lia|]. fold L. rewrite Nat.pow_add_r, Nat.pow_succ_r'. nia. }
    assert (k = tree_height p - d)%nat by lia. subst k.
    assert (Q : (q * 2 ^ (tree_height p - d) <= pT p - 1)%nat) by nia.
    assert (q <= (pT p - 1) / 2 ^ (tree_height p - d))%nat.
    { apply Nat.div_le_lower_bound. apply Nat.pow_nonzero; lia. lia. }
    unfold A in Hq. lia. }
  unfold lev. replace (2 ^ S d - 1)%nat with (2 ^ d - 1 + 2 ^ d)%nat by (rewrite Nat.pow_succ_r'; lia).
  assert (C : forall n, (A <= n <= 2 ^ d)%nat -> cnt (F fl) (2 ^ d - 1 + n) = cnt (F fl) (2 ^ d - 1 + A)).
  { induction n as [|n IH]; intros Hn.
    - assert (A = 0)%nat by lia. congruence.
    - destruct (Nat.eq_dec A (S n)) as [->|]; auto. rewrite Nat.add_succ_r, cnt_S, Z by lia. rewrite IH by lia. lia. }
  rewrite (C (2 ^ d)%nat) by lia. pose proof (cnt_range p ind Hind (F fl) (2 ^ d - 1) A). lia.
Qed.

Lemma cnt_inner d : (d <= tree_height p)%nat ->
  (cnt (F fl) (2 ^ d - 1) <= inner_max d (tree_height p) (pT p) (weight ind))%nat.
Proof.
  induction d; intros Hd. { change (2 ^ 0 - 1)%nat with 0%nat. rewrite cnt_0. cbn. lia. }
  cbn [inner_max]. rewrite (cnt_depth p ind Hind fl). specialize (IHd ltac:(lia)).
  pose proof (lev_le_weight p wf ind Hind H01 fl FS d ltac:(lia)). pose proof (lev_le_avail d ltac:(lia)). lia.
Qed.

Lemma npub_most : (0 < weight ind)%nat -> (npub p fl <= most_published (tree_height p) (pT p) (weight ind))%nat.
Proof.
  intros HW. pose proof (npub_eq p wf ind Hind H01 fl FS HW) as E. pose proof (cnt_inner (tree_height p) (le_n _)) as C.
  fold L in C. unfold most_published. lia.
Qed.

End FL.

(** Enough room for the published seeds. *)
Definition room (stg : list Z) : Prop :=
  (weight ind = pW p /\ (Z.to_nat (p_maxbytes p) <= length stg)%nat) \/ (L * slen <= length stg)%nat.

Lemma room_ok stg : (0 < weight ind)%nat -> room stg -> forall fl, flags_spec p ind fl -> (npub p fl * slen <= length stg)%nat.
Proof.
  intros HW [[E H]|H] fl FS.
  - pose proof (npub_bytes p wf ind Hind H01 fl FS E). lia.
  - pose proof (npub_leaves p wf ind Hind H01 fl FS HW). nia.
Qed.

Lemma path_cover tree stg : shape nn slen tree -> (0 < weight ind)%nat -> room stg ->
  exists nodes, seed_tree_path p tree ind stg =
      Ok (length nodes, concat (map (fun i => nth i tree []) nodes) ++ skipn (length nodes * slen) stg) /\
    NoDup nodes /\ (forall i, In i nodes -> (i < nn)%nat) /\
    (forall t, (t < L)%nat -> ((pT p <= t)%nat \/ nth t ind 0 = 0) ->
       exists i, In i nodes /\ below i (L - 1 + t) /\ forall i', In i' nodes -> below i' (L - 1 + t) -> i' = i) /\
    (forall t, (t < pT p)%nat -> nth t ind 0 = 1 -> forall i, In i nodes -> ~ below i (L - 1 + t)).
Proof.
  intros HT HW HR. destruct (seed_tree_path_gen p wf ind Hind H01 tree stg HT HW (room_ok stg HW HR)) as (fl & FS & _ & E).
  exists (enum (pub fl) nn). change (length (enum (pub fl) nn)) with (npub p fl). split. { exact E. }
  split. { apply NoDup_enum. } split. { intros i Hi. apply in_enum in Hi. apply Hi. }
  pose proof (F_root p wf ind Hind H01 fl FS HW) as F0. pose proof (nn_L p) as NL. pose proof (T_lt_L p wf).
  split.
  - intros t Ht HP. assert (Ff : F fl (L - 1 + t) = false).
    { rewrite (F_leaf p ind fl FS) by auto. destruct (Nat.ltb_spec t (pT p)); auto. destruct HP as [HP|HP]; [lia|]. rewrite HP. auto. }
    destruct (cover_exists p ind Hind fl (L - 1 + t) F0 Ff) as (i & P1 & P2). pose proof (below_le _ _ P2). exists i.
    split. { apply in_enum. split; [lia|auto]. } split; auto.
    intros i' Hi' B'. apply in_enum in Hi'. symmetry. eapply (cover_unique p wf ind Hind fl FS (L - 1 + t)); auto; try apply Hi'. lia.
  - intros t Ht HP i Hi B. apply in_enum in Hi. destruct Hi as [Hi P]. apply (pub_spec p ind Hind) in P. destruct P as (m & _ & Ff & _).
    assert (F fl i = true); [|congruence]. apply (F_below p wf ind Hind fl FS); auto. exists t. auto.
Qed.

Lemma path_max tree stg : shape nn slen tree -> weight ind = pW p -> (Z.to_nat (p_maxbytes p) <= length stg)%nat ->
  exists n stg', seed_tree_path p tree ind stg = Ok (n, stg') /\ Z.of_nat n <= max_seeds p /\
    (n * slen <= Z.to_nat (p_maxbytes p))%nat /\ (n <= most_published (tree_height p) (pT p) (pW p))%nat.
Proof.
  intros HT HW HL. destruct (seed_tree_path_spec p wf ind Hind H01 tree stg HT HW HL) as (fl & FS & _ & ->).
  pose proof (wf_W p wf). exists (npub p fl). eexists. split; [reflexivity|].
  split. { apply (npub_max p wf ind Hind H01 fl FS HW). } split. { apply (npub_bytes p wf ind Hind H01 fl FS HW). }
  rewrite <- HW. apply npub_most; auto. lia.
Qed.

(** The number of seeds published for given flags, computed. *)
Definition count_published : res nat :=
  fl <- compute_seeds_to_publish p (repeat 0 nn) ind ;; Ok (npub p fl).

Lemma path_count tree stg n : shape nn slen tree -> weight ind = pW p -> (Z.to_nat (p_maxbytes p) <= length stg)%nat ->
  count_published = Ok n -> exists stg', seed_tree_path p tree ind stg = Ok (n, stg').
Proof.
  intros HT HW HL HC. destruct (seed_tree_path_spec p wf ind Hind H01 tree stg HT HW HL) as (fl & FS & E & ->).
  unfold count_published in HC. rewrite E in HC. cbn in HC. injection HC as <-. eauto.
Qed.

Lemma rebuild_round tree0 tree1 root salt stg : lawful X (hash_len p) ->
  shape nn slen tree0 -> Forall bytes tree0 -> shape nn slen tree1 -> length root = slen -> bytes root ->
  (0 < weight ind)%nat -> room stg ->
  exists tree n stg', generate_seed_tree_from_root X p tree0 root salt = Ok tree /\
    seed_tree_path p tree ind stg = Ok (n, stg') /\
    forall stored, (n * slen <= length stored)%nat -> firstn (n * slen) stored = firstn (n * slen) stg' ->
    exists tree', rebuild_seed_tree_leaves X p tree1 ind stored salt = Ok (n, tree') /\
      forall t, (t < pT p)%nat -> nth t ind 0 = 0 -> nth (L - 1 + t) tree' [] = nth (L - 1 + t) tree [].
Proof.
  intros LX HT0 HB0 HT1 HR HRB HW HRm.
  destruct (generate_seed_tree_spec X p ind Hind tree0 root salt LX HT0 HR HRB HB0) as (tree & E & T1 & T2 & T3 & T4).
  exists tree. destruct (seed_tree_path_gen p wf ind Hind H01 tree stg T1 HW (room_ok stg HW HRm)) as (fl & FS & _ & EP).
  exists (npub p fl), (pubseeds fl tree nn ++ skipn (npub p fl * slen) stg). split; auto. split; auto.
  intros stored HS EQ.
  assert (LP : length (pubseeds fl tree nn) = (npub p fl * slen)%nat) by (apply (pubseeds_length p ind Hind fl tree nn); auto).
  assert (EQ2 : firstn (npub p fl * slen) stored = pubseeds fl tree nn).
  { rewrite EQ. rewrite <- LP at 1. rewrite firstn_app, firstn_all, Nat.sub_diag, firstn_O, app_nil_r. auto. }
  destruct (rebuild_gen X p wf ind Hind H01 tree1 stored salt LX HT1 HW) as (fl' & FS' & _ & ([used tree'] & E' & U1 & U2 & U3)).
  { intros fl' FS'. pose proof (flags_spec_det p ind Hind fl fl' FS FS') as <-. auto. }
  pose proof (flags_spec_det p ind Hind fl fl' FS FS') as <-.
  exists tree'. rewrite E', U1. split; auto. intros t Ht Hz. pose proof (T_lt_L p wf). pose proof (nn_L p).
  apply (U3 tree); auto; try lia.
  rewrite (F_leaf p ind fl FS) by lia. rewrite Hz. apply andb_false_r.
Qed.

End I.
End T.

(** *** The bound is reached *)

(** The first leaf below each of the [a] nodes at depth [d], and the middle leaf below the first [b] of them. *)
Definition spread (h T d a b : nat) : list Z :=
  map (fun t => if ((t mod 2 ^ (h - d) =? 0) && (t / 2 ^ (h - d) <? a) ||
                    (t mod 2 ^ (h - d) =? 2 ^ (h - d - 1)) && (t / 2 ^ (h - d) <? b))%nat
                then 1 else 0) (seq 0 T).

(** Parameter set, largest number of published seeds, and a challenge pattern reaching it. *)
Definition table : list (params * nat * list Z) :=
  [(cat1_balanced, 92, spread 8 247 4 16 14);
   (cat1_intermediate, 72, spread 8 244 4 16 4);
   (cat1_short_sig, 62, spread 8 198 4 13 4);
   (cat3_balanced, 148, spread 10 759 5 24 9);
   (cat3_short_sig, 133, spread 10 895 4 14 12);
   (cat5_balanced, 206, spread 11 1352 5 22 18);
   (cat5_short_sig, 171, spread 10 907 5 29 8)]%nat.

Definition row_ok (r : params * nat * list Z) : bool :=
  let '(p, n, ind) := r in
  (length ind =? pT p)%nat && forallb (fun x => (x =? 0) || (x =? 1)) ind && (weight ind =? pW p)%nat &&
  match count_published p ind with Ok m => (m =? n)%nat | _ => false end &&
  (n =? most_published (tree_height p) (pT p) (pW p))%nat.

Lemma table_ok : forallb row_ok table = true.
Proof. vm_compute. reflexivity. Qed.

Lemma table_params : map (fun r => fst (fst r)) table = less_params.
Proof. reflexivity. Qed.

Lemma table_row p n ind : In (p, n, ind) table -> wf_params p /\ length ind = pT p /\ Forall (fun x => x = 0 \/ x = 1) ind /\
  weight ind = pW p /\ count_published p ind = Ok n /\ n = most_published (tree_height p) (pT p) (pW p).
Proof.
  intros H. assert (WF : wf_params p).
  { pose proof less_params_wf as W. rewrite Forall_forall in W. apply W. rewrite <- table_params.
    apply in_map_iff. exists (p, n, ind). auto. }
  pose proof table_ok as T. rewrite forallb_forall in T. specialize (T _ H). unfold row_ok in T.
  rewrite !andb_true_iff in T. destruct T as ((((T1 & T2) & T3) & T4) & T5).
  apply Nat.eqb_eq in T1, T3, T5. split; auto. split; auto. split.
  { apply Forall_forall. rewrite forallb_forall in T2. intros x Hx. specialize (T2 x Hx). apply orb_true_iff in T2.
    destruct T2 as [T2|T2]; apply Z.eqb_eq in T2; auto. }
  split; auto. destruct (count_published p ind) as [m| |]; try discriminate. apply Nat.eqb_eq in T4. subst m. auto.
Qed.

Lemma largest_published p n ind : In (p, n, ind) table -> forall tree stg,
  shape (num_nodes p) (seed_len p) tree -> (Z.to_nat (p_maxbytes p) <= length stg)%nat ->
  (exists stg', seed_tree_path p tree ind stg = Ok (n, stg')) /\
  forall ind', length ind' = pT p -> Forall (fun x => x = 0 \/ x = 1) ind' -> weight ind' = pW p ->
    exists n' stg', seed_tree_path p tree ind' stg = Ok (n', stg') /\ (n' <= n)%nat.
Proof.
  intros H tree stg HT HS. destruct (table_row p n ind H) as (WF & R1 & R2 & R3 & R4 & R5). split.
  - apply path_count; auto.
  - intros ind' Q1 Q2 Q3. destruct (path_max p WF ind' Q1 Q2 tree stg HT Q3 HS) as (n' & stg' & E & _ & _ & B).
    exists n', stg'. split; auto. lia.
Qed.

(** In five of the seven sets MAX_PUBLISHED_SEEDS is larger than what any challenge needs. *)
Lemma below_max p : In p [cat1_short_sig; cat3_balanced; cat3_short_sig; cat5_balanced; cat5_short_sig] ->
  wf_params p /\ Z.of_nat (most_published (tree_height p) (pT p) (pW p)) < max_seeds p.
Proof.
  intros Hp. split.
  - pose proof less_params_wf as W. rewrite Forall_forall in W. apply W. cbn in *. tauto.
  - assert (S : forallb (fun p => Z.of_nat (most_published (tree_height p) (pT p) (pW p)) <? max_seeds p)
       [cat1_short_sig; cat3_balanced; cat3_short_sig; cat5_balanced; cat5_short_sig] = true)
      by (vm_compute; reflexivity).
    rewrite forallb_forall in S. apply Z.ltb_lt. apply S. auto.
Qed.
