(** C57: the seed tree in a flat array of bytes with 32-bit indices, and signing and verification on top of it. *)
From Verif Require Import Base BaseLemmas Agree Params ParamsProofs Prim Fq Samplers Utils Monomial Codes SeedTree Less SeedTreeProofs
  SeedBytes Toy PropScheme.

(** *** Cells of a flat array *)

Lemma skipn_concat k tree : Forall (fun s : list Z => length s = k) tree -> forall i, skipn (i * k) (concat tree) = concat (skipn i tree).
Proof.
  intros H. induction H as [|s tree Hs _ IH]; intros i. { cbn [concat]. rewrite !skipn_nil. reflexivity. }
  destruct i as [|i]; [reflexivity|]. cbn [concat skipn Nat.mul]. rewrite skipn_app, skipn_all2 by lia.
  replace (k + i * k - length s)%nat with (i * k)%nat by lia. apply IH.
Qed.
Lemma firstn_concat k tree : Forall (fun s : list Z => length s = k) tree -> forall i, firstn (i * k) (concat tree) = concat (firstn i tree).
Proof.
  intros H. induction H as [|s tree Hs _ IH]; intros i. { cbn [concat]. rewrite !firstn_nil. reflexivity. }
  destruct i as [|i]; [reflexivity|]. cbn [concat firstn Nat.mul]. rewrite firstn_app, firstn_all2 by lia.
  replace (k + i * k - length s)%nat with (i * k)%nat by lia. f_equal. apply IH.
Qed.
Lemma concat_length k tree : Forall (fun s : list Z => length s = k) tree -> length (concat tree) = (length tree * k)%nat.
Proof. induction 1; cbn [concat length Nat.mul]; [auto|]. rewrite app_length. lia. Qed.

Lemma upd_split {A} (l : list A) i x : (i < length l)%nat -> upd l i x = firstn i l ++ x :: skipn (S i) l.
Proof. revert i. induction l as [|h t IH]; intros [|i] H; cbn [length] in H; try lia; cbn [upd firstn skipn app]; auto. f_equal. apply IH. lia. Qed.
Lemma skipn_nth {A} (l : list A) i d : (i < length l)%nat -> skipn i l = nth i l d :: skipn (S i) l.
Proof. revert i. induction l as [|h t IH]; intros [|i] H; cbn [length] in H; try lia; [reflexivity|]. cbn [skipn nth]. apply IH. lia. Qed.

Lemma rd_cell n k tree i : shape n k tree -> (i < n)%nat -> rd (concat tree) (i * k) k = Ok (nth i tree []).
Proof.
  intros [HL HF] Hi. rewrite rd_ok by (rewrite (concat_length k) by auto; nia).
  rewrite (skipn_concat k) by auto. rewrite (skipn_nth tree i []) by lia. cbn [concat].
  assert (E : length (nth i tree []) = k) by (rewrite Forall_forall in HF; apply HF, nth_In; lia).
  rewrite firstn_app, firstn_all2 by lia. rewrite E, Nat.sub_diag, firstn_O, app_nil_r. reflexivity.
Qed.
Lemma wr_cell n k tree i d : shape n k tree -> (i < n)%nat -> length d = k -> wr (concat tree) (i * k) d = Ok (concat (upd tree i d)).
Proof.
  intros [HL HF] Hi Hd. rewrite wr_ok by (rewrite (concat_length k) by auto; nia). f_equal.
  rewrite (firstn_concat k) by auto. replace (i * k + length d)%nat with (S i * k)%nat by lia. rewrite (skipn_concat k) by auto.
  rewrite upd_split by lia. rewrite concat_app. cbn [concat]. reflexivity.
Qed.
Lemma wr_cells n k tree i d : shape n k tree -> (S i < n)%nat -> length d = (2 * k)%nat ->
  wr (concat tree) (i * k) d = Ok (concat (upd (upd tree i (firstn k d)) (S i) (skipn k d))).
Proof.
  intros [HL HF] Hi Hd. rewrite wr_ok by (rewrite (concat_length k) by auto; nia). f_equal.
  rewrite (firstn_concat k) by auto. replace (i * k + length d)%nat with (S (S i) * k)%nat by lia. rewrite (skipn_concat k) by auto.
  rewrite upd_split by (rewrite upd_length; lia). rewrite !(upd_split tree) by lia.
  replace (firstn (S i) (firstn i tree ++ firstn k d :: skipn (S i) tree)) with (firstn i tree ++ [firstn k d]).
  2:{ rewrite firstn_app, (firstn_all2 (firstn i tree)) by (rewrite firstn_length; lia). rewrite firstn_length, Nat.min_l by lia.
      replace (S i - i)%nat with 1%nat by lia. reflexivity. }
  replace (skipn (S (S i)) (firstn i tree ++ firstn k d :: skipn (S i) tree)) with (skipn (S (S i)) tree).
  2:{ rewrite skipn_app, (skipn_all2 (firstn i tree)) by (rewrite firstn_length; lia). rewrite firstn_length, Nat.min_l by lia.
      replace (S (S i) - i)%nat with 2%nat by lia. cbn [app]. change (skipn 2 (firstn k d :: skipn (S i) tree)) with (skipn 1 (skipn (S i) tree)).
      rewrite skipn_skipn. f_equal. lia. }
  rewrite !concat_app. cbn [concat]. rewrite app_nil_r, <- !app_assoc. do 1 f_equal. rewrite app_assoc, firstn_skipn. reflexivity.
Qed.

(** *** Sizes *)

Section S.
Variable X : prim.
Variable p : params.
Hypothesis wf : wf_params p.
Hypothesis LX : lawful X (hash_len p).
Notation L := (num_leaves p).
Notation nn := (num_nodes p).
Notation slen := (seed_len p).

Lemma slen_range : (1 <= slen <= 32)%nat.
Proof using. unfold seed_len. destruct (p_cat p); lia. Qed.
Lemma nodes_range : Z.of_nat nn <= 8191.
Proof using wf.
  pose proof (wf_T p wf) as HT. pose proof (L_pow p) as E. rewrite (height_log p wf) in E. unfold num_nodes.
  assert (H : 2 ^ (Z.log2 (Z.of_nat (pT p)) + 1) <= 2 * Z.of_nat (pT p)).
  { rewrite Z.pow_add_r by (try apply Z.log2_nonneg; lia). pose proof (Z.log2_spec (Z.of_nat (pT p)) ltac:(lia)). lia. }
  lia.
Qed.
Lemma nn_def : nn = (2 * L - 1)%nat.
Proof using. reflexivity. Qed.

Lemma ix_small z : 0 <= z < 4294967296 -> ix z = Z.to_nat z.
Proof using. intros H. unfold ix, u32. rewrite Z.mod_small; auto. Qed.
Lemma ix_cell i : (i <= nn)%nat -> ix (Z.of_nat i * Z.of_nat slen) = (i * slen)%nat.
Proof using wf. intros H. pose proof nodes_range. pose proof slen_range. rewrite ix_small by nia. lia. Qed.
Lemma ix_cell' i : (i <= nn)%nat -> ix (Z.of_nat slen * Z.of_nat i) = (slen * i)%nat.
Proof using wf. intros H. pose proof nodes_range. pose proof slen_range. rewrite ix_small by nia. lia. Qed.
Lemma left_small i : (2 * i + 1 <= nn)%nat -> left_child (Z.of_nat i) = Z.of_nat (2 * i + 1).
Proof using wf. intros H. pose proof nodes_range. unfold left_child, u32. rewrite Z.mod_small by lia. lia. Qed.
Lemma right_small i : (2 * i + 2 <= nn)%nat -> right_child (Z.of_nat i) = Z.of_nat (2 * i + 2).
Proof using wf. intros H. pose proof nodes_range. unfold right_child, u32. rewrite Z.mod_small by lia. lia. Qed.
Lemma get32_nat l i : get32 l (Z.of_nat i) = get l i.
Proof using.
  unfold get32. rewrite Nat2Z.id. destruct (Z.ltb_spec (Z.of_nat i) (Z.of_nat (length l))); auto. symmetry. apply get_ub. lia.
Qed.
Lemma parent_get fl i : length fl = nn -> (i < nn)%nat -> get32 fl (parent (Z.of_nat i)) = get_parent fl i.
Proof using wf.
  intros HL Hi. pose proof nodes_range as HN. destruct i as [|j].
  - unfold get32. replace (parent (Z.of_nat 0)) with 2147483647 by reflexivity.
    destruct (Z.ltb_spec 2147483647 (Z.of_nat (length fl))); [lia|reflexivity].
  - unfold parent. replace (Z.of_nat (S j) - 1) with (Z.of_nat j) by lia. unfold u32. rewrite Z.mod_small by lia.
    change (get_parent fl (S j)) with (get fl (j / 2)). rewrite <- (get32_nat fl (j / 2)). f_equal. rewrite Nat2Z.inj_div. reflexivity.
Qed.

(** *** Flags *)
Lemma flags_length fl ind r : length fl = nn -> compute_seeds_to_publish p fl ind = Ok r -> length r = nn.
Proof using.
  intros HL E. unfold compute_seeds_to_publish in E.
  destruct (rd ind 0 (pT p)) as [d| |] eqn:E1; try discriminate. cbn [bind] in E.
  destruct (wr fl (L - 1) d) as [f0| |] eqn:E2; try discriminate. cbn [bind] in E.
  assert (H0 : length f0 = nn).
  { unfold wr in E2. destruct (Nat.leb_spec (L - 1 + length d) (length fl)); try discriminate. injection E2 as <-. rewrite wr_length; auto. }
  apply (for_ok_inv (fun _ s => length s = nn)) in E; auto. intros i s s' Hi Hs Es. cbv zeta in Es.
  destruct (get s _) as [a| |]; try discriminate. cbn [bind] in Es. destruct (get s _) as [b| |]; try discriminate. cbn [bind] in Es.
  apply set_inv in Es. destruct Es as [_ ->]. rewrite upd_length. auto.
Qed.

Lemma flags_bytes ind : compute_flags_bytes p (repeat 0 nn) ind = compute_seeds_to_publish p (repeat 0 nn) ind.
Proof using wf.
  unfold compute_flags_bytes, compute_seeds_to_publish. pose proof (L_ge2 p wf) as HL2.
  destruct (rd ind 0 (pT p)) as [d| |] eqn:E1; auto. cbn [bind]. pose proof (rd_length _ _ _ _ E1) as Ld. pose proof (T_lt_L p wf) as HT.
  rewrite wr_ok by (rewrite repeat_length, nn_def; lia). cbn [bind].
  set (f0 := firstn _ _ ++ _). assert (H0 : length f0 = nn) by (unfold f0; rewrite wr_length; rewrite repeat_length; rewrite ?nn_def; lia).
  clearbody f0. apply agree_eq. eapply agree_mono.
  - apply (agree_for (fun _ a b => a = b /\ length a = nn)); [auto|]. intros k a b Hk [<- Ha]. cbv zeta.
    replace (Z.of_nat L - 2 - Z.of_nat k) with (Z.of_nat (L - 2 - k)) by lia. set (i := (L - 2 - k)%nat) in *. assert (Hi : (i <= L - 2)%nat) by (unfold i; lia).
    rewrite left_small, right_small, !get32_nat, Nat2Z.id by (rewrite nn_def; lia).
    rewrite !(get_ok a _ 0) by (rewrite Ha, nn_def; lia). cbn [bind]. rewrite !set_ok by (rewrite Ha, nn_def; lia).
    destruct (nth (2 * i + 1) a 0 =? 1); cbn [bind orb]; rewrite set_ok by (rewrite Ha, nn_def; lia); cbn [agree]; rewrite upd_length; auto.
  - intros a b [H _]. exact H.
Qed.

(** *** Expansion *)

(** The array csprng_input holds the salt in its first part. *)
Definition input_ok (salt input : list Z) : Prop := length input = (hash_len p + slen)%nat /\ firstn (hash_len p) input = salt.

Lemma expand_agree salt input tree i : shape nn slen tree -> input_ok salt input -> (i < L - 1)%nat ->
  agree (fun a b => input_ok salt (fst a) /\ snd a = concat b /\ shape nn slen b) (expand_bytes X p input (concat tree) i) (expand_children X p tree salt i).
Proof using wf LX.
  intros HS (I1 & I2) Hi. pose proof HS as [HL HF]. pose proof nn_def as HN. unfold expand_bytes, expand_children.
  rewrite ix_cell by lia. rewrite (rd_cell nn slen tree i HS) by lia. rewrite (get_ok tree i []) by lia. cbn [bind].
  set (s := nth i tree []). assert (Ls : length s = slen) by (unfold s; rewrite Forall_forall in HF; apply HF, nth_In; lia).
  rewrite wr_ok by lia. cbn [bind]. rewrite I2, skipn_all2, app_nil_r by lia.
  pose proof (law_sq_len X _ LX (2 * slen) (x_init X (salt ++ s))) as LB. destruct (x_squeeze X (2 * slen) (x_init X (salt ++ s))) as [bs st]. cbn [fst] in LB.
  assert (Lsalt : length salt = hash_len p) by (rewrite <- I2, firstn_length; lia).
  rewrite left_small by lia. rewrite ix_cell by lia. rewrite (wr_cells nn slen) by (auto; lia). cbn [bind].
  rewrite set_ok by lia. cbn [bind]. rewrite set_ok by (rewrite upd_length; lia). cbn [agree fst snd].
  replace (2 * i + 2)%nat with (S (2 * i + 1)) by lia. split; [|split; [reflexivity|]].
  - split; [rewrite app_length; lia|]. rewrite firstn_app, firstn_all2 by lia. rewrite Lsalt, Nat.sub_diag, firstn_O. apply app_nil_r.
  - apply shape_upd; [apply shape_upd; auto|].
    + rewrite firstn_length. lia.
    + rewrite skipn_length. lia.
Qed.

Lemma input_start input0 mem : length input0 = (hash_len p + slen)%nat -> (hash_len p <= length mem)%nat ->
  exists input, (s <- rd mem 0 (hash_len p) ;; wr input0 0 s) = Ok input /\ input_ok (firstn (hash_len p) mem) input.
Proof using.
  intros H0 HM. rewrite rd_ok by lia. cbn [bind]. change (skipn 0 mem) with mem. rewrite wr_ok by (rewrite firstn_length; lia).
  eexists. split; [reflexivity|]. rewrite firstn_O. cbn [app]. split.
  - rewrite app_length, firstn_length, skipn_length. lia.
  - rewrite firstn_app, firstn_all2 by (rewrite firstn_length; lia). rewrite firstn_length, Nat.min_l, Nat.sub_diag, firstn_O by lia. apply app_nil_r.
Qed.
End S.

(** *** C57 *)

(** Seed of round [i] of the flat array. *)
Theorem C57_leaf : forall p, wf_params p -> forall tree i, shape (num_nodes p) (seed_len p) tree -> (i < pT p)%nat ->
  leaf_bytes p (concat tree) i = get tree (num_leaves p - 1 + i).
Proof.
  intros p wf tree i HS Hi. pose proof (T_lt_L p wf). pose proof (nn_def p). unfold leaf_bytes.
  rewrite (ix_cell p wf) by lia. replace (seed_len p * (num_leaves p - 1) + i * seed_len p)%nat with ((num_leaves p - 1 + i) * seed_len p)%nat by lia.
  rewrite (rd_cell (num_nodes p) (seed_len p)) by (auto; lia). destruct HS as [HL _]. rewrite (get_ok tree _ []) by lia. reflexivity.
Qed.

Lemma generate_agree : forall X p, wf_params p -> lawful X (hash_len p) ->
  forall input0 tree root salt, length input0 = (hash_len p + seed_len p)%nat -> shape (num_nodes p) (seed_len p) tree ->
  length root = seed_len p -> (hash_len p <= length salt)%nat ->
  agree (fun a b => a = concat b /\ shape (num_nodes p) (seed_len p) b) (generate_tree_bytes X p input0 (concat tree) root salt)
    (generate_seed_tree_from_root X p tree root (firstn (hash_len p) salt)).
Proof.
  intros X p wf LX input0 tree root salt H0 HS HR HM. destruct (input_start p input0 salt H0 HM) as (input & EI & HI).
  unfold generate_tree_bytes, generate_seed_tree_from_root.
  destruct (rd salt 0 (hash_len p)) as [s| |] eqn:E1; try discriminate. cbn [bind] in EI |- *. rewrite EI. cbn [bind].
  rewrite rd_ok by lia. cbn [bind]. change (skipn 0 root) with root. rewrite firstn_all2 by lia.
  pose proof (L_ge2 p wf). pose proof (nn_def p). pose proof HS as [HL _].
  change 0%nat with (0 * seed_len p)%nat at 1. rewrite (wr_cell (num_nodes p) (seed_len p)) by (auto; lia). rewrite set_ok by lia. cbn [bind].
  eapply agree_bindl.
  - apply (agree_for (fun _ a b => input_ok p (firstn (hash_len p) salt) (fst a) /\ snd a = concat b /\ shape (num_nodes p) (seed_len p) b)).
    + cbn [fst snd]. split; auto. split; auto. apply shape_upd; auto.
    + intros i [a1 a2] b Hi (A1 & A2 & A3). cbn [fst snd] in *. subst a2. apply expand_agree; auto. lia.
  - intros [a1 a2] b (_ & A2 & A3). cbn [snd] in A2. subst. cbn. auto.
Qed.

Lemma path_agree : forall p, wf_params p -> forall tree indices storage, shape (num_nodes p) (seed_len p) tree ->
  agree (fun a b => a = (Z.of_nat (fst b), snd b) /\ (fst b <= num_nodes p)%nat) (seed_path_bytes p (concat tree) indices storage) (seed_tree_path p tree indices storage).
Proof.
  intros p wf tree indices storage HS. unfold seed_path_bytes, seed_tree_path. rewrite (flags_bytes p wf).
  destruct (compute_seeds_to_publish p (repeat 0 (num_nodes p)) indices) as [fl| |] eqn:EF; cbn [bind]; [|exact I|exact I].
  pose proof (flags_length p _ _ _ (repeat_length _ _) EF) as LF. pose proof HS as [HL HF]. pose proof (nodes_range p wf) as NR. pose proof (slen_range p) as SR.
  apply (agree_for (fun k a b => a = (Z.of_nat (fst b), snd b) /\ (fst b <= k)%nat) (num_nodes p) 0); [auto|].
  intros i a [num stg] Hi [-> Hn]. cbn [fst snd] in *. rewrite (get_ok fl i 0) by lia. cbn [bind].
    destruct (nth i fl 0 =? 0); [|cbn; auto]. rewrite (parent_get p wf) by (auto; lia).
    apply agree_bind_eq. intros pf _. destruct (pf =? 1); [|cbn; auto].
    rewrite (ix_cell p wf) by lia. rewrite (rd_cell (num_nodes p) (seed_len p) tree i HS) by lia. rewrite (get_ok tree i []) by lia. cbn [bind].
    rewrite (ix_cell p wf) by lia. apply agree_bind_eq. intros stg' _. cbn [agree fst snd]. split; [|lia]. f_equal. unfold u32. rewrite Z.mod_small by lia. lia.
Qed.

Lemma rebuild_agree : forall X p, wf_params p -> lawful X (hash_len p) ->
  forall input0 tree indices stored salt, length input0 = (hash_len p + seed_len p)%nat -> shape (num_nodes p) (seed_len p) tree ->
  (hash_len p <= length salt)%nat ->
  agree (fun a b => a = (Z.of_nat (fst b), concat (snd b)) /\ shape (num_nodes p) (seed_len p) (snd b)) (rebuild_bytes X p input0 (concat tree) indices stored salt)
    (rebuild_seed_tree_leaves X p tree indices stored (firstn (hash_len p) salt)).
Proof.
  intros X p wf LX input0 tree indices stored salt H0 HS HM. destruct (input_start p input0 salt H0 HM) as (input & EI & HI).
  unfold rebuild_bytes, rebuild_seed_tree_leaves. rewrite (flags_bytes p wf).
  destruct (compute_seeds_to_publish p (repeat 0 (num_nodes p)) indices) as [fl| |] eqn:EF; cbn [bind]; [|exact I|exact I].
  pose proof (flags_length p _ _ _ (repeat_length _ _) EF) as LF. pose proof HS as [HL HF]. pose proof (nodes_range p wf) as NR. pose proof (slen_range p) as SR.
  destruct (rd salt 0 (hash_len p)) as [s| |] eqn:E1; try discriminate. cbn [bind] in EI |- *. rewrite EI. cbn [bind].
  set (I := fun (k : nat) (a : Z * list Z * list Z) (b : nat * list (list Z)) =>
    fst (fst a) = Z.of_nat (fst b) /\ (fst b <= k)%nat /\ input_ok p (firstn (hash_len p) salt) (snd (fst a)) /\ snd a = concat (snd b) /\ shape (num_nodes p) (seed_len p) (snd b)).
  eapply agree_bindl.
  - apply (agree_for I). { unfold I. cbn [fst snd]. repeat split; auto; apply HI. }
    intros i [[used inp] t] [n b] Hi (A1 & A2 & A3 & A4 & A5). cbn [fst snd] in *. subst used t. rewrite (get_ok fl i 0) by lia. cbn [bind].
    destruct (nth i fl 0 =? 0); [|unfold I; cbn; auto]. rewrite (parent_get p wf) by (auto; lia).
    apply agree_bind_eq. intros pf _.
    eapply (agree_bind (fun a b => fst a = Z.of_nat (fst b) /\ (fst b <= S i)%nat /\ snd a = concat (snd b) /\ shape (num_nodes p) (seed_len p) (snd b))).
    + destruct (pf =? 1); [|cbn; auto]. rewrite (ix_cell' p wf n) by lia. apply agree_bind_eq. intros sd Esd. apply rd_length in Esd.
      rewrite (ix_cell' p wf i) by lia. rewrite (Nat.mul_comm _ i). rewrite (wr_cell (num_nodes p) (seed_len p)) by (auto; lia).
      pose proof A5 as [A6 _]. rewrite set_ok by lia. cbn [bind agree fst snd]. split; [unfold u32; rewrite Z.mod_small by lia; lia|]. split; [lia|]. split; auto.
      apply shape_upd; auto.
    + intros [u t] [n' b'] (B1 & B2 & B3 & B4). cbn [fst snd] in *. subst u t. destruct (Nat.ltb_spec i (num_leaves p - 1)).
      * eapply agree_bind. { apply (expand_agree X p wf LX (firstn (hash_len p) salt)); auto. }
        intros [inp2 t2] b2 (C1 & C2 & C3). cbn [fst snd] in *. subst t2. unfold I. cbn. auto.
      * unfold I. cbn. auto.
  - intros [[u inp] t] [n b] (A1 & _ & _ & A4 & A5). cbn [fst snd] in *. subst. cbn. auto.
Qed.

(** The three functions of seedtree.c on the flat array do what the model with one cell per node does: same result, and
    undefined behaviour (out of the bounds of the arrays) in the same cases. [input0] is the uninitialised local array. *)
Theorem C57_generate : forall X p, wf_params p -> lawful X (hash_len p) ->
  forall input0 tree root salt, length input0 = (hash_len p + seed_len p)%nat -> shape (num_nodes p) (seed_len p) tree ->
  length root = seed_len p -> (hash_len p <= length salt)%nat ->
  generate_tree_bytes X p input0 (concat tree) root salt =
    (t <- generate_seed_tree_from_root X p tree root (firstn (hash_len p) salt) ;; Ok (concat t)).
Proof.
  intros X p wf LX input0 tree root salt H0 HS HR HM. apply agree_map. eapply agree_mono; [apply generate_agree; auto|]. intros a b [-> _]; reflexivity.
Qed.

Theorem C57_path : forall p, wf_params p -> forall tree indices storage, shape (num_nodes p) (seed_len p) tree ->
  seed_path_bytes p (concat tree) indices storage = (' (n, s) <- seed_tree_path p tree indices storage ;; Ok (Z.of_nat n, s)).
Proof.
  intros p wf tree indices storage HS. apply (agree_map (fun b => let '(n, s) := b in Ok (Z.of_nat n, s))). eapply agree_mono; [apply path_agree; auto|].
  intros a [n s] [-> _]; reflexivity.
Qed.

Theorem C57_rebuild : forall X p, wf_params p -> lawful X (hash_len p) ->
  forall input0 tree indices stored salt, length input0 = (hash_len p + seed_len p)%nat -> shape (num_nodes p) (seed_len p) tree ->
  (hash_len p <= length salt)%nat ->
  rebuild_bytes X p input0 (concat tree) indices stored salt =
    (' (n, t) <- rebuild_seed_tree_leaves X p tree indices stored (firstn (hash_len p) salt) ;; Ok (Z.of_nat n, concat t)).
Proof.
  intros X p wf LX input0 tree indices stored salt H0 HS HM.
  apply (agree_map (fun b => let '(n, t) := b in Ok (Z.of_nat n, concat t))). eapply agree_mono; [apply rebuild_agree; auto|].
  intros a [n t] [-> _]; reflexivity.
Qed.

(** Signing and verification with the flat array, the local buffers and the signature in memory: the same result for all
    inputs (the count of published seeds is the number returned by LESS_sign). *)
Lemma concat_repeat (n k : nat) (x : Z) : concat (repeat (repeat x k) n) = repeat x (n * k).
Proof. induction n; cbn [repeat concat Nat.mul]; auto. rewrite IHn, <- repeat_app. reflexivity. Qed.

Lemma junk_input_length p junk id : length (junk_input p junk id) = (hash_len p + seed_len p)%nat.
Proof. unfold junk_input. rewrite map_length, seq_length. reflexivity. Qed.
Lemma zero_tree p : shape (num_nodes p) (seed_len p) (repeat (repeat 0 (seed_len p)) (num_nodes p)).
Proof. split; [apply repeat_length|]. apply Forall_forall. intros x Hx. apply repeat_spec in Hx. subst. apply repeat_length. Qed.
Lemma wr_start (l l' d : list Z) n : length d = n -> wr l 0 d = Ok l' -> (n <= length l')%nat /\ firstn n l' = d /\ rd l' 0 n = Ok d.
Proof.
  intros HL E. destruct (Nat.le_gt_cases (0 + length d) (length l)) as [H|H].
  - pose proof (wr_length l d 0 H) as W. rewrite wr_ok in E by auto. injection E as E.
    assert (L : length l' = length l) by (subst l'; cbn; rewrite app_length, skipn_length; cbn in H; lia).
    assert (F : firstn n l' = d) by (subst l' n; cbn; rewrite firstn_app, Nat.sub_diag, firstn_all; cbn; apply app_nil_r).
    split; [lia|]. split; auto. rewrite rd_ok by lia. cbn. rewrite F. reflexivity.
  - unfold wr in E. destruct (Nat.leb_spec (0 + length d) (length l)); [lia|discriminate].
Qed.
Lemma wr_rd (l l' d : list Z) off n : length d = n -> wr l off d = Ok l' -> rd l' off n = Ok d.
Proof.
  intros HL E. destruct (Nat.le_gt_cases (off + length d) (length l)) as [H|H].
  - rewrite wr_ok in E by auto. injection E as E.
    assert (L : length l' = length l) by (subst l'; rewrite !app_length, skipn_length, firstn_length; lia).
    rewrite rd_ok by lia. subst l' n. rewrite skipn_app, firstn_length, Nat.min_l, skipn_all2, Nat.sub_diag by (rewrite ?firstn_length; lia).
    cbn. rewrite firstn_app, Nat.sub_diag, firstn_all. cbn. rewrite app_nil_r. reflexivity.
  - unfold wr in E. destruct (Nat.leb_spec (off + length d) (length l)); [lia|discriminate].
Qed.

Lemma commit_agree X p fuel junk tree sig salt fullG : wf_params p -> shape (num_nodes p) (seed_len p) tree -> rd sig 0 (hash_len p) = Ok salt ->
  sign_commit_mem X p fuel junk (concat tree) sig fullG = sign_commit X p fuel junk tree salt fullG.
Proof.
  intros wf HS HM. unfold sign_commit_mem, sign_commit. f_equal. apply agree_eq. change (pT p) with (0 + pT p)%nat.
  apply (agree_for (fun _ => eq)); [reflexivity|].
  intros i [[[h V] acts] Qt] b Hi <-. rewrite C57_leaf by (auto; lia). rewrite HM. cbn [bind]. apply agree_eq. reflexivity.
Qed.

Theorem C57_sign : forall X p, wf_params p -> lawful X (hash_len p) ->
  forall fuel junk rng sk m sig,
  LESS_sign_mem X p fuel junk rng sk m sig =
    (' (s, n, r) <- LESS_sign X p fuel junk rng sk m sig ;; Ok (s, Z.of_nat n, r)).
Proof.
  intros X p wf LX fuel junk rng sk m sig. apply (agree_map (fun b => let '(s, n, r) := b in Ok (s, Z.of_nat n, r))).
  unfold LESS_sign_mem, LESS_sign. apply agree_bind_eq. intros csk _.
  pose proof (law_sq_len X _ LX (seed_len p) rng) as LE. destruct (x_squeeze X (seed_len p) rng) as [ephem rng1]. cbn [fst] in LE.
  pose proof (law_sq_len X _ LX (hash_len p) rng1) as LS. destruct (x_squeeze X (hash_len p) rng1) as [salt rng2]. cbn [fst] in LS.
  apply agree_bind_eq. intros sig1 E1. destruct (wr_start _ _ _ _ LS E1) as (W1 & W2 & W3).
  eapply agree_bind. { rewrite <- concat_repeat. pose proof (generate_agree X p wf LX (junk_input p junk 30) _ ephem sig1 (junk_input_length _ _ _) (zero_tree p) LE W1) as GA. rewrite W2 in GA. exact GA. }
  intros a tree [-> HT]. apply agree_bind_eq. intros g0seed _. apply agree_bind_eq. intros G0 _. apply agree_bind_eq. intros fullG _.
  rewrite (commit_agree X p fuel junk tree sig1 salt) by auto. apply agree_bind_eq. intros [h acts] _. rewrite W3. cbn [bind].
  apply agree_bind_eq. intros sig2 E2. rewrite (wr_rd _ _ _ _ _ (law_h_len X _ LX _) E2). cbn [bind].
  apply agree_bind_eq. intros fws _. apply agree_bind_eq. intros sig3 _. apply agree_bind_eq. intros stg _.
  eapply agree_bind. { apply path_agree; auto. }
  intros a [n stg1] [-> Hn]. cbn [fst snd] in *. apply agree_bind_eq. intros sig4 _. apply agree_bind_eq. intros sig5 _. apply agree_bind_eq. intros stg2 _.
  rewrite (ix_cell p wf) by auto. apply agree_bind_eq. intros stg3 _. apply agree_bind_eq. intros sig6 _. reflexivity.
Qed.

Lemma loop_agree X p fuel n : wf_params p -> forall i pk sig salt tree G0 fws h V G act disc used,
  shape (num_nodes p) (seed_len p) tree -> rd sig 0 (hash_len p) = Ok salt -> (i + n <= pT p)%nat ->
  verify_loop_mem X p fuel n i pk sig (concat tree) G0 fws h V G act disc used = verify_loop X p fuel n i pk sig salt tree G0 fws h V G act disc used.
Proof.
  intros wf. induction n as [|n IH]; intros i pk sig salt tree G0 fws h V G act disc used HS HM Hi; cbn [verify_loop_mem verify_loop]; auto.
  apply agree_eq. apply agree_bind_eq. intros x _. destruct (x =? 0).
  - apply agree_bind_eq. intros G1 _. rewrite C57_leaf by (auto; lia). rewrite HM. cbn [bind]. apply agree_bind_eq. intros sd _. apply agree_bind_eq. intros Q _.
    apply agree_bind_eq. intros [V' disc'] _. apply agree_eq. apply IH; auto; lia.
  - apply agree_bind_eq. intros buf _. apply agree_bind_eq. intros G1 _. destruct (used <? pW p)%nat; [|exact I].
    apply agree_bind_eq. intros ab _. apply agree_bind_eq. intros act' _. apply agree_bind_eq. intros v _. destruct (v =? 0); [reflexivity|].
    apply agree_bind_eq. intros Gh _. apply agree_bind_eq. intros [[r Gr] piv] _. apply agree_bind_eq. intros V1 _. apply agree_bind_eq. intros V2 _.
    apply agree_eq. apply IH; auto; lia.
Qed.

Theorem C57_verify : forall X p, wf_params p -> lawful X (hash_len p) ->
  forall fuel junk pk m sig, LESS_verify_mem X p fuel junk pk m sig = LESS_verify X p fuel junk pk m sig.
Proof.
  intros X p wf LX fuel junk pk m sig. unfold LESS_verify_mem, LESS_verify. apply agree_eq. apply agree_bind_eq. intros d Ed. apply agree_bind_eq. intros fws _.
  assert (HL : (hash_len p <= length sig)%nat).
  { destruct (Nat.le_gt_cases (hash_len p) (length sig)); auto. unfold rd in Ed. destruct (Nat.leb_spec (off_digest p + hash_len p) (length sig)); [lia|discriminate]. }
  rewrite (rd_ok sig 0 (hash_len p)) by lia. cbn [bind skipn].
  eapply agree_bind. { rewrite <- concat_repeat. apply rebuild_agree; auto using junk_input_length, zero_tree. }
  intros a [used tree] [-> HT]. cbn [fst snd] in *. apply agree_bind_eq. intros g0 _. apply agree_bind_eq. intros G0 _.
  rewrite (loop_agree X p fuel (pT p) wf 0 pk sig (firstn (hash_len p) sig)); auto; [|rewrite rd_ok by lia; reflexivity].
  apply agree_bind_eq. intros [h|] _; [|reflexivity]. rewrite Ed. apply agree_refl.
Qed.

(** With the array in bytes an honest signature verifies. *)
Theorem C57_correct : forall X p, wf_params p -> lawful X (hash_len p) ->
  forall fk sk pk, keypair X p fk sk pk ->
  forall fs junk rng m sig0 sig num rng', length sig0 = sizeof_sign p -> bytes sig0 ->
    LESS_sign_mem X p fs junk rng sk m sig0 = Ok (sig, num, rng') ->
  forall fv junk', (fs <= fv)%nat -> LESS_verify_mem X p fv junk' pk m sig = Ok 1.
Proof.
  intros X p wf LX fk sk pk HK fs junk rng m sig0 sig num rng' H1 H2 E fv junk' Hf. rewrite C57_sign in E by auto. rewrite C57_verify by auto.
  destruct (LESS_sign X p fs junk rng sk m sig0) as [[[s n] r]| |] eqn:ES; try discriminate. injection E as <- <- <-.
  eapply C01_correct; eauto.
Qed.

(** The parent of the root is out of the array (31 bits set), the children of the last node are not read; a tree of the
    toy parameters in 15 * 16 bytes, from uninitialised input, and the toy signature. *)
Example C57_example : parent 0 = 2147483647 /\ left_child 2147483648 = 1 /\ right_child 4294967295 = 0 /\
  get32 (repeat 0 15) (parent 0) = UB /\
  generate_tree_bytes toyX toy_params (junk_input toy_params toy_junk 30) (repeat 0 (num_nodes toy_params * seed_len toy_params))
    (repeat 7 (seed_len toy_params)) (repeat 1 40) =
  generate_tree_bytes toyX toy_params (repeat 200 (hash_len toy_params + seed_len toy_params)) (repeat 0 (num_nodes toy_params * seed_len toy_params))
    (repeat 7 (seed_len toy_params)) (repeat 1 32) /\
  generate_tree_bytes toyX toy_params (junk_input toy_params toy_junk 30) (repeat 0 (num_nodes toy_params * seed_len toy_params))
    (repeat 7 (seed_len toy_params)) (repeat 1 31) = UB /\
  LESS_sign_mem toyX toy_params 1000 toy_junk 80 toy_sk toy_msg (repeat 3 (sizeof_sign toy_params)) = Ok (toy_sig80, 2, toy_rng80) /\
  LESS_verify_mem toyX toy_params 1000 (fun _ _ => 0) toy_pk toy_msg toy_sig80 = Ok 1.
Proof.
  do 6 (split; [vm_compute; reflexivity|]). split.
  - rewrite C57_sign, toy_sign_run by auto using toy_wf, toyX_lawful. reflexivity.
  - rewrite C57_verify by auto using toy_wf, toyX_lawful. exact toy_accept.
Qed.

Print Assumptions C57_leaf.
Print Assumptions C57_generate.
Print Assumptions C57_path.
Print Assumptions C57_rebuild.
Print Assumptions C57_sign.
Print Assumptions C57_verify.
Print Assumptions C57_correct.
