(** Properties C10, C11 and C12: the seed tree. A leaf [t] is hidden when [nth t ind 0 = 1] and
    revealed when it is 0; the leaves after the first T are padding. *)
From Verif Require Import Base BaseLemmas Params ParamsProofs Prim SeedTree Spec EnumProofs SeedTreeProofs TreeFacts.

(** *** C10: the verifier recovers every revealed leaf from the published seeds, whatever follows them. *)
Theorem C10_rebuild : forall X p, wf_params p -> lawful X (hash_len p) ->
  forall ind tree0 tree1 root salt stg,
  length ind = pT p -> Forall (fun x => x = 0 \/ x = 1) ind -> (0 < weight ind)%nat ->
  shape (num_nodes p) (seed_len p) tree0 -> Forall bytes tree0 -> shape (num_nodes p) (seed_len p) tree1 ->
  length root = seed_len p -> bytes root ->
  (weight ind = pW p /\ (Z.to_nat (p_maxbytes p) <= length stg)%nat) \/
  (num_leaves p * seed_len p <= length stg)%nat ->
  exists tree n stg',
    generate_seed_tree_from_root X p tree0 root salt = Ok tree /\
    seed_tree_path p tree ind stg = Ok (n, stg') /\
    forall stored, (n * seed_len p <= length stored)%nat ->
      firstn (n * seed_len p) stored = firstn (n * seed_len p) stg' ->
      exists tree', rebuild_seed_tree_leaves X p tree1 ind stored salt = Ok (n, tree') /\
        forall t, (t < pT p)%nat -> nth t ind 0 = 0 ->
          nth (num_leaves p - 1 + t) tree' [] = nth (num_leaves p - 1 + t) tree [].
Proof.
  intros X p wf LX ind tree0 tree1 root salt stg H1 H2 H3 H4 H5 H6 H7 H8 H9.
  exact (rebuild_round X p wf ind H1 H2 tree0 tree1 root salt stg LX H4 H5 H6 H7 H8 H3 H9).
Qed.

(** *** C11: what seed_tree_path writes is, in order, the seeds of a set of nodes that covers every
    revealed leaf exactly once and contains no ancestor of a hidden leaf; the rest of the storage is kept. *)
Theorem C11_exact_cover : forall p, wf_params p -> forall ind tree stg,
  length ind = pT p -> Forall (fun x => x = 0 \/ x = 1) ind -> (0 < weight ind)%nat ->
  shape (num_nodes p) (seed_len p) tree ->
  (weight ind = pW p /\ (Z.to_nat (p_maxbytes p) <= length stg)%nat) \/
  (num_leaves p * seed_len p <= length stg)%nat ->
  exists nodes,
    seed_tree_path p tree ind stg =
      Ok (length nodes, concat (map (fun i => nth i tree []) nodes) ++ skipn (length nodes * seed_len p) stg) /\
    NoDup nodes /\ (forall i, In i nodes -> (i < num_nodes p)%nat) /\
    (forall t, (t < num_leaves p)%nat -> ((pT p <= t)%nat \/ nth t ind 0 = 0) ->
       exists i, In i nodes /\ below i (num_leaves p - 1 + t) /\
         forall i', In i' nodes -> below i' (num_leaves p - 1 + t) -> i' = i) /\
    (forall t, (t < pT p)%nat -> nth t ind 0 = 1 -> forall i, In i nodes -> ~ below i (num_leaves p - 1 + t)).
Proof.
  intros p wf ind tree stg H1 H2 H3 H4 H5.
  exact (path_cover p wf ind H1 H2 tree stg H4 H3 H5).
Qed.

(** If no leaf is hidden the code reads a flag at index PARENT(0), outside its array. This never
    happens in LESS since W >= 1. *)
Theorem C11_all_revealed_out_of_bounds : forall p, wf_params p -> forall tree stg,
  seed_tree_path p tree (repeat 0 (pT p)) stg = UB.
Proof.
  intros p wf tree stg. unfold seed_tree_path.
  assert (HT : (pT p <= num_leaves p)%nat) by exact (Nat.lt_le_incl _ _ (T_lt_L p wf)).
  assert (HL : (1 <= num_leaves p)%nat) by (pose proof (wf_T p wf); lia).
  assert (NN : num_nodes p = S (2 * num_leaves p - 2)) by (unfold num_nodes; lia).
  assert (C : okp (compute_seeds_to_publish p (repeat 0 (num_nodes p)) (repeat 0 (pT p)))
     (fun fl => length fl = num_nodes p /\ Forall (fun x => x = 0) fl)).
  { unfold compute_seeds_to_publish. rewrite rd_ok by (rewrite repeat_length; lia). cbn [bind].
    assert (LD : length (firstn (pT p) (skipn 0 (repeat 0 (pT p)))) = pT p).
    { cbn [skipn]. rewrite firstn_length, repeat_length. lia. }
    rewrite wr_ok by (rewrite LD, repeat_length; unfold num_nodes; lia). cbn [bind].
    eapply okp_mono.
    - apply okp_for with (I := fun _ fl => length fl = num_nodes p /\ Forall (fun x => x = 0) fl).
      + split.
        * rewrite wr_length; rewrite ?LD, repeat_length; unfold num_nodes; lia.
        * assert (Z0 : forall n, Forall (fun x => x = 0) (repeat 0 n)).
          { intros n. apply Forall_forall. intros x Hx. apply repeat_spec in Hx. auto. }
          apply Forall_wr. apply Z0. apply Forall_firstn, Forall_skipn. apply Z0.
      + intros k fl Hk [HL1 HF]. rewrite (get_ok fl _ 0) by (unfold num_nodes in *; lia). cbn [bind].
        rewrite (get_ok fl _ 0) by (unfold num_nodes in *; lia). cbn [bind].
        rewrite Forall_forall in HF. rewrite !(HF (nth _ fl 0)) by (apply nth_In; unfold num_nodes in *; lia).
        rewrite set_ok by (unfold num_nodes in *; lia). apply okp_ok. split. rewrite upd_length; auto.
        apply Forall_upd. apply Forall_forall. auto. reflexivity.
    - intros fl H. exact H. }
  destruct C as (fl & -> & LF & FF). cbn [bind]. rewrite NN. cbn [for_].
  rewrite (get_ok fl 0 0) by lia. cbn [bind].
  rewrite Forall_forall in FF. rewrite (FF (nth 0 fl 0)) by (apply nth_In; lia). reflexivity.
Qed.

(** *** C12: never more than MAX_PUBLISHED_SEEDS seeds, which fit the storage ... *)
Theorem C12_bound : forall p, wf_params p -> forall ind tree stg,
  length ind = pT p -> Forall (fun x => x = 0 \/ x = 1) ind -> weight ind = pW p ->
  shape (num_nodes p) (seed_len p) tree -> (Z.to_nat (p_maxbytes p) <= length stg)%nat ->
  exists n stg', seed_tree_path p tree ind stg = Ok (n, stg') /\
    Z.of_nat n <= max_seeds p /\ Z.of_nat n < 256 /\ (n * seed_len p <= Z.to_nat (p_maxbytes p))%nat /\
    (n <= most_published (tree_height p) (pT p) (pW p))%nat.
Proof.
  intros p wf ind tree stg H1 H2 H3 H4 H5.
  destruct (path_max p wf ind H1 H2 tree stg H4 H3 H5) as (n & stg' & A & B & C & D).
  exists n, stg'. pose proof (wf_max_byte p wf). repeat split; auto; lia.
Qed.

(** ... and for each of the seven parameter sets the exact maximum, attained by an explicit challenge
    pattern: 92, 72, 62, 148, 133, 206, 171. *)
Theorem C12_exact_maximum : forall p n ind, In (p, n, ind) table -> forall tree stg,
  shape (num_nodes p) (seed_len p) tree -> (Z.to_nat (p_maxbytes p) <= length stg)%nat ->
  length ind = pT p /\ Forall (fun x => x = 0 \/ x = 1) ind /\ weight ind = pW p /\
  (exists stg', seed_tree_path p tree ind stg = Ok (n, stg')) /\
  forall ind', length ind' = pT p -> Forall (fun x => x = 0 \/ x = 1) ind' -> weight ind' = pW p ->
    exists n' stg', seed_tree_path p tree ind' stg = Ok (n', stg') /\ (n' <= n)%nat.
Proof.
  intros p n ind Hin tree stg H1 H2. destruct (table_row p n ind Hin) as (_ & A & B & C & _).
  destruct (largest_published p n ind Hin tree stg H1 H2) as [D E]. auto.
Qed.

Theorem C12_table : map (fun r => (fst (fst r), snd (fst r))) table =
  combine less_params [92; 72; 62; 148; 133; 206; 171]%nat.
Proof. reflexivity. Qed.

(** The bound MAX_PUBLISHED_SEEDS is attained in the first two sets ... *)
Theorem C12_bound_attained_partial : forall p, In p [cat1_balanced; cat1_intermediate] -> exists ind,
  length ind = pT p /\ Forall (fun x => x = 0 \/ x = 1) ind /\ weight ind = pW p /\
  forall tree stg, shape (num_nodes p) (seed_len p) tree -> (Z.to_nat (p_maxbytes p) <= length stg)%nat ->
  exists n stg', seed_tree_path p tree ind stg = Ok (n, stg') /\ Z.of_nat n = max_seeds p.
Proof.
  intros p Hp.
  assert (E : exists n ind, In (p, n, ind) table /\ Z.of_nat n = max_seeds p).
  { destruct Hp as [<-|[<-|[]]].
    - exists 92%nat, (spread 8 247 4 16 14). split. left; reflexivity. vm_compute; reflexivity.
    - exists 72%nat, (spread 8 244 4 16 4). split. right; left; reflexivity. vm_compute; reflexivity. }
  destruct E as (n & ind & Hin & En). destruct (table_row p n ind Hin) as (_ & A & B & C & _).
  exists ind. repeat split; auto. intros tree stg H1 H2.
  destruct (largest_published p n ind Hin tree stg H1 H2) as [(stg' & D) _]. exists n, stg'. auto.
Qed.

(** ... but in none of the other five: there every challenge publishes strictly fewer seeds. *)
Theorem C12_bound_attained_refuted :
  forall p, In p [cat1_short_sig; cat3_balanced; cat3_short_sig; cat5_balanced; cat5_short_sig] ->
  forall ind tree stg, length ind = pT p -> Forall (fun x => x = 0 \/ x = 1) ind -> weight ind = pW p ->
  shape (num_nodes p) (seed_len p) tree -> (Z.to_nat (p_maxbytes p) <= length stg)%nat ->
  exists n stg', seed_tree_path p tree ind stg = Ok (n, stg') /\ Z.of_nat n < max_seeds p.
Proof.
  intros p Hp ind tree stg H1 H2 H3 H4 H5. destruct (below_max p Hp) as [wf B].
  destruct (path_max p wf ind H1 H2 tree stg H4 H3 H5) as (n & stg' & A & _ & _ & D).
  exists n, stg'. split; auto. lia.
Qed.

(** *** A concrete case: six rounds, leaves 1 and 4 hidden. Published: node 7 (leaf 0), node 4 (leaves
    2, 3), node 12 (leaf 5) and node 6 (padding). *)
Definition ex_tree : list (list Z) := map (fun i => repeat (Z.of_nat i) 16) (seq 0 15).
Example C11_example :
  seed_tree_path toy_params ex_tree [0; 1; 0; 0; 1; 0] (repeat 255 65) =
    Ok (4%nat, concat (map (fun i => repeat i 16) [4; 6; 7; 12]) ++ [255]).
Proof. vm_compute. reflexivity. Qed.
Example C10_example_hypotheses :
  weight [0; 1; 0; 0; 1; 0] = pW toy_params /\ length [0; 1; 0; 0; 1; 0] = pT toy_params /\
  num_leaves toy_params = 8%nat /\ max_seeds toy_params = 4.
Proof. repeat split. Qed.

Print Assumptions C10_rebuild.
Print Assumptions C11_exact_cover.
Print Assumptions C11_all_revealed_out_of_bounds.
Print Assumptions C12_bound.
Print Assumptions C12_exact_maximum.
Print Assumptions C12_table.
Print Assumptions C12_bound_attained_partial.
Print Assumptions C12_bound_attained_refuted.
