(** C51: the samplers favour no value. *)
From Verif Require Import Base BaseLemmas Params ParamsProofs Prim Samplers Utils Spec SampleSpec LessSpec SpecSampling SamplerProofs
  BitCodec PropSamplers PropSpec Toy UniformProofs.

(** Field elements. A run of at most [fuel] words yields [vals] exactly if the samples of these words begin with [vals]
    (first part). For two sequences of values in range, there is an exchange [f] of the sequences of words of each length,
    its own inverse, that turns those that yield the one into those that yield the other (second part): as many
    sequences of words lead to the one as to the other. *)
Theorem C51_elements : forall minv, minv = 0 \/ minv = 1 -> forall num, (0 < num)%nat ->
  (forall X, (forall n s, bytes (fst (x_squeeze X n s)) /\ length (fst (x_squeeze X n s)) = n) -> forall fuel st buf vals, length buf = num ->
     words64 (draw_words X fuel st) /\
     ((exists st', def_rand X minv 126 fuel num st buf = Ok (vals, st')) <->
      firstn num (samples minv 126 (draw_words X fuel st)) = vals /\ length vals = num)) /\
  (forall vals vals', length vals = num -> length vals' = num ->
     Forall (fun v => minv <= v <= 126) vals -> Forall (fun v => minv <= v <= 126) vals' ->
     exists f, (forall ws, words64 ws -> words64 (f ws) /\ length (f ws) = length ws /\ f (f ws) = ws) /\
       forall ws, words64 ws -> firstn num (samples minv 126 ws) = vals <-> firstn num (samples minv 126 (f ws)) = vals').
Proof.
  intros minv Hm num Hn. split; [|intros vals vals' H1 H2 H3 H4; apply (samples_exchange minv num vals vals'); auto].
  intros X HX fuel st buf vals HL. split. { apply draw_words64; intros; apply HX. }
  destruct (C23_sampler X (fun n s => proj1 (HX n s)) minv 126 Hm eq_refl fuel num st buf Hn HL) as (A & B & C).
  assert (PRE : forall n, (n <= fuel)%nat -> exists r, samples minv 126 (draw_words X fuel st) = samples minv 126 (draw_words X n st) ++ r).
  { clear. revert fuel st. intros fuel st n. revert fuel st. induction n as [|n IH]; intros fuel st H. { eexists. reflexivity. }
    destruct fuel as [|fuel]; [lia|]. cbn [draw_words]. destruct (IH fuel (snd (x_squeeze X 8 st)) ltac:(lia)) as (r & E).
    exists r. rewrite !(samples_cons _ _ _ (draw_words X _ _)), E. apply app_assoc. }
  destruct (le_lt_dec num (length (samples minv 126 (draw_words X fuel st)))) as [Hle|Hlt].
  - destruct (B Hle) as (n & N1 & N2 & N3). rewrite (A n N1 N2 N3). destruct (PRE (S n) N1) as (r & E). rewrite E.
    rewrite firstn_app. replace (num - length (samples minv 126 (draw_words X (S n) st)))%nat with 0%nat by lia. rewrite firstn_O, app_nil_r.
    split. { intros (st' & E'). injection E' as <- _. split; auto. apply firstn_length_le. auto. } intros [<- _]. eauto.
  - rewrite (C Hlt). split. { intros (st' & E). discriminate. } intros [<- L]. rewrite firstn_length in L. lia.
Qed.

(** Challenges. The expansion of a digest ends with [c] exactly if [c] is complete within some number of half-words of the
    stream (first part). For two challenges, there is a bijection of the half-words that turns the sequences that
    complete the one into those that complete the other (second part). It is assumed that a half-word has room for a key
    number and a position. *)
Theorem C51_challenge : forall p, wf_params p ->
  Z.log2 (Z.of_nat (p_nk p) - 1) + 1 + (Z.log2 (Z.of_nat (pT p) - 1) + 1) <= 16 ->
  (forall X, lawful X (hash_len p) -> forall digest c,
     (exists fuel, expand_digest_to_fixed_weight X p fuel (repeat 0 (pT p)) digest = Ok c) <->
     exists n, challenge_in p (draw_halfwords X n (x_init X digest)) c) /\
  (forall c c', full_challenge p c -> full_challenge p c' ->
     exists f g, (forall w, 0 <= w < 2 ^ 16 -> 0 <= f w < 2 ^ 16 /\ 0 <= g w < 2 ^ 16 /\ g (f w) = w /\ f (g w) = w) /\
       forall ws, words16 ws -> (challenge_in p ws c <-> challenge_in p (map f ws) c')).
Proof.
  intros p wf HF. split; [|apply challenge_exchange; auto]. intros X LX digest c. rewrite <- challenge_of_in.
  destruct (C38_challenge X p wf digest c) as [A B]. split.
  - intros (fuel & E). eauto.
  - intros H. destruct (B H) as (f & F). exists f. apply F. lia.
Qed.

(** The room is there in all seven parameter sets. *)
Theorem C51_room : Forall (fun p => Z.log2 (Z.of_nat (p_nk p) - 1) + 1 + (Z.log2 (Z.of_nat (pT p) - 1) + 1) <= 16) less_params.
Proof. unfold less_params. repeat constructor; vm_compute; discriminate. Qed.

(** The words below M of one class modulo m. *)
Lemma word_class M w m r : 0 <= w < M -> 0 < m -> 0 <= r < m ->
  (w mod m = r <-> exists q, 0 <= q < M / m + (if r <? M mod m then 1 else 0) /\ w = r + m * q).
Proof.
  intros Hw Hm Hr. pose proof (Z.div_mod M m ltac:(lia)) as DM. pose proof (Z.mod_pos_bound M m Hm) as MB.
  set (F := M / m) in *. set (Q := M mod m) in *. clearbody F Q. split.
  - intros EM. exists (w / m). pose proof (Z.div_mod w m ltac:(lia)) as D. rewrite EM in D. split; [|lia]. split. { apply Z.div_pos; lia. }
    set (q := w / m) in *. clearbody q. destruct (Z.ltb_spec r Q); nia.
  - intros (q & Hq & ->). rewrite Z.mul_comm, Z.mod_add, Z.mod_small by lia. auto.
Qed.

(** The index that a word [w] gives is [r] exactly if the word lies in the class of [r]. *)
Lemma index_class M w N i r : 0 <= w < M -> (i <= r < N)%nat ->
  (r = (i + Z.to_nat (w mod (Z.of_nat N - Z.of_nat i)))%nat <->
   exists q, 0 <= q < M / Z.of_nat (N - i) + (if Z.of_nat (r - i) <? M mod Z.of_nat (N - i) then 1 else 0) /\ w = Z.of_nat (r - i) + Z.of_nat (N - i) * q).
Proof.
  intros Hw Hr. rewrite <- (word_class M w (Z.of_nat (N - i)) (Z.of_nat (r - i)) Hw ltac:(lia) ltac:(lia)).
  rewrite <- Nat2Z.inj_sub by lia. pose proof (Z.mod_pos_bound w (Z.of_nat (N - i)) ltac:(lia)). lia.
Qed.

(** Permutations. The shuffle takes index i from a 32-bit word modulo N - i. A permutation is the result exactly if each of the
    N - 1 words lies in a certain class; a class has floor(2^32 / (N - i)) or one more words. *)
Theorem C51_permutation : forall p, wf_params p -> forall target, perm_list (pN p) target ->
  exists class : nat -> Z,
    (forall i, (i < pN p - 1)%nat -> 0 <= class i < Z.of_nat (pN p - i)) /\
    (forall X, lawful X (hash_len p) -> forall st,
       (exists st', yt_shuffle_state X p st (map Z.of_nat (seq 0 (pN p))) = Ok (target, st')) <->
       forall i, (i < pN p - 1)%nat -> exists q, 0 <= q < 2 ^ 32 / Z.of_nat (pN p - i) + (if class i <? 2 ^ 32 mod Z.of_nat (pN p - i) then 1 else 0) /\
         le_val (firstn 4 (skipn (4 * i) (fst (x_squeeze X (4 * pN p) st)))) = class i + Z.of_nat (pN p - i) * q).
Proof.
  intros p wf target HT. destruct (C23_shuffle_bijective p wf target HT) as (rs & R1 & R2 & R3).
  pose proof (wf_K p wf) as HK. assert (HN : (pN p < 1024)%nat). { pose proof (wf_cat p wf) as C. destruct (p_cat p); lia. }
  exists (fun i => Z.of_nat (rs i - i)). split. { intros i Hi. specialize (R1 i Hi). lia. }
  intros X LX st. assert (PI : perm_list (pN p) (map Z.of_nat (seq 0 (pN p)))) by apply Permutation.Permutation_refl.
  destruct (C23_shuffle X p wf LX st _ PI) as [E _]. rewrite E.
  set (bs := fst (x_squeeze X (4 * pN p) st)).
  assert (Bb : bytes bs) by apply (law_sq_bytes _ _ LX). assert (Lb : length bs = (4 * pN p)%nat) by apply (law_sq_len _ _ LX).
  assert (WR : forall i, (i < pN p - 1)%nat -> 0 <= le_val (firstn 4 (skipn (4 * i) bs)) < 2 ^ 32).
  { intros i Hi. pose proof (le_val_range (firstn 4 (skipn (4 * i) bs)) (Forall_firstn _ _ _ (Forall_skipn _ _ _ Bb))) as R.
    rewrite firstn_length, skipn_length, Lb, Nat.min_l in R by lia.
    assert (E1 : 256 ^ Z.of_nat 4 = 4294967296) by reflexivity. assert (E2 : 2 ^ 32 = 4294967296) by reflexivity. rewrite E2, <- E1. exact R. }
  generalize dependent (2 ^ 32). intros M WR. transitivity (forall i, (i < pN p - 1)%nat -> rs i = shuffle_index p bs i).
  - split.
    + intros (st' & EQ). apply R3; [intros j Hj; apply shuffle_index_range; auto|]. injection EQ as EQ _. exact EQ.
    + intros H. eexists. rewrite <- R2, (fy_ext _ _ _ _ H). reflexivity.
  - clear - R1 WR. clearbody bs. split; intros H i Hi; apply (index_class M _ (pN p) i (rs i) (WR i Hi) (R1 i Hi)), H, Hi.
Qed.

Lemma firstn_skipn_seq n i : (i < n)%nat -> firstn 4 (skipn (4 * i) (seq 0 (4 * n))) = seq (4 * i) 4.
Proof.
  intros H. replace (4 * n)%nat with (4 * i + (4 + 4 * (n - i - 1)))%nat by lia. rewrite seq_app, skipn_app, seq_length.
  rewrite skipn_all2 by (rewrite seq_length; lia). replace (4 * i - 4 * i)%nat with 0%nat by lia. cbn [app skipn].
  rewrite seq_app, firstn_app, seq_length. rewrite firstn_all2 by (rewrite seq_length; lia). cbn [Nat.sub firstn]. rewrite app_nil_r. reflexivity.
Qed.

(** The classes do not all have the same size: the shuffle is not exactly uniform, with any parameters. There are two
    permutations [a] and [b] such that every sequence of words that gives [b] gives [a] once a certain word is made one
    less, and that leaves over a sequence that gives [a]: one with the word 2^32 - 1 there, which is not one less than any word. So [a] comes
    from more sequences of words than [b]. The word is the third from the end (N - i = 3): 2^32 is not a multiple of 3. *)
Theorem C51_uniform_permutation_refuted : forall p, wf_params p ->
  let word X st i := le_val (firstn 4 (skipn (4 * i) (fst (x_squeeze X (4 * pN p) st)))) in
  let gives X st target := exists st', yt_shuffle_state X p st (map Z.of_nat (seq 0 (pN p))) = Ok (target, st') in
  exists a b k, perm_list (pN p) a /\ perm_list (pN p) b /\ a <> b /\ (k < pN p - 1)%nat /\
    (forall X st X' st', lawful X (hash_len p) -> lawful X' (hash_len p) -> gives X st b ->
       (forall i, (i < pN p - 1)%nat -> word X' st' i = if (i =? k)%nat then word X st i - 1 else word X st i) -> gives X' st' a) /\
    (forall X st, lawful X (hash_len p) -> (forall i, (i < pN p - 1)%nat -> word X st i = if (i =? k)%nat then 2 ^ 32 - 1 else 0) -> gives X st a) /\
    (exists X st, lawful X (hash_len p) /\ forall i, (i < pN p - 1)%nat -> word X st i = if (i =? k)%nat then 2 ^ 32 - 1 else 0).
Proof.
  intros p wf word gives. pose proof (wf_K p wf) as HK. assert (HN : (128 <= pN p)%nat). { pose proof (wf_cat p wf) as C. destruct (p_cat p); lia. }
  set (id := map Z.of_nat (seq 0 (pN p))) in *. assert (PI : perm_list (pN p) id) by apply Permutation.Permutation_refl.
  assert (LI : length id = pN p) by (unfold id; rewrite map_length, seq_length; auto).
  assert (ND : NoDup id). { apply FinFun.Injective_map_NoDup; [intros x y; apply Nat2Z.inj|apply seq_NoDup]. }
  set (k := (pN p - 3)%nat). set (rb := fun i => if (i =? k)%nat then S i else i).
  assert (RA : forall i, (i < pN p - 1)%nat -> (i <= i < length id)%nat) by (intros; lia).
  assert (RB : forall i, (i < pN p - 1)%nat -> (i <= rb i < length id)%nat).
  { intros i Hi. unfold rb. destruct (Nat.eqb_spec i k); unfold k in *; lia. }
  assert (GV : forall X st rs, lawful X (hash_len p) -> (forall i, (i < pN p - 1)%nat -> (i <= rs i < length id)%nat) ->
    (gives X st (fisher_yates (pN p - 1) rs id) <-> forall i, (i < pN p - 1)%nat -> word X st i mod (Z.of_nat (pN p - i)) = Z.of_nat (rs i - i))).
  { intros X st rs LX HR. unfold gives. destruct (C23_shuffle X p wf LX st id PI) as [E _]. rewrite E.
    assert (IR : forall i, (i < pN p - 1)%nat -> (i <= shuffle_index p (fst (x_squeeze X (4 * pN p) st)) i < length id)%nat).
    { intros j Hj. rewrite LI. apply shuffle_index_range; auto. }
    transitivity (forall i, (i < pN p - 1)%nat -> shuffle_index p (fst (x_squeeze X (4 * pN p) st)) i = rs i).
    - split.
      + intros (st' & EQ). injection EQ as EQ _. apply (fy_injective (pN p - 1) _ _ id); auto. lia.
      + intros H. eexists. rewrite (fy_ext _ _ _ _ H). reflexivity.
    - clear - HR LI. split; intros H i Hi; specialize (H i Hi); specialize (HR i Hi); unfold shuffle_index in *; fold (word X st i) in *;
        rewrite <- Nat2Z.inj_sub in * by lia; pose proof (Z.mod_pos_bound (word X st i) (Z.of_nat (pN p - i)) ltac:(lia)); lia. }
  exists (fisher_yates (pN p - 1) (fun i => i) id), (fisher_yates (pN p - 1) rb id), k.
  split. { apply (Permutation.Permutation_trans (fy_perm (pN p - 1) (fun i => i) id ltac:(lia) RA ND) PI). }
  split. { apply (Permutation.Permutation_trans (fy_perm (pN p - 1) rb id ltac:(lia) RB ND) PI). }
  split. { intros E. pose proof (fy_injective (pN p - 1) _ _ id ltac:(lia) ND RA RB E k ltac:(unfold k; lia)) as E'. cbv beta in E'. unfold rb in E'. rewrite Nat.eqb_refl in E'. lia. }
  split. { unfold k. lia. }
  assert (MK : Z.of_nat (pN p - k) = 3) by (unfold k; lia).
  split; [|split].
  - intros X st X' st' LX LX' G H. apply (GV X' st' (fun i => i) LX' RA). intros i Hi. rewrite (H i Hi).
    pose proof (proj1 (GV X st rb LX RB) G i Hi) as E. unfold rb in E. destruct (Nat.eqb_spec i k) as [->|NE].
    + rewrite MK in *. rewrite Zminus_mod, E. replace (S k - k)%nat with 1%nat by lia. replace (k - k)%nat with 0%nat by lia. reflexivity.
    + exact E.
  - intros X st LX H. apply (GV X st (fun i => i) LX RA). intros i Hi. rewrite (H i Hi). replace (i - i)%nat with 0%nat by lia.
    destruct (Nat.eqb_spec i k) as [->|NE]. { rewrite MK. reflexivity. } apply Z.mod_0_l. lia.
  - set (byte := fun i => if (Nat.leb (4 * k) i && Nat.ltb i (4 * k + 4))%bool then 255 else 0).
    exists {| xstate := unit; x_init := fun _ => tt; x_squeeze := fun n s => (map byte (seq 0 n), s);
              hstate := unit; h_init := tt; h_absorb := fun s _ => s; h_final := fun _ => repeat 0 (hash_len p) |}, tt.
    split.
    + assert (BB : forall i, is_byte (byte i)) by (intros i; unfold byte; destruct (_ && _)%bool; red; lia).
      constructor; cbn [x_squeeze h_final h_absorb fst]; intros.
      * rewrite map_length, seq_length. reflexivity.
      * apply Forall_forall. intros x Hx. apply in_map_iff in Hx. destruct Hx as (i & <- & _). apply BB.
      * apply repeat_length.
      * apply Forall_forall. intros x Hx. apply repeat_spec in Hx. subst x. red. lia.
      * reflexivity.
    + intros i Hi. unfold word. cbn [x_squeeze fst].
      rewrite skipn_map, firstn_map. rewrite (firstn_skipn_seq (pN p) i) by lia. cbn [map le_val seq].
      destruct (Nat.eqb_spec i k) as [->|NE].
      * assert (B : forall j, (4 * k <= j < 4 * k + 4)%nat -> byte j = 255).
        { intros j Hj. unfold byte. destruct (Nat.leb_spec (4 * k) j); [|lia]. destruct (Nat.ltb_spec j (4 * k + 4)); [|lia]. reflexivity. }
        rewrite !B by lia. reflexivity.
      * assert (B : forall j, (4 * i <= j < 4 * i + 4)%nat -> byte j = 0).
        { intros j Hj. unfold byte. destruct (Nat.leb_spec (4 * k) j); auto. destruct (Nat.ltb_spec j (4 * k + 4)); auto. lia. }
        rewrite !B by lia. reflexivity.
Qed.

(** Two words of the sampler of non-zero elements and their exchange: 1, 2, 3 becomes 5, 2, 126. *)
Example C51_example_elements :
  firstn 3 (samples 1 126 [2 ^ 63 + 127 * 128 ^ 0 + 0 * 128 ^ 1 + 1 * 128 ^ 2 + 2 * 128 ^ 3]) = [1; 2; 3] /\
  firstn 3 (samples 1 126 (remap_words 125 (fun i => swap_val (nth i [0; 1; 2] 0) (nth i [4; 1; 125] 0)) 0
     [2 ^ 63 + 127 * 128 ^ 0 + 0 * 128 ^ 1 + 1 * 128 ^ 2 + 2 * 128 ^ 3])) = [5; 2; 126].
Proof. split; vm_compute; reflexivity. Qed.

(** The challenge of C09_example is complete within twenty half-words; so are others of weight 2. *)
Example C51_example_challenge :
  full_challenge toy_params [1; 0; 2; 0; 0; 0] /\ full_challenge toy_params [0; 0; 0; 1; 0; 1] /\
  Z.log2 (Z.of_nat (p_nk toy_params) - 1) + 1 + (Z.log2 (Z.of_nat (pT toy_params) - 1) + 1) <= 16 /\
  fold_left (place toy_params) [12; 1 + 4 * 0; 3; 2 + 4 * 2 + 32 * 5] (repeat 0 6) = [1; 0; 2; 0; 0; 0].
Proof. repeat split; try (vm_compute; congruence); repeat constructor; cbn; lia. Qed.

Print Assumptions C51_elements.
Print Assumptions C51_challenge.
Print Assumptions C51_room.
Print Assumptions C51_permutation.
Print Assumptions C51_uniform_permutation_refuted.
