(** The samplers favour no value: proofs. *)
From Coq Require Import Permutation.
From Verif Require Import Base BaseLemmas Params ParamsProofs Prim Samplers Utils Spec SampleSpec LessSpec SpecSampling BitCodec SamplerProofs SeedTreeProofs VerifyProofs SignerProofs ScriptRun.

(** *** Specification *)

(** Sequences of 64-bit and of 16-bit words. *)
Definition words64 (ws : list Z) : Prop := Forall (fun w => 0 <= w < 2 ^ 64) ws.
Definition words16 (ws : list Z) : Prop := Forall (fun w => 0 <= w < 2 ^ 16) ws.

(** A vector of T key numbers; a challenge has W that are not zero. *)
Definition partial_challenge (p : params) (c : list Z) : Prop := length c = pT p /\ Forall (fun x => 0 <= x < Z.of_nat (p_nk p)) c.
Definition full_challenge (p : params) (c : list Z) : Prop := partial_challenge p c /\ weight c = pW p.

(** The challenge [c] is complete within the words [ws]: as [challenge_of] in LessSpec, for given words. *)
Definition challenge_in (p : params) (ws c : list Z) : Prop :=
  exists k, (k <= length ws)%nat /\ c = fold_left (place p) (firstn k ws) (repeat 0 (pT p)) /\ weight c = pW p /\
    forall j, (j < k)%nat -> (weight (fold_left (place p) (firstn j ws) (repeat 0%Z (pT p))) < pW p)%nat.

(** *** Field elements *)
Definition swap_val (a b v : Z) : Z := if v =? a then b else if v =? b then a else v.

Lemma swap_val_invol a b v : swap_val a b (swap_val a b v) = v.
Proof.
  unfold swap_val. destruct (Z.eqb_spec v a) as [->|H1].
  - destruct (Z.eqb_spec b a) as [->|H]; auto. rewrite Z.eqb_refl. auto.
  - destruct (Z.eqb_spec v b) as [->|H2]. { rewrite Z.eqb_refl. auto. }
    destruct (Z.eqb_spec v a); [lia|]. destruct (Z.eqb_spec v b); [lia|auto].
Qed.

Lemma swap_val_left a b : swap_val a b a = b.
Proof. unfold swap_val. rewrite Z.eqb_refl. auto. Qed.

Lemma swap_val_range a b v s : 0 <= a <= s -> 0 <= b <= s -> 0 <= v <= s -> 0 <= swap_val a b v <= s.
Proof. unfold swap_val. intros. destruct (Z.eqb_spec v a); [lia|]. destruct (Z.eqb_spec v b); lia. Qed.

(** A word from its chunks and the bits above them. *)
Fixpoint unchunk (cs : list Z) (top : Z) : Z :=
  match cs with [] => top | c :: cs' => c + 128 * unchunk cs' top end.

Lemma chunk_from_S w n : 0 <= w -> chunk_from w 0 (S n) = w mod 128 :: chunk_from (w / 128) 0 n.
Proof.
  intros Hw. change 128 with (2 ^ 7) at 2. rewrite <- Z.shiftr_div_pow2 by lia. rewrite chunk_shift by auto.
  unfold chunk_from. cbn [seq map]. f_equal. rewrite Z.mul_0_r, Z.pow_0_r, Z.div_1_r. auto.
Qed.

Lemma unchunk_nonneg cs top : 0 <= top -> Forall (fun c => 0 <= c < 128) cs -> 0 <= unchunk cs top.
Proof. intros Ht H. induction H; cbn [unchunk]; lia. Qed.

Lemma chunk_unchunk cs top : 0 <= top -> Forall (fun c => 0 <= c < 128) cs -> chunk_from (unchunk cs top) 0 (length cs) = cs.
Proof.
  intros Ht H. induction H as [|c cs Hc H IH]. { reflexivity. } pose proof (unchunk_nonneg cs top Ht H).
  cbn [length unchunk]. rewrite chunk_from_S by lia.
  replace ((c + 128 * unchunk cs top) mod 128) with c.
  2:{ rewrite Z.mul_comm, Z.mod_add, Z.mod_small by lia. auto. }
  replace ((c + 128 * unchunk cs top) / 128) with (unchunk cs top). { rewrite IH. auto. }
  rewrite Z.mul_comm, Z.div_add, Z.div_small by lia. lia.
Qed.

Lemma unchunk_chunk w n : 0 <= w -> unchunk (chunk_from w 0 n) (w / 128 ^ Z.of_nat n) = w.
Proof.
  revert w. induction n as [|n IH]; intros w Hw. { cbn [chunk_from seq map unchunk]. change (128 ^ Z.of_nat 0) with 1. apply Z.div_1_r. }
  rewrite chunk_from_S by auto. cbn [unchunk]. rewrite Nat2Z.inj_succ, Z.pow_succ_r by lia.
  rewrite <- Z.div_div by lia. rewrite IH by (apply Z.div_pos; lia). pose proof (Z.div_mod w 128 ltac:(lia)). lia.
Qed.

Lemma unchunk_div cs top : 0 <= top -> Forall (fun c => 0 <= c < 128) cs -> unchunk cs top / 128 ^ Z.of_nat (length cs) = top.
Proof.
  intros Ht H. induction H as [|c cs Hc H IH]. { cbn [unchunk length]. change (128 ^ Z.of_nat 0) with 1. apply Z.div_1_r. }
  cbn [unchunk length]. rewrite Nat2Z.inj_succ, Z.pow_succ_r by lia. rewrite <- Z.div_div by lia.
  replace ((c + 128 * unchunk cs top) / 128) with (unchunk cs top). { exact IH. }
  rewrite Z.mul_comm, Z.div_add, Z.div_small by lia. lia.
Qed.

Lemma chunk_from_range w n : Forall (fun c => 0 <= c < 128) (chunk_from w 0 n).
Proof. unfold chunk_from. apply Forall_forall. intros c Hc. apply in_map_iff in Hc. destruct Hc as (i & <- & _). apply Z.mod_pos_bound. lia. Qed.

Section E.
Variable span : Z.
Hypothesis Hspan : 0 <= span < 128.
Variable tau : nat -> Z -> Z.
Hypothesis tau_range : forall k v, 0 <= v <= span -> 0 <= tau k v <= span.
Hypothesis tau_invol : forall k v, tau k (tau k v) = v.

Definition accepted (cs : list Z) : list Z := filter (fun v => v <=? span) cs.

(** The i-th accepted chunk [v] becomes [tau (k + i) v]. *)
Fixpoint remap (k : nat) (cs : list Z) : list Z :=
  match cs with
  | [] => []
  | c :: cs' => if c <=? span then tau k c :: remap (S k) cs' else c :: remap k cs'
  end.

Fixpoint remap_words (k : nat) (ws : list Z) : list Z :=
  match ws with
  | [] => []
  | w :: ws' => unchunk (remap k (chunks7 w)) (w / 128 ^ 9) :: remap_words (k + length (accepted (chunks7 w))) ws'
  end.

Lemma remap_length k cs : length (remap k cs) = length cs.
Proof. revert k. induction cs as [|c cs IH]; intros k; cbn [remap length]; auto. destruct (c <=? span); cbn [length]; rewrite IH; auto. Qed.

Lemma remap_range k cs : Forall (fun c => 0 <= c < 128) cs -> Forall (fun c => 0 <= c < 128) (remap k cs).
Proof.
  intros H. revert k. induction H as [|c cs Hc H IH]; intros k; cbn [remap]; [constructor|].
  destruct (Z.leb_spec c span); constructor; auto. pose proof (tau_range k c ltac:(lia)). lia.
Qed.

Fixpoint imap (k : nat) (vs : list Z) : list Z := match vs with [] => [] | v :: vs' => tau k v :: imap (S k) vs' end.
Lemma imap_length k vs : length (imap k vs) = length vs.
Proof using tau. clear -tau. revert k. induction vs; intros k; cbn [imap length]; auto. Qed.
Lemma imap_app k a b : imap k (a ++ b) = imap k a ++ imap (k + length a) b.
Proof using tau. clear -tau.
  revert k. induction a as [|x a IH]; intros k; cbn [imap app length]. { rewrite Nat.add_0_r. auto. }
  rewrite IH. rewrite <- Nat.add_succ_comm. auto.
Qed.
Lemma imap_nth k vs i : (i < length vs)%nat -> nth i (imap k vs) 0 = tau (k + i) (nth i vs 0).
Proof using tau. clear -tau.
  revert k i. induction vs as [|v vs IH]; intros k i Hi; cbn [length] in Hi; [lia|]. destruct i as [|i]; cbn [imap nth].
  - rewrite Nat.add_0_r. auto.
  - rewrite IH by lia. rewrite <- Nat.add_succ_comm. auto.
Qed.

Lemma remap_accepted k cs : Forall (fun c => 0 <= c < 128) cs -> accepted (remap k cs) = imap k (accepted cs).
Proof.
  intros H. revert k. induction H as [|c cs Hc H IH]; intros k; cbn [remap accepted filter]; auto.
  destruct (Z.leb_spec c span) as [Hs|Hs]; cbn [filter].
  - pose proof (tau_range k c ltac:(lia)). destruct (Z.leb_spec (tau k c) span); [|lia]. cbn [imap]. f_equal. apply IH.
  - destruct (Z.leb_spec c span); [lia|]. apply IH.
Qed.

Lemma remap_invol k cs : Forall (fun c => 0 <= c < 128) cs -> remap k (remap k cs) = cs.
Proof.
  intros H. revert k. induction H as [|c cs Hc H IH]; intros k; cbn [remap]; auto.
  destruct (Z.leb_spec c span) as [Hs|Hs]; cbn [remap].
  - pose proof (tau_range k c ltac:(lia)). destruct (Z.leb_spec (tau k c) span); [|lia]. rewrite tau_invol, IH. auto.
  - destruct (Z.leb_spec c span); [lia|]. rewrite IH. auto.
Qed.

Lemma chunks7_range w : Forall (fun c => 0 <= c < 128) (chunks7 w).
Proof. apply chunk_from_range. Qed.
Lemma chunks7_length w : length (chunks7 w) = 9%nat.
Proof. unfold chunks7. rewrite map_length, seq_length. auto. Qed.

Lemma top_range w : 0 <= w < 2 ^ 64 -> 0 <= w / 128 ^ 9 <= 1.
Proof. intros H. change (128 ^ 9) with (2 ^ 63). change (2 ^ 64) with (2 * 2 ^ 63) in H. split; [apply Z.div_pos; lia|]. enough (w / 2 ^ 63 < 2) by lia. apply Z.div_lt_upper_bound; lia. Qed.

Lemma remap_chunks k w : 0 <= w < 2 ^ 64 -> chunks7 (unchunk (remap k (chunks7 w)) (w / 128 ^ 9)) = remap k (chunks7 w).
Proof.
  intros H. pose proof (top_range w H). pose proof (chunk_unchunk (remap k (chunks7 w)) (w / 128 ^ 9) ltac:(lia) (remap_range k _ (chunks7_range w))) as E.
  rewrite remap_length, chunks7_length in E. exact E.
Qed.

Lemma unchunk_below n cs top : length cs = n -> Forall (fun c => 0 <= c < 128) cs -> 0 <= top <= 1 -> unchunk cs top < 2 * 128 ^ Z.of_nat n.
Proof.
  intros <- H Ht. induction H as [|c cs Hc H IH]. { cbn [unchunk length]. change (128 ^ Z.of_nat 0) with 1. lia. }
  cbn [unchunk length]. rewrite Nat2Z.inj_succ, Z.pow_succ_r by lia. lia.
Qed.

Lemma remap_word_range k w : 0 <= w < 2 ^ 64 -> 0 <= unchunk (remap k (chunks7 w)) (w / 128 ^ 9) < 2 ^ 64.
Proof.
  intros H. pose proof (top_range w H). pose proof (remap_range k _ (chunks7_range w)) as R. split. { apply unchunk_nonneg; auto; lia. }
  pose proof (unchunk_below 9 (remap k (chunks7 w)) (w / 128 ^ 9) ltac:(rewrite remap_length; apply chunks7_length) R ltac:(lia)) as B.
  change (2 * 128 ^ Z.of_nat 9) with (2 ^ 64) in B. exact B.
Qed.

Lemma remap_words_ok k ws : words64 ws -> words64 (remap_words k ws) /\ length (remap_words k ws) = length ws /\ remap_words k (remap_words k ws) = ws.
Proof.
  intros H. revert k. induction H as [|w ws Hw H IH]; intros k; cbn [remap_words]. { repeat split; auto; constructor. }
  destruct (IH (k + length (accepted (chunks7 w)))%nat) as (I1 & I2 & I3). split. { constructor; auto. apply remap_word_range. auto. }
  split. { cbn [length]. lia. }
  rewrite remap_chunks by auto. rewrite remap_accepted by apply chunks7_range. rewrite imap_length, I3. f_equal.
  rewrite remap_invol by apply chunks7_range. pose proof (top_range w Hw).
  pose proof (unchunk_div (remap k (chunks7 w)) (w / 128 ^ 9) ltac:(lia) (remap_range k _ (chunks7_range w))) as D.
  rewrite remap_length, chunks7_length in D. change (128 ^ Z.of_nat 9) with (128 ^ 9) in D. rewrite D. apply (unchunk_chunk w 9). lia.
Qed.

Lemma remap_words_accepted k ws : words64 ws -> accepted (concat (map chunks7 (remap_words k ws))) = imap k (accepted (concat (map chunks7 ws))).
Proof.
  intros H. revert k. induction H as [|w ws Hw H IH]; intros k; cbn [remap_words map concat]; auto.
  unfold accepted at 1 3. rewrite !filter_app. fold (accepted (chunks7 (unchunk (remap k (chunks7 w)) (w / 128 ^ 9)))) (accepted (chunks7 w)).
  rewrite imap_app. f_equal; [|apply IH]. rewrite remap_chunks by auto. apply remap_accepted. apply chunks7_range.
Qed.
End E.

Lemma samples_exchange minv num vals vals' : (minv = 0 \/ minv = 1) ->
  length vals = num -> length vals' = num -> Forall (fun v => minv <= v <= 126) vals -> Forall (fun v => minv <= v <= 126) vals' ->
  exists f, (forall ws, words64 ws -> words64 (f ws) /\ length (f ws) = length ws /\ f (f ws) = ws) /\
    forall ws, words64 ws -> firstn num (samples minv 126 ws) = vals <-> firstn num (samples minv 126 (f ws)) = vals'.
Proof.
  intros Hm L L' R R'. set (span := 126 - minv).
  set (tau := fun i v => if (i <? num)%nat then swap_val (nth i vals 0 - minv) (nth i vals' 0 - minv) v else v).
  assert (TI : forall k v, tau k (tau k v) = v). { intros k v. unfold tau. destruct (k <? num)%nat; auto. apply swap_val_invol. }
  assert (NR : forall (l : list Z) i, Forall (fun v => minv <= v <= 126) l -> (i < length l)%nat -> 0 <= nth i l 0 - minv <= span).
  { intros l i F Hi. rewrite Forall_forall in F. specialize (F _ (nth_In l 0 Hi)). unfold span. lia. }
  assert (TR : forall k v, 0 <= v <= span -> 0 <= tau k v <= span).
  { intros k v Hv. unfold tau. destruct (Nat.ltb_spec k num); auto. apply swap_val_range; auto; apply NR; auto; lia. }
  assert (HS : 0 <= span < 128) by (unfold span; lia).
  exists (remap_words span tau 0). split. { intros ws H. apply remap_words_ok; auto. }
  intros ws H. pose proof (remap_words_accepted span HS tau TR TI 0 ws H) as EA.
  unfold samples. fold span. change (filter (fun v => v <=? span)) with (accepted span). rewrite EA.
  set (A := accepted span (concat (map chunks7 ws))).
  assert (KEY : forall (B : list Z) (u : list Z), length u = num -> (firstn num (map (fun v => v + minv) B) = u <->
     (num <= length B)%nat /\ forall i, (i < num)%nat -> nth i B 0 = nth i u 0 - minv)).
  { intros B u Lu. assert (NM : forall i, (i < length B)%nat -> nth i (map (fun v => v + minv) B) 0 = nth i B 0 + minv).
    { intros i Hi. rewrite (nth_indep _ 0 (0 + minv)) by (rewrite map_length; auto). apply (map_nth (fun v => v + minv)). }
    split.
    - intros <-. rewrite firstn_length, map_length in Lu. split; [lia|]. intros i Hi. rewrite nth_firstn by lia. rewrite NM by lia. lia.
    - intros [HB HN]. apply (list_ext 0). { rewrite firstn_length, map_length. lia. }
      intros i Hi. rewrite firstn_length, map_length in Hi. rewrite nth_firstn by lia. rewrite NM by lia. rewrite HN by lia. lia. }
  rewrite (KEY A vals L), (KEY (imap tau 0 A) vals' L'), imap_length. split; intros [H1 H2]; split; auto; intros i Hi.
  - rewrite imap_nth by lia. cbn [Nat.add]. rewrite H2 by auto. unfold tau. destruct (Nat.ltb_spec i num); [|lia]. apply swap_val_left.
  - specialize (H2 i Hi). rewrite imap_nth in H2 by lia. cbn [Nat.add] in H2. rewrite <- (TI i (nth i A 0)), H2. unfold tau.
    destruct (Nat.ltb_spec i num); [|lia]. rewrite <- (swap_val_left (nth i vals 0 - minv) (nth i vals' 0 - minv)) at 2. apply swap_val_invol.
Qed.

Lemma draw_words64 X n st : (forall n s, bytes (fst (x_squeeze X n s))) -> (forall n s, length (fst (x_squeeze X n s)) = n) -> words64 (draw_words X n st).
Proof.
  intros HB HL. revert st. induction n as [|n IH]; intros st; cbn [draw_words]; constructor; [|apply IH].
  pose proof (le_val_range (fst (x_squeeze X 8 st)) (HB _ _)) as B. rewrite HL in B. exact B.
Qed.

(** *** Challenges *)
Lemma swap_at_invol l i j : (i < length l)%nat -> (j < length l)%nat -> swap_at (swap_at l i j) i j = l.
Proof.
  intros Hi Hj. apply (list_ext 0). { rewrite !swap_at_length. auto. }
  intros k _. rewrite !swap_at_nth by (rewrite ?swap_at_length; auto). rewrite !Nat.eqb_refl.
  destruct (Nat.eqb_spec k j) as [->|]. { destruct (Nat.eqb_spec i j) as [->|]; auto. }
  destruct (Nat.eqb_spec k i) as [->|]; auto. 
Qed.

Definition swap_idx (i j q : nat) : nat := if Nat.eqb q i then j else if Nat.eqb q j then i else q.
Lemma swap_idx_invol i j q : swap_idx i j (swap_idx i j q) = q.
Proof.
  unfold swap_idx. destruct (Nat.eqb_spec q i) as [->|H1].
  - destruct (Nat.eqb_spec j i) as [->|H]; auto. rewrite Nat.eqb_refl. auto.
  - destruct (Nat.eqb_spec q j) as [->|H2]. { rewrite Nat.eqb_refl. auto. }
    destruct (Nat.eqb_spec q i); [lia|]. destruct (Nat.eqb_spec q j); [lia|auto].
Qed.
Lemma swap_idx_range i j q n : (i < n)%nat -> (j < n)%nat -> (q < n)%nat -> (swap_idx i j q < n)%nat.
Proof. unfold swap_idx. intros. destruct (Nat.eqb q i); auto. destruct (Nat.eqb q j); auto. Qed.
Lemma swap_at_swap_idx l i j q : (i < length l)%nat -> (j < length l)%nat -> nth (swap_idx i j q) (swap_at l i j) 0 = nth q l 0.
Proof.
  intros Hi Hj. rewrite swap_at_nth by auto. unfold swap_idx. destruct (Nat.eqb_spec q i) as [->|H1]. { rewrite Nat.eqb_refl. auto. }
  destruct (Nat.eqb_spec q j) as [->|H2]. { destruct (Nat.eqb_spec i j) as [->|]; auto. rewrite Nat.eqb_refl. auto. }
  destruct (Nat.eqb_spec q j); [lia|]. destruct (Nat.eqb_spec q i); [lia|auto].
Qed.

Section C.
Variable p : params.
Hypothesis wf : wf_params p.
Notation T := (pT p).
Notation nk := (Z.of_nat (p_nk p)).
Notation partial_challenge := (partial_challenge p).
Notation full_challenge := (full_challenge p).
Notation challenge_in := (challenge_in p).
Notation kb := (Z.log2 (Z.of_nat (p_nk p) - 1) + 1).
Notation pb := (Z.log2 (Z.of_nat (pT p) - 1) + 1).
Hypothesis fits : kb + pb <= 16.

Definition word_of (v q r : Z) : Z := v + 2 ^ kb * (q + 2 ^ pb * r).

Lemma kb_pos : 0 <= kb /\ 0 < 2 ^ kb /\ nk <= 2 ^ kb.
Proof.
  pose proof (wf_nk p wf). pose proof (Z.log2_nonneg (nk - 1)). pose proof (Z.log2_spec (nk - 1) ltac:(lia)) as S.
  rewrite <- Z.add_1_r in S. split; [lia|]. split; [|lia]. apply Z.pow_pos_nonneg; lia.
Qed.
Lemma pb_pos : 0 <= pb /\ 0 < 2 ^ pb /\ Z.of_nat T <= 2 ^ pb.
Proof.
  pose proof (wf_T p wf). pose proof (Z.log2_nonneg (Z.of_nat T - 1)). pose proof (Z.log2_spec (Z.of_nat T - 1) ltac:(lia)) as S.
  rewrite <- Z.add_1_r in S. split; [lia|]. split; [|lia]. apply Z.pow_pos_nonneg; lia.
Qed.

Lemma word_of_fields v q r : 0 <= v < 2 ^ kb -> 0 <= q < 2 ^ pb ->
  word_of v q r mod 2 ^ kb = v /\ (word_of v q r / 2 ^ kb) mod 2 ^ pb = q /\ word_of v q r / 2 ^ kb / 2 ^ pb = r.
Proof.
  intros Hv Hq. destruct kb_pos as (_ & K & _). destruct pb_pos as (_ & P & _). unfold word_of. generalize dependent (2 ^ kb). generalize dependent (2 ^ pb).
  intros b Hq Hb a Ha Hv. clear -Hq Hb Ha Hv.
  assert (E : (v + a * (q + b * r)) / a = q + b * r) by (rewrite Z.mul_comm, Z.div_add, Z.div_small by lia; lia).
  rewrite E. split. { rewrite Z.mul_comm, Z.mod_add, Z.mod_small by lia. auto. }
  split. { rewrite Z.mul_comm, Z.mod_add, Z.mod_small by lia. auto. }
  rewrite Z.mul_comm, Z.div_add, Z.div_small by lia. lia.
Qed.

Lemma word_of_eq w : w = word_of (w mod 2 ^ kb) ((w / 2 ^ kb) mod 2 ^ pb) (w / 2 ^ kb / 2 ^ pb).
Proof.
  destruct kb_pos as (_ & K & _). destruct pb_pos as (_ & P & _). unfold word_of. generalize dependent (2 ^ kb). generalize dependent (2 ^ pb).
  intros b Hb a Ha. clear -Hb Ha.
  replace ((w / a) mod b + b * (w / a / b)) with (w / a).
  - pose proof (Z.div_mod w a ltac:(lia)). lia.
  - pose proof (Z.div_mod (w / a) b ltac:(lia)). lia.
Qed.

Lemma word_of_range v q w : 0 <= v < 2 ^ kb -> 0 <= q < 2 ^ pb -> 0 <= w < 2 ^ 16 -> 0 <= word_of v q (w / 2 ^ kb / 2 ^ pb) < 2 ^ 16.
Proof.
  intros Hv Hq Hw. destruct kb_pos as (K0 & K & _). destruct pb_pos as (P0 & P & _). unfold word_of.
  assert (E : 2 ^ 16 = 2 ^ kb * (2 ^ pb * 2 ^ (16 - kb - pb))) by (rewrite <- !Z.pow_add_r by lia; f_equal; lia).
  assert (D : 0 < 2 ^ (16 - kb - pb)) by (apply Z.pow_pos_nonneg; lia).
  rewrite E in *. clear E. generalize dependent (2 ^ kb). generalize dependent (2 ^ pb). generalize dependent (2 ^ (16 - kb - pb)). clear.
  intros d Hd b Hq Hb a Ha Hv Hw.
  assert (R : 0 <= w / a / b < d).
  { split. { apply Z.div_pos; [apply Z.div_pos|]; lia. } rewrite Z.div_div by lia. apply Z.div_lt_upper_bound; [nia|]. lia. }
  set (r := w / a / b) in *. clearbody r.
  assert (b * (r + 1) <= b * d) by (apply Z.mul_le_mono_nonneg_l; lia). assert (0 <= b * r) by (apply Z.mul_nonneg_nonneg; lia).
  assert (S1 : 0 <= q + b * r) by lia. assert (S2 : q + b * r + 1 <= b * d) by lia. set (s := q + b * r) in *. clearbody s.
  assert (a * (s + 1) <= a * (b * d)) by (apply Z.mul_le_mono_nonneg_l; lia). assert (0 <= a * s) by (apply Z.mul_nonneg_nonneg; lia). lia.
Qed.

(** A change [phi] of (value, position) pairs, applied to a word. *)
Definition rename (phi : Z -> nat -> Z * nat) (w : Z) : Z :=
  let v := w mod 2 ^ kb in
  let q := (w / 2 ^ kb) mod 2 ^ pb in
  if (v <? nk) && (q <? Z.of_nat T) then
    let (v', q') := phi v (Z.to_nat q) in word_of v' (Z.of_nat q') (w / 2 ^ kb / 2 ^ pb)
  else w.

Definition pair_ok (v : Z) (q : nat) : Prop := 0 <= v < nk /\ (q < T)%nat.

Section R.
Variable phi : Z -> nat -> Z * nat.
Hypothesis phi_ok : forall v q, pair_ok v q -> pair_ok (fst (phi v q)) (snd (phi v q)) /\ phi (fst (phi v q)) (snd (phi v q)) = (v, q).

Lemma rename_ok w : 0 <= w < 2 ^ 16 -> 0 <= rename phi w < 2 ^ 16 /\ rename phi (rename phi w) = w.
Proof.
  intros Hw. destruct kb_pos as (_ & K & KN). destruct pb_pos as (_ & P & PN).
  remember (rename phi w) as x eqn:EX. unfold rename in EX. cbv zeta in EX.
  pose proof (Z.mod_pos_bound w (2 ^ kb) K) as MV. pose proof (Z.mod_pos_bound (w / 2 ^ kb) (2 ^ pb) P) as MQ.
  destruct ((w mod 2 ^ kb <? nk) && ((w / 2 ^ kb) mod 2 ^ pb <? Z.of_nat T)) eqn:EC.
  2:{ subst x. split; auto. unfold rename. cbv zeta. rewrite EC. auto. }
  apply andb_true_iff in EC. destruct EC as [E1 E2]. apply Z.ltb_lt in E1, E2.
  set (v := w mod 2 ^ kb) in *. set (q := (w / 2 ^ kb) mod 2 ^ pb) in *.
  assert (PO : pair_ok v (Z.to_nat q)) by (split; lia). destruct (phi_ok v (Z.to_nat q) PO) as ((V1 & V2) & V3).
  destruct (phi v (Z.to_nat q)) as [v' q']. cbn [fst snd] in V1, V2, V3. subst x.
  split. { apply word_of_range; lia. }
  destruct (word_of_fields v' (Z.of_nat q') (w / 2 ^ kb / 2 ^ pb) ltac:(lia) ltac:(lia)) as (F1 & F2 & F3).
  unfold rename. cbv zeta. rewrite F1, F2, F3, Nat2Z.id, V3.
  destruct (Z.ltb_spec v' nk); [|lia]. destruct (Z.ltb_spec (Z.of_nat q') (Z.of_nat T)); [|lia]. cbn [andb].
  rewrite Z2Nat.id by lia. symmetry. apply word_of_eq.
Qed.

Variable F : list Z -> list Z.
Hypothesis F_ok : forall c, partial_challenge c -> partial_challenge (F c).
Hypothesis F_zero : forall c v q, partial_challenge c -> pair_ok v q -> (nth (snd (phi v q)) (F c) 0 = 0 <-> nth q c 0 = 0).
Hypothesis F_upd : forall c v q, partial_challenge c -> pair_ok v q -> nth q c 0 = 0 -> F (upd c q v) = upd (F c) (snd (phi v q)) (fst (phi v q)).

Lemma rename_place c w : partial_challenge c -> 0 <= w < 2 ^ 16 -> F (place p c w) = place p (F c) (rename phi w).
Proof.
  intros HC Hw. destruct kb_pos as (_ & K & KN). destruct pb_pos as (_ & P & PN).
  pose proof (Z.mod_pos_bound w (2 ^ kb) K) as MV. pose proof (Z.mod_pos_bound (w / 2 ^ kb) (2 ^ pb) P) as MQ.
  unfold rename. cbv zeta. destruct ((w mod 2 ^ kb <? nk) && ((w / 2 ^ kb) mod 2 ^ pb <? Z.of_nat T)) eqn:EC.
  2:{ unfold place. cbv zeta. rewrite EC. auto. }
  unfold place at 1. cbv zeta. rewrite EC. cbn [andb].
  apply andb_true_iff in EC. destruct EC as [E1 E2]. apply Z.ltb_lt in E1, E2.
  set (v := w mod 2 ^ kb) in *. set (q := (w / 2 ^ kb) mod 2 ^ pb) in *.
  assert (PO : pair_ok v (Z.to_nat q)) by (split; lia). destruct (phi_ok v (Z.to_nat q) PO) as ((V1 & V2) & _).
  pose proof (F_zero c v (Z.to_nat q) HC PO) as FZ. pose proof (F_upd c v (Z.to_nat q) HC PO) as FU.
  destruct (phi v (Z.to_nat q)) as [v' q']. cbn [fst snd] in V1, V2, FZ, FU.
  destruct (word_of_fields v' (Z.of_nat q') (w / 2 ^ kb / 2 ^ pb) ltac:(lia) ltac:(lia)) as (F1 & F2 & F3).
  unfold place. cbv zeta. rewrite F1, F2, Nat2Z.id.
  destruct (Z.ltb_spec v' nk); [|lia]. destruct (Z.ltb_spec (Z.of_nat q') (Z.of_nat T)); [|lia]. cbn [andb].
  destruct (Z.eqb_spec (nth (Z.to_nat q) c 0) 0) as [E|E], (Z.eqb_spec (nth q' (F c) 0) 0) as [E'|E']; auto; tauto.
Qed.
End R.

Lemma place_partial c w : partial_challenge c -> partial_challenge (place p c w).
Proof.
  intros [L R]. unfold place. cbv zeta. destruct (_ && _) eqn:EC; [|split; auto]. split. { rewrite upd_length. auto. }
  apply andb_true_iff in EC. destruct EC as [EC _]. apply andb_true_iff in EC. destruct EC as [EC _]. apply Z.ltb_lt in EC.
  destruct kb_pos as (_ & K & _). apply Forall_upd; auto. pose proof (Z.mod_pos_bound w (2 ^ kb) K). lia.
Qed.

Lemma zero_partial : partial_challenge (repeat 0 T).
Proof. split. { apply repeat_length. } pose proof (wf_nk p wf). apply Forall_forall. intros x Hx. apply repeat_spec in Hx. subst. lia. Qed.

Lemma zero_weight c : partial_challenge c -> weight c = 0%nat -> c = repeat 0 T.
Proof.
  intros [L _] W. apply (list_ext 0). { rewrite repeat_length. auto. } intros i Hi. rewrite nth_repeat.
  destruct (Z.eq_dec (nth i c 0) 0); auto. exfalso.
  assert (In (nth i c 0) (filter (fun x => negb (x =? 0)) c)).
  { apply filter_In. split. { apply nth_In. auto. } destruct (Z.eqb_spec (nth i c 0) 0); [lia|auto]. }
  unfold weight in W. destruct (filter _ c); [contradiction|discriminate].
Qed.

(** [f] carries the words that lead to [c] to the words that lead to [F c]. *)
Definition carries (f g : Z -> Z) (F : list Z -> list Z) : Prop :=
  (forall w, 0 <= w < 2 ^ 16 -> 0 <= f w < 2 ^ 16 /\ 0 <= g w < 2 ^ 16 /\ g (f w) = w /\ f (g w) = w) /\
  (forall c, partial_challenge c -> partial_challenge (F c) /\ weight (F c) = weight c) /\
  (forall c c', partial_challenge c -> partial_challenge c' -> F c = F c' -> c = c') /\
  (forall c w, partial_challenge c -> 0 <= w < 2 ^ 16 -> F (place p c w) = place p (F c) (f w)).

Lemma carries_id : carries (fun w => w) (fun w => w) (fun c => c).
Proof. repeat split; auto; try lia; apply H. Qed.

Lemma carries_comp f g F f' g' F' : carries f g F -> carries f' g' F' -> carries (fun w => f' (f w)) (fun w => g (g' w)) (fun c => F' (F c)).
Proof.
  intros (A1 & A2 & A3 & A4) (B1 & B2 & B3 & B4). split; [|split; [|split]].
  - intros w Hw. destruct (A1 w Hw) as (a1 & a2 & a3 & a4). destruct (B1 w Hw) as (b1 & b2 & b3 & b4).
    destruct (B1 _ a1) as (c1 & c2 & c3 & c4). destruct (A1 _ b2) as (d1 & d2 & d3 & d4).
    split; auto. split; auto. rewrite c3, d4. auto.
  - intros c Hc. destruct (A2 c Hc) as [P W]. destruct (B2 _ P) as [P' W']. split; auto. lia.
  - intros c c' Hc Hc' E. apply A3; auto. apply B3; auto; apply A2; auto.
  - intros c w Hc Hw. rewrite A4 by auto. apply B4. { apply A2; auto. } apply A1; auto.
Qed.

Lemma weight_of_perm a b : Permutation a b -> weight a = weight b.
Proof.
  intros H. unfold weight. induction H as [|x a b _ IH|x y a|a b c _ I1 _ I2]; auto; cbn [filter].
  - destruct (negb (x =? 0)); cbn [length]; auto.
  - destruct (negb (x =? 0)), (negb (y =? 0)); auto.
  - congruence.
Qed.

(** Exchange two positions. *)
Lemma carries_swap i j : (i < T)%nat -> (j < T)%nat ->
  carries (rename (fun v q => (v, swap_idx i j q))) (rename (fun v q => (v, swap_idx i j q))) (fun c => swap_at c i j).
Proof.
  intros Hi Hj. set (phi := fun (v : Z) q => (v, swap_idx i j q)).
  assert (PO : forall v q, pair_ok v q -> pair_ok (fst (phi v q)) (snd (phi v q)) /\ phi (fst (phi v q)) (snd (phi v q)) = (v, q)).
  { intros v q [H1 H2]. cbn [phi fst snd]. split. { split; auto. apply swap_idx_range; auto. } unfold phi. rewrite swap_idx_invol. auto. }
  assert (FP : forall c, partial_challenge c -> partial_challenge (swap_at c i j)).
  { intros c [L R]. split. { rewrite swap_at_length. auto. } apply Forall_forall. intros x Hx. rewrite Forall_forall in R. apply R.
    apply (In_nth _ _ 0) in Hx. destruct Hx as (k & Hk & <-). rewrite swap_at_length in Hk. rewrite swap_at_nth by lia.
    destruct (Nat.eqb k j); [|destruct (Nat.eqb k i)]; apply nth_In; lia. }
  split; [|split; [|split]].
  - intros w Hw. destruct (rename_ok phi PO w Hw) as (R1 & R2). auto.
  - intros c Hc. split; auto. destruct Hc as [L _]. destruct (Nat.eq_dec i j) as [<-|Hne].
    { f_equal. apply (list_ext 0). { apply swap_at_length. } intros k _. rewrite swap_at_nth by lia. destruct (Nat.eqb_spec k i) as [->|]; auto. }
    apply weight_of_perm. apply Permutation_sym. apply (Permutation_nth c (swap_at c i j) 0).
    split. { apply swap_at_length. } exists (swap_idx i j). split; [|split].
    + intros x Hx. apply swap_idx_range; lia.
    + intros x y Hx Hy E. rewrite <- (swap_idx_invol i j x), E. apply swap_idx_invol.
    + intros x Hx. rewrite <- (swap_at_swap_idx c i j (swap_idx i j x)) by lia. rewrite swap_idx_invol. auto.
  - intros c c' [L _] [L' _] E. rewrite <- (swap_at_invol c i j) by lia. rewrite E. apply swap_at_invol; lia.
  - intros c w Hc Hw. apply (rename_place phi PO (fun c => swap_at c i j)); auto.
    + intros c' v q [L _] [_ Hq]. cbn [phi snd]. rewrite swap_at_swap_idx by lia. tauto.
    + intros c' v q [L _] [_ Hq] _. cbn [phi fst snd]. apply (list_ext 0). { rewrite swap_at_length, !upd_length, swap_at_length. auto. }
      intros k _. assert (SR := swap_idx_range i j q T Hi Hj Hq).
      rewrite nth_upd by (rewrite swap_at_length; lia). 
      destruct (Nat.eqb_spec (swap_idx i j q) k) as [<-|Hk].
      { rewrite swap_at_swap_idx by (rewrite upd_length; lia). apply nth_upd_same. lia. }
      rewrite <- (swap_idx_invol i j k). rewrite !swap_at_swap_idx by (rewrite ?upd_length; lia).
      apply nth_upd_other. intros E. apply Hk. rewrite E. apply swap_idx_invol.
Qed.

(** Exchange two non-zero values at one position. *)
Lemma carries_value j a b : (j < T)%nat -> 0 < a < nk -> 0 < b < nk ->
  carries (rename (fun v q => (if Nat.eqb q j then swap_val a b v else v, q))) (rename (fun v q => (if Nat.eqb q j then swap_val a b v else v, q)))
    (fun c => upd c j (swap_val a b (nth j c 0))).
Proof.
  intros Hj Ha Hb. set (phi := fun (v : Z) q => (if Nat.eqb q j then swap_val a b v else v, q)).
  assert (SR : forall v, 0 <= v < nk -> 0 <= swap_val a b v < nk). { intros v Hv. pose proof (swap_val_range a b v (nk - 1)). lia. }
  assert (SZ : forall v, swap_val a b v = 0 <-> v = 0).
  { intros v. assert (Z0 : swap_val a b 0 = 0). { unfold swap_val. destruct (Z.eqb_spec 0 a); [lia|]. destruct (Z.eqb_spec 0 b); [lia|auto]. }
    split; [|intros ->; auto]. intros E. rewrite <- (swap_val_invol a b v), E. auto. }
  assert (PO : forall v q, pair_ok v q -> pair_ok (fst (phi v q)) (snd (phi v q)) /\ phi (fst (phi v q)) (snd (phi v q)) = (v, q)).
  { intros v q [H1 H2]. unfold phi, pair_ok. cbn [fst snd]. destruct (Nat.eqb q j); split; auto. rewrite swap_val_invol. auto. }
  assert (NE : forall c k, length c = T -> nth k (upd c j (swap_val a b (nth j c 0))) 0 = if Nat.eqb k j then swap_val a b (nth j c 0) else nth k c 0).
  { intros c k L. rewrite nth_upd by lia. rewrite Nat.eqb_sym. auto. }
  assert (FP : forall c, partial_challenge c -> partial_challenge (upd c j (swap_val a b (nth j c 0)))).
  { intros c [L R]. split. { rewrite upd_length. auto. } apply Forall_upd; auto. apply SR. rewrite Forall_forall in R. apply R. apply nth_In. lia. }
  split; [|split; [|split]].
  - intros w Hw. destruct (rename_ok phi PO w Hw) as (R1 & R2). auto.
  - intros c Hc. split; auto. destruct Hc as [L _].
    assert (W : forall l l', length l = length l' -> (forall k, (k < length l)%nat -> (nth k l 0 = 0 <-> nth k l' 0 = 0)) -> weight l = weight l').
    { clear. unfold weight. induction l as [|x l IH]; intros [|y l'] L H; try discriminate; auto. cbn [filter].
      assert (E : filter (fun x => negb (x =? 0)) l = filter (fun x => negb (x =? 0)) l -> length (filter (fun x => negb (x =? 0)) l) = length (filter (fun x => negb (x =? 0)) l')).
      { intros _. apply IH. { cbn [length] in L. lia. } intros k Hk. apply (H (S k)). cbn [length]. lia. }
      specialize (H 0%nat ltac:(cbn [length]; lia)). cbn [nth] in H. specialize (E eq_refl).
      destruct (Z.eqb_spec x 0), (Z.eqb_spec y 0); cbn [negb length]; try lia; tauto. }
    apply W. { rewrite upd_length. auto. } intros k _. rewrite NE by auto. destruct (Nat.eqb_spec k j) as [->|]; [apply SZ|tauto].
  - intros c c' [L _] [L' _] E. apply (list_ext 0). { lia. } intros k _.
    assert (E' : nth k (upd c j (swap_val a b (nth j c 0))) 0 = nth k (upd c' j (swap_val a b (nth j c' 0))) 0) by (rewrite E; auto).
    rewrite !NE in E' by auto. destruct (Nat.eqb_spec k j) as [EK|_]; auto. rewrite EK.
    rewrite <- (swap_val_invol a b (nth j c 0)), E'. apply swap_val_invol.
  - intros c w Hc Hw. apply (rename_place phi PO (fun c => upd c j (swap_val a b (nth j c 0)))); auto.
    + intros c' v q [L _] [_ Hq]. cbn [phi snd]. rewrite NE by auto. destruct (Nat.eqb_spec q j) as [->|]; [apply SZ|tauto].
    + intros c' v q [L _] [_ Hq] H0. cbn [phi fst snd]. apply (list_ext 0). { rewrite !upd_length. auto. }
      intros k _. rewrite NE by (rewrite upd_length; auto). rewrite (nth_upd (upd c' j _) q) by (rewrite upd_length; lia). rewrite NE by auto.
      rewrite !(nth_upd c' q) by lia.
      destruct (Nat.eqb_spec k j) as [Ek|Hk], (Nat.eqb_spec q j) as [Eq|Hq'], (Nat.eqb_spec q k) as [Eqk|Hqk]; try lia; subst; auto.
Qed.

(** Any two vectors of the same weight are connected. *)
Lemma connected c' : partial_challenge c' -> forall n c, (n <= T)%nat -> partial_challenge c -> weight c = weight c' ->
  (forall i, (i < T - n)%nat -> nth i c 0 = nth i c' 0) -> exists f g F, carries f g F /\ F c = c'.
Proof.
  intros [L' R']. induction n as [|n IH]; intros c Hn [L R] HW HE.
  { exists (fun w => w), (fun w => w), (fun c => c). split; [apply carries_id|]. apply (list_ext 0). { lia. } intros i Hi. apply HE. lia. }
  set (i := (T - S n)%nat) in *. assert (Hi : (i < T)%nat) by lia.
  assert (STEP : forall c1 f g F, partial_challenge c1 -> weight c1 = weight c' -> (forall k, (k < i)%nat -> nth k c1 0 = nth k c' 0) ->
     nth i c1 0 = nth i c' 0 -> carries f g F -> F c = c1 -> exists f g F, carries f g F /\ F c = c').
  { intros c1 f g F P1 W1 H1 H2 C1 E1. destruct (IH c1 ltac:(lia) P1 W1) as (f2 & g2 & F2 & C2 & E2).
    { intros k Hk. destruct (Nat.eq_dec k i) as [->|]; auto. apply H1. lia. }
    do 3 eexists. split. { apply (carries_comp _ _ _ _ _ _ C1 C2). } cbv beta. rewrite E1. exact E2. }
  assert (VAL : forall c1 f g F, partial_challenge c1 -> weight c1 = weight c' -> (forall k, (k < i)%nat -> nth k c1 0 = nth k c' 0) ->
     carries f g F -> F c = c1 -> (nth i c1 0 = 0 <-> nth i c' 0 = 0) -> exists f g F, carries f g F /\ F c = c').
  { intros c1 f g F [L1 R1] W1 H1 C1 E1 HZ. destruct (Z.eq_dec (nth i c1 0) (nth i c' 0)) as [EQ|NEQ].
    { apply (STEP c1 f g F); auto. split; auto. }
    assert (A : 0 < nth i c1 0 < nk). { rewrite Forall_forall in R1. specialize (R1 _ (nth_In c1 0 (n := i) ltac:(lia))). rewrite Forall_forall in R'. specialize (R' _ (nth_In c' 0 (n := i) ltac:(lia))). lia. }
    assert (B : 0 < nth i c' 0 < nk). { rewrite Forall_forall in R'. specialize (R' _ (nth_In c' 0 (n := i) ltac:(lia))). lia. }
    pose proof (carries_value i (nth i c1 0) (nth i c' 0) Hi A B) as CV.
    pose proof CV as (_ & CV2 & _). destruct (CV2 c1 (conj L1 R1)) as [P2 W2].
    eapply (STEP _ _ _ _ P2). { lia. }
    - intros k Hk. rewrite nth_upd_other by lia. auto.
    - rewrite nth_upd_same by lia. apply swap_val_left.
    - apply (carries_comp _ _ _ _ _ _ C1 CV).
    - cbv beta. rewrite E1. auto. }
  assert (SW : forall k, (i < k < T)%nat -> (nth k c 0 = 0 <-> nth i c' 0 = 0) -> exists f g F, carries f g F /\ F c = c').
  { intros k Hk HZ. pose proof (carries_swap i k Hi ltac:(lia)) as CS. pose proof CS as (_ & CS2 & _). destruct (CS2 c (conj L R)) as [P2 W2].
    eapply (VAL _ _ _ _ P2). { lia. }
    - intros j Hj. rewrite swap_at_nth by lia. destruct (Nat.eqb_spec j k); [lia|]. destruct (Nat.eqb_spec j i); [lia|]. auto.
    - exact CS.
    - reflexivity.
    - rewrite swap_at_nth by lia. destruct (Nat.eqb_spec i k); [lia|]. rewrite Nat.eqb_refl. auto. }
  destruct (Z.eq_dec (nth i c 0) 0) as [Z1|Z1], (Z.eq_dec (nth i c' 0) 0) as [Z2|Z2].
  1, 4: apply (VAL c (fun w => w) (fun w => w) (fun c => c)); try apply carries_id; auto; try tauto; split; auto.
  - (* zero here, non-zero there: a later non-zero entry *)
    assert (EX : exists k, (i < k < T)%nat /\ nth k c 0 <> 0).
    { assert (S1 : weight (firstn i c) = weight (firstn i c')).
      { f_equal. apply (list_ext 0). { rewrite !firstn_length. lia. } intros k Hk. rewrite firstn_length in Hk. rewrite !nth_firstn by lia. apply HE. lia. }
      pose proof (firstn_skipn i c) as D. pose proof (firstn_skipn i c') as D'.
      assert (W1 : weight c = (weight (firstn i c) + weight (skipn i c))%nat) by (rewrite <- weight_app, D; auto).
      assert (W2 : weight c' = (weight (firstn i c') + weight (skipn i c'))%nat) by (rewrite <- weight_app, D'; auto).
      assert (P : (0 < weight (skipn i c'))%nat).
      { unfold weight. assert (I : In (nth i c' 0) (filter (fun x => negb (x =? 0)) (skipn i c'))).
        { apply filter_In. split. { rewrite <- (Nat.add_0_r i) at 1. rewrite <- nth_skipn. apply nth_In. rewrite skipn_length. lia. } destruct (Z.eqb_spec (nth i c' 0) 0); [lia|auto]. }
        destruct (filter _ _); [contradiction|cbn [length]; lia]. }
      destruct (weight_pos (skipn i c) ltac:(lia)) as (t & Ht & Hz). rewrite skipn_length in Ht. unfold nz in Hz. 
      exists (i + t)%nat. rewrite <- nth_skipn. split.
      - destruct t; [|lia]. exfalso. rewrite nth_skipn, Nat.add_0_r, Z1 in Hz. discriminate.
      - intros E. rewrite E in Hz. discriminate. }
    destruct EX as (k & Hk & Hz). apply (SW k Hk). tauto.
  - assert (EX : exists k, (i < k < T)%nat /\ nth k c 0 = 0).
    { assert (S1 : weight (firstn i c) = weight (firstn i c')).
      { f_equal. apply (list_ext 0). { rewrite !firstn_length. lia. } intros k Hk. rewrite firstn_length in Hk. rewrite !nth_firstn by lia. apply HE. lia. }
      pose proof (firstn_skipn i c) as D. pose proof (firstn_skipn i c') as D'.
      assert (W1 : weight c = (weight (firstn i c) + weight (skipn i c))%nat) by (rewrite <- weight_app, D; auto).
      assert (W2 : weight c' = (weight (firstn i c') + weight (skipn i c'))%nat) by (rewrite <- weight_app, D'; auto).
      assert (P : (weight (skipn i c') < length (skipn i c'))%nat).
      { assert (FL : forall (l : list Z), (weight l <= length l)%nat).
        { clear. unfold weight. induction l as [|x l IH]; cbn [filter length]; auto. destruct (negb _); cbn [length]; lia. }
        destruct (skipn i c') as [|x l] eqn:ES. { assert (length (skipn i c') = 0%nat) by (rewrite ES; auto). rewrite skipn_length in *. lia. }
        assert (x = 0). { rewrite <- Z2, <- (Nat.add_0_r i), <- nth_skipn, ES. reflexivity. } subst x.
        change (weight (0 :: l)) with (weight l). cbn [length]. specialize (FL l). lia. }
      rewrite skipn_length in P.
      destruct (weight_zero (skipn i c) ltac:(rewrite skipn_length; lia)) as (t & Ht & Hz). rewrite skipn_length in Ht.
      exists (i + t)%nat. rewrite <- nth_skipn. split; auto.
      destruct t; [|lia]. exfalso. rewrite nth_skipn, Nat.add_0_r in Hz. contradiction. }
    destruct EX as (k & Hk & Hz). apply (SW k Hk). tauto.
Qed.

Lemma fold_carries f g F : carries f g F -> forall ws c, words16 ws -> partial_challenge c ->
  fold_left (place p) (map f ws) (F c) = F (fold_left (place p) ws c) /\ partial_challenge (fold_left (place p) ws c).
Proof.
  intros (A1 & A2 & A3 & A4) ws c H. revert c. induction H as [|w ws Hw H IH]; intros c Hc; cbn [map fold_left]; auto.
  rewrite <- A4 by auto. apply IH. apply place_partial. auto.
Qed.

Lemma challenge_exchange c c' : full_challenge c -> full_challenge c' ->
  exists f g, (forall w, 0 <= w < 2 ^ 16 -> 0 <= f w < 2 ^ 16 /\ 0 <= g w < 2 ^ 16 /\ g (f w) = w /\ f (g w) = w) /\
    forall ws, words16 ws -> (challenge_in ws c <-> challenge_in (map f ws) c').
Proof.
  intros [P W] [P' W']. destruct (connected c' P' T c (Nat.le_refl _) P ltac:(lia)) as (f & g & F & C & E). { intros; lia. }
  exists f, g. split. { apply C. } intros ws H.
  assert (Z0 : F (repeat 0 T) = repeat 0 T).
  { pose proof C as (_ & C2 & _). destruct (C2 _ zero_partial) as [Q1 Q2]. apply zero_weight; auto. rewrite Q2. apply weight_repeat. }
  assert (FK : forall k, fold_left (place p) (firstn k (map f ws)) (repeat 0 T) = F (fold_left (place p) (firstn k ws) (repeat 0 T)) /\
     partial_challenge (fold_left (place p) (firstn k ws) (repeat 0 T))).
  { intros k. rewrite <- Z0 at 1. rewrite firstn_map. apply (fold_carries f g F C); [|apply zero_partial]. apply Forall_firstn. auto. }
  pose proof C as (_ & C2 & C3 & _). unfold challenge_in. rewrite map_length.
  split; intros (k & K1 & K2 & K3 & K4); exists k; (split; [auto|]).
  - destruct (FK k) as [F1 F2]. rewrite F1, <- K2, E. split; auto. split; auto. intros j Hj. destruct (FK j) as [G1 G2]. rewrite G1.
    rewrite (proj2 (C2 _ G2)). auto.
  - destruct (FK k) as [F1 F2]. rewrite F1 in K2. split. { apply C3; auto. congruence. } split; auto.
    intros j Hj. specialize (K4 j Hj). destruct (FK j) as [G1 G2]. rewrite G1, (proj2 (C2 _ G2)) in K4. auto.
Qed.
End C.

Lemma draw_halfwords16 X n st : (forall n s, bytes (fst (x_squeeze X n s))) -> (forall n s, length (fst (x_squeeze X n s)) = n) -> words16 (draw_halfwords X n st).
Proof.
  intros HB HL. revert st. induction n as [|n IH]; intros st; cbn [draw_halfwords]; constructor; [|apply IH].
  pose proof (le_val_range (fst (x_squeeze X 2 st)) (HB _ _)) as B. rewrite HL in B. exact B.
Qed.

Lemma draw_halfwords_firstn X k n st : (k <= n)%nat -> firstn k (draw_halfwords X n st) = draw_halfwords X k st.
Proof.
  revert n st. induction k as [|k IH]; intros n st H; [reflexivity|]. destruct n as [|n]; [lia|]. cbn [draw_halfwords firstn]. rewrite IH by lia. auto.
Qed.
Lemma draw_halfwords_length X n st : length (draw_halfwords X n st) = n.
Proof. revert st. induction n; intros st; cbn [draw_halfwords length]; auto. Qed.

Lemma challenge_of_in X p digest c : challenge_of X p digest c <-> exists n, challenge_in p (draw_halfwords X n (x_init X digest)) c.
Proof.
  split.
  - intros (n & A1 & A2 & A3). exists n, n. rewrite draw_halfwords_length. split; auto. rewrite draw_halfwords_firstn by auto. split; auto. split; auto.
    intros j Hj. rewrite draw_halfwords_firstn by lia. auto.
  - intros (n & k & K1 & K2 & K3 & K4). rewrite draw_halfwords_length in K1. exists k. rewrite draw_halfwords_firstn in K2 by auto. split; auto. split; auto.
    intros j Hj. specialize (K4 j Hj). rewrite draw_halfwords_firstn in K4 by lia. auto.
Qed.
