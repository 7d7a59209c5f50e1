(** How many word sequences end a rejection sampler: proofs. *)
From Verif Require Import Base BaseLemmas Params ParamsProofs Prim Samplers Utils Spec SampleSpec LessSpec SpecSampling SamplerProofs UniformProofs Count.

(** *** Specification *)

(** Binomial coefficients. *)
Fixpoint choose (n k : nat) : Z :=
  match k with
  | O => 1
  | S k' => match n with O => 0 | S n' => choose n' k' + choose n' k end
  end.

(** Number of half-words that increase the weight [w] of an unfinished challenge: a non-zero key number, a position that
    still holds zero, and arbitrary unused bits. *)
Definition advancing (p : params) (w : nat) : Z :=
  (Z.of_nat (pT p) - Z.of_nat w) * (Z.of_nat (p_nk p) - 1) *
  2 ^ (16 - (Z.log2 (Z.of_nat (p_nk p) - 1) + 1) - (Z.log2 (Z.of_nat (pT p) - 1) + 1)).

(** Number of sequences of [n] half-words after which [w] positions are filled. *)
Fixpoint reaching (p : params) (n w : nat) : Z :=
  match n with
  | O => match w with O => 1 | S _ => 0 end
  | S n' => reaching p n' w * (2 ^ 16 - advancing p w) +
            match w with O => 0 | S w' => reaching p n' w' * advancing p w' end
  end.

(** *** Binomial coefficients *)
Lemma choose_zero n k : (n < k)%nat -> choose n k = 0.
Proof. revert k. induction n as [|n IH]; intros [|k] H; cbn [choose]; try lia. rewrite !IH by lia. reflexivity. Qed.
Lemma choose_0 n : choose n 0 = 1.
Proof. destruct n; reflexivity. Qed.
Lemma choose_bound n k : 0 <= choose n k <= 2 ^ Z.of_nat n.
Proof.
  revert k. induction n as [|n IH]; intros [|k]; cbn [choose]; try (cbn; lia).
  pose proof (IH k). pose proof (IH (S k)). rewrite Nat2Z.inj_succ, Z.pow_succ_r by lia. lia.
Qed.

(** *** Lists *)
Lemma number_lists {A} (P : A -> Prop) a n : number P a -> number (fun l => length l = n /\ Forall P l) (a ^ Z.of_nat n).
Proof.
  intros HP. induction n as [|n IH].
  - change (a ^ Z.of_nat 0) with 1. apply (number_one _ []). intros l. split; [intros [H _]; destruct l; [auto|discriminate]|intros ->; auto].
  - rewrite Nat2Z.inj_succ, Z.pow_succ_r by lia.
    eapply number_ext; [|apply (number_pairs P (fun _ l => length l = n /\ Forall P l) cons a _ HP (fun _ _ => IH))].
    + cbn. intros l. split.
      * intros (x & l' & H1 & [H2 H3] & ->). cbn [length]. auto.
      * intros [H1 H2]. destruct l as [|x l']; [discriminate|]. inversion H2; subst. exists x, l'. auto.
    + intros x y x' y' _ _ _ _ E. injection E. auto.
Qed.

(** *** Elements *)
Section E.
Variable span : Z.
Hypothesis span_range : 0 <= span < 128.
Notation acc := (accepted span).

Definition chunk_lists (m j : nat) (cs : list Z) : Prop := length cs = m /\ Forall (fun c => 0 <= c < 128) cs /\ length (acc cs) = j.
Definition chunk_number (m j : nat) : Z := choose m j * (span + 1) ^ Z.of_nat j * (127 - span) ^ Z.of_nat (m - j).

Lemma chunk_count m : forall j, number (chunk_lists m j) (chunk_number m j).
Proof using span_range.
  induction m as [|m IH]; intros j.
  - unfold chunk_number. destruct j as [|j].
    + apply (number_one _ []). intros cs. split; [intros [H _]; destruct cs; [auto|discriminate]|intros ->; repeat split; auto].
    + apply number_none. intros cs (H1 & _ & H2). destruct cs; discriminate.
  - assert (R : number (fun c => span < c < 128) (127 - span)).
    { replace (127 - span) with (128 - (span + 1)) by lia. eapply number_ext; [|apply number_range; lia]. intros; cbn; lia. }
    assert (A : number (fun c => 0 <= c <= span) (span + 1)).
    { replace (span + 1) with (span + 1 - 0) by lia. eapply number_ext; [|apply number_range; lia]. intros; cbn; lia. }
    assert (I : forall x y x' y', (x : Z) :: (y : list Z) = x' :: y' -> x = x' /\ y = y') by (intros x y x' y' E; injection E; auto).
    pose proof (number_pairs _ (fun _ => chunk_lists m j) cons _ _ R (fun _ _ => IH j) ltac:(intros; apply I; auto)) as H1.
    assert (E1 : forall cs, chunk_lists (S m) j cs <-> (exists c cs', span < c < 128 /\ chunk_lists m j cs' /\ cs = c :: cs') \/
      (exists c cs', 0 <= c <= span /\ (0 < j)%nat /\ chunk_lists m (j - 1) cs' /\ cs = c :: cs')).
    { intros cs. split.
      - intros (L & F & C). destruct cs as [|c cs]; [discriminate|]. inversion F; subst. unfold accepted in *. cbn [filter] in *.
        destruct (Z.leb_spec c span).
        + right. exists c, cs. cbn [length] in *. split; [lia|]. split; [lia|]. split; [|auto]. split; [lia|]. split; auto. unfold accepted. lia.
        + left. exists c, cs. split; [lia|]. split; [|auto]. split; [cbn in L; lia|]. auto.
      - intros [(c & cs' & H & (L & F & C) & ->)|(c & cs' & H & J & (L & F & C) & ->)]; unfold chunk_lists, accepted in *; cbn [filter length].
        + destruct (Z.leb_spec c span); [lia|]. split; [lia|]. split; [constructor; auto; lia|auto].
        + destruct (Z.leb_spec c span); [|lia]. split; [lia|]. split; [constructor; auto; lia|cbn [length]; lia]. }
    destruct j as [|j].
    + replace (chunk_number (S m) 0) with ((127 - span) * chunk_number m 0).
      2:{ unfold chunk_number. rewrite !choose_0, !Nat.sub_0_r, Nat2Z.inj_succ, Z.pow_succ_r by lia. change ((span + 1) ^ Z.of_nat 0) with 1. lia. }
      eapply number_ext; [|exact H1]. intros cs. rewrite E1. cbn. split; [auto|]. intros [H|(? & ? & _ & H & _)]; [auto|lia].
    + pose proof (number_pairs _ (fun _ => chunk_lists m j) cons _ _ A (fun _ _ => IH j) ltac:(intros; apply I; auto)) as H2.
      replace (chunk_number (S m) (S j)) with ((127 - span) * chunk_number m (S j) + (span + 1) * chunk_number m j).
      2:{ unfold chunk_number. cbn [choose]. rewrite (Nat2Z.inj_succ j), Z.pow_succ_r by lia. cbn [Nat.sub].
          destruct (Nat.lt_ge_cases j m).
          - replace (m - j)%nat with (S (m - S j)) by lia. rewrite (Nat2Z.inj_succ (m - S j)), Z.pow_succ_r by lia. ring.
          - rewrite (choose_zero m (S j)) by lia. ring. }
      eapply number_ext; [|apply (number_or _ _ _ _ H1 H2)].
      * intros cs. rewrite E1. cbn [Nat.sub]. rewrite Nat.sub_0_r. cbn. split.
        -- intros [H|(c & cs' & G1 & G2 & G3)]; [auto|]. right. exists c, cs'. split; [auto|]. split; [lia|auto].
        -- intros [H|(c & cs' & G1 & _ & G2 & G3)]; [auto|]. right. exists c, cs'. auto.
      * cbn. intros cs (c & cs' & G1 & _ & ->) (c1 & cs1 & G2 & _ & E). injection E as <- _. lia.
Qed.

(** Words from their chunks and top bits. *)
Fixpoint build (tops cs : list Z) : list Z :=
  match tops with [] => [] | t :: ts => unchunk (firstn 9 cs) t :: build ts (skipn 9 cs) end.

Lemma chunks7_rng w : Forall (fun c => 0 <= c < 128) (chunks7 w).
Proof using. clear. apply Forall_forall. intros c Hc. apply in_map_iff in Hc. destruct Hc as (i & <- & _). apply Z.mod_pos_bound. lia. Qed.
Lemma chunks7_len w : length (chunks7 w) = 9%nat.
Proof using. unfold chunks7. rewrite map_length, seq_length. auto. Qed.

Lemma unchunk_lt cs top : Forall (fun c => 0 <= c < 128) cs -> 0 <= top <= 1 -> unchunk cs top < 2 * 128 ^ Z.of_nat (length cs).
Proof using.
  clear. intros H Ht. induction H as [|c cs Hc H IH]. { cbn [unchunk length]. change (128 ^ Z.of_nat 0) with 1. lia. }
  cbn [unchunk length]. rewrite Nat2Z.inj_succ, Z.pow_succ_r by lia. lia.
Qed.

Lemma build_spec tops : forall cs, Forall (fun t => 0 <= t < 2) tops -> length cs = (9 * length tops)%nat -> Forall (fun c => 0 <= c < 128) cs ->
  length (build tops cs) = length tops /\ words64 (build tops cs) /\ map (fun w => w / 128 ^ 9) (build tops cs) = tops /\ concat (map chunks7 (build tops cs)) = cs.
Proof using.
  clear. induction tops as [|t ts IH]; intros cs HT HL HC; cbn [build length map concat].
  - destruct cs; [repeat split; constructor|discriminate].
  - inversion HT as [|? ? T1 T2]; subst. cbn [length] in HL.
    assert (L9 : length (firstn 9 cs) = 9%nat) by (rewrite firstn_length; lia).
    assert (F9 : Forall (fun c => 0 <= c < 128) (firstn 9 cs)) by (apply Forall_firstn; auto).
    destruct (IH (skipn 9 cs) T2) as (I1 & I2 & I3 & I4). { rewrite skipn_length. lia. } { apply Forall_skipn. auto. }
    split; [cbn [length]; auto|]. split; [|split].
    + constructor; auto. split. { apply unchunk_nonneg; auto; lia. }
      pose proof (unchunk_lt _ t F9 ltac:(lia)) as B. rewrite L9 in B. change (2 * 128 ^ Z.of_nat 9) with (2 ^ 64) in B. exact B.
    + rewrite I3. f_equal. pose proof (unchunk_div _ t ltac:(lia) F9) as D. rewrite L9 in D. exact D.
    + rewrite I4. pose proof (chunk_unchunk _ t ltac:(lia) F9) as D. rewrite L9 in D. unfold chunks7 in *. change (map _ (seq 0 9)) with (chunk_from (unchunk (firstn 9 cs) t) 0 9).
      rewrite D. apply firstn_skipn.
Qed.

Lemma build_words ws : words64 ws -> build (map (fun w => w / 128 ^ 9) ws) (concat (map chunks7 ws)) = ws.
Proof using.
  clear. induction 1 as [|w ws Hw _ IH]; [reflexivity|]. cbn [map concat build].
  rewrite firstn_app, skipn_app, chunks7_len, Nat.sub_diag, firstn_O, skipn_O, app_nil_r, skipn_all2 by (rewrite chunks7_len; lia).
  rewrite firstn_all2 by (rewrite chunks7_len; lia). cbn [app]. rewrite IH. f_equal. exact (unchunk_chunk w 9 ltac:(lia)).
Qed.

Lemma word_count n j : number (fun ws => length ws = n /\ words64 ws /\ length (acc (concat (map chunks7 ws))) = j) (2 ^ Z.of_nat n * chunk_number (9 * n) j).
Proof using span_range.
  assert (NT : number (fun t => 0 <= t < 2) 2) by (apply (number_range 0 2); lia).
  eapply number_ext; [|apply (number_pairs _ (fun _ => chunk_lists (9 * n) j) build _ _ (number_lists _ _ n NT) (fun _ _ => chunk_count (9 * n) j))].
  - cbn beta. intros ws. split.
    + intros (ts & cs & (T1 & T2) & (C1 & C2 & C3) & ->).
      destruct (build_spec ts cs T2 ltac:(lia) C2) as (B1 & B2 & B3 & B4). rewrite B4. split; [lia|]. auto.
    + intros (L & W & C). exists (map (fun w => w / 128 ^ 9) ws), (concat (map chunks7 ws)). split; [|split; [|symmetry; apply build_words; auto]].
      * split; [rewrite map_length; auto|]. apply Forall_forall. intros t Ht. apply in_map_iff in Ht. destruct Ht as (w & <- & Hw).
        unfold words64 in W. rewrite Forall_forall in W. specialize (W w Hw). clear -W. change (128 ^ 9) with (2 ^ 63). change (2 ^ 64) with (2 * 2 ^ 63) in W. split; [apply Z.div_pos; lia|apply Z.div_lt_upper_bound; lia].
      * assert (LC : length (concat (map chunks7 ws)) = (9 * length ws)%nat).
        { clear. induction ws as [|w ws IH]; [reflexivity|]. cbn [map concat length]. rewrite app_length, IH, chunks7_len. lia. }
        split; [lia|]. split; auto. clear. induction ws as [|w ws IH]; [constructor|]. cbn [map concat]. apply Forall_app. split; [apply chunks7_rng|auto].
  - intros ts cs ts' cs' (T1 & T2) (C1 & C2 & C3) (T1' & T2') (C1' & C2' & C3') E.
    destruct (build_spec ts cs T2 ltac:(lia) C2) as (_ & _ & B3 & B4). destruct (build_spec ts' cs' T2' ltac:(lia) C2') as (_ & _ & B3' & B4').
    split; congruence.
Qed.
End E.

(** Few samples: an upper bound. *)
Lemma few_bound span n num : 125 <= span < 128 ->
  total num (fun j => 2 ^ Z.of_nat n * chunk_number span (9 * n) j) * 2 ^ (45 * Z.of_nat n) <= Z.of_nat num * 2 ^ (6 * Z.of_nat num) * 2 ^ (64 * Z.of_nat n).
Proof.
  intros HS. rewrite <- total_scale. rewrite <- Z.mul_assoc. rewrite <- total_const. apply total_le. intros j Hj.
  unfold chunk_number. destruct (Nat.lt_ge_cases (9 * n) j) as [Hlt|Hge].
  { rewrite choose_zero by lia. assert (0 <= 2 ^ (6 * Z.of_nat num) * 2 ^ (64 * Z.of_nat n)) by (apply Z.mul_nonneg_nonneg; apply Z.pow_nonneg; lia). lia. }
  set (m := (9 * n)%nat) in *. pose proof (choose_bound m j) as [C1 C2].
  assert (A : 0 <= (span + 1) ^ Z.of_nat j <= 128 ^ Z.of_nat j) by (split; [apply Z.pow_nonneg; lia|apply Z.pow_le_mono_l; lia]).
  assert (B : 0 <= (127 - span) ^ Z.of_nat (m - j) <= 2 ^ Z.of_nat (m - j)) by (split; [apply Z.pow_nonneg; lia|apply Z.pow_le_mono_l; lia]).
  change 128 with (2 ^ 7) in A. rewrite <- Z.pow_mul_r in A by lia.
  assert (P : choose m j * (span + 1) ^ Z.of_nat j * (127 - span) ^ Z.of_nat (m - j) <= 2 ^ Z.of_nat m * 2 ^ (7 * Z.of_nat j) * 2 ^ Z.of_nat (m - j)).
  { repeat apply Z.mul_le_mono_nonneg; try lia. }
  eapply Z.le_trans. { apply Z.mul_le_mono_nonneg_r; [apply Z.pow_nonneg; lia|]. apply Z.mul_le_mono_nonneg_l; [apply Z.pow_nonneg; lia|exact P]. }
  rewrite <- !Z.pow_add_r by lia. apply Z.pow_le_mono_r; lia.
Qed.

(** *** Challenges *)
Lemma zeros_count (c : list Z) : number (fun q => (q < length c)%nat /\ nth q c 0 = 0) (Z.of_nat (length c) - Z.of_nat (weight c)).
Proof.
  induction c as [|x c IH]. { apply number_none. cbn. intros q [H _]. lia. }
  assert (IH' : number (fun q => (0 < q < S (length c))%nat /\ nth q (x :: c) 0 = 0) (Z.of_nat (length c) - Z.of_nat (weight c))).
  { eapply number_ext; [|apply (number_image _ S _ IH); intros; lia]. cbn. intros q. split.
    - intros (i & [H1 H2] & ->). split; [lia|auto].
    - intros [H1 H2]. destruct q as [|q]; [lia|]. exists q. split; auto. split; [lia|auto]. }
  unfold weight in *. cbn [filter length]. destruct (Z.eqb_spec x 0) as [->|Hx]; cbn [negb].
  - replace (Z.of_nat (S (length c)) - Z.of_nat (length (filter (fun x => negb (x =? 0)) c))) with
      (1 + (Z.of_nat (length c) - Z.of_nat (length (filter (fun x => negb (x =? 0)) c)))) by lia.
    eapply number_ext; [|apply (number_or (fun q => q = 0%nat) _ 1 _ (number_one _ 0%nat (fun q => iff_refl _)) IH'); intros; lia].
    cbn. intros q. split.
    + intros [->|[H1 H2]]; split; auto; lia.
    + intros [H1 H2]. destruct q; [auto|right]. split; [lia|auto].
  - cbn [length]. replace (Z.of_nat (S (length c)) - Z.of_nat (S (length (filter (fun x => negb (x =? 0)) c)))) with
      (Z.of_nat (length c) - Z.of_nat (length (filter (fun x => negb (x =? 0)) c))) by lia.
    eapply number_ext; [|exact IH']. cbn. intros q. split; intros [H1 H2]; split; auto; destruct q; try lia.
Qed.

Section C.
Variable p : params.
Hypothesis wf : wf_params p.
Notation T := (pT p).
Notation nk := (Z.of_nat (p_nk p)).
Notation kb := (Z.log2 (Z.of_nat (p_nk p) - 1) + 1).
Notation pb := (Z.log2 (Z.of_nat (pT p) - 1) + 1).
Hypothesis fits : kb + pb <= 16.

Lemma place_weight c w : length c = T -> 0 <= w < 2 ^ 16 ->
  let v := w mod 2 ^ kb in let q := (w / 2 ^ kb) mod 2 ^ pb in
  weight (place p c w) = (if (0 <? v) && (v <? nk) && (q <? Z.of_nat T) && (nth (Z.to_nat q) c 0 =? 0) then S (weight c) else weight c).
Proof using wf.
  intros L Hw v q. destruct (kb_pos p wf) as (_ & K & _). destruct (pb_pos p wf) as (_ & P & _).
  pose proof (Z.mod_pos_bound w (2 ^ kb) K) as V. pose proof (Z.mod_pos_bound (w / 2 ^ kb) (2 ^ pb) P) as Q. fold v in V. fold q in Q.
  unfold place. cbv zeta. fold v q. destruct (Z.ltb_spec v nk), (Z.ltb_spec q (Z.of_nat T)), (Z.eqb_spec (nth (Z.to_nat q) c 0) 0) as [E|E], (Z.ltb_spec 0 v); cbn [andb]; auto.
  - apply weight_upd; [lia|exact E|lia].
  - replace v with (nth (Z.to_nat q) c 0) by lia. rewrite upd_self by lia. auto.
Qed.

Lemma advance_count c : length c = T -> number (fun w => 0 <= w < 2 ^ 16 /\ weight (place p c w) = S (weight c)) (advancing p (weight c)).
Proof using wf fits.
  intros L. unfold advancing. destruct (kb_pos p wf) as (K0 & K & K1). destruct (pb_pos p wf) as (P0 & P & P1). pose proof (wf_nk p wf) as NK.
  assert (E16 : 2 ^ 16 = 2 ^ kb * (2 ^ pb * 2 ^ (16 - kb - pb))) by (rewrite <- !Z.pow_add_r by lia; f_equal; lia).
  assert (R0 : 0 < 2 ^ (16 - kb - pb)) by (apply Z.pow_pos_nonneg; lia).
  set (R := 2 ^ (16 - kb - pb)) in *. clearbody R.
  rewrite <- L.
  pose proof (zeros_count c) as NZ.
  assert (NV : number (fun v => 1 <= v < nk) (nk - 1)) by (apply number_range; lia).
  assert (NR : number (fun r => 0 <= r < R) R) by (pose proof (number_range 0 R ltac:(lia)) as HH; rewrite Z.sub_0_r in HH; exact HH).
  pose proof (number_pairs _ (fun _ v => 1 <= v < nk) (fun q v => (Z.of_nat q, v)) _ _ NZ (fun _ _ => NV)
    ltac:(cbn; intros q v q' v' _ _ _ _ E; injection E; intros; split; [lia|auto])) as N1.
  assert (FL : forall v q r, 1 <= v < nk -> 0 <= q < Z.of_nat T -> word_of p v q r mod 2 ^ kb = v /\ (word_of p v q r / 2 ^ kb) mod 2 ^ pb = q /\ word_of p v q r / 2 ^ kb / 2 ^ pb = r).
  { intros v q r Hv Hq. apply word_of_fields; auto; lia. }
  pose proof (number_pairs _ (fun _ r => 0 <= r < R) (fun qv r => word_of p (snd qv) (fst qv) r) _ _ N1 (fun _ _ => NR)) as N2.
  eapply number_ext; [|apply N2].
  - cbn beta. intros w. split.
    + intros (qv & r & (q & v & (Q1 & Q2) & V & ->) & HR & ->). cbn [fst snd].
      destruct (FL v (Z.of_nat q) r V ltac:(lia)) as (F1 & F2 & F3).
      assert (RW : 0 <= word_of p v (Z.of_nat q) r < 2 ^ 16).
      { unfold word_of. rewrite E16. clear -V Q1 HR K P K1 P1 L NK. rewrite L in Q1. generalize dependent (2 ^ kb). generalize dependent (2 ^ pb). intros b Pb P1 a Ka K1. split; [nia|].
        assert (Z.of_nat q + b * r + 1 <= b * R) by nia. nia. }
      split; auto. rewrite place_weight by auto. cbv zeta. rewrite F1, F2. rewrite Nat2Z.id, Q2.
      destruct (Z.ltb_spec 0 v); [|lia]. destruct (Z.ltb_spec v nk); [|lia]. destruct (Z.ltb_spec (Z.of_nat q) (Z.of_nat T)); [|lia]. reflexivity.
    + intros [Hw HW]. rewrite place_weight in HW by auto. cbv zeta in HW.
      pose proof (Z.mod_pos_bound w (2 ^ kb) K) as V. pose proof (Z.mod_pos_bound (w / 2 ^ kb) (2 ^ pb) P) as Q.
      destruct (_ && _) eqn:EC; [|lia]. apply andb_true_iff in EC. destruct EC as [EC E4]. apply andb_true_iff in EC. destruct EC as [EC E3].
      apply andb_true_iff in EC. destruct EC as [E1 E2]. apply Z.ltb_lt in E1. apply Z.ltb_lt in E2. apply Z.ltb_lt in E3. apply Z.eqb_eq in E4.
      exists ((w / 2 ^ kb) mod 2 ^ pb, w mod 2 ^ kb), (w / 2 ^ kb / 2 ^ pb). split; [|split].
      * exists (Z.to_nat ((w / 2 ^ kb) mod 2 ^ pb)), (w mod 2 ^ kb). split; [split; auto; lia|]. split; [lia|]. f_equal. lia.
      * split. { apply Z.div_pos; [apply Z.div_pos|]; lia. }
        apply Z.div_lt_upper_bound; [lia|]. apply Z.div_lt_upper_bound; [lia|]. lia.
      * cbn [fst snd]. apply word_of_eq; auto.
  - cbn beta. intros qv r qv' r' (q & v & (Q1 & Q2) & V & ->) HR (q' & v' & (Q1' & Q2') & V' & ->) HR' E. cbn [fst snd] in E.
    destruct (FL v (Z.of_nat q) r V ltac:(lia)) as (F1 & F2 & F3). destruct (FL v' (Z.of_nat q') r' V' ltac:(lia)) as (F1' & F2' & F3').
    rewrite E in F1, F2, F3. split; [f_equal|]; congruence.
Qed.

Definition filled (ws : list Z) : nat := weight (fold_left (place p) ws (repeat 0 T)).

Lemma fold_place_length ws : forall c, length (fold_left (place p) ws c) = length c.
Proof using. induction ws as [|w ws IH]; intros c; [reflexivity|]. cbn [fold_left]. rewrite IH. apply place_length. Qed.

Lemma reach_count n : forall w, number (fun ws => length ws = n /\ words16 ws /\ filled ws = w) (reaching p n w).
Proof using wf fits.
  assert (LC : forall ws, length (fold_left (place p) ws (repeat 0 T)) = T) by (intros; rewrite fold_place_length; apply repeat_length).
  induction n as [|n IH]; intros w; cbn [reaching].
  - destruct w as [|w].
    + apply (number_one _ []). intros ws. split; [intros [H _]; destruct ws; [auto|discriminate]|intros ->]. split; auto. split; [constructor|]. apply weight_repeat.
    + apply number_none. intros ws (H & _ & E). destruct ws; [|discriminate]. unfold filled in E. cbn [fold_left] in E. rewrite weight_repeat in E. discriminate.
  - assert (N16 : number (fun x => 0 <= x < 2 ^ 16) (2 ^ 16)) by (apply (number_range 0 (2 ^ 16)); lia).
    assert (SN : forall (a b : list Z) x y, a ++ [x] = b ++ [y] -> a = b /\ x = y) by (intros; apply app_inj_tail; auto).
    assert (FS : forall ws x, filled (ws ++ [x]) = weight (place p (fold_left (place p) ws (repeat 0 T)) x)) by (intros; unfold filled; rewrite fold_left_app; reflexivity).
    assert (H1 : number (fun ws => exists ws' x, (length ws' = n /\ words16 ws' /\ filled ws' = w) /\
       (0 <= x < 2 ^ 16 /\ ~ filled (ws' ++ [x]) = S (filled ws')) /\ ws = ws' ++ [x]) (reaching p n w * (2 ^ 16 - advancing p w))).
    { apply (number_pairs _ (fun ws' x => 0 <= x < 2 ^ 16 /\ ~ filled (ws' ++ [x]) = S (filled ws')) (fun a x => a ++ [x]) _ _ (IH w)).
      - intros ws' (L & F & <-). apply number_minus; auto. { intros x. destruct (Nat.eq_dec (filled (ws' ++ [x])) (S (filled ws'))); auto. }
        eapply number_ext; [|apply (advance_count (fold_left (place p) ws' (repeat 0 T)) (LC ws'))]. cbn. intros x. rewrite FS. reflexivity.
      - intros; apply SN; auto. }
    assert (ST : forall ws x, 0 <= x < 2 ^ 16 -> filled (ws ++ [x]) = filled ws \/ filled (ws ++ [x]) = S (filled ws)).
    { intros ws x Hx. rewrite FS, place_weight by auto. cbv zeta. destruct (_ && _); auto. }
    assert (E1 : forall ws, (length ws = S n /\ words16 ws /\ filled ws = w) <->
      (exists ws' x, (length ws' = n /\ words16 ws' /\ filled ws' = w) /\ (0 <= x < 2 ^ 16 /\ ~ filled (ws' ++ [x]) = S (filled ws')) /\ ws = ws' ++ [x]) \/
      (exists ws' x, (length ws' = n /\ words16 ws' /\ S (filled ws') = w) /\ (0 <= x < 2 ^ 16 /\ filled (ws' ++ [x]) = S (filled ws')) /\ ws = ws' ++ [x])).
    { intros ws. split.
      - intros (L & F & E). destruct (exists_last (l := ws)) as (ws' & x & ->); [destruct ws; discriminate|].
        rewrite app_length in L. cbn [length] in L. apply Forall_app in F. destruct F as [F1 F2]. inversion F2; subst.
        destruct (ST ws' x) as [E|E]; auto; [left|right]; exists ws', x; rewrite E; repeat split; auto; lia.
      - intros [(ws' & x & (L & F & E) & (X1 & X2) & ->)|(ws' & x & (L & F & E) & (X1 & X2) & ->)]; rewrite app_length; cbn [length];
          (split; [lia|]); (split; [apply Forall_app; split; auto|]); destruct (ST ws' x X1); lia. }
    destruct w as [|w].
    + rewrite Z.add_0_r. eapply number_ext; [|exact H1]. intros ws. rewrite E1. split; [auto|]. intros [H|(? & ? & (_ & _ & H) & _)]; [auto|discriminate].
    + assert (H2 : number (fun ws => exists ws' x, (length ws' = n /\ words16 ws' /\ filled ws' = w) /\
         (0 <= x < 2 ^ 16 /\ filled (ws' ++ [x]) = S (filled ws')) /\ ws = ws' ++ [x]) (reaching p n w * advancing p w)).
      { apply (number_pairs _ (fun ws' x => 0 <= x < 2 ^ 16 /\ filled (ws' ++ [x]) = S (filled ws')) (fun a x => a ++ [x]) _ _ (IH w)).
        - intros ws' (L & F & <-). eapply number_ext; [|apply (advance_count (fold_left (place p) ws' (repeat 0 T)) (LC ws'))]. cbn. intros x. rewrite FS. reflexivity.
        - intros; apply SN; auto. }
      eapply number_ext; [|apply (number_or _ _ _ _ H1 H2)].
      * intros ws. rewrite E1. split; (intros [H|(ws' & x & (L & F & E) & H)]; [auto|right; exists ws', x; repeat split; try tauto; lia]).
      * intros ws (ws' & x & _ & (_ & X1) & ->) (ws1 & x1 & _ & (_ & X2) & E). apply SN in E. destruct E as [-> ->]. contradiction.
Qed.

(** The potential: 2 ^ (W - w) for every sequence that has filled w < W positions shrinks by a constant factor. *)
Lemma reach_bound W n : (1 <= W <= T)%nat -> total W (reaching p n) * 2 ^ Z.of_nat n <= 2 ^ Z.of_nat W * (2 ^ 17 - advancing p (W - 1)) ^ Z.of_nat n.
Proof using wf fits.
  intros HW. pose proof (wf_nk p wf) as NK. set (q := advancing p (W - 1)).
  assert (RP : 0 < 2 ^ (16 - kb - pb)) by (apply Z.pow_pos_nonneg; lia).
  assert (AM : forall w, (w < W)%nat -> q <= advancing p w).
  { intros w Hw. unfold q, advancing. apply Z.mul_le_mono_nonneg_r; [lia|]. apply Z.mul_le_mono_nonneg_r; lia. }
  assert (A16 : forall w, (w <= T)%nat -> 0 <= advancing p w <= 2 ^ 16).
  { intros w Hw. unfold advancing. split. { apply Z.mul_nonneg_nonneg; [apply Z.mul_nonneg_nonneg|]; lia. }
    destruct (kb_pos p wf) as (K0 & K & K1). destruct (pb_pos p wf) as (P0 & P & P1).
    replace (2 ^ 16) with (2 ^ pb * 2 ^ kb * 2 ^ (16 - kb - pb)) by (rewrite <- !Z.pow_add_r by lia; f_equal; lia).
    apply Z.mul_le_mono_nonneg_r; [lia|]. apply Z.mul_le_mono_nonneg; lia. }
  assert (RN : forall n w, (w <= T)%nat -> 0 <= reaching p n w).
  { clear n. induction n as [|n IH]; intros w Hw; cbn [reaching]; [destruct w; lia|]. pose proof (IH w Hw). pose proof (A16 w Hw).
    assert (0 <= reaching p n w * (2 ^ 16 - advancing p w)) by (apply Z.mul_nonneg_nonneg; lia).
    destruct w as [|w]; [lia|]. pose proof (IH w ltac:(lia)). pose proof (A16 w ltac:(lia)).
    assert (0 <= reaching p n w * advancing p w) by (apply Z.mul_nonneg_nonneg; lia). lia. }
  set (Phi := fun n => total W (fun w => reaching p n w * 2 ^ Z.of_nat (W - w))).
  assert (STEP : forall n, Phi (S n) * 2 <= Phi n * (2 ^ 17 - q)).
  { clear n. intros n. unfold Phi.
    assert (G : forall m, (m <= W)%nat -> total m (fun w => reaching p (S n) w * 2 ^ Z.of_nat (W - w)) * 2 <=
       total m (fun w => reaching p n w * 2 ^ Z.of_nat (W - w)) * (2 ^ 17 - q) - match m with O => 0 | S m' => reaching p n m' * advancing p m' * 2 ^ Z.of_nat (W - m') end).
    { induction m as [|m IHm]; intros Hm; [cbn [total]; lia|]. cbn [total]. specialize (IHm ltac:(lia)).
      set (TS := total m (fun w => reaching p (S n) w * 2 ^ Z.of_nat (W - w))) in *. set (TN := total m (fun w => reaching p n w * 2 ^ Z.of_nat (W - w))) in *.
      clearbody TS TN. cbn [reaching].
      pose proof (RN n m ltac:(lia)) as R1. pose proof (AM m ltac:(lia)) as A1.
      assert (0 < 2 ^ Z.of_nat (W - m)) as X0 by (apply Z.pow_pos_nonneg; lia). set (X := 2 ^ Z.of_nat (W - m)) in *.
      assert (B : match m with O => 0 | S m' => reaching p n m' * advancing p m' end * X * 2 = match m with O => 0 | S m' => reaching p n m' * advancing p m' * 2 ^ Z.of_nat (W - m') end).
      { destruct m as [|m']; [lia|]. unfold X. replace (W - m')%nat with (S (W - S m')) by lia. rewrite (Nat2Z.inj_succ (W - S m')), Z.pow_succ_r by lia. ring. }
      assert (Q1 : q * (reaching p n m * X) <= advancing p m * (reaching p n m * X)) by (apply Z.mul_le_mono_nonneg_r; [apply Z.mul_nonneg_nonneg; lia|auto]).
      change (2 ^ 17) with (2 * 2 ^ 16) in *. lia. }
    specialize (G W ltac:(lia)). destruct W as [|W']; [lia|]. pose proof (RN n W' ltac:(lia)). pose proof (A16 W' ltac:(lia)).
    assert (0 <= reaching p n W' * advancing p W' * 2 ^ Z.of_nat (S W' - W')).
    { apply Z.mul_nonneg_nonneg; [apply Z.mul_nonneg_nonneg; lia|]. apply Z.pow_nonneg. lia. } lia. }
  assert (Q17 : 0 <= 2 ^ 17 - q). { pose proof (A16 (W - 1)%nat ltac:(lia)). fold q in H. change (2 ^ 17) with (2 * 2 ^ 16). lia. }
  assert (PH : Phi n * 2 ^ Z.of_nat n <= 2 ^ Z.of_nat W * (2 ^ 17 - q) ^ Z.of_nat n).
  { induction n as [|n IH].
    - change (2 ^ Z.of_nat 0) with 1. change ((2 ^ 17 - q) ^ Z.of_nat 0) with 1. unfold Phi. rewrite !Z.mul_1_r.
      assert (G : forall m, (0 < m <= W)%nat -> total m (fun w => reaching p 0 w * 2 ^ Z.of_nat (W - w)) = 2 ^ Z.of_nat W).
      { induction m as [|m IHm]; intros Hm; [lia|]. cbn [total]. destruct m as [|m].
        - cbn [total reaching]. rewrite Nat.sub_0_r. lia.
        - rewrite IHm by lia. cbn [reaching]. lia. }
      rewrite G by lia. lia.
    - rewrite Nat2Z.inj_succ, !Z.pow_succ_r by lia. specialize (STEP n).
      assert (0 <= 2 ^ Z.of_nat n) by (apply Z.pow_nonneg; lia).
      eapply Z.le_trans with (Phi n * (2 ^ 17 - q) * 2 ^ Z.of_nat n).
      + replace (Phi (S n) * (2 * 2 ^ Z.of_nat n)) with (Phi (S n) * 2 * 2 ^ Z.of_nat n) by ring. apply Z.mul_le_mono_nonneg_r; auto.
      + replace (2 ^ Z.of_nat W * ((2 ^ 17 - q) * (2 ^ 17 - q) ^ Z.of_nat n)) with ((2 ^ Z.of_nat W * (2 ^ 17 - q) ^ Z.of_nat n) * (2 ^ 17 - q)) by ring.
        replace (Phi n * (2 ^ 17 - q) * 2 ^ Z.of_nat n) with (Phi n * 2 ^ Z.of_nat n * (2 ^ 17 - q)) by ring. apply Z.mul_le_mono_nonneg_r; auto. }
  eapply Z.le_trans; [|exact PH]. apply Z.mul_le_mono_nonneg_r. { apply Z.pow_nonneg. lia. }
  unfold Phi. apply total_le. intros w Hw. pose proof (RN n w ltac:(lia)).
  assert (1 <= 2 ^ Z.of_nat (W - w)) by (change 1 with (2 ^ 0); apply Z.pow_le_mono_r; lia).
  rewrite <- (Z.mul_1_r (reaching p n w)) at 1. apply Z.mul_le_mono_nonneg_l; auto.
Qed.
End C.
