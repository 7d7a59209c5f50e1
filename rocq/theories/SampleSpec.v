(** The samplers as functions of the words they draw. *)
From Coq Require Import Permutation.
From Verif Require Import Base BaseLemmas Params ParamsProofs Fq Prim Samplers Monomial Codes Utils Spec FqProofs
  EnumProofs MonoProofs BitCodec SamplerProofs.

(** *** Specification *)

(** The nine complete 7-bit chunks of a 64-bit word, least significant first. *)
Definition chunks7 (word : Z) : list Z := map (fun i => (word / 2 ^ (7 * Z.of_nat i)) mod 128) (seq 0 9).

(** The first [n] 64-bit words (little-endian) drawn from a stream, and the stream that remains. *)
Fixpoint draw_words (X : prim) (n : nat) (st : xstate X) : list Z :=
  match n with
  | O => []
  | S n' => le_val (fst (x_squeeze X 8 st)) :: draw_words X n' (snd (x_squeeze X 8 st))
  end.
Fixpoint after_words (X : prim) (n : nat) (st : xstate X) : xstate X :=
  match n with O => st | S n' => after_words X n' (snd (x_squeeze X 8 st)) end.

(** Rejection sampling from [words]: keep the chunks that do not exceed maxv - minv. *)
Definition samples (minv maxv : Z) (words : list Z) : list Z :=
  map (fun v => v + minv) (filter (fun v => v <=? maxv - minv) (concat (map chunks7 words))).

(** Exchange two entries. *)
Definition swap_at (l : list Z) (i j : nat) : list Z := upd (upd l i (nth j l 0)) j (nth i l 0).

(** Fisher-Yates with index sequence [rs]. *)
Definition fisher_yates (n : nat) (rs : nat -> nat) (l : list Z) : list Z :=
  fold_left (fun l i => swap_at l i (rs i)) (seq 0 n) l.

(** *** Range samplers *)
Lemma samples_app minv maxv a b : samples minv maxv (a ++ b) = samples minv maxv a ++ samples minv maxv b.
Proof. unfold samples. rewrite map_app, concat_app, filter_app, map_app. auto. Qed.

Lemma samples_cons minv maxv a b : samples minv maxv (a :: b) = samples minv maxv [a] ++ samples minv maxv b.
Proof. apply (samples_app minv maxv [a] b). Qed.

Definition chunk_from (word : Z) (s n : nat) : list Z := map (fun i => (word / 2 ^ (7 * Z.of_nat i)) mod 128) (seq s n).

Lemma chunk_shift word n s : 0 <= word -> chunk_from (Z.shiftr word 7) s n = chunk_from word (S s) n.
Proof.
  intros Hw. unfold chunk_from. rewrite <- seq_shift, map_map. apply map_ext. intros i.
  rewrite Z.shiftr_div_pow2 by lia. rewrite Z.div_div by lia. rewrite <- Z.pow_add_r by lia. f_equal. f_equal. f_equal. lia.
Qed.

Lemma rand_chunks_fun chunks minv span num : 0 <= minv -> minv + span < 256 -> 0 <= span ->
  forall word pre rest, 0 <= word -> length (pre ++ rest) = num -> rest <> [] ->
  let l := map (fun v => v + minv) (filter (fun v => v <=? span) (chunk_from word 0 chunks)) in
  rand_chunks chunks minv span 7 num word (length pre) (pre ++ rest) =
  Ok (if (length rest <=? length l)%nat then (true, (num, pre ++ firstn (length rest) l))
      else (false, (length (pre ++ l), pre ++ l ++ skipn (length l) rest))).
Proof.
  intros Hm Hs Hs0. induction chunks as [|ch IH]; intros word pre rest Hw HL HN; cbv zeta.
  - cbn [rand_chunks chunk_from seq map filter length]. destruct rest; [contradiction|]. cbn [length Nat.leb app skipn].
    rewrite app_nil_r. reflexivity.
  - cbn [rand_chunks]. cbv zeta. set (v := u8 (Z.land word (2 ^ 7 - 1))).
    assert (Ev : v = word mod 128).
    { unfold v. rewrite land_pred by lia. rewrite u8_id; change (2 ^ 7) with 128; lia. }
    assert (EC : chunk_from word 0 (S ch) = v :: chunk_from (Z.shiftr word 7) 0 ch).
    { rewrite chunk_shift by auto. unfold chunk_from. cbn [seq map]. f_equal. rewrite Ev. rewrite Z.mul_0_r, Z.pow_0_r, Z.div_1_r. auto. }
    rewrite EC. cbn [filter]. destruct rest as [|r0 rest]; [contradiction|].
    assert (Hsh : 0 <= Z.shiftr word 7) by (apply Z.shiftr_nonneg; auto).
    rewrite app_length in HL. cbn [length] in HL.
    destruct (Z.leb_spec v span).
    + rewrite set_ok by (rewrite app_length; cbn [length]; lia). cbn [bind map].
      assert (EU : upd (pre ++ r0 :: rest) (length pre) (u8 (v + minv)) = (pre ++ [v + minv]) ++ rest).
      { rewrite u8_id by lia. clear. induction pre; cbn [app upd length]; [reflexivity|f_equal; auto]. }
      rewrite EU. replace (S (length pre)) with (length (pre ++ [v + minv])) by (rewrite app_length; cbn [length]; lia).
      destruct (Nat.leb_spec num (length (pre ++ [v + minv]))) as [Hn|Hn]; rewrite app_length in Hn; cbn [length] in Hn.
      * destruct rest as [|r1 rest]; [|cbn [length] in *; lia]. cbn [length firstn Nat.leb].
        rewrite app_nil_r. do 3 f_equal. rewrite app_length. cbn [length]. lia.
      * rewrite IH; auto. 2:{ rewrite !app_length. cbn [length]. lia. } 2:{ intros ->. cbn [length] in *. lia. }
        cbn [length Nat.leb firstn skipn app]. rewrite <- !app_assoc. reflexivity.
    + cbn [bind]. destruct (Nat.leb_spec num (length pre)) as [Hn|Hn]; [lia|].
      rewrite IH; auto. rewrite app_length. cbn [length]. lia.
Qed.

Section X.
Variable X : prim.

Lemma rand_loop_fun minv maxv num fuel : 0 <= minv <= maxv -> maxv < 256 ->
  (forall n s, bytes (fst (x_squeeze X n s))) ->
  forall st pre rest, length (pre ++ rest) = num -> rest <> [] ->
  (forall n, (n < fuel)%nat -> (length (samples minv maxv (draw_words X n st)) < length rest)%nat ->
     (length rest <= length (samples minv maxv (draw_words X (S n) st)))%nat ->
     rand_loop X fuel minv (maxv - minv) 7 num st (length pre) (pre ++ rest) =
       Ok (pre ++ firstn (length rest) (samples minv maxv (draw_words X (S n) st)), after_words X (S n) st)) /\
  ((length (samples minv maxv (draw_words X fuel st)) < length rest)%nat ->
     rand_loop X fuel minv (maxv - minv) 7 num st (length pre) (pre ++ rest) = NoFuel).
Proof.
  intros Hm Hx HB. induction fuel as [|f IH]; intros st pre rest HL HN.
  - split. intros; lia. reflexivity.
  - cbn [rand_loop]. destruct (x_squeeze X 8 st) as [bs st'] eqn:ES.
    assert (Ebs : bs = fst (x_squeeze X 8 st)) by (rewrite ES; auto).
    assert (Est : st' = snd (x_squeeze X 8 st)) by (rewrite ES; auto).
    assert (Hw : 0 <= le_val bs) by (apply le_val_nonneg; rewrite Ebs; auto).
    change (Z.to_nat (64 / 7)) with 9%nat. rewrite (rand_chunks_fun 9 minv (maxv - minv) num) by (auto; lia).
    set (l := map _ (filter _ (chunk_from (le_val bs) 0 9))).
    assert (El : l = samples minv maxv [le_val bs]).
    { unfold samples. cbn [map concat]. rewrite app_nil_r. reflexivity. }
    assert (EW : forall n, samples minv maxv (draw_words X (S n) st) = l ++ samples minv maxv (draw_words X n st')).
    { intros n. cbn [draw_words]. rewrite <- Ebs, <- Est, samples_cons, El. reflexivity. }
    assert (EA : forall n, after_words X (S n) st = after_words X n st') by (intros; cbn [after_words]; rewrite Est; auto).
    cbn [bind]. destruct (Nat.leb_spec (length rest) (length l)) as [Hl|Hl].
    + split.
      * intros n Hn H1 H2. destruct n as [|n].
        -- rewrite EW. cbn [draw_words]. unfold samples at 1. cbn [map concat filter]. rewrite app_nil_r. rewrite EA. reflexivity.
        -- rewrite EW, app_length in H1. lia.
      * rewrite EW, app_length. lia.
    + set (rest' := skipn (length l) rest). assert (Lr : length rest' = (length rest - length l)%nat) by (apply skipn_length).
      specialize (IH st' (pre ++ l) rest'). rewrite <- app_assoc in IH.
      assert (HL' : length (pre ++ l ++ rest') = num). { rewrite !app_length, Lr. rewrite app_length in HL. lia. }
      assert (HN' : rest' <> []). { intros E. rewrite E in Lr. cbn [length] in Lr. lia. }
      destruct (IH HL' HN') as [I1 I2]. split.
      * intros n Hn H1 H2. destruct n as [|n].
        -- rewrite EW in H2. cbn [draw_words] in H2. unfold samples at 1 in H2. cbn [map concat filter] in H2. rewrite app_nil_r in H2. lia.
        -- rewrite EW in H1, H2. rewrite app_length in H1, H2. rewrite EW, EA. rewrite (I1 n) by lia.
           rewrite <- app_assoc. f_equal. f_equal. f_equal. rewrite firstn_app, Lr.
           rewrite (firstn_all2 l) by lia. reflexivity.
      * intros H. rewrite EW, app_length in H. apply I2. lia.
Qed.

Lemma draw_mono minv maxv st n m : (n <= m)%nat ->
  (length (samples minv maxv (draw_words X n st)) <= length (samples minv maxv (draw_words X m st)))%nat.
Proof.
  revert st m. induction n; intros st m H. { cbn. lia. }
  destruct m; [lia|]. cbn [draw_words]. rewrite !(samples_cons _ _ _ (draw_words X _ _)), !app_length.
  specialize (IHn (snd (x_squeeze X 8 st)) m ltac:(lia)). lia.
Qed.

Lemma least_words minv maxv st num f : (0 < num)%nat -> (num <= length (samples minv maxv (draw_words X f st)))%nat ->
  exists n, (n < f)%nat /\ (length (samples minv maxv (draw_words X n st)) < num)%nat /\
    (num <= length (samples minv maxv (draw_words X (S n) st)))%nat.
Proof.
  intros H0. induction f as [|f IH]; intros H. { cbn in H. lia. }
  destruct (le_lt_dec num (length (samples minv maxv (draw_words X f st)))) as [Hle|Hlt].
  - destruct (IH Hle) as (n & A & B). exists n. split; [lia|auto].
  - exists f. auto.
Qed.

Lemma def_rand_fun minv maxv fuel num st buf : 0 <= minv -> 64 <= maxv - minv < 128 -> maxv < 256 ->
  (forall n s, bytes (fst (x_squeeze X n s))) -> (0 < num)%nat -> length buf = num ->
  (forall n, (n < fuel)%nat -> (length (samples minv maxv (draw_words X n st)) < num)%nat ->
     (num <= length (samples minv maxv (draw_words X (S n) st)))%nat ->
     def_rand X minv maxv fuel num st buf =
       Ok (firstn num (samples minv maxv (draw_words X (S n) st)), after_words X (S n) st)) /\
  ((length (samples minv maxv (draw_words X fuel st)) < num)%nat -> def_rand X minv maxv fuel num st buf = NoFuel).
Proof.
  intros H1 H2 H3 HB Hn HL. unfold def_rand.
  assert (E7 : bits_to_represent (maxv - minv) = 7).
  { assert (A : forall s, 64 <= s < 128 -> bits_to_represent s = 7).
    { intros s Hs. assert (B : forallb (fun s => bits_to_represent s =? 7) (map Z.of_nat (seq 64 64)) = true) by (vm_compute; reflexivity).
      rewrite forallb_forall in B. apply Z.eqb_eq. apply B. apply in_map_iff. exists (Z.to_nat s). split; [lia|]. apply in_seq. lia. }
    apply A. lia. }
  rewrite E7. destruct buf as [|b0 buf]; [cbn in HL; lia|].
  pose proof (rand_loop_fun minv maxv num fuel ltac:(lia) H3 HB st [] (b0 :: buf) HL ltac:(discriminate)) as [A B].
  rewrite HL in A, B. cbn [app length] in A, B. split; auto.
Qed.
End X.

(** *** The shuffle *)
Lemma swap_at_length l i j : length (swap_at l i j) = length l.
Proof. unfold swap_at. rewrite !upd_length. auto. Qed.

Lemma swap_at_nth l i j k : (i < length l)%nat -> (j < length l)%nat ->
  nth k (swap_at l i j) 0 = if Nat.eqb k j then nth i l 0 else if Nat.eqb k i then nth j l 0 else nth k l 0.
Proof.
  intros Hi Hj. unfold swap_at. rewrite nth_upd by (rewrite upd_length; auto). rewrite (Nat.eqb_sym j k).
  destruct (Nat.eqb_spec k j); auto. rewrite nth_upd by auto. rewrite (Nat.eqb_sym i k). auto.
Qed.

Lemma swap_at_nodup l i j : (i < length l)%nat -> (j < length l)%nat -> NoDup l -> NoDup (swap_at l i j).
Proof.
  intros Hi Hj ND. rewrite (NoDup_nth _ 0). rewrite (NoDup_nth _ 0) in ND. rewrite swap_at_length.
  intros a b Ha Hb. rewrite !swap_at_nth by auto.
  destruct (Nat.eqb_spec a j), (Nat.eqb_spec b j), (Nat.eqb_spec a i), (Nat.eqb_spec b i); intros E; subst; auto; apply ND in E; auto; lia.
Qed.

Lemma fy_S n rs l : fisher_yates (S n) rs l = swap_at (fisher_yates n rs l) n (rs n).
Proof. unfold fisher_yates. rewrite seq_S, fold_left_app. reflexivity. Qed.

Lemma fy_length n rs l : length (fisher_yates n rs l) = length l.
Proof. induction n. reflexivity. rewrite fy_S, swap_at_length. auto. Qed.

Lemma fy_nodup n rs l : (n <= length l)%nat -> (forall i, (i < n)%nat -> (i <= rs i < length l)%nat) -> NoDup l -> NoDup (fisher_yates n rs l).
Proof.
  induction n; intros HL H ND. exact ND. rewrite fy_S. specialize (H n ltac:(lia)) as Hn. apply swap_at_nodup; rewrite ?fy_length; try lia.
  apply IHn; auto. lia.
Qed.

(** Entry [i] is settled after step [i]. *)
Lemma fy_settled n rs l i : (n <= length l)%nat -> (forall i, (i < n)%nat -> (i <= rs i < length l)%nat) -> (i < n)%nat ->
  nth i (fisher_yates n rs l) 0 = nth (rs i) (fisher_yates i rs l) 0.
Proof.
  induction n; intros HL H Hi. lia. rewrite fy_S. specialize (H n ltac:(lia)) as Hn.
  rewrite swap_at_nth by (rewrite fy_length; lia).
  destruct (Nat.eq_dec i n) as [->|Hne].
  - destruct (Nat.eqb_spec n (rs n)) as [E|]; [rewrite <- E; auto|]. rewrite Nat.eqb_refl. auto.
  - destruct (Nat.eqb_spec i (rs n)); [lia|]. destruct (Nat.eqb_spec i n); [lia|]. apply IHn; auto. lia. lia.
Qed.

Lemma fy_ext n rs rs' l : (forall i, (i < n)%nat -> rs i = rs' i) -> fisher_yates n rs l = fisher_yates n rs' l.
Proof. induction n; intros H. reflexivity. rewrite !fy_S, H by lia. rewrite IHn; auto. Qed.

Lemma fy_injective n rs rs' l : (n <= length l)%nat -> NoDup l ->
  (forall i, (i < n)%nat -> (i <= rs i < length l)%nat) -> (forall i, (i < n)%nat -> (i <= rs' i < length l)%nat) ->
  fisher_yates n rs l = fisher_yates n rs' l -> forall i, (i < n)%nat -> rs i = rs' i.
Proof.
  intros HL ND H H' E i. induction i as [i IH] using lt_wf_ind. intros Hi.
  assert (Ei : fisher_yates i rs l = fisher_yates i rs' l) by (apply fy_ext; intros; apply IH; lia).
  assert (S : nth (rs i) (fisher_yates i rs l) 0 = nth (rs' i) (fisher_yates i rs l) 0).
  { rewrite <- fy_settled with (n := n) by auto. rewrite E, fy_settled by auto. rewrite Ei. auto. }
  assert (NDi : NoDup (fisher_yates i rs l)) by (apply fy_nodup; auto; [lia|intros; apply H; lia]).
  rewrite (NoDup_nth _ 0) in NDi. apply NDi; auto; rewrite fy_length; [apply H|apply H']; auto.
Qed.

Lemma fy_perm n rs l : (n <= length l)%nat -> (forall i, (i < n)%nat -> (i <= rs i < length l)%nat) -> NoDup l ->
  Permutation (fisher_yates n rs l) l.
Proof.
  intros HL H ND. apply NoDup_Permutation_bis.
  - apply fy_nodup; auto.
  - rewrite fy_length. auto.
  - clear ND. induction n; intros x Hx. exact Hx. apply IHn; [lia|intros; apply H; lia|].
    rewrite fy_S in Hx. specialize (H n ltac:(lia)) as Hn. apply (In_nth _ _ 0) in Hx. destruct Hx as (k & Hk & <-).
    rewrite swap_at_length in Hk. rewrite swap_at_nth by (rewrite fy_length; lia).
    destruct (Nat.eqb k (rs n)); [|destruct (Nat.eqb k n)]; apply nth_In; rewrite ?fy_length in *; lia.
Qed.

Lemma fy_reach n l t : (n <= length l)%nat -> NoDup l -> Permutation t l ->
  exists rs, (forall i, (i < n)%nat -> (i <= rs i < length l)%nat) /\
    forall i, (i < n)%nat -> nth i (fisher_yates n rs l) 0 = nth i t 0.
Proof.
  intros HL ND HP. pose proof (Permutation_length HP) as LT.
  assert (NDt : NoDup t) by (apply (Permutation_NoDup (Permutation_sym HP)); auto). rewrite (NoDup_nth _ 0) in NDt.
  induction n as [|n IH]. { exists (fun i => i). split; intros; lia. }
  destruct IH as (rs & H1 & H2); [lia|].
  assert (HIn : In (nth n t 0) (fisher_yates n rs l)).
  { eapply Permutation_in. apply Permutation_sym. apply fy_perm; auto. lia. eapply Permutation_in. exact HP. apply nth_In. lia. }
  apply (In_nth _ _ 0) in HIn. destruct HIn as (k & Hk & Ek). rewrite fy_length in Hk.
  assert (Hnk : (n <= k)%nat).
  { destruct (le_lt_dec n k); auto. rewrite H2 in Ek by auto. apply NDt in Ek; lia. }
  set (rs' := fun i => if Nat.eqb i n then k else rs i).
  assert (R : forall i, (i < n)%nat -> rs' i = rs i). { intros i Hi. unfold rs'. destruct (Nat.eqb_spec i n); [lia|auto]. }
  assert (Rn : rs' n = k) by (unfold rs'; rewrite Nat.eqb_refl; auto).
  exists rs'. split.
  - intros i Hi. destruct (Nat.eq_dec i n) as [->|]. { rewrite Rn. lia. } rewrite R by lia. apply H1. lia.
  - intros i Hi. rewrite fy_S, Rn. rewrite (fy_ext n rs' rs) by auto. rewrite swap_at_nth by (rewrite fy_length; lia).
    destruct (Nat.eq_dec i n) as [->|].
    + destruct (Nat.eqb_spec n k) as [->|]; auto. rewrite Nat.eqb_refl. auto.
    + destruct (Nat.eqb_spec i k); [lia|]. destruct (Nat.eqb_spec i n); [lia|]. apply H2. lia.
Qed.

Lemma prefix_perm (l t : list Z) : NoDup l -> Permutation l t ->
  (forall i, (i < length t - 1)%nat -> nth i l 0 = nth i t 0) -> l = t.
Proof.
  intros ND HP H. pose proof (Permutation_length HP) as LT.
  apply (list_ext 0); auto. intros i Hi. destruct (le_lt_dec (length t - 1) i) as [Hle|]; [|apply H; auto].
  assert (Ei : i = (length t - 1)%nat) by lia.
  assert (HIn : In (nth i l 0) t) by (eapply Permutation_in; [exact HP|apply nth_In; auto]).
  apply (In_nth _ _ 0) in HIn. destruct HIn as (k & Hk & Ek).
  destruct (Nat.eq_dec k i) as [->|]; [auto|]. rewrite <- H in Ek by lia. rewrite (NoDup_nth _ 0) in ND. apply ND in Ek; lia.
Qed.

Lemma fy_bijective n l t : S n = length l -> NoDup l -> Permutation t l ->
  exists rs, (forall i, (i < n)%nat -> (i <= rs i < length l)%nat) /\ fisher_yates n rs l = t /\
    forall rs', (forall i, (i < n)%nat -> (i <= rs' i < length l)%nat) -> fisher_yates n rs' l = t ->
      forall i, (i < n)%nat -> rs i = rs' i.
Proof.
  intros HL ND HP. destruct (fy_reach n l t ltac:(lia) ND HP) as (rs & H1 & H2). pose proof (Permutation_length HP) as LT.
  assert (E : fisher_yates n rs l = t).
  { apply prefix_perm. apply fy_nodup; auto; lia. eapply Permutation_trans. apply fy_perm; auto; lia. apply Permutation_sym; auto.
    intros i Hi. apply H2. lia. }
  exists rs. split; auto. split; auto. intros rs' H' E' i Hi. apply (fy_injective n rs rs' l); auto. lia. congruence.
Qed.

Section P.
Variable X : prim.
Variable p : params.
Hypothesis wf : wf_params p.
Notation N := (pN p).

Definition shuffle_index (bs : list Z) (i : nat) : nat :=
  (i + Z.to_nat (le_val (firstn 4 (skipn (4 * i) bs)) mod (Z.of_nat N - Z.of_nat i)))%nat.

Lemma yt_shuffle_fun st perm : lawful X (hash_len p) -> length perm = N ->
  yt_shuffle_state X p st perm =
    Ok (fisher_yates (N - 1) (shuffle_index (fst (x_squeeze X (4 * N) st))) perm, snd (x_squeeze X (4 * N) st)).
Proof.
  intros LX HP. pose proof (wf_K p wf) as HK.
  assert (HN : Z.of_nat N < 1024). { pose proof (wf_cat p wf) as C. destruct (p_cat p); lia. }
  unfold yt_shuffle_state.
  destruct (x_squeeze X (4 * N) st) as [bs st'] eqn:ES. cbn [fst snd].
  assert (Bbs : bytes bs). { pose proof (law_sq_bytes _ _ LX (4 * N) st) as E. rewrite ES in E. auto. }
  assert (R : okp (for_ (N - 1) 0 (fun i r => x <- get r i ;; set r i (u32 (Z.of_nat i + x mod (Z.of_nat N - Z.of_nat i)))) (words32 N bs))
     (fun r => length r = N /\ (forall i, (0 + (N - 1) <= i < N)%nat -> nthZ r i = le_val (firstn 4 (skipn (4 * i) bs))) /\
        forall i, (i < 0 + (N - 1))%nat -> nthZ r i = Z.of_nat (shuffle_index bs i))).
  { apply okp_for with (I := fun n r => length r = N /\ (forall i, (n <= i < N)%nat -> nthZ r i = le_val (firstn 4 (skipn (4 * i) bs))) /\
        forall i, (i < n)%nat -> nthZ r i = Z.of_nat (shuffle_index bs i)).
    - split. { unfold words32. rewrite map_length, seq_length. auto. } split; [|intros; lia].
      intros i Hi. unfold nthZ, words32. rewrite nth_map_seq by lia. auto.
    - intros i r Hi (H1 & H0 & H2). rewrite (get_ok _ i 0) by lia. cbn [bind]. rewrite set_ok by lia. apply okp_ok.
      fold (nthZ r i). rewrite H0 by lia.
      set (x := le_val (firstn 4 (skipn (4 * i) bs))).
      assert (B : 0 <= x mod (Z.of_nat N - Z.of_nat i) < Z.of_nat N - Z.of_nat i) by (apply Z.mod_pos_bound; lia).
      split. { rewrite upd_length; auto. } split.
      + intros j Hj. unfold nthZ. rewrite nth_upd by lia. destruct (Nat.eqb_spec i j); [lia|]. apply H0. lia.
      + intros j Hj. unfold nthZ. rewrite nth_upd by lia. destruct (Nat.eqb_spec i j) as [<-|]; [|apply H2; lia].
        unfold u32. rewrite Z.mod_small by lia. unfold shuffle_index. fold x. lia. }
  destruct R as (r & -> & L & _ & Hr). cbn [bind]. cbn [Nat.add] in Hr.
  assert (Q : okp (for_ (N - 1) 0 (fun i pm => tmp <- get pm i ;; r1 <- get r i ;; y <- get pm (Z.to_nat r1) ;;
      pm1 <- set pm i y ;; set pm1 (Z.to_nat r1) tmp) perm) (fun pm => pm = fisher_yates (0 + (N - 1)) (shuffle_index bs) perm)).
  { apply okp_for with (I := fun n pm => pm = fisher_yates n (shuffle_index bs) perm).
    - reflexivity.
    - intros i pm Hi ->. rewrite fy_S. set (l := fisher_yates i (shuffle_index bs) perm).
      assert (Ll : length l = N) by (unfold l; rewrite fy_length; auto).
      rewrite (get_ok _ i 0) by lia. cbn [bind]. rewrite (get_ok _ i 0) by lia. cbn [bind].
      fold (nthZ r i). rewrite Hr by lia. rewrite Nat2Z.id.
      assert (HI : (shuffle_index bs i < N)%nat).
      { unfold shuffle_index.
        assert (B := Z.mod_pos_bound (le_val (firstn 4 (skipn (4 * i) bs))) (Z.of_nat N - Z.of_nat i) ltac:(lia)). lia. }
      rewrite (get_ok _ _ 0) by lia. cbn [bind]. rewrite set_ok by lia. cbn [bind].
      rewrite set_ok by (rewrite upd_length; lia). apply okp_ok. reflexivity. }
  destruct Q as (pm & -> & ->). reflexivity.
Qed.

Lemma shuffle_index_range bs i : (i < N - 1)%nat -> (i <= shuffle_index bs i < N)%nat.
Proof.
  intros Hi. unfold shuffle_index.
  assert (B := Z.mod_pos_bound (le_val (firstn 4 (skipn (4 * i) bs))) (Z.of_nat N - Z.of_nat i) ltac:(lia)). lia.
Qed.
End P.
