(** The samplers of the model compute the sampling relations of LessSpec.v, and conversely. *)
From Verif Require Import Base BaseLemmas Params ParamsProofs Fq FqProofs Prim Samplers Monomial Codes Utils Less Spec
  EnumProofs BitCodec RrefCodec MonoProofs SamplerProofs FuelProofs SampleSpec RoundProofs SignerProofs LessSpec.

Section S.
Variable X : prim.
Variable p : params.
Hypothesis wf : wf_params p.
Hypothesis LX : lawful X (hash_len p).
Notation N := (pN p).
Notation K := (pK p).
Notation w := (pN p - pK p)%nat.

(** *** Rejection sampling *)
Lemma rand_next minv fuel num st buf v st' : (minv = 0 \/ minv = 1) -> (0 < num)%nat -> length buf = num ->
  def_rand X minv 126 fuel num st buf = Ok (v, st') -> next_samples X minv 126 num st v st'.
Proof.
  intros Hm Hn HL E.
  destruct (def_rand_fun X minv 126 fuel num st buf ltac:(lia) ltac:(lia) ltac:(lia) (law_sq_bytes _ _ LX) Hn HL) as [A B].
  destruct (le_lt_dec num (length (samples minv 126 (draw_words X fuel st)))) as [Hle|Hlt].
  - destruct (least_words X minv 126 st num fuel Hn Hle) as (n & H1 & H2 & H3). rewrite (A n H1 H2 H3) in E. injection E as <- <-.
    exists n. auto.
  - rewrite (B Hlt) in E. discriminate.
Qed.

Lemma next_rand minv num st v st' : (minv = 0 \/ minv = 1) -> (0 < num)%nat -> next_samples X minv 126 num st v st' ->
  exists f, forall fuel buf, (f <= fuel)%nat -> length buf = num -> def_rand X minv 126 fuel num st buf = Ok (v, st').
Proof.
  intros Hm Hn (n & H1 & H2 & -> & ->). exists (S n). intros fuel buf Hf HL.
  destruct (def_rand_fun X minv 126 fuel num st buf ltac:(lia) ltac:(lia) ltac:(lia) (law_sq_bytes _ _ LX) Hn HL) as [A _].
  apply A; auto.
Qed.

Lemma next_samples_det minv maxv num st v st' v2 st2 : next_samples X minv maxv num st v st' -> next_samples X minv maxv num st v2 st2 ->
  v = v2 /\ st' = st2.
Proof.
  intros (n & H1 & H2 & -> & ->) (k & H3 & H4 & -> & ->).
  assert (n = k); [|subst; auto].
  destruct (lt_eq_lt_dec n k) as [[H|H]|H]; auto.
  - pose proof (draw_mono X minv maxv st (S n) k H). lia.
  - pose proof (draw_mono X minv maxv st (S k) n H). lia.
Qed.

Lemma next_samples_length minv maxv num st v st' : next_samples X minv maxv num st v st' -> length v = num.
Proof. intros (n & _ & H & -> & _). apply firstn_length_le. auto. Qed.

(** *** Monomials *)
Lemma fill_identity pm : length pm = N ->
  for_ N 0 (fun i pm => set pm i (pos_t p (Z.of_nat i))) pm = Ok (map Z.of_nat (seq 0 N)).
Proof.
  intros HL.
  assert (R : okp (for_ N 0 (fun i pm => set pm i (pos_t p (Z.of_nat i))) pm) (fun q => length q = N /\ forall i, (i < 0 + N)%nat -> nth i q 0 = Z.of_nat i)).
  { apply okp_for with (I := fun n q => length q = N /\ forall i, (i < n)%nat -> nth i q 0 = Z.of_nat i).
    - split; auto. intros; lia.
    - intros i q Hi (H1 & H2). rewrite set_ok by lia. apply okp_ok. split. { rewrite upd_length; auto. }
      intros j Hj. rewrite nth_upd by lia. destruct (Nat.eqb_spec i j) as [<-|]. { apply pos_t_lt_N; auto. lia. } apply H2. lia. }
  destruct R as (q & -> & L & H). f_equal. apply (list_ext 0). { rewrite map_length, seq_length. auto. }
  intros i Hi. rewrite H by lia. rewrite nth_map_seq by lia. auto.
Qed.

Lemma expand_monomial_of fuel r input Q : mono_mem p r -> monomial_expand X p fuel r input = Ok Q ->
  monomial_of X p input (m_perm Q) (m_coef Q).
Proof.
  intros (R1 & R2) E. pose proof (wf_K p wf) as HK. unfold monomial_expand in E. cbv zeta in E.
  apply bind_ok in E. destruct E as ([cs st1] & E1 & E). apply bind_ok in E. destruct E as (pm & E2 & E).
  rewrite fill_identity in E2 by auto. injection E2 as <-.
  rewrite yt_shuffle_fun in E by (auto; rewrite map_length, seq_length; auto). cbn [bind] in E. injection E as <-. cbn [m_perm m_coef].
  exists st1. split; auto. apply (rand_next 1 fuel N (x_init X input) (m_coef r) cs st1); [auto|lia|auto|exact E1].
Qed.

Lemma monomial_of_expand input perm coef : monomial_of X p input perm coef ->
  exists f, sampled X p f input {| m_coef := coef; m_perm := perm |}.
Proof.
  intros (st & H & ->). pose proof (wf_K p wf) as HK.
  destruct (next_rand 1 N (x_init X input) coef st ltac:(auto) ltac:(lia) H) as (f & Hf).
  assert (E : forall fuel r, (f <= fuel)%nat -> mono_mem p r -> monomial_expand X p fuel r input =
    Ok {| m_coef := coef; m_perm := fisher_yates (N - 1) (shuffle_index p (fst (x_squeeze X (4 * N) st))) (map Z.of_nat (seq 0 N)) |}).
  { intros fuel r Hfu (R1 & R2). unfold monomial_expand, fq_star_rnd_state_elements. cbv zeta. rewrite Hf by auto. cbn [bind].
    rewrite fill_identity by auto. cbn [bind]. rewrite yt_shuffle_fun by (auto; rewrite map_length, seq_length; auto). reflexivity. }
  exists f. split; [|intros; apply E; auto].
  pose proof (monomial_expand_spec X p wf f _ input LX (junk_monomial_mem p (fun _ _ => 0) 0)) as W.
  rewrite E in W by (auto; apply junk_monomial_mem). exact W.
Qed.

Lemma sampled_monomial_of f input Q : sampled X p f input Q -> monomial_of X p input (m_perm Q) (m_coef Q).
Proof.
  intros (_ & H). eapply expand_monomial_of; [apply (junk_monomial_mem p (fun _ _ => 0) 0)|]. apply (H f); auto. apply junk_monomial_mem.
Qed.

(** *** Generators *)
Lemma rows_length n st rows : next_rows X w n st rows -> length rows = n /\ Forall (fun r => length r = w) rows.
Proof.
  induction 1 as [|n st row st' rows H _ [I1 I2]]. { auto. } cbn [length]. split; [auto|]. constructor; auto.
  eapply next_samples_length; eauto.
Qed.

Definition row_step (fuel : nat) (i : nat) (s : list (list Z) * xstate X) : res (list (list Z) * xstate X) :=
  let '(v, st) := s in
  row <- get v i ;;
  ' (row', st') <- rand_range_q_state_elements X fuel w st row ;;
  v' <- set v i row' ;;
  Ok (v', st').

Lemma for_shift {S} (f : nat -> S -> res S) (g : nat -> S -> res S) n i j s :
  (forall k s, (k < n)%nat -> f (i + k)%nat s = g (j + k)%nat s) -> for_ n i f s = for_ n j g s.
Proof.
  revert i j s. induction n as [|n IH]; intros i j s H; cbn [for_]; auto.
  pose proof (H 0%nat s ltac:(lia)) as H0. rewrite !Nat.add_0_r in H0. rewrite H0. destruct (g j s); cbn [bind]; auto.
  apply IH. intros k t Hk. specialize (H (Datatypes.S k) t ltac:(lia)). rewrite !Nat.add_succ_r in H. exact H.
Qed.

(** Rows i .. i+n-1 are replaced by sampled ones. *)
Lemma rows_of_loop fuel n : forall pre rest st v st', length rest = n -> Forall (fun r => length r = w) rest ->
  for_ n (length pre) (row_step fuel) (pre ++ rest, st) = Ok (v, st') ->
  exists rows, v = pre ++ rows /\ next_rows X w n st rows.
Proof.
  pose proof (wf_K p wf) as HK.
  induction n as [|n IH]; intros pre rest st v st' HL HF E; cbn [for_] in E.
  - injection E as <- _. destruct rest; [|discriminate]. exists []. split; auto. constructor.
  - destruct rest as [|r rest]; [discriminate|]. inversion HF; subst. apply bind_ok in E. destruct E as ([v1 st1] & E1 & E).
    unfold row_step in E1. rewrite (get_ok _ _ []) in E1 by (rewrite app_length; cbn [length]; lia).
    rewrite app_nth2, Nat.sub_diag in E1 by lia. cbn [bind nth] in E1.
    apply bind_ok in E1. destruct E1 as ([row s1] & E2 & E1).
    rewrite set_ok in E1 by (rewrite app_length; cbn [length]; lia). cbn [bind] in E1. injection E1 as <- <-.
    assert (EU : upd (pre ++ r :: rest) (length pre) row = (pre ++ [row]) ++ rest).
    { clear. induction pre; cbn [app upd length]; [reflexivity|f_equal; auto]. }
    rewrite EU in E. replace (S (length pre)) with (length (pre ++ [row])) in E by (rewrite app_length; cbn [length]; lia).
    destruct (IH (pre ++ [row]) rest s1 v st' ltac:(cbn [length] in HL; lia) H2 E) as (rows & -> & HR).
    exists (row :: rows). split. { rewrite <- app_assoc. auto. } econstructor; [|exact HR].
    apply (rand_next 0 fuel w st r row s1); [auto|lia|auto|exact E2].
Qed.

Lemma loop_of_rows n st rows : next_rows X w n st rows ->
  exists f, forall fuel pre rest, (f <= fuel)%nat -> length rest = n -> Forall (fun r => length r = w) rest ->
    exists st', for_ n (length pre) (row_step fuel) (pre ++ rest, st) = Ok (pre ++ rows, st').
Proof.
  pose proof (wf_K p wf) as HK.
  induction 1 as [st|n st row st' rows H HR (f & IH)].
  - exists 0%nat. intros fuel pre rest _ HL _. destruct rest; [|discriminate]. exists st. reflexivity.
  - destruct (next_rand 0 w st row st' ltac:(auto) ltac:(lia) H) as (f0 & H0).
    exists (max f f0). intros fuel pre rest Hf HL HF. destruct rest as [|r rest]; [discriminate|]. inversion HF; subst.
    cbn [for_]. unfold row_step at 1. rewrite (get_ok _ _ []) by (rewrite app_length; cbn [length]; lia).
    rewrite app_nth2, Nat.sub_diag by lia. cbn [bind nth].
    unfold rand_range_q_state_elements. rewrite H0 by (auto; lia). cbn [bind].
    rewrite set_ok by (rewrite app_length; cbn [length]; lia). cbn [bind].
    assert (EU : upd (pre ++ r :: rest) (length pre) row = (pre ++ [row]) ++ rest).
    { clear. induction pre; cbn [app upd length]; [reflexivity|f_equal; auto]. }
    rewrite EU. replace (S (length pre)) with (length (pre ++ [row])) by (rewrite app_length; cbn [length]; lia).
    destruct (IH fuel (pre ++ [row]) rest ltac:(lia) ltac:(cbn [length] in HL; lia) H4) as (s2 & ->). exists s2. rewrite <- app_assoc. auto.
Qed.

Lemma next_rows_det n st rows rows' : next_rows X w n st rows -> next_rows X w n st rows' -> rows = rows'.
Proof.
  intros H. revert rows'. induction H as [st|n st row st' rows H HR IH]; intros rows' H'; inversion H'; subst; auto.
  destruct (next_samples_det _ _ _ _ _ _ _ _ H H1) as [-> ->]. f_equal. auto.
Qed.

Lemma expand_vals fuel r seed c : rref_mem p r -> generator_SF_seed_expand X p fuel r seed = Ok c ->
  next_rows X w K (x_init X seed) (r_vals c) /\ rref_mem p c /\
  (forall i j, (i < K)%nat -> (j < w)%nat -> fq (ent (r_vals c) i j)) /\
  (forall j, (j < w)%nat -> nthZ (r_pos c) j = Z.of_nat (j + K)).
Proof.
  intros [R1 R2] E. pose proof (generator_SF_seed_expand_spec X p wf fuel r seed R1 R2) as W. rewrite E in W. cbn [wp] in W.
  destruct W as (C1 & C2 & C3 & C4). split; [|split; [constructor; auto|auto]].
  unfold generator_SF_seed_expand in E. cbv zeta in E. apply bind_ok in E. destruct E as ([v st'] & E & E2).
  apply bind_ok in E2. destruct E2 as (ps & _ & E2). injection E2 as <-. cbn [r_vals].
  destruct (rows_of_loop fuel K [] (r_vals r) (x_init X seed) v st') as (rows & -> & H); auto; apply R1.
Qed.

Lemma expand_full c M full : rref_mem p c -> (forall j, (j < w)%nat -> nthZ (r_pos c) j = Z.of_nat (j + K)) ->
  shape K N full -> generator_rref_expand p full c = Ok M -> shape K N M /\
  forall i j, (i < K)%nat -> (j < N)%nat -> ent M i j = if (j <? K)%nat then (if Nat.eqb i j then 1 else 0) else ent (r_vals c) i (j - K).
Proof.
  intros [R1 R2] HP HS E. pose proof (wf_K p wf) as HK.
  assert (W : okp (generator_rref_expand p full c) (fun M => shape K N M /\
    forall i j, (i < K)%nat -> (j < N)%nat -> ent M i j =
      if (K <=? j)%nat then ent (r_vals c) i (cnt (fun j => (K <=? j)%nat) j) else b2z (Nat.eqb i (cnt (fun k => negb (K <=? k)%nat) j)))).
  { apply (generator_rref_expand_spec p wf full c (fun j => (K <=? j)%nat)); auto.
    - apply cnt_ge.
    - intros j Hj. rewrite HP, enum_ge by auto. auto. }
  destruct W as (M' & E' & S1 & S2). rewrite E in E'. injection E' as <-. split; auto. intros i j Hi Hj. rewrite S2 by auto.
  destruct (Nat.leb_spec K j), (Nat.ltb_spec j K); try lia.
  - rewrite cnt_ge. auto.
  - rewrite cnt_lt_K. rewrite Nat.min_l by lia. destruct (Nat.eqb i j); auto.
Qed.

Lemma sampledG_generator_of f seed c M : sampledG X p f seed c M -> generator_of X p seed (ent M).
Proof.
  intros (H1 & H2 & _). specialize (H1 f _ (Nat.le_refl f) (junk_rref_mem p (fun _ _ => 0) 0)).
  destruct (expand_vals f _ seed c (junk_rref_mem p _ _) H1) as (A & B & _ & D).
  destruct (expand_full c M _ B D (zero_mat_shape K N) (H2 _ (zero_mat_shape K N))) as [_ E].
  exists (r_vals c). auto.
Qed.

Lemma generator_of_sampledG seed G : generator_of X p seed G -> exists f c M, sampledG X p f seed c M /\
  forall i j, (i < K)%nat -> (j < N)%nat -> ent M i j = G i j.
Proof.
  intros (rows & HR & HG). pose proof (wf_K p wf) as HK. destruct (loop_of_rows K _ rows HR) as (f & Hf).
  assert (T : exists c, generator_SF_seed_expand X p f (junk_rref p (fun _ _ => 0) 0) seed = Ok c).
  { unfold generator_SF_seed_expand. cbv zeta. destruct (junk_rref_mem p (fun _ _ => 0) 0) as [[S1 S2] S3].
    destruct (Hf f [] (r_vals (junk_rref p (fun _ _ => 0) 0)) (Nat.le_refl f) S1 S2) as (st' & E).
    cbn [length app] in E. change (for_ K 0 (row_step f) (r_vals (junk_rref p (fun _ _ => 0) 0), x_init X seed) = Ok (rows, st')) in E.
    change (exists c, bind (for_ K 0 (row_step f) (r_vals (junk_rref p (fun _ _ => 0) 0), x_init X seed)) (fun '(vals, _) =>
      bind (for_ (N - K) 0 (fun i ps => set ps i (pos_t p (Z.of_nat (i + K)))) (r_pos (junk_rref p (fun _ _ => 0) 0)))
        (fun pos => Ok {| r_vals := vals; r_pos := pos |})) = Ok c).
    rewrite E. cbn [bind].
    destruct (okp_for (fun _ ps => length ps = w) (N - K) 0 (fun i ps => set ps i (pos_t p (Z.of_nat (i + K))))
      (r_pos (junk_rref p (fun _ _ => 0) 0))) as (q & -> & _); auto.
    { intros i ps Hi HL. rewrite set_ok by lia. apply okp_ok. rewrite upd_length. auto. }
    cbn [bind]. eauto. }
  destruct T as (c & E). pose proof (generator_sampled X p wf f _ seed (junk_rref_mem p (fun _ _ => 0) 0)) as W.
  rewrite E in W. cbn [wp] in W. destruct W as (_ & M & SG). exists f, c, M. split; auto.
  destruct (expand_vals f _ seed c (junk_rref_mem p _ _) E) as (A & B & _ & D).
  destruct SG as (_ & H2 & _). destruct (expand_full c M _ B D (zero_mat_shape K N) (H2 _ (zero_mat_shape K N))) as [_ EM].
  intros i j Hi Hj. rewrite EM, HG by auto. rewrite (next_rows_det _ _ _ _ A HR). auto.
Qed.

(** *** Private seeds *)
Lemma iter_shift {A} (f : A -> A) n a : Nat.iter (S n) f a = Nat.iter n f (f a).
Proof. induction n as [|n IH]; [reflexivity|]. change (f (Nat.iter (S n) f a) = f (Nat.iter n f (f a))). rewrite IH. auto. Qed.

Lemma private_seeds_nth n st x : (x < n)%nat ->
  nth x (private_seeds X p n st) [] =
  fst (x_squeeze X (prikey_seed_len p) (Nat.iter x (fun st => snd (x_squeeze X (prikey_seed_len p) st)) st)).
Proof.
  revert st x. induction n as [|n IH]; intros st x Hx; [lia|]. cbn [private_seeds].
  destruct (x_squeeze X (prikey_seed_len p) st) as [s st'] eqn:E. destruct x as [|x]; cbn [nth].
  - change (s = fst (x_squeeze X (prikey_seed_len p) st)). rewrite E. auto.
  - rewrite IH by lia. f_equal. f_equal. rewrite iter_shift. rewrite E. auto.
Qed.

(** *** Challenges *)
Fixpoint after_halfwords (n : nat) (st : xstate X) : xstate X :=
  match n with O => st | S n' => after_halfwords n' (snd (x_squeeze X 2 st)) end.

Lemma place_spec c bs st st' : length c = pT p -> x_squeeze X 2 st = (bs, st') ->
  let value := u8 (Z.land (le_val bs) (2 ^ kp_bits p - 1)) in
  let pos := pos_t p (Z.land (pos_t p (Z.shiftr (le_val bs) (kp_bits p))) (2 ^ pos_bits p - 1)) in
  0 <= value /\ 0 <= pos /\
  place p c (le_val bs) = if (Z.of_nat (p_nk p) <=? value) || (Z.of_nat (pT p) <=? pos) || negb (nth (Z.to_nat pos) c 0 =? 0)
    then c else upd c (Z.to_nat pos) value.
Proof.
  intros HL E value pos. pose proof (wf_nk p wf) as NK. pose proof (wf_T p wf) as TT. pose proof (wf_pos p wf) as TP.
  assert (KB : kp_bits p = Z.log2 (Z.of_nat (p_nk p) - 1) + 1) by (unfold kp_bits; rewrite bits_spec by lia; auto).
  assert (PB : pos_bits p = Z.log2 (Z.of_nat (pT p) - 1) + 1) by (unfold pos_bits; rewrite bits_spec by lia; auto).
  pose proof (kp_bits_range p wf) as KR. pose proof (pos_bits_range p wf) as PR.
  assert (Ev : value = le_val bs mod 2 ^ kp_bits p).
  { unfold value. rewrite land_pred by lia. apply u8_id. 
    assert (0 < 2 ^ kp_bits p <= 2 ^ 7) by (split; [apply Z.pow_pos_nonneg; lia|apply Z.pow_le_mono_r; lia]).
    pose proof (Z.mod_pos_bound (le_val bs) (2 ^ kp_bits p) ltac:(lia)). change (2 ^ 7) with 128 in *. lia. }
  assert (PM : exists e, 0 <= e /\ pos_mod p = 2 ^ e).
  { unfold pos_mod. destruct (p_cat p); [exists 8|exists 16|exists 16]; split; try lia; reflexivity. }
  destruct PM as (e & He & PM).
  assert (Pe : pos_bits p <= e).
  { rewrite PB. destruct (Z.le_gt_cases (Z.log2 (Z.of_nat (pT p) - 1) + 1) e) as [|C]; auto. exfalso.
    assert (2 ^ e <= 2 ^ Z.log2 (Z.of_nat (pT p) - 1)) by (apply Z.pow_le_mono_r; lia).
    pose proof (Z.log2_spec (Z.of_nat (pT p) - 1) ltac:(lia)). lia. }
  assert (Ep : pos = (le_val bs / 2 ^ kp_bits p) mod 2 ^ pos_bits p).
  { unfold pos, pos_t. rewrite PM, land_pred, Z.shiftr_div_pow2 by lia.
    replace (2 ^ e) with (2 ^ pos_bits p * 2 ^ (e - pos_bits p)) by (rewrite <- Z.pow_add_r by lia; f_equal; lia).
    assert (0 < 2 ^ pos_bits p) by (apply Z.pow_pos_nonneg; lia).
    assert (0 < 2 ^ (e - pos_bits p)) by (apply Z.pow_pos_nonneg; lia).
    set (x := le_val bs / 2 ^ kp_bits p). set (a := 2 ^ pos_bits p) in *. set (b := 2 ^ (e - pos_bits p)) in *.
    assert (H1 : (x mod (a * b)) mod a = x mod a).
    { rewrite Z.rem_mul_r by lia. rewrite Z.mul_comm, Z.add_mod, Z.mod_mul, Z.add_0_r, !Z.mod_mod by lia. auto. }
    rewrite H1. apply Z.mod_small. pose proof (Z.mod_pos_bound x a ltac:(lia)). nia. }
  assert (0 < 2 ^ kp_bits p) by (apply Z.pow_pos_nonneg; lia). assert (0 < 2 ^ pos_bits p) by (apply Z.pow_pos_nonneg; lia).
  split. { rewrite Ev. apply Z.mod_pos_bound. auto. } split. { rewrite Ep. apply Z.mod_pos_bound. auto. }
  unfold place. cbv zeta. rewrite <- KB, <- PB, <- Ev, <- Ep.
  destruct (Z.leb_spec (Z.of_nat (p_nk p)) value), (Z.ltb_spec value (Z.of_nat (p_nk p))); try lia; cbn [andb orb]; auto.
  destruct (Z.leb_spec (Z.of_nat (pT p)) pos), (Z.ltb_spec pos (Z.of_nat (pT p))); try lia; cbn [andb orb]; auto.
  destruct (nth (Z.to_nat pos) c 0 =? 0); auto.
Qed.

Lemma place_length c word : length (place p c word) = length c.
Proof. unfold place. cbv zeta. destruct (_ && _); auto. apply upd_length. Qed.

(** Reading words until one is used. *)
Lemma draw_position_place dfuel : forall c st, length c = pT p ->
  match draw_position X p dfuel c st with
  | Ok (v, q, st') => exists n, st' = after_halfwords (S n) st /\ 0 <= q < Z.of_nat (pT p) /\ nth (Z.to_nat q) c 0 = 0 /\
      fold_left (place p) (draw_halfwords X n st) c = c /\
      fold_left (place p) (draw_halfwords X (S n) st) c = upd c (Z.to_nat q) v
  | UB => False
  | NoFuel => forall k, (k <= dfuel)%nat -> fold_left (place p) (draw_halfwords X k st) c = c
  end.
Proof.
  induction dfuel as [|f IH]; intros c st HL; cbn [draw_position].
  { intros k Hk. destruct k; [reflexivity|lia]. }
  destruct (x_squeeze X 2 st) as [bs st'] eqn:E. cbv zeta.
  destruct (place_spec c bs st st' HL E) as (P1 & P2 & P3). cbv zeta in P1, P2, P3.
  set (v := u8 _) in *. set (q := pos_t p (Z.land _ _)) in *.
  assert (DH : forall k, draw_halfwords X (S k) st = le_val bs :: draw_halfwords X k st').
  { intros k. cbn [draw_halfwords]. rewrite E. auto. }
  assert (AH : forall k, after_halfwords (S k) st = after_halfwords k st').
  { intros k. cbn [after_halfwords]. rewrite E. auto. }
  assert (SKIP : place p c (le_val bs) = c ->
    match draw_position X p f c st' with
    | Ok (v, q, st'') => exists n, st'' = after_halfwords (S n) st /\ 0 <= q < Z.of_nat (pT p) /\ nth (Z.to_nat q) c 0 = 0 /\
      fold_left (place p) (draw_halfwords X n st) c = c /\
      fold_left (place p) (draw_halfwords X (S n) st) c = upd c (Z.to_nat q) v
    | UB => False
    | NoFuel => forall k, (k <= S f)%nat -> fold_left (place p) (draw_halfwords X k st) c = c
    end).
  { intros EP. specialize (IH c st' HL). destruct (draw_position X p f c st') as [[[v' q'] st'']| |]; auto.
    - destruct IH as (n & I1 & I2 & I3 & I4 & I5). exists (S n). rewrite AH, !DH. cbn [fold_left]. rewrite EP. auto.
    - intros k Hk. destruct k as [|k]; [reflexivity|]. rewrite DH. cbn [fold_left]. rewrite EP. apply IH. lia. }
  destruct ((Z.of_nat (p_nk p) <=? v) || (Z.of_nat (pT p) <=? q)) eqn:EC.
  { apply SKIP. rewrite P3. reflexivity. }
  apply orb_false_iff in EC. destruct EC as [EC1 EC2].
  rewrite (get_ok _ _ 0) by lia. cbn [bind]. destruct (Z.eqb_spec (nth (Z.to_nat q) c 0) 0) as [E0|E0]; cbn [negb].
  - exists 0%nat. rewrite AH, DH. cbn [after_halfwords draw_halfwords fold_left]. repeat split; auto; lia.
  - apply SKIP. rewrite P3. cbn [orb]. destruct (Z.eqb_spec (nth (Z.to_nat q) c 0) 0); [contradiction|reflexivity].
Qed.

Lemma draw_halfwords_app a b st : draw_halfwords X (a + b) st = draw_halfwords X a st ++ draw_halfwords X b (after_halfwords a st).
Proof. revert st. induction a as [|a IH]; intros st; [reflexivity|]. cbn [Nat.add draw_halfwords after_halfwords app]. rewrite IH. auto. Qed.

Definition after (n : nat) (st : xstate X) (c : list Z) : list Z := fold_left (place p) (draw_halfwords X n st) c.

Lemma after_add a b st c : after (a + b) st c = after b (after_halfwords a st) (after a st c).
Proof. unfold after. rewrite draw_halfwords_app, fold_left_app. auto. Qed.

Lemma after_length n st c : length (after n st c) = length c.
Proof.
  unfold after. revert st c. induction n; intros st c; [reflexivity|]. cbn [draw_halfwords fold_left]. rewrite IHn. apply place_length.
Qed.

Lemma place_elements_place dfuel fuel : forall placed c st, length c = pT p -> weight c = placed -> (placed <= pW p)%nat ->
  match place_elements X p fuel dfuel placed c st with
  | Ok c' => exists n, c' = after n st c /\ weight c' = pW p /\ forall k, (k < n)%nat -> (weight (after k st c) < pW p)%nat
  | UB => False
  | NoFuel => (exists n, (fuel <= n)%nat /\ forall k, (k < n)%nat -> (weight (after k st c) < pW p)%nat) \/
      exists n, (dfuel <= n)%nat /\ forall k, (k <= n)%nat -> (weight (after k st c) < pW p)%nat
  end.
Proof.
  induction fuel as [|f IH]; intros placed c st HL HW HP; cbn [place_elements].
  { left. exists 0%nat. split; [lia|]. intros; lia. }
  destruct (Nat.ltb_spec placed (pW p)) as [Lt|Ge].
  2:{ exists 0%nat. split; [reflexivity|]. split; [lia|]. intros; lia. }
  pose proof (draw_position_place dfuel c st HL) as D. destruct (draw_position X p dfuel c st) as [[[v q] st']| |]; cbn [bind]; auto.
  2:{ right. exists dfuel. split; auto. intros k Hk. unfold after. rewrite D by auto. lia. }
  destruct D as (n & -> & Q1 & Q2 & Q3 & Q4). rewrite set_ok by lia. cbn [bind].
  fold (after n st c) in Q3. fold (after (S n) st c) in Q4.
  assert (ST : forall k, (k <= n)%nat -> (weight (after k st c) < pW p)%nat).
  { assert (G : forall m st c, after m st c = c -> forall k, (k <= m)%nat -> (weight (after k st c) <= weight c)%nat).
    { clear -wf. assert (MON : forall wd c, (weight c <= weight (place p c wd))%nat).
      { intros wd c. unfold place. cbv zeta. destruct (_ && _) eqn:EC; auto. apply andb_true_iff in EC. destruct EC as [_ EC].
        apply Z.eqb_eq in EC. set (q := Z.to_nat _) in *. set (v := _ mod _). clearbody q v.
        destruct (Nat.lt_ge_cases q (length c)) as [Hq|Hq].
        - destruct (Z.eq_dec v 0) as [->|Hv]. { rewrite <- EC. rewrite upd_self by auto. auto. } rewrite weight_upd; auto.
        - assert (upd c q v = c) as ->; auto. clear -Hq. revert q Hq. induction c; intros q Hq; [destruct q; auto|].
          destruct q; cbn [upd length] in *; [lia|]. f_equal. apply IHc. lia. }
      assert (MN : forall m st c, (weight c <= weight (after m st c))%nat).
      { induction m; intros st c; [apply Nat.le_refl|]. unfold after. cbn [draw_halfwords fold_left].
        eapply Nat.le_trans; [apply MON|]. apply IHm. }
      intros m st c E k Hk. rewrite <- E at 2. replace m with (k + (m - k))%nat by lia. rewrite after_add. apply MN. }
    intros k Hk. pose proof (G n st c Q3 k Hk). lia. }
  set (c1 := upd c (Z.to_nat q) v) in *.
  assert (L1 : length c1 = pT p) by (unfold c1; rewrite upd_length; auto).
  assert (W1 : weight c1 = if v =? 0 then placed else S placed).
  { unfold c1. destruct (Z.eqb_spec v 0) as [->|Hv]. { rewrite <- Q2. rewrite upd_self by lia. auto. } rewrite weight_upd; auto; lia. }
  specialize (IH (if v =? 0 then placed else S placed) c1 (after_halfwords (S n) st) L1 W1 ltac:(destruct (v =? 0); lia)).
  assert (ADD : forall k, after (S n + k) st c = after k (after_halfwords (S n) st) c1).
  { intros k. rewrite after_add, Q4. auto. }
  assert (CMB : forall m, (forall k, (k < m)%nat -> (weight (after k (after_halfwords (S n) st) c1) < pW p)%nat) ->
    forall k, (k < S n + m)%nat -> (weight (after k st c) < pW p)%nat).
  { intros m H k Hk. destruct (Nat.le_gt_cases k n). { apply ST. auto. }
    replace k with (S n + (k - S n))%nat by lia. rewrite ADD. apply H. lia. }
  destruct (place_elements X p f dfuel _ c1 (after_halfwords (S n) st)) as [c'| |]; auto.
  - destruct IH as (m & -> & I2 & I3). exists (S n + m)%nat. rewrite ADD. split; [auto|]. split; [auto|]. apply CMB. exact I3.
  - destruct IH as [(m & I1 & I2)|(m & I1 & I2)].
    + left. exists (S n + m)%nat. split; [lia|]. apply CMB. auto.
    + right. exists (S n + m)%nat. split; [lia|]. intros k Hk. apply (CMB (S m)); [|lia]. intros j Hj. apply I2. lia.
Qed.

Lemma expand_challenge_of fuel digest c : expand_digest_to_fixed_weight X p fuel (repeat 0 (pT p)) digest = Ok c ->
  challenge_of X p digest c.
Proof.
  intros E. pose proof (place_elements_place fuel fuel 0 (repeat 0 (pT p)) (x_init X digest) (repeat_length _ _) (weight_repeat _) ltac:(lia)) as H.
  unfold expand_digest_to_fixed_weight in E. rewrite E in H. destruct H as (n & H1 & H2 & H3). exists n. auto.
Qed.

Lemma challenge_of_det digest c c' : challenge_of X p digest c -> challenge_of X p digest c' -> c = c'.
Proof.
  intros (n & A1 & A2 & A3) (k & B1 & B2 & B3). destruct (lt_eq_lt_dec n k) as [[H|H]|H].
  - specialize (B3 n H). rewrite <- A1 in B3. lia.
  - subst. auto.
  - specialize (A3 k H). rewrite <- B1 in A3. lia.
Qed.

Lemma challenge_of_expand digest c : challenge_of X p digest c ->
  exists f, forall fuel, (f <= fuel)%nat -> expand_digest_to_fixed_weight X p fuel (repeat 0 (pT p)) digest = Ok c.
Proof.
  intros HC. pose proof HC as (n & A1 & A2 & A3). exists (S n). intros fuel Hf.
  pose proof (place_elements_place fuel fuel 0 (repeat 0 (pT p)) (x_init X digest) (repeat_length _ _) (weight_repeat _) ltac:(lia)) as H.
  destruct (expand_digest_to_fixed_weight X p fuel (repeat 0 (pT p)) digest) as [c'| |] eqn:E.
  - f_equal. eapply challenge_of_det; [|exact HC]. eapply expand_challenge_of. exact E.
  - unfold expand_digest_to_fixed_weight in E. rewrite E in H. contradiction.
  - unfold expand_digest_to_fixed_weight in E. rewrite E in H. exfalso.
    assert (F : weight (after n (x_init X digest) (repeat 0 (pT p))) = pW p) by (unfold after; rewrite <- A1; auto).
    destruct H as [(m & M1 & M2)|(m & M1 & M2)]; specialize (M2 n ltac:(lia)); lia.
Qed.
End S.
