(** Proofs about the generators of the test vector program. *)
From Verif Require Import Base BaseLemmas KatRng KatSpec.

Lemma be_bytes_length n v : length (be_bytes n v) = n.
Proof. unfold be_bytes. rewrite map_length, seq_length. auto. Qed.

Lemma be_bytes_bytes n v : bytes (be_bytes n v).
Proof. apply Forall_forall. intros x H. apply in_map_iff in H. destruct H as (i & <- & _). red. apply Z.mod_pos_bound. lia. Qed.

Lemma be_bytes_S n v : be_bytes (S n) v = be_bytes n (v / 256) ++ [v mod 256].
Proof.
  unfold be_bytes. rewrite seq_S, map_app. cbn [map Nat.add]. f_equal.
  - apply map_ext_in. intros i Hi. apply in_seq in Hi. rewrite Z.div_div by (try apply Z.pow_pos_nonneg; lia). f_equal. f_equal.
    replace (S n - 1 - i)%nat with (S (n - 1 - i)) by lia. rewrite Nat2Z.inj_succ, Z.pow_succ_r by lia. reflexivity.
  - replace (S n - 1 - n)%nat with 0%nat by lia. rewrite Z.div_1_r. reflexivity.
Qed.

Lemma be_val_app a b : be_val (a ++ b) = be_val a * 256 ^ Z.of_nat (length b) + be_val b.
Proof.
  induction a as [|x a IH]; cbn [be_val app]. { lia. }
  rewrite IH, app_length, Nat2Z.inj_add, Z.pow_add_r by lia. ring.
Qed.

Lemma be_bytes_val n l : length l = n -> bytes l -> be_bytes n (be_val l) = l.
Proof.
  revert l. induction n; intros l HL HB. { destruct l; [reflexivity|discriminate]. }
  destruct (exists_last (l := l)) as (a & x & ->). { intros ->. discriminate. }
  rewrite app_length in HL. cbn in HL. apply Forall_app in HB. destruct HB as [HB1 HB2]. inversion HB2 as [|? ? Hx _]; subst. red in Hx.
  rewrite be_bytes_S, be_val_app. replace (be_val [x]) with (x * 1 + 0) by reflexivity. change (256 ^ Z.of_nat (length [x])) with 256.
  replace ((be_val a * 256 + (x * 1 + 0)) / 256) with (be_val a) by (apply Z.div_unique with x; lia).
  replace ((be_val a * 256 + (x * 1 + 0)) mod 256) with x by (apply Z.mod_unique with (be_val a); lia).
  rewrite IHn; auto. lia.
Qed.

Lemma skipn_skipn' {A} a b (l : list A) : skipn a (skipn b l) = skipn (b + a) l.
Proof. revert l. induction b; intros l. reflexivity. destruct l; cbn [skipn Nat.add]. apply skipn_nil. apply IHb. Qed.

Lemma get_mid {A} (a : list A) x b : get (a ++ x :: b) (length a) = Ok x.
Proof. unfold get. rewrite nth_error_app2, Nat.sub_diag by lia. reflexivity. Qed.

Lemma set_mid {A} (a : list A) x b y : set (a ++ x :: b) (length a) y = Ok (a ++ y :: b).
Proof.
  unfold set. rewrite app_length. cbn [length]. destruct (Nat.ltb_spec (length a) (length a + S (length b))); [|lia].
  f_equal. clear. induction a; cbn; auto. rewrite IHa. auto.
Qed.

Lemma increment_spec n : forall pre suf v, (1 <= n)%nat \/ True ->
  increment n (length pre + n - 1) (pre ++ be_bytes n v ++ suf) = Ok (pre ++ be_bytes n (v + 1) ++ suf).
Proof.
  induction n; intros pre suf v _. { reflexivity. }
  cbn [increment]. rewrite !be_bytes_S. rewrite <- !app_assoc. cbn [app].
  replace (length pre + S n - 1)%nat with (length (pre ++ be_bytes n (v / 256))) by (rewrite app_length, be_bytes_length; lia).
  rewrite (app_assoc pre). rewrite get_mid. cbn [bind]. pose proof (Z.mod_pos_bound v 256 ltac:(lia)) as B. pose proof (Z.div_mod v 256 ltac:(lia)) as D.
  destruct (Z.eqb_spec (v mod 256) 255) as [E|E].
  - rewrite set_mid. cbn [bind]. rewrite <- app_assoc.
    replace (length (pre ++ be_bytes n (v / 256)) - 1)%nat with (length pre + n - 1)%nat by (rewrite app_length, be_bytes_length; lia).
    rewrite IHn by auto.
    replace ((v + 1) / 256) with (v / 256 + 1) by (apply Z.div_unique with 0; lia).
    replace ((v + 1) mod 256) with 0 by (apply Z.mod_unique with (v / 256 + 1); lia). reflexivity.
  - rewrite set_mid, <- app_assoc. unfold u8. rewrite (Z.mod_small (v mod 256 + 1)) by lia.
    replace ((v + 1) / 256) with (v / 256) by (apply Z.div_unique with (v mod 256 + 1); lia).
    replace ((v + 1) mod 256) with (v mod 256 + 1) by (apply Z.mod_unique with (v / 256); lia). reflexivity.
Qed.

Lemma increment16 v : increment 16 15 (be_bytes 16 v) = Ok (be_bytes 16 (v + 1)).
Proof. pose proof (increment_spec 16 [] [] v (or_intror I)) as H. cbn [length Nat.add app] in H. rewrite !app_nil_r in H. exact H. Qed.

Section A.
Variable aes : list Z -> list Z -> list Z.
(** The block cipher returns blocks of 16 bytes. *)
Hypothesis HA : forall k b, length (aes k b) = 16%nat /\ bytes (aes k b).

Lemma ctr_blocks_S key v n : ctr_blocks aes key v (S n) = aes key (be_bytes 16 (v + 1)) ++ ctr_blocks aes key (v + 1) n.
Proof.
  unfold ctr_blocks. cbn [seq map concat]. rewrite Z.add_0_r. f_equal. rewrite <- seq_shift, map_map. f_equal. apply map_ext.
  intros i. f_equal. f_equal. lia.
Qed.

Lemma ctr_blocks_end key v n : ctr_blocks aes key v (S n) = ctr_blocks aes key v n ++ aes key (be_bytes 16 (v + 1 + Z.of_nat n)).
Proof. unfold ctr_blocks. rewrite seq_S, map_app, concat_app. cbn. rewrite app_nil_r. reflexivity. Qed.

Lemma ctr_blocks_length key v n : length (ctr_blocks aes key v n) = (16 * n)%nat.
Proof. revert v. induction n; intros v. reflexivity. rewrite ctr_blocks_S, app_length, IHn, (proj1 (HA _ _)). lia. Qed.

Lemma ctr_blocks_bytes key v n : bytes (ctr_blocks aes key v n).
Proof. revert v. induction n; intros v. constructor. rewrite ctr_blocks_S. apply Forall_app. split; [apply HA|apply IHn]. Qed.

Lemma ecb_ok key v buf off : length key = 32%nat -> (off + 16 <= length buf)%nat ->
  KAT_NIST_AES256_ECB aes key (be_bytes 16 v) buf off = Ok (firstn off buf ++ aes key (be_bytes 16 v) ++ skipn (off + 16) buf).
Proof.
  intros HK HB. unfold KAT_NIST_AES256_ECB. pose proof (be_bytes_length 16 v) as LB.
  rewrite rd_ok by lia. cbn [bind skipn]. rewrite rd_ok by lia. cbn [bind skipn].
  rewrite firstn_all2 by lia. rewrite firstn_all2 by lia.
  rewrite wr_ok by (rewrite (proj1 (HA _ _)); lia). rewrite (proj1 (HA _ _)). reflexivity.
Qed.

Lemma ecb_app key v pre j : length key = 32%nat -> (16 <= length j)%nat ->
  KAT_NIST_AES256_ECB aes key (be_bytes 16 v) (pre ++ j) (length pre) = Ok ((pre ++ aes key (be_bytes 16 v)) ++ skipn 16 j).
Proof.
  intros HK HJ. rewrite ecb_ok by (auto; rewrite app_length; lia). f_equal. rewrite <- app_assoc.
  rewrite firstn_app, firstn_all, Nat.sub_diag, firstn_O, app_nil_r. rewrite skipn_app, (skipn_all2 pre) by lia. cbn [app].
  do 2 f_equal. f_equal. lia.
Qed.

Lemma xor_loop n a b : length a = n -> (n <= length b)%nat ->
  for_ n 0 (fun i t => x <- get t i ;; y <- get b i ;; set t i (Z.lxor x y)) a = Ok (xor_bytes a b).
Proof.
  assert (G : forall a pre pb b, length pre = length pb -> (length a <= length b)%nat ->
    for_ (length a) (length pre) (fun i t => x <- get t i ;; y <- get (pb ++ b) i ;; set t i (Z.lxor x y)) (pre ++ a) = Ok (pre ++ xor_bytes a b)).
  { clear. induction a as [|x a IH]; intros pre pb b HL HB; cbn [length for_]. { reflexivity. }
    destruct b as [|y b]; [cbn in HB; lia|]. rewrite get_mid. cbn [bind]. rewrite HL at 1. rewrite get_mid. cbn [bind]. rewrite set_mid. cbn [bind].
    specialize (IH (pre ++ [Z.lxor x y]) (pb ++ [y]) b). rewrite !app_length, <- !app_assoc in IH. cbn [length app] in IH.
    rewrite Nat.add_1_r in IH. rewrite IH by (cbn in HB; lia). unfold xor_bytes. cbn [combine map fst snd]. reflexivity. }
  intros <- HB. exact (G a [] [] b eq_refl HB).
Qed.

Lemma xor_zero a n : (length a <= n)%nat -> xor_bytes a (repeat 0 n) = a.
Proof.
  revert n. induction a as [|x a IH]; intros n HL. { reflexivity. }
  destruct n; [cbn in HL; lia|]. unfold xor_bytes in *. cbn [repeat combine map fst snd]. rewrite Z.lxor_0_r, IH by (cbn in HL; lia). reflexivity.
Qed.

Lemma xor_bytes_length a b : length (xor_bytes a b) = Nat.min (length a) (length b).
Proof. unfold xor_bytes. rewrite map_length, combine_length. auto. Qed.

Lemma xor_byte x y : is_byte x -> is_byte y -> is_byte (Z.lxor x y).
Proof.
  unfold is_byte. intros Hx Hy. split. { apply Z.lxor_nonneg. lia. }
  destruct (Z.eq_dec (Z.lxor x y) 0) as [->|N]; [lia|]. assert (0 <= Z.lxor x y) by (apply Z.lxor_nonneg; lia).
  apply (Z.log2_lt_pow2 _ 8); [lia|]. eapply Z.le_lt_trans; [apply Z.log2_lxor; lia|].
  assert (L : forall z, 0 <= z < 256 -> Z.log2 z < 8). { intros z Hz. destruct (Z.eq_dec z 0) as [->|]; [reflexivity|]. apply Z.log2_lt_pow2; lia. }
  apply Z.max_lub_lt; apply L; lia.
Qed.

Lemma xor_bytes_bytes a b : bytes a -> bytes b -> bytes (xor_bytes a b).
Proof.
  intros Ha Hb. revert b Hb. induction Ha as [|x a Hx Ha IH]; intros b Hb. constructor.
  destruct Hb as [|y b Hy Hb]. constructor. cbn. constructor. apply xor_byte; auto. apply IH. auto.
Qed.

Lemma update_ok temp0 data key v : length temp0 = 48%nat -> length key = 32%nat ->
  match data with Some d => length d = 48%nat /\ bytes d | None => True end ->
  KAT_NIST_AES256_CTR_DRBG_Update aes temp0 data key (be_bytes 16 v) =
    let st := drbg_update aes (key, v) (match data with Some d => d | None => repeat 0 48 end) in
    Ok (fst st, be_bytes 16 (snd st)).
Proof.
  intros HT HK HD. unfold KAT_NIST_AES256_CTR_DRBG_Update.
  match goal with |- bind (for_ 3 0 ?f ?s) ?k = _ => assert (HF : for_ 3 0 f s = Ok (be_bytes 16 (v + 1 + 1 + 1), ctr_blocks aes key v 3)) end.
  { cbn [for_].
  assert (B : forall v, length (aes key (be_bytes 16 v)) = 16%nat) by (intros; apply HA).
  rewrite increment16. cbn [bind]. change (16 * 0)%nat with (@length Z []). change temp0 with ([] ++ temp0). rewrite ecb_app by (auto; lia). cbn [bind app].
  set (b1 := aes key (be_bytes 16 (v + 1))). assert (L1 : length b1 = 16%nat) by apply B.
  rewrite increment16. cbn [bind]. replace (16 * 1)%nat with (length b1) by lia. rewrite ecb_app by (auto; rewrite skipn_length; lia). cbn [bind].
  set (b2 := aes key (be_bytes 16 (v + 1 + 1))). assert (L2 : length b2 = 16%nat) by apply B.
  rewrite increment16. cbn [bind]. replace (16 * 2)%nat with (length (b1 ++ b2)) by (rewrite app_length; lia). rewrite ecb_app by (auto; rewrite !skipn_length; lia). cbn [bind].
  rewrite !skipn_skipn', (skipn_all2 temp0) by lia. rewrite app_nil_r.
  replace ((b1 ++ b2) ++ aes key (be_bytes 16 (v + 1 + 1 + 1))) with (ctr_blocks aes key v 3).
  2:{ rewrite !ctr_blocks_S. unfold ctr_blocks. cbn [seq map concat]. rewrite app_nil_r, <- app_assoc. reflexivity. }
  reflexivity. }
  rewrite HF. cbn [bind]. clear HF. set (t := ctr_blocks aes key v 3). assert (LT : length t = 48%nat) by (unfold t; rewrite ctr_blocks_length; auto).
  assert (HB : bytes t) by apply ctr_blocks_bytes.
  set (d := match data with Some d => d | None => repeat 0 48 end).
  assert (HX : match data with Some data0 => for_ 48 0 (fun i temp => a <- get temp i ;; b <- get data0 i ;; set temp i (Z.lxor a b)) t | None => Ok t end = Ok (xor_bytes t d)).
  { unfold d. destruct data as [d'|]. apply xor_loop; lia. rewrite xor_zero by lia. reflexivity. }
  rewrite HX. cbn [bind]. assert (LD : length d = 48%nat) by (unfold d; destruct data; [apply HD|apply repeat_length]).
  assert (HBD : bytes d). { unfold d. destruct data; [apply HD|]. apply Forall_forall. intros x Hx. apply repeat_spec in Hx. subst. red. lia. }
  assert (LX : length (xor_bytes t d) = 48%nat) by (rewrite xor_bytes_length; lia).
  rewrite rd_ok by lia. cbn [bind skipn]. rewrite rd_ok by lia. cbn [bind].
  rewrite wr_ok by (rewrite firstn_length; lia). cbn [bind]. rewrite wr_ok by (rewrite firstn_length, skipn_length, be_bytes_length; lia). cbn [bind].
  rewrite !firstn_O. cbn [app]. rewrite !Nat.add_0_l, !firstn_length, skipn_length, LX.
  rewrite (skipn_all2 (n := Nat.min 32 48)) by (rewrite HK; cbn; lia). rewrite (skipn_all2 (n := Nat.min 16 (48 - 32))) by (rewrite be_bytes_length; cbn; lia).
  rewrite !app_nil_r. unfold drbg_update. cbn [fst snd]. fold t. cbv zeta. cbn [fst snd].
  rewrite (firstn_all2 (n := 16)) by (rewrite skipn_length; lia).
  rewrite be_bytes_val; [reflexivity|rewrite skipn_length; lia|]. apply Forall_skipn. apply xor_bytes_bytes; auto.
Qed.

Lemma update_length st data : length data = 48%nat -> length (fst (drbg_update aes st data)) = 32%nat.
Proof. intros H. unfold drbg_update. cbn [fst]. rewrite firstn_length, xor_bytes_length, ctr_blocks_length, H. reflexivity. Qed.

(** The context represents the state of the specification. *)
Definition represents (ctx : drbg_ctx) (st : list Z * Z) : Prop :=
  length (fst st) = 32%nat /\ d_key ctx = fst st /\ d_v ctx = be_bytes 16 (snd st).

Lemma init_ok temp0 ctx entropy pers : length temp0 = 48%nat -> length (d_key ctx) = 32%nat -> length (d_v ctx) = 16%nat ->
  length entropy = 48%nat -> bytes entropy -> match pers with Some d => length d = 48%nat /\ bytes d | None => True end ->
  exists ctx', KAT_NIST_randombytes_init aes temp0 ctx entropy pers = Ok ctx' /\ d_reseed ctx' = 1 /\
    represents ctx' (drbg_instantiate aes (match pers with Some d => xor_bytes entropy d | None => entropy end)).
Proof.
  intros HT HK HV HE HB HP. unfold KAT_NIST_randombytes_init. rewrite rd_ok by lia. cbn [bind skipn]. rewrite firstn_all2 by lia.
  set (s := match pers with Some d => xor_bytes entropy d | None => entropy end).
  assert (HX : match pers with Some ps => for_ 48 0 (fun i s => a <- get s i ;; b <- get ps i ;; set s i (Z.lxor a b)) entropy | None => Ok entropy end = Ok s).
  { unfold s. destruct pers; auto. apply xor_loop; lia. }
  rewrite HX. cbn [bind]. assert (LS : length s = 48%nat) by (unfold s; destruct pers; [rewrite xor_bytes_length; lia|auto]).
  assert (BS : bytes s) by (unfold s; destruct pers; [apply xor_bytes_bytes; tauto|auto]).
  rewrite wr_ok by (rewrite repeat_length; lia). cbn [bind]. rewrite wr_ok by (rewrite repeat_length; lia). cbn [bind].
  rewrite !repeat_length, !skipn_all2 by lia. rewrite !app_nil_r. rewrite !firstn_O. cbn [app].
  replace (repeat 0 16) with (be_bytes 16 0) by reflexivity.
  rewrite update_ok; auto. cbn [bind]. cbv zeta. eexists. split; [reflexivity|]. split; [reflexivity|].
  unfold drbg_instantiate, represents. cbn [d_key d_v]. split; [|split; reflexivity]. apply update_length. auto.
Qed.

Lemma random_loop_ok key : length key = 32%nat -> forall n fuel block v x i, (n <= fuel)%nat -> length block = 16%nat -> (i + n <= length x)%nat ->
  Z.of_nat (i + n) < 2 ^ 31 ->
  random_loop aes fuel key block (be_bytes 16 v) x (Z.of_nat i) (Z.of_nat n) =
    Ok (be_bytes 16 (v + Z.of_nat ((n + 15) / 16)),
        firstn i x ++ firstn n (ctr_blocks aes key v ((n + 15) / 16)) ++ skipn (i + n) x).
Proof.
  intros HK n. induction n as [n IH] using lt_wf_ind. intros fuel block v x i HF HB HL HI.
  destruct (Nat.eq_dec n 0) as [->|N0].
  { destruct fuel; cbn [random_loop Z.of_nat Z.ltb Z.compare]; change ((0 + 15) / 16)%nat with 0%nat; cbn [Z.of_nat ctr_blocks seq map concat firstn app];
      rewrite Z.add_0_r, Nat.add_0_r, firstn_skipn; reflexivity. }
  destruct fuel as [|fuel]; [lia|]. cbn [random_loop]. destruct (Z.ltb_spec 0 (Z.of_nat n)); [|lia].
  rewrite increment16. cbn [bind]. rewrite ecb_ok by (auto; lia). cbn [bind]. rewrite firstn_O. cbn [app]. rewrite skipn_all2 by lia. rewrite app_nil_r.
  set (b := aes key (be_bytes 16 (v + 1))). assert (LB : length b = 16%nat) by apply HA.
  destruct (Z.ltb_spec 15 (Z.of_nat n)) as [G|G].
  - rewrite rd_ok by lia. cbn [bind skipn]. rewrite firstn_all2 by lia. rewrite Nat2Z.id. rewrite wr_ok by lia. cbn [bind].
    destruct (Z.ltb_spec (Z.of_nat i + 16) (2 ^ 31)); [|lia].
    replace (Z.of_nat i + 16) with (Z.of_nat (i + 16)) by lia. replace (Z.of_nat n - 16) with (Z.of_nat (n - 16)) by lia.
    rewrite IH; auto; try lia.
    2:{ rewrite !app_length, firstn_length, skipn_length. lia. }
    assert (EB : ((n + 15) / 16 = S ((n - 16 + 15) / 16))%nat).
    { replace (n + 15)%nat with (n - 16 + 15 + 1 * 16)%nat by lia. rewrite Nat.div_add by lia. lia. }
    rewrite EB. set (k := ((n - 16 + 15) / 16)%nat). rewrite ctr_blocks_S. fold b. f_equal. f_equal; [f_equal; lia|].
    rewrite LB. replace (i + 16 + (n - 16))%nat with (i + n)%nat by lia.
    rewrite firstn_app. rewrite (firstn_all2 (n := i + 16) (firstn i x)) by (rewrite firstn_length; lia).
    replace (i + 16 - length (firstn i x))%nat with 16%nat by (rewrite firstn_length; lia).
    rewrite firstn_app, LB, Nat.sub_diag, firstn_O, app_nil_r. rewrite (firstn_all2 (n := 16) b) by lia.
    rewrite <- !app_assoc. f_equal. rewrite firstn_app, LB. rewrite (firstn_all2 (n := n) b) by lia. rewrite <- app_assoc. f_equal. f_equal.
    rewrite !skipn_app, LB, firstn_length. rewrite (skipn_all2 (n := i + n) (firstn i x)) by (rewrite firstn_length; lia).
    rewrite (skipn_all2 b) by lia. cbn [app]. rewrite skipn_skipn'. f_equal. lia.
  - rewrite Nat2Z.id. rewrite rd_ok by lia. cbn [bind skipn]. rewrite Nat2Z.id.
    rewrite wr_ok by (rewrite firstn_length; lia). cbn [bind].
    assert (EZ : forall f, random_loop aes f key b (be_bytes 16 (v + 1)) (firstn i x ++ firstn n b ++ skipn (i + length (firstn n b)) x) (Z.of_nat i) 0 =
       Ok (be_bytes 16 (v + 1), firstn i x ++ firstn n b ++ skipn (i + length (firstn n b)) x)) by (intros []; reflexivity).
    rewrite EZ. assert (EB : ((n + 15) / 16 = 1)%nat). { symmetry; apply Nat.div_unique with (n - 1)%nat; lia. }
    rewrite EB. rewrite ctr_blocks_S. fold b. unfold ctr_blocks. cbn [seq map concat Z.of_nat]. rewrite app_nil_r.
    rewrite firstn_length, LB, Nat.min_l by lia. reflexivity.
Qed.

Lemma random_ok block0 temp0 ctx st x n : represents ctx st -> length block0 = 16%nat -> length temp0 = 48%nat ->
  (n <= length x)%nat -> Z.of_nat n < 2 ^ 31 ->
  exists ctx', KAT_NIST_randombytes aes block0 temp0 ctx x (Z.of_nat n) = Ok (0, fst (drbg_generate aes st n) ++ skipn n x, ctx') /\
    d_reseed ctx' = d_reseed ctx + 1 /\ represents ctx' (snd (drbg_generate aes st n)).
Proof.
  intros (R1 & R2 & R3) HB HT HL HI. unfold KAT_NIST_randombytes. rewrite R2, R3, Nat2Z.id.
  pose proof (random_loop_ok (fst st) R1 n n block0 (snd st) x 0 (le_n n) HB ltac:(lia) ltac:(lia)) as E. change (Z.of_nat 0) with 0 in E.
  rewrite E. cbn [bind]. rewrite firstn_O, Nat.add_0_l. cbn [app].
  rewrite update_ok; auto. cbv zeta. cbn [bind]. eexists. split; [reflexivity|]. split; [reflexivity|].
  unfold drbg_generate. cbv zeta. cbn [snd fst]. split; [apply update_length; apply repeat_length|]. split; reflexivity.
Qed.

(** *** The seed expander *)

(** The context after [s] bytes of the key stream have been handed out. *)
Definition expander_state (seed div : list Z) (maxlen : Z) (ctx : xof_ctx) (s : nat) : Prop :=
  exists c pos : nat, x_key ctx = seed /\ x_ctr ctx = div ++ be_bytes 4 maxlen ++ be_bytes 4 (Z.of_nat c) /\
    x_pos ctx = Z.of_nat pos /\ (pos <= 16)%nat /\ length (x_buffer ctx) = 16%nat /\ (16 * c + pos = s + 16)%nat /\
    forall j, (pos <= j < 16)%nat -> nth j (x_buffer ctx) 0 = expander_byte aes seed div maxlen (s + (j - pos)).

Lemma slice_map (l : list Z) pos n (f : nat -> Z) : (pos + n <= length l)%nat ->
  (forall j, (pos <= j < pos + n)%nat -> nth j l 0 = f j) -> firstn n (skipn pos l) = map f (seq pos n).
Proof.
  intros HL HF. apply (list_ext 0).
  - rewrite firstn_length, skipn_length, map_length, seq_length. lia.
  - intros i Hi. rewrite firstn_length, skipn_length in Hi. rewrite nth_firstn, nth_skipn by lia. rewrite HF by lia.
    rewrite (nth_indep _ 0 (f 0%nat)) by (rewrite map_length, seq_length; lia). rewrite map_nth, seq_nth by lia. reflexivity.
Qed.

Lemma map_seq_shift {A} (f g : nat -> A) n a b : (forall i, (i < n)%nat -> f (a + i)%nat = g (b + i)%nat) -> map f (seq a n) = map g (seq b n).
Proof.
  revert a b. induction n; intros a b H. reflexivity. cbn. f_equal. { specialize (H 0%nat ltac:(lia)). rewrite !Nat.add_0_r in H. auto. }
  apply IHn. intros i Hi. specialize (H (S i) ltac:(lia)). rewrite !Nat.add_succ_r in H. exact H.
Qed.

Lemma expander_loop_ok seed div maxlen : length seed = 32%nat -> length div = 8%nat -> forall fuel ctx s n x off,
  expander_state seed div maxlen ctx s -> (n + (if (x_pos ctx =? 16)%Z then 1 else 0) <= fuel)%nat -> (off + n <= length x)%nat -> Z.of_nat n < 2 ^ 32 ->
  exists ctx', expander_loop aes fuel ctx x (Z.of_nat off) (Z.of_nat n) =
      Ok (firstn off x ++ map (expander_byte aes seed div maxlen) (seq s n) ++ skipn (off + n) x, ctx') /\
    x_remaining ctx' = x_remaining ctx /\ expander_state seed div maxlen ctx' (s + n).
Proof.
  intros HS HD. induction fuel as [|fuel IH]; intros ctx s n x off HI HF HL HN.
  { assert (n = 0%nat) by lia. subst n. exists ctx. cbn [expander_loop Z.of_nat Z.ltb Z.compare seq map app]. rewrite !Nat.add_0_r, firstn_skipn. auto. }
  destruct (Nat.eq_dec n 0) as [->|N0].
  { exists ctx. cbn [expander_loop Z.of_nat Z.ltb Z.compare seq map app]. rewrite !Nat.add_0_r, firstn_skipn. auto. }
  cbn [expander_loop]. destruct (Z.ltb_spec 0 (Z.of_nat n)); [|lia]. cbv zeta.
  destruct HI as (c & pos & K1 & K2 & K3 & K4 & K5 & K6 & K7). rewrite K3 in *. rewrite K1, K2, !Nat2Z.id.
  replace (u32 (16 - Z.of_nat pos)) with (Z.of_nat (16 - pos)) by (unfold u32; rewrite Z.mod_small by lia; lia). rewrite Nat2Z.id.
  destruct (Z.leb_spec (Z.of_nat n) (Z.of_nat (16 - pos))) as [G|G].
  - rewrite rd_ok by lia. cbn [bind].
    rewrite (slice_map _ _ _ (fun j => expander_byte aes seed div maxlen (s + (j - pos)))) by (try lia; intros j Hj; apply K7; lia).
    rewrite wr_ok by (rewrite map_length, seq_length; lia). cbn [bind]. rewrite map_length, seq_length.
    rewrite (map_seq_shift _ (expander_byte aes seed div maxlen) n pos s) by (intros i Hi; f_equal; lia).
    eexists. split; [reflexivity|]. cbn [x_remaining]. split; [reflexivity|]. exists c, (pos + n)%nat. cbn [x_key x_ctr x_pos x_buffer].
    repeat split; auto; try lia. { unfold u32. rewrite Z.mod_small by lia. lia. }
    intros j Hj. rewrite K7 by lia. f_equal. lia.
  - rewrite rd_ok by lia. cbn [bind].
    rewrite (slice_map _ _ _ (fun j => expander_byte aes seed div maxlen (s + (j - pos)))) by (try lia; intros j Hj; apply K7; lia).
    rewrite wr_ok by (rewrite map_length, seq_length; lia). cbn [bind]. rewrite map_length, seq_length.
    rewrite (map_seq_shift _ (expander_byte aes seed div maxlen) (16 - pos) pos s) by (intros i Hi; f_equal; lia).
    unfold KAT_NIST_AES256_ECB at 1. set (ctr := div ++ be_bytes 4 maxlen ++ be_bytes 4 (Z.of_nat c)).
    assert (LC : length ctr = 16%nat) by (unfold ctr; rewrite !app_length, !be_bytes_length; lia).
    rewrite rd_ok by lia. cbn [bind]. rewrite rd_ok by lia. cbn [bind skipn]. rewrite !firstn_all2 by lia.
    assert (LA : length (aes seed ctr) = 16%nat) by apply HA. rewrite wr_ok by lia. cbn [bind]. rewrite firstn_O, Nat.add_0_l. cbn [app].
    rewrite skipn_all2, app_nil_r by lia.
    assert (EI : increment 4 15 ctr = Ok (div ++ be_bytes 4 maxlen ++ be_bytes 4 (Z.of_nat (S c)))).
    { pose proof (increment_spec 4 (div ++ be_bytes 4 maxlen) [] (Z.of_nat c) (or_intror I)) as E. rewrite !app_length, be_bytes_length, HD, !app_nil_r, <- !app_assoc in E.
      cbn [Nat.add Nat.sub] in E. unfold ctr. rewrite E. do 4 f_equal. lia. }
    rewrite EI. cbn [bind].
    replace (Z.of_nat off + Z.of_nat (16 - pos)) with (Z.of_nat (off + (16 - pos))) by lia.
    replace (Z.of_nat n - Z.of_nat (16 - pos)) with (Z.of_nat (n - (16 - pos))) by lia.
    match goal with |- context [expander_loop _ _ ?c2 ?x2 _ _] => destruct (IH c2 (s + (16 - pos))%nat (n - (16 - pos))%nat x2 (off + (16 - pos))%nat) as (ctx' & E1 & E2 & E3) end.
    + exists (S c), 0%nat. cbn [x_key x_ctr x_pos x_buffer]. repeat split; auto; try lia.
      intros j Hj. rewrite Nat.sub_0_r. unfold expander_byte, ctr. rewrite (Nat.add_comm _ j).
      replace (s + (16 - pos))%nat with (c * 16)%nat by lia. rewrite Nat.div_add, Nat.mod_add by lia.
      rewrite (Nat.div_small j), (Nat.mod_small j) by lia. reflexivity.
    + cbn [x_pos Z.eqb]. destruct (Z.eqb_spec (Z.of_nat pos) 16); lia.
    + rewrite !app_length, firstn_length, skipn_length, map_length, seq_length. lia.
    + lia.
    + rewrite E1. exists ctx'. split; [|split; [rewrite E2; reflexivity|replace (s + n)%nat with (s + (16 - pos) + (n - (16 - pos)))%nat by lia; exact E3]].
      f_equal. f_equal. set (g := expander_byte aes seed div maxlen). set (a := (16 - pos)%nat) in *.
      rewrite firstn_app, firstn_length, Nat.min_l by lia. rewrite (firstn_all2 (n := off + a) (firstn off x)) by (rewrite firstn_length; lia).
      replace (off + a - off)%nat with a by lia. rewrite firstn_app, map_length, seq_length, Nat.sub_diag, firstn_O, app_nil_r.
      rewrite (firstn_all2 (n := a)) by (rewrite map_length, seq_length; lia).
      rewrite <- app_assoc. f_equal. replace n with (a + (n - a))%nat at 3 by lia. rewrite seq_app, map_app, <- app_assoc. f_equal. f_equal.
      rewrite !skipn_app, firstn_length, map_length, seq_length, Nat.min_l by lia.
      rewrite (skipn_all2 (firstn off x)) by (rewrite firstn_length; lia). rewrite (skipn_all2 (map g (seq s a))) by (rewrite map_length, seq_length; lia).
      cbn [app]. rewrite skipn_skipn'. f_equal. lia.
Qed.

Lemma expander_init_ok ctx seed div maxlen : length (x_key ctx) = 32%nat -> length (x_ctr ctx) = 16%nat -> length (x_buffer ctx) = 16%nat ->
  length seed = 32%nat -> length div = 8%nat -> 0 <= maxlen < 2 ^ 32 ->
  exists ctx', KAT_NIST_seedexpander_init ctx seed div maxlen = Ok (0, ctx') /\ x_remaining ctx' = maxlen /\ expander_state seed div maxlen ctx' 0.
Proof.
  intros H1 H2 H3 H4 H5 HM. unfold KAT_NIST_seedexpander_init. destruct (Z.leb_spec 4294967296 maxlen); [lia|].
  rewrite rd_ok by lia. cbn [bind]. rewrite wr_ok by (rewrite firstn_length, skipn_length; lia). cbn [bind].
  rewrite rd_ok by lia. cbn [bind]. rewrite wr_ok by (rewrite firstn_length, skipn_length; lia). cbn [bind].
  change (skipn 0 seed) with seed. change (skipn 0 div) with div. rewrite (firstn_all2 seed), (firstn_all2 div), !firstn_O, !Nat.add_0_l, H4, H5 by lia. cbn [app].
  rewrite (skipn_all2 (x_key ctx)), app_nil_r by lia.
  destruct (x_ctr ctx) as [|c0 [|c1 [|c2 [|c3 [|c4 [|c5 [|c6 [|c7 [|c8 [|c9 [|c10 [|c11 [|c12 [|c13 [|c14 [|c15 [|]]]]]]]]]]]]]]]]]; try discriminate.
  destruct div as [|d0 [|d1 [|d2 [|d3 [|d4 [|d5 [|d6 [|d7 [|]]]]]]]]]; try discriminate.
  cbn [skipn app set length Nat.ltb Nat.leb bind upd]. unfold wr. cbn [length Nat.add Nat.leb firstn skipn app repeat bind]. rewrite H3. cbn [Nat.leb bind].
  eexists. split; [reflexivity|]. cbn [x_remaining]. split; [reflexivity|]. exists 0%nat, 16%nat. cbn [x_key x_ctr x_pos x_buffer].
  split; [reflexivity|]. split.
  - unfold be_bytes. cbn [seq map Nat.sub app Z.of_nat]. change (256 ^ Z.pos (Pos.of_succ_nat 2)) with (256 * (256 * 256)). change (256 ^ Z.pos (Pos.of_succ_nat 1)) with (256 * 256).
    change (256 ^ Z.pos (Pos.of_succ_nat 0)) with 256. change (256 ^ 0) with 1. rewrite !Z.div_1_r, !Z.div_div by lia. reflexivity.
  - repeat split; auto; try lia. cbn [length]. match goal with |- context [length ?t] => change t with (skipn 16 (x_buffer ctx)) end. rewrite skipn_length, H3. reflexivity.
Qed.

Lemma expander_ok seed div maxlen ctx s x n : length seed = 32%nat -> length div = 8%nat -> expander_state seed div maxlen ctx s ->
  x_remaining ctx = maxlen - Z.of_nat s -> maxlen < 2 ^ 32 -> (n <= length x)%nat -> Z.of_nat (s + n) < maxlen ->
  exists ctx', KAT_NIST_seedexpander aes ctx x (Z.of_nat n) =
      Ok (0, map (expander_byte aes seed div maxlen) (seq s n) ++ skipn n x, ctx') /\
    x_remaining ctx' = maxlen - Z.of_nat (s + n) /\ expander_state seed div maxlen ctx' (s + n).
Proof.
  intros H1 H2 H3 H4 H5 H6 H7. unfold KAT_NIST_seedexpander. destruct (Z.leb_spec (x_remaining ctx) (Z.of_nat n)); [lia|]. cbv zeta.
  set (ctx1 := Build_xof_ctx _ _ _ _ _).
  destruct (expander_loop_ok seed div maxlen H1 H2 (S n) ctx1 s n x 0) as (ctx' & E1 & E2 & E3); try lia.
  { exact H3. } { destruct (x_pos ctx1 =? 16); lia. }
  change (Z.of_nat 0) with 0 in E1. rewrite Nat2Z.id, E1. cbn [bind]. rewrite firstn_O, Nat.add_0_l. cbn [app].
  exists ctx'. split; [reflexivity|]. split; auto. rewrite E2. unfold ctx1. cbn [x_remaining]. lia.
Qed.

End A.
