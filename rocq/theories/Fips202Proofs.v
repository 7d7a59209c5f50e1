(** The functions of fips202.c as byte-by-byte machines, and their agreement with the sponge of FIPS 202. *)
From Verif Require Import Base BaseLemmas Keccak KeccakSpec KeccakProofs Fips202.

(** *** Bytes of the state *)

(** Exclusive-or of byte [b] at byte position [j]. *)
Definition xor_at (st : list Z) (j : nat) (b : Z) : list Z :=
  upd st (j / 8) (Z.lxor (nth (j / 8) st 0) (u64 (Z.shiftl b (8 * Z.of_nat (j mod 8))))).
Fixpoint xor_list (st : list Z) (off : nat) (m : list Z) : list Z :=
  match m with [] => st | b :: m' => xor_list (xor_at st off b) (S off) m' end.
Definition byte_at (st : list Z) (j : nat) : Z := u8 (Z.shiftr (nth (j / 8) st 0) (8 * Z.of_nat (j mod 8))).

Lemma lanes_nth st i : lanes st -> lane_ok (nth i st 0).
Proof.
  intros [H1 H2]. destruct (Nat.lt_ge_cases i (length st)) as [L|L].
  - rewrite Forall_forall in H2. apply H2. apply nth_In. auto.
  - rewrite nth_overflow by auto. unfold lane_ok. change (2 ^ 64) with 18446744073709551616. lia.
Qed.

Lemma xor_at_lanes st j b : lanes st -> lanes (xor_at st j b).
Proof.
  intros H. unfold xor_at. split. { rewrite upd_length. apply H. }
  apply Forall_upd. { apply H. } apply lxor_ok. apply lanes_nth; auto. apply u64_ok.
Qed.

Lemma xor_list_lanes m : forall st off, lanes st -> lanes (xor_list st off m).
Proof. induction m; intros; cbn [xor_list]; auto using xor_at_lanes. Qed.

Lemma xor_list_app m1 : forall st off m2, xor_list st off (m1 ++ m2) = xor_list (xor_list st off m1) (off + length m1) m2.
Proof.
  induction m1 as [|b m1 IH]; intros st off m2; cbn [xor_list app length]. { rewrite Nat.add_0_r. auto. }
  rewrite IH. f_equal. lia.
Qed.

Lemma XORBytes_from n : forall i st data off, lanes st -> (i + n <= length data)%nat -> (off + i + n <= 200)%nat ->
  for_ n i (fun i state =>
    lane <- get state ((off + i) / 8) ;;
    d <- get data i ;;
    set state ((off + i) / 8) (Z.lxor lane (u64 (Z.shiftl d (8 * Z.of_nat ((off + i) mod 8)))))) st =
  Ok (xor_list st (off + i) (firstn n (skipn i data))).
Proof.
  induction n as [|n IH]; intros i st data off HL H1 H2. { reflexivity. }
  cbn [for_]. assert (D : ((off + i) / 8 < 25)%nat) by (apply Nat.div_lt_upper_bound; lia).
  rewrite (get_ok _ _ 0) by (destruct HL; lia). cbn [bind]. rewrite (get_ok _ _ 0) by lia. cbn [bind].
  rewrite set_ok by (destruct HL; lia). cbn [bind].
  assert (E : firstn (S n) (skipn i data) = nth i data 0 :: firstn n (skipn (S i) data)).
  { apply (list_ext 0). { cbn [length]. rewrite !firstn_length, !skipn_length. lia. }
    intros j Hj. rewrite firstn_length, skipn_length in Hj. rewrite nth_firstn, nth_skipn by lia. destruct j as [|j]. { cbn. f_equal. lia. }
    cbn [nth]. rewrite nth_firstn, nth_skipn by lia. f_equal. lia. }
  rewrite E. cbn [xor_list]. rewrite <- Nat.add_succ_r. apply IH; try lia. apply (xor_at_lanes st (off + i) (nth i data 0)). auto.
Qed.

Lemma XORBytes_ok st data off n : lanes st -> (n <= length data)%nat -> (off + n <= 200)%nat ->
  StateXORBytes st data off n = Ok (xor_list st off (firstn n data)).
Proof.
  intros HL H1 H2. unfold StateXORBytes. rewrite (XORBytes_from n 0 st data off) by (auto; lia). rewrite Nat.add_0_r. reflexivity.
Qed.

Lemma ExtractBytes_ok st data off n : lanes st -> (n <= length data)%nat -> (off + n <= 200)%nat ->
  StateExtractBytes st data off n = Ok (map (fun i => byte_at st (off + i)) (seq 0 n) ++ skipn n data).
Proof.
  intros HL H1 H2. unfold StateExtractBytes.
  assert (O : okp (for_ n 0 (fun i data => lane <- get st ((off + i) / 8) ;;
      set data i (u8 (Z.shiftr lane (8 * Z.of_nat ((off + i) mod 8))))) data)
    (fun d => d = map (fun i => byte_at st (off + i)) (seq 0 n) ++ skipn n data)).
  { apply (okp_for (fun i d => d = map (fun i => byte_at st (off + i)) (seq 0 i) ++ skipn i data)). { reflexivity. }
    intros i d [_ Hi] ->. cbn [Nat.add] in Hi.
    assert (D : ((off + i) / 8 < 25)%nat) by (apply Nat.div_lt_upper_bound; lia).
    rewrite (get_ok _ _ 0) by (destruct HL; lia). cbn [bind].
    rewrite set_ok by (rewrite app_length, map_length, seq_length, skipn_length; lia). apply okp_ok.
    apply (list_ext 0).
    - rewrite upd_length, !app_length, !map_length, !seq_length, !skipn_length. lia.
    - intros j Hj. rewrite upd_length, app_length, map_length, seq_length, skipn_length in Hj.
      rewrite nth_upd by (rewrite app_length, map_length, seq_length, skipn_length; lia). destruct (Nat.eqb_spec i j) as [<-|N].
      + rewrite app_nth1 by (rewrite map_length, seq_length; lia). rewrite nth_map_seq by lia. reflexivity.
      + destruct (Nat.lt_ge_cases j i).
        * rewrite !app_nth1 by (rewrite map_length, seq_length; lia). rewrite !nth_map_seq by lia. auto.
        * rewrite !app_nth2 by (rewrite map_length, seq_length; lia). rewrite !map_length, !seq_length, !nth_skipn. f_equal. lia. }
  destruct O as (d & E & ->). exact E.
Qed.

Lemma byte_at_byte st j : is_byte (byte_at st j).
Proof. apply is_byte_u8. Qed.

Lemma lanes_init : lanes (repeat 0 25).
Proof. split; [reflexivity|]. apply Forall_forall. intros x Hx. apply repeat_spec in Hx. subst. unfold lane_ok. change (2 ^ 64) with 18446744073709551616. lia. Qed.

Lemma sbit_init : same (sbit (repeat 0 25)) (fun _ => false).
Proof.
  intros i Hi. unfold sbit. replace (nth (i / 64) (repeat 0 25) 0) with 0. apply Z.bits_0.
  symmetry. destruct (nth_in_or_default (i / 64) (repeat 0 25) 0) as [H|H]; auto. apply repeat_spec in H. auto.
Qed.

(** *** Byte machines *)
Section R.
Variable r : nat.
Hypothesis R1 : (1 <= r)%nat.
Hypothesis R2 : (r <= 200)%nat.

Definition ctx_ok (c : incctx) : Prop := lanes (fst c) /\ (snd c < r)%nat.

Definition astep (c : incctx) (b : Z) : incctx :=
  let '(s, pos) := c in
  let s' := xor_at s pos b in
  if (S pos =? r)%nat then (perm s', 0%nat) else (s', S pos).

Lemma astep_ok c b : ctx_ok c -> ctx_ok (astep c b).
Proof.
  destruct c as [s pos]. intros [H1 H2]. cbn [fst snd] in *. unfold astep. pose proof (xor_at_lanes s pos b H1).
  destruct (Nat.eqb_spec (S pos) r); split; cbn [fst snd]; auto; try lia. apply StatePermute_ok. auto.
Qed.

Lemma astep_fold_ok m : forall c, ctx_ok c -> ctx_ok (fold_left astep m c).
Proof. induction m; intros c H; cbn [fold_left]; auto. apply IHm, astep_ok, H. Qed.

Lemma astep_short m : forall s pos, (pos + length m < r)%nat -> fold_left astep m (s, pos) = (xor_list s pos m, (pos + length m)%nat).
Proof.
  induction m as [|b m IH]; intros s pos H; cbn [fold_left length xor_list] in *. { f_equal. lia. }
  unfold astep at 2. destruct (Nat.eqb_spec (S pos) r); [lia|]. rewrite IH by lia. f_equal. lia.
Qed.

Lemma astep_full m s pos : (pos + length m = r)%nat -> (pos < r)%nat -> fold_left astep m (s, pos) = (perm (xor_list s pos m), 0%nat).
Proof.
  intros H1 H2. destruct (exists_last (l := m)) as (m' & b & ->). { intros ->. cbn in H1. lia. }
  rewrite app_length in H1. cbn [length] in H1. rewrite fold_left_app, astep_short by lia. cbn [fold_left].
  unfold astep. destruct (Nat.eqb_spec (S (pos + length m')) r); [|lia]. rewrite xor_list_app. reflexivity.
Qed.

Lemma inc_absorb_loop_ok fuel : forall s pos m, ctx_ok (s, pos) -> (length m < fuel)%nat ->
  okp (inc_absorb_loop r fuel s pos m) (fun '(s', pos', m') => ctx_ok (s', pos') /\ (pos' + length m' < r)%nat /\
     fold_left astep m (s, pos) = fold_left astep m' (s', pos')).
Proof.
  induction fuel as [|fuel IH]; intros s pos m HC HF. { lia. }
  cbn [inc_absorb_loop]. destruct HC as [C1 C2]. cbn [fst snd] in *. destruct (Nat.leb_spec r (length m + pos)) as [L|L].
  - rewrite XORBytes_ok by (auto; lia). cbn [bind].
    pose proof (xor_list_lanes (firstn (r - pos) m) s pos C1) as HX.
    destruct (StatePermute_ok _ HX) as (-> & HP & _). cbn [bind].
    eapply okp_mono; [apply (IH _ 0%nat (skipn (r - pos) m))|].
    + split; cbn [fst snd]; auto.
    + rewrite skipn_length. lia.
    + intros [[s' pos'] m'] (A & B & C). split; auto. split; auto. rewrite <- C.
      rewrite <- (firstn_skipn (r - pos) m) at 1. rewrite fold_left_app.
      rewrite astep_full; auto. rewrite firstn_length. lia.
  - apply okp_ok. split. { split; auto. } split; [lia|]. auto.
Qed.

Lemma inc_absorb_ok c m : ctx_ok c -> keccak_inc_absorb r c m = Ok (fold_left astep m c).
Proof.
  destruct c as [s pos]. intros HC. unfold keccak_inc_absorb.
  destruct (inc_absorb_loop_ok (length m + 1) s pos m HC) as ([[s' pos'] m'] & -> & HC' & HL & E). { lia. }
  cbn [bind]. destruct HC' as [A B]. cbn [fst snd] in *. rewrite XORBytes_ok by (auto; lia). cbn [bind].
  rewrite E, astep_short, firstn_all by lia. auto.
Qed.

Definition ffinal (p : Z) (c : incctx) : incctx :=
  let '(s, pos) := c in
  ((if (pos =? r - 1)%nat then xor_at s pos (Z.lor p 128) else xor_at (xor_at s pos p) (r - 1) 128), 0%nat).

Lemma ffinal_ok p c : ctx_ok c -> ctx_ok (ffinal p c).
Proof.
  destruct c as [s pos]. intros [A B]. cbn [fst snd] in *. unfold ffinal. split; cbn [fst snd]; [|lia].
  destruct (pos =? r - 1)%nat; auto using xor_at_lanes.
Qed.

Lemma inc_finalize_ok p c : ctx_ok c -> keccak_inc_finalize r c p = Ok (ffinal p c).
Proof.
  destruct c as [s pos]. intros [A B]. cbn [fst snd] in *. unfold keccak_inc_finalize, ffinal.
  destruct (pos =? r - 1)%nat.
  - rewrite XORBytes_ok by (cbn [length]; auto; lia). reflexivity.
  - rewrite XORBytes_ok by (cbn [length]; auto; lia). cbn [bind firstn xor_list].
    rewrite XORBytes_ok by (cbn [length]; auto using xor_at_lanes; lia). reflexivity.
Qed.

Definition sstep (c : incctx) : Z * incctx :=
  let '(s, pos) := c in
  if (pos =? 0)%nat then (byte_at (perm s) 0, (perm s, (r - 1)%nat)) else (byte_at s (r - pos), (s, (pos - 1)%nat)).
Fixpoint sq (n : nat) (c : incctx) : list Z * incctx :=
  match n with
  | O => ([], c)
  | S n' => let (b, c') := sstep c in let (l, c'') := sq n' c' in (b :: l, c'')
  end.

Lemma sstep_ok c : ctx_ok c -> ctx_ok (snd (sstep c)).
Proof.
  destruct c as [s pos]. intros [A B]. cbn [fst snd] in *. unfold sstep. destruct (Nat.eqb_spec pos 0); split; cbn [fst snd]; auto; try lia.
  apply StatePermute_ok; auto.
Qed.

Lemma sq_ok n : forall c, ctx_ok c -> ctx_ok (snd (sq n c)).
Proof.
  induction n as [|n IH]; intros c H; cbn [sq]; auto. pose proof (sstep_ok c H). destruct (sstep c) as [b c']. cbn [snd] in *.
  specialize (IH c' H0). destruct (sq n c'). auto.
Qed.

Lemma sq_length n : forall c, length (fst (sq n c)) = n.
Proof. induction n as [|n IH]; intros c; cbn [sq]; auto. destruct (sstep c) as [b c']. specialize (IH c'). destruct (sq n c'). cbn [fst length] in *. lia. Qed.

Lemma sq_bytes n : forall c, bytes (fst (sq n c)).
Proof.
  induction n as [|n IH]; intros c; cbn [sq]. { constructor. } specialize (IH (snd (sstep c))).
  assert (is_byte (fst (sstep c))). { destruct c as [s pos]. unfold sstep. destruct (pos =? 0)%nat; apply byte_at_byte. }
  destruct (sstep c) as [b c']. cbn [fst snd] in *. destruct (sq n c'). constructor; auto.
Qed.

Lemma sq_plus n : forall k c, sq (n + k) c = (fst (sq n c) ++ fst (sq k (snd (sq n c))), snd (sq k (snd (sq n c)))).
Proof.
  induction n as [|n IH]; intros k c; cbn [Nat.add sq]. { cbn [fst snd app]. apply surjective_pairing. }
  destruct (sstep c) as [b c']. rewrite IH. destruct (sq n c') as [l c'']. reflexivity.
Qed.

(** [n] bytes available in the current block *)
Lemma sq_short n : forall s pos, (n <= pos)%nat -> (pos <= r)%nat ->
  sq n (s, pos) = (map (fun i => byte_at s (r - pos + i)) (seq 0 n), (s, (pos - n)%nat)).
Proof.
  induction n as [|n IH]; intros s pos H1 H2. { cbn. rewrite Nat.sub_0_r. auto. }
  cbn [sq]. unfold sstep. destruct (Nat.eqb_spec pos 0); [lia|]. rewrite IH by lia. cbn [seq map]. f_equal. 2:{ f_equal. lia. }
  f_equal. { f_equal. lia. } rewrite <- seq_shift, map_map. apply map_ext. intros i. f_equal. lia.
Qed.

Lemma sq_block n s : (1 <= n <= r)%nat -> sq n (s, 0%nat) = (map (byte_at (perm s)) (seq 0 n), (perm s, (r - n)%nat)).
Proof.
  intros H. destruct n as [|n]; [lia|]. cbn [sq]. unfold sstep. cbn [Nat.eqb].
  rewrite sq_short by lia. cbn [seq map]. f_equal. 2:{ f_equal. lia. }
  f_equal. rewrite <- seq_shift, map_map. apply map_ext. intros i. f_equal. lia.
Qed.


Lemma extract_block st h off b len : lanes st -> (off + len <= length h)%nat -> (b + len <= 200)%nat ->
  (x <- rd h off len ;; x <- StateExtractBytes st x b len ;; wr h off x) =
  Ok (firstn off h ++ map (fun i => byte_at st (b + i)) (seq 0 len) ++ skipn (off + len) h).
Proof.
  intros HL H1 H2. rewrite rd_ok by auto. cbn [bind].
  assert (L : length (firstn len (skipn off h)) = len) by (rewrite firstn_length, skipn_length; lia).
  rewrite ExtractBytes_ok by (auto; lia). cbn [bind]. rewrite skipn_all2 by lia. rewrite app_nil_r.
  rewrite wr_ok by (rewrite map_length, seq_length; lia). rewrite map_length, seq_length. reflexivity.
Qed.

Lemma put_put (h a b : list Z) off : (off + length a <= length h)%nat ->
  firstn (off + length a) (firstn off h ++ a ++ skipn (off + length a) h) ++ b ++
    skipn (off + length a + length b) (firstn off h ++ a ++ skipn (off + length a) h) =
  firstn off h ++ (a ++ b) ++ skipn (off + (length a + length b)) h.
Proof.
  intros H. assert (L : length (firstn off h ++ a) = (off + length a)%nat) by (rewrite app_length, firstn_length; lia).
  rewrite (app_assoc _ a), firstn_app, L, Nat.sub_diag, <- L, firstn_all, L. cbn [firstn]. rewrite app_nil_r.
  rewrite skipn_app, L. rewrite skipn_all2 by lia. cbn [app]. 
  rewrite <- !app_assoc. do 3 f_equal.
  apply (list_ext 0). { rewrite !skipn_length. lia. } intros i _. rewrite !nth_skipn. f_equal. lia.
Qed.

Lemma inc_squeeze_loop_ok fuel : forall h off n s pos, lanes s -> (off + n <= length h)%nat -> (n <= fuel)%nat -> (n = 0 \/ pos = 0)%nat ->
  inc_squeeze_loop r fuel h off n s pos = Ok (firstn off h ++ fst (sq n (s, pos)) ++ skipn (off + n) h, snd (sq n (s, pos))).
Proof.
  induction fuel as [|fuel IH]; intros h off n s pos HL H1 H2 H3; cbn [inc_squeeze_loop].
  { destruct n; [|lia]. cbn [Nat.ltb Nat.leb sq fst snd app]. rewrite Nat.add_0_r, firstn_skipn. auto. }
  destruct (Nat.ltb_spec 0 n) as [L|L].
  2:{ assert (n = 0%nat) by lia. subst n. cbn [sq fst snd app]. rewrite Nat.add_0_r, firstn_skipn. auto. }
  assert (pos = 0%nat) by lia. subst pos. destruct (StatePermute_ok s HL) as (-> & HP & _). cbn [bind]. cbv zeta.
  set (len := if (n <? r)%nat then n else r).
  assert (Hlen : (1 <= len <= r)%nat /\ (len <= n)%nat /\ ((n - len = 0)%nat \/ (r - len = 0)%nat)).
  { unfold len. destruct (Nat.ltb_spec n r); lia. }
  destruct Hlen as (Hl1 & Hl2 & Hl3).
  pose proof (extract_block (perm s) h off 0 len HP ltac:(lia) ltac:(lia)) as EX.
  destruct (rd h off len) as [x| |]; cbn [bind] in *; try discriminate.
  destruct (StateExtractBytes (perm s) x 0 len) as [y| |]; cbn [bind] in *; try discriminate.
  rewrite EX. cbn [bind]. cbn [Nat.add] in *.
  set (a := map (fun i => byte_at (perm s) i) (seq 0 len)) in *.
  assert (La : length a = len) by (unfold a; rewrite map_length, seq_length; auto).
  rewrite IH; auto.
  - pose proof (sq_plus len (n - len) (s, 0%nat)) as P. rewrite (sq_block len s) in P by lia. cbn [fst snd] in P.
    replace (len + (n - len))%nat with n in P by lia. rewrite P. cbn [fst snd]. f_equal. f_equal.
    change (map (byte_at (perm s)) (seq 0 len)) with a.
    set (b := fst (sq (n - len) (perm s, (r - len)%nat))).
    assert (Lb : length b = (n - len)%nat) by apply sq_length.
    replace (off + n)%nat with (off + (length a + length b))%nat by lia. rewrite <- put_put by lia. rewrite La, Lb. reflexivity.
  - rewrite !app_length, firstn_length, skipn_length. lia.
  - lia.
Qed.

Lemma inc_squeeze_ok h n c : ctx_ok c -> (n <= length h)%nat ->
  keccak_inc_squeeze r h n c = Ok (fst (sq n c) ++ skipn n h, snd (sq n c)).
Proof.
  destruct c as [s pos]. intros [A B] HN. cbn [fst snd] in *. unfold keccak_inc_squeeze. cbv zeta.
  set (len := if (n <? pos)%nat then n else pos).
  assert (Hlen : (len <= pos)%nat /\ (len <= n)%nat /\ ((n - len = 0)%nat \/ (pos - len = 0)%nat)).
  { unfold len. destruct (Nat.ltb_spec n pos); lia. }
  destruct Hlen as (Hl1 & Hl2 & Hl3).
  pose proof (extract_block s h 0 (r - pos) len A ltac:(lia) ltac:(lia)) as EX.
  destruct (rd h 0 len) as [x| |]; cbn [bind] in *; try discriminate.
  destruct (StateExtractBytes s x (r - pos) len) as [y| |]; cbn [bind] in *; try discriminate.
  rewrite EX. cbn [bind firstn app Nat.add].
  set (a := map (fun i => byte_at s (r - pos + i)) (seq 0 len)) in *.
  assert (La : length a = len) by (unfold a; rewrite map_length, seq_length; auto).
  rewrite inc_squeeze_loop_ok; auto.
  - pose proof (sq_plus len (n - len) (s, pos)) as P. rewrite (sq_short len s pos) in P by lia. cbn [fst snd] in P.
    replace (len + (n - len))%nat with n in P by lia. rewrite P. cbn [fst snd]. f_equal. f_equal.
    change (map (fun i => byte_at s (r - pos + i)) (seq 0 len)) with a.
    set (b := fst (sq (n - len) (s, (pos - len)%nat))).
    assert (Lb : length b = (n - len)%nat) by apply sq_length.
    pose proof (put_put h a b 0 ltac:(lia)) as PP. cbn [firstn app Nat.add] in PP. rewrite La, Lb in PP.
    replace (len + (n - len))%nat with n in * by lia. exact PP.
  - rewrite app_length, skipn_length. lia.
  - lia.
Qed.

(** *** The non-incremental functions *)
Lemma absorb_loop_ok fuel : forall s m, lanes s -> (length m <= fuel)%nat ->
  okp (absorb_loop r fuel s m) (fun '(s', m') => lanes s' /\ (length m' < r)%nat /\
     fold_left astep m (s, 0%nat) = fold_left astep m' (s', 0%nat)).
Proof.
  induction fuel as [|fuel IH]; intros s m HC HF; cbn [absorb_loop]; destruct (Nat.leb_spec r (length m)) as [L|L]; try lia.
  1,3: apply okp_ok; auto.
  rewrite XORBytes_ok by (auto; lia). cbn [bind].
  pose proof (xor_list_lanes (firstn r m) s 0 HC) as HX.
  destruct (StatePermute_ok _ HX) as (-> & HP & _). cbn [bind].
  eapply okp_mono; [apply (IH _ (skipn r m))|]; auto.
  - rewrite skipn_length. lia.
  - intros [s' m'] (A & B & C). split; auto. split; auto. rewrite <- C.
    rewrite <- (firstn_skipn r m) at 1. rewrite fold_left_app.
    rewrite astep_full; auto; try lia. rewrite firstn_length. lia.
Qed.

Lemma keccak_absorb_ok s m p : lanes s -> keccak_absorb r s m p = Ok (fst (ffinal p (fold_left astep m (s, 0%nat)))).
Proof.
  intros HL. unfold keccak_absorb.
  destruct (absorb_loop_ok (length m) s m HL (le_n _)) as ([s' m'] & -> & A & B & ->). cbn [bind].
  rewrite astep_short by lia. cbn [ffinal fst Nat.add].
  assert (E : (if (0 <? length m')%nat then StateXORBytes s' m' 0 (length m') else Ok s') = Ok (xor_list s' 0 m')).
  { destruct m' as [|b m'']; [reflexivity|]. cbn [length Nat.ltb Nat.leb]. rewrite XORBytes_ok by (cbn [length] in *; auto; lia).
    rewrite firstn_all2 by (cbn [length]; lia). auto. }
  rewrite E. cbn [bind]. pose proof (xor_list_lanes m' s' 0 A) as HX.
  destruct (length m' =? r - 1)%nat.
  - rewrite XORBytes_ok by (cbn [length]; auto; lia). reflexivity.
  - rewrite XORBytes_ok by (cbn [length]; auto; lia). cbn [bind firstn xor_list].
    rewrite XORBytes_ok by (cbn [length]; auto using xor_at_lanes; lia). reflexivity.
Qed.

Lemma squeezeblocks_ok n : forall h off s, lanes s -> (off + n * r <= length h)%nat ->
  keccak_squeezeblocks r h off n s =
    Ok (firstn off h ++ fst (sq (n * r) (s, 0%nat)) ++ skipn (off + n * r) h, fst (snd (sq (n * r) (s, 0%nat)))) /\
  snd (snd (sq (n * r) (s, 0%nat))) = 0%nat.
Proof.
  induction n as [|n IH]; intros h off s HL H; cbn [keccak_squeezeblocks].
  { cbn [Nat.mul sq fst snd app]. rewrite Nat.add_0_r, firstn_skipn. auto. }
  destruct (StatePermute_ok s HL) as (-> & HP & _). cbn [bind].
  pose proof (extract_block (perm s) h off 0 r HP ltac:(lia) ltac:(lia)) as EX.
  destruct (rd h off r) as [x| |]; cbn [bind] in *; try discriminate.
  destruct (StateExtractBytes (perm s) x 0 r) as [y| |]; cbn [bind] in *; try discriminate.
  rewrite EX. cbn [bind Nat.add] in *.
  set (a := map (fun i => byte_at (perm s) i) (seq 0 r)) in *.
  assert (La : length a = r) by (unfold a; rewrite map_length, seq_length; auto).
  cbn [Nat.mul]. rewrite sq_plus, (sq_block r s) by lia. cbn [fst snd]. rewrite Nat.sub_diag.
  destruct (IH (firstn off h ++ a ++ skipn (off + r) h) (off + r)%nat (perm s) HP) as [E1 E2].
  { rewrite !app_length, firstn_length, skipn_length. lia. }
  rewrite E1. split; auto. f_equal. f_equal.
  change (map (byte_at (perm s)) (seq 0 r)) with a.
  set (b := fst (sq (n * r) (perm s, 0%nat))). assert (Lb : length b = (n * r)%nat) by apply sq_length.
  pose proof (put_put h a b off ltac:(lia)) as PP. rewrite La, Lb in PP. exact PP.
Qed.

Lemma sha3_inc_finalize_ok n output t c : ctx_ok c -> (n <= r)%nat -> length t = r -> (n <= length output)%nat ->
  sha3_inc_finalize r n output t c = Ok (fst (sq n (ffinal 6 c)) ++ skipn n output).
Proof.
  intros HC H1 H2 H3. unfold sha3_inc_finalize. rewrite inc_finalize_ok by auto.
  pose proof (ffinal_ok 6 c HC) as HF. destruct (ffinal 6 c) as [s pos] eqn:EF. cbn [bind].
  assert (pos = 0%nat) by (destruct c; unfold ffinal in EF; congruence). subst pos.
  destruct HF as [HF _]. cbn [fst] in HF.
  destruct (squeezeblocks_ok 1 t 0 s HF) as [E _]. { lia. }
  rewrite E. cbn [bind firstn app]. rewrite skipn_all2 by lia. rewrite app_nil_r. rewrite Nat.mul_1_l.
  set (T := fst (sq r (s, 0%nat))).
  assert (LT : length T = r) by apply sq_length.
  assert (ET : fst (sq n (s, 0%nat)) = firstn n T).
  { unfold T. replace r with (n + (r - n))%nat by lia. rewrite sq_plus. cbn [fst].
    rewrite firstn_app, sq_length, Nat.sub_diag. cbn [firstn]. rewrite app_nil_r.
    rewrite firstn_all2 by (rewrite sq_length; lia). auto. }
  rewrite ET. clearbody T.
  assert (O : okp (for_ n 0 (fun i output => x <- get T i ;; set output i x) output) (fun o => o = firstn n T ++ skipn n output)).
  { apply (okp_for (fun i o => o = firstn i T ++ skipn i output)). { reflexivity. }
    intros i o [_ Hi] ->. cbn [Nat.add] in Hi. rewrite (get_ok _ _ 0) by lia. cbn [bind].
    rewrite set_ok by (rewrite app_length, firstn_length, skipn_length; lia). apply okp_ok. apply (list_ext 0).
    - rewrite upd_length, !app_length, !firstn_length, !skipn_length. lia.
    - intros j Hj. rewrite upd_length, app_length, firstn_length, skipn_length in Hj.
      rewrite nth_upd by (rewrite app_length, firstn_length, skipn_length; lia).
      destruct (Nat.eqb_spec i j) as [<-|N].
      + rewrite app_nth1 by (rewrite firstn_length; lia). rewrite nth_firstn by lia. auto.
      + destruct (Nat.lt_ge_cases j i).
        * rewrite !app_nth1 by (rewrite firstn_length; lia). rewrite !nth_firstn by lia. auto.
        * rewrite !app_nth2 by (rewrite firstn_length; lia). rewrite !firstn_length, !nth_skipn. f_equal. lia. }
  destruct O as (o & -> & ->). auto.
Qed.

(** *** The sponge *)
Definition padbytes (p : Z) (k : nat) : list Z :=
  if (k =? r - 1)%nat then [Z.lor p 128] else p :: repeat 0 (r - k - 2) ++ [128].

Lemma padbytes_length p k : (k < r)%nat -> length (padbytes p k) = (r - k)%nat.
Proof.
  intros H. unfold padbytes. destruct (Nat.eqb_spec k (r - 1)); cbn [length]; [lia|].
  rewrite app_length, repeat_length. cbn [length]. lia.
Qed.

Lemma xor_at_0 st j : lanes st -> xor_at st j 0 = st.
Proof.
  intros HL. unfold xor_at. rewrite Z.shiftl_0_l. change (u64 0) with 0. rewrite Z.lxor_0_r.
  destruct (Nat.lt_ge_cases (j / 8) (length st)).
  - apply (list_ext 0). { apply upd_length. } intros i Hi. rewrite nth_upd by auto.
    destruct (Nat.eqb_spec (j / 8) i) as [->|]; auto.
  - generalize dependent (j / 8)%nat. generalize (nth 0 st 0). clear HL. intros _ k Hk. generalize (nth k st 0). revert k Hk.
    induction st as [|x st IH]; intros [|k] Hk z; cbn [length upd] in *; auto; try lia. f_equal. apply IH. lia.
Qed.

Lemma xor_zeros k : forall st off, lanes st -> xor_list st off (repeat 0 k) = st.
Proof. induction k as [|k IH]; intros st off HL; cbn [repeat xor_list]; auto. rewrite xor_at_0 by auto. auto. Qed.

Lemma ffinal_xor p s k : lanes s -> (k < r)%nat -> fst (ffinal p (s, k)) = xor_list s k (padbytes p k).
Proof.
  intros HL Hk. unfold ffinal, padbytes. cbn [fst]. destruct (Nat.eqb_spec k (r - 1)); [reflexivity|].
  cbn [xor_list]. rewrite xor_list_app, xor_zeros by auto using xor_at_lanes. cbn [xor_list]. rewrite repeat_length.
  f_equal. lia.
Qed.

Lemma final_block p s m : lanes s -> (length m < r)%nat ->
  fst (ffinal p (fold_left astep m (s, 0%nat))) = xor_list s 0 (m ++ padbytes p (length m)).
Proof.
  intros HL Hm. rewrite astep_short by lia. cbn [Nat.add]. rewrite ffinal_xor by auto using xor_list_lanes.
  rewrite xor_list_app. reflexivity.
Qed.

Definition mbit (m : list Z) (i : nat) : bool := Z.testbit (nth (i / 8) m 0) (Z.of_nat (i mod 8)).

Lemma byte_high b n : is_byte b -> 8 <= n -> Z.testbit b n = false.
Proof.
  intros Hb Hn. destruct (Z.eq_dec b 0) as [->|]. { apply Z.bits_0. } unfold is_byte in Hb.
  apply Z.bits_above_log2; [lia|]. apply Z.log2_lt_pow2; [lia|]. apply Z.lt_le_trans with (2 ^ 8); [lia|]. apply Z.pow_le_mono_r; lia.
Qed.

Lemma sbit_xor_at st j b i : lanes st -> is_byte b -> (j < 200)%nat -> (i < 1600)%nat ->
  sbit (xor_at st j b) i = xorb (sbit st i) (if (i / 8 =? j)%nat then Z.testbit b (Z.of_nat (i mod 8)) else false).
Proof.
  intros HL Hb Hj Hi. unfold sbit, xor_at. destruct HL as [HL _].
  assert (D : (j / 8 < 25)%nat) by (apply Nat.div_lt_upper_bound; lia). rewrite nth_upd by lia.
  pose proof (Nat.div_mod i 8 ltac:(lia)) as M1. pose proof (Nat.mod_upper_bound i 8 ltac:(lia)) as M2.
  pose proof (Nat.div_mod i 64 ltac:(lia)) as M3. pose proof (Nat.mod_upper_bound i 64 ltac:(lia)) as M4.
  pose proof (Nat.div_mod j 8 ltac:(lia)) as M5. pose proof (Nat.mod_upper_bound j 8 ltac:(lia)) as M6.
  destruct (Nat.eqb_spec (j / 8) (i / 64)) as [E|E].
  - rewrite Z.lxor_spec. unfold u64. change 18446744073709551616 with (2 ^ 64). rewrite Z.mod_pow2_bits_low by lia.
    rewrite Z.shiftl_spec by lia. rewrite E. f_equal. destruct (Nat.eqb_spec (i / 8) j) as [F|F].
    + f_equal. lia.
    + destruct (Nat.lt_ge_cases (i / 8) j).
      * apply Z.testbit_neg_r. lia.
      * apply byte_high; auto. lia.
  - destruct (Nat.eqb_spec (i / 8) j) as [F|F]. { exfalso. apply E. subst j. rewrite Nat.div_div by lia. reflexivity. }
    rewrite xorb_false_r. auto.
Qed.

Lemma mbit_cons b m k : mbit (b :: m) k = if (k <? 8)%nat then Z.testbit b (Z.of_nat k) else mbit m (k - 8).
Proof.
  unfold mbit. destruct (Nat.ltb_spec k 8).
  - rewrite Nat.div_small, Nat.mod_small by lia. auto.
  - replace k with ((k - 8) + 1 * 8)%nat at 1 2 by lia. rewrite Nat.div_add, Nat.mod_add by lia.
    rewrite Nat.add_1_r. auto.
Qed.

Lemma mbit_nil k : mbit [] k = false.
Proof. unfold mbit. destruct (k / 8)%nat; apply Z.bits_0. Qed.

Lemma sbit_xor_list m : forall st off i, lanes st -> bytes m -> (off + length m <= 200)%nat -> (i < 1600)%nat ->
  sbit (xor_list st off m) i = xorb (sbit st i) (if (8 * off <=? i)%nat then mbit m (i - 8 * off) else false).
Proof.
  induction m as [|b m IH]; intros st off i HL HB HO Hi; cbn [xor_list].
  { rewrite mbit_nil. destruct (8 * off <=? i)%nat; rewrite xorb_false_r; auto. }
  cbn [length] in HO. inversion HB; subst. rewrite IH by (auto using xor_at_lanes; lia).
  rewrite sbit_xor_at by (auto; lia). rewrite mbit_cons. rewrite xorb_assoc. f_equal.
  pose proof (Nat.div_mod i 8 ltac:(lia)) as M1. pose proof (Nat.mod_upper_bound i 8 ltac:(lia)) as M2.
  destruct (Nat.eqb_spec (i / 8) off) as [E|E]; destruct (Nat.leb_spec (8 * S off) i); destruct (Nat.leb_spec (8 * off) i);
    destruct (Nat.ltb_spec (i - 8 * off) 8); try lia; rewrite ?xorb_false_l, ?xorb_false_r; auto.
  - f_equal. lia.
  - f_equal. lia.
Qed.

Lemma bits_of_length m : length (bits_of m) = (8 * length m)%nat.
Proof. induction m as [|b m IH]; auto. cbn [bits_of flat_map]. rewrite app_length. fold (bits_of m). rewrite IH. cbn [byte_bits length seq map]. lia. Qed.

Lemma bits_of_nth m : forall i, nth i (bits_of m) false = mbit m i.
Proof.
  induction m as [|b m IH]; intros i. { rewrite mbit_nil. destruct i; auto. }
  rewrite mbit_cons. cbn [bits_of flat_map]. fold (bits_of m). destruct (Nat.ltb_spec i 8).
  - rewrite app_nth1 by (cbn [byte_bits length seq map]; lia). unfold byte_bits. rewrite nth_map_seq by lia. auto.
  - rewrite app_nth2 by (cbn [byte_bits length seq map]; lia). apply IH.
Qed.

Lemma bits_of_app a b : bits_of (a ++ b) = bits_of a ++ bits_of b.
Proof. apply flat_map_app. Qed.

Lemma absorb_same n rr : forall S S' P, same S S' -> same (absorb n rr S P) (absorb n rr S' P).
Proof.
  induction n as [|n IH]; intros S S' P H; cbn [absorb]; auto. apply IH. apply keccak_f_same.
  intros i Hi. rewrite H by auto. auto.
Qed.

Lemma same_trans A B C : same A B -> same B C -> same A C.
Proof. intros H1 H2 i Hi. rewrite H1 by auto. auto. Qed.

(** One block. *)
Lemma block_step s S B rest : lanes s -> bytes B -> length B = r -> same (sbit s) S ->
  same (sbit (perm (xor_list s 0 B)))
    (keccak_f (fun i => xorb (S i) (if (i <? 8 * r)%nat then nth i (bits_of (B ++ rest)) false else false))).
Proof.
  intros HL HB LB HS. eapply same_trans; [apply (proj2 (proj2 (StatePermute_ok _ (xor_list_lanes B s 0 HL))))|].
  apply keccak_f_same. intros i Hi. rewrite sbit_xor_list by (auto; lia). rewrite HS by auto. change (8 * 0)%nat with 0%nat. rewrite Nat.sub_0_r. change (0 <=? i)%nat with true.
  f_equal. destruct (Nat.ltb_spec i (8 * r)) as [L|L].
  - rewrite bits_of_app, app_nth1 by (rewrite bits_of_length; lia). symmetry. apply bits_of_nth.
  - unfold mbit. rewrite nth_overflow by (rewrite LB; apply Nat.div_le_lower_bound; lia). apply Z.bits_0.
Qed.

Lemma absorb_sponge p q : is_byte p -> forall M s S, lanes s -> bytes M -> same (sbit s) S -> (q * r <= length M < q * r + r)%nat ->
  same (sbit (perm (fst (ffinal p (fold_left astep M (s, 0%nat))))))
       (absorb (Datatypes.S q) (8 * r) S (bits_of (M ++ padbytes p (length M - q * r)))).
Proof.
  intros Hp. induction q as [|q IH]; intros M s S HL HB HS HM.
  - change (0 * r)%nat with 0%nat in *. rewrite Nat.sub_0_r. rewrite final_block by (auto; lia). cbn [absorb].
    pose proof (block_step s S (M ++ padbytes p (length M)) []) as BS. rewrite app_nil_r in BS. apply BS; auto; clear BS.
    + apply Forall_app. split; auto. unfold padbytes. destruct (length M =? r - 1)%nat.
      * constructor; [|constructor]. unfold is_byte in *. split. { apply Z.lor_nonneg. lia. }
        destruct (Z.eq_dec (Z.lor p 128) 0); [lia|]. change 256 with (2 ^ 8). apply Z.log2_lt_pow2. { pose proof (proj2 (Z.lor_nonneg p 128)). lia. }
        rewrite Z.log2_lor by lia. apply Z.max_lub_lt; [|reflexivity].
        destruct (Z.eq_dec p 0) as [->|]; [reflexivity|]. apply Z.log2_lt_pow2; lia.
      * constructor; auto. apply Forall_app. split; [apply Forall_forall; intros x Hx; apply repeat_spec in Hx; subst; unfold is_byte; lia|].
        constructor; [unfold is_byte; lia|constructor].
    + rewrite app_length, padbytes_length by lia. lia.
  - change (Datatypes.S q * r)%nat with (r + q * r)%nat in *. rewrite <- (firstn_skipn r M) at 1. rewrite fold_left_app.
    assert (LF : length (firstn r M) = r) by (rewrite firstn_length; lia).
    rewrite astep_full by lia.
    assert (EM : bits_of (M ++ padbytes p (length M - (r + q * r))) =
      bits_of (firstn r M ++ (skipn r M ++ padbytes p (length (skipn r M) - q * r)))).
    { rewrite app_assoc, firstn_skipn, skipn_length. do 3 f_equal. lia. }
    rewrite EM.
    change (absorb (Datatypes.S (Datatypes.S q)) (8 * r) S (bits_of (firstn r M ++ (skipn r M ++ padbytes p (length (skipn r M) - q * r))))) with
      (absorb (Datatypes.S q) (8 * r) (keccak_f (fun i => xorb (S i) (if (i <? 8 * r)%nat then nth i (bits_of (firstn r M ++ (skipn r M ++ padbytes p (length (skipn r M) - q * r)))) false else false)))
        (skipn (8 * r) (bits_of (firstn r M ++ (skipn r M ++ padbytes p (length (skipn r M) - q * r)))))).
    assert (ES : skipn (8 * r) (bits_of (firstn r M ++ (skipn r M ++ padbytes p (length (skipn r M) - q * r)))) =
      bits_of (skipn r M ++ padbytes p (length (skipn r M) - q * r))).
    { rewrite bits_of_app, skipn_app, skipn_all2 by (rewrite bits_of_length; lia). rewrite bits_of_length, LF, Nat.sub_diag. reflexivity. }
    rewrite ES. apply IH.
    + apply StatePermute_ok. apply xor_list_lanes. auto.
    + apply Forall_skipn. auto.
    + apply block_step; auto. apply Forall_firstn. auto.
    + rewrite skipn_length. lia.
Qed.

Lemma byte_at_bits st j : (j < 200)%nat -> byte_bits (byte_at st j) = map (sbit st) (seq (8 * j) 8).
Proof.
  intros Hj. apply (list_ext false). { unfold byte_bits. rewrite !map_length, !seq_length. auto. }
  intros k Hk. unfold byte_bits in *. rewrite map_length, seq_length in Hk. rewrite nth_map_seq by auto.
  rewrite nth_indep with (d' := sbit st 0) by (rewrite map_length, seq_length; auto). rewrite map_nth, seq_nth by auto.
  unfold byte_at, u8, sbit. change 256 with (2 ^ 8). rewrite Z.mod_pow2_bits_low, Z.shiftr_spec by lia.
  assert (E1 : ((8 * j + k) / 64 = j / 8)%nat).
  { change 64%nat with (8 * 8)%nat. rewrite <- Nat.div_div by lia. f_equal. replace (8 * j + k)%nat with (k + j * 8)%nat by lia.
    rewrite Nat.div_add, Nat.div_small by lia. lia. }
  rewrite E1. f_equal. pose proof (Nat.div_mod (8 * j + k) 64 ltac:(lia)). pose proof (Nat.div_mod j 8 ltac:(lia)). lia.
Qed.

Lemma bytes_bits st n : (n <= 200)%nat -> bits_of (map (byte_at st) (seq 0 n)) = map (sbit st) (seq 0 (8 * n)).
Proof.
  induction n as [|n IH]; intros H. { reflexivity. }
  rewrite seq_S, map_app, bits_of_app, IH by lia. replace (8 * S n)%nat with (8 * n + 8)%nat by lia.
  rewrite seq_app, map_app. f_equal. cbn [map bits_of flat_map Nat.add]. rewrite app_nil_r. apply byte_at_bits. lia.
Qed.

Lemma squeeze_same n rr : (rr <= 1600)%nat -> forall S S', same S S' -> squeeze n rr S = squeeze n rr S'.
Proof.
  intros Hr. induction n as [|n IH]; intros S S' H; cbn [squeeze]; [reflexivity|].
  rewrite (IH (keccak_f S) (keccak_f S') (keccak_f_same _ _ H)).
  rewrite (map_ext_in S S' (seq 0 rr)); [reflexivity|]. intros i Hi. apply in_seq in Hi. apply H. lia.
Qed.

Lemma squeeze_length n rr S : length (squeeze n rr S) = (n * rr)%nat.
Proof. revert S. induction n as [|n IH]; intros S; cbn [squeeze]; auto. rewrite app_length, map_length, seq_length, IH. lia. Qed.

Lemma sq_sponge N : forall n s, lanes s -> (n <= N * r)%nat ->
  bits_of (fst (sq n (s, 0%nat))) = firstn (8 * n) (squeeze N (8 * r) (sbit (perm s))).
Proof.
  induction N as [|N IH]; intros n s HL Hn.
  { assert (n = 0%nat) by lia. subst. reflexivity. }
  destruct (StatePermute_ok s HL) as (_ & HP & _). cbn [squeeze].
  assert (LM : length (map (sbit (perm s)) (seq 0 (8 * r))) = (8 * r)%nat) by (rewrite map_length, seq_length; auto).
  destruct (Nat.le_gt_cases n r) as [L|L].
  - rewrite firstn_app, LM. replace (8 * n - 8 * r)%nat with 0%nat by lia. cbn [firstn]. rewrite app_nil_r.
    destruct n as [|n]; [reflexivity|]. rewrite sq_block by lia. cbn [fst]. rewrite bytes_bits by lia.
    replace (8 * r)%nat with (8 * S n + (8 * r - 8 * S n))%nat by lia. rewrite seq_app, map_app, firstn_app.
    rewrite map_length, seq_length, Nat.sub_diag, app_nil_r. rewrite firstn_all2 by (rewrite map_length, seq_length; lia). auto.
  - replace n with (r + (n - r))%nat at 1 by lia. rewrite sq_plus, (sq_block r s) by lia. cbn [fst snd]. rewrite Nat.sub_diag.
    rewrite bits_of_app, bytes_bits, IH by (auto; nia). rewrite firstn_app, LM.
    rewrite (firstn_all2 (map (sbit (perm s)) (seq 0 (8 * r)))) by lia. f_equal. replace (8 * n - 8 * r)%nat with (8 * (n - r))%nat by lia. f_equal.
    apply squeeze_same; [lia|]. apply StatePermute_ok. auto.
Qed.

(** The padding bytes are the domain separation bits followed by pad10*1. *)
Lemma repeat_bits k : bits_of (repeat 0 k) = repeat false (8 * k).
Proof.
  induction k as [|k IH]; auto. replace (8 * S k)%nat with (8 + 8 * k)%nat by lia. rewrite repeat_app. cbn [repeat bits_of flat_map].
  fold (bits_of (repeat 0 k)). rewrite IH. reflexivity.
Qed.

Lemma pad_amount d m k q : (d + 2 <= 8)%nat -> (m = q * r + k)%nat -> (k < r)%nat ->
  pad (8 * r) (8 * m + d) = [true] ++ repeat false (8 * (r - k) - d - 2) ++ [true].
Proof.
  intros Hd Hm Hk. unfold pad. do 3 f_equal. 
  assert (E : (- Z.of_nat (8 * m + d) - 2) mod Z.of_nat (8 * r) = Z.of_nat (8 * (r - k) - d - 2)).
  { symmetry. apply Z.mod_unique_pos with (q := - Z.of_nat q - 1). lia. subst m. nia. }
  rewrite E. lia.
Qed.

Lemma padbytes_sha3 m k q : (m = q * r + k)%nat -> (k < r)%nat -> bits_of (padbytes 6 k) = [false; true] ++ pad (8 * r) (8 * m + 2).
Proof.
  intros Hm Hk. rewrite (pad_amount 2 m k q) by (auto; lia). unfold padbytes. destruct (Nat.eqb_spec k (r - 1)) as [E|E].
  - subst k. replace (8 * (r - (r - 1)) - 2 - 2)%nat with 4%nat by lia. reflexivity.
  - change (6 :: repeat 0 (r - k - 2) ++ [128]) with ([6] ++ repeat 0 (r - k - 2) ++ [128]). rewrite !bits_of_app, repeat_bits.
    replace (8 * (r - k) - 2 - 2)%nat with (5 + 8 * (r - k - 2) + 7)%nat by lia. rewrite !repeat_app. rewrite <- !app_assoc. reflexivity.
Qed.

Lemma padbytes_shake m k q : (m = q * r + k)%nat -> (k < r)%nat -> bits_of (padbytes 31 k) = [true; true; true; true] ++ pad (8 * r) (8 * m + 4).
Proof.
  intros Hm Hk. rewrite (pad_amount 4 m k q) by (auto; lia). unfold padbytes. destruct (Nat.eqb_spec k (r - 1)) as [E|E].
  - subst k. replace (8 * (r - (r - 1)) - 4 - 2)%nat with 2%nat by lia. reflexivity.
  - change (31 :: repeat 0 (r - k - 2) ++ [128]) with ([31] ++ repeat 0 (r - k - 2) ++ [128]). rewrite !bits_of_app, repeat_bits.
    replace (8 * (r - k) - 4 - 2)%nat with (3 + 8 * (r - k - 2) + 7)%nat by lia. rewrite !repeat_app. rewrite <- !app_assoc. reflexivity.
Qed.

Definition domain (p : Z) (suffix : list bool) : Prop := (p = 6 /\ suffix = [false; true]) \/ (p = 31 /\ suffix = [true; true; true; true]).

Theorem sq_is_sponge p suffix M n : domain p suffix -> bytes M ->
  bits_of (fst (sq n (ffinal p (fold_left astep M keccak_inc_init)))) = sponge (8 * r) (bits_of M ++ suffix) (8 * n).
Proof.
  intros HD HB. unfold keccak_inc_init. pose proof lanes_init as HI.
  assert (HF : ctx_ok (fold_left astep M (repeat 0 25, 0%nat))).
  { apply astep_fold_ok. split; [exact HI|]. cbn [snd]. lia. }
  pose proof (ffinal_ok p _ HF) as HC. remember (fold_left astep M (repeat 0 25, 0%nat)) as c eqn:Ec.
  assert (E0 : ffinal p c = (fst (ffinal p c), 0%nat)) by (destruct c; reflexivity).
  rewrite E0. destruct HC as [HC _].
  pose proof (Nat.div_mod (length M) r ltac:(lia)) as DM. pose proof (Nat.mod_upper_bound (length M) r ltac:(lia)) as MU.
  set (q := (length M / r)%nat) in *. set (k := (length M mod r)%nat) in *.
  assert (HM : length M = (q * r + k)%nat) by lia.
  assert (HP : is_byte p) by (destruct HD as [[-> _]|[-> _]]; unfold is_byte; lia).
  assert (EP : bits_of M ++ suffix ++ pad (8 * r) (length (bits_of M ++ suffix)) = bits_of (M ++ padbytes p k)).
  { rewrite bits_of_app, app_length, bits_of_length. f_equal. destruct HD as [[-> ->]|[-> ->]]; cbn [length]; symmetry.
    - apply (padbytes_sha3 _ _ q); auto. - apply (padbytes_shake _ _ q); auto. }
  unfold sponge. cbv zeta. rewrite <- app_assoc, EP.
  assert (EL : (length (bits_of (M ++ padbytes p k)) / (8 * r) = S q)%nat).
  { rewrite bits_of_length, app_length, padbytes_length by auto. rewrite HM.
    replace (8 * (q * r + k + (r - k)))%nat with (S q * (8 * r))%nat by lia. apply Nat.div_mul. lia. }
  rewrite EL. rewrite (sq_sponge (S (8 * n / (8 * r)))).
  - apply (f_equal (firstn (8 * n))). apply squeeze_same; [lia|]. subst c.
    pose proof (absorb_sponge p q HP M (repeat 0 25) (fun _ => false) HI HB sbit_init ltac:(lia)) as A.
    replace (length M - q * r)%nat with k in A by lia. exact A.
  - auto.
  - rewrite Nat.div_mul_cancel_l by lia. pose proof (Nat.div_mod n r ltac:(lia)). pose proof (Nat.mod_upper_bound n r ltac:(lia)). nia.
Qed.
End R.
