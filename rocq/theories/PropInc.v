(** C58: the incremental hash functions on 26 words, with the sizes of the C types. *)
From Verif Require Import Base BaseLemmas Agree Params Prim Keccak KeccakProofs Fips202 Fips202Proofs Fips202Inst IncCtx PropHash.

(** The array ctx[26] of a context. *)
Definition words26 (c : incctx) : list Z := fst c ++ [Z.of_nat (snd c)].

Lemma u32_nat n : Z.of_nat n < 4294967296 -> u32 (Z.of_nat n) = Z.of_nat n.
Proof. intros. unfold u32. apply Z.mod_small. lia. Qed.
Lemma u32_small z : 0 <= z < 4294967296 -> u32 z = z.
Proof. intros. unfold u32. apply Z.mod_small. lia. Qed.
Lemma u64_small z : 0 <= z < 18446744073709551616 -> u64 z = z.
Proof. intros. unfold u64. apply Z.mod_small. lia. Qed.

Lemma get_app1 (l l' : list Z) i : (i < length l)%nat -> get (l ++ l') i = get l i.
Proof. intros H. rewrite (get_ok (l ++ l') i 0), (get_ok l i 0) by (rewrite ?app_length; lia). rewrite app_nth1 by lia. reflexivity. Qed.
Lemma upd_app1 (l l' : list Z) : forall i v, (i < length l)%nat -> upd (l ++ l') i v = upd l i v ++ l'.
Proof. induction l as [|x l IH]; intros i v H; cbn [length] in H; [lia|]. destruct i; cbn; auto. rewrite IH by lia. reflexivity. Qed.
Lemma set_app1 (l l' : list Z) i v : (i < length l)%nat -> set (l ++ l') i v = Ok (upd l i v ++ l').
Proof. intros H. rewrite set_ok by (rewrite app_length; lia). rewrite upd_app1 by lia. reflexivity. Qed.

Lemma index26 off i : (off + i < 200)%nat -> let k := u32 (u32 (Z.of_nat off) + Z.of_nat i) in
  Z.to_nat (k / 8) = ((off + i) / 8)%nat /\ k mod 8 = Z.of_nat ((off + i) mod 8) /\ ((off + i) / 8 < 25)%nat.
Proof.
  intros H k. unfold k. rewrite (u32_nat off) by lia. rewrite u32_small by lia. rewrite <- Nat2Z.inj_add.
  split; [|split].
  - change 8 with (Z.of_nat 8). rewrite <- Nat2Z.inj_div. apply Nat2Z.id.
  - change 8 with (Z.of_nat 8). rewrite <- Nat2Z.inj_mod. reflexivity.
  - apply Nat.div_lt_upper_bound; lia.
Qed.

Lemma get_skipn (l : list Z) k i : get (skipn k l) i = get l (k + i).
Proof.
  destruct (Nat.lt_ge_cases (k + i) (length l)).
  - rewrite (get_ok l _ 0), (get_ok (skipn k l) i 0) by (rewrite ?skipn_length; lia). rewrite nth_skipn. reflexivity.
  - rewrite !get_ub by (rewrite ?skipn_length; lia). reflexivity.
Qed.

Lemma skipn_plus (l : list Z) : forall a b, skipn b (skipn a l) = skipn (a + b) l.
Proof. induction l as [|x l IH]; intros a b; [rewrite !skipn_nil; auto|]. destruct a; cbn [skipn Nat.add]; auto. Qed.

Lemma xor26 s x data doff off n : length s = 25%nat -> (off + n <= 200)%nat ->
  xor_bytes (s ++ [x]) data doff (Z.of_nat off) (Z.of_nat n) = (s' <- StateXORBytes s (skipn doff data) off n ;; Ok (s' ++ [x])).
Proof.
  intros HL HN. apply agree_map. unfold xor_bytes, StateXORBytes. rewrite (u32_nat n), Nat2Z.id by lia.
  eapply agree_mono.
  - apply (agree_for (fun _ a b => a = b ++ [x] /\ length b = 25%nat)). { auto. }
    intros i a b Hi [-> Hb]. cbv zeta. destruct (index26 off i ltac:(lia)) as (E1 & E2 & E3). rewrite E1, E2, get_app1 by lia.
    apply agree_bind_eq. intros lane _. rewrite get_skipn. apply agree_bind_eq. intros d _. rewrite set_app1, set_ok by lia. cbn [agree]. split; auto. rewrite upd_length. auto.
  - intros a b [-> _]. reflexivity.
Qed.

Lemma extract26 s x h hoff off n : length s = 25%nat -> (off + n <= 200)%nat -> (hoff + n <= length h)%nat ->
  extract_bytes (s ++ [x]) h hoff (Z.of_nat off) (Z.of_nat n) = (b <- rd h hoff n ;; b <- StateExtractBytes s b off n ;; wr h hoff b).
Proof.
  intros HL HN HH. rewrite rd_ok by lia. cbn [bind].
  unfold extract_bytes, StateExtractBytes. rewrite (u32_nat n), Nat2Z.id by lia.
  set (b0 := firstn n (skipn hoff h)). assert (Lb : length b0 = n) by (unfold b0; rewrite firstn_length, skipn_length; lia).
  transitivity (b <- for_ n 0 (fun i data => lane <- get s ((off + i) / 8) ;; set data i (u8 (Z.shiftr lane (8 * Z.of_nat ((off + i) mod 8))))) b0 ;; wr h hoff b); [|reflexivity].
  apply agree_map. eapply agree_mono.
  - apply (agree_for (fun _ a b => length b = n /\ a = firstn hoff h ++ b ++ skipn (hoff + n) h)).
    { split; auto. unfold b0. rewrite <- (firstn_skipn hoff h) at 1. f_equal. rewrite <- (firstn_skipn n (skipn hoff h)) at 1. f_equal. rewrite skipn_plus. reflexivity. }
    intros i a b Hi [Hb ->]. cbv zeta. destruct (index26 off i ltac:(lia)) as (E1 & E2 & E3). rewrite E1, E2, get_app1 by lia.
    apply agree_bind_eq. intros lane _. rewrite (set_ok b) by lia. rewrite set_ok by (rewrite !app_length, firstn_length; lia).
    cbn [agree]. split; [rewrite upd_length; auto|].
    set (v := u8 _). clearbody v. 
    assert (LF : length (firstn hoff h) = hoff) by (rewrite firstn_length; lia). 
    apply (list_ext 0). { rewrite !upd_length, !app_length, !upd_length. reflexivity. }
    intros j Hj. rewrite upd_length, !app_length in Hj. rewrite nth_upd by (rewrite !app_length; lia).
    destruct (Nat.lt_ge_cases j hoff).
    + destruct (Nat.eqb_spec (hoff + i) j); [lia|]. rewrite !app_nth1 by lia. reflexivity.
    + rewrite !(app_nth2 (firstn hoff h)) by lia. rewrite LF. destruct (Nat.lt_ge_cases (j - hoff) n).
      * rewrite !app_nth1 by (rewrite ?upd_length; lia). rewrite nth_upd by lia.
        destruct (Nat.eqb_spec (hoff + i) j), (Nat.eqb_spec i (j - hoff)); try lia; reflexivity.
      * destruct (Nat.eqb_spec (hoff + i) j); [lia|]. rewrite !app_nth2 by (rewrite ?upd_length; lia). rewrite upd_length. reflexivity.
  - intros a b [Hb ->]. rewrite wr_ok by lia. rewrite Hb. reflexivity.
Qed.

Lemma permute26_ok s x : lanes s -> permute26 (s ++ [x]) = Ok (perm s ++ [x]).
Proof.
  intros H. pose proof H as [HL _]. unfold permute26. rewrite firstn_app, <- HL, Nat.sub_diag, firstn_all, app_nil_r.
  rewrite skipn_app, skipn_all, Nat.sub_diag. destruct (StatePermute_ok s H) as (-> & _). reflexivity.
Qed.
Lemma counter (s : list Z) x : length s = 25%nat -> get (s ++ [x]) 25 = Ok x.
Proof. intros H. rewrite (get_ok _ _ 0) by (rewrite app_length; cbn; lia). rewrite app_nth2, H by lia. reflexivity. Qed.
Lemma set_counter (s : list Z) x y : length s = 25%nat -> set (s ++ [x]) 25 y = Ok (s ++ [y]).
Proof.
  intros H. rewrite set_ok by (rewrite app_length; cbn; lia). f_equal. rewrite <- H. clear H. induction s as [|a s IH]; cbn; auto. rewrite IH. reflexivity.
Qed.

Section R.
Variable r : nat.
Hypothesis R1 : (1 <= r)%nat.
Hypothesis R2 : (r <= 200)%nat.

Lemma absorb26_loop_ok m fuel : forall s pos moff n, ctx_ok r (s, pos) -> Z.of_nat n + Z.of_nat pos < 18446744073709551616 ->
  (moff + n <= length m)%nat -> (n < fuel)%nat ->
  okp (absorb26_loop r fuel (s ++ [Z.of_nat pos]) m moff (Z.of_nat n)) (fun '(w, moff', mlen') => exists s' pos' n',
    w = s' ++ [Z.of_nat pos'] /\ mlen' = Z.of_nat n' /\ ctx_ok r (s', pos') /\ (pos' + n' < r)%nat /\ (moff' + n' <= length m)%nat /\
    fold_left (astep r) (firstn n (skipn moff m)) (s, pos) = fold_left (astep r) (firstn n' (skipn moff' m)) (s', pos')).
Proof.
  induction fuel as [|fuel IH]; intros s pos moff n HC HB HM HF. { lia. }
  cbn [absorb26_loop]. destruct HC as [C1 C2]. cbn [fst snd] in *. pose proof C1 as [CL _].
  rewrite counter by auto. cbn [bind]. rewrite (u64_small (Z.of_nat n + Z.of_nat pos)) by lia.
  destruct (Z.leb_spec (Z.of_nat r) (Z.of_nat n + Z.of_nat pos)) as [L|L].
  - rewrite (u64_small (Z.of_nat r - Z.of_nat pos)) by lia. rewrite <- Nat2Z.inj_sub by lia.
    rewrite xor26 by (auto; lia). rewrite XORBytes_ok by (auto; rewrite ?skipn_length; lia). cbn [bind].
    pose proof (xor_list_lanes (firstn (r - pos) (skipn moff m)) s pos C1) as HX. pose proof HX as [HXL _].
    rewrite counter, set_counter by auto. cbn [bind]. rewrite permute26_ok by auto. cbn [bind]. cbv zeta.
    rewrite <- (Nat2Z.inj_sub r pos) by lia. rewrite (u64_small (Z.of_nat (r - pos))) by lia. rewrite Nat2Z.id, <- Nat2Z.inj_sub, u64_small by lia.
    destruct (StatePermute_ok _ HX) as (_ & HP & _). change 0 with (Z.of_nat 0).
    eapply okp_mono; [apply (IH _ 0%nat (moff + (r - pos))%nat (n - (r - pos))%nat)|]; try lia.
    + split; cbn [fst snd]; auto.
    + intros [[w moff'] mlen'] (s' & pos' & n' & A1 & A2 & A3 & A4 & A5 & A6). exists s', pos', n'. do 5 (split; [assumption|]). rewrite <- A6.
      replace n with ((r - pos) + (n - (r - pos)))%nat at 1 by lia. set (k := (r - pos)%nat). 
      assert (E : firstn (k + (n - k)) (skipn moff m) = firstn k (skipn moff m) ++ firstn (n - k) (skipn (moff + k) m)).
      { rewrite <- skipn_plus. rewrite <- (firstn_skipn k (skipn moff m)) at 1. rewrite firstn_app. rewrite firstn_length, skipn_length.
        rewrite Nat.min_l by (unfold k; lia). rewrite firstn_all2 by (rewrite firstn_length; lia). f_equal. f_equal. lia. }
      rewrite E, fold_left_app, astep_full; auto. rewrite firstn_length, skipn_length. unfold k. lia.
  - apply okp_ok. exists s, pos, n. do 2 (split; [reflexivity|]). split. { split; auto. } split; [lia|]. split; [lia|]. reflexivity.
Qed.

Lemma absorb26_ok c m n : ctx_ok r c -> Z.of_nat n + Z.of_nat (snd c) < 18446744073709551616 -> (n <= length m)%nat ->
  absorb26 r (words26 c) m (Z.of_nat n) = Ok (words26 (fold_left (astep r) (firstn n m) c)).
Proof.
  destruct c as [s pos]. intros HC HB HM. unfold absorb26, words26 at 1. cbn [fst snd] in *. rewrite Nat2Z.id.
  destruct (absorb26_loop_ok m (S n) s pos 0 n HC HB HM ltac:(lia)) as ([[w moff] mlen] & -> & s' & pos' & n' & -> & -> & [C1 C2] & A2 & A3 & E).
  cbn [bind fst snd skipn] in *. pose proof C1 as [CL _]. rewrite counter by auto. cbn [bind]. rewrite xor26 by (auto; lia).
  rewrite XORBytes_ok by (auto; rewrite ?skipn_length; lia). cbn [bind]. 
  pose proof (xor_list_lanes (firstn n' (skipn moff m)) s' pos' C1) as [HXL _]. rewrite counter by auto. cbn [bind].
  rewrite <- Nat2Z.inj_add, u64_small by lia. rewrite set_counter by auto. rewrite E.
  rewrite astep_short by (try assumption; rewrite firstn_length, skipn_length; lia). unfold words26. cbn [fst snd]. rewrite firstn_length, skipn_length, Nat.min_l by lia. reflexivity.
Qed.

Lemma finalize26_ok c p : ctx_ok r c -> finalize26 r (words26 c) p = Ok (words26 (ffinal r p c)).
Proof.
  destruct c as [s pos]. intros [A B]. cbn [fst snd] in *. pose proof A as [AL _]. unfold finalize26, words26, ffinal. cbn [fst snd]. rewrite counter by auto. cbn [bind].
  change 1 with (Z.of_nat 1). rewrite <- (Nat2Z.inj_sub r 1) by lia.
  assert (EB : (Z.of_nat pos =? Z.of_nat (r - 1)) = (pos =? r - 1)%nat). { destruct (Nat.eqb_spec pos (r - 1)), (Z.eqb_spec (Z.of_nat pos) (Z.of_nat (r - 1))); auto; lia. }
  rewrite EB. destruct (pos =? r - 1)%nat.
  - rewrite xor26 by (auto; lia). rewrite XORBytes_ok by (cbn [skipn length]; auto; lia). cbn [bind skipn firstn xor_list].
    pose proof (xor_at_lanes s pos (Z.lor p 128) A) as [HL _]. rewrite set_counter by auto. reflexivity.
  - rewrite xor26 by (auto; lia). rewrite XORBytes_ok by (cbn [skipn length]; auto; lia). cbn [bind skipn firstn xor_list].
    pose proof (xor_at_lanes s pos p A) as HL'. pose proof HL' as [HL _].
    rewrite xor26 by (auto; lia). rewrite XORBytes_ok by (cbn [skipn length]; auto; lia). cbn [bind skipn firstn xor_list].
    pose proof (xor_at_lanes _ (r - 1) 128 HL') as [HL2 _]. rewrite set_counter by auto. reflexivity.
Qed.

Lemma squeeze26_loop_agree fuel : forall h hoff n s pos, lanes s -> (hoff + n <= length h)%nat -> Z.of_nat n < 18446744073709551616 ->
  agree (fun a b => a = (fst b, words26 (snd b))) (squeeze26_loop r fuel h hoff (Z.of_nat n) (s ++ [Z.of_nat pos])) (inc_squeeze_loop r fuel h hoff n s pos).
Proof.
  induction fuel as [|fuel IH]; intros h hoff n s pos HS HH HB; cbn [squeeze26_loop inc_squeeze_loop].
  { destruct (Z.ltb_spec 0 (Z.of_nat n)), (Nat.ltb_spec 0 n); try lia; cbn; auto. }
  destruct (Z.ltb_spec 0 (Z.of_nat n)), (Nat.ltb_spec 0 n); try lia; [|cbn; auto].
  rewrite permute26_ok by auto. destruct (StatePermute_ok s HS) as (-> & HP & _). pose proof HP as [HPL _]. cbn [bind]. cbv zeta.
  assert (EL : (if Z.of_nat n <? Z.of_nat r then Z.of_nat n else Z.of_nat r) = Z.of_nat (if (n <? r)%nat then n else r)).
  { destruct (Nat.ltb_spec n r), (Z.ltb_spec (Z.of_nat n) (Z.of_nat r)); auto; lia. }
  rewrite EL. set (len := if (n <? r)%nat then n else r). assert (Hl : (len <= n)%nat /\ (len <= r)%nat) by (unfold len; destruct (Nat.ltb_spec n r); lia).
  change 0 with (Z.of_nat 0) at 1. rewrite extract26 by (auto; lia). rewrite !bind_assoc.
  apply agree_bind_eq. intros b Eb. rewrite bind_assoc. apply agree_bind_eq. intros b' Eb'. apply agree_bind_eq. intros h' Eh.
  rewrite set_counter by auto. cbn [bind]. rewrite Nat2Z.id. rewrite <- !Nat2Z.inj_sub, !u64_small by lia. apply IH; auto; [|lia].
  assert (length h' = length h); [|lia]. unfold wr in Eh. destruct (Nat.leb_spec (hoff + length b') (length h)); [|discriminate]. injection Eh as <-.
  rewrite !app_length, firstn_length, skipn_length. lia.
Qed.

Lemma squeeze26_eq h n c : ctx_ok r c -> (n <= length h)%nat -> Z.of_nat n < 18446744073709551616 ->
  squeeze26 r h (Z.of_nat n) (words26 c) = (' (h', c') <- keccak_inc_squeeze r h n c ;; Ok (h', words26 c')).
Proof.
  destruct c as [s pos]. intros [A B] HN HB. cbn [fst snd] in *. pose proof A as [AL _]. apply (agree_map (fun b => let '(h', c') := b in Ok (h', words26 c'))).
  apply (agree_mono (fun a b => a = (fst b, words26 (snd b)))); [|intros a [h' c'] ->; reflexivity].
  change (words26 (s, pos)) with (s ++ [Z.of_nat pos]). unfold squeeze26, keccak_inc_squeeze. rewrite counter by auto. cbn [bind]. cbv zeta.
  assert (EL : (if Z.of_nat n <? Z.of_nat pos then Z.of_nat n else Z.of_nat pos) = Z.of_nat (if (n <? pos)%nat then n else pos)).
  { destruct (Nat.ltb_spec n pos), (Z.ltb_spec (Z.of_nat n) (Z.of_nat pos)); auto; lia. }
  rewrite EL. set (len := if (n <? pos)%nat then n else pos). assert (Hl : (len <= n)%nat /\ (len <= pos)%nat) by (unfold len; destruct (Nat.ltb_spec n pos); lia).
  rewrite <- !Nat2Z.inj_sub, !u64_small by lia. rewrite extract26 by (auto; lia). rewrite !bind_assoc.
  apply agree_bind_eq. intros b Eb. rewrite bind_assoc. apply agree_bind_eq. intros b' Eb'. apply agree_bind_eq. intros h' Eh.
  rewrite set_counter by auto. cbn [bind]. rewrite !Nat2Z.id. apply squeeze26_loop_agree; auto; [|lia].
  assert (length h' = length h); [|lia]. unfold wr in Eh. destruct (Nat.leb_spec (0 + length b') (length h)); [|discriminate]. injection Eh as <-.
  rewrite ?app_length, ?firstn_length, ?skipn_length. cbn [length Nat.add] in *. lia.
Qed.

Lemma squeeze26_ok h n c : ctx_ok r c -> (n <= length h)%nat -> Z.of_nat n < 18446744073709551616 ->
  squeeze26 r h (Z.of_nat n) (words26 c) = Ok (fst (sq r n c) ++ skipn n h, words26 (snd (sq r n c))).
Proof. intros A B C. rewrite squeeze26_eq, inc_squeeze_ok by auto. reflexivity. Qed.

Lemma sha3_finalize26_ok n output t c : ctx_ok r c -> length t = r ->
  sha3_finalize26 r n output t (words26 c) = sha3_inc_finalize r n output t c.
Proof.
  intros HC HT. unfold sha3_finalize26, sha3_inc_finalize. rewrite finalize26_ok, inc_finalize_ok by auto. cbn [bind].
  pose proof (ffinal_ok r R1 R2 6 c HC) as HF. destruct (ffinal r 6 c) as [s pos]. destruct HF as [HF _]. cbn [fst] in HF. unfold words26. cbn [fst snd squeezeblocks26 keccak_squeezeblocks].
  rewrite permute26_ok by auto. destruct (StatePermute_ok s HF) as (-> & [HPL _] & _). cbn [bind]. change 0 with (Z.of_nat 0) at 1. rewrite extract26 by (auto; lia).
  rewrite !bind_assoc. destruct (rd t 0 r); auto. cbn [bind]. rewrite !bind_assoc. destruct (StateExtractBytes _ _ _ _); auto. cbn [bind]. rewrite !bind_assoc. destruct (wr t 0 a0); auto.
Qed.
End R.

Lemma for_two n (body : nat -> list Z -> res (list Z)) k : (forall i s, length s = k -> match body i s with Ok s' => length s' = k | UB => True | NoFuel => False end) ->
  forall start s, length s = k -> match for_ n start body s with Ok s' => length s' = k | UB => True | NoFuel => False end.
Proof.
  intros H. induction n as [|n IH]; intros start s Hs; cbn [for_]; auto. specialize (H start s Hs). destruct (body start s); cbn [bind]; [apply IH; auto|exact I|contradiction].
Qed.
Lemma xor_bytes_ub s data doff off len : length s = 26%nat -> (off < 200)%nat -> 1000 <= len < 4294967296 ->
  xor_bytes s data doff (Z.of_nat off) len = UB.
Proof.
  intros HS HO HL. unfold xor_bytes. rewrite (u32_small len) by lia.
  replace (Z.to_nat len) with ((208 - off) + (1 + (Z.to_nat len - (208 - off) - 1)))%nat by lia. rewrite for_plus.
  pose proof (for_two (208 - off) (fun i s =>
    let k := u32 (u32 (Z.of_nat off) + Z.of_nat i) in lane <- get s (Z.to_nat (k / 8)) ;; d <- get data (doff + i) ;;
    set s (Z.to_nat (k / 8)) (Z.lxor lane (u64 (Z.shiftl d (8 * (k mod 8)))))) 26) as F.
  match type of F with ?P -> _ => assert P as F0 end.
  { intros i t Ht. cbv zeta. unfold get. destruct (nth_error t _); cbn [bind]; auto. destruct (nth_error data _); cbn [bind]; auto.
    unfold set. destruct (Nat.ltb _ _); auto. rewrite upd_length. auto. }
  specialize (F F0 0%nat s HS). destruct (for_ (208 - off) 0 _ s) as [t| |]; cbn [bind]; auto; [|contradiction].
  cbn [for_ Nat.add]. cbv zeta. rewrite (u32_nat off) by lia. replace (Z.of_nat off + Z.of_nat (208 - off)) with 208 by lia.
  rewrite get_ub; [reflexivity|]. rewrite F. apply Nat.leb_le. reflexivity.
Qed.

(** *** C58 *)

(** The functions on 26 words do what those of Fips202.v do, as long as the length and the counter together stay below
    2^64; [m] may be longer than the part that is absorbed, [h] than the part that is written. *)
Theorem C58_absorb : forall r c m n, (1 <= r <= 200)%nat -> valid_ctx r c -> (n <= length m)%nat -> Z.of_nat n + Z.of_nat (snd c) < 2 ^ 64 ->
  absorb26 r (words26 c) m (Z.of_nat n) = (c' <- keccak_inc_absorb r c (firstn n m) ;; Ok (words26 c')).
Proof.
  intros r c m n [R1 R2] HC HN HB. rewrite (absorb26_ok r R1 R2), (inc_absorb_ok r R1 R2) by auto. reflexivity.
Qed.
Theorem C58_finalize : forall r c p, (1 <= r <= 200)%nat -> valid_ctx r c ->
  finalize26 r (words26 c) p = (c' <- keccak_inc_finalize r c p ;; Ok (words26 c')).
Proof. intros r c p [R1 R2] HC. rewrite (finalize26_ok r R1 R2), (inc_finalize_ok r R1 R2) by auto. reflexivity. Qed.
Theorem C58_squeeze : forall r c h n, (1 <= r <= 200)%nat -> valid_ctx r c -> (n <= length h)%nat -> Z.of_nat n < 2 ^ 64 ->
  squeeze26 r h (Z.of_nat n) (words26 c) = (' (h', c') <- keccak_inc_squeeze r h n c ;; Ok (h', words26 c')).
Proof. intros r c h n [R1 R2] HC HN HB. apply (squeeze26_eq r R1 R2); auto. Qed.
Theorem C58_digest : forall r c n output t, (1 <= r <= 200)%nat -> valid_ctx r c -> length t = r ->
  sha3_finalize26 r n output t (words26 c) = sha3_inc_finalize r n output t c.
Proof. intros r c n output t [R1 R2] HC HT. apply (sha3_finalize26_ok r R1 R2); auto. Qed.

(** When they do not, the sum in the condition of the loop wraps around and the state array is overrun. *)
Theorem C58_wrap_refuted : forall r c m len, (1 <= r <= 200)%nat -> valid_ctx r c -> 0 <= len < 2 ^ 64 -> 2 ^ 64 <= len + Z.of_nat (snd c) ->
  absorb26 r (words26 c) m len = UB.
Proof.
  intros r [s pos] m len Hr [[CL CF] HP] HB HW. cbn [fst snd] in *. change (2 ^ 64) with 18446744073709551616 in *. unfold absorb26, words26. cbn [fst snd absorb26_loop].
  rewrite counter by auto. cbn [bind].
  assert (EU : u64 (len + Z.of_nat pos) = len + Z.of_nat pos - 18446744073709551616).
  { unfold u64. symmetry. apply (Z.mod_unique _ _ 1); lia. }
  rewrite EU. destruct (Z.leb_spec (Z.of_nat r) (len + Z.of_nat pos - 18446744073709551616)); [lia|]. cbn [bind]. rewrite counter by auto. cbn [bind].
  assert (E32 : xor_bytes (s ++ [Z.of_nat pos]) m 0 (Z.of_nat pos) len = xor_bytes (s ++ [Z.of_nat pos]) m 0 (Z.of_nat pos) (len - 4294967295 * 4294967296)).
  { unfold xor_bytes. assert (E : u32 len = u32 (len - 4294967295 * 4294967296)); [|rewrite E; reflexivity]. unfold u32. apply (Z.mod_unique _ _ (len / 4294967296 - 4294967295)).
    - left. apply Z.mod_pos_bound. lia.
    - pose proof (Z.div_mod len 4294967296 ltac:(lia)). lia. }
  rewrite E32, xor_bytes_ub; auto; [rewrite app_length, CL; reflexivity|lia|lia].
Qed.

Lemma init26_ok s : length s = 26%nat -> init26 s = Ok (words26 keccak_inc_init).
Proof. intros H. do 26 (destruct s as [|? s]; [discriminate|]). destruct s; [|discriminate]. reflexivity. Qed.

(** initialize_csprng on any previous content of the state, for a seed of [n] bytes at the beginning of [seed]. *)
Theorem C58_initialize : forall r s seed n, (1 <= r <= 200)%nat -> length s = 26%nat -> (n <= length seed)%nat -> Z.of_nat n < 2 ^ 32 ->
  initialize_csprng26 r s seed (Z.of_nat n) =
    (c <- keccak_inc_absorb r keccak_inc_init (firstn n seed) ;; c <- keccak_inc_finalize r c 31 ;; Ok (words26 c)).
Proof.
  intros r s seed n [R1 R2] HS HN HB. unfold initialize_csprng26, xof_update. rewrite init26_ok by auto. cbn [bind]. rewrite u32_nat by exact HB.
  assert (HC : ctx_ok r keccak_inc_init). { split; [apply lanes_init|cbn; lia]. }
  rewrite (absorb26_ok r R1 R2), (inc_absorb_ok r R1 R2) by (auto; cbn [snd keccak_inc_init]; lia). cbn [bind].
  pose proof (astep_fold_ok r R1 R2 (firstn n seed) _ HC). rewrite (finalize26_ok r R1 R2), (inc_finalize_ok r R1 R2) by auto. reflexivity.
Qed.

(** A request of [xlen] bytes fills xlen mod 2^32 bytes: with 2^32 bytes or more, the rest of the buffer keeps its old
    content. *)
Theorem C58_request : forall r c x xlen, (1 <= r <= 200)%nat -> valid_ctx r c -> (Z.to_nat (xlen mod 2 ^ 32) <= length x)%nat ->
  exists d c', keccak_inc_squeeze r (repeat 0 (Z.to_nat (xlen mod 2 ^ 32))) (Z.to_nat (xlen mod 2 ^ 32)) c = Ok (d, c') /\
    length d = Z.to_nat (xlen mod 2 ^ 32) /\
    csprng_randombytes26 r (words26 c) x xlen = Ok (d ++ skipn (Z.to_nat (xlen mod 2 ^ 32)) x, words26 c').
Proof.
  intros r c x xlen [R1 R2] HC HX. pose proof (Z.mod_pos_bound xlen (2 ^ 32) ltac:(lia)) as MB. set (n := Z.to_nat (xlen mod 2 ^ 32)) in *.
  exists (fst (sq r n c)), (snd (sq r n c)). assert (EN : u32 xlen = Z.of_nat n) by (unfold n; rewrite Z2Nat.id by lia; reflexivity).
  split; [|split].
  - rewrite (inc_squeeze_ok r R1 R2) by (auto; rewrite repeat_length; auto). rewrite skipn_all2 by (rewrite repeat_length; auto). rewrite app_nil_r. reflexivity.
  - apply sq_length; auto.
  - unfold csprng_randombytes26, xof_extract. rewrite EN. apply (squeeze26_ok r R1 R2); auto. unfold n. lia.
Qed.
Theorem C58_request_refuted : forall r c x k, (1 <= r <= 200)%nat -> valid_ctx r c ->
  exists s, csprng_randombytes26 r (words26 c) x (k * 2 ^ 32) = Ok (x, s).
Proof.
  intros r c x k Hr HC. destruct (C58_request r c x (k * 2 ^ 32) Hr HC) as (d & c' & _ & E2 & E3); rewrite Z.mod_mul in * by lia; [cbn; lia|].
  destruct d; [|discriminate]. exists (words26 c'). exact E3.
Qed.

(** The primitives of the scheme (lessX) are these functions: the expansion of a seed, requests below 2^32 bytes, and
    hashes of parts of which each is shorter than 2^64 - 200 bytes; all on 26 words. *)
Theorem C58_less : forall p,
  (forall s seed, length s = 26%nat -> Z.of_nat (length seed) < 2 ^ 32 ->
     initialize_csprng26 (xof_rate p) s seed (Z.of_nat (length seed)) = Ok (words26 (proj1_sig (x_init (lessX p) seed)))) /\
  (forall s n x, length x = n -> Z.of_nat n < 2 ^ 32 ->
     csprng_randombytes26 (xof_rate p) (words26 (proj1_sig s)) x (Z.of_nat n) =
     Ok (fst (x_squeeze (lessX p) n s), words26 (proj1_sig (snd (x_squeeze (lessX p) n s))))) /\
  (forall s, length s = 26%nat -> init26 s = Ok (words26 (proj1_sig (h_init (lessX p))))) /\
  (forall s m, Z.of_nat (length m) < 2 ^ 64 - 200 ->
     absorb26 (hash_rate p) (words26 (proj1_sig s)) m (Z.of_nat (length m)) = Ok (words26 (proj1_sig (h_absorb (lessX p) s m)))) /\
  (forall s output t, length output = hash_len p -> length t = hash_rate p ->
     sha3_finalize26 (hash_rate p) (hash_len p) output t (words26 (proj1_sig s)) = Ok (h_final (lessX p) s)).
Proof.
  intros p. set (r := xof_rate p). set (g := hash_rate p). pose proof (rate_1 r). pose proof (rate_2 r). pose proof (rate_1 g). pose proof (rate_2 g).
  split; [|split; [|split; [|split]]].
  - intros s seed HS HB. rewrite C58_initialize by (auto; lia). rewrite firstn_all. 
    change (x_init (lessX p) seed) with (s_final r 31 (s_absorb r (s_init r) seed)). rewrite s_final_eq, s_absorb_eq.
    pose proof (init_ok r) as HI. rewrite inc_absorb_ok by auto. cbn [bind]. rewrite inc_finalize_ok by (auto; apply astep_fold_ok; auto). reflexivity.
  - intros s n x HX HB. change (csprng_randombytes26 r (words26 (proj1_sig s)) x (Z.of_nat n) = Ok (fst (s_squeeze r n s), words26 (proj1_sig (snd (s_squeeze r n s))))). destruct (s_squeeze_eq r n s) as [E1 E2]. rewrite E1, E2.
    unfold csprng_randombytes26, xof_extract. rewrite u32_nat by exact HB. rewrite squeeze26_ok by (auto; try exact (proj2_sig s); lia).
    rewrite skipn_all2 by lia. rewrite app_nil_r. reflexivity.
  - intros s HS. rewrite init26_ok by auto. reflexivity.
  - intros s m HB. change (h_absorb (lessX p) s m) with (s_absorb g s m). rewrite s_absorb_eq. pose proof (proj2_sig s) as HC. pose proof HC as [_ HP].
    rewrite absorb26_ok; auto; [rewrite firstn_all; reflexivity|]. lia.
  - intros s output t HO HT. rewrite C58_digest by (auto; try exact (proj2_sig s); lia). change (h_final (lessX p) s) with (s_digest g (hash_len p) s). pose proof (hash_fits p) as HF. fold g in HF.
    rewrite s_digest_eq by auto. rewrite sha3_inc_finalize_ok by (auto; try exact (proj2_sig s); lia). rewrite skipn_all2 by lia. rewrite app_nil_r. reflexivity.
Qed.

(** A context of 26 words in use: three bytes absorbed, and a request of 2^32 + 2 bytes that fills two. *)
Example C58_example :
  (exists c, valid_ctx 168 c /\ words26 c = [5 + 6 * 256 + 7 * 65536] ++ repeat 0 24 ++ [3]) /\
  (exists d s, csprng_randombytes26 168 (words26 keccak_inc_init) [1; 2; 3; 4] (2 ^ 32 + 2) = Ok (d ++ [3; 4], s) /\ length d = 2%nat) /\
  absorb26 168 (repeat 0 26) [5; 6; 7] 3 = Ok ([5 + 6 * 256 + 7 * 65536] ++ repeat 0 24 ++ [3]) /\
  absorb26 168 ([5 + 6 * 256 + 7 * 65536] ++ repeat 0 24 ++ [3]) [] (2 ^ 64 - 3) = UB.
Proof.
  assert (V : valid_ctx 168 ([5 + 6 * 256 + 7 * 65536] ++ repeat 0 24, 3%nat)).
  { split; [split; [reflexivity|]|cbn; lia]. apply Forall_forall. intros x Hx. cbn in Hx. intuition (subst; lia). }
  split; [eexists; split; [exact V|reflexivity]|]. split; [|split].
  - destruct (C58_request 168 keccak_inc_init [1; 2; 3; 4] (2 ^ 32 + 2)) as (d & c' & _ & E2 & E3).
    + split; apply Nat.leb_le; reflexivity.
    + split; [split; [reflexivity|]|cbn; lia]. apply Forall_forall. intros x Hx. apply repeat_spec in Hx. subst. lia.
    + apply Nat.leb_le. reflexivity.
    + exists d, (words26 c'). split; [exact E3|]. rewrite E2. reflexivity.
  - vm_compute. reflexivity.
  - apply (C58_wrap_refuted 168 ([5 + 6 * 256 + 7 * 65536] ++ repeat 0 24, 3%nat) [] (2 ^ 64 - 3)); [split; apply Nat.leb_le; reflexivity|exact V|lia|cbn [snd]; lia].
Qed.

Print Assumptions C58_absorb.
Print Assumptions C58_finalize.
Print Assumptions C58_squeeze.
Print Assumptions C58_digest.
Print Assumptions C58_wrap_refuted.
Print Assumptions C58_initialize.
Print Assumptions C58_request.
Print Assumptions C58_request_refuted.
Print Assumptions C58_less.
