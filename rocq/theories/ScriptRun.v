(** Complete runs of key generation, signing and verification with scripted primitives. *)
From Verif Require Import Base BaseLemmas Params ParamsProofs Fq FqProofs Prim Samplers Monomial Codes SeedTree Utils Less Sign Spec
  EnumProofs RrefProofs MonoProofs ActionProofs CodecProofs SamplerProofs SeedTreeProofs TreeFacts FuelProofs RoundProofs VerifyProofs
  SignerProofs AnyKeyProofs ApiProofs BadInputs.

(** The secret key written by LESS_keygen, and the random bytes it draws. *)
Lemma keygen_sk X p fuel junk rng sk0 pk0 sk pk rng' : lawful X (hash_len p) -> length sk0 = sizeof_sk p ->
  LESS_keygen X p fuel junk rng sk0 pk0 = Ok (sk, pk, rng') ->
  let (csk, rng1) := x_squeeze X (prikey_seed_len p) rng in
  let (g0, rng2) := x_squeeze X (seed_len p) rng1 in
  sk = csk ++ g0 /\ rng' = rng2.
Proof.
  intros LX HS E. unfold LESS_keygen in E.
  pose proof (law_sq_len _ _ LX (prikey_seed_len p) rng) as L1. destruct (x_squeeze X (prikey_seed_len p) rng) as [csk rng1].
  pose proof (law_sq_len _ _ LX (seed_len p) rng1) as L2. destruct (x_squeeze X (seed_len p) rng1) as [g0 rng2]. cbn [fst] in *.
  unfold sizeof_sk, off_sk_g0 in *.
  rewrite wr_ok in E by lia. cbn [bind] in E.
  rewrite wr_ok in E by (rewrite wr_length; lia). cbn [bind] in E.
  apply bind_ok in E. destruct E as (pk1 & _ & E). apply bind_ok in E. destruct E as (G0 & _ & E).
  apply bind_ok in E. destruct E as (fullG & _ & E). apply bind_ok in E. destruct E as (pk2 & _ & E).
  injection E as <- _ <-. split; auto. cbn [firstn app Nat.add]. rewrite <- L1.
  rewrite firstn_app, firstn_all, Nat.sub_diag. cbn [firstn]. rewrite app_nil_r. f_equal.
  rewrite skipn_all2. apply app_nil_r. rewrite app_length, skipn_length. lia.
Qed.

Lemma skipn_repeat n k : skipn n (repeat 0 k) = repeat 0 (k - n).
Proof. revert n. induction k; intros [|n]; cbn; auto. Qed.
Lemma firstn_repeat n k : (n <= k)%nat -> firstn n (repeat 0 k) = repeat 0 n.
Proof. revert n. induction k; intros [|n] H; cbn; auto; try lia. f_equal. apply IHk. lia. Qed.

Lemma slen_ge p : (16 <= seed_len p)%nat.
Proof. unfold seed_len. destruct (p_cat p); lia. Qed.

Section R.
Variable p : params.
Hypothesis wf : wf_params p.
Variable marks : list Z.
Hypothesis SO : script_ok p marks = true.
Notation X := (scriptX (hash_len p) (script p marks)).
Hypothesis ZM : zero_mono_ok p (script p marks) = true.
Hypothesis ZG : zero_gen_ok p (script p marks) = true.
Let LX : lawful X (hash_len p) := scriptX_lawful _ _.

Lemma init_zeros n : x_init X (repeat 0 n) = None.
Proof.
  destruct n. { apply init_nil. } rewrite <- (app_nil_r (repeat 0 (S n))). apply init_zero. lia.
Qed.

Lemma init_long s : (hash_len p < length s)%nat -> x_init X s = None.
Proof.
  intros H. cbn [scriptX x_init]. destruct (list_eq_dec Z.eq_dec s (repeat 5 (hash_len p))) as [E|]; auto.
  rewrite E, repeat_length in H. lia.
Qed.

Lemma seeds_zero n x : nth x (private_seeds X p n None) [] = repeat 0 (prikey_seed_len p) \/ nth x (private_seeds X p n None) [] = [].
Proof.
  revert x. induction n as [|n IH]; intros x. { destruct x; auto. }
  cbn [private_seeds]. change (x_squeeze X (prikey_seed_len p) None) with (repeat 0 (prikey_seed_len p), @None nat).
  destruct x as [|x]; auto. cbn [nth]. apply IH.
Qed.

Lemma script_keygen junk sk0 pk0 : length sk0 = sizeof_sk p -> length pk0 = sizeof_pk p -> bytes pk0 ->
  exists pk, LESS_keygen X p 400 junk None sk0 pk0 = Ok (repeat 0 (sizeof_sk p), pk, None) /\
    honest_key X p 400 (repeat 0 (sizeof_sk p)) pk.
Proof.
  intros H1 H2 H3.
  assert (G := LESS_keygen_gp X p wf LX False 400 junk None sk0 pk0).
  change (x_squeeze X (prikey_seed_len p) None) with (repeat 0 (prikey_seed_len p), @None nat) in G. cbv beta iota in G.
  rewrite init_zeros in G.
  change (fst (x_squeeze X (seed_len p) None)) with (repeat 0 (seed_len p)) in G.
  assert (C : gp False (LESS_keygen X p 400 junk None sk0 pk0) (fun '(sk', pk', _) => honest_key X p 400 sk' pk')).
  { apply G; auto. split.
    - intros r Hr E. apply (gen_no_stuck p wf (script p marks) r (repeat 0 (seed_len p)) ZG (init_zeros _) Hr E).
    - intros x r _ Hr E. refine (mono_no_stuck p wf (script p marks) r _ ZM _ Hr E).
      destruct (seeds_zero (p_nk p - 1) x) as [-> | ->]. apply init_zeros. apply init_nil. }
  clear G. destruct (LESS_keygen X p 400 junk None sk0 pk0) as [[[sk pk] rng']| |] eqn:E; cbn [gp] in C; try contradiction.
  apply (keygen_sk X p) in E; auto.
  change (x_squeeze X (prikey_seed_len p) None) with (repeat 0 (prikey_seed_len p), @None nat) in E. cbv beta iota in E.
  change (x_squeeze X (seed_len p) None) with (repeat 0 (seed_len p), @None nat) in E. cbv beta iota in E.
  destruct E as [-> ->]. rewrite <- repeat_app in *. change (prikey_seed_len p + seed_len p)%nat with (sizeof_sk p) in *.
  exists pk. auto.
Qed.

Lemma script_sign junk sm0 m : bytes sm0 -> bytes m ->
  (length m + sizeof_sign p <= length sm0)%nat -> Z.of_nat (length sm0) < 2 ^ 64 ->
  exists sm smlen sig num tree c fullG acts Vs fl rng',
    crypto_sign X p 400 junk None sm0 m (repeat 0 (sizeof_sk p)) = Ok (0, sm, smlen, rng') /\
    signed X p 400 (repeat 0 (sizeof_sk p)) m sig num tree c fullG acts Vs marks fl /\
    sm = m ++ sig ++ skipn (length m + sizeof_sign p) sm0 /\
    smlen = Z.of_nat (length m + off_seeds p + num * seed_len p + 1).
Proof.
  intros H1 H2 H3 H4.
  assert (G : gp False (crypto_sign X p 400 junk None sm0 m (repeat 0 (sizeof_sk p))) (fun '(ret, sm', smlen, _) =>
    ret = 0 /\ length sm' = length sm0 /\ bytes sm' /\
    exists sig num tree c fullG acts Vs fws fl,
      signed X p 400 (repeat 0 (sizeof_sk p)) m sig num tree c fullG acts Vs fws fl /\
      sm' = m ++ sig ++ skipn (length m + sizeof_sign p) sm0 /\
      smlen = Z.of_nat (length m + off_seeds p + num * seed_len p + 1))).
  { apply crypto_sign_gp; auto; [|apply repeat_length]. unfold sign_stuck.
    change (x_squeeze X (seed_len p) None) with (repeat 0 (seed_len p), @None nat). cbv beta iota.
    change (x_squeeze X (hash_len p) None) with (repeat 0 (hash_len p), @None nat). cbv beta iota.
    split; [|split].
    - intros r Hr E. refine (gen_no_stuck p wf (script p marks) r _ ZG _ Hr E). unfold sk_g0.
      rewrite skipn_repeat, firstn_repeat by (unfold sizeof_sk, off_sk_g0; lia). apply init_zeros.
    - intros tree t r _ _ Hr E. refine (mono_no_stuck p wf (script p marks) r _ ZM _ Hr E). apply init_long.
      rewrite !app_length, repeat_length. unfold round_bytes. cbn [le_bytes length]. lia.
    - intros tree c fullG h acts _ _ _. cbv zeta. split.
      + intros E. cbn [scriptX h_final] in E. rewrite (script_chal p marks SO) in E. discriminate.
      + intros fws t r _ _ _ Hr E. refine (mono_no_stuck p wf (script p marks) r _ ZM _ Hr E). unfold sk_seeds.
        rewrite firstn_repeat by (unfold sizeof_sk; lia). rewrite init_zeros.
        destruct (seeds_zero (p_nk p - 1) (Z.to_nat (nth t fws 0 - 1))) as [-> | ->]. apply init_zeros. apply init_nil. }
  destruct (crypto_sign X p 400 junk None sm0 m (repeat 0 (sizeof_sk p))) as [[[[ret sm] smlen] rng']| |] eqn:E; cbn [gp] in G; try contradiction.
  destruct G as (-> & _ & _ & sig & num & tree & c & fullG & acts & Vs & fws & fl & HS & E1 & E2).
  assert (fws = marks).
  { pose proof (sg_chal _ _ _ _ _ _ _ _ _ _ _ _ _ _ HS 400%nat (le_n _)) as C.
    rewrite (sg_digest _ _ _ _ _ _ _ _ _ _ _ _ _ _ HS) in C. cbn [scriptX h_final] in C. rewrite (script_chal p marks SO) in C. congruence. }
  subst fws. exists sm, smlen, sig, num, tree, c, fullG, acts, Vs, fl, rng'. auto.
Qed.

End R.

Lemma to_publish_01 l : Forall (fun x => x = 0 \/ x = 1) l -> to_publish l = l.
Proof.
  unfold to_publish. induction 1 as [|x l H _ IH]; auto. cbn [map]. rewrite IH. destruct H as [-> | ->]; reflexivity.
Qed.

(** The number of seeds in a signature whose challenge is the pattern of the table. *)
Lemma signed_table p n ind X fs sk m sig num tree c fullG acts Vs fl : In (p, n, ind) table ->
  signed X p fs sk m sig num tree c fullG acts Vs ind fl -> num = n.
Proof.
  intros HT HS. destruct (table_row p n ind HT) as (wf & T1 & T2 & T3 & T4 & T5).
  pose proof (sg_flags _ _ _ _ _ _ _ _ _ _ _ _ _ _ HS) as FL. rewrite to_publish_01 in FL by auto.
  rewrite (sg_num _ _ _ _ _ _ _ _ _ _ _ _ _ _ HS).
  destruct (compute_seeds_spec p wf ind T1) as (fl' & E & FL').
  unfold count_published in T4. rewrite E in T4. cbn in T4. injection T4 as <-.
  rewrite (flags_spec_det p ind T1 fl fl' FL FL'). auto.
Qed.

Lemma table_runs1 : forallb (fun r => script_ok (fst (fst r)) (snd r)) table = true.
Proof. vm_compute. reflexivity. Qed.
Lemma table_small : forallb (fun r => (pN (fst (fst r)) <=? 3600)%nat) table = true.
Proof. vm_compute. reflexivity. Qed.
Lemma table_runs4 : forallb (fun r => nth 0 (snd r) 0 =? 1) table = true.
Proof. vm_compute. reflexivity. Qed.

Lemma table_run p n ind : In (p, n, ind) table -> script_ok p ind = true /\ zero_mono_ok p (script p ind) = true /\
  zero_gen_ok p (script p ind) = true /\ nth 0 ind 0 = 1.
Proof.
  intros H. split; [|split; [|split]].
  - exact (proj1 (forallb_forall _ _) table_runs1 _ H).
  - apply zero_mono_holds. { apply (table_row p n ind H). } apply Nat.leb_le. exact (proj1 (forallb_forall _ _) table_small _ H).
  - apply zero_gen_holds. { apply (table_row p n ind H). } apply Nat.leb_le. exact (proj1 (forallb_forall _ _) table_small _ H).
  - apply Z.eqb_eq. exact (proj1 (forallb_forall _ _) table_runs4 _ H).
Qed.

(** *** The all-zero public key *)

Lemma verify_loop_zero X p fuel sig salt tree G0 fws (wf : wf_params p) (K2 : (2 <= pK p)%nat) : Forall (fun x => 0 <= x < Z.of_nat (p_nk p)) fws ->
  forall n i h V G act disc used, (exists t, (i <= t < i + n)%nat /\ nz fws t = true) -> (length fws = i + n)%nat ->
  pc (verify_loop X p fuel n i (repeat 0 (sizeof_pk p)) sig salt tree G0 fws h V G act disc used) (fun _ => False).
Proof.
  intros HF. induction n as [|n IH]; intros i h V G act disc used (t & Ht & Nz) HL; cbn [verify_loop]. { lia. }
  apply pc_any. intros x Ex. apply get_inv in Ex. destruct Ex as [Hi Ex]. specialize (Ex 0).
  destruct (Z.eqb_spec x 0) as [Zx|Zx].
  - apply pc_any. intros G1 _. apply pc_any. intros sd _. apply pc_any. intros Q _. apply pc_any. intros [V' d'] _.
    apply IH; [|lia]. exists t. split; auto. assert (t <> i); [|lia]. intros Et. unfold nz in Nz. rewrite Et, Ex, Zx in Nz. discriminate Nz.
  - apply pc_any. intros buf Eb. apply pc_any. intros G1 E1. exfalso.
    rewrite Forall_forall in HF. assert (HI : In x fws) by (rewrite <- Ex; apply nth_In; auto). specialize (HF x HI).
    assert (FIT : (off_sf p (Z.to_nat (x - 1)) + rref_bytes p <= sizeof_pk p)%nat).
    { unfold sizeof_pk, off_sf. assert (Z.to_nat (x - 1) + 1 <= p_nk p - 1)%nat by lia. nia. }
    rewrite rd_ok in Eb.
    + injection Eb as <-. rewrite skipn_repeat, firstn_repeat in E1.
      * rewrite (expand_zero p wf K2) in E1. discriminate.
      * lia.
    + rewrite repeat_length. lia.
Qed.

Lemma weight_pos l : (0 < weight l)%nat -> exists t, (t < length l)%nat /\ nz l t = true.
Proof.
  unfold weight. induction l as [|x l IH]; cbn; [lia|]. destruct (Z.eqb_spec x 0).
  - cbn. intros H. destruct (IH H) as (t & Ht & Nz). exists (S t). split; [lia|]. unfold nz in *. auto.
  - intros _. exists 0%nat. split; [lia|]. unfold nz. cbn. destruct (Z.eqb_spec x 0); auto.
Qed.

Lemma verify_zero_key X p fuel junk m sig r : wf_params p -> (2 <= pK p)%nat ->
  LESS_verify X p fuel junk (repeat 0 (sizeof_pk p)) m sig <> Ok r.
Proof.
  intros wf K2 E. unfold LESS_verify in E.
  apply bind_ok in E. destruct E as (dg & _ & E). apply bind_ok in E. destruct E as (fws & Ef & E).
  pose proof (expand_digest_spec X p wf fuel dg) as C. rewrite Ef in C. destruct C as (C1 & C2 & C3).
  apply bind_ok in E. destruct E as (salt & _ & E). apply bind_ok in E. destruct E as ([t0 tree] & _ & E).
  apply bind_ok in E. destruct E as (g0 & _ & E). apply bind_ok in E. destruct E as (G0 & _ & E).
  apply bind_ok in E. destruct E as (h & Eh & E).
  refine (verify_loop_zero X p fuel sig salt tree G0 fws wf K2 C3 _ _ _ _ _ _ _ _ _ _ _ Eh); [|lia].
  pose proof (wf_W p wf). destruct (weight_pos fws) as (t & Ht & Nz). { lia. } exists t. split; auto. lia.
Qed.

Lemma verify_zero_key_run p n ind junk m : In (p, n, ind) table ->
  LESS_verify (scriptX (hash_len p) (script p ind)) p 400 junk (repeat 0 (sizeof_pk p)) m (repeat 5 (sizeof_sign p)) = UB.
Proof.
  intros HT. destruct (table_row p n ind HT) as (wf & T1 & T2 & T3 & T4 & T5).
  destruct (table_run p n ind HT) as (R1 & R2 & R3 & R4).
  set (X := scriptX (hash_len p) (script p ind)). pose proof (scriptX_lawful (hash_len p) (script p ind)) as LX. fold X in LX.
  assert (K2 : (2 <= pK p)%nat).
  { assert (Q : forallb (fun p => (2 <=? pK p)%nat) less_params = true) by (vm_compute; reflexivity).
    rewrite forallb_forall in Q. apply Nat.leb_le. apply Q. rewrite <- table_params. apply in_map_iff. exists (p, n, ind). auto. }
  assert (SS : sizeof_sign p = (off_seeds p + (Z.to_nat (p_maxbytes p) + 1))%nat) by reflexivity.
  assert (OS : off_seeds p = (off_digest p + hash_len p)%nat) by (unfold off_seeds, off_digest; lia).
  assert (R5 : forall a k, (a <= k)%nat -> firstn a (repeat 5 k) = repeat 5 a).
  { induction a; intros [|k] H; cbn; auto; try lia. f_equal. apply IHa. lia. }
  assert (R6 : forall a k, skipn a (repeat 5 k) = repeat 5 (k - a)).
  { induction a; intros [|k]; cbn; auto. }
  unfold LESS_verify. rewrite rd_ok by (rewrite repeat_length; lia). cbn [bind]. rewrite R6, R5 by lia.
  pose proof (script_chal p ind R1) as SC. fold X in SC. rewrite SC. cbn [bind]. rewrite rd_ok by (rewrite repeat_length; lia). cbn [bind skipn].
  rewrite to_publish_01 by auto. pose proof (wf_W p wf).
  destruct (rebuild_gen X p wf ind T1 T2 (repeat (repeat 0 (seed_len p)) (num_nodes p)) (skipn (off_seeds p) (repeat 5 (sizeof_sign p)))
    (firstn (hash_len p) (repeat 5 (sizeof_sign p))) LX (zero_mat_shape _ _)) as (fl & FS & _ & ([u t] & E & _)).
  { lia. }
  { apply (room_ok p wf ind T1 T2); [lia|]. left. split; auto. rewrite skipn_length, repeat_length. lia. }
  rewrite E. cbn [bind]. clear E.
  assert (SP : (seed_len p + rref_bytes p <= sizeof_pk p)%nat) by (unfold sizeof_pk; pose proof (wf_nk p wf); nia).
  rewrite rd_ok by (rewrite repeat_length; lia). cbn [bind skipn].
  rewrite firstn_repeat by lia.
  pose proof (generator_sampled X p wf 400 (junk_rref p junk 0) (repeat 0 (seed_len p)) (junk_rref_mem _ _ _)) as W.
  pose proof (gen_no_stuck p wf (script p ind) (junk_rref p junk 0) (repeat 0 (seed_len p)) R3 (init_zeros p ind _) (junk_rref_mem _ _ _)) as NF.
  fold X in NF.
  destruct (generator_SF_seed_expand X p 400 (junk_rref p junk 0) (repeat 0 (seed_len p))) as [c| |]; cbn [wp] in W; try contradiction; try congruence.
  cbn [bind]. destruct (pT p) as [|T] eqn:ET; [lia|]. cbn [verify_loop].
  rewrite (get_ok _ _ 0) by lia. cbn [bind]. rewrite R4. cbn [Z.eqb].
  change (Z.to_nat (1 - 1)) with 0%nat. pose proof (wf_nk p wf).
  assert (OF : off_sf p 0 = seed_len p) by (unfold off_sf; lia).
  rewrite rd_ok by (rewrite repeat_length, OF; lia). cbn [bind].
  rewrite skipn_repeat, firstn_repeat by (rewrite OF; lia).
  rewrite (expand_zero p wf K2). reflexivity.
Qed.

(** *** Fewer seeds than the challenge needs *)
Lemma rebuild_used X p tree ind stored salt : pc (rebuild_seed_tree_leaves X p tree ind stored salt) (fun '(used, _) => (used * seed_len p <= length stored)%nat).
Proof.
  unfold rebuild_seed_tree_leaves. apply pc_any. intros fl _.
  apply (pc_for (fun _ '(used, _) => (used * seed_len p <= length stored)%nat)). { cbn. lia. }
  intros i [used t] _ H. apply pc_any. intros f _. destruct (f =? 0); [|apply pc_ok; auto].
  apply pc_any. intros pf _. eapply pc_bind with (Q := fun '(used', _) => (used' * seed_len p <= length stored)%nat).
  - destruct (pf =? 1); [|apply pc_ok; auto]. apply pc_any. intros sd Es. apply pc_any. intros t' _. apply pc_ok.
    unfold rd in Es. destruct (Nat.leb_spec (seed_len p * used + seed_len p) (length stored)); [|discriminate]. lia.
  - intros [u' t'] H'. destruct (i <? num_leaves p - 1)%nat; [|apply pc_ok; auto]. apply pc_any. intros t'' _. apply pc_ok. auto.
Qed.

Lemma weight_zero l : (weight l < length l)%nat -> exists t, (t < length l)%nat /\ nth t l 0 = 0.
Proof.
  unfold weight. induction l as [|x l IH]; cbn [filter length]; [lia|]. destruct (Z.eqb_spec x 0); cbn [negb].
  - intros _. exists 0%nat. split; [lia|auto].
  - cbn [length]. intros H. destruct IH as (t & T1 & T2); [lia|]. exists (S t). split; [lia|auto].
Qed.

Lemma few_seeds X p fuel junk pk m sig r : wf_params p -> lawful X (hash_len p) -> (pW p < pT p)%nat ->
  (length sig <= off_seeds p + 1)%nat -> LESS_verify X p fuel junk pk m sig <> Ok r.
Proof.
  intros wf LX WT HL E. unfold LESS_verify in E.
  apply bind_ok in E. destruct E as (dg & Ed & E). apply bind_ok in E. destruct E as (fws & Ef & E).
  pose proof (expand_digest_spec X p wf fuel dg) as C. rewrite Ef in C. cbn [wp] in C.
  apply bind_ok in E. destruct E as (salt & _ & E). apply bind_ok in E. destruct E as ([used tree] & Er & E). clear E.
  pose proof (rebuild_used _ _ _ _ _ _ _ Er) as U. cbv beta iota in U. rewrite skipn_length in U.
  pose proof (slen_ge p). assert (U0 : used = 0%nat) by (destruct used; auto; nia). subst used.
  destruct (to_publish_ok p fws C) as (P1 & P2 & P3). pose proof (wf_W p wf).
  set (big := repeat 0 (num_leaves p * seed_len p + 1)).
  assert (RM : room p (to_publish fws) big) by (right; unfold big; rewrite repeat_length; lia).
  destruct (rebuild_gen X p wf (to_publish fws) P1 P2 (repeat (repeat 0 (seed_len p)) (num_nodes p)) big salt LX (zero_mat_shape _ _)) as (fl & FS & _ & ([u t] & E & Eu & _)).
  { lia. }
  { apply (room_ok p wf (to_publish fws) P1 P2); [lia|auto]. }
  destruct (rebuild_local X p (repeat (repeat 0 (seed_len p)) (num_nodes p)) (to_publish fws) (skipn (off_seeds p) sig) big salt 0) with (a := (0%nat, tree)) as (b & Eb & <-).
  { rewrite skipn_length. lia. } { lia. } { reflexivity. } { exact Er. }
  rewrite E in Eb. injection Eb as -> _.
  destruct (path_cover p wf (to_publish fws) P1 P2 (repeat (repeat 0 (seed_len p)) (num_nodes p)) big (zero_mat_shape _ _)) as (nodes & EP & _ & _ & CV & _).
  { lia. } { exact RM. }
  destruct (seed_tree_path_gen p wf (to_publish fws) P1 P2 (repeat (repeat 0 (seed_len p)) (num_nodes p)) big (zero_mat_shape _ _)) as (fl' & FS' & _ & EP').
  { lia. } { apply (room_ok p wf (to_publish fws) P1 P2); [lia|auto]. }
  rewrite EP in EP'. injection EP' as EN _. rewrite (flags_spec_det p _ P1 fl fl' FS FS') in Eu.
  assert (ZL : exists t, (t < pT p)%nat /\ nth t (to_publish fws) 0 = 0).
  { rewrite <- P1. apply weight_zero. lia. }
  destruct ZL as (t1 & T1 & T2). pose proof (T_lt_L p wf).
  destruct (CV t1) as (i & Hi & _); [lia|auto|]. destruct nodes; [destruct Hi|cbn [length] in EN; lia].
Qed.
