(** Property C63: the message and the signed message in one buffer. *)
From Verif Require Import Base BaseLemmas Params ParamsProofs Prim Samplers Monomial Codes Utils SeedTree Less Sign Alias Spec LayoutProofs
  RoundProofs VerifyProofs SignerProofs ApiProofs PropScheme PropApi Toy.

(** The buffer [b] with the bytes [d] at position [o]. *)
Definition put (b : list Z) (o : nat) (d : list Z) : list Z := firstn o b ++ d ++ skipn (o + length d) b.
(** Two parts of a buffer have no byte in common. *)
Definition apart (o n o' n' : nat) : Prop := forall k, ~ ((o <= k < o + n)%nat /\ (o' <= k < o' + n')%nat).

(** Two computations agree unless the second has undefined behaviour. *)
Definition follows {A B} (R : A -> B -> Prop) (m : res A) (m' : res B) : Prop :=
  match m' with Ok b => exists a, m = Ok a /\ R a b | NoFuel => m = NoFuel | UB => True end.
Lemma follows_bind {A B C D} (R : A -> B -> Prop) (Q : C -> D -> Prop) m m' f f' :
  follows R m m' -> (forall a b, R a b -> follows Q (f a) (f' b)) -> follows Q (bind m f) (bind m' f').
Proof. intros H1 H2. destruct m'; cbn in *; auto. { destruct H1 as (a0 & -> & HR). cbn. auto. } rewrite H1. reflexivity. Qed.
Lemma follows_same {A C D} (Q : C -> D -> Prop) (m : res A) f f' : (forall a, m = Ok a -> follows Q (f a) (f' a)) -> follows Q (bind m f) (bind m f').
Proof. intros H. destruct m; cbn; auto. Qed.
Lemma follows_for {A B} (R : A -> B -> Prop) n start f f' : forall a b, R a b -> (forall i a b, R a b -> follows R (f i a) (f' i b)) ->
  follows R (for_ n start f a) (for_ n start f' b).
Proof.
  revert start. induction n as [|n IH]; intros start a b H0 HS; cbn [for_]. { cbn. eauto. }
  eapply follows_bind; [apply HS; exact H0|]. intros a' b' H'. apply IH; auto.
Qed.

Lemma put_length b o d : (o + length d <= length b)%nat -> length (put b o d) = length b.
Proof. apply wr_length. Qed.
Lemma nth_put b o d k : (o + length d <= length b)%nat ->
  nth k (put b o d) 0 = if (k <? o)%nat then nth k b 0 else if (k <? o + length d)%nat then nth (k - o) d 0 else nth k b 0.
Proof. apply nth_wr. Qed.
Lemma cut_length b o n : (o + n <= length b)%nat -> length (slice b o n) = n.
Proof. intros H. unfold slice. rewrite firstn_length, skipn_length. lia. Qed.
Lemma nth_cut b o n k : (k < n)%nat -> nth k (slice b o n) 0 = nth (o + k) b 0.
Proof. intros H. unfold slice. rewrite nth_firstn, nth_skipn by auto. reflexivity. Qed.
Lemma wr_put b o d : (o + length d <= length b)%nat -> wr b o d = Ok (put b o d).
Proof. apply wr_ok. Qed.
Lemma rd_cut b o n : (o + n <= length b)%nat -> rd b o n = Ok (slice b o n).
Proof. apply rd_ok. Qed.
Lemma put_cut b o n : (o + n <= length b)%nat -> put b o (slice b o n) = b.
Proof.
  intros H. apply nth_ext with (d := 0) (d' := 0). { rewrite put_length; auto. rewrite cut_length; auto. }
  intros k _. rewrite nth_put, cut_length by (rewrite ?cut_length; auto).
  destruct (Nat.ltb_spec k o), (Nat.ltb_spec k (o + n)); auto. rewrite nth_cut by lia. f_equal. lia.
Qed.
Lemma put_put b o d d' : (o + length d <= length b)%nat -> length d = length d' -> put (put b o d) o d' = put b o d'.
Proof.
  intros H E. apply nth_ext with (d := 0) (d' := 0). { rewrite !put_length; rewrite ?put_length; auto; lia. }
  intros k _. rewrite (nth_put (put b o d)), !nth_put by (rewrite ?put_length; auto; lia).
  rewrite E. destruct (k <? o)%nat, (k <? o + length d')%nat; auto.
Qed.
(** A window at [o]. *)
Lemma rd_window b o s q n x : (o + length s <= length b)%nat -> rd s q n = Ok x -> rd (put b o s) (o + q) n = Ok x.
Proof.
  intros H E. unfold rd in E. destruct (Nat.leb_spec (q + n) (length s)); [|discriminate]. injection E as <-.
  rewrite rd_cut by (rewrite put_length; lia). f_equal. apply nth_ext with (d := 0) (d' := 0). { rewrite cut_length by (rewrite put_length; lia). rewrite firstn_length, skipn_length. lia. }
  intros k Hk. rewrite cut_length in Hk by (rewrite put_length; lia). rewrite nth_cut, nth_put, nth_firstn, nth_skipn by lia.
  destruct (Nat.ltb_spec (o + q + k) o), (Nat.ltb_spec (o + q + k) (o + length s)); try lia. f_equal. lia.
Qed.
Lemma wr_window b o s q d s' : (o + length s <= length b)%nat -> wr s q d = Ok s' -> wr (put b o s) (o + q) d = Ok (put b o s') /\ length s' = length s.
Proof.
  intros H E. unfold wr in E. destruct (Nat.leb_spec (q + length d) (length s)) as [L|]; [|discriminate]. injection E as <-.
  fold (put s q d). pose proof (put_length s q d L) as PL. split; auto.
  rewrite wr_put by (rewrite put_length; lia). f_equal. apply nth_ext with (d := 0) (d' := 0). { rewrite !put_length; rewrite ?put_length; lia. }
  intros k _. rewrite (nth_put (put b o s)), !nth_put by (rewrite ?put_length; lia). rewrite PL.
  repeat match goal with |- context [(?a <? ?c)%nat] => destruct (Nat.ltb_spec a c) end; try lia; auto; f_equal; lia.
Qed.
Lemma follows_wr {D} b o s q d n (Q : list Z * nat * D -> list Z * nat * D -> Prop) f f' : (o + n <= length b)%nat -> length s = n ->
  (forall s', length s' = n -> wr s q d = Ok s' -> follows Q (f (put b o s')) (f' s')) ->
  follows Q (bind (wr (put b o s) (o + q) d) f) (bind (wr s q d) f').
Proof.
  intros H L HF. destruct (wr s q d) as [s'| |] eqn:E; [|exact I|].
  - destruct (wr_window b o s q d s' ltac:(lia) E) as (-> & L'). cbn [bind]. apply HF; auto. lia.
  - unfold wr in E. destruct (q + length d <=? length s)%nat; discriminate.
Qed.
Lemma follows_rd {D} b o s q n k (Q : list Z * nat * D -> list Z * nat * D -> Prop) f f' : (o + n <= length b)%nat -> length s = n ->
  (forall x, follows Q (f x) (f' x)) -> follows Q (bind (rd (put b o s) (o + q) k) f) (bind (rd s q k) f').
Proof.
  intros H L HF. destruct (rd s q k) as [x| |] eqn:E; [|exact I|].
  - rewrite (rd_window b o s q k x ltac:(lia) E). cbn [bind]. auto.
  - unfold rd in E. destruct (q + k <=? length s)%nat; discriminate.
Qed.

Section A.
Variable X : prim.
Variable p : params.
Hypothesis wf : wf_params p.
Hypothesis LX : lawful X (hash_len p).
Variable fuel : nat.
Variable junk : nat -> nat -> Z.

Lemma respond_at b o seeds acts fws s : (o + sizeof_sign p <= length b)%nat -> length s = sizeof_sign p ->
  follows (fun a c => a = put b o c /\ length c = sizeof_sign p) (sign_respond_at X p fuel junk o seeds acts fws (put b o s)) (sign_respond X p fuel junk seeds acts fws s).
Proof.
  intros H L. unfold sign_respond_at, sign_respond.
  set (R := fun (a c : list Z * nat * action) => fst (fst a) = put b o (fst (fst c)) /\ snd (fst a) = snd (fst c) /\ snd a = snd c /\ length (fst (fst c)) = sizeof_sign p).
  apply (follows_bind R). 2: { intros [[a1 a2] a3] [[c1 c2] c3] (R1 & _ & _ & R4). cbn in *. eauto. }
  apply follows_for. { repeat split; auto. }
  intros i [[a1 a2] a3] [[c1 c2] c3] (R1 & R2 & R3 & R4). cbn [fst snd] in *. subst a1 a2 a3.
  apply follows_same. intros x _. destruct (x =? 0). { cbn. eexists. split; [reflexivity|]. repeat split; auto. }
  apply follows_same. intros sd _. apply follows_same. intros Q _. apply follows_same. intros a _. apply follows_same. intros act' _.
  destruct (c2 <? pW p)%nat; [|exact I]. apply (follows_rd _ _ _ _ (sizeof_sign p)); auto. intros buf. apply follows_same. intros buf' _.
  apply (follows_wr _ _ _ _ _ (sizeof_sign p)); auto. intros s' L' _. cbn. eexists. split; [reflexivity|]. repeat split; auto.
Qed.

(** The message that is signed: the bytes of the message when the salt has been written. *)
Lemma sign_at rng sk b i mlen o salt : (i + mlen <= length b)%nat -> (o + sizeof_sign p <= length b)%nat ->
  salt = fst (x_squeeze X (hash_len p) (snd (x_squeeze X (seed_len p) rng))) ->
  follows (fun a c => a = (put b o (fst (fst c)), snd (fst c), snd c) /\ length (fst (fst c)) = sizeof_sign p)
    (LESS_sign_at X p fuel junk rng sk b i mlen o)
    (LESS_sign X p fuel junk rng sk (slice (put b o salt) i mlen) (slice b o (sizeof_sign p))).
Proof.
  intros Hi Ho ES. unfold LESS_sign_at, LESS_sign. apply follows_same. intros csk _.
  destruct (x_squeeze X (seed_len p) rng) as [ephem rng1]. cbn [snd] in ES.
  pose proof (law_sq_len X _ LX (hash_len p) rng1) as LS. destruct (x_squeeze X (hash_len p) rng1) as [sl rng2]. cbn [fst] in *. subst sl.
  pose proof (cut_length b o (sizeof_sign p) Ho) as LC.
  replace (wr b o salt) with (wr (put b o (slice b o (sizeof_sign p))) (o + 0) salt) by (rewrite put_cut, Nat.add_0_r by auto; reflexivity).
  apply (follows_wr _ _ _ _ _ (sizeof_sign p)); auto. intros s1 L1 E1.
  assert (EB : put b o salt = put b o s1).
  { pose proof E1 as E2. unfold wr in E2. destruct (Nat.leb_spec (0 + length salt) (length (slice b o (sizeof_sign p)))) as [B|]; [|discriminate].
    rewrite LC in B. rewrite <- (put_cut b o (sizeof_sign p) Ho) at 1.
    destruct (wr_window b o (slice b o (sizeof_sign p)) 0 salt s1 ltac:(lia) E1) as (W & _). rewrite Nat.add_0_r, wr_put in W by (rewrite put_length; lia). congruence. }
  cbv beta. rewrite <- EB. rewrite (rd_cut (put b o salt) i mlen) by (rewrite put_length; rewrite ?LS; unfold sizeof_sign, off_seeds in *; lia). rewrite EB.
  apply follows_same. intros tree _. apply follows_same. intros g0 _. apply follows_same. intros G0 _. apply follows_same. intros fullG _.
  apply follows_same. intros [h acts] _. cbn [bind]. cbv zeta.
  apply (follows_wr _ _ _ _ _ (sizeof_sign p)); auto. intros s2 L2 _. apply follows_same. intros fws _.
  apply (follows_wr _ _ _ _ _ (sizeof_sign p)); auto. intros s3 L3 _.
  apply (follows_rd _ _ _ _ (sizeof_sign p)); auto. intros stg. apply follows_same. intros [num stg1] _.
  apply (follows_wr _ _ _ _ _ (sizeof_sign p)); auto. intros s4 L4 _.
  eapply follows_bind. { apply respond_at; auto. } intros a s5 (-> & L5).
  apply (follows_rd _ _ _ _ (sizeof_sign p)); auto. intros stg2. apply follows_same. intros stg3 _.
  apply (follows_wr _ _ _ _ _ (sizeof_sign p)); auto. intros s6 L6 _. cbn. eauto.
Qed.
End A.

Lemma memcpy_apart b dst src n : (dst + n <= length b)%nat -> (src + n <= length b)%nat -> apart src n dst n -> memcpy b dst src n = Ok (put b dst (slice b src n)).
Proof.
  intros H1 H2 HA. unfold memcpy.
  assert ((n =? 0)%nat || (dst + n <=? src)%nat || (src + n <=? dst)%nat = true) as ->.
  { destruct (Nat.eqb_spec n 0), (Nat.leb_spec (dst + n) src), (Nat.leb_spec (src + n) dst); auto.
    exfalso. destruct (Nat.le_gt_cases src dst); [apply (HA dst)|apply (HA src)]; lia. }
  rewrite rd_cut by auto. cbn [bind]. rewrite wr_put by (rewrite cut_length; auto). reflexivity.
Qed.
Lemma memcpy_overlap b dst src n : ~ apart src n dst n -> memcpy b dst src n = UB.
Proof.
  intros HA. unfold memcpy. destruct (Nat.eqb_spec n 0), (Nat.leb_spec (dst + n) src), (Nat.leb_spec (src + n) dst); auto; exfalso; apply HA; intros k; lia.
Qed.
Lemma cut_put_same b o d : (o + length d <= length b)%nat -> slice (put b o d) o (length d) = d.
Proof. apply slice_wr_same. Qed.
Lemma cut_put_apart b o d q n : (o + length d <= length b)%nat -> (q + n <= length b)%nat -> apart q n o (length d) -> slice (put b o d) q n = slice b q n.
Proof.
  intros H1 H2 HA. apply nth_ext with (d := 0) (d' := 0). { rewrite !cut_length; rewrite ?put_length; auto. }
  intros k Hk. rewrite cut_length in Hk by (rewrite put_length; auto). rewrite !nth_cut, nth_put by auto.
  destruct (Nat.ltb_spec (q + k) o), (Nat.ltb_spec (q + k) (o + length d)); auto. exfalso. apply (HA (q + k)%nat). lia.
Qed.

Lemma skipn_twice {A} a c (l : list A) : skipn a (skipn c l) = skipn (c + a) l.
Proof. revert l. induction c as [|c IH]; intros l; cbn [skipn Nat.add]; auto. destruct l; [destruct a; reflexivity|apply IH]. Qed.

(** *** C63: signing *)

(** In every position in which the copy of the message is defined: the copy is made, and the signature that is written
    after it is that of the message as it is when the salt has been written. *)
Theorem C63_sign : forall X p, wf_params p -> lawful X (hash_len p) ->
  forall fuel junk rng b j i mlen sk, length sk = sizeof_sk p -> bytes b ->
  (i + mlen <= length b)%nat -> (j + mlen + sizeof_sign p <= length b)%nat -> apart i mlen j mlen ->
  let salt := fst (x_squeeze X (hash_len p) (snd (x_squeeze X (seed_len p) rng))) in
  let b1 := put b j (slice b i mlen) in
  crypto_sign_at X p fuel junk rng b j i mlen sk =
    (' (sig, num, rng') <- LESS_sign X p fuel junk rng sk (slice (put b1 (j + mlen) salt) i mlen) (slice b1 (j + mlen) (sizeof_sign p)) ;;
     Ok (0, put b1 (j + mlen) sig, u64 (Z.of_nat mlen + less_crypto_bytes p (u32 (Z.of_nat num))), rng')).
Proof.
  intros X p wf LX fuel junk rng b j i mlen sk H1 H2 H3 H4 HA salt b1. unfold crypto_sign_at. rewrite memcpy_apart by (auto; lia). cbn [bind]. fold b1.
  assert (L1 : length b1 = length b) by (apply put_length; rewrite cut_length; lia).
  assert (B1 : bytes b1) by (apply Forall_wr; auto; unfold slice; apply Forall_firstn, Forall_skipn; auto).
  pose proof (sign_at X p LX fuel junk rng sk b1 i mlen (j + mlen) salt ltac:(lia) ltac:(lia) eq_refl) as F.
  destruct (C08_sign_safe X p wf LX fuel junk rng sk (slice (put b1 (j + mlen) salt) i mlen) (slice b1 (j + mlen) (sizeof_sign p)) H1
    (cut_length b1 (j + mlen) (sizeof_sign p) ltac:(lia)) ltac:(unfold slice; apply Forall_firstn, Forall_skipn; auto)) as (NU & _).
  destruct (LESS_sign X p fuel junk rng sk (slice (put b1 (j + mlen) salt) i mlen) (slice b1 (j + mlen) (sizeof_sign p))) as [[[sig num] r]| |]; cbn [follows] in F.
  - destruct F as (a & -> & -> & _). reflexivity.
  - congruence.
  - rewrite F. reflexivity.
Qed.

(** Where the copy overlaps the message the behaviour is undefined. *)
Theorem C63_overlap : forall X p fuel junk rng b j i mlen sk, ~ apart i mlen j mlen -> crypto_sign_at X p fuel junk rng b j i mlen sk = UB.
Proof. intros X p fuel junk rng b j i mlen sk H. unfold crypto_sign_at. rewrite memcpy_overlap by auto. reflexivity. Qed.

(** The message that is signed is the given one if it does not lie where the salt is written. *)
Theorem C63_message : forall X p, wf_params p -> lawful X (hash_len p) -> forall rng b j i mlen,
  (i + mlen <= length b)%nat -> (j + mlen + sizeof_sign p <= length b)%nat -> apart i mlen j mlen -> apart i mlen (j + mlen) (hash_len p) ->
  let salt := fst (x_squeeze X (hash_len p) (snd (x_squeeze X (seed_len p) rng))) in
  slice (put (put b j (slice b i mlen)) (j + mlen) salt) i mlen = slice b i mlen.
Proof.
  intros X p wf LX rng b j i mlen H1 H2 A1 A2 salt. assert (LS : length salt = hash_len p) by (apply (law_sq_len X _ LX)).
  assert (SZ : (hash_len p <= sizeof_sign p)%nat) by (unfold sizeof_sign, off_seeds; lia).
  rewrite cut_put_apart; rewrite ?LS; rewrite ?put_length; rewrite ?cut_length; auto; try lia.
  apply cut_put_apart; rewrite ?cut_length; auto; lia.
Qed.

(** In a position apart from the signed message, crypto_sign does what it does with separate objects, and changes nothing
    else in the buffer. *)
Theorem C63_separate : forall X p, wf_params p -> lawful X (hash_len p) ->
  forall fuel junk rng b j i mlen sk, length sk = sizeof_sk p -> bytes b ->
  (i + mlen <= length b)%nat -> (j + mlen + sizeof_sign p <= length b)%nat -> apart i mlen j (mlen + sizeof_sign p) ->
  crypto_sign_at X p fuel junk rng b j i mlen sk =
    (' (ret, sm, smlen, rng') <- crypto_sign X p fuel junk rng (slice b j (mlen + sizeof_sign p)) (slice b i mlen) sk ;; Ok (ret, put b j sm, smlen, rng')).
Proof.
  intros X p wf LX fuel junk rng b j i mlen sk H1 H2 H3 H4 HA.
  assert (SZ : (hash_len p <= sizeof_sign p)%nat) by (unfold sizeof_sign, off_seeds; lia).
  assert (A1 : apart i mlen j mlen) by (intros k Hk; apply (HA k); lia).
  assert (A2 : apart i mlen (j + mlen) (hash_len p)) by (intros k Hk; apply (HA k); lia).
  rewrite C63_sign, C63_message by auto. unfold crypto_sign.
  pose proof (cut_length b i mlen H3) as LM. pose proof (cut_length b j (mlen + sizeof_sign p) ltac:(lia)) as LJ. rewrite LM.
  rewrite wr_put by lia. cbn [bind]. rewrite rd_cut by (rewrite put_length; lia). cbn [bind].
  assert (EC : slice (put (slice b j (mlen + sizeof_sign p)) 0 (slice b i mlen)) mlen (sizeof_sign p) = slice (put b j (slice b i mlen)) (j + mlen) (sizeof_sign p)).
  { apply nth_ext with (d := 0) (d' := 0). { rewrite !cut_length; rewrite ?put_length; lia. }
    intros k Hk. rewrite cut_length in Hk by (rewrite put_length; lia). rewrite !nth_cut, !nth_put, LM by lia.
    repeat match goal with |- context [(?a <? ?c)%nat] => destruct (Nat.ltb_spec a c) end; try lia. rewrite nth_cut by lia. f_equal. lia. }
  rewrite EC. pose proof (C08_sign_safe X p wf LX fuel junk rng sk (slice b i mlen) (slice (put b j (slice b i mlen)) (j + mlen) (sizeof_sign p)) H1) as (_ & S).
  { apply cut_length. rewrite put_length; lia. }
  { apply Forall_firstn, Forall_skipn, Forall_wr; auto. apply Forall_firstn, Forall_skipn. auto. }
  destruct (LESS_sign X p fuel junk rng sk (slice b i mlen) (slice (put b j (slice b i mlen)) (j + mlen) (sizeof_sign p))) as [[[sig num] r]| |]; cbn [bind]; auto.
  destruct (S _ _ _ eq_refl) as (LS & _). rewrite wr_put by (rewrite put_length; lia). cbn [bind].
  match goal with |- Ok (0, ?x, _, _) = Ok (0, ?y, _, _) => assert (x = y) as ->; [|reflexivity] end. apply nth_ext with (d := 0) (d' := 0). { rewrite !put_length; rewrite ?put_length; rewrite ?put_length; lia. }
  intros k _. rewrite (nth_put b j (put _ _ _)) by (rewrite !put_length; rewrite ?put_length; lia).
  rewrite !put_length by (rewrite ?put_length; lia). rewrite !nth_put by (rewrite ?put_length; lia). rewrite LM, LS, LJ.
  repeat match goal with |- context [(?a <? ?c)%nat] => destruct (Nat.ltb_spec a c) end; try lia; auto; rewrite ?Nat.sub_0_r; try (f_equal; lia).
Qed.

(** If the salt falls on the message and changes it, then what crypto_sign returns, with result 0, is a signed message
    whose signature is refused, or else two different strings with the same digest are known. *)
Theorem C63_spoiled : forall X p, wf_params p -> lawful X (hash_len p) ->
  forall fk sk pk, keypair X p fk sk pk ->
  forall fuel junk rng b j i mlen ret b' smlen rng', length sk = sizeof_sk p -> bytes b ->
  (i + mlen <= length b)%nat -> (j + mlen + sizeof_sign p <= length b)%nat -> apart i mlen j mlen ->
  crypto_sign_at X p fuel junk rng b j i mlen sk = Ok (ret, b', smlen, rng') ->
  let salt := fst (x_squeeze X (hash_len p) (snd (x_squeeze X (seed_len p) rng))) in
  let m := slice b i mlen in
  let m' := slice (put (put b j m) (j + mlen) salt) i mlen in
  ret = 0 /\ slice b' j mlen = m /\
  (forall f junk', (fuel <= f)%nat -> LESS_verify X p f junk' pk m' (slice b' (j + mlen) (sizeof_sign p)) = Ok 1) /\
  (m <> m' -> forall f junk', (fuel <= f)%nat -> (forall a c, is_byte (junk' a c)) ->
    LESS_verify X p f junk' pk (slice b' j mlen) (slice b' (j + mlen) (sizeof_sign p)) = Ok 1 ->
    exists c c', length c = length c' /\ c ++ m ++ salt <> c' ++ m' ++ salt /\ digest_of X (c ++ m ++ salt) = digest_of X (c' ++ m' ++ salt)).
Proof.
  intros X p wf LX fk sk pk KP fuel junk rng b j i mlen ret b' smlen rng' H1 H2 H3 H4 HA E salt m m'.
  rewrite C63_sign in E by auto. fold salt m m' in E. cbv zeta in E.
  assert (LM : length m = mlen) by (apply cut_length; auto). assert (BM : bytes m) by (apply Forall_firstn, Forall_skipn; auto).
  assert (L1 : length (put b j m) = length b) by (apply put_length; lia).
  assert (B1 : bytes (put b j m)) by (apply Forall_wr; auto).
  assert (BS : bytes salt) by (apply (law_sq_bytes X _ LX)).
  assert (BM' : bytes m') by (apply Forall_firstn, Forall_skipn, Forall_wr; auto).
  set (sg0 := slice (put b j m) (j + mlen) (sizeof_sign p)) in *.
  assert (LG : length sg0 = sizeof_sign p) by (apply cut_length; lia). assert (BG : bytes sg0) by (apply Forall_firstn, Forall_skipn; auto).
  destruct (C08_sign_safe X p wf LX fuel junk rng sk m' sg0 H1 LG BG) as (_ & SS).
  destruct (LESS_sign X p fuel junk rng sk m' sg0) as [[[sig num] r]| |] eqn:ES; cbn [bind] in E; try discriminate.
  destruct (SS _ _ _ eq_refl) as (LS & BSG & _). injection E as <- <- _ _.
  assert (C1 : slice (put (put b j m) (j + mlen) sig) (j + mlen) (sizeof_sign p) = sig). { rewrite <- LS. apply cut_put_same. lia. }
  assert (C2 : slice (put (put b j m) (j + mlen) sig) j mlen = m).
  { rewrite cut_put_apart by (try lia; intros k; lia). rewrite <- LM. apply cut_put_same. lia. }
  assert (V : forall f junk', (fuel <= f)%nat -> LESS_verify X p f junk' pk m' sig = Ok 1).
  { intros f junk' Hf. apply (C01_correct X p wf LX fk sk pk KP fuel junk rng m' sg0 sig num r LG BG ES); auto. }
  rewrite C1, C2. split; auto. split; auto. split; auto. intros NE f junk' Hf HJ V1.
  destruct (C06_binding X p wf LX f f junk' junk' pk m m' sig HJ HJ BM BM' BSG NE V1 (V f junk' Hf)) as (c & c' & C). cbv zeta in C.
  destruct C as (_ & _ & C3 & _ & C4 & C5). exists c, c'.
  assert (ESL : slice sig 0 (hash_len p) = salt).
  { pose proof (LESS_sign_drawn X p wf LX True fuel junk rng sk m' sg0) as D. rewrite ES in D. cbn [gp] in D.
    assert (T : sign_stuck X p True fuel junk rng sk m').
    { unfold sign_stuck. destruct (x_squeeze X (seed_len p) rng). destruct (x_squeeze X (hash_len p) x). cbv zeta. auto 10. }
    destruct (D T H1 LG BG) as (tree & q1 & q2 & q3 & q4 & q5 & q6 & SG & HD & _). unfold drawn in HD. subst salt.
    destruct (x_squeeze X (seed_len p) rng) as [root rng1]. cbn [snd]. destruct (x_squeeze X (hash_len p) rng1) as [sl rng2]. cbn [fst].
    destruct HD as (D1 & _). exact D1. }
  rewrite ESL in C4, C5. auto.
Qed.

(** *** C63: opening *)

(** In a position apart from the signed message, crypto_sign_open does what it does with separate objects, and changes
    nothing else in the buffer. *)
Theorem C63_open : forall X p fuel junk b i j smlen pk, wf_params p ->
  bytes b -> Z.of_nat (length b) < 2 ^ 62 -> (1 <= smlen)%nat -> (j + smlen <= length b)%nat ->
  forall mlen, nth (j + smlen - 1) b 0 < max_seeds p -> Z.of_nat smlen = Z.of_nat mlen + less_crypto_bytes p (nth (j + smlen - 1) b 0) ->
  (i + mlen <= length b)%nat -> apart i mlen j smlen ->
  crypto_sign_open_at X p fuel junk b i j (Z.of_nat smlen) pk =
    (' (ret, m, l) <- crypto_sign_open X p fuel junk (slice b i mlen) (skipn j (put b i (slice b j mlen))) (Z.of_nat smlen) pk ;; Ok (ret, put b i m, l)).
Proof.
  intros X p fuel junk b i j smlen pk wf HB HL H1 H2 mlen HC HM HI HA.
  set (c := nth (j + smlen - 1) b 0) in *. unfold crypto_sign_open_at, crypto_sign_open. cbv zeta.
  assert (E1 : u64 (Z.of_nat smlen - 1) = Z.of_nat (smlen - 1)). { unfold u64. rewrite Z.mod_small; lia. }
  assert (C0 : 0 <= less_crypto_bytes p c). { unfold less_crypto_bytes, u32. apply Z.mod_pos_bound. lia. }
  assert (E2 : u64 (Z.of_nat smlen - less_crypto_bytes p c) = Z.of_nat mlen). { unfold u64. rewrite Z.mod_small; lia. }
  pose proof (cut_length b j mlen ltac:(lia)) as LJ. pose proof (cut_length b i mlen HI) as LI.
  pose proof (put_length b i (slice b j mlen) ltac:(lia)) as LP.
  assert (LQ : length (skipn j (put b i (slice b j mlen))) = (length b - j)%nat) by (rewrite skipn_length; lia).
  rewrite E1, Nat2Z.id, LQ.
  assert (Z.of_nat j + Z.of_nat (smlen - 1) <? Z.of_nat (length b) = true) as -> by (apply Z.ltb_lt; lia).
  assert (Z.of_nat (smlen - 1) <? Z.of_nat (length b - j) = true) as -> by (apply Z.ltb_lt; lia).
  rewrite (get_ok b _ 0) by lia. rewrite (get_ok (skipn _ _) _ 0) by lia. rewrite nth_skipn, nth_put by lia. cbn [bind].
  assert ((if (j + (smlen - 1) <? i)%nat then nth (j + (smlen - 1)) b 0 else if (j + (smlen - 1) <? i + length (slice b j mlen))%nat then nth (j + (smlen - 1) - i) (slice b j mlen) 0
    else nth (j + (smlen - 1)) b 0) = nth (j + (smlen - 1)) b 0) as ->.
  { destruct (Nat.ltb_spec (j + (smlen - 1)) i), (Nat.ltb_spec (j + (smlen - 1)) (i + length (slice b j mlen))); auto. exfalso. apply (HA (j + (smlen - 1))%nat). lia. }
  replace (j + (smlen - 1))%nat with (j + smlen - 1)%nat by lia. fold c. destruct (Z.leb_spec (max_seeds p) c); [lia|].
  rewrite E2, Nat2Z.id, LI.
  assert ((Z.of_nat j + Z.of_nat mlen <=? Z.of_nat (length b)) && (Z.of_nat i + Z.of_nat mlen <=? Z.of_nat (length b)) = true) as -> by (apply andb_true_iff; rewrite !Z.leb_le; lia).
  assert ((Z.of_nat mlen <=? Z.of_nat (length b - j)) && (Z.of_nat mlen <=? Z.of_nat mlen) = true) as -> by (apply andb_true_iff; rewrite !Z.leb_le; lia).
  rewrite memcpy_apart by (try lia; intros k Hk; apply (HA k); lia). cbn [bind].
  rewrite (rd_cut (put b i (slice b j mlen)) i mlen) by lia. rewrite (rd_cut (skipn j _) 0 mlen) by lia. cbn [bind].
  assert (F : slice (skipn j (put b i (slice b j mlen))) 0 mlen = slice b j mlen).
  { change (slice (put b i (slice b j mlen)) j mlen = slice b j mlen). apply cut_put_apart; try lia. intros k Hk. apply (HA k). lia. }
  rewrite F. rewrite wr_put by lia. cbn [bind].
  assert (P : put (slice b i mlen) 0 (slice b j mlen) = slice b j mlen).
  { unfold put. cbn [firstn app Nat.add]. rewrite skipn_all2 by lia. apply app_nil_r. }
  rewrite P. rewrite (firstn_all2 (slice b j mlen)) by lia.
  assert (S1 : slice (put b i (slice b j mlen)) i mlen = slice b j mlen). { rewrite <- LJ at 2. apply cut_put_same. lia. }
  rewrite S1, skipn_twice.
  destruct (LESS_verify X p fuel junk pk (slice b j mlen) (skipn (j + mlen) (put b i (slice b j mlen)))); reflexivity.
Qed.

(** Opening in place, or over a part of the message, is undefined. *)
Theorem C63_open_overlap : forall X p fuel junk b i j smlen pk, wf_params p ->
  bytes b -> Z.of_nat (length b) < 2 ^ 62 -> (1 <= smlen)%nat -> (j + smlen <= length b)%nat ->
  forall mlen, nth (j + smlen - 1) b 0 < max_seeds p -> Z.of_nat smlen = Z.of_nat mlen + less_crypto_bytes p (nth (j + smlen - 1) b 0) ->
  ~ apart j mlen i mlen -> crypto_sign_open_at X p fuel junk b i j (Z.of_nat smlen) pk = UB.
Proof.
  intros X p fuel junk b i j smlen pk wf HB HL H1 H2 mlen HC HM HA.
  set (c := nth (j + smlen - 1) b 0) in *. unfold crypto_sign_open_at. cbv zeta.
  assert (E1 : u64 (Z.of_nat smlen - 1) = Z.of_nat (smlen - 1)). { unfold u64. rewrite Z.mod_small; lia. }
  assert (C0 : 0 <= less_crypto_bytes p c). { unfold less_crypto_bytes, u32. apply Z.mod_pos_bound. lia. }
  assert (E2 : u64 (Z.of_nat smlen - less_crypto_bytes p c) = Z.of_nat mlen). { unfold u64. rewrite Z.mod_small; lia. }
  rewrite E1, Nat2Z.id. destruct (Z.of_nat j + Z.of_nat (smlen - 1) <? Z.of_nat (length b)); auto.
  rewrite (get_ok b _ 0) by lia. cbn [bind]. replace (j + (smlen - 1))%nat with (j + smlen - 1)%nat by lia. fold c.
  destruct (Z.leb_spec (max_seeds p) c); [lia|]. rewrite E2, Nat2Z.id. destruct (_ && _); auto. rewrite memcpy_overlap by auto. reflexivity.
Qed.

(** A signed message lying in the buffer and opened to a place apart from it gives the message. *)
Theorem C63_round_trip : forall X p, wf_params p -> lawful X (hash_len p) ->
  forall fk sk pk, api_keypair X p fk sk pk ->
  forall fs m sm smlen, api_signed X p fs sk m sm (Z.of_nat smlen) -> nth (smlen - 1) sm 0 <> max_seeds p ->
  forall fv junk b i j, (fs <= fv)%nat -> bytes b -> Z.of_nat (length b) < 2 ^ 62 -> (j + smlen <= length b)%nat -> (i + length m <= length b)%nat ->
  slice b j smlen = firstn smlen sm -> apart i (length m) j smlen ->
  crypto_sign_open_at X p fv junk b i j (Z.of_nat smlen) pk = Ok (0, put b i m, Some (Z.of_nat (length m))).
Proof.
  intros X p wf LX fk sk pk KP fs m sm smlen SG NM fv junk b i j Hf HB HL HJ HI ES HA.
  destruct (api_honest X p fk sk pk wf LX KP) as (_ & SL & _).
  pose proof SG as (junk0 & rng & rng' & ret & sm0 & BM & BS & H4 & H5 & ER).
  destruct (C03_layout X p wf LX fs junk0 rng sm0 m sk ret sm (Z.of_nat smlen) rng' SL BS BM H4 H5 ER) as (_ & L1 & B1 & F1 & _ & n & Hn & N1 & EL & LE).
  rewrite Nat2Z.id in N1, LE. pose proof (wf_max_byte p wf) as MB.
  assert (P1 : (1 <= smlen)%nat) by lia.
  assert (EN : nth (j + smlen - 1) b 0 = n).
  { rewrite <- N1. replace (j + smlen - 1)%nat with (j + (smlen - 1))%nat by lia. rewrite <- (nth_cut b j smlen) by lia. rewrite ES. apply nth_firstn. lia. }
  assert (EB : Z.of_nat smlen = Z.of_nat (length m) + less_crypto_bytes p n). { rewrite sig_len_val by (auto; lia). unfold off_seeds. lia. }
  assert (LB : 0 <= less_crypto_bytes p n). { unfold less_crypto_bytes, u32. apply Z.mod_pos_bound. lia. }
  rewrite (C63_open X p fv junk b i j smlen pk wf HB HL P1 HJ (length m)) by (rewrite ?EN; auto; lia).
  assert (LJ : length (slice b j (length m)) = length m) by (apply cut_length; lia).
  assert (LP : length (put b i (slice b j (length m))) = length b) by (apply put_length; lia).
  assert (PF : firstn smlen (skipn j (put b i (slice b j (length m)))) = firstn smlen sm).
  { change (slice (put b i (slice b j (length m))) j smlen = firstn smlen sm). rewrite cut_put_apart; auto; try lia. intros k. rewrite LJ. intros Hk. apply (HA k). lia. }
  rewrite (C02_open X p wf LX fk sk pk KP fs m sm (Z.of_nat smlen) SG fv junk (slice b i (length m)) (skipn j (put b i (slice b j (length m)))));
    rewrite ?Nat2Z.id; auto.
  - destruct (Z.eqb_spec (nth (smlen - 1) sm 0) (max_seeds p)); [congruence|]. cbn [bind]. rewrite skipn_all2 by (rewrite cut_length; lia). rewrite app_nil_r. reflexivity.
  - apply Forall_skipn. apply Forall_wr; auto. apply Forall_firstn, Forall_skipn. auto.
  - rewrite skipn_length. lia.
  - rewrite skipn_length. lia.
  - rewrite cut_length; lia.
Qed.

(** *** Examples *)

(** A buffer of the toy parameters with the message at 0 and the signed message after it: the same signed message as with
    separate objects, and opening it gives the message back to the end of the buffer. *)
Lemma check_bytes l : forallb (fun b => (0 <=? b) && (b <? 256)) l = true -> bytes l.
Proof. intros B. apply Forall_forall. intros x Hx. rewrite forallb_forall in B. specialize (B x Hx). unfold is_byte. lia. Qed.
Definition toy_buf : list Z := toy_msg ++ repeat 3 (3 + sizeof_sign toy_params) ++ [9; 9; 9; 9].
Definition brief (r : res (Z * list Z * Z * Z)) : res (Z * list Z * Z) := ' (ret, b, l, _) <- r ;; Ok (ret, b, l).
Example C63_separate_example :
  let b := toy_msg ++ toy_sm80 ++ [9; 9; 9; 9] in
  crypto_sign_at toyX toy_params 1000 toy_junk 80 toy_buf 3 0 3 toy_sk = Ok (0, b, 112, toy_rng80) /\ apart 0 3 3 (3 + sizeof_sign toy_params) /\
  crypto_sign_open_at toyX toy_params 1000 toy_junk b 147 3 112 toy_pk = Ok (0, toy_msg ++ toy_sm80 ++ toy_msg ++ [9], Some 3) /\ apart 147 3 3 112.
Proof.
  cbv zeta. assert (A1 : apart 0 3 3 (3 + sizeof_sign toy_params)) by (intros k; lia). assert (A2 : apart 147 3 3 112) by (intros k; lia).
  split; [|split; [exact A1|split; [|exact A2]]].
  - rewrite (C63_separate toyX toy_params toy_wf toyX_lawful) by first [reflexivity|apply check_bytes; reflexivity|exact A1|apply Nat.leb_le; reflexivity].
    replace (slice toy_buf 3 (3 + sizeof_sign toy_params)) with (repeat 3 (3 + sizeof_sign toy_params)) by reflexivity.
    replace (slice toy_buf 0 3) with toy_msg by reflexivity. rewrite toy_sm_run. reflexivity.
  - refine (eq_trans (C63_round_trip toyX toy_params toy_wf toyX_lawful 1000 toy_sk toy_pk toy_api_keypair 1000 toy_msg toy_sm80 112 toy_api_signed _
      1000 toy_junk (toy_msg ++ toy_sm80 ++ [9; 9; 9; 9]) 147 3 _ _ _ _ _ _ A2) _); try reflexivity;
      first [discriminate|apply check_bytes; reflexivity|apply Nat.leb_le; reflexivity].
Qed.

(** The message lies where the salt is written. crypto_sign returns 0, but what it signs is not the message; the signed message
    is refused. *)
Definition toy_spoilt : list Z := repeat 3 4 ++ toy_msg ++ repeat 3 (sizeof_sign toy_params).
Definition toy_spoilt' : list Z := Eval vm_compute in
  snd (fst (okd (0, [], 0) (brief (crypto_sign_at toyX toy_params 1000 toy_junk 80 toy_spoilt 0 4 3 toy_sk)))).
Example C63_spoiled_example :
  crypto_sign_at toyX toy_params 1000 toy_junk 80 toy_spoilt 0 4 3 toy_sk = Ok (0, toy_spoilt', 112, toy_rng80) /\
  apart 4 3 0 3 /\ slice toy_spoilt' 0 3 = toy_msg /\
  crypto_sign_open toyX toy_params 1000 toy_junk [7; 7; 7] toy_spoilt' 112 toy_pk = Ok (-1, toy_msg, Some 3) /\
  LESS_verify toyX toy_params 1000 toy_junk toy_pk [181; 92; 214] (slice toy_spoilt' 3 (sizeof_sign toy_params)) = Ok 1.
Proof.
  assert (E : crypto_sign_at toyX toy_params 1000 toy_junk 80 toy_spoilt 0 4 3 toy_sk = Ok (0, toy_spoilt', 112, toy_rng80)) by (vm_compute; reflexivity).
  assert (A : apart 4 3 0 3) by (intros k; lia).
  split; [exact E|]. split; [exact A|]. split; [reflexivity|]. split; [vm_compute; reflexivity|].
  destruct (C63_spoiled toyX toy_params toy_wf toyX_lawful 1000 toy_sk toy_pk toy_keypair 1000 toy_junk 80 toy_spoilt 0 4 3 0 toy_spoilt' 112 toy_rng80) as (_ & _ & V & _);
    [reflexivity|apply check_bytes; reflexivity|apply Nat.leb_le; reflexivity|apply Nat.leb_le; reflexivity|exact A|exact E|].
  match type of V with forall f j, _ -> LESS_verify _ _ _ _ _ ?m _ = _ => replace m with [181; 92; 214] in V by (vm_compute; reflexivity) end.
  apply V. lia.
Qed.

(** Signing where message and signed message start at the same place, and opening in place. *)
Example C63_overlap_example : ~ apart 0 3 0 3 /\
  crypto_sign_at toyX toy_params 1000 toy_junk 80 toy_buf 0 0 3 toy_sk = UB /\
  crypto_sign_open_at toyX toy_params 1000 toy_junk toy_sm80 0 0 112 toy_pk = UB.
Proof.
  split. { intros H. apply (H 0%nat). lia. } split; vm_compute; reflexivity.
Qed.

Print Assumptions C63_sign.
Print Assumptions C63_separate.
Print Assumptions C63_spoiled.
Print Assumptions C63_open.
Print Assumptions C63_round_trip.
Print Assumptions C63_overlap.
Print Assumptions C63_message.
Print Assumptions C63_open_overlap.
