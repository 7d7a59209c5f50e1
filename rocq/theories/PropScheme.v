(** Properties C01, C05, C06, C07, C08, C15 and C34: key generation, signing and verification. *)
From Coq Require Import Permutation Sorted.
From Verif Require Import Base BaseLemmas Params ParamsProofs Fq Prim Samplers Monomial Codes SeedTree Utils Less Spec
  FqProofs EnumProofs LinAlg RrefProofs MonoProofs ActionProofs CodecProofs SamplerProofs CanonProofs SeedTreeProofs FuelProofs RoundProofs
  VerifyProofs SignerProofs AnyKeyProofs Agree PropCodec PropMono PropCanon Toy.

(** [n] bytes of [l] from offset [o]. *)
Definition slice (l : list Z) (o n : nat) : list Z := firstn n (skipn o l).

(** The bytes [l] unpack to [a] (to [G]) whatever the destination held. *)
Definition unpacks_action (p : params) (l : list Z) (a : action) : Prop :=
  forall old, act_array p old -> expand_to_monom_action p old l = Ok a.
Definition unpacks_matrix (p : params) (l : list Z) (G : mat) : Prop :=
  forall old, matrix p old -> expand_to_rref p old l = Ok G.

(** [sk], [pk] is the result of a run of LESS_keygen with output objects of the right size. *)
Definition keypair (X : prim) (p : params) (fuel : nat) (sk pk : list Z) : Prop :=
  exists junk rng rng' sk0 pk0, length sk0 = sizeof_sk p /\ length pk0 = sizeof_pk p /\ bytes pk0 /\
    LESS_keygen X p fuel junk rng sk0 pk0 = Ok (sk, pk, rng').

Lemma keypair_honest X p fuel sk pk : wf_params p -> lawful X (hash_len p) -> keypair X p fuel sk pk -> honest_key X p fuel sk pk.
Proof.
  intros wf LX (junk & rng & rng' & sk0 & pk0 & H1 & H2 & H3 & E).
  pose proof (LESS_keygen_spec X p wf LX fuel junk rng sk0 pk0 H1 H2 H3) as S. rewrite E in S. exact S.
Qed.

Lemma unpacks_decodes p l a b : decodes p l a -> unpacks_action p l b -> a = b.
Proof.
  intros (A & H) H'. specialize (H a A). rewrite (H' a A) in H. congruence.
Qed.

(** *** C01 *)
Theorem C01_correct : forall X p, wf_params p -> lawful X (hash_len p) ->
  forall fk sk pk, keypair X p fk sk pk ->
  forall fs junk rng m sig0 sig num rng', length sig0 = sizeof_sign p -> bytes sig0 ->
    LESS_sign X p fs junk rng sk m sig0 = Ok (sig, num, rng') ->
  forall fv junk', (fs <= fv)%nat -> LESS_verify X p fv junk' pk m sig = Ok 1.
Proof.
  intros X p wf LX fk sk pk HK fs junk rng m sig0 sig num rng' H1 H2 E fv junk' Hf.
  apply (keypair_honest X p fk sk pk wf LX) in HK.
  assert (Lsk : length sk = sizeof_sk p).
  { destruct HK as [(csk & g0 & c & fullG & -> & A1 & A2 & _)]. rewrite app_length, A1, A2. reflexivity. }
  pose proof (LESS_sign_spec X p wf LX fs junk rng sk m sig0 Lsk H1 H2) as S. rewrite E in S.
  destruct S as (tree & c & fullG & acts & Vs & fws & fl & S).
  apply (sign_verify X p wf LX fk fs fv junk' sk pk m sig num tree c fullG acts Vs fws fl HK S Hf sig); auto.
  apply (sg_bytes _ _ _ _ _ _ _ _ _ _ _ _ _ _ S).
Qed.

(** Of a signature only the first bytes matter, up to the last published seed: every string beginning like it is accepted. *)
Theorem C01_prefix : forall X p, wf_params p -> lawful X (hash_len p) ->
  forall fk sk pk, keypair X p fk sk pk ->
  forall fs junk rng m sig0 sig num rng', length sig0 = sizeof_sign p -> bytes sig0 ->
    LESS_sign X p fs junk rng sk m sig0 = Ok (sig, num, rng') ->
  forall fv junk' sig', (fs <= fv)%nat -> bytes sig' ->
    firstn (off_seeds p + num * seed_len p) sig' = firstn (off_seeds p + num * seed_len p) sig -> LESS_verify X p fv junk' pk m sig' = Ok 1.
Proof.
  intros X p wf LX fk sk pk HK fs junk rng m sig0 sig num rng' H1 H2 E fv junk' sig' Hf HB HP.
  apply (keypair_honest X p fk sk pk wf LX) in HK.
  assert (Lsk : length sk = sizeof_sk p).
  { destruct HK as [(csk & g0 & c & fullG & -> & A1 & A2 & _)]. rewrite app_length, A1, A2. reflexivity. }
  pose proof (LESS_sign_spec X p wf LX fs junk rng sk m sig0 Lsk H1 H2) as S. rewrite E in S.
  destruct S as (tree & c & fullG & acts & Vs & fws & fl & S).
  apply (sign_verify X p wf LX fk fs fv junk' sk pk m sig num tree c fullG acts Vs fws fl HK S Hf sig'); auto.
Qed.

Lemma repeat_bytes b n : is_byte b -> bytes (repeat b n).
Proof. intros H. induction n; constructor; auto. Qed.
Lemma toy_keypair : keypair toyX toy_params 1000 toy_sk toy_pk.
Proof.
  exists toy_junk, 5, toy_rng5, (repeat 9 (sizeof_sk toy_params)), (repeat 9 (sizeof_pk toy_params)).
  split; [apply repeat_length|]. split; [apply repeat_length|]. split; [apply repeat_bytes; unfold is_byte; lia|exact toy_keys_run].
Qed.
Lemma toy_accepts_prefix fv junk sig : (1000 <= fv)%nat -> bytes sig -> firstn 108 sig = firstn 108 toy_sig80 ->
  LESS_verify toyX toy_params fv junk toy_pk toy_msg sig = Ok 1.
Proof.
  intros H HB HP. apply (C01_prefix toyX toy_params toy_wf toyX_lawful 1000 toy_sk toy_pk toy_keypair 1000 toy_junk 80 toy_msg
    (repeat 3 (sizeof_sign toy_params)) toy_sig80 2 toy_rng80); [apply repeat_length|apply repeat_bytes; unfold is_byte; lia|exact toy_sign_run|exact H|exact HB|exact HP].
Qed.
Lemma toy_sig80_bytes : bytes toy_sig80.
Proof.
  apply Forall_forall. intros x Hx. assert (B : forallb (fun b => (0 <=? b) && (b <? 256)) toy_sig80 = true) by reflexivity.
  rewrite forallb_forall in B. specialize (B x Hx). unfold is_byte. lia.
Qed.
Lemma toy_accepts fv junk : (1000 <= fv)%nat -> LESS_verify toyX toy_params fv junk toy_pk toy_msg toy_sig80 = Ok 1.
Proof. intros H. apply toy_accepts_prefix; auto using toy_sig80_bytes. Qed.
Lemma toy_accept : LESS_verify toyX toy_params 1000 (fun _ _ => 0) toy_pk toy_msg toy_sig80 = Ok 1.
Proof. apply toy_accepts. lia. Qed.

Example C01_example :
  LESS_keygen toyX toy_params 1000 toy_junk 5 (repeat 9 (sizeof_sk toy_params)) (repeat 9 (sizeof_pk toy_params)) = Ok (toy_sk, toy_pk, toy_rng5) /\
  LESS_sign toyX toy_params 1000 toy_junk 80 toy_sk toy_msg (repeat 3 (sizeof_sign toy_params)) = Ok (toy_sig80, 2%nat, toy_rng80) /\
  LESS_verify toyX toy_params 1000 (fun _ _ => 0) toy_pk toy_msg toy_sig80 = Ok 1 /\
  LESS_verify toyX toy_params 1000 (fun _ _ => 0) toy_pk [1; 2; 4] toy_sig80 = Ok 0.
Proof. exact (conj toy_keys_run (conj toy_sign_run (conj toy_accept toy_reject))). Qed.
(** The signature without its last 33 bytes, and with others in their place. *)
Example C01_prefix_example :
  LESS_verify toyX toy_params 1000 (fun _ _ => 0) toy_pk toy_msg (firstn 108 toy_sig80) = Ok 1 /\
  LESS_verify toyX toy_params 1000 (fun _ _ => 0) toy_pk toy_msg (firstn 108 toy_sig80 ++ repeat 200 50) = Ok 1.
Proof.
  pose proof (Forall_firstn _ toy_sig80 108 toy_sig80_bytes) as B.
  split; apply toy_accepts_prefix; try lia; auto. apply Forall_app. split; auto. apply repeat_bytes. unfold is_byte. lia.
Qed.

(** *** C05 *)
Theorem C05_verify_safe : forall X p, wf_params p -> lawful X (hash_len p) ->
  forall fk sk pk, keypair X p fk sk pk ->
  forall fuel junk m sig, length sig = sizeof_sign p -> bytes sig ->
    LESS_verify X p fuel junk pk m sig <> UB /\
    forall r, LESS_verify X p fuel junk pk m sig = Ok r -> r = 0 \/ r = 1.
Proof.
  intros X p wf LX fk sk pk HK fuel junk m sig HL HB.
  apply (keypair_honest X p fk sk pk wf LX) in HK. apply honest_pk_wf in HK.
  assert (G : gp True (LESS_verify X p fuel junk pk m sig)
     (fun r => (r = 1 /\ accepted X p fuel pk m sig) \/ (r = 0 /\ rejected X p fuel pk m sig))).
  { apply LESS_verify_gp; auto. { rewrite HL. unfold sizeof_sign. lia. } left. lia. }
  destruct (LESS_verify X p fuel junk pk m sig) as [r| |]; cbn in G.
  - split; [discriminate|]. intros r' E. injection E as <-. destruct G as [[-> _]|[-> _]]; auto.
  - destruct G.
  - split; discriminate.
Qed.

(** Signatures of the right size filled with an arbitrary byte. *)
Example C05_example :
  map (fun b => LESS_verify toyX toy_params 1000 (fun _ _ => 0) toy_pk [1; 2; 3] (repeat b (sizeof_sign toy_params))) [255] = [Ok 0].
Proof. vm_compute. reflexivity. Qed.

(** *** C06 *)

(** The digest of a byte string. *)
Definition digest_of (X : prim) (s : list Z) : list Z := h_final X (h_absorb X (h_init X) s).

(** If a signature is accepted for one message, by a run for any key, then one string of fixed length
    decides which other messages it is accepted for. *)
Theorem C06_transcript : forall X p, wf_params p -> lawful X (hash_len p) ->
  forall fuel junk pk m sig, (forall a b, is_byte (junk a b)) -> bytes m -> bytes sig ->
  LESS_verify X p fuel junk pk m sig = Ok 1 ->
  exists c, bytes c /\ length c = (pT p * (pK p * (pN p - pK p)))%nat /\
    forall m', bytes m' -> exists r, LESS_verify X p fuel junk pk m' sig = Ok r /\ (r = 0 \/ r = 1) /\
      (r = 1 <-> digest_of X (c ++ m' ++ slice sig 0 (hash_len p)) = slice sig (off_digest p) (hash_len p)).
Proof.
  intros X p wf LX fuel junk pk m sig HJ Hm HS E.
  exact (proj2 (verify_transcript X p wf LX fuel junk pk m sig HJ Hm HS E)).
Qed.

Lemma app_inj_len {A} (a b c d : list A) : length a = length b -> a ++ c = b ++ d -> a = b /\ c = d.
Proof.
  revert b. induction a as [|x a IH]; intros [|y b] HL E; try discriminate. { auto. }
  cbn in *. injection E as -> E. injection HL as HL. destruct (IH b HL E) as [-> ->]. auto.
Qed.

(** Two messages with the same signature give two different strings with the same digest. Nothing is
    assumed of the public key, and the two runs may differ in uninitialised memory. *)
Theorem C06_binding : forall X p, wf_params p -> lawful X (hash_len p) ->
  forall f1 f2 j1 j2 pk m1 m2 sig, (forall a b, is_byte (j1 a b)) -> (forall a b, is_byte (j2 a b)) ->
  bytes m1 -> bytes m2 -> bytes sig -> m1 <> m2 ->
  LESS_verify X p f1 j1 pk m1 sig = Ok 1 -> LESS_verify X p f2 j2 pk m2 sig = Ok 1 ->
  exists c1 c2, let s := slice sig 0 (hash_len p) in
    bytes (c1 ++ m1 ++ s) /\ bytes (c2 ++ m2 ++ s) /\
    length c1 = length c2 /\ length c1 = (pT p * (pK p * (pN p - pK p)))%nat /\
    c1 ++ m1 ++ s <> c2 ++ m2 ++ s /\ digest_of X (c1 ++ m1 ++ s) = digest_of X (c2 ++ m2 ++ s).
Proof.
  intros X p wf LX f1 f2 j1 j2 pk m1 m2 sig J1 J2 B1 B2 BS Hm E1 E2.
  destruct (C06_transcript X p wf LX f1 j1 pk m1 sig J1 B1 BS E1) as (c1 & C1 & L1 & H1).
  destruct (C06_transcript X p wf LX f2 j2 pk m2 sig J2 B2 BS E2) as (c2 & C2 & L2 & H2).
  exists c1, c2. cbv zeta.
  destruct (H1 m1 B1) as (r1 & R1 & _ & D1). rewrite E1 in R1. injection R1 as <-.
  destruct (H2 m2 B2) as (r2 & R2 & _ & D2). rewrite E2 in R2. injection R2 as <-.
  assert (BSs : bytes (slice sig 0 (hash_len p))) by (apply Forall_firstn, Forall_skipn; auto).
  split. { apply Forall_app; split; auto. apply Forall_app; auto. }
  split. { apply Forall_app; split; auto. apply Forall_app; auto. }
  split; [lia|]. split; [exact L1|]. split.
  - intros E. apply app_inj_len in E; [|lia]. destruct E as [_ E]. apply app_inv_tail in E. auto.
  - rewrite (proj1 D1 eq_refl), (proj1 D2 eq_refl). reflexivity.
Qed.

(** The hypotheses are met twice over by a hash function with collisions: if every digest is the one in the signature of
    [C01_example], this signature is accepted for all messages. *)
Definition with_final (X : prim) (f : hstate X -> list Z) : prim :=
  {| xstate := xstate X; x_init := x_init X; x_squeeze := x_squeeze X; hstate := hstate X; h_init := h_init X; h_absorb := h_absorb X; h_final := f |}.
Lemma verify_final X p fuel junk pk m sig D f : rd sig (off_digest p) (hash_len p) = Ok D -> length D = hash_len p -> (forall h, f h = D) ->
  LESS_verify X p fuel junk pk m sig = Ok 1 -> forall m', LESS_verify (with_final X f) p fuel junk pk m' sig = Ok 1.
Proof.
  intros ED HD HF E m'. unfold LESS_verify in *. rewrite ED in *. cbn [bind] in *.
  apply bind_ok in E. destruct E as (fws & E1 & E). change (expand_digest_to_fixed_weight (with_final X f)) with (expand_digest_to_fixed_weight X). rewrite E1. cbn [bind].
  apply bind_ok in E. destruct E as (salt & E2 & E). rewrite E2. cbn [bind].
  apply bind_ok in E. destruct E as ([n tree] & E3 & E). change (rebuild_seed_tree_leaves (with_final X f)) with (rebuild_seed_tree_leaves X). rewrite E3. cbn [bind].
  apply bind_ok in E. destruct E as (g0 & E4 & E). rewrite E4. cbn [bind].
  apply bind_ok in E. destruct E as (G0 & E5 & E). change (generator_SF_seed_expand (with_final X f)) with (generator_SF_seed_expand X). rewrite E5. cbn [bind].
  apply bind_ok in E. destruct E as (r & E6 & E). change (verify_loop (with_final X f)) with (verify_loop X). change (h_init (with_final X f)) with (h_init X). rewrite E6. cbn [bind].
  destruct r as [h|]; [|discriminate]. cbv zeta. cbn [with_final h_final]. rewrite HF.
  destruct (timing_safe_memcmp_spec D D (hash_len p)) as (d & -> & _ & M); try lia. cbn [bind]. rewrite (proj2 M eq_refl). reflexivity.
Qed.
Lemma keypair_final X p fuel sk pk f : keypair X p fuel sk pk -> keypair (with_final X f) p fuel sk pk.
Proof. intros H. exact H. Qed.
Definition toy_digest : list Z := Eval vm_compute in slice toy_sig80 (off_digest toy_params) (hash_len toy_params).
Definition constX : prim := with_final toyX (fun _ => toy_digest).
Lemma constX_lawful : lawful constX (hash_len toy_params).
Proof.
  destruct toyX_lawful as [L1 L2 L3 L4 L5]. constructor; auto.
  intros. apply Forall_forall. intros x Hx. assert (B : forallb (fun b => (0 <=? b) && (b <? 256)) toy_digest = true) by reflexivity.
  rewrite forallb_forall in B. specialize (B x Hx). unfold is_byte. lia.
Qed.
Example C06_example :
  lawful constX (hash_len toy_params) /\ keypair constX toy_params 1000 toy_sk toy_pk /\ length toy_sig80 = sizeof_sign toy_params /\ bytes toy_sig80 /\
  forall m fuel junk, (1000 <= fuel)%nat -> LESS_verify constX toy_params fuel junk toy_pk m toy_sig80 = Ok 1.
Proof.
  split; [exact constX_lawful|]. split; [exact (keypair_final toyX toy_params 1000 toy_sk toy_pk _ toy_keypair)|]. split; [reflexivity|]. split; [exact toy_sig80_bytes|].
  intros m fuel junk Hf. apply (verify_final toyX toy_params fuel junk toy_pk toy_msg toy_sig80 toy_digest); [reflexivity|reflexivity|intros; reflexivity|exact (toy_accepts fuel junk Hf)].
Qed.

(** *** C15, second part *)
Lemma verify_bool X p fuel junk pk m sig r : LESS_verify X p fuel junk pk m sig = Ok r -> r = 0 \/ r = 1.
Proof.
  intros E. unfold LESS_verify in E.
  apply bind_ok in E. destruct E as (? & _ & E). apply bind_ok in E. destruct E as (? & _ & E).
  apply bind_ok in E. destruct E as (? & _ & E). apply bind_ok in E. destruct E as ([? ?] & _ & E).
  apply bind_ok in E. destruct E as (? & _ & E). apply bind_ok in E. destruct E as (? & _ & E).
  apply bind_ok in E. destruct E as ([h|] & _ & E).
  - cbv zeta in E. apply bind_ok in E. destruct E as (d & _ & E). injection E as <-. destruct (d =? 0); auto.
  - injection E as <-. auto.
Qed.

(** Whatever the public key, an accepted signature contains well-formed actions only ... *)
Theorem C15_accepted : forall X p, wf_params p -> lawful X (hash_len p) ->
  forall fuel junk pk m sig, (forall a b, is_byte (junk a b)) -> bytes m -> bytes sig ->
  LESS_verify X p fuel junk pk m sig = Ok 1 ->
  forall u, (u < pW p)%nat -> exists a, unpacks_action p (slice sig (off_monom p u) (mono_bytes p)) a /\ good_act p a.
Proof.
  intros X p wf LX fuel junk pk m sig HJ Hm HS E u Hu.
  destruct (proj1 (verify_transcript X p wf LX fuel junk pk m sig HJ Hm HS E) u Hu) as (a & (A & D) & AO).
  exists a. split; [exact D|]. apply good_act_ok. exact AO.
Qed.

(** ... so a run on a signature one of whose W actions is not well formed returns 0 if it returns. *)
Theorem C15_rejected : forall X p, wf_params p -> lawful X (hash_len p) ->
  forall fuel junk pk m sig, (forall a b, is_byte (junk a b)) -> bytes m -> bytes sig ->
  forall u a, (u < pW p)%nat -> unpacks_action p (slice sig (off_monom p u) (mono_bytes p)) a -> ~ good_act p a ->
  forall r, LESS_verify X p fuel junk pk m sig = Ok r -> r = 0.
Proof.
  intros X p wf LX fuel junk pk m sig HJ Hm HS u a Hu HA HN r E.
  destruct (verify_bool X p fuel junk pk m sig r E) as [-> | ->]; auto. exfalso. apply HN.
  destruct (C15_accepted X p wf LX fuel junk pk m sig HJ Hm HS E u Hu) as (b & D & G).
  assert (J : act_array p (junk_action p junk 0)) by apply junk_action_mem.
  specialize (D _ J). rewrite (HA _ J) in D. injection D as <-. exact G.
Qed.

(** The signature of [C01_example] with the first action overwritten by zeroes (zero coefficients). *)
Example C15_verify_example :
  LESS_verify toyX toy_params 1000 (fun _ _ => 0) toy_pk toy_msg toy_sig80 = Ok 1 /\
  (let sig := toy_sig80 in
   sig' <- wr sig (off_monom toy_params 0) (repeat 0 (mono_bytes toy_params)) ;;
   a <- expand_to_monom_action toy_params ex_A0 (slice sig (off_monom toy_params 0) (mono_bytes toy_params)) ;;
   a' <- expand_to_monom_action toy_params ex_A0 (slice sig' (off_monom toy_params 0) (mono_bytes toy_params)) ;;
   r' <- LESS_verify toyX toy_params 1000 (fun _ _ => 0) toy_pk toy_msg sig' ;;
   Ok (a_perm a, a_coef a, a_perm a', a_coef a', r')) =
  Ok ([49; 108; 93], [65; 62; 61], [0; 0; 0], [0; 0; 0], 0).
Proof. split. exact toy_accept. vm_compute. reflexivity. Qed.

(** *** C07 *)
Theorem C07_public_key : forall X p, wf_params p -> lawful X (hash_len p) ->
  forall fk sk pk, keypair X p fk sk pk ->
  exists c G0,
    slice sk (off_sk_g0 p) (seed_len p) = slice pk 0 (seed_len p) /\
    (forall f old, (fk <= f)%nat -> shape (pK p) (pN p - pK p) (r_vals old) -> length (r_pos old) = (pN p - pK p)%nat ->
       generator_SF_seed_expand X p f old (slice pk 0 (seed_len p)) = Ok c) /\
    (forall old, matrix p old -> generator_rref_expand p old c = Ok G0) /\ good_matrix p G0 /\
    forall x, (x < p_nk p - 1)%nat ->
      exists Qinv Q M G piv,
        (forall f old, (fk <= f)%nat -> mono_array p old ->
           monomial_mat_seed_expand_prikey X p f old
             (nth x (private_seeds X p (p_nk p - 1) (x_init X (slice sk 0 (prikey_seed_len p)))) []) = Ok Qinv) /\
        good_mono p Qinv /\ good_mono p Q /\
        (forall old, mono_array p old -> monomial_mat_inv p old Qinv = Ok Q) /\
        times_monomial (pK p) (pN p) (ent G0) (m_perm Q) (m_coef Q) M /\
        unpacks_matrix p (slice pk (off_sf p x) (rref_bytes p)) G /\
        good_matrix p G /\ is_rref (pK p) (pN p) (ent G) piv /\ same_code (pK p) (pN p) M (ent G).
Proof.
  intros X p wf LX fk sk pk HK. apply (keypair_honest X p fk sk pk wf LX) in HK.
  destruct HK as [(csk & g0 & c & fullG & H1 & H2 & H3 & H4 & H5 & H6 & H7 & H8 & H9)].
  destruct H4 as (S1 & S2 & S3).
  assert (Eg : slice sk (off_sk_g0 p) (seed_len p) = g0).
  { unfold slice, off_sk_g0. subst sk. rewrite <- H2, skipn_app, skipn_all, Nat.sub_diag. cbn [app skipn].
    rewrite <- H3. apply firstn_all. }
  assert (Ep : slice pk 0 (seed_len p) = g0) by exact H8.
  assert (Ec : slice sk 0 (prikey_seed_len p) = csk).
  { unfold slice. cbn [skipn]. subst sk. rewrite <- H2, firstn_app, firstn_all, Nat.sub_diag. cbn [firstn]. apply app_nil_r. }
  rewrite Eg, Ep, Ec. exists c, fullG. split; auto. split.
  { intros f old Hf R1 R2. apply S1; auto. constructor; auto. }
  split; [exact S2|]. split; [exact S3|].
  intros x Hx. destruct (H9 x Hx) as (Qinv & G & (QO & QS) & (Mx & M1 & M2) & (GS & GD) & GO & (pv & HR) & _).
  destruct (monomial_mat_inv_spec p wf (junk_monomial p (fun _ _ => 0) 0) Qinv (junk_monomial_mem p _ _) QO) as (Q & EQ & OQ & PQ & CQ).
  exists Qinv, Q, Mx, G, pv. split; [exact QS|]. split; [apply good_mono_ok; auto|]. split; [apply good_mono_ok; auto|].
  split.
  { intros old Ho. destruct (monomial_mat_inv_spec p wf old Qinv Ho QO) as (Q' & EQ' & OQ' & PQ' & CQ').
    rewrite EQ'. f_equal. apply (mono_ext p); auto; intros s Hs; destruct (perm_surj p Qinv s QO Hs) as (j & Hj & <-).
    - rewrite PQ, PQ'; auto.
    - rewrite CQ, CQ'; auto. }
  split.
  { intros i s Hi Hs. destruct (perm_surj p Qinv s QO Hs) as (j & Hj & <-).
    change (nth (pf (m_perm Qinv) j) (m_perm Q) 0) with (nthZ (m_perm Q) (pf (m_perm Qinv) j)).
    change (Z.to_nat (nthZ (m_perm Q) (pf (m_perm Qinv) j))) with (pf (m_perm Q) (pf (m_perm Qinv) j)).
    change (nth (pf (m_perm Qinv) j) (m_coef Q) 0) with (nthZ (m_coef Q) (pf (m_perm Qinv) j)).
    rewrite PQ, CQ by auto. rewrite M1 by auto. reflexivity. }
  split; [exact GD|]. split; [exact GO|]. split; [exact HR|]. apply row_equiv_same_code. exact M2.
Qed.

(** The toy key pair: from the secret key alone, recompute the second component of the public key. *)
Example C07_example :
  keypair toyX toy_params 1000 toy_sk toy_pk /\
  (c <- generator_SF_seed_expand toyX toy_params 1000 (junk_rref toy_params toy_junk 3) (slice toy_sk (off_sk_g0 toy_params) 16) ;;
   G0 <- generator_rref_expand toy_params ex_G c ;;
   Qinv <- monomial_mat_seed_expand_prikey toyX toy_params 1000 ex_M0
     (nth 1 (private_seeds toyX toy_params 2 (x_init toyX (slice toy_sk 0 32))) []) ;;
   Q <- monomial_mat_inv toy_params ex_M0 Qinv ;;
   M <- generator_monomial_mul toy_params ex_G G0 Q ;;
   ' (_, R, _) <- generator_RREF toy_params M (repeat 0 132) ;;
   G <- expand_to_rref toy_params ex_G (slice toy_pk (off_sf toy_params 1) (rref_bytes toy_params)) ;;
   Ok (if list_eq_dec (list_eq_dec Z.eq_dec) R G then true else false, map (fun r => firstn 8 r) G)) = Ok (true,
     [[1; 0; 0; 61; 63; 51; 107; 104]; [0; 1; 0; 35; 82; 101; 107; 25]; [0; 0; 1; 38; 62; 119; 63; 49]]).
Proof.
  split; [exact toy_keypair|vm_compute; reflexivity].
Qed.

(** *** C08 *)
Theorem C08_keygen_safe : forall X p, wf_params p -> lawful X (hash_len p) ->
  forall fuel junk rng sk pk, length sk = sizeof_sk p -> length pk = sizeof_pk p -> bytes pk ->
  LESS_keygen X p fuel junk rng sk pk <> UB /\
  forall sk' pk' rng', LESS_keygen X p fuel junk rng sk pk = Ok (sk', pk', rng') ->
    length sk' = sizeof_sk p /\ length pk' = sizeof_pk p /\ bytes sk' /\ bytes pk'.
Proof.
  intros X p wf LX fuel junk rng sk pk H1 H2 H3.
  pose proof (LESS_keygen_spec X p wf LX fuel junk rng sk pk H1 H2 H3) as S.
  destruct (LESS_keygen X p fuel junk rng sk pk) as [[[sk' pk'] rng']| |]; cbn in S.
  - split; [discriminate|]. intros a b c E. injection E as <- <- <-.
    destruct S as [(csk & g0 & c & G & -> & A1 & A2 & _ & A3 & A4 & A5 & _)].
    split. { rewrite app_length, A1, A2. reflexivity. } auto.
  - destruct S.
  - split; discriminate.
Qed.

Theorem C08_sign_safe : forall X p, wf_params p -> lawful X (hash_len p) ->
  forall fuel junk rng sk m sig, length sk = sizeof_sk p -> length sig = sizeof_sign p -> bytes sig ->
  LESS_sign X p fuel junk rng sk m sig <> UB /\
  forall sig' num rng', LESS_sign X p fuel junk rng sk m sig = Ok (sig', num, rng') ->
    length sig' = sizeof_sign p /\ bytes sig' /\ Z.of_nat num <= max_seeds p /\
    (num * seed_len p + 1 <= seed_storage_len p)%nat /\
    nth (off_seeds p + num * seed_len p) sig' 0 = Z.of_nat num.
Proof.
  intros X p wf LX fuel junk rng sk m sig H1 H2 H3.
  pose proof (LESS_sign_spec X p wf LX fuel junk rng sk m sig H1 H2 H3) as S.
  destruct (LESS_sign X p fuel junk rng sk m sig) as [[[sig' num] rng']| |]; cbn in S.
  - split; [discriminate|]. intros a b c E. injection E as <- <- <-.
    destruct S as (tree & c & fullG & acts & Vs & fws & fl & S). destruct S. unfold seed_storage_len.
    split; [auto|]. split; [auto|]. split; [auto|]. split; [lia|auto].
  - destruct S.
  - split; discriminate.
Qed.

Example C08_example :
  length toy_sk = sizeof_sk toy_params /\ length toy_sig80 = sizeof_sign toy_params /\
  LESS_sign toyX toy_params 1000 toy_junk 80 toy_sk toy_msg (repeat 3 (sizeof_sign toy_params)) = Ok (toy_sig80, 2%nat, toy_rng80) /\
  nth (off_seeds toy_params + 2 * seed_len toy_params) toy_sig80 0 = 2.
Proof. split; [reflexivity|]. split; [reflexivity|]. split; [exact toy_sign_run|reflexivity]. Qed.

(** *** C34 *)

(** Number of non-zero challenges before round [t]. *)
Definition responses_before (chal : list Z) (t : nat) : nat := weight (firstn t chal).

(** [V] is what round [t] contributes to the hash, given the challenge, the leaves and G_0. *)
Definition valid_round (X : prim) (p : params) (fuel : nat) (pk sig chal : list Z) (tree : list (list Z)) (G0 : mat)
    (t : nat) (V : mat) : Prop :=
  if nth t chal 0 =? 0 then
    exists Q M,
      monomial_mat_seed_expand_salt_rnd X p fuel {| m_coef := repeat 0 (pN p); m_perm := repeat 0 (pN p) |}
        (nth (num_leaves p - 1 + t) tree []) (slice sig 0 (hash_len p)) t = Ok Q /\
      times_monomial (pK p) (pN p) (ent G0) (m_perm Q) (m_coef Q) M /\ normal_form (pK p) (pN p) M V
  else
    exists G a M,
      unpacks_matrix p (slice pk (off_sf p (Z.to_nat (nth t chal 0 - 1))) (rref_bytes p)) G /\
      unpacks_action p (slice sig (off_monom p (responses_before chal t)) (mono_bytes p)) a /\ good_act p a /\
      times_action (pK p) (pN p) (ent G) (a_perm a) (a_coef a) M /\ normal_form (pK p) (pN p) M V.

(** What a valid signature is: the challenge is the expansion of the digest; the leaves are rebuilt from
    the seeds; every round yields the normal form of a code equivalent to G_0 or to a component of the
    key; and the digest is the hash of these, the message and the salt. *)
Definition valid_signature (X : prim) (p : params) (fuel : nat) (pk m sig : list Z) : Prop :=
  exists chal n tree c G0 Vs,
    expand_digest_to_fixed_weight X p fuel (repeat 0 (pT p)) (slice sig (off_digest p) (hash_len p)) = Ok chal /\
    rebuild_seed_tree_leaves X p (repeat (repeat 0 (seed_len p)) (num_nodes p))
      (map (fun x => b2z (negb (x =? 0))) chal) (skipn (off_seeds p) sig) (slice sig 0 (hash_len p)) = Ok (n, tree) /\
    generator_SF_seed_expand X p fuel (junk_rref p (fun _ _ => 0) 0) (slice pk 0 (seed_len p)) = Ok c /\
    generator_rref_expand p (repeat (repeat 0 (pN p)) (pK p)) c = Ok G0 /\
    length Vs = pT p /\ (forall t, (t < pT p)%nat -> valid_round X p fuel pk sig chal tree G0 t (nth t Vs [])) /\
    digest_of X (concat (map (@concat Z) Vs) ++ m ++ slice sig 0 (hash_len p)) = slice sig (off_digest p) (hash_len p).

Lemma responses_cnt l t : (t <= length l)%nat -> responses_before l t = cnt (nz l) t.
Proof.
  intros H. unfold responses_before. rewrite weight_cnt, firstn_length, Nat.min_l by auto. apply cnt_ext.
  intros c Hc. unfold nz. rewrite nth_firstn by lia. reflexivity.
Qed.

Section V34.
Variable X : prim.
Variable p : params.
Hypothesis wf : wf_params p.
Hypothesis LX : lawful X (hash_len p).
Notation N := (pN p).
Notation K := (pK p).
Notation w := (pN p - pK p)%nat.

Lemma normal_form_vmem M V : normal_form K N M V -> vmem p V.
Proof.
  intros (R & piv & cs & H1 & H2 & H3 & H4 & H5 & H6 & H7). split; auto.
  intros i j Hi Hj.
  assert (In (column K (ent V) j) cs).
  { eapply Permutation_in; [apply Permutation_sym; exact H6|]. unfold columns. apply in_map. apply in_seq. lia. }
  assert (F : Forall (Forall fq) cs). { clear -H4. induction H4; constructor; auto. apply H. }
  rewrite Forall_forall in F. specialize (F _ H). rewrite Forall_forall in F.
  assert (fq (ent V i j)). { apply F. unfold column. apply (in_map (fun i => ent V i j)). apply in_seq. lia. }
  unfold fq, is_byte in *. lia.
Qed.

Lemma vround_valid fuel pk sig tree G0 chal t V : (t < pT p)%nat -> length chal = pT p ->
  vround X p fuel pk sig tree G0 chal t V -> valid_round X p fuel pk sig chal tree G0 t V.
Proof.
  intros Ht HL. unfold vround, valid_round, nz. rewrite responses_cnt by lia. destruct (nth t chal 0 =? 0); cbn [negb].
  - intros (Q & a & S & P). destruct (prep_normal p G0 Q V a P) as (M & H1 & H2). exists Q, M. split; auto.
    apply S; auto. split; apply repeat_length.
  - intros (G & a & (GS & GD) & (AS & AD) & AO & C). destruct (chal_normal p wf G a V AO C) as (M & H1 & H2).
    exists G, a, M. split; [exact GD|]. split; [exact AD|]. split; [apply good_act_ok; auto|]. auto.
Qed.

Lemma valid_round_vmem fuel pk sig tree G0 chal t V : valid_round X p fuel pk sig chal tree G0 t V -> vmem p V.
Proof.
  unfold valid_round. destruct (nth t chal 0 =? 0).
  - intros (Q & M & _ & _ & H). eapply normal_form_vmem; eauto.
  - intros (G & a & M & _ & _ & _ & _ & H). eapply normal_form_vmem; eauto.
Qed.

Lemma valid_round_det fuel pk sig tree G0 chal t V V' :
  valid_round X p fuel pk sig chal tree G0 t V -> valid_round X p fuel pk sig chal tree G0 t V' -> V = V'.
Proof.
  unfold valid_round. destruct (nth t chal 0 =? 0).
  - intros (Q & M & E & T & H) (Q' & M' & E' & T' & H'). rewrite E in E'. injection E' as <-.
    apply (normal_form_unique K N M M'); auto. apply cong_code. intros i j Hi Hj.
    assert (QO : mono_ok p Q).
    { unfold monomial_mat_seed_expand_salt_rnd in E.
      assert (MZ : mono_mem p {| m_coef := repeat 0 N; m_perm := repeat 0 N |}) by (split; apply repeat_length).
      pose proof (expand_sampled X p wf fuel _ (nth (num_leaves p - 1 + t) tree [] ++ slice sig 0 (hash_len p) ++ round_bytes t) LX MZ) as W.
      rewrite E in W. apply W. }
    destruct (perm_surj p Q j QO Hj) as (s & Hs & <-). specialize (T i s Hi Hs). specialize (T' i s Hi Hs).
    change (Z.to_nat (nth s (m_perm Q) 0)) with (pf (m_perm Q) s) in *. rewrite T, T'. reflexivity.
  - intros (G & a & M & D & A & O & T & H) (G' & a' & M' & D' & A' & O' & T' & H').
    assert (J : matrix p (repeat (repeat 0 N) K)) by apply zero_mat_shape.
    assert (J' : act_array p (junk_action p (fun _ _ => 0) 0)) by apply junk_action_mem.
    specialize (D _ J). specialize (D' _ J). rewrite D in D'. injection D' as <-.
    specialize (A _ J'). specialize (A' _ J'). rewrite A in A'. injection A' as <-.
    apply (normal_form_unique K N M M'); auto. apply cong_code. intros i j Hi Hj.
    apply good_act_ok in O. pose proof (proj1 (times_action_src p wf (ent G) a M O) T i j Hi Hj) as T1.
    pose proof (proj1 (times_action_src p wf (ent G) a M' O) T' i j Hi Hj) as T2. rewrite T1, T2. reflexivity.
Qed.

Lemma hash_transcript Vs m salt : Forall (vmem p) Vs -> bytes m -> bytes salt ->
  h_final X (h_absorb X (h_absorb X (fold_left (absorbV X) Vs (h_init X)) m) salt) =
  digest_of X (concat (map (@concat Z) Vs) ++ m ++ salt).
Proof.
  intros HV Hm Hs. rewrite (law_absorb _ _ LX) by auto. rewrite (absorb_all X p LX); auto. apply Forall_app. auto.
Qed.

Lemma Forall_nth_mat (P : mat -> Prop) l n : length l = n -> (forall t, (t < n)%nat -> P (nth t l [])) -> Forall P l.
Proof.
  intros HL H. apply Forall_forall. intros x Hx. apply (In_nth _ _ []) in Hx. destruct Hx as (t & Ht & <-). apply H. lia.
Qed.

Lemma accepted_valid fuel pk m sig : bytes m -> bytes sig -> accepted X p fuel pk m sig -> valid_signature X p fuel pk m sig.
Proof.
  intros Hm HB [(fws & t0 & tree & c & G0 & Vs & C & E1 & E2 & (S1 & S2 & S3) & L & R & D)].
  exists fws, t0, tree, c, G0, Vs. split; [exact E1|]. split; [exact E2|].
  split. { apply S1; auto. apply junk_rref_mem. } split. { apply S2. apply zero_mat_shape. }
  split; [exact L|].
  assert (R' : forall t, (t < pT p)%nat -> valid_round X p fuel pk sig fws tree G0 t (nth t Vs [])).
  { intros t Ht. apply vround_valid; auto. apply C. }
  split; [exact R'|]. rewrite <- hash_transcript; auto.
  - apply (Forall_nth_mat _ Vs (pT p) L). intros t Ht. eapply valid_round_vmem. apply R'. auto.
  - apply Forall_firstn. exact HB.
Qed.

Lemma rejected_invalid fuel pk m sig : bytes m -> bytes sig -> rejected X p fuel pk m sig -> ~ valid_signature X p fuel pk m sig.
Proof.
  intros Hm HB [(fws & t0 & tree & c & G0 & C & E1 & E2 & (S1 & S2 & S3) & R)] (chal & n & tree' & c' & G0' & Vs' & F1 & F2 & F3 & F4 & L' & R' & D').
  unfold sig_digest in E1. unfold slice in F1. rewrite E1 in F1. injection F1 as <-.
  unfold sig_salt in E2. unfold slice in F2. cbn [skipn] in F2. change (map (fun x => b2z (negb (x =? 0))) fws) with (to_publish fws) in F2.
  rewrite E2 in F2. injection F2 as <- <-.
  unfold slice in F3. cbn [skipn] in F3. unfold pk_seed in S1. rewrite S1 in F3; [|lia|apply junk_rref_mem]. injection F3 as <-.
  rewrite S2 in F4 by apply zero_mat_shape. injection F4 as <-.
  destruct R as [(t & a & Ht & Hz & D & NA)|(Vs & L & R & D)].
  - specialize (R' t Ht). unfold valid_round in R'. unfold nz in Hz. destruct (nth t fws 0 =? 0); [discriminate|].
    destruct R' as (G & b & M & _ & A & O & _). rewrite responses_cnt in A by (destruct C as (C1 & _); lia).
    pose proof (unpacks_decodes p _ _ _ D A) as <-. apply NA. apply good_act_ok. exact O.
  - apply D. clear D.
    assert (R2 : forall t, (t < pT p)%nat -> valid_round X p fuel pk sig fws tree G0 t (nth t Vs [])).
    { intros t Ht. apply vround_valid; auto. apply C. }
    assert (EV : Vs = Vs').
    { apply (list_ext []); [lia|]. intros t Ht. apply (valid_round_det fuel pk sig tree G0 fws t). apply R2. lia. apply R'. lia. }
    subst Vs'. rewrite hash_transcript; auto.
    + apply (Forall_nth_mat _ Vs (pT p) L). intros t Ht. eapply valid_round_vmem. apply R'. auto.
    + apply Forall_firstn. exact HB.
Qed.
End V34.

Theorem C34_exactly : forall X p, wf_params p -> lawful X (hash_len p) ->
  forall fk sk pk, keypair X p fk sk pk ->
  forall fuel junk m sig, length sig = sizeof_sign p -> bytes sig -> bytes m ->
  forall r, LESS_verify X p fuel junk pk m sig = Ok r ->
    (r = 1 /\ valid_signature X p fuel pk m sig) \/ (r = 0 /\ ~ valid_signature X p fuel pk m sig).
Proof.
  intros X p wf LX fk sk pk HK fuel junk m sig HL HB Hm r E.
  apply (keypair_honest X p fk sk pk wf LX) in HK. apply honest_pk_wf in HK.
  assert (G : gp True (LESS_verify X p fuel junk pk m sig)
     (fun r => (r = 1 /\ accepted X p fuel pk m sig) \/ (r = 0 /\ rejected X p fuel pk m sig))).
  { apply LESS_verify_gp; auto. { rewrite HL. unfold sizeof_sign. lia. } left. lia. }
  rewrite E in G. cbn in G. destruct G as [[-> A]|[-> A]]; [left|right]; split; auto.
  - apply accepted_valid; auto.
  - apply rejected_invalid; auto.
Qed.

Example C34_example :
  let sig := toy_sig80 in
  valid_signature toyX toy_params 1000 toy_pk toy_msg sig /\ ~ valid_signature toyX toy_params 1000 toy_pk [1; 2; 4] sig.
Proof.
  intros sig.
  assert (B : forallb (fun b => (0 <=? b) && (b <? 256)) sig = true) by (vm_compute; reflexivity).
  assert (HB : bytes sig).
  { apply Forall_forall. intros x Hx. rewrite forallb_forall in B. specialize (B x Hx). unfold is_byte. lia. }
  assert (HL : length sig = sizeof_sign toy_params) by (vm_compute; reflexivity).
  assert (B1 : bytes toy_msg) by (repeat constructor; unfold is_byte; lia).
  assert (B2 : bytes [1; 2; 4]) by (repeat constructor; unfold is_byte; lia).
  assert (E1 : LESS_verify toyX toy_params 1000 (fun _ _ => 0) toy_pk toy_msg sig = Ok 1) by exact toy_accept.
  assert (E2 : LESS_verify toyX toy_params 1000 (fun _ _ => 0) toy_pk [1; 2; 4] sig = Ok 0) by exact toy_reject.
  clearbody sig. destruct C07_example as [HK _]. split.
  - destruct (C34_exactly _ _ toy_wf toyX_lawful _ _ _ HK _ _ _ _ HL HB B1 _ E1) as [[_ V]|[C _]]; [exact V|discriminate].
  - destruct (C34_exactly _ _ toy_wf toyX_lawful _ _ _ HK _ _ _ _ HL HB B2 _ E2) as [[C _]|[_ V]]; [discriminate|exact V].
Qed.

Print Assumptions C01_correct.
Print Assumptions C01_prefix.
Print Assumptions C05_verify_safe.
Print Assumptions C06_transcript.
Print Assumptions C06_binding.
Print Assumptions C07_public_key.
Print Assumptions C08_keygen_safe.
Print Assumptions C08_sign_safe.
Print Assumptions C15_accepted.
Print Assumptions C15_rejected.
Print Assumptions C34_exactly.
