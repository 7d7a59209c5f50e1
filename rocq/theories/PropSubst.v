(** Property C66: of the public key a signature binds only what its rounds look at. The same signature is accepted for
    other keys, and exactly how the keys may differ. *)
From Coq Require Import Sorted Permutation.
From Verif Require Import Base BaseLemmas Sums Params ParamsProofs Fq FqProofs Prim Samplers Monomial Codes SeedTree Utils Less Sign Spec
  EnumProofs LinAlg BitCodec CodecProofs RrefCodec LayoutProofs RrefProofs LexProofs MonoProofs ActionProofs CanonProofs SamplerProofs SeedTreeProofs
  FuelProofs SampleSpec RoundProofs VerifyProofs SignerProofs AnyKeyProofs PropCanon PropScheme ScriptRun DetProofs Toy PropApi
  LessSpec SpecSampling SpecBridge SpecMain SpecVerify PropSpec PropBind.

Section D.
Variable X : prim.
Variable p : params.
Notation N := (pN p).
Notation K := (pK p).

(** The strings hashed for a signature under one key and a signature under another (with the challenge that the digest
    of [sig] gives) are different and have the same hash. *)
Definition collide_keys (pk m sig pk' m' sig' : list Z) : Prop := exists chal Vs Vs',
  challenge_of X p (bytes_at sig (off_digest p) (hash_len p)) chal /\ leads_to X p pk sig chal Vs /\ leads_to X p pk' sig' chal Vs' /\
  hashed p Vs m sig <> hashed p Vs' m' sig' /\ hash X (hashed p Vs m sig) = hash X (hashed p Vs' m' sig').

(** Component [x] of the key [pk] is the matrix [A]. *)
Definition component (pk : list Z) (x : nat) (A : matf) : Prop := exists piv,
  packed_matrix p (bytes_at pk (off_sf p x) (rref_bytes p)) A piv /\ reduced K N A /\ is_rref K N A piv.

(** The responses of [sig] to challenge [x + 1] do not notice when the columns of the code are permuted by [g] and scaled
    by [e]: the columns which they name stay in place and are all scaled by the same factor. *)
Definition spared (sig chal : list Z) (x : nat) (g : nat -> nat) (e : nat -> Z) : Prop :=
  forall t, (t < pT p)%nat -> nth t chal 0 = Z.of_nat (S x) ->
    forall rp rc, read_action p (bytes_at sig (off_monom p (weight (firstn t chal))) (mono_bytes p)) rp rc ->
    exists lam, ~ lam == 0 /\ forall k, (k < K)%nat -> g (Z.to_nat (nth k rp 0)) = Z.to_nat (nth k rp 0) /\ e (Z.to_nat (nth k rp 0)) == lam.

(** The columns that the responses of [sig] to challenge [x + 1] name are information sets of the code of [A]. *)
Definition named_independent (sig chal : list Z) (x : nat) (A : matf) : Prop :=
  forall t, (t < pT p)%nat -> nth t chal 0 = Z.of_nat (S x) ->
    forall rp rc M, read_action p (bytes_at sig (off_monom p (weight (firstn t chal))) (mono_bytes p)) rp rc ->
    times_action K N A rp rc M -> exists R, same_code K N M R /\ is_rref K N R (fun k => k).

(** [pk'] is [pk] except for component [x], which is the code of [A] with columns permuted by [g] and scaled by [e]. *)
Definition substituted (pk : list Z) (x : nat) (A : matf) (g : nat -> nat) (e : nat -> Z) (pk' : list Z) : Prop :=
  bytes_at pk' 0 (seed_len p) = bytes_at pk 0 (seed_len p) /\
  (forall y, (y < p_nk p - 1)%nat -> y <> x -> bytes_at pk' (off_sf p y) (rref_bytes p) = bytes_at pk (off_sf p y) (rref_bytes p)) /\
  exists M A', col_monomial K N A M g e /\ same_code K N M A' /\ component pk' x A'.
End D.

(** *** What is not looked at *)

(** A signature that is valid under one key is valid under every key with the same seed and the same components where
    the challenge asks for them. *)
Theorem C66_unused : forall X p pk pk' m sig chal,
  challenge_of X p (bytes_at sig (off_digest p) (hash_len p)) chal ->
  bytes_at pk' 0 (seed_len p) = bytes_at pk 0 (seed_len p) ->
  (forall t, (t < pT p)%nat -> nth t chal 0 <> 0 ->
     bytes_at pk' (off_sf p (Z.to_nat (nth t chal 0 - 1))) (rref_bytes p) = bytes_at pk (off_sf p (Z.to_nat (nth t chal 0 - 1))) (rref_bytes p)) ->
  (valid X p pk m sig <-> valid X p pk' m sig).
Proof.
  assert (H : forall X p pk pk' m sig chal, challenge_of X p (bytes_at sig (off_digest p) (hash_len p)) chal ->
    bytes_at pk' 0 (seed_len p) = bytes_at pk 0 (seed_len p) ->
    (forall t, (t < pT p)%nat -> nth t chal 0 <> 0 ->
       bytes_at pk' (off_sf p (Z.to_nat (nth t chal 0 - 1))) (rref_bytes p) = bytes_at pk (off_sf p (Z.to_nat (nth t chal 0 - 1))) (rref_bytes p)) ->
    valid X p pk m sig -> valid X p pk' m sig).
  { intros X p pk pk' m sig chal C ES EC V. apply valid_leads_to in V. destruct V as (chal2 & Vs & C2 & L & HH).
    pose proof (challenge_of_det X p _ _ _ C C2) as <-. apply valid_leads_to. exists chal, Vs. split; auto. split; auto.
    destruct L as (nodes & seeds & G0 & A1 & A2 & A3 & A4 & A5 & A6 & A7). exists nodes, seeds, G0. rewrite ES.
    split; auto. split; auto. split; auto. split; auto. split; auto. split; auto. intros t Ht. specialize (A7 t Ht). specialize (EC t Ht).
    unfold checks_round in *. destruct (Z.eqb_spec (nth t chal 0) 0) as [|NE]; auto. rewrite (EC NE). exact A7. }
  intros X p pk pk' m sig chal C ES EC. split; apply (H X p _ _ m sig chal C); auto.
  intros t Ht NE. symmetry. auto.
Qed.

(** *** What is bound *)

(** If signatures with the same digest are valid under two keys, they are signatures of the same message with the same salt
    and in every round the codes of the two keys that the challenge asks for are equivalent; otherwise the strings hashed
    for the two are a collision. *)
Theorem C66_bound : forall X p, wf_params p -> lawful X (hash_len p) ->
  forall pk m sig pk' m' sig', valid X p pk m sig -> valid X p pk' m' sig' ->
  bytes_at sig (off_digest p) (hash_len p) = bytes_at sig' (off_digest p) (hash_len p) ->
  (m = m' /\ bytes_at sig 0 (hash_len p) = bytes_at sig' 0 (hash_len p) /\
     exists chal, challenge_of X p (bytes_at sig (off_digest p) (hash_len p)) chal /\
       forall t, (t < pT p)%nat -> exists A A', key_matrix X p pk (nth t chal 0) A /\ key_matrix X p pk' (nth t chal 0) A' /\
         equivalent_codes (pK p) (pN p) A A') \/
  collide_keys X p pk m sig pk' m' sig'.
Proof.
  intros X p wf LX pk m sig pk' m' sig' V V' ED. apply valid_leads_to in V. apply valid_leads_to in V'.
  destruct V as (chal & Vs & C1 & L1 & H1). destruct V' as (chal' & Vs' & C2 & L2 & H2).
  rewrite <- ED in C2, H2. pose proof (challenge_of_det X p _ _ _ C1 C2) as <-.
  fold (hashed p Vs m sig) in H1. fold (hashed p Vs' m' sig') in H2.
  destruct (list_eq_dec Z.eq_dec (hashed p Vs m sig) (hashed p Vs' m' sig')) as [E|NE]; [left|right; exists chal, Vs, Vs'; repeat split; auto; congruence].
  pose proof (leads_shape X p pk sig chal Vs L1) as F1. pose proof (leads_shape X p pk' sig' chal Vs' L2) as F2.
  assert (LV : length Vs = length Vs').
  { destruct L1 as (? & ? & ? & _ & _ & _ & _ & _ & A & _). destruct L2 as (? & ? & ? & _ & _ & _ & _ & _ & B & _). congruence. }
  unfold hashed in E. apply app_inj_len in E; [|rewrite !(flats_length p) by auto; congruence]. destruct E as [EV E].
  apply (concat_inj (pK p * (pN p - pK p))) in EV.
  2:{ rewrite !map_length. auto. }
  2:{ apply Forall_forall. intros x Hx. apply in_map_iff in Hx. destruct Hx as (v & <- & Hv). apply flat_length. rewrite Forall_forall in F1. auto. }
  2:{ apply Forall_forall. intros x Hx. apply in_map_iff in Hx. destruct Hx as (v & <- & Hv). apply flat_length. rewrite Forall_forall in F2. auto. }
  apply (flats_inj p) in EV; auto. subst Vs'.
  assert (HL : (0 < hash_len p)%nat) by (unfold hash_len, seed_len; destruct (p_cat p); cbn; lia).
  assert (LD : length (bytes_at sig (off_digest p) (hash_len p)) = hash_len p).
  { rewrite <- H1. unfold hash. apply (law_h_len _ _ LX). }
  assert (LD' : length (bytes_at sig' (off_digest p) (hash_len p)) = hash_len p) by congruence.
  apply bytes_at_length in LD, LD'; auto.
  assert (S1 : length (bytes_at sig 0 (hash_len p)) = hash_len p) by (unfold bytes_at; rewrite firstn_length, skipn_length; lia).
  assert (S2 : length (bytes_at sig' 0 (hash_len p)) = hash_len p) by (unfold bytes_at; rewrite firstn_length, skipn_length; lia).
  assert (LM : length m = length m') by (apply (f_equal (@length Z)) in E; rewrite !app_length in E; lia).
  apply app_inj_len in E; auto. destruct E as [-> E]. split; auto. split; auto. exists chal. split; auto. intros t Ht.
  destruct L1 as (nodes & seeds & G & _ & _ & _ & _ & A5 & _ & A7). destruct L2 as (nodes' & seeds' & G' & _ & _ & _ & _ & B5 & _ & B7).
  destruct (round_key X p wf LX _ _ _ _ _ _ _ _ _ A5 (A7 t Ht)) as (A & M & K1 & Q1 & N1).
  destruct (round_key X p wf LX _ _ _ _ _ _ _ _ _ B5 (B7 t Ht)) as (B & M' & K2 & Q2 & N2).
  exists A, B. split; auto. split; auto. apply (equivalent_trans _ _ A M B); auto.
  apply (equivalent_trans _ _ M M' B). { eapply C33_equivalence; eauto. } apply equivalent_sym. auto.
Qed.

(** *** What may be replaced *)

Section R.
Variable p : params.
Hypothesis wf : wf_params p.
Notation N := (pN p).
Notation K := (pK p).

Lemma scaled_inv a : ~ a == 0 -> exists b, ~ b == 0 /\ b * a == 1.
Proof.
  intros H. destruct (inverse_scalars 1 (fun _ => a) (fun _ _ => H) 0%nat ltac:(lia)) as (H1 & H2). eauto.
Qed.

(** Acting on a changed code whose named columns are spared. *)
Lemma action_spared A A' rp rc M M' g e M1 R lam V V' : good_action K N rp rc -> times_action K N A rp rc M -> times_action K N A' rp rc M' ->
  col_monomial K N A M1 g e -> same_code K N M1 A' -> same_code K N M R -> is_rref K N R (fun k => k) -> ~ lam == 0 ->
  (forall k, (k < K)%nat -> g (Z.to_nat (nth k rp 0)) = Z.to_nat (nth k rp 0) /\ e (Z.to_nat (nth k rp 0)) == lam) ->
  normal_form K N M V -> normal_form K N M' V' -> V = V'.
Proof.
  intros GA TA TA' (BG & He & HM1) S1 SR RR Hl Fix NF NF'.
  set (a := {| a_perm := rp; a_coef := rc |}).
  assert (HA : act_ok p a) by (apply good_action_iff; exact GA).
  pose proof (act_src_bij p wf a HA) as BH. set (h := act_src p a) in *. destruct (bij_inv N h BH) as (h' & Bh' & I1 & I2).
  pose proof (proj1 (times_action_src p wf A a M HA) TA) as TB. pose proof (proj1 (times_action_src p wf A' a M' HA) TA') as TB'.
  clear TA TA'. rename TB into TA, TB' into TA'. fold h in TA, TA'.
  set (c := fun k => if (k <? K)%nat then nthZ (a_coef a) k else 1) in *.
  assert (Hc : forall k, (k < N)%nat -> ~ c k == 0).
  { intros k Hk. unfold c. destruct (Nat.ltb_spec k K). { apply fq_unit_nz. apply (ao_coef p a HA). auto. } apply one_nz. }
  set (b := fun k => h' (g (h k))).
  destruct BG as (G1 & G2). destruct BH as (H1 & H2). destruct Bh' as (J1 & J2).
  assert (Hb : forall k, (k < N)%nat -> (b k < N)%nat) by (intros k Hk; unfold b; auto).
  set (ic := fun k => fq_inv (c k mod 127)).
  pose proof (inverse_scalars N c Hc) as IC. fold ic in IC.
  apply (C18_invariant p wf M M' R (fun k => k) V V' b (fun k => c k * e (h k) * fq_inv (c (b k) mod 127)) lam); auto.
  - split; auto. intros x y Hx Hy E. unfold b in E. apply H2, G2, J2; auto.
  - intros k Hk. apply cong_nonzero_mul; [apply cong_nonzero_mul; auto|]. apply IC. auto.
  - eapply same_code_trans. { apply (cong_code _ _ _ (fun i k => c k * M1 i (h k))).
      intros i k Hi Hk. rewrite (TA i (b k)) by auto. rewrite HM1 by auto.
      replace (h (b k)) with (g (h k)) by (unfold b; symmetry; apply I2; auto).
      transitivity (c k * e (h k) * (fq_inv (c (b k) mod 127) * c (b k)) * A i (g (h k))). { exists 0. unfold c. ring. }
      rewrite (proj1 (IC (b k) (Hb k Hk))). exists 0. ring. }
    eapply same_code_trans. { apply (cols_same_code K N M1 A' h c); auto. }
    apply cong_code. intros i k Hi Hk. symmetry. apply TA'; auto.
  - intros k Hk. pose proof (wf_K p wf) as HK. assert (Hk' : (k < N)%nat) by lia.
    assert (EH : h k = Z.to_nat (nth k rp 0)). { unfold h, act_src. destruct (Nat.ltb_spec k K); [reflexivity|lia]. }
    destruct (Fix k Hk) as (F1 & F2).
    assert (EB : b k = k) by (unfold b; rewrite EH, F1, <- EH; auto). split; auto. rewrite EB, EH, F2.
    transitivity (lam * (fq_inv (c k mod 127) * c k)). { exists 0. ring. } rewrite (proj1 (IC k Hk')). exists 0. ring.
Qed.

Lemma read_action_det l rp rc rp' rc' : read_action p l rp rc -> read_action p l rp' rc' -> rp = rp' /\ rc = rc'.
Proof.
  intros (A1 & A2 & A3) (B1 & B2 & B3). split; (apply (list_ext 0); [congruence|]); intros i Hi; [rewrite A1 in Hi|rewrite A2 in Hi];
    destruct (A3 i Hi) as (E1 & E2); destruct (B3 i Hi) as (E3 & E4); [exact (eq_trans E1 (eq_sym E3))|exact (eq_trans E2 (eq_sym E4))].
Qed.

Lemma component_det pk x A A' : component p pk x A -> component p pk x A' -> forall i j, (i < K)%nat -> (j < N)%nat -> A i j = A' i j.
Proof. intros (pv & A1 & A2 & A3) (pv' & B1 & B2 & B3). apply (packed_unique p _ _ pv _ pv' wf A2 A3 A1 B2 B3 B1). Qed.
End R.

(** A component may be replaced by every code that comes from it by permuting and scaling columns, as long as the responses
    do not notice: the signature is valid under the new key too. *)
Theorem C66_substitution : forall X p, wf_params p ->
  forall pk m sig chal x A g e pk', valid X p pk m sig -> challenge_of X p (bytes_at sig (off_digest p) (hash_len p)) chal ->
  (x < p_nk p - 1)%nat -> component p pk x A -> named_independent p sig chal x A -> spared p sig chal x g e ->
  substituted p pk x A g e pk' -> valid X p pk' m sig.
Proof.
  intros X p wf pk m sig chal x A g e pk' V C Hx CA NI SP (ES & EC & M1 & A' & CM & SC & CA').
  apply valid_leads_to in V. destruct V as (chal2 & Vs & C2 & L & HH). pose proof (challenge_of_det X p _ _ _ C C2) as <-.
  pose proof (challenge_of_ok X p wf _ _ C) as (CL & _ & CR).
  apply valid_leads_to. exists chal, Vs. split; auto. split; auto.
  destruct L as (nodes & seeds & G0 & A1 & A2 & A3 & A4 & A5 & A6 & A7). exists nodes, seeds, G0. rewrite ES.
  split; auto. split; auto. split; auto. split; auto. split; auto. split; auto. intros t Ht. specialize (A7 t Ht).
  unfold checks_round in *. destruct (Z.eqb_spec (nth t chal 0) 0) as [|NE]; auto.
  assert (RG : 0 <= nth t chal 0 < Z.of_nat (p_nk p)). { rewrite Forall_forall in CR. apply CR. apply nth_In. lia. }
  destruct (Nat.eq_dec (Z.to_nat (nth t chal 0 - 1)) x) as [EX|NX].
  2:{ rewrite EC; auto. lia. }
  assert (ET : nth t chal 0 = Z.of_nat (S x)) by lia. rewrite EX in *.
  destruct A7 as (H & pv & rp & rc & M & P1 & P2 & P3 & P4 & P5 & P6 & P7).
  assert (EA : forall i j, (i < pK p)%nat -> (j < pN p)%nat -> H i j = A i j) by (apply (component_det p wf pk x); auto; exists pv; auto).
  destruct (SP t Ht ET rp rc P4) as (lam & Hl & Fix).
  assert (TA : times_action (pK p) (pN p) A rp rc M).
  { pose proof (wf_K p wf) as HK. destruct P5 as (L1 & L2 & ND & RP & _). destruct P6 as (T1 & T2). split.
    - intros i k Hi Hk. rewrite <- EA; auto. rewrite Forall_forall in RP.
      assert (I : In (nth k rp 0) rp) by (apply nth_In; lia). specialize (RP _ I). cbn beta in RP. lia.
    - intros i k Hi Hk. rewrite <- EA; auto.
      destruct (Nat.lt_ge_cases k (length (unused (pN p) rp))) as [Hu|Hu].
      + pose proof (nth_In _ 0%nat Hu) as I. apply filter_In in I. destruct I as [I _]. apply in_seq in I. lia.
      + rewrite nth_overflow by lia. lia. }
  destruct (NI t Ht ET rp rc M P4 TA) as (R & SR & RR).
  destruct CA' as (pv' & B1 & B2 & B3).
  destruct (C18_verifier p wf (repeat (repeat 0 (pN p - pK p)) (pK p)) (tomat p A') {| a_perm := rp; a_coef := rc |}) as (V' & M' & _ & TM & NF).
  { apply zero_mat_shape. }
  { split; [apply tomat_shape|]. split. { intros i j Hi Hj. rewrite tomat_ent; auto. }
    apply (rref_full_rank _ _ _ pv'). apply (is_rref_ext p A'); auto. intros i j Hi Hj. symmetry. apply tomat_ent; auto. }
  { exact P5. }
  assert (EV : nth t Vs [] = V').
  { apply (action_spared p wf A (ent (tomat p A')) rp rc M M' g e M1 R lam); auto.
    eapply same_code_trans; [exact SC|]. apply cong_code. intros i j Hi Hj. rewrite tomat_ent by auto. reflexivity. }
  rewrite EV. exists (ent (tomat p A')), pv', rp, rc, M'.
  split. { apply (packed_matrix_ext p _ A' _ pv' pv'); auto. intros i j Hi Hj. symmetry. apply tomat_ent; auto. }
  split. { intros i j Hi Hj. rewrite tomat_ent; auto. }
  split. { apply (is_rref_ext p A'); auto. intros i j Hi Hj. symmetry. apply tomat_ent; auto. }
  auto.
Qed.

(** *** Signatures made by the owner of the key *)

Section H.
Variable X : prim.
Variable p : params.
Hypothesis wf : wf_params p.
Hypothesis LX : lawful X (hash_len p).
Notation N := (pN p).
Notation K := (pK p).

(** The columns named by a response come, through both monomials, from the pivot columns of the commitment. *)
Lemma response_independent Mx A G0 C R piv perm coef pb cb rp rc M : mono_ok p {| m_perm := perm; m_coef := coef |} ->
  mono_ok p {| m_perm := pb; m_coef := cb |} -> good_action K N rp rc -> times_monomial K N Mx pb cb G0 -> times_monomial K N G0 perm coef C ->
  same_code K N C R -> is_rref K N R piv -> same_code K N Mx A -> times_action K N A rp rc M ->
  (forall k, (k < K)%nat -> exists j s, (j < N)%nat /\ (s < N)%nat /\ nth k rp 0 = Z.of_nat j /\ nth j pb 0 = Z.of_nat s /\
     nth s perm 0 = Z.of_nat (piv k) /\ nth k rc 0 == nth s coef 0 * nth j cb 0) ->
  exists R', same_code K N M R' /\ is_rref K N R' (fun k => k).
Proof.
  intros HP HQ GA TB TP SC RR SA TA RS. pose proof (wf_K p wf) as HK.
  set (a := {| a_perm := rp; a_coef := rc |}).
  assert (HA : act_ok p a) by (apply good_action_iff; exact GA).
  pose proof (act_src_bij p wf a HA) as (H1 & H2). set (h := act_src p a) in *.
  pose proof (proj1 (times_action_src p wf A a M HA) TA) as TS. clear TA. fold h in TS.
  set (c := fun k => if (k <? K)%nat then nthZ (a_coef a) k else 1) in *.
  pose proof (perm_list_bij N _ (mo_perm p _ HP)) as (P1 & P2). pose proof (perm_list_bij N _ (mo_perm p _ HQ)) as (Q1 & Q2).
  cbn [m_perm] in P1, P2, Q1, Q2.
  set (sg := fun k => pf perm (pf pb (h k))).
  set (f := fun k => nth (pf pb (h k)) coef 0 * nth (h k) cb 0).
  assert (Hf : forall k, (k < N)%nat -> ~ f k == 0).
  { intros k Hk. unfold f. apply cong_nonzero_mul.
    - apply fq_unit_nz. apply (mono_coef p _ _ HP). auto.
    - apply fq_unit_nz. apply (mono_coef p _ _ HQ). auto. }
  pose proof (inverse_scalars N f Hf) as IF.
  set (D := fun k => c k * fq_inv (f k mod 127)).
  assert (E1 : same_code K N M (fun i k => D k * R i (sg k))).
  { eapply same_code_trans. { apply (cong_code K N M (fun i k => c k * A i (h k))). exact TS. }
    eapply same_code_trans. { apply (cols_same_code K N A Mx h c); auto. apply same_code_sym. exact SA. }
    eapply same_code_trans; [|apply (cols_same_code K N C R sg D); [|exact SC]; intros k Hk; unfold sg; auto].
    apply cong_code. intros i k Hi Hk. unfold D, sg.
    rewrite (TP i (pf pb (h k)) Hi (Q1 _ (H1 _ Hk)) : C i (pf perm (pf pb (h k))) == _).
    rewrite (TB i (h k) Hi (H1 _ Hk) : G0 i (pf pb (h k)) == _).
    transitivity (c k * Mx i (h k) * (fq_inv (f k mod 127) * f k)). { rewrite (proj1 (IF k Hk)). exists 0. ring. }
    exists 0. unfold f. ring. }
  assert (E2 : forall k, (k < K)%nat -> sg k = piv k /\ D k == 1).
  { intros k Hk. destruct (RS k Hk) as (j & s & Hj & Hs & R1 & R2 & R3 & R4).
    assert (EH : h k = j). { unfold h, act_src. destruct (Nat.ltb_spec k K); [|lia]. unfold pf, nthZ. cbn [a_perm a]. rewrite R1. lia. }
    assert (EP : pf pb j = s) by (unfold pf, nthZ; rewrite R2; lia).
    split. { unfold sg. rewrite EH, EP. unfold pf, nthZ. rewrite R3. lia. }
    unfold D. assert (EC : c k == f k).
    { unfold c, f. destruct (Nat.ltb_spec k K); [|lia]. rewrite EH, EP. exact R4. }
    rewrite EC. rewrite Z.mul_comm. apply IF. lia. }
  exists (fun i k => if (k <? K)%nat then (if Nat.eqb i k then 1 else 0) else D k * R i (sg k)). split.
  - eapply same_code_trans; [exact E1|]. apply cong_code. intros i k Hi Hk. destruct (Nat.ltb_spec k K) as [Hk'|]; [|reflexivity].
    destruct (E2 k Hk') as (-> & ED). rewrite ED. destruct RR as (_ & _ & RR & _). rewrite (RR i k Hi Hk'). rewrite Z.mul_1_l. reflexivity.
  - split; [intros; lia|]. split; [intros; lia|]. split.
    + intros i j Hi Hj. destruct (Nat.ltb_spec j K); [reflexivity|lia].
    + intros i k Hi Hk. destruct (Nat.ltb_spec k K); [|lia]. destruct (Nat.eqb_spec i k); [lia|reflexivity].
Qed.

(** The responses that a signer makes name information sets. *)
Lemma signs_independent r1 sk pk r1' r2 m old sig num r2' chal x A : generates X p r1 sk pk r1' ->
  length old = sizeof_sign p -> bytes old -> bytes m -> signs X p r2 sk m old sig num r2' ->
  challenge_of X p (bytes_at sig (off_digest p) (hash_len p)) chal -> (x < p_nk p - 1)%nat -> component p pk x A ->
  named_independent p sig chal x A.
Proof.
  intros HG H1 H2 H3 HS C Hx (pv & CA & CR & CE) t Ht ET rp rc M RA TA.
  pose proof HG as (csk & g0 & rng1 & G0 & A1 & A2 & A3 & A4 & A5 & A6 & A7).
  pose proof HS as (root & salt & rng3 & G0' & rounds & chal' & nodes & seeds & B1 & B2 & B3 & B4 & B5 & B6 & B7 & B8 & B9 & B10 & _).
  rewrite <- B10 in B6. pose proof (challenge_of_det X p _ _ _ C B6) as <-.
  destruct (nth t rounds ([], [], fun _ => 0%nat, [])) as (((perm & coef) & piv) & V) eqn:ER.
  destruct (B5 t Ht _ _ _ _ ER) as (seed & CM & R & _ & MO & TM & SC & RR & _).
  destruct (B9 t Ht ltac:(lia) _ _ _ _ ER) as (pb & cb & MB & rp' & rc' & PA & UC & L1 & L2 & RS).
  replace (Z.to_nat (nth t chal 0 - 1)) with x in MB by lia.
  destruct (A7 x Hx) as (perm2 & coef2 & Mx & Ax & pvx & MO2 & TM2 & SX & RX & EX & PX).
  assert (EK : bytes_at sk 0 (prikey_seed_len p) = csk).
  { destruct (squeeze_ok X p LX (prikey_seed_len p) r1) as [SL _]. rewrite A1 in SL. cbn [fst] in SL. rewrite A3. unfold bytes_at. cbn [skipn].
    rewrite firstn_app, firstn_all2 by lia. rewrite SL, Nat.sub_diag. cbn [firstn]. apply app_nil_r. }
  assert (EG : bytes_at sk (off_sk_g0 p) (seed_len p) = g0).
  { destruct (squeeze_ok X p LX (prikey_seed_len p) r1) as [SL _]. rewrite A1 in SL. cbn [fst] in SL.
    destruct (squeeze_ok X p LX (seed_len p) rng1) as [SL2 _]. rewrite A2 in SL2. cbn [fst] in SL2.
    rewrite A3. unfold bytes_at, off_sk_g0. rewrite skipn_app, skipn_all2 by lia. rewrite SL, Nat.sub_diag. cbn [skipn app]. apply firstn_all2. lia. }
  rewrite EK in MB. rewrite EG in B3. pose proof (generator_of_det X p _ _ _ A6 B3) as EQ.
  destruct (monomial_of_det X p _ _ _ _ _ MB MO2) as [-> ->].
  pose proof (monomial_of_ok X p wf LX _ _ _ MO) as OP. pose proof (monomial_of_ok X p wf LX _ _ _ MO2) as OQ.
  pose proof (perm_list_bij N _ (mo_perm p _ OP)) as (P1 & P2). pose proof (perm_list_bij N _ (mo_perm p _ OQ)) as (Q1 & Q2).
  assert (GA : good_action K N rp' rc').
  { split; auto. split; auto. split; [|split; auto].
    - apply (NoDup_nth _ 0). rewrite L1. intros i j Hi Hj E.
      destruct (RS i Hi) as (j1 & s1 & _ & _ & T1 & T2 & T3 & _). destruct (RS j Hj) as (j2 & s2 & _ & _ & U1 & U2 & U3 & _).
      assert (j1 = j2) as <- by lia. assert (s1 = s2) as <- by lia. assert (EP : piv i = piv j) by lia.
      destruct RR as (_ & RR & _). destruct (Nat.lt_trichotomy i j) as [Q|[Q|Q]]; auto; [specialize (RR i j Q Hj)|specialize (RR j i Q Hi)]; lia.
    - apply Forall_forall. intros v Hv. apply (In_nth _ _ 0) in Hv. destruct Hv as (k & Hk & <-). rewrite L1 in Hk.
      destruct (RS k Hk) as (j & s & Hj & _ & E & _). lia. }
  assert (RD : read_action p (bytes_at sig (off_monom p (weight (firstn t chal))) (mono_bytes p)) rp' rc').
  { destruct PA as (PL & PB & PV). apply (read_action_decodes p wf); auto.
    assert (OK : act_ok p {| a_perm := rp'; a_coef := rc' |}) by (apply good_action_iff; exact GA).
    pose proof (proj1 (packed_action_encodes p wf _ _ OK) (conj PL (conj PB PV))) as EN.
    destruct (action_coding p wf (repeat 0 (mono_bytes p)) _ (zero_bytes _) (repeat_length _ _) OK) as (b & E & _ & _ & D).
    rewrite (EN _ (zero_bytes _) (repeat_length _ _)) in E. injection E as <-. exact D. }
  destruct (read_action_det p _ _ _ _ _ RA RD) as [-> ->].
  apply (response_independent Mx A G0 CM R piv perm coef perm2 coef2 rp' rc' M); auto.
  - intros i s Hi Hs. rewrite (TM i s Hi Hs). rewrite <- EQ by auto. reflexivity.
  - eapply same_code_trans; [exact SX|]. apply cong_code. intros i j Hi Hj.
    rewrite (component_det p wf pk x Ax A); [reflexivity|exists pvx; auto|exists pv; auto|auto|auto].
Qed.
End H.

(** So every signature made by the owner of a key is valid under every key that differs in one component as above:
    nobody but the verifier's records ties a signature to the key. *)
Theorem C66_honest : forall X p, wf_params p -> lawful X (hash_len p) ->
  forall r1 sk pk r1', generates X p r1 sk pk r1' ->
  forall r2 m old sig num r2', length old = sizeof_sign p -> bytes old -> bytes m -> signs X p r2 sk m old sig num r2' ->
  forall chal x A g e pk', challenge_of X p (bytes_at sig (off_digest p) (hash_len p)) chal ->
  (x < p_nk p - 1)%nat -> component p pk x A -> spared p sig chal x g e -> substituted p pk x A g e pk' -> valid X p pk' m sig.
Proof.
  intros X p wf LX r1 sk pk r1' HG r2 m old sig num r2' H1 H2 H3 HS chal x A g e pk' C Hx CA SP SB.
  apply (C66_substitution X p wf pk m sig chal x A g e pk'); auto.
  - eapply C41_signatures_valid; eauto.
  - eapply signs_independent; eauto.
Qed.

(** The same for the programs: what crypto_sign_keypair and crypto_sign make is accepted by LESS_verify under the other key. *)
Theorem C66_accepted : forall X p, wf_params p -> lawful X (hash_len p) ->
  forall fuel junk rng sk0 pk0 sk pk rng1, length sk0 = sizeof_sk p -> length pk0 = sizeof_pk p -> bytes pk0 ->
  LESS_keygen X p fuel junk rng sk0 pk0 = Ok (sk, pk, rng1) ->
  forall fuel' junk' rng2 m old sig num rng3, length old = sizeof_sign p -> bytes old -> bytes m ->
  LESS_sign X p fuel' junk' rng2 sk m old = Ok (sig, num, rng3) ->
  forall chal x A g e pk', challenge_of X p (bytes_at sig (off_digest p) (hash_len p)) chal ->
  (x < p_nk p - 1)%nat -> component p pk x A -> spared p sig chal x g e -> substituted p pk x A g e pk' -> key_form p pk' ->
  exists f, forall fuel'' junk'', (f <= fuel'')%nat -> LESS_verify X p fuel'' junk'' pk' m sig = Ok 1.
Proof.
  intros X p wf LX fuel junk rng sk0 pk0 sk pk rng1 L1 L2 B0 EK fuel' junk' rng2 m old sig num rng3 LO BO BM ES chal x A g e pk' C Hx CA SP SB KF.
  assert (HG : generates X p rng sk pk rng1) by (apply (proj1 (C39_keygen X p wf LX rng sk pk rng1) fuel junk sk0 pk0); auto).
  assert (SL : length sk = sizeof_sk p) by (apply (C39_keys X p wf LX rng sk pk rng1 HG)).
  assert (HS : signs X p rng2 sk m old sig num rng3) by (apply (proj1 (C40_sign X p wf LX rng2 sk m old sig num rng3 SL LO BO BM) _ _ ES)).
  assert (HB : bytes sig /\ length sig = sizeof_sign p).
  { assert (T : sign_stuck X p True fuel' junk' rng2 sk m).
    { unfold sign_stuck. destruct (x_squeeze X (seed_len p) rng2) as (root & rr). destruct (x_squeeze X (hash_len p) rr). cbv zeta. auto 10. }
    pose proof (LESS_sign_drawn X p wf LX True fuel' junk' rng2 sk m old T SL LO BO) as S. rewrite ES in S. cbn [gp] in S.
    destruct S as (tree & c & G & acts & Vs & ch & fl & [A1 A2 _ _ _ _ _ _ _ _ _ _ _ _ _ _ _ _ _] & _). auto. }
  destruct HB as (HB & LS).
  assert (HL : long_enough X p sig) by (apply C41_full_size; auto; lia).
  destruct (C41_verify X p wf LX pk' m sig KF BM HB HL) as (_ & _ & V). apply V.
  apply (C66_honest X p wf LX rng sk pk rng1 HG rng2 m old sig num rng3 LO BO BM HS chal x A g e pk'); auto.
Qed.

(** *** Example *)

(** The first component of the toy key. The signature uses it in round 3 and names columns 53, 124 and 106. *)
Definition toy_A : list (list Z) := Eval vm_compute in
  okd [] (expand_to_rref toy_params (repeat (repeat 0 132) 3) (bytes_at toy_pk (off_sf toy_params 0) (rref_bytes toy_params))).
(** Column 3 doubled. *)
Definition toy_e (j : nat) : Z := if Nat.eqb j 3 then 2 else 1.
Definition toy_A' : matf := fun i j => (toy_e j * ent toy_A i j) mod 127.
Definition toy_pk' : list Z := Eval vm_compute in
  firstn (seed_len toy_params) toy_pk ++ toy_pack toy_A' ++ skipn (seed_len toy_params + rref_bytes toy_params) toy_pk.

Definition matrix_check (f : nat -> nat -> bool) : bool := forallb (fun i => forallb (f i) (seq 0 132)) (seq 0 3).
Lemma matrix_check_ok f : matrix_check f = true -> forall i j, (i < 3)%nat -> (j < 132)%nat -> f i j = true.
Proof.
  intros H i j Hi Hj. unfold matrix_check in H. rewrite forallb_forall in H. specialize (H i ltac:(apply in_seq; lia)).
  rewrite forallb_forall in H. apply H. apply in_seq. lia.
Qed.
Lemma toy_rref (A : matf) : matrix_check (fun i j => (0 <=? A i j) && (A i j <? 127) && (negb (j <? 3)%nat || (A i j =? (if Nat.eqb i j then 1 else 0)))) = true ->
  reduced 3 132 A /\ is_rref 3 132 A (fun i => i).
Proof.
  intros H. assert (E : forall i j, (i < 3)%nat -> (j < 132)%nat -> 0 <= A i j < 127 /\ ((j < 3)%nat -> A i j = if Nat.eqb i j then 1 else 0)).
  { intros i j Hi Hj. pose proof (matrix_check_ok _ H i j Hi Hj) as C. cbn beta in C. apply andb_true_iff in C. destruct C as (C & D).
    apply andb_true_iff in C. split; [lia|]. intros Hj3. apply orb_true_iff in D. destruct D as [D|D]; [|lia].
    destruct (Nat.ltb_spec j 3); [discriminate|lia]. }
  split. { intros i j Hi Hj. apply E; auto. } split; [intros; lia|]. split; [intros; lia|]. split.
  - intros i j Hi Hj. apply E; lia.
  - intros i c Hi Hc. destruct (E i c Hi ltac:(lia)) as (_ & EQ). rewrite EQ by lia. destruct (Nat.eqb_spec i c); lia.
Qed.

Lemma toy_component : component toy_params toy_pk 0 (ent toy_A).
Proof.
  exists (fun i => i). destruct (toy_rref (ent toy_A)) as (H1 & H2). { vm_compute. reflexivity. } split; auto.
  split. { vm_compute. reflexivity. } split. { apply bytes_of_check. vm_compute. reflexivity. } vm_compute. reflexivity.
Qed.
Lemma toy_component' : component toy_params toy_pk' 0 toy_A'.
Proof.
  exists (fun i => i). destruct (toy_rref toy_A') as (H1 & H2). { vm_compute. reflexivity. } split; auto.
  split. { vm_compute. reflexivity. } split. { apply bytes_of_check. vm_compute. reflexivity. } vm_compute. reflexivity.
Qed.

Lemma toy_substituted : substituted toy_params toy_pk 0 (ent toy_A) (fun j => j) toy_e toy_pk'.
Proof.
  split. { vm_compute. reflexivity. } split.
  - intros y Hy Ny. cbn in Hy. assert (y = 1)%nat as -> by lia. vm_compute. reflexivity.
  - exists toy_A', toy_A'. split; [|split; [intros v; reflexivity|exact toy_component']]. split; [|split].
    + split; auto.
    + intros j _ C. apply cong_eq in C; unfold fq, toy_e in *; destruct (j =? 3)%nat; lia.
    + intros i j _ _. unfold toy_A'. rewrite cong_mod. reflexivity.
Qed.

Lemma toy_spared : spared toy_params toy_sig80 [0; 0; 2; 1; 0; 0] 0 (fun j => j) toy_e.
Proof.
  intros t Ht ET rp rc RA. cbn in Ht. assert (t = 3)%nat as ->.
  { do 3 (destruct t as [|t]; [discriminate|]). destruct t as [|t]; [reflexivity|]. do 2 (destruct t as [|t]; [discriminate|]). lia. }
  assert (RD : read_action toy_params (bytes_at toy_sig80 (off_monom toy_params (weight (firstn 3 [0; 0; 2; 1; 0; 0]))) (mono_bytes toy_params))
    [53; 124; 106] [94; 105; 126]).
  { split; [reflexivity|]. split; [reflexivity|]. intros i Hi. cbn in Hi.
    do 3 (destruct i as [|i]; [vm_compute; auto|]). lia. }
  destruct (read_action_det toy_params _ _ _ _ _ RA RD) as [-> ->].
  exists 1. split; [apply one_nz|]. intros k Hk. split; [reflexivity|]. cbn in Hk.
  do 3 (destruct k as [|k]; [reflexivity|]). lia.
Qed.

(** The toy signature is accepted for two different keys, both of the form that key generation gives. *)
Example C66_example : toy_pk' <> toy_pk /\ key_form toy_params toy_pk' /\
  valid toyX toy_params toy_pk toy_msg toy_sig80 /\ valid toyX toy_params toy_pk' toy_msg toy_sig80.
Proof.
  split. { intros C. apply (f_equal (fun l => forallb (fun u => fst u =? snd u) (combine l toy_pk))) in C. vm_compute in C. discriminate. }
  destruct (C39_keys toyX toy_params toy_wf toyX_lawful _ _ _ _ C39_example) as ((KL & KF) & _ & _). split; [|split].
  - split. { vm_compute. reflexivity. } intros y Hy. cbn in Hy. assert (y = 0 \/ y = 1)%nat as [-> | ->] by lia.
    + destruct toy_component' as (pv & H1 & H2 & H3). exists toy_A', pv. auto.
    + destruct (KF 1%nat ltac:(cbn; lia)) as (G & pv & H1 & H2 & H3). exists G, pv. split; [exact H1|]. split; [exact H2|].
      replace (bytes_at toy_pk' (off_sf toy_params 1) (rref_bytes toy_params)) with (bytes_at toy_pk (off_sf toy_params 1) (rref_bytes toy_params))
        by (vm_compute; reflexivity). exact H3.
  - apply C41_example.
  - apply (C66_honest toyX toy_params toy_wf toyX_lawful _ _ _ _ C39_example _ _ _ _ _ _ (repeat_length _ _)
      (bytes_of_check (repeat 3 (sizeof_sign toy_params)) eq_refl) (bytes_of_check toy_msg eq_refl) C40_example
      [0; 0; 2; 1; 0; 0] 0%nat (ent toy_A) (fun j => j) toy_e); try (cbn; lia).
    + apply toy_challenge_of. vm_compute. reflexivity.
    + exact toy_component.
    + exact toy_spared.
    + exact toy_substituted.
Qed.

Print Assumptions C66_unused.
Print Assumptions C66_bound.
Print Assumptions C66_substitution.
Print Assumptions C66_honest.
Print Assumptions C66_accepted.
