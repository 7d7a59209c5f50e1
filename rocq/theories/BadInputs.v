(** Inputs on which verification goes wrong, and primitives following a script, used by the negative
    results about the public API. *)
From Verif Require Import Base BaseLemmas Params ParamsProofs Fq FqProofs Prim Samplers Monomial Codes SeedTree Utils Less Spec
  EnumProofs RrefProofs MonoProofs ActionProofs CodecProofs SamplerProofs SeedTreeProofs FuelProofs RoundProofs VerifyProofs AnyKeyProofs.

(** *** Functions which do not depend on the fuel *)
Definition nf {A} (m : res A) : Prop := m <> NoFuel.
Lemma nf_bind {A B} (m : res A) (f : A -> res B) : nf m -> (forall a, m = Ok a -> nf (f a)) -> nf (bind m f).
Proof. unfold nf. destruct m; cbn; auto. discriminate. Qed.
Lemma nf_ok {A} (a : A) : nf (Ok a). Proof. discriminate. Qed.
Lemma nf_get {A} (l : list A) i : nf (get l i).
Proof. unfold get, nf. destruct (nth_error l i); discriminate. Qed.
Lemma nf_set {A} (l : list A) i x : nf (set l i x).
Proof. unfold set, nf. destruct (_ <? _)%nat; discriminate. Qed.
Lemma nf_set2 (m : mat) i j x : nf (set2 m i j x).
Proof. unfold set2. apply nf_bind. apply nf_get. intros r _. apply nf_bind. apply nf_set. intros r' _. apply nf_set. Qed.
Lemma nf_for {S} n start (body : nat -> S -> res S) s : (forall i s, nf (body i s)) -> nf (for_ n start body s).
Proof.
  intros H. revert start s. induction n as [|n IH]; intros start s; cbn [for_]. { apply nf_ok. }
  apply nf_bind; auto.
Qed.
Lemma nf_ub {A} (m : res A) : nf m -> (forall a, m <> Ok a) -> m = UB.
Proof. destruct m; unfold nf; intros H1 H2; congruence. Qed.
Global Hint Resolve nf_ok nf_get nf_set nf_set2 : nf.

Section Z.
Variable p : params.
Hypothesis wf : wf_params p.
Hypothesis K2 : (2 <= pK p)%nat.
Notation N := (pN p).
Notation K := (pK p).

Lemma nf_unpack cnt : forall k base c piv, nf (unpack_flags cnt k base c piv).
Proof. induction cnt as [|n IH]; intros; cbn [unpack_flags]; auto with nf. apply nf_bind; auto with nf. Qed.
Lemma nf_dec7 st buf idx : nf (dec7_step st buf idx).
Proof.
  unfold dec7_step, dec_split. destruct st as [|[|[|[|[|[|[|[|]]]]]]]]; try discriminate;
    repeat (apply nf_bind; [auto with nf|intros]); auto with nf.
Qed.
Lemma nf_expand full buf : nf (expand_to_rref p full buf).
Proof.
  unfold expand_to_rref. apply nf_bind. { apply nf_for. intros. apply nf_bind; auto using nf_unpack with nf. }
  intros piv1 _. apply nf_bind.
  { destruct (has_tail p); auto with nf. apply nf_bind; auto with nf. intros. apply nf_bind; auto using nf_unpack with nf. }
  intros [piv idx] _. apply nf_bind.
  { apply nf_for. intros row [[fl ix] st]. apply nf_bind.
    - apply nf_for. intros col [[[fl' ix'] st'] pidx]. apply nf_bind; auto with nf. intros f _. destruct (f =? 0).
      + apply nf_bind. apply nf_dec7. intros [v i'] _. apply nf_bind; auto with nf.
      + apply nf_bind; auto with nf.
    - intros [[[fl' ix'] st'] pidx] _. auto with nf. }
  intros [[a b] c] _. auto with nf.
Qed.

(** A packed matrix of zeroes announces no pivot column, so K*N entries are read. *)
Definition zeros (l : list Z) : Prop := Forall (fun x => x = 0) l.
Lemma zeros_nth l i : zeros l -> nth i l 0 = 0.
Proof. intros H. destruct (nth_in_or_default i l 0) as [I|E]; auto. unfold zeros in H. rewrite Forall_forall in H. auto. Qed.

Lemma unpack_zero cnt : forall k base piv, zeros piv -> pc (unpack_flags cnt k base 0 piv) (fun v => zeros v /\ length v = length piv).
Proof.
  induction cnt as [|n IH]; intros k base piv H; cbn [unpack_flags]. { apply pc_ok. auto. }
  rewrite Z.shiftr_0_l. change (Z.land 0 1) with 0. apply pc_any. intros v E. apply set_inv in E. destruct E as [E1 ->].
  eapply pc_mono. { apply IH. apply Forall_upd; auto. } intros a [A1 A2]. rewrite upd_length in A2. auto.
Qed.

Definition bitpos (idx st : nat) : nat := (8 * idx + (if Nat.eqb st 0 then 0 else 8 - st))%nat.

Lemma dec7_pos st buf idx : (st < 8)%nat ->
  pc (dec7_step st buf idx) (fun '(_, idx') => (idx < length buf)%nat /\ bitpos idx' (next_state 7 st) = (bitpos idx st + 7)%nat).
Proof.
  intros Hst. unfold dec7_step, dec_split, bitpos, next_state.
  destruct st as [|[|[|[|[|[|[|[|]]]]]]]]; try lia; cbn [Nat.eqb];
    apply pc_any; intros c E;
    try (apply get_inv in E; destruct E as [E _]; apply pc_ok; split; [exact E|lia]);
    apply bind_ok in E; destruct E as (c0 & E & _); apply get_inv in E; destruct E as [E _]; apply pc_ok; (split; [exact E|lia]).
Qed.

Lemma expand_zero full : expand_to_rref p full (repeat 0 (rref_bytes p)) = UB.
Proof.
  apply nf_ub. { apply nf_expand. } intros G E. unfold expand_to_rref in E.
  set (buf := repeat 0 (rref_bytes p)) in *.
  assert (ZB : zeros buf). { apply Forall_forall. intros x Hx. apply repeat_spec in Hx. auto. }
  apply bind_ok in E. destruct E as (piv1 & E1 & E).
  assert (P1 : zeros piv1 /\ length piv1 = N).
  { refine (pc_for (fun _ v => zeros v /\ length v = N) _ _ _ _ _ _ _ E1).
    - split. { apply Forall_forall. intros x Hx. apply repeat_spec in Hx. auto. } apply repeat_length.
    - intros i v Hi [H1 H2]. apply pc_any. intros c Ec. apply get_inv in Ec. destruct Ec as [_ Ec]. specialize (Ec 0).
      rewrite zeros_nth in Ec by auto. subst c. eapply pc_mono. { apply unpack_zero; auto. } intros a [A1 A2]. split; auto. lia. }
  apply bind_ok in E. destruct E as ([piv idx] & E2 & E).
  assert (P2 : zeros piv /\ length piv = N /\ (N / 8 <= idx)%nat).
  { destruct (has_tail p).
    - apply bind_ok in E2. destruct E2 as (c & Ec & E2). apply get_inv in Ec. destruct Ec as [_ Ec]. specialize (Ec 0).
      rewrite zeros_nth in Ec by auto. subst c. apply bind_ok in E2. destruct E2 as (pv & Ev & E2). injection E2 as <- <-.
      destruct (unpack_zero _ _ _ _ (proj1 P1) _ Ev) as [U1 U2]. split; [exact U1|]. split; lia.
    - injection E2 as <- <-. destruct P1 as [U1 U2]. split; [exact U1|]. split; lia. }
  destruct P2 as (P2 & P3 & P4). clear E1 E2 P1 piv1.
  apply bind_ok in E. destruct E as ([[fl ix] st] & E & _).
  assert (Q : (st < 8)%nat /\ bitpos ix st = (8 * idx + 7 * (K * N))%nat /\ ((0 < K * N)%nat -> (bitpos ix st <= 8 * length buf + 6)%nat)).
  { refine (pc_for (fun r '(_, ix, st) => (st < 8)%nat /\ bitpos ix st = (8 * idx + 7 * (r * N))%nat /\
       ((0 < r * N)%nat -> (bitpos ix st <= 8 * length buf + 6)%nat)) _ _ _ _ _ _ _ E).
    - split; [lia|]. split; [unfold bitpos; cbn; lia|]. cbn. lia.
    - intros r [[fl1 ix1] st1] Hr (H1 & H2 & H3). eapply pc_bind.
      + apply (pc_for (fun c '(_, ix, st, _) => (st < 8)%nat /\ bitpos ix st = (8 * idx + 7 * (r * N + c))%nat /\
          ((0 < r * N + c)%nat -> (bitpos ix st <= 8 * length buf + 6)%nat))).
        * split; auto. rewrite Nat.add_0_r. auto.
        * intros c [[[fl2 ix2] st2] pidx] Hc (J1 & J2 & J3). apply pc_any. intros f Ef. apply get_inv in Ef.
          destruct Ef as [_ Ef]. specialize (Ef 0). rewrite zeros_nth in Ef by auto. subst f. cbn [Z.eqb].
          apply pc_any. intros [v ix3] Ed. destruct (dec7_pos st2 buf ix2 J1 _ Ed) as [D1 D2].
          apply pc_any. intros fl3 _. apply pc_ok.
          assert (st3 : (next_state 7 st2 < 8)%nat) by (unfold next_state; destruct (Nat.eqb_spec st2 7); lia).
          split; auto. split. { lia. } intros _. rewrite D2. unfold bitpos. destruct (Nat.eqb_spec st2 0); lia.
      + intros [[[fl2 ix2] st2] pidx] (J1 & J2 & J3). apply pc_ok. split; auto.
        replace (S r * N)%nat with (r * N + (0 + N))%nat by lia. auto. }
  destruct Q as (Q1 & Q2 & Q3). pose proof (wf_K p wf) as HK.
  specialize (Q3 ltac:(nia)). rewrite Q2 in Q3. unfold buf in Q3. rewrite repeat_length in Q3. unfold rref_bytes in Q3.
  change (bits_to_represent 127) with 7 in Q3.
  assert (A : 8 * Z.of_nat idx + 7 * (Z.of_nat K * Z.of_nat N) <=
     8 * ((7 * (Z.of_nat N - Z.of_nat K) * Z.of_nat K + 7) / 8 + (Z.of_nat N + 7) / 8) + 6).
  { assert (0 <= (7 * (Z.of_nat N - Z.of_nat K) * Z.of_nat K + 7) / 8 + (Z.of_nat N + 7) / 8).
    { assert (0 <= (Z.of_nat N - Z.of_nat K) * Z.of_nat K) by nia. lia. }
    nia. }
  assert (B : Z.of_nat N - 7 <= 8 * Z.of_nat idx) by lia.
  assert (C : 8 * ((7 * (Z.of_nat N - Z.of_nat K) * Z.of_nat K + 7) / 8) <= 7 * (Z.of_nat N - Z.of_nat K) * Z.of_nat K + 7) by lia.
  assert (D : 8 * ((Z.of_nat N + 7) / 8) <= Z.of_nat N + 7) by lia.
  assert (F : 7 * (Z.of_nat K * Z.of_nat K) <= 27) by nia. nia.
Qed.
End Z.

(** *** Scripted primitives *)

(** The hash always answers [hl] times 5; the generator seeded with this digest answers its k-th request
    with the k-th word of the script; every other generator answers zeroes. *)
Definition scriptX (hl : nat) (words : list Z) : prim :=
  {| xstate := option nat;
     x_init := fun s => if list_eq_dec Z.eq_dec s (repeat 5 hl) then Some 0%nat else None;
     x_squeeze := fun n st => match st with
       | None => (repeat 0 n, None)
       | Some k => (firstn n ([nth k words 0 mod 256; (nth k words 0 / 256) mod 256] ++ repeat 0 n), Some (S k))
       end;
     hstate := unit; h_init := tt; h_absorb := fun _ _ => tt; h_final := fun _ => repeat 5 hl |}.

Lemma scriptX_lawful hl words : lawful (scriptX hl words) hl.
Proof.
  assert (R : forall n x, is_byte x -> bytes (repeat x n)).
  { intros n x H. apply Forall_forall. intros y Hy. apply repeat_spec in Hy. subst. auto. }
  constructor; cbn [scriptX x_squeeze h_final h_absorb].
  - intros n [k|]; cbn [fst]. { rewrite firstn_length, app_length, repeat_length. cbn [length]. lia. } apply repeat_length.
  - intros n [k|]; cbn [fst].
    + apply Forall_firstn. apply Forall_app. split; [|apply R; unfold is_byte; lia].
      repeat constructor; unfold is_byte; apply Z.mod_pos_bound; lia.
    + apply R. unfold is_byte. lia.
  - intros. apply repeat_length.
  - intros. apply R. unfold is_byte. lia.
  - reflexivity.
Qed.

(** The script which makes the challenge have value 1 exactly at the marked rounds. *)
Definition script (p : params) (marks : list Z) : list Z :=
  map (fun t => 1 + 2 ^ kp_bits p * Z.of_nat t) (filter (fun t => negb (nth t marks 0 =? 0)) (seq 0 (length marks))).

Definition script_ok (p : params) (marks : list Z) : bool :=
  match expand_digest_to_fixed_weight (scriptX (hash_len p) (script p marks)) p 400 (repeat 0 (pT p)) (repeat 5 (hash_len p)) with
  | Ok l => if list_eq_dec Z.eq_dec l marks then true else false
  | _ => false
  end.

Lemma script_chal p marks : script_ok p marks = true ->
  expand_digest_to_fixed_weight (scriptX (hash_len p) (script p marks)) p 400 (repeat 0 (pT p)) (repeat 5 (hash_len p)) = Ok marks.
Proof.
  unfold script_ok. destruct (expand_digest_to_fixed_weight _ _ _ _ _) as [l| |]; try discriminate.
  destruct (list_eq_dec Z.eq_dec l marks); congruence.
Qed.

Section Sampling.
Variable p : params.
Hypothesis wf : wf_params p.
Variable words : list Z.
Notation X := (scriptX (hash_len p) words).
Notation N := (pN p).
Notation K := (pK p).

(** With an all-zero stream the samplers finish at once. *)
Definition zero_mono_ok : bool :=
  match monomial_expand X p 400 {| m_coef := repeat 0 N; m_perm := repeat 0 N |} [] with Ok _ => true | _ => false end.
Definition zero_gen_ok : bool :=
  match generator_SF_seed_expand X p 400 {| r_vals := repeat (repeat 0 (N - K)) K; r_pos := repeat 0 (N - K) |} [] with Ok _ => true | _ => false end.

Lemma hl_pos : (0 < hash_len p)%nat.
Proof. unfold hash_len, seed_len. destruct (p_cat p); lia. Qed.

Lemma init_nil : x_init X [] = None.
Proof.
  cbn [scriptX x_init]. destruct (list_eq_dec Z.eq_dec [] (repeat 5 (hash_len p))) as [E|]; auto.
  apply (f_equal (@length Z)) in E. rewrite repeat_length in E. pose proof hl_pos. change (@length Z []) with 0%nat in E. lia.
Qed.

Lemma init_zero n l : (0 < n)%nat -> x_init X (repeat 0 n ++ l) = None.
Proof.
  intros Hn. cbn [scriptX x_init]. destruct (list_eq_dec Z.eq_dec _ _) as [E|]; auto. exfalso.
  destruct n; [lia|]. pose proof hl_pos. destruct (hash_len p); [lia|]. discriminate.
Qed.

Lemma mono_no_stuck r s : zero_mono_ok = true -> x_init X s = None -> mono_mem p r -> monomial_expand X p 400 r s <> NoFuel.
Proof.
  intros HZ HI HR. unfold zero_mono_ok in HZ.
  assert (MZ : mono_mem p {| m_coef := repeat 0 N; m_perm := repeat 0 N |}) by (split; apply repeat_length).
  pose proof (expand_sampled X p wf 400 _ [] (scriptX_lawful _ _) MZ) as W.
  destruct (monomial_expand X p 400 _ []) as [Q| |]; try discriminate. destruct W as [_ W].
  specialize (W 400%nat r (le_n _) HR).
  assert (E : monomial_expand X p 400 r s = monomial_expand X p 400 r []).
  { unfold monomial_expand. rewrite HI, init_nil. reflexivity. }
  rewrite E, W. discriminate.
Qed.

Lemma gen_no_stuck r s : zero_gen_ok = true -> x_init X s = None -> rref_mem p r -> generator_SF_seed_expand X p 400 r s <> NoFuel.
Proof.
  intros HZ HI HR. unfold zero_gen_ok in HZ.
  assert (MZ : rref_mem p {| r_vals := repeat (repeat 0 (N - K)) K; r_pos := repeat 0 (N - K) |}).
  { constructor; cbn. apply zero_mat_shape. apply repeat_length. }
  pose proof (generator_sampled X p wf 400 _ [] MZ) as W.
  destruct (generator_SF_seed_expand X p 400 _ []) as [c| |]; try discriminate. destruct W as (_ & M & W & _).
  specialize (W 400%nat r (le_n _) HR).
  assert (E : generator_SF_seed_expand X p 400 r s = generator_SF_seed_expand X p 400 r []).
  { unfold generator_SF_seed_expand. rewrite HI, init_nil. reflexivity. }
  rewrite E, W. discriminate.
Qed.

(** The run does not exhaust its fuel, and the result, if there is one, has a property. *)
Definition fp {A} (m : res A) (P : A -> Prop) : Prop := match m with Ok a => P a | UB => True | NoFuel => False end.
Lemma fp_bind {A B} (m : res A) (f : A -> res B) (P : A -> Prop) Q : fp m P -> (forall a, P a -> fp (f a) Q) -> fp (bind m f) Q.
Proof. destruct m; cbn; auto; contradiction. Qed.
Lemma fp_get {A} (l : list A) i (P : A -> Prop) : (forall a, P a) -> fp (get l i) P.
Proof. intros H. unfold get. destruct (nth_error l i); cbn; auto. Qed.
Lemma fp_set {A} (l : list A) i x (P : list A -> Prop) : (forall a, P a) -> fp (set l i x) P.
Proof. intros H. unfold set. destruct (i <? length l)%nat; cbn; auto. Qed.
Lemma fp_for {S} (P : S -> Prop) n : forall start (body : nat -> S -> res S) s, P s -> (forall i s, P s -> fp (body i s) P) -> fp (for_ n start body s) P.
Proof. induction n as [|n IH]; intros start body s H HB; cbn [for_]; auto. eapply fp_bind; [apply HB; auto|]. intros a Ha. apply IH; auto. Qed.

(** Each word of zeroes yields as many elements as it has chunks. *)
Lemma zero_chunks minv span req num : 0 <= span -> forall c count buf, (count < num)%nat ->
  fp (rand_chunks c minv span req num 0 count buf) (fun '(fin, (count', _)) => fin = true \/ (count' = count + c /\ count' < num)%nat).
Proof.
  intros HS. induction c as [|c IH]; intros count buf HC; cbn [rand_chunks]. { right. lia. }
  rewrite Z.land_0_l. change (u8 0) with 0. destruct (Z.leb_spec 0 span); [|lia].
  unfold set. destruct (count <? length buf)%nat; cbn [bind fp]; auto. destruct (Nat.leb_spec num (S count)); [cbn; auto|]. rewrite Z.shiftr_0_l.
  specialize (IH (S count) (upd buf count (u8 (0 + minv))) ltac:(lia)).
  destruct (rand_chunks c _ _ _ _ _ _ _) as [[fin [cn b]]| |]; cbn [fp] in *; auto. destruct IH; auto. right. lia.
Qed.
Lemma zero_loop minv span req num : 0 <= span -> forall f count buf, (num <= count + Z.to_nat (64 / req) * f)%nat -> (count < num)%nat ->
  fp (rand_loop X f minv span req num None count buf) (fun '(_, st) => st = None).
Proof.
  intros HS. induction f as [|f IH]; intros count buf HN HC. { lia. }
  cbn [rand_loop]. change (x_squeeze X 8 None) with (repeat 0 8, @None nat). cbv beta iota. change (le_val (repeat 0 8)) with 0.
  eapply fp_bind. { apply (zero_chunks minv span req num HS); auto. }
  intros [fin [cn b]] W. destruct fin; [reflexivity|]. destruct W as [|W]; [discriminate|]. apply IH; lia.
Qed.
Lemma zero_mono_holds : (N <= 3600)%nat -> zero_mono_ok = true.
Proof.
  intros HN. unfold zero_mono_ok.
  assert (MZ : mono_mem p {| m_coef := repeat 0 N; m_perm := repeat 0 N |}) by (split; apply repeat_length).
  pose proof (expand_sampled X p wf 400 _ [] (scriptX_lawful _ _) MZ) as W.
  assert (F : fp (monomial_expand X p 400 {| m_coef := repeat 0 N; m_perm := repeat 0 N |} []) (fun _ => True)).
  { unfold monomial_expand. rewrite init_nil. eapply fp_bind.
    { pose proof (wf_K p wf). unfold fq_star_rnd_state_elements, def_rand. apply zero_loop; [lia| |lia].
      change (Z.to_nat (64 / bits_to_represent (126 - 1))) with 9%nat. lia. }
    intros [coefs st] ->. eapply fp_bind. { apply (fp_for (fun _ => True)); auto. intros. apply fp_set. auto. }
    intros perm _. unfold yt_shuffle_state. change (x_squeeze X (4 * N) None) with (repeat 0 (4 * N), @None nat). cbv beta iota.
    eapply (fp_bind _ _ (fun _ => True)); [|intros [? ?] _; exact I].
    eapply fp_bind. { apply (fp_for (fun _ => True)); auto. intros i s _. eapply fp_bind; [apply (fp_get _ _ (fun _ => True)); auto|]. intros. apply fp_set. auto. }
    intros ru _. eapply fp_bind; [|intros; exact I]. apply (fp_for (fun _ => True)); auto. intros i s _.
    eapply fp_bind; [apply (fp_get _ _ (fun _ => True)); auto|]. intros tmp _. eapply fp_bind; [apply (fp_get _ _ (fun _ => True)); auto|]. intros r _.
    eapply fp_bind; [apply (fp_get _ _ (fun _ => True)); auto|]. intros y _. eapply fp_bind; [apply (fp_set _ _ _ (fun _ => True)); auto|]. intros. apply fp_set. auto. }
  destruct (monomial_expand X p 400 _ []) as [Q| |]; cbn in *; tauto.
Qed.
Lemma zero_gen_holds : (N <= 3600)%nat -> zero_gen_ok = true.
Proof.
  intros HN. unfold zero_gen_ok.
  assert (MZ : rref_mem p {| r_vals := repeat (repeat 0 (N - K)) K; r_pos := repeat 0 (N - K) |}).
  { constructor; cbn. apply zero_mat_shape. apply repeat_length. }
  pose proof (generator_sampled X p wf 400 _ [] MZ) as W.
  assert (F : fp (generator_SF_seed_expand X p 400 {| r_vals := repeat (repeat 0 (N - K)) K; r_pos := repeat 0 (N - K) |} []) (fun _ => True)).
  { unfold generator_SF_seed_expand. rewrite init_nil. eapply fp_bind.
    { apply (fp_for (fun '(_, st) => st = None)); auto. intros i [v st] ->. eapply fp_bind; [apply (fp_get _ _ (fun _ => True)); auto|]. intros row _.
      eapply fp_bind.
      { pose proof (wf_K p wf). unfold rand_range_q_state_elements, def_rand. apply zero_loop; [lia| |lia].
        change (Z.to_nat (64 / bits_to_represent (126 - 0))) with 9%nat. lia. }
      intros [row' st'] ->. eapply fp_bind; [apply (fp_set _ _ _ (fun _ => True)); auto|]. intros. reflexivity. }
    intros [vals st] _. eapply fp_bind; [|intros; exact I]. apply (fp_for (fun _ => True)); auto. intros. apply fp_set. auto. }
  destruct (generator_SF_seed_expand X p 400 _ []) as [Q| |]; cbn in *; tauto.
Qed.
End Sampling.
