(** Proofs about the test and benchmark programs. *)
From Coq Require Import String.
From Verif Require Import Base BaseLemmas Params ParamsProofs Fq Prim Samplers Monomial Codes Utils Less Sign Spec LessSpec
  FqProofs Sums EnumProofs LinAlg RrefProofs MonoProofs BitCodec CodecProofs ActionProofs CanonProofs SamplerProofs RoundProofs
  SignerProofs ApiProofs SeedTree SeedTreeProofs TreeFacts VerifyProofs PropMono PropCodec PropLinAlg PropScheme PropApi PropSpec KatTextProofs KatMainProofs TestProg.
Local Open Scope list_scope.

Lemma same_list_refl a : same_list a a = true.
Proof. induction a as [|x a IH]; cbn [same_list]; auto. rewrite Z.eqb_refl, IH. reflexivity. Qed.
Lemma same_list_eq a b : same_list a b = true -> a = b.
Proof.
  revert b. induction a as [|x a IH]; intros [|y b]; cbn [same_list]; try discriminate; auto.
  intros H. apply andb_true_iff in H. destruct H as [H1 H2]. f_equal; [lia|auto].
Qed.
Lemma same_mat_refl a : same_mat a a = true.
Proof. induction a as [|x a IH]; cbn [same_mat]; auto. rewrite same_list_refl, IH. reflexivity. Qed.
Lemma same_monomial_refl a : same_monomial a a = true.
Proof. unfold same_monomial. rewrite !same_list_refl. reflexivity. Qed.
Lemma same_action_refl a : same_action a a = true.
Proof. unfold same_action. rewrite !same_list_refl. reflexivity. Qed.

Section T.
Variable X : prim.
Variable p : params.
Hypothesis wf : wf_params p.
Hypothesis LX : lawful X (hash_len p).
Notation N := (pN p).
Notation K := (pK p).
Variable fuel : nat.

Lemma zero_mat_shape : shape K N (repeat (repeat 0 N) K).
Proof. split. apply repeat_length. apply Forall_forall. intros x Hx. apply repeat_spec in Hx. subst. apply repeat_length. Qed.

(** *** Random objects *)
Lemma monomial_mat_rnd_spec r st : mono_mem p r -> wp (monomial_mat_rnd X p fuel r st) (fun '(Q, _) => mono_ok p Q).
Proof using All.
  intros (M1 & M2). pose proof (wf_K p wf) as HK. unfold monomial_mat_rnd.
  eapply wp_bind. { apply fq_star_spec; auto. lia. }
  intros [coefs st1] (C1 & C2). eapply wp_bind with (Q := perm_list N).
  { apply okp_wp. eapply okp_mono. apply okp_for with (I := fun n pm => length pm = N /\
      forall i, (i < n)%nat -> nthZ pm i = Z.of_nat i).
    - split; auto. intros; lia.
    - intros i pm Hi (H1 & H2). rewrite set_ok by lia. apply okp_ok. split. { rewrite upd_length; auto. }
      intros j Hj. unfold nthZ. rewrite nth_upd by lia. destruct (Nat.eqb_spec i j) as [<-|].
      + apply pos_t_lt_N; auto; lia.
      + apply H2. lia.
    - intros pm (H1 & H2). cbn [Nat.add] in H2. apply perm_list_intro; auto.
      + intros i Hi. rewrite H2 by auto. lia.
      + intros i j Hi Hj. rewrite !H2 by auto. lia. }
  intros perm HP. eapply wp_bind. { apply okp_wp. apply yt_shuffle_spec; auto. }
  intros [perm' st2] HP'. cbn [wp]. constructor; auto.
Qed.

Lemma generator_rnd_spec r st : shape K N r -> wp (generator_rnd X p fuel r st) (fun '(G, _) => shape K N G /\ reduced K N (ent G)).
Proof using All.
  intros HS. pose proof (wf_K p wf) as HK. unfold generator_rnd.
  eapply wp_mono. apply wp_for with (I := fun n '(v, _) => shape K N v /\ forall i j, (i < n)%nat -> (j < N)%nat -> fq (ent v i j)).
  - split; auto. intros; lia.
  - intros i [v s] Hi (H1 & H2). rewrite (get_ok _ i []) by (rewrite (shape_len _ _ _ H1); lia). cbn [bind].
    eapply wp_bind. { apply rand_range_q_spec. lia. apply (shape_row _ _ _ _ H1). lia. }
    intros [row' st'] (L & F). rewrite set_ok by (rewrite (shape_len _ _ _ H1); lia). cbn [bind wp].
    split. { apply shape_upd; auto. } intros a j Ha Hj. rewrite (ent_upd _ K N) by (auto; lia).
    destruct (Nat.eqb_spec i a).
    + rewrite Forall_nth_Z in F. apply F. lia.
    + apply H2; lia.
  - intros [v s] (H1 & H2). split; auto.
Qed.

(** *** Row reduction *)
Lemma rref_rows_any n row G fl fl' r G' f : length fl = N -> length fl' = N ->
  rref_rows p n row G fl = Ok (r, G', f) -> exists f', rref_rows p n row G fl' = Ok (r, G', f') /\ length f' = N.
Proof.
  revert row G fl fl'. induction n as [|n IH]; intros row G fl fl' L L'; cbn [rref_rows].
  - intros E. injection E as <- <- <-. eauto.
  - destruct (pivot_search p (N + 2) G row row row) as [[prow pcol]| |]; cbn [bind]; try discriminate.
    destruct (Nat.leb_spec N pcol). { intros E. injection E as <- <- <-. eauto. }
    rewrite !set_ok by lia. cbn [bind].
    destruct (if Nat.eqb row prow then Ok G else swap_rows p G row prow) as [G1| |]; cbn [bind]; try discriminate.
    destruct (get2 G1 row pcol) as [g| |]; cbn [bind]; try discriminate.
    destruct (rescale_row p G1 row pcol (fq_inv g)) as [G2| |]; cbn [bind]; try discriminate.
    destruct (eliminate_rows p G2 row pcol) as [G3| |]; cbn [bind]; try discriminate.
    apply IH; rewrite upd_length; auto.
Qed.

(** The indicator array is written, never read: its former content does not matter for the matrix. *)
Lemma RREF_any G fl r R f : length fl = N -> generator_RREF p G (repeat 0 N) = Ok (r, R, f) ->
  exists f', generator_RREF p G fl = Ok (r, R, f') /\ length f' = N.
Proof. intros L E. eapply rref_rows_any; [| |exact E]; auto. apply repeat_length. Qed.

Lemma RREF_full G fl : length fl = N -> shape K N G -> reduced K N (ent G) -> full_rank K N (ent G) ->
  exists R f f' pv, generator_RREF p G (repeat 0 N) = Ok (1, R, f) /\ generator_RREF p G fl = Ok (1, R, f') /\ length f' = N /\
    shape K N R /\ reduced K N (ent R) /\ row_equiv K N (ent G) (ent R) /\ is_rref K N (ent R) pv /\ flags_of K N pv f.
Proof using All.
  intros L HS HR HF. destruct (generator_RREF_spec p G HS HR (wf_K_le p wf)) as ([[ret R] f] & E & S & Rd & Q & H).
  destruct H as [(-> & pv & A & B)|(_ & C)]; [|contradiction].
  destruct (RREF_any G fl _ _ _ L E) as (f' & E' & L'). exists R, f, f', pv. auto 10.
Qed.

Lemma random_full_rank_spec tries G st : shape K N G ->
  wp (random_full_rank X p fuel tries G st) (fun '(G', piv, _) => shape K N G' /\ reduced K N (ent G') /\
    exists pv, is_rref K N (ent G') pv /\ flags_of K N pv piv).
Proof using All.
  revert G st. induction tries as [|k IH]; intros G st HS; cbn [random_full_rank]; [exact I|].
  eapply wp_bind. { apply generator_rnd_spec; auto. } intros [G1 st1] (A1 & A2).
  eapply wp_bind. { apply okp_wp. apply generator_RREF_spec; auto. apply wf_K_le; auto. }
  intros [[ret G2] piv] (B1 & B2 & B3 & B4). destruct (Z.eqb_spec ret 0). { apply IH; auto. }
  cbn [wp]. split; auto. split; auto. destruct B4 as [(_ & pv & C)|(C & _)]; [|lia]. exists pv. auto.
Qed.

(** *** Products *)
Lemma product_ok r G Q : shape K N r -> shape K N G -> reduced K N (ent G) -> mono_ok p Q ->
  exists GQ, generator_monomial_mul p r G Q = Ok GQ /\ shape K N GQ /\ reduced K N (ent GQ) /\
    (forall i s, (i < K)%nat -> (s < N)%nat -> ent GQ i (pf (m_perm Q) s) == nthZ (m_coef Q) s * ent G i s) /\
    (full_rank K N (ent G) -> full_rank K N (ent GQ)).
Proof.
  intros HR HG HF HQ. destruct (generator_monomial_mul_spec p r G Q HR HG HQ HF) as (GQ & E & A & B & C).
  exists GQ. split; auto. split; auto. split; auto. split; auto.
  intros FR a Ha. apply FR. intros j Hj. pose proof (perm_list_bij N _ (mo_perm p Q HQ)) as BJ.
  assert (E' : nthZ (m_coef Q) j * sumn K (fun i => a i * ent G i j) == 0).
  { rewrite <- (Ha (pf (m_perm Q) j)) by (apply BJ; auto). rewrite <- sumn_scal. apply sumn_cong.
    intros i Hi. rewrite C by auto. rewrite !Z.mul_assoc, (Z.mul_comm (a i)). reflexivity. }
  apply cong_mul0 in E'; auto. apply fq_unit_nz. eapply mono_coef; eauto.
Qed.

Lemma product_row_sub G H GQ HQ Q : mono_ok p Q ->
  (forall i s, (i < K)%nat -> (s < N)%nat -> GQ i (pf (m_perm Q) s) == nthZ (m_coef Q) s * G i s) ->
  (forall i s, (i < K)%nat -> (s < N)%nat -> HQ i (pf (m_perm Q) s) == nthZ (m_coef Q) s * H i s) ->
  row_sub K N G H -> row_sub K N GQ HQ.
Proof.
  intros OQ EG EH (phi & P1 & P2). exists phi. split; auto. intros a c Hc.
  destruct (perm_cols p Q c OQ Hc) as (s & Hs & <-).
  transitivity (nthZ (m_coef Q) s * sumn K (fun i => a i * G i s)).
  { rewrite <- sumn_scal. apply sumn_cong. intros i Hi. rewrite EG by auto. rewrite !Z.mul_assoc, (Z.mul_comm (a i)). reflexivity. }
  rewrite P1 by auto. rewrite <- sumn_scal. apply sumn_cong. intros i Hi. rewrite EH by auto.
  rewrite !Z.mul_assoc, (Z.mul_comm (phi a i)). reflexivity.
Qed.

(** *** The testers *)
Variable junk : nat -> nat -> Z.

Lemma junk_list_length tag n : length (junk_list junk tag n) = n.
Proof. unfold junk_list. rewrite map_length, seq_length. reflexivity. Qed.
Lemma junk_mat_shape tag r c : shape r c (junk_mat junk tag r c).
Proof.
  unfold junk_mat. split. { rewrite map_length, seq_length. reflexivity. }
  apply Forall_forall. intros x Hx. apply in_map_iff in Hx. destruct Hx as (i & <- & _). rewrite map_length, seq_length. reflexivity.
Qed.
Lemma junk_mono_mem tag : mono_mem p (junk_monomial p junk tag).
Proof. split; apply junk_list_length. Qed.
Lemma junk_bytes_length tag n : length (junk_bytes junk tag n) = n.
Proof. unfold junk_bytes. rewrite map_length. apply junk_list_length. Qed.
Lemma junk_bytes_bytes tag n : bytes (junk_bytes junk tag n).
Proof.
  apply Forall_forall. intros x Hx. apply in_map_iff in Hx. destruct Hx as (y & <- & _). unfold is_byte, u8. apply Z.mod_pos_bound. lia.
Qed.

Lemma monomial_tester_ok st : wp (monomial_tester X p fuel junk st) (fun '(msgs, _) => msgs = ["Monomial arith test: ok"%string]).
Proof using All.
  unfold monomial_tester. destruct (monomial_mat_id_spec p wf (junk_monomial p junk 100) (junk_mono_mem 100)) as (I & E & _).
  rewrite E. cbn [bind]. eapply wp_bind. { apply monomial_mat_rnd_spec. apply junk_mono_mem. }
  intros [mat1 st1] HO.
  destruct (mul_inv p wf (junk_monomial p junk 104) (junk_monomial p junk 100) (junk_monomial p junk 106) (junk_monomial p junk 106) mat1
    (junk_mono_mem _) (junk_mono_mem _) (junk_mono_mem _) (junk_mono_mem _) HO) as (I' & B & E1 & E2 & _ & _ & E4).
  rewrite E2. cbn [bind]. rewrite E4. cbn [bind wp]. replace I' with I by congruence. rewrite same_monomial_refl. reflexivity.
Qed.

Lemma find_pivot_ok steps G pv row col : shape K N G -> is_rref K N (ent G) pv -> (row < K)%nat -> (col <= pv row)%nat -> (pv row - col < steps)%nat ->
  find_pivot p steps G row col = Ok (pv row).
Proof.
  intros HS (R1 & R2 & R3 & R4) Hr. revert col. induction steps as [|k IH]; intros col Hc Hs; [lia|]. cbn [find_pivot].
  pose proof (R1 row Hr). rewrite (get2_ok _ K N) by (auto; lia). cbn [bind].
  destruct (Nat.eq_dec col (pv row)) as [->|n].
  - rewrite R3, Nat.eqb_refl by auto. reflexivity.
  - rewrite R4 by (auto; lia). destruct (Nat.ltb_spec col N); [|lia]. cbn [Z.eqb andb]. apply IH; lia.
Qed.

Lemma rref_check_ok G pv fl : shape K N G -> is_rref K N (ent G) pv -> flags_of K N pv fl -> rref_check p G fl = Ok ([], true).
Proof.
  intros HS HR HF. pose proof HR as (R1 & R2 & R3 & R4). destruct HF as (F1 & F2). unfold rref_check.
  assert (S : okp (for_ K 0 (fun row s => let '(msgs, good) := s in
      col <- find_pivot p (N + 2) G row 0 ;; v <- get2 G row col ;;
      let '(msgs1, good1) := if negb (v =? 1) then (msgs ++ ["Pivot actually equal to"%string], false) else (msgs, good) in
      let '(msgs2, good2) := if (N <=? col)%nat then (msgs1 ++ ["Pivot missing"%string], false) else (msgs1, good1) in
      f <- get fl col ;;
      Ok (if negb (f =? 1) then (msgs2 ++ ["indicator array mismatch"%string], false) else (msgs2, good2))) ([], true)) (fun s => s = ([], true))).
  { eapply okp_mono. apply okp_for with (I := fun _ s => s = ([], true)); auto.
    - intros row s Hr ->. pose proof (R1 row ltac:(lia)). cbn [Nat.add]. rewrite (find_pivot_ok _ _ pv) by (auto; lia). cbn [bind].
      rewrite (get2_ok _ K N) by (auto; lia). cbn [bind]. rewrite R3, Nat.eqb_refl by lia. cbn [Z.eqb Pos.eqb negb].
      destruct (Nat.leb_spec N (pv row)); [lia|]. rewrite (get_ok _ _ 0) by lia. cbn [bind].
      replace (nth (pv row) fl 0) with 1. 2:{ symmetry. apply (F2 (pv row)); auto. exists row. split; auto. lia. }
      apply okp_ok. reflexivity.
    - auto. }
  destruct S as (s & E & ->). exact E.
Qed.

Lemma gausselim_loop_ok n G GMul st : shape K N G -> reduced K N (ent G) -> full_rank K N (ent G) -> shape K N GMul ->
  wp (gausselim_loop X p fuel junk n [] G GMul st) (fun '(msgs, _) => msgs = ["GE test: ok"%string]).
Proof using All.
  revert G GMul st. induction n as [|n IH]; intros G GMul st HS HR HF HM; cbn [gausselim_loop]. { reflexivity. }
  eapply wp_bind. { apply monomial_mat_rnd_spec. apply junk_mono_mem. } intros [mat1 st1] HO.
  destruct (product_ok GMul G mat1 HM HS HR HO) as (GM & E & S1 & R1 & _ & F1). rewrite E. cbn [bind].
  destruct (RREF_full GM (repeat 0 N) (repeat_length _ _) S1 R1 (F1 HF)) as (R & f & f' & pv & E1 & _ & _ & S2 & R2 & _ & RR & FL).
  rewrite E1. cbn [bind]. rewrite (rref_check_ok R pv f) by auto. cbn [bind Z.eqb Pos.eqb negb andb orb app].
  apply IH; auto.
Qed.

Lemma gausselim_tester_ok tests st : wp (gausselim_tester X p fuel junk tests st) (fun '(msgs, _) => msgs = ["GE test: ok"%string]).
Proof using All.
  unfold gausselim_tester. eapply wp_bind. { apply random_full_rank_spec. apply junk_mat_shape. }
  intros [[G piv] st1] (A1 & A2 & pv & A3 & _). apply gausselim_loop_ok; auto; [|apply junk_mat_shape]. apply (rref_full_rank _ _ _ pv A3).
Qed.

Lemma gen_by_monom_tester_ok st : wp (gen_by_monom_tester X p fuel junk st) (fun '(msgs, _) => msgs = ["Generator-monomial multiplication: ok"%string]).
Proof using All.
  unfold gen_by_monom_tester. eapply wp_bind. { apply random_full_rank_spec. apply zero_mat_shape. }
  intros [[G piv] st1] (A1 & A2 & _). eapply wp_bind. { apply monomial_mat_rnd_spec. apply junk_mono_mem. }
  intros [mat1 st2] HO. destruct (act_inv p wf (junk_monomial p junk 104) (junk_mat junk 108 K N) (junk_mat junk 110 K N) G mat1 (junk_mono_mem _)
    (junk_mat_shape _ _ _) (junk_mat_shape _ _ _) A1 A2 HO) as (Qi & GQ & E1 & E2 & E3).
  rewrite E1. cbn [bind]. rewrite E2. cbn [bind]. rewrite E3. cbn [bind wp]. rewrite same_mat_refl. reflexivity.
Qed.

Lemma rref_gen_by_monom_tester_ok st :
  wp (rref_gen_by_monom_tester X p fuel junk st) (fun '(msgs, _) => msgs = ["SF Generator-monomial multiplication: ok"%string]).
Proof using All.
  unfold rref_gen_by_monom_tester. pose proof junk_mono_mem as JM. pose proof junk_mat_shape as JS.
  eapply wp_bind. { apply monomial_mat_rnd_spec. auto. } intros [Qa st1] Oa.
  destruct (mul_inv p wf (junk_monomial p junk 104) (junk_monomial p junk 100) (junk_monomial p junk 100) (junk_monomial p junk 100) Qa
    (JM _) (JM _) (JM _) (JM _) Oa) as (I & Qi & EI & Ei & Oi & Eab & _).
  rewrite Ei. cbn [bind].
  eapply wp_bind. { apply monomial_mat_rnd_spec. auto. } intros [Qb st2] Ob.
  eapply wp_bind. { apply random_full_rank_spec. auto. } intros [[G piv] st3] (G1 & G2 & pv & G3 & G4).
  pose proof (rref_full_rank _ _ _ pv G3) as GF. destruct G4 as (Lp & _).
  destruct (product_ok (junk_mat junk 110 K N) G Qa (JS _ _ _) G1 G2 Oa) as (Ga & E2 & S2 & R2 & V2 & F2). rewrite E2. cbn [bind].
  destruct (RREF_full Ga piv Lp S2 R2 (F2 GF)) as (Ra & fa & fa' & pa & _ & E3 & L3 & S3 & R3 & Q3 & RR3 & _). rewrite E3. cbn [bind].
  destruct (product_ok (junk_mat junk 112 K N) G Qb (JS _ _ _) G1 G2 Ob) as (Gb & E4 & S4 & R4 & V4 & F4). rewrite E4. cbn [bind].
  destruct (RREF_full Gb fa' L3 S4 R4 (F4 GF)) as (Rb & fb & fb' & pb & E5z & E5 & L5 & S5 & R5 & Q5 & RR5 & _). rewrite E5. cbn [bind].
  (* mu = Qa^-1 Qb, and Qa mu = Qb *)
  destruct (mul_assoc p (junk_monomial p junk 100) (junk_monomial p junk 114) (junk_monomial p junk 100) (junk_monomial p junk 116) Qa Qi Qb
    (JM _) (JM _) (JM _) (JM _) Oa Oi Ob) as (I' & mu & Qc & M1 & M2 & M3 & M4 & _).
  replace I' with I in * by congruence.
  destruct (mul_id p wf (junk_monomial p junk 100) (junk_monomial p junk 100) (junk_monomial p junk 100) Qb (JM _) (JM _) (JM _) Ob) as (I2 & N1 & N2 & N3 & _).
  replace I2 with I in * by congruence. replace Qc with Qb in * by congruence.
  rewrite M2. cbn [bind]. rewrite M4. cbn [bind].
  destruct (monomial_mat_mul_spec p (junk_monomial p junk 114) Qi Qb (JM _) Oi Ob) as (mu' & M5 & Om & _). replace mu' with mu in * by congruence.
  destruct (product_ok (junk_mat junk 118 K N) Ra mu (JS _ _ _) S3 R3 Om) as (Gc & E6 & S6 & R6 & V6 & F6). rewrite E6. cbn [bind].
  pose proof (rref_full_rank _ _ _ pa RR3) as FRa.
  destruct (RREF_full Gc fb' L5 S6 R6 (F6 FRa)) as (Rc & fc & fc' & pc & E7z & E7 & L7 & S7 & R7 & Q7 & RR7 & _). rewrite E7. cbn [bind].
  pose proof (C17_idempotent p wf Gc Rc fc S6 R6 E7z) as E8z.
  destruct (RREF_any Rc fc' _ _ _ L7 E8z) as (f8 & E8 & L8). rewrite E8. cbn [bind wp].
  (* Gb = Ga mu, so that the codes of Gc and Gb agree *)
  destruct (act_mul p (junk_mat junk 110 K N) (junk_mat junk 118 K N) (junk_mat junk 112 K N) (junk_monomial p junk 116) G Qa mu
    (JS _ _ _) (JS _ _ _) (JS _ _ _) (JM _) G1 G2 Oa Om) as (Ga' & Qb' & Gb' & H1 & H2 & H3 & H4 & _).
  replace Ga' with Ga in * by congruence. replace Qb' with Qb in * by congruence. replace Gb' with Gb in * by congruence.
  destruct (product_ok (junk_mat junk 118 K N) Ga mu (JS _ _ _) S2 R2 Om) as (Gb'' & H5 & _ & _ & V7 & _). replace Gb'' with Gb in * by congruence.
  assert (RE : row_equiv K N (ent Gc) (ent Gb)).
  { destruct Q3 as [Q3a Q3b]. split; eapply product_row_sub; eauto. }
  assert (ERc : Rc = Rb).
  { destruct (rref_agree p wf Gc Gb S6 S4 R6 R4 (F6 FRa) (F4 GF)) as (Rx & fx & X1 & X2).
    { apply row_equiv_same_code. exact RE. } congruence. }
  subst Rc. rewrite same_monomial_refl, same_mat_refl. reflexivity.
Qed.

Lemma rref_gen_compress_tester_ok st : wp (rref_gen_compress_tester X p fuel junk st) (fun '(msgs, _) => msgs = ["Generator SF compression: ok"%string]).
Proof using All.
  unfold rref_gen_compress_tester. eapply wp_bind. { apply random_full_rank_spec. apply zero_mat_shape. }
  intros [[G piv] st1] (A1 & A2 & pv & A3 & A4).
  assert (H : forall old, shape K N old -> exists c', generator_rref_compact p (junk_rref p junk 102) G piv = Ok c' /\ generator_rref_expand p old c' = Ok G).
  { intros old HO. destruct (C32_compact_expand p wf (junk_rref p junk 102) G pv piv old) as (c' & B1 & B2 & _); auto.
    apply junk_mat_shape. apply junk_list_length. eauto. }
  destruct (H G A1) as (c & B1 & _). rewrite B1. cbn [bind].
  eapply wp_bind. { apply generator_rnd_spec; auto. } intros [G1 st2] (C1 & _).
  destruct (H G1 C1) as (c' & B1' & B2). replace c' with c in * by congruence. rewrite B2. cbn [bind wp]. rewrite same_mat_refl. reflexivity.
Qed.

Lemma rref_gen_byte_compress_tester_ok st :
  wp (rref_gen_byte_compress_tester X p fuel junk st) (fun '(msgs, _) => msgs = ["Generator SF compression: ok"%string]).
Proof using All.
  unfold rref_gen_byte_compress_tester. eapply wp_bind. { apply random_full_rank_spec. apply zero_mat_shape. }
  intros [[G piv] st1] (A1 & A2 & pv & A3 & A4).
  assert (H : forall old, shape K N old -> exists b, compress_rref p (junk_bytes junk 102 (rref_bytes p)) G piv = Ok b /\ expand_to_rref p old b = Ok G).
  { intros old HO. destruct (C13_roundtrip p wf (junk_bytes junk 102 (rref_bytes p)) old G pv piv) as (b & B1 & _ & _ & B2); auto.
    apply junk_bytes_bytes. apply junk_bytes_length. eauto. }
  destruct (H G A1) as (c & B1 & _). rewrite B1. cbn [bind].
  eapply wp_bind. { apply generator_rnd_spec; auto. } intros [G1 st2] (C1 & _).
  destruct (H G1 C1) as (c' & B1' & B2). replace c' with c in * by congruence. rewrite B2. cbn [bind wp]. rewrite same_mat_refl. reflexivity.
Qed.

Lemma mono_is_compress_tester_ok st : wp (mono_is_compress_tester X p fuel junk st) (fun '(msgs, _) => msgs = ["Monomial Action compression: ok"%string]).
Proof using All.
  unfold mono_is_compress_tester. eapply wp_bind. { apply monomial_mat_rnd_spec. apply junk_mono_mem. }
  intros [Q st1] HO. pose proof (wf_K p wf) as HK. destruct (mono_ok_mem p Q HO) as [L1 L2].
  eapply wp_bind with (Q := fun q => length (a_perm q) = K /\ length (a_coef q) = K /\ forall i, (i < K)%nat ->
     nthZ (a_perm q) i = nthZ (m_perm Q) i /\ nthZ (a_coef q) i = nthZ (m_coef Q) i).
  { apply okp_wp. eapply okp_mono. apply okp_for with (I := fun n q => length (a_perm q) = K /\ length (a_coef q) = K /\ forall i, (i < n)%nat ->
      nthZ (a_perm q) i = nthZ (m_perm Q) i /\ nthZ (a_coef q) i = nthZ (m_coef Q) i).
    - split. apply junk_list_length. split. apply junk_list_length. intros; lia.
    - intros i q Hi (H1 & H2 & H3). cbn [Nat.add] in *. rewrite (get_ok _ i 0) by lia. cbn [bind]. rewrite set_ok by lia. cbn [bind].
      rewrite (get_ok _ i 0) by lia. cbn [bind]. rewrite set_ok by lia. apply okp_ok. cbn [a_perm a_coef]. rewrite !upd_length.
      split; auto. split; auto. intros j Hj. unfold nthZ. rewrite !nth_upd by lia. destruct (Nat.eqb_spec i j) as [<-|]; auto. apply H3. lia.
    - auto. }
  intros q (H1 & H2 & H3).
  destruct (C14_roundtrip p wf (junk_bytes junk 106 (mono_bytes p)) (junk_action p junk 108) q) as (b & E1 & _ & _ & E2); auto;
    try apply junk_bytes_bytes; try apply junk_bytes_length; try apply junk_list_length.
  - apply Forall_nth_Z. intros i Hi. rewrite (proj1 (H3 i ltac:(lia))). pose proof (mo_p p Q i HO ltac:(lia)) as B.
    pose proof (pf_nth (m_perm Q) i). pose proof (perm_list_range N _ i (mo_perm p Q HO) ltac:(lia)). unfold nthZ in *. lia.
  - apply Forall_nth_Z. intros i Hi. rewrite (proj2 (H3 i ltac:(lia))). apply (mo_c p); auto; lia.
  - rewrite E1. cbn [bind]. rewrite E2. cbn [bind wp]. rewrite same_action_refl. reflexivity.
Qed.
End T.

Lemma inverse_mod_tester_ok : inverse_mod_tester = Ok ["All inverses on F_q ok"%string].
Proof. vm_compute. reflexivity. Qed.

Section U.
Variable X : prim.
Variable p : params.
Hypothesis wf : wf_params p.
Hypothesis LX : lawful X (hash_len p).

Lemma keygen_run fuel junk rng sk pk : length sk = sizeof_sk p -> length pk = sizeof_pk p -> bytes pk ->
  wp (LESS_keygen X p fuel junk rng sk pk) (fun '(sk', pk', rng') => keypair X p fuel sk' pk' /\ generates X p rng sk' pk' rng' /\
    length sk' = sizeof_sk p /\ length pk' = sizeof_pk p /\ bytes pk').
Proof.
  intros H1 H2 H3. pose proof (LESS_keygen_spec X p wf LX fuel junk rng sk pk H1 H2 H3) as S.
  destruct (LESS_keygen X p fuel junk rng sk pk) as [[[sk' pk'] rng']| |] eqn:E; cbn [wp] in *; auto.
  split. { exists junk, rng, rng', sk, pk. auto. }
  split. { apply (proj1 (C39_keygen X p wf LX rng sk' pk' rng') fuel junk sk pk H1 H2 H3 E). }
  destruct S as [(csk & g0 & c & G & A1 & A2 & A3 & A4 & A5 & A6 & A7 & _)]. rewrite A1, app_length. unfold sizeof_sk. split; auto.
Qed.

Lemma sign_verify_test_ok fuel junk sk pk st : length sk = sizeof_sk p -> length pk = sizeof_pk p -> bytes pk ->
  wp (LESS_sign_verify_test X p fuel junk sk pk st) (fun '(ok, _) => ok = 1).
Proof.
  intros H1 H2 H3. unfold LESS_sign_verify_test. eapply wp_bind. { apply keygen_run; auto. }
  intros [[sk1 pk1] st1] (KP & _ & L1 & _).
  pose proof (LESS_sign_spec X p wf LX fuel junk st1 sk1 test_message (junk_bytes junk 102 (sizeof_sign p)) L1 (junk_bytes_length _ _ _) (junk_bytes_bytes _ _ _)) as S.
  destruct (LESS_sign X p fuel junk st1 sk1 test_message (junk_bytes junk 102 (sizeof_sign p))) as [[[sig num] st2]| |] eqn:E; cbn [wp bind] in *; auto.
  rewrite (C01_correct X p wf LX fuel sk1 pk1 KP fuel junk st1 test_message _ sig num st2 (junk_bytes_length _ _ _) (junk_bytes_bytes _ _ _) E fuel junk (Nat.le_refl _)).
  reflexivity.
Qed.

Lemma signs_below rng sk m old sig num rng' : Z.of_nat (most_published (tree_height p) (pT p) (pW p)) < max_seeds p ->
  length sk = sizeof_sk p -> length old = sizeof_sign p -> bytes old -> bytes m -> signs X p rng sk m old sig num rng' -> Z.of_nat num < max_seeds p.
Proof.
  intros HM SL H1 H2 H3 HS.
  destruct (proj2 (C40_sign X p wf LX rng sk m old sig num rng' SL H1 H2 H3) HS) as (f & F).
  pose proof (LESS_sign_spec X p wf LX f (fun _ _ => 0) rng sk m old SL H1 H2) as W.
  rewrite F in W by lia. cbn [wp] in W. destruct W as (tree & c & fullG & acts & Vs & fws & fl & SG).
  destruct (to_publish_ok p fws (sg_fws _ _ _ _ _ _ _ _ _ _ _ _ _ _ SG)) as (P1 & P2 & P3).
  pose proof (wf_W p wf). pose proof (npub_most p wf _ P1 P2 fl (sg_flags _ _ _ _ _ _ _ _ _ _ _ _ _ _ SG) ltac:(lia)) as NM.
  rewrite (sg_num _ _ _ _ _ _ _ _ _ _ _ _ _ _ SG). rewrite P3 in NM. lia.
Qed.

(** Signing into a buffer of any content. *)
Lemma sign_run_any fuel junk rng sm m sk : length sk = sizeof_sk p -> bytes m -> bytes sm ->
  (length m + sizeof_sign p <= length sm)%nat -> Z.of_nat (length sm) < 2 ^ 64 ->
  wp (crypto_sign X p fuel junk rng sm m sk) (fun '(ret, sm', smlen, rng') => ret = 0 /\ length sm' = length sm /\ bytes sm' /\
    api_signed X p fuel sk m sm' smlen /\ (Z.to_nat smlen <= length sm')%nat /\
    exists old sig num, length old = sizeof_sign p /\ bytes old /\ signs X p rng sk m old sig num rng' /\
      nth (Z.to_nat smlen - 1) sm' 0 = Z.of_nat num /\ Z.of_nat num <= max_seeds p).
Proof.
  intros H1 H2 H3 H4 H5. pose proof (crypto_sign_spec X p wf LX fuel junk rng sm m sk H1 H3 H2 H4 H5) as S.
  destruct (crypto_sign X p fuel junk rng sm m sk) as [[[[ret sm'] smlen] rng']| |] eqn:E; cbn [wp] in *; auto.
  destruct S as (-> & S1 & S2 & sig & num & tree & c & fullG & acts & Vs & fws & fl & HS & Es & El).
  pose proof (sg_len _ _ _ _ _ _ _ _ _ _ _ _ _ _ HS) as SL. pose proof (sg_max _ _ _ _ _ _ _ _ _ _ _ _ _ _ HS) as SM.
  pose proof (sg_maxb _ _ _ _ _ _ _ _ _ _ _ _ _ _ HS) as SMb. pose proof (sg_count _ _ _ _ _ _ _ _ _ _ _ _ _ _ HS) as SC.
  assert (FIT : (off_seeds p + num * seed_len p + 1 <= sizeof_sign p)%nat) by (unfold sizeof_sign, seed_storage_len; lia).
  split; auto. split; auto. split; auto. split. { exists junk, rng, rng', 0, sm. auto. }
  rewrite El, Nat2Z.id. split. { lia. }
  unfold crypto_sign in E. rewrite wr_ok in E by lia. cbn [bind] in E. rewrite firstn_O, Nat.add_0_l in E. cbn [app] in E.
  rewrite rd_ok in E by (rewrite app_length, skipn_length; lia). cbn [bind] in E.
  rewrite skipn_app, skipn_all, Nat.sub_diag in E. cbn [app skipn] in E.
  set (old := firstn (sizeof_sign p) (skipn (length m) sm)) in *.
  assert (LO : length old = sizeof_sign p) by (unfold old; rewrite firstn_length, skipn_length; lia).
  assert (BO : bytes old) by (apply Forall_firstn, Forall_skipn; auto).
  pose proof (LESS_sign_spec X p wf LX fuel junk rng sk m old H1 LO BO) as W.
  destruct (LESS_sign X p fuel junk rng sk m old) as [[[sg nm] rg]| |] eqn:EL; cbn [bind wp] in E, W; try discriminate.
  destruct W as (tree' & c' & fullG' & acts' & Vs' & fws' & fl' & HS').
  pose proof (sg_len _ _ _ _ _ _ _ _ _ _ _ _ _ _ HS') as SL'.
  pose proof (sg_maxb _ _ _ _ _ _ _ _ _ _ _ _ _ _ HS') as SMb'. pose proof (sg_max _ _ _ _ _ _ _ _ _ _ _ _ _ _ HS') as SM'.
  assert (FIT' : (off_seeds p + nm * seed_len p + 1 <= sizeof_sign p)%nat) by (unfold sizeof_sign, seed_storage_len; lia).
  rewrite wr_ok in E by (rewrite app_length, skipn_length; lia). cbn [bind] in E. injection E as E1 E2 E3.
  exists old, sg, nm. split; auto. split; auto. subst rg.
  split. { apply (proj1 (C40_sign X p wf LX rng sk m old sg nm rng' H1 LO BO H2) fuel junk EL). }
  assert (nm = num).
  { pose proof sign_size_small p wf as SZ. pose proof (wf_max_byte p wf).
    unfold u32 in E2. rewrite (Z.mod_small (Z.of_nat nm)) in E2 by lia. rewrite sig_len_val in E2 by (auto; lia). unfold u64 in E2. rewrite Z.mod_small in E2 by lia.
    assert (0 < seed_len p)%nat by (unfold seed_len; destruct (p_cat p); lia). nia. }
  subst nm. split; auto. rewrite Es.
  replace (length m + off_seeds p + num * seed_len p + 1 - 1)%nat with (length m + (off_seeds p + num * seed_len p))%nat by lia.
  rewrite nth_app3 by lia. exact SC.
Qed.

(** What the scheme prescribes for the iterations [i], [i + 1], ... of the test from generator state [st]: a random
    message, a key pair and a signature; [nums] are the numbers of published seeds. *)
Inductive test_trace (rands : nat -> Z) : nat -> xstate X -> list nat -> xstate X -> Prop :=
| trace_nil i st : test_trace rands i st [] st
| trace_cons i st m st1 sk pk st2 old sig num st3 nums st' :
    x_squeeze X (Z.to_nat (rands i mod 160)) st = (m, st1) -> generates X p st1 sk pk st2 ->
    length old = sizeof_sign p -> bytes old -> signs X p st2 sk m old sig num st3 ->
    test_trace rands (S i) st3 nums st' -> test_trace rands i st (num :: nums) st'.

Lemma trace_below rands i st nums st' : Z.of_nat (most_published (tree_height p) (pT p) (pW p)) < max_seeds p ->
  test_trace rands i st nums st' -> Forall (fun n => Z.of_nat n < max_seeds p) nums.
Proof.
  intros HM T. induction T as [|i st m st1 sk pk st2 old sig num st3 nums st' E HG L B HS _ IH]; constructor; auto.
  destruct (C39_keys X p wf LX _ _ _ _ HG) as (_ & SL & _).
  apply (signs_below st2 sk m old sig num st3); auto.
  pose proof (law_sq_bytes _ _ LX (Z.to_nat (rands i mod 160)) st) as HB. rewrite E in HB. exact HB.
Qed.

Lemma multiple_loop_ok fuel junk rands : (forall i, 0 <= rands i) -> forall n i m sm pk sk st,
  length m = 160%nat -> length sm = (160 + sizeof_sign p)%nat -> bytes sm -> length pk = sizeof_pk p -> bytes pk -> length sk = sizeof_sk p ->
  wp (multiple_loop X p fuel junk n i rands m sm pk sk 0 st) (fun '(e, printed, st') => exists nums, test_trace rands i st nums st' /\
    ((e = Returns 0 /\ length nums = n /\ printed = seq i n /\ Forall (fun k => Z.of_nat k < max_seeds p) nums) \/
     (e = Returns (-1) /\ exists good last, nums = good ++ [last] /\ (length good < n)%nat /\ printed = seq i (length good) /\
        Forall (fun k => Z.of_nat k < max_seeds p) good /\ Z.of_nat last = max_seeds p))).
Proof.
  intros HR. induction n as [|n IH]; intros i m sm pk sk st Lm Ls Bs Lp Bp Lk; cbn [multiple_loop].
  { cbn [wp]. exists []. split; [constructor|]. left. repeat split; auto. }
  assert (EL : u32 (rands i mod 160) = rands i mod 160). { unfold u32. apply Z.mod_small. specialize (HR i). lia. }
  rewrite EL. set (len := Z.to_nat (rands i mod 160)). assert (HL : (len < 160)%nat) by (unfold len; lia).
  destruct (x_squeeze X len st) as [bs st1] eqn:ES.
  pose proof (law_sq_len _ _ LX len st) as Lb. pose proof (law_sq_bytes _ _ LX len st) as Bb. rewrite ES in Lb, Bb. cbn [fst] in Lb, Bb.
  rewrite wr_ok by lia. cbn [bind]. rewrite firstn_O, Nat.add_0_l, Lb. cbn [app].
  eapply wp_bind. { apply (keypair_run X p wf LX); auto. }
  intros [[[ret1 pk1] sk1] st2] (-> & HG & Lp1 & Bp1 & _ & Lk1 & AK). cbn [Z.eqb negb].
  rewrite rd_ok by (rewrite app_length, skipn_length; lia). cbn [bind skipn].
  rewrite firstn_app, Lb, Nat.sub_diag, firstn_O, app_nil_r, firstn_all2 by lia.
  pose proof (sign_size_small p wf) as SZ.
  eapply wp_bind. { apply sign_run_any; auto; lia. }
  intros [[[ret2 sm1] smlen] st3] (-> & Ls1 & Bs1 & AS & Lsm & old & sig & num & Lo & Bo & HS & EN & HM). cbn [Z.eqb negb].
  rewrite (C02_open X p wf LX fuel sk1 pk1 AK fuel bs sm1 smlen AS fuel junk (bs ++ skipn len m) sm1 (Nat.le_refl _) Bs1) by (rewrite ?app_length; auto; lia).
  rewrite EN. destruct (Z.eqb_spec (Z.of_nat num) (max_seeds p)) as [EM|NM]; cbn [bind].
  - cbn [Z.eqb negb wp]. exists [num]. split.
    { eapply trace_cons; eauto. constructor. }
    right. split; auto. exists [], num. cbn [length app seq]. repeat split; auto; lia.
  - cbn [Z.eqb negb Z.lor]. rewrite Lb, Z.eqb_refl. eapply wp_bind.
    { apply IH; auto; try lia. rewrite !app_length, !skipn_length, app_length, skipn_length. lia. }
    intros [[e printed] st4] (nums & T & H). cbn [wp]. exists (num :: nums). split. { eapply trace_cons; eauto. }
    destruct H as [(-> & H1 & -> & H2)|(-> & good & last & -> & H1 & -> & H2 & H3)].
    + left. cbn [length seq]. split; auto. split; auto. split; auto. constructor; auto. lia.
    + right. split; auto. exists (num :: good), last. cbn [length seq app]. split; auto. split; [lia|]. split; auto. split; auto. constructor; auto. lia.
Qed.

Lemma test_KAT_ok fuel junk : wp (LESS_sign_verify_test_KAT X p fuel junk) (fun code => exists sk pk st1 old sig num st2,
  generates X p (x_init X (map Z.of_nat (seq 0 48))) sk pk st1 /\ length old = sizeof_sign p /\ bytes old /\ signs X p st1 sk kat_test_message old sig num st2 /\
  Z.of_nat num <= max_seeds p /\ code = if Z.of_nat num =? max_seeds p then -1 else 0).
Proof.
  unfold LESS_sign_verify_test_KAT. cbv zeta. set (st := x_init X (map Z.of_nat (seq 0 48))).
  assert (ZB : forall n, bytes (repeat 0 n)) by apply zeros_bytes.
  assert (BM : bytes kat_test_message) by (apply bytes_of_check; reflexivity).
  assert (LM : length kat_test_message = 33%nat) by reflexivity. pose proof (sign_size_small p wf) as SZ.
  eapply wp_bind. { apply (keypair_run X p wf LX); auto; apply repeat_length. }
  intros [[[ret1 pk1] sk1] st1] (-> & HG & Lp1 & Bp1 & _ & Lk1 & AK). cbn [Z.eqb negb].
  eapply wp_bind. { apply sign_run_any; auto; rewrite repeat_length; lia. }
  intros [[[ret2 sm1] smlen] st2] (-> & Ls1 & Bs1 & AS & Lsm & old & sig & num & Lo & Bo & HS & EN & HM). cbn [Z.eqb negb]. rewrite repeat_length in Ls1.
  rewrite (C02_open X p wf LX fuel sk1 pk1 AK fuel kat_test_message sm1 smlen AS fuel junk (repeat 0 (33 + sizeof_sign p)) sm1 (Nat.le_refl _) Bs1) by (rewrite ?repeat_length; auto; lia).
  rewrite EN. destruct (Z.of_nat num =? max_seeds p) eqn:EM; cbn [bind Z.eqb negb wp]; exists sk1, pk1, st1, old, sig, num, st2; rewrite ?EM; auto 10.
Qed.

(** *** The benchmark *)
Lemma keygen_times_ok fuel junk n sk pk st : length sk = sizeof_sk p -> length pk = sizeof_pk p -> bytes pk ->
  wp (keygen_times X p fuel junk n sk pk st) (fun '(sk', pk', _) => length sk' = sizeof_sk p /\ ((0 < n)%nat -> keypair X p fuel sk' pk')).
Proof.
  revert sk pk st. induction n as [|n IH]; intros sk pk st H1 H2 H3; cbn [keygen_times]. { cbn [wp]. split; auto. lia. }
  eapply wp_bind. { apply keygen_run; auto. } intros [[sk1 pk1] st1] (KP & _ & L1 & L2 & B2).
  destruct n as [|n]. { cbn [keygen_times wp]. auto. }
  eapply wp_mono. { apply IH; auto. } intros [[sk' pk'] st'] (A & B). split; auto. intros _. apply B. lia.
Qed.

Lemma sign_times_ok fuel junk n sk sig st : length sk = sizeof_sk p -> length sig = sizeof_sign p -> bytes sig ->
  wp (sign_times X p fuel junk n sk sig st) (fun '(sig', _) => (0 < n)%nat -> exists st1 old num st2, length old = sizeof_sign p /\ bytes old /\
    LESS_sign X p fuel junk st1 sk test_message old = Ok (sig', num, st2)).
Proof.
  revert sig st. induction n as [|n IH]; intros sig st H1 H2 H3; cbn [sign_times]. { cbn [wp]. lia. }
  pose proof (LESS_sign_spec X p wf LX fuel junk st sk test_message sig H1 H2 H3) as S.
  destruct (LESS_sign X p fuel junk st sk test_message sig) as [[[sig1 num] st1]| |] eqn:E; cbn [wp bind] in *; auto.
  destruct S as (tree & c & fullG & acts & Vs & fws & fl & HS).
  destruct n as [|n]. { cbn [sign_times wp]. intros _. exists st, sig, num, st1. auto. }
  eapply wp_mono. { apply IH; auto. apply (sg_len _ _ _ _ _ _ _ _ _ _ _ _ _ _ HS). apply (sg_bytes _ _ _ _ _ _ _ _ _ _ _ _ _ _ HS). }
  intros [sig' st'] A _. apply A. lia.
Qed.

Lemma speed_ok fuel junk n st : (0 < n)%nat -> wp (LESS_sign_verify_speed X p fuel junk n st) (fun s => s = "functional"%string).
Proof.
  intros Hn. unfold LESS_sign_verify_speed. eapply wp_bind. { apply keygen_times_ok; try apply junk_bytes_length. apply junk_bytes_bytes. }
  intros [[sk pk] st1] (L & KP). specialize (KP Hn).
  eapply wp_bind. { apply sign_times_ok; auto. apply junk_bytes_length. apply junk_bytes_bytes. }
  intros [sig st2] H. destruct (H Hn) as (s1 & old & num & s2 & Lo & Bo & E).
  assert (V : forall k ok, verify_times X p fuel junk k pk sig ok = Ok (match k with O => ok | S _ => 1 end)).
  { induction k as [|k IH]; intros ok; cbn [verify_times]; auto.
    rewrite (C01_correct X p wf LX fuel sk pk KP fuel junk s1 test_message old sig num s2 Lo Bo E fuel junk (Nat.le_refl _)). cbn [bind].
    rewrite IH. destruct k; reflexivity. }
  rewrite V. cbn [bind wp]. destruct n; [lia|]. reflexivity.
Qed.

Lemma microbench_ok fuel junk n st : wp (microbench X p fuel junk n st) (fun '(G, st1) =>
  exists G0, generator_rnd X p fuel (junk_mat junk 108 (pK p) (pN p)) st = Ok (G0, st1) /\ shape (pK p) (pN p) G /\ reduced (pK p) (pN p) (ent G) /\
    row_equiv (pK p) (pN p) (ent G0) (ent G) /\ ((0 < n)%nat -> full_rank (pK p) (pN p) (ent G0) -> exists pv, is_rref (pK p) (pN p) (ent G) pv)).
Proof.
  unfold microbench. pose proof (generator_rnd_spec X p wf LX fuel (junk_mat junk 108 (pK p) (pN p)) st (junk_mat_shape _ _ _ _)) as GS.
  destruct (generator_rnd X p fuel (junk_mat junk 108 (pK p) (pN p)) st) as [[G st1]| |] eqn:EG; cbn [wp bind] in *; auto.
  destruct GS as (HS & HR).
  assert (V : forall k G fl, length fl = pN p -> shape (pK p) (pN p) G -> reduced (pK p) (pN p) (ent G) -> okp (microbench_loop p k G fl) (fun G' =>
    shape (pK p) (pN p) G' /\ reduced (pK p) (pN p) (ent G') /\ row_equiv (pK p) (pN p) (ent G) (ent G') /\
    ((0 < k)%nat -> full_rank (pK p) (pN p) (ent G) -> exists pv, is_rref (pK p) (pN p) (ent G') pv))).
  { clear - wf. induction k as [|k IH]; intros G fl L HS HR; cbn [microbench_loop].
    { apply okp_ok. split; auto. split; auto. split; [apply row_equiv_refl|lia]. }
    destruct (generator_RREF_spec p G HS HR (wf_K_le p wf)) as ([[ret R] f] & E & S & Rd & Q & D).
    destruct (RREF_any p G fl _ _ _ L E) as (f' & E' & L'). rewrite E'. cbn [bind].
    destruct k as [|k].
    { cbn [microbench_loop]. apply okp_ok. split; auto. split; auto. split; auto. intros _ HF.
      destruct D as [(_ & pv & HP & _)|(_ & N0)]; [exists pv; auto|contradiction]. }
    eapply okp_mono. { apply IH; eauto. } intros G' (A1 & A2 & A3 & A4). split; auto. split; auto.
    split. { eapply row_equiv_trans; eauto. }
    intros _ HF. apply A4; [lia|]. eapply row_equiv_full_rank; eauto. }
  destruct (V n G _ (junk_bytes_length junk 102 (pN p)) HS HR) as (G' & E & H). rewrite E. cbn [bind wp]. exists G. auto.
Qed.
End U.
