(** Correctness of [generator_RREF]. *)
From Coq Require Import Setoid Morphisms.
From Verif Require Import Base BaseLemmas Params Fq FqProofs Sums LinAlg Codes.

Section R.
Variable p : params.
Notation N := (pN p).
Notation K := (pK p).

Definition redm (G : mat) : Prop := forall i j, (i < K)%nat -> (j < N)%nat -> fq (ent G i j).

Ltac g2 := rewrite (get2_ok _ K N) by (auto; lia); cbn [bind].
Ltac s2 := rewrite (set2_ok _ K N) by (auto; lia); cbn [bind].

Lemma swap_rows_spec G r s : shape K N G -> (r < K)%nat -> (s < K)%nat -> r <> s ->
  okp (swap_rows p G r s) (fun G' => shape K N G' /\
    forall i j, (i < K)%nat -> (j < N)%nat -> ent G' i j = ent G (swp r s i) j).
Proof.
  intros HG Hr Hs Hrs. unfold swap_rows.
  eapply okp_mono. eapply okp_for with (I := fun c G' => shape K N G' /\
    forall i j, (i < K)%nat -> (j < N)%nat ->
      ent G' i j = if (j <? c)%nat then ent G (swp r s i) j else ent G i j).
  - split; auto.
  - intros c G' Hc (H1 & H2). g2. g2. s2. rewrite (set2_ok _ K N) by (auto using shape_upd2; lia).
    apply okp_ok. split. { auto using shape_upd2. }
    intros i j Hi Hj.
    rewrite (ent_upd2 _ K N) by (auto using shape_upd2; lia).
    rewrite (ent_upd2 _ K N) by (auto; lia).
    rewrite !H2 by (auto; lia). rewrite Nat.ltb_irrefl. unfold swp.
    destruct (Nat.eqb_spec s i), (Nat.eqb_spec c j), (Nat.eqb_spec r i), (Nat.eqb_spec i r), (Nat.eqb_spec i s),
      (Nat.ltb_spec j (S c)), (Nat.ltb_spec j c); subst; simpl; auto; try lia.
  - intros G' (H1 & H2). split; auto. intros i j Hi Hj. rewrite H2 by auto.
    destruct (Nat.ltb_spec j (0 + N)); auto; lia.
Qed.

Lemma pivot_row_scan_spec fuel G prow pcol : shape K N G -> (pcol < N)%nat -> (prow <= K)%nat ->
  (K - prow < fuel)%nat ->
  okp (pivot_row_scan p fuel G prow pcol) (fun r => (prow <= r <= K)%nat /\
    (forall i, (prow <= i < r)%nat -> ent G i pcol = 0) /\
    ((r < K)%nat -> ent G r pcol <> 0)).
Proof.
  intros HG Hc. revert prow. induction fuel; intros prow Hp Hf; simpl; [lia|].
  destruct (Nat.ltb_spec prow K).
  - g2. destruct (Z.eqb_spec (ent G prow pcol) 0).
    + eapply okp_mono. { apply IHfuel; lia. }
      intros r (H1 & H2 & H3). split; [lia|]. split; auto.
      intros i Hi. destruct (Nat.eq_dec i prow); subst; auto. apply H2. lia.
    + apply okp_ok. split; [lia|]. split; auto. intros; lia.
  - apply okp_ok. split; [lia|]. split; intros; lia.
Qed.

Lemma pivot_search_spec fuel G row pcol : shape K N G -> (row < K)%nat -> (pcol <= N)%nat ->
  (N - pcol + 2 <= fuel)%nat ->
  okp (pivot_search p fuel G row row pcol) (fun '(prow, pc) => (pcol <= pc <= N)%nat /\
    (forall i c, (row <= i < K)%nat -> (pcol <= c < pc)%nat -> ent G i c = 0) /\
    ((pc < N)%nat -> (row <= prow < K)%nat /\ ent G prow pc <> 0)).
Proof.
  intros HG Hr. revert pcol. induction fuel as [|f IH]; intros pcol Hc Hf; [lia|].
  cbn [pivot_search]. destruct (Nat.ltb_spec pcol N).
  - g2. destruct (Z.eqb_spec (ent G row pcol) 0).
    + eapply okp_bind. { apply pivot_row_scan_spec; auto; lia. }
      intros pr (H1 & H2 & H3). destruct (Nat.leb_spec K pr).
      * eapply okp_mono. { apply IH; lia. }
        intros [pr' pc] (P1 & P2 & P3). split; [lia|]. split; auto.
        intros i c Hi Hc'. destruct (Nat.eq_dec c pcol); subst. { apply H2. lia. }
        apply P2; lia.
      * destruct f as [|f]; [lia|]. cbn [pivot_search]. destruct (Nat.ltb_spec pcol N); [|lia].
        g2. destruct (Z.eqb_spec (ent G pr pcol) 0). { exfalso. apply H3; auto. }
        apply okp_ok. split; [lia|]. split. { intros; lia. } intros _. split; [lia|auto].
    + apply okp_ok. split; [lia|]. split. { intros; lia. } intros _. split; auto; lia.
  - apply okp_ok. split; [lia|]. split; intros; lia.
Qed.

Lemma rescale_row_spec G row pcol sf : shape K N G -> (row < K)%nat -> (pcol <= N)%nat ->
  okp (rescale_row p G row pcol sf) (fun G' => shape K N G' /\
    forall i j, (i < K)%nat -> (j < N)%nat -> ent G' i j =
      if Nat.eqb i row && (pcol <=? j)%nat then fq_red (sf * ent G i j) else ent G i j).
Proof.
  intros HG Hr Hp. unfold rescale_row.
  eapply okp_mono. eapply okp_for with (I := fun c G' => shape K N G' /\
    forall i j, (i < K)%nat -> (j < N)%nat -> ent G' i j =
      if Nat.eqb i row && (pcol <=? j)%nat && (j <? c)%nat then fq_red (sf * ent G i j) else ent G i j).
  - split; auto. intros i j Hi Hj. destruct (Nat.eqb_spec i row), (Nat.leb_spec pcol j), (Nat.ltb_spec j pcol);
      simpl; auto; lia.
  - intros c G' Hc (H1 & H2). g2. s2. apply okp_ok. split. { auto using shape_upd2. }
    intros i j Hi Hj. rewrite (ent_upd2 _ K N) by (auto; lia). rewrite !H2 by (auto; lia).
    destruct (Nat.eqb_spec row i), (Nat.eqb_spec c j), (Nat.eqb_spec i row), (Nat.leb_spec pcol j),
      (Nat.ltb_spec j c), (Nat.ltb_spec j (S c)); subst; simpl; auto; try lia;
    rewrite ?Nat.eqb_refl, ?Nat.ltb_irrefl; rewrite ?andb_false_r; auto.
  - intros G' (H1 & H2). split; auto. intros i j Hi Hj. rewrite H2 by auto.
    destruct (Nat.eqb_spec i row), (Nat.leb_spec pcol j), (Nat.ltb_spec j (pcol + (N - pcol))); simpl; auto; lia.
Qed.

Definition elim_val (mult pv g : Z) : Z := u8 (fq_red (u16 (127 + g - fq_red (mult * pv)))).

Lemma eliminate_row_spec G row r mult : shape K N G -> (row < K)%nat -> (r < K)%nat -> row <> r ->
  okp (eliminate_row p G row r mult) (fun G' => shape K N G' /\
    forall i j, (i < K)%nat -> (j < N)%nat -> ent G' i j =
      if Nat.eqb i r then elim_val mult (ent G row j) (ent G i j) else ent G i j).
Proof.
  intros HG Hrow Hr Hne. unfold eliminate_row.
  eapply okp_mono. eapply okp_for with (I := fun c G' => shape K N G' /\
    forall i j, (i < K)%nat -> (j < N)%nat -> ent G' i j =
      if Nat.eqb i r && (j <? c)%nat then elim_val mult (ent G row j) (ent G i j) else ent G i j).
  - split; auto. intros i j Hi Hj. rewrite andb_false_r. auto.
  - intros c G' Hc (H1 & H2). g2. g2. s2. apply okp_ok. split. { auto using shape_upd2. }
    intros i j Hi Hj. rewrite (ent_upd2 _ K N) by (auto; lia). rewrite !H2 by (auto; lia).
    rewrite Nat.eqb_refl, Nat.ltb_irrefl, andb_false_r.
    destruct (Nat.eqb_spec row r); [lia|].
    destruct (Nat.eqb_spec r i), (Nat.eqb_spec c j), (Nat.eqb_spec i r), 
      (Nat.ltb_spec j c), (Nat.ltb_spec j (S c)); subst; simpl; auto; try lia.
  - intros G' (H1 & H2). split; auto. intros i j Hi Hj. rewrite H2 by auto.
    destruct (Nat.eqb_spec i r), (Nat.ltb_spec j (0 + N)); simpl; auto; lia.
Qed.

Lemma eliminate_rows_spec G row pcol : shape K N G -> (row < K)%nat -> (pcol < N)%nat ->
  okp (eliminate_rows p G row pcol) (fun G' => shape K N G' /\
    forall i j, (i < K)%nat -> (j < N)%nat -> ent G' i j =
      if Nat.eqb i row then ent G i j else elim_val (ent G i pcol) (ent G row j) (ent G i j)).
Proof.
  intros HG Hrow Hc. unfold eliminate_rows.
  eapply okp_mono. eapply okp_for with (I := fun r G' => shape K N G' /\
    forall i j, (i < K)%nat -> (j < N)%nat -> ent G' i j =
      if (i <? r)%nat && negb (Nat.eqb i row) then elim_val (ent G i pcol) (ent G row j) (ent G i j) else ent G i j).
  - split; auto.
  - intros r G' Hr (H1 & H2). destruct (Nat.eqb_spec r row).
    + apply okp_ok. split; auto. intros i j Hi Hj. rewrite H2 by auto.
      destruct (Nat.ltb_spec i r), (Nat.ltb_spec i (S r)), (Nat.eqb_spec i row); subst; simpl; auto; lia.
    + g2. eapply okp_mono. { apply eliminate_row_spec; auto; lia. }
      intros G2 (S2 & E2). split; auto. intros i j Hi Hj. rewrite E2 by auto. rewrite !H2 by (auto; lia).
      rewrite Nat.ltb_irrefl. rewrite Nat.eqb_refl, andb_false_r. cbn [negb andb].
      destruct (Nat.ltb_spec i r), (Nat.ltb_spec i (S r)), (Nat.eqb_spec i row), (Nat.eqb_spec i r); subst; simpl; auto; try lia;
      rewrite ?Nat.ltb_irrefl; auto.
  - intros G' (H1 & H2). split; auto. intros i j Hi Hj. rewrite H2 by auto.
    destruct (Nat.ltb_spec i (0 + K)), (Nat.eqb_spec i row); simpl; auto; lia.
Qed.

Lemma elim_val_range m v g : fq (elim_val m v g).
Proof.
  unfold elim_val. pose proof (fq_red_range (u16 (127 + g - fq_red (m * v)))) as H.
  rewrite u8_id; auto. unfold fq in H. lia.
Qed.

Lemma elim_val_cong m v g : fq m -> fq v -> fq g -> elim_val m v g == g + (- m) * v.
Proof.
  intros Hm Hv Hg. unfold elim_val.
  pose proof (fq_red_range (u16 (127 + g - fq_red (m * v)))) as H.
  rewrite u8_id by (unfold fq in H; lia).
  pose proof (fq_red_range (m * v)) as H2. unfold fq in *.
  rewrite u16_id by lia.
  rewrite fq_red_cong by lia. rewrite fq_red_mul by auto.
  exists 1. ring.
Qed.

(** State of the reduction after [r] rows. *)
Record rref_inv (M0 : matf) (r : nat) (pv : nat -> nat) (G : mat) (fl : list Z) : Prop := {
  ri_shape : shape K N G;
  ri_red : redm G;
  ri_equiv : row_equiv K N M0 (ent G);
  ri_pv : forall i, (i < r)%nat -> (pv i < N)%nat;
  ri_inc : forall i j, (i < j)%nat -> (j < r)%nat -> (pv i < pv j)%nat;
  ri_unit : forall i j, (i < K)%nat -> (j < r)%nat -> ent G i (pv j) = if Nat.eqb i j then 1 else 0;
  ri_lead : forall i c, (i < r)%nat -> (c < pv i)%nat -> ent G i c = 0;
  ri_rest : forall i j c, (r <= i < K)%nat -> (j < r)%nat -> (c <= pv j)%nat -> ent G i c = 0;
  ri_flags : flags_of r N pv fl }.

Lemma incr_ge (pv : nat -> nat) r : (forall i j, (i < j)%nat -> (j < r)%nat -> (pv i < pv j)%nat) ->
  forall i, (i < r)%nat -> (i <= pv i)%nat.
Proof.
  intros H. induction i; intros Hi; [lia|]. specialize (H i (S i)). lia.
Qed.

Lemma nz_one (x : Z) : x == 1 -> fq x -> x = 1.
Proof. intros. apply cong_eq; auto with fq. Qed.

Lemma rref_step M0 r pv G fl prow pc :
  rref_inv M0 r pv G fl -> (r < K)%nat -> (pc < N)%nat -> (r <= pc)%nat ->
  (forall i c, (r <= i < K)%nat -> (r <= c < pc)%nat -> ent G i c = 0) ->
  (r <= prow < K)%nat -> ent G prow pc <> 0 ->
  okp (piv' <- set fl pc 1 ;;
       G1 <- (if Nat.eqb r prow then Ok G else swap_rows p G r prow) ;;
       g <- get2 G1 r pc ;;
       G2 <- rescale_row p G1 r pc (fq_inv g) ;;
       G3 <- eliminate_rows p G2 r pc ;;
       Ok (G3, piv'))
      (fun '(G3, fl') => rref_inv M0 (S r) (fun i => if Nat.eqb i r then pc else pv i) G3 fl').
Proof.
  intros [HS HR HE HP HI HU HL HT HF] Hr Hpc Hrc Hz Hprow Hnz.
  (* all columns before pc are zero in rows >= r *)
  assert (Z0 : forall i c, (r <= i < K)%nat -> (c < pc)%nat -> ent G i c = 0).
  { intros i c Hi Hc. destruct (Nat.lt_ge_cases c r); [|apply Hz; lia].
    apply (HT i (r - 1)%nat); try lia. pose proof (incr_ge pv r HI (r - 1)%nat). lia. }
  (* the new pivot is to the right of the previous ones *)
  assert (HI' : forall j, (j < r)%nat -> (pv j < pc)%nat).
  { intros j Hj. destruct (Nat.lt_ge_cases (pv j) pc); auto. exfalso. apply Hnz. apply (HT prow j); auto; lia. }
  pose proof HF as (HFl & HFc).
  rewrite set_ok by lia. cbn [bind].
  (* swap *)
  eapply okp_bind with (Q := fun G1 => shape K N G1 /\
    forall i j, (i < K)%nat -> (j < N)%nat -> ent G1 i j = ent G (swp r prow i) j).
  { destruct (Nat.eqb_spec r prow) as [<-|].
    - apply okp_ok. split; auto. intros i j Hi Hj. unfold swp.
      destruct (Nat.eqb_spec i r); subst; auto.
    - apply swap_rows_spec; auto; lia. }
  intros G1 (S1 & E1).
  assert (Eq1 : row_equiv K N M0 (ent G1)).
  { eapply row_equiv_trans; [exact HE|]. apply row_equiv_swap with (r := r) (s := prow); auto; try lia.
    intros i j Hi Hj. rewrite E1 by auto. reflexivity. }
  assert (R1 : redm G1).
  { intros i j Hi Hj. rewrite E1 by auto. apply HR; auto. apply swp_lt; auto; lia. }
  assert (sr : swp r prow r = prow) by (unfold swp; rewrite Nat.eqb_refl; auto).
  assert (slo : forall i, (i < r)%nat -> swp r prow i = i).
  { intros i Hi. unfold swp. destruct (Nat.eqb_spec i r), (Nat.eqb_spec i prow); auto; lia. }
  assert (shi : forall i, (r <= i < K)%nat -> (r <= swp r prow i < K)%nat).
  { intros i Hi. unfold swp. destruct (Nat.eqb_spec i r), (Nat.eqb_spec i prow); auto; lia. }
  assert (Z1 : forall i c, (r <= i < K)%nat -> (c < pc)%nat -> ent G1 i c = 0).
  { intros i c Hi Hc. rewrite E1 by lia. apply Z0; auto. }
  assert (N1 : ent G1 r pc <> 0) by (rewrite E1 by auto; rewrite sr; auto).
  assert (U1 : forall i j, (i < K)%nat -> (j < r)%nat -> ent G1 i (pv j) = if Nat.eqb i j then 1 else 0).
  { intros i j Hi Hj. rewrite E1 by auto. destruct (Nat.lt_ge_cases i r).
    - rewrite slo by auto. apply HU; auto.
    - pose proof (shi i ltac:(lia)) as Hsi.
      rewrite HU by (auto; lia).
      destruct (Nat.eqb_spec (swp r prow i) j), (Nat.eqb_spec i j); auto; lia. }
  clear Hnz.
  g2.
  eapply okp_bind. { apply rescale_row_spec; auto; lia. }
  intros G2 (S2 & E2).
  set (g := ent G1 r pc) in *.
  assert (Fg : fq g) by (apply R1; auto).
  (* rescaling acts on the whole row *)
  assert (C2 : forall i j, (i < K)%nat -> (j < N)%nat ->
     ent G2 i j == if Nat.eqb i r then fq_inv g * ent G1 i j else ent G1 i j).
  { intros i j Hi Hj. rewrite E2 by auto. destruct (Nat.eqb_spec i r) as [->|]; [|reflexivity].
    cbn [andb]. destruct (Nat.leb_spec pc j).
    - apply fq_red_mul; auto with fq.
    - rewrite Z1 by (auto; lia). rewrite Z.mul_0_r. reflexivity. }
  assert (R2 : redm G2).
  { intros i j Hi Hj. rewrite E2 by auto. destruct (_ && _); auto with fq. }
  assert (Eq2 : row_equiv K N M0 (ent G2)).
  { eapply row_equiv_trans; [exact Eq1|]. apply row_equiv_scale with (r := r) (c := fq_inv g); auto.
    apply fq_nz; auto with fq. apply fq_inv_nz; auto. }
  assert (P2 : ent G2 r pc = 1).
  { apply nz_one; auto. rewrite C2 by auto. rewrite Nat.eqb_refl. apply fq_inv_l; auto. }
  assert (Z2 : forall i c, (r <= i < K)%nat -> (c < pc)%nat -> ent G2 i c = 0).
  { intros i c Hi Hc. rewrite E2 by lia. destruct (Nat.leb_spec pc c); [lia|].
    rewrite andb_false_r. apply Z1; auto. }
  assert (L2 : forall i j, (i < r)%nat -> (j < N)%nat -> ent G2 i j = ent G i j).
  { intros i j Hi Hj. rewrite E2 by lia. destruct (Nat.eqb_spec i r); [lia|]. simpl.
    rewrite E1 by lia. rewrite slo by auto. auto. }
  eapply okp_bind. { apply eliminate_rows_spec; auto. }
  intros G3 (S3 & E3).
  assert (R3 : redm G3).
  { intros i j Hi Hj. rewrite E3 by auto. destruct (Nat.eqb i r); auto. apply elim_val_range. }
  assert (C3 : forall i j, (i < K)%nat -> (j < N)%nat ->
     ent G3 i j == ent G2 i j + (if Nat.eqb i r then 0 else - ent G2 i pc) * ent G2 r j).
  { intros i j Hi Hj. rewrite E3 by auto. destruct (Nat.eqb_spec i r).
    - rewrite Z.mul_0_l, Z.add_0_r. reflexivity.
    - apply elim_val_cong; auto. }
  assert (K3 : forall i j, (i < K)%nat -> (j < pc)%nat -> ent G3 i j = ent G2 i j).
  { intros i j Hi Hj. apply cong_eq; [apply R3|apply R2|]; auto; try lia. rewrite C3 by lia.
    rewrite (Z2 r j) by lia. rewrite Z.mul_0_r, Z.add_0_r. reflexivity. }
  apply okp_ok. constructor.
  - auto.
  - auto.
  - eapply row_equiv_trans; [exact Eq2|].
    apply row_equiv_elim with (r := r) (m := fun i => if Nat.eqb i r then 0 else - ent G2 i pc); auto.
    rewrite Nat.eqb_refl. auto.
  - intros i Hi. destruct (Nat.eqb_spec i r); auto. apply HP. lia.
  - intros i j Hij Hj. destruct (Nat.eqb_spec i r), (Nat.eqb_spec j r); try lia.
    + apply HI'. lia.
    + apply HI; lia.
  - intros i j Hi Hj. destruct (Nat.eqb_spec j r) as [->|].
    + destruct (Nat.eqb_spec i r) as [->|].
      * rewrite E3 by auto. rewrite Nat.eqb_refl. auto.
      * apply fq_cong0. { apply R3; auto. } rewrite C3 by auto. rewrite P2.
        destruct (Nat.eqb_spec i r); [lia|]. rewrite Z.mul_1_r, Z.add_opp_diag_r. reflexivity.
    + assert (Hj' : (j < r)%nat) by lia. rewrite K3 by auto.
      destruct (Nat.lt_ge_cases i r).
      * rewrite L2 by auto. apply HU; auto.
      * rewrite Z2 by auto. destruct (Nat.eqb_spec i j); auto; lia.
  - intros i c Hi Hc. destruct (Nat.eqb_spec i r) as [->|].
    + rewrite K3 by (auto; lia). apply Z2; auto.
    + assert (Hi' : (i < r)%nat) by lia. specialize (HI' i Hi').
      rewrite K3 by (lia). rewrite L2 by (auto; lia). apply HL; auto.
  - intros i j c Hi Hj Hc.
    assert (Hc' : (c <= pc)%nat).
    { destruct (Nat.eqb_spec j r); auto. specialize (HI' j). lia. }
    destruct (Nat.eq_dec c pc) as [->|].
    + apply fq_cong0. { apply R3; auto; lia. } rewrite C3 by (auto; lia). rewrite P2.
      destruct (Nat.eqb_spec i r); [lia|]. rewrite Z.mul_1_r, Z.add_opp_diag_r. reflexivity.
    + rewrite K3 by lia. apply Z2; lia.
  - split. { rewrite upd_length. auto. }
    intros c Hc. rewrite nth_upd by lia. specialize (HFc c Hc). destruct HFc as [HF1 HF2].
    destruct (Nat.eqb_spec pc c) as [<-|].
    + split; auto. intros H. exfalso. apply (H r); auto. rewrite Nat.eqb_refl. auto.
    + split.
      * intros (i & Hi & Ei). destruct (Nat.eqb_spec i r); [lia|]. apply HF1. exists i. split; auto; lia.
      * intros H. apply HF2. intros i Hi. specialize (H i ltac:(lia)). destruct (Nat.eqb_spec i r); auto; lia.
Qed.

Lemma rref_rows_spec n M0 r pv G fl : (r + n = K)%nat -> (K <= N)%nat -> rref_inv M0 r pv G fl ->
  okp (rref_rows p n r G fl) (fun '(ret, G', fl') =>
    (ret = 1 /\ exists pv', rref_inv M0 K pv' G' fl') \/
    (ret = 0 /\ exists pv' r', (r' < K)%nat /\ rref_inv M0 r' pv' G' fl' /\
       forall i c, (r' <= i < K)%nat -> (c < N)%nat -> ent G' i c = 0)).
Proof.
  revert r pv G fl. induction n as [|n IH]; intros r pv G fl Hn HKN HI; cbn [rref_rows].
  - apply okp_ok. left. split; auto. exists pv. replace K with r by lia. auto.
  - pose proof (ri_shape _ _ _ _ _ HI) as HS.
    eapply okp_bind. { apply pivot_search_spec; auto; try lia. }
    intros [prow pc] (H1 & H2 & H3). destruct (Nat.leb_spec N pc).
    + apply okp_ok. right. split; auto. exists pv, r. split; [lia|]. split; auto.
      intros i c Hi Hc. destruct (Nat.lt_ge_cases c r); [|apply H2; lia].
      apply (ri_rest _ _ _ _ _ HI i (r - 1)%nat); try lia.
      pose proof (incr_ge pv r (ri_inc _ _ _ _ _ HI) (r - 1)%nat). lia.
    + destruct (H3 ltac:(lia)) as [H4 H5].
      pose proof (rref_step M0 r pv G fl prow pc HI ltac:(lia) ltac:(lia) ltac:(lia)
        (fun i c Hi Hc => H2 i c Hi Hc) H4 H5) as St.
      destruct St as ([G3 fl3] & Eq & Inv).
      assert (E : forall B (k : mat -> list Z -> res B),
        (piv' <- set fl pc 1 ;;
         G1 <- (if Nat.eqb r prow then Ok G else swap_rows p G r prow) ;;
         g <- get2 G1 r pc ;;
         G2 <- rescale_row p G1 r pc (fq_inv g) ;;
         G3 <- eliminate_rows p G2 r pc ;; k G3 piv') = k G3 fl3).
      { intros B k. clear -Eq.
        destruct (set fl pc 1); try discriminate. cbn [bind] in *.
        destruct (if Nat.eqb r prow then Ok G else swap_rows p G r prow); try discriminate. cbn [bind] in *.
        destruct (get2 a0 r pc); try discriminate. cbn [bind] in *.
        destruct (rescale_row p a0 r pc (fq_inv a1)); try discriminate. cbn [bind] in *.
        destruct (eliminate_rows p a2 r pc); try discriminate. cbn [bind] in *. congruence. }
      rewrite E. apply IH with (pv := fun i => if Nat.eqb i r then pc else pv i); auto. lia.
Qed.

(** Main statement about [generator_RREF], for every reduced matrix. *)
Lemma generator_RREF_spec G : shape K N G -> redm G -> (K <= N)%nat ->
  okp (generator_RREF p G (repeat 0 N)) (fun '(ret, G', fl) =>
    shape K N G' /\ redm G' /\ row_equiv K N (ent G) (ent G') /\
    ((ret = 1 /\ exists pv, is_rref K N (ent G') pv /\ flags_of K N pv fl) \/
     (ret = 0 /\ ~ full_rank K N (ent G)))).
Proof.
  intros HS HR HKN. unfold generator_RREF.
  eapply okp_mono. { apply rref_rows_spec with (M0 := ent G) (pv := fun _ => O); auto.
    constructor; auto; try (intros; lia).
    - apply row_equiv_refl.
    - split. { apply repeat_length. } intros c Hc. split. { intros (i & Hi & _). lia. }
      intros _. apply nth_repeat. }
  intros [[ret G'] fl] [(-> & pv & I)|(-> & pv & r & Hr & I & Hz)]; destruct I.
  - split; auto. split; auto. split; auto. left. split; auto. exists pv. split; auto.
    repeat split; auto.
  - split; auto. split; auto. split; auto. right. split; auto. intros F.
    apply (row_equiv_full_rank _ _ _ _ ri_equiv0) in F.
    apply (zero_row_not_full_rank K N (ent G') r); auto.
    intros j Hj. rewrite Hz by (auto; lia). reflexivity.
Qed.

End R.
