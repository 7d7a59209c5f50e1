(** Records of the computation of a commitment: erasing them, and what they tell. *)
From Coq Require Import Setoid Morphisms.
From Verif Require Import Base BaseLemmas Params ParamsProofs Fq FqProofs Sums LinAlg Monomial Codes Spec RrefProofs Leak LeakProofs LeakRref PivotSpec.

(** *** The pivots are determined, and do not change when columns are scaled *)
Lemma pivots_det K N M : forall i rho cols l l', pivots_from K N M i rho cols l -> pivots_from K N M i rho cols l' -> l = l'.
Proof.
  intros i rho cols l l' H. revert l'. induction H as [rho cols|i rho cols Hi HD|i rho cols r c l Hr Hc HN HB HP IH]; intros l' H'.
  - inversion H'; subst; auto; lia.
  - inversion H'; subst; auto. exfalso. match goal with H : ~ dependent _ _ _ _ _ _ |- _ => apply H end. apply HD; auto.
  - inversion H' as [rho0 cols0|i0 rho0 cols0 Hi0 HD0|i0 rho0 cols0 r' c' l0 Hr' Hc' HN' HB' HP']; subst.
    + lia.
    + exfalso. apply HN. apply HD0; auto.
    + assert (E : c = c').
      { destruct (Nat.lt_trichotomy c c') as [L|[L|L]]; auto; exfalso; [apply HN; apply HB'|apply HN'; apply HB]; auto. }
      subst c'. assert (E : r = r').
      { destruct (Nat.lt_trichotomy r r') as [L|[L|L]]; auto; exfalso; [apply HN; apply HB'|apply HN'; apply HB]; auto. }
      subst r'. f_equal. apply IH. auto.
Qed.

Lemma dependent_scale K N M M' (e : nat -> Z) i rho cols r c : (forall k, (k < K)%nat -> (rho k < K)%nat) ->
  (r < K)%nat -> (i <= K)%nat -> (c < N)%nat -> (forall k, (k < i)%nat -> (cols k < N)%nat) ->
  (forall a d, (a < K)%nat -> (d < N)%nat -> M' a d == M a d * e d) -> dependent M i rho cols r c -> dependent M' i rho cols r c.
Proof.
  intros HR Hr Hi Hc HC HE (x & H). exists x. intros d Hd.
  assert (Hd' : (d < N)%nat) by (destruct Hd as [->|(k & Hk & ->)]; auto).
  rewrite HE by auto. rewrite H by auto. rewrite <- sumn_scal_r. apply sumn_cong. intros k Hk. rewrite HE by (auto; apply HR; lia).
  rewrite Z.mul_assoc. reflexivity.
Qed.
Lemma exchange_lt K rho i r : (forall k, (k < K)%nat -> (rho k < K)%nat) -> (i < K)%nat -> (r < K)%nat -> forall k, (k < K)%nat -> (exchange rho i r k < K)%nat.
Proof. intros H Hi Hr k Hk. unfold exchange. destruct (Nat.eqb k i), (Nat.eqb k r); auto. Qed.
Lemma extend_lt N cols i c : (forall k, (k < i)%nat -> (cols k < N)%nat) -> (c < N)%nat -> forall k, (k < S i)%nat -> (extend cols i c k < N)%nat.
Proof. intros H Hc k Hk. unfold extend. destruct (Nat.eqb_spec k i); auto. apply H. lia. Qed.

Lemma pivots_scale K N M M' (e e' : nat -> Z) :
  (forall a d, (a < K)%nat -> (d < N)%nat -> M' a d == M a d * e d) -> (forall a d, (a < K)%nat -> (d < N)%nat -> M a d == M' a d * e' d) ->
  forall i rho cols l, pivots_from K N M i rho cols l -> (forall k, (k < K)%nat -> (rho k < K)%nat) -> (forall k, (k < i)%nat -> (cols k < N)%nat) ->
  pivots_from K N M' i rho cols l.
Proof.
  intros HE HE' i rho cols l H. induction H as [rho cols|i rho cols Hi HD|i rho cols r c l Hr Hc HN HB HP IH]; intros HR HC.
  - apply pivots_all.
  - apply pivots_none; auto. intros r c Hr Hc. apply (dependent_scale K N M M' e); auto; lia.
  - apply pivots_next; auto.
    + intros D. apply HN. apply (dependent_scale K N M' M e'); auto; lia.
    + intros r' c' Hr' Hc' L. apply (dependent_scale K N M M' e); auto; lia.
    + apply IH. { apply exchange_lt; auto; lia. } apply extend_lt; auto.
Qed.

(** *** Combinations of rows *)
Lemma code_cong n N A v w : (forall c, (c < N)%nat -> w c == v c) -> in_code n N A v -> in_code n N A w.
Proof. intros H (a & Ha). exists a. intros c Hc. rewrite H by auto. auto. Qed.
Lemma code_lin n N A u v a b : in_code n N A u -> in_code n N A v -> in_code n N A (fun c => a * u c + b * v c).
Proof.
  intros (x & Hx) (y & Hy). exists (fun k => a * x k + b * y k). intros c Hc. rewrite Hx, Hy by auto.
  rewrite <- !sumn_scal, <- sumn_add. apply sumn_cong. intros k Hk.
  replace (a * (x k * A k c) + b * (y k * A k c)) with ((a * x k + b * y k) * A k c) by ring. reflexivity.
Qed.
Lemma code_zero n N A : in_code n N A (fun _ => 0).
Proof. exists (fun _ => 0). intros c Hc. rewrite sumn_zero; [reflexivity|]. intros k Hk. rewrite Z.mul_0_l. reflexivity. Qed.
Lemma code_row n N A k : (k < n)%nat -> in_code n N A (A k).
Proof.
  intros Hk. exists (fun i => if Nat.eqb i k then 1 else 0). intros c Hc.
  rewrite (sumn_ext n _ (fun i => if Nat.eqb i k then A i c else 0)). { rewrite (sumn_delta n k (fun i => A i c)) by auto. reflexivity. }
  intros i Hi. destruct (Nat.eqb i k); ring.
Qed.
Lemma code_trans n m N A B v : in_code n N A v -> (forall k, (k < n)%nat -> in_code m N B (A k)) -> in_code m N B v.
Proof.
  intros (a & Ha) H. apply (code_cong m N B (fun c => sumn n (fun i => a i * A i c))); auto. clear v Ha.
  induction n. { apply code_zero. } cbn [sumn].
  apply (code_cong m N B (fun c => 1 * sumn n (fun i => a i * A i c) + a n * A n c)).
  - intros c Hc. rewrite Z.mul_1_l. reflexivity.
  - apply (code_lin m N B (fun c => sumn n (fun i => a i * A i c)) (A n)).
    + apply IHn. intros k Hk. apply H. lia.
    + apply H. lia.
Qed.

(** *** The reduction keeps track of the rows it has taken *)
Section R.
Variable p : params.
Notation N := (pN p).
Notation K := (pK p).

Record track (M : matf) (i : nat) (rho : nat -> nat) (G : mat) : Prop := {
  tk_rho : forall j, (j < K)%nat -> (rho j < K)%nat;
  tk_in : forall k, (k < i)%nat -> in_code i N (ent G) (M (rho k));
  tk_out : forall k, (k < i)%nat -> in_code i N (fun k => M (rho k)) (ent G k);
  tk_rest : forall j, (i <= j < K)%nat -> in_code i N (ent G) (fun c => M (rho j) c - ent G j c) }.

(** An entry of a remaining row is zero exactly if the row it comes from is dependent. *)
Lemma zero_dependent M0 M i rho pv G fl : rref_inv p M0 i pv G fl -> track M i rho G ->
  forall j c, (i <= j < K)%nat -> (c < N)%nat -> (ent G j c = 0 <-> dependent M i rho pv j c).
Proof.
  intros I T j c Hj Hc. destruct I as [HS HR HE HP HI HU HL HT HF]. destruct T as [T0 T1 T2 T3].
  assert (HD : forall d, d = c \/ (exists k, (k < i)%nat /\ d = pv k) -> (d < N)%nat) by (intros d [->|(k & Hk & ->)]; auto).
  split.
  - intros Z. destruct (code_trans i i N (ent G) (fun k => M (rho k)) _ (T3 j Hj) T2) as (x & Hx). exists x. intros d Hd. rewrite <- Hx by auto.
    assert (E : ent G j d = 0). { destruct Hd as [->|(k & Hk & ->)]; auto. rewrite HU by (auto; lia). destruct (Nat.eqb_spec j k); auto; lia. }
    rewrite E, Z.sub_0_r. reflexivity.
  - intros (x & Hx).
    assert (U : in_code i N (ent G) (fun d => M (rho j) d - ent G j d - sumn i (fun k => x k * M (rho k) d))).
    { apply (code_cong i N (ent G) (fun d => 1 * (M (rho j) d - ent G j d) + (-1) * sumn i (fun k => x k * M (rho k) d))).
      { intros d _. replace (1 * (M (rho j) d - ent G j d) + (-1) * sumn i (fun k => x k * M (rho k) d))
          with (M (rho j) d - ent G j d - sumn i (fun k => x k * M (rho k) d)) by ring. reflexivity. }
      apply (code_lin i N (ent G) (fun d => M (rho j) d - ent G j d)). { apply T3. auto. }
      apply (code_trans i i N (fun k => M (rho k))); auto. exists x. intros d _. reflexivity. }
    destruct U as (a & Ha).
    assert (Z : forall l, (l < i)%nat -> a l == 0).
    { intros l Hl. specialize (Ha (pv l) (HP l Hl)). rewrite (sumn_single i l (fun i => a i * ent G i (pv l))) in Ha; auto.
      - cbv beta in Ha. rewrite (HU l l) in Ha by (auto; lia). rewrite Nat.eqb_refl, Z.mul_1_r in Ha. rewrite <- Ha.
        rewrite Hx by (right; eauto). rewrite (HU j l) by (auto; lia). destruct (Nat.eqb_spec j l); [lia|].
        replace (_ - 0 - _) with 0 by ring. reflexivity.
      - intros k Hk Hn. rewrite HU by (auto; lia). destruct (Nat.eqb_spec k l); [lia|]. rewrite Z.mul_0_r. reflexivity. }
    apply fq_cong0. { apply HR; auto; lia. }
    specialize (Ha c Hc). rewrite (sumn_zero i (fun i => a i * ent G i c)) in Ha.
    2: { intros k Hk. rewrite Z by auto. rewrite Z.mul_0_l. reflexivity. }
    rewrite Hx in Ha by auto. destruct Ha as (t & Ht). exists (- t). lia.
Qed.

(** One step, in terms of rows. *)
Lemma step_rows G fl r pc prow : shape K N G -> redm p G -> length fl = N -> (r < K)%nat -> (pc < N)%nat -> (r <= prow < K)%nat ->
  (forall c, (c < pc)%nat -> ent G prow c = 0) -> ent G prow pc <> 0 ->
  okp (piv' <- set fl pc 1 ;;
       G1 <- (if Nat.eqb r prow then Ok G else swap_rows p G r prow) ;;
       g <- get2 G1 r pc ;;
       G2 <- rescale_row p G1 r pc (fq_inv g) ;;
       G3 <- eliminate_rows p G2 r pc ;;
       Ok (G3, piv'))
      (fun '(G3, fl') => exists s s' m, s' * s == 1 /\ (forall c, (c < N)%nat -> ent G3 r c == s * ent G prow c) /\
        forall i c, (i < K)%nat -> i <> r -> (c < N)%nat -> ent G3 i c == ent G (swp r prow i) c - m i * ent G3 r c).
Proof.
  intros HS HR HF Hr Hpc Hp HZ HN. rewrite set_ok by lia. cbn [bind].
  eapply okp_bind with (Q := fun G1 => shape K N G1 /\ forall i j, (i < K)%nat -> (j < N)%nat -> ent G1 i j = ent G (swp r prow i) j).
  { destruct (Nat.eqb_spec r prow) as [<-|].
    - apply okp_ok. split; auto. intros i j Hi Hj. unfold swp. destruct (Nat.eqb_spec i r); subst; auto.
    - apply swap_rows_spec; auto; lia. }
  intros G1 (S1 & E1). assert (sr : swp r prow r = prow) by (unfold swp; rewrite Nat.eqb_refl; auto).
  assert (R1 : redm p G1). { intros i j Hi Hj. rewrite E1 by auto. apply HR; auto. apply swp_lt; auto; lia. }
  rewrite (get2_ok _ K N) by (auto; lia). cbn [bind]. eapply okp_bind. { apply rescale_row_spec; auto; lia. } intros G2 (S2 & E2).
  set (g := ent G1 r pc) in *. assert (Fg : fq g) by (apply R1; auto).
  assert (Ng : g <> 0) by (unfold g; rewrite E1 by auto; rewrite sr; auto).
  assert (R2 : redm p G2). { intros i j Hi Hj. rewrite E2 by auto. destruct (_ && _); auto with fq. }
  eapply okp_bind. { apply eliminate_rows_spec; auto. } intros G3 (S3 & E3). apply okp_ok.
  exists (fq_inv g), g, (fun i => ent G2 i pc). split; [|split].
  - rewrite Z.mul_comm. apply fq_inv_l; auto.
  - intros c Hc. rewrite E3 by auto. rewrite Nat.eqb_refl, E2 by auto. rewrite Nat.eqb_refl. cbn [andb].
    replace (ent G prow c) with (ent G1 r c) by (rewrite E1, sr by auto; auto). destruct (Nat.leb_spec pc c). { apply fq_red_mul; auto with fq. }
    rewrite !E1 by auto. rewrite sr, HZ by auto. rewrite Z.mul_0_r. reflexivity.
  - intros i c Hi Hn Hc. assert (E : ent G3 r c = ent G2 r c) by (rewrite E3 by auto; rewrite Nat.eqb_refl; auto). rewrite E.
    rewrite E3 by auto. destruct (Nat.eqb_spec i r); [contradiction|]. rewrite elim_val_cong by auto.
    assert (E' : ent G2 i c = ent G (swp r prow i) c). { rewrite E2 by auto. destruct (Nat.eqb_spec i r); [contradiction|]. cbn [andb]. apply E1; auto. }
    rewrite E'. replace (ent G (swp r prow i) c + - ent G2 i pc * ent G2 r c) with (ent G (swp r prow i) c - ent G2 i pc * ent G2 r c) by ring. reflexivity.
Qed.

Lemma track_step M r rho G prow G3 s s' m : track M r rho G -> (r <= prow < K)%nat -> s' * s == 1 ->
  (forall c, (c < N)%nat -> ent G3 r c == s * ent G prow c) ->
  (forall i c, (i < K)%nat -> i <> r -> (c < N)%nat -> ent G3 i c == ent G (swp r prow i) c - m i * ent G3 r c) ->
  track M (S r) (exchange rho r prow) G3.
Proof.
  intros [T0 T1 T2 T3] Hp Hs Er Ei.
  assert (slo : forall i, (i < r)%nat -> swp r prow i = i).
  { intros i Hi. unfold swp. destruct (Nat.eqb_spec i r), (Nat.eqb_spec i prow); auto; lia. }
  assert (EX : forall j, exchange rho r prow j = rho (swp r prow j)) by reflexivity.
  assert (sr : swp r prow r = prow) by (unfold swp; rewrite Nat.eqb_refl; auto).
  (* rows of the new matrix generate the old first rows *)
  assert (ROW : in_code (S r) N (ent G3) (ent G3 r)) by (apply code_row; lia).
  assert (OLD : forall l, (l < r)%nat -> in_code (S r) N (ent G3) (ent G l)).
  { intros l Hl. apply (code_cong (S r) N (ent G3) (fun c => 1 * ent G3 l c + m l * ent G3 r c)).
    - intros c Hc. rewrite (Ei l c) by lia. rewrite slo by auto. replace (1 * (ent G l c - m l * ent G3 r c) + m l * ent G3 r c) with (ent G l c) by ring. reflexivity.
    - apply (code_lin (S r) N (ent G3) (ent G3 l) (ent G3 r)); [apply code_row; lia|auto]. }
  assert (NEW : in_code (S r) N (ent G3) (ent G prow)).
  { apply (code_cong (S r) N (ent G3) (fun c => s' * ent G3 r c + 0 * ent G3 r c)).
    - intros c Hc. rewrite Er by auto. rewrite Z.mul_0_l, Z.add_0_r, Z.mul_assoc, Hs, Z.mul_1_l. reflexivity.
    - apply (code_lin (S r) N (ent G3) (ent G3 r) (ent G3 r)); auto. }
  assert (REST : forall j, (r <= j < K)%nat -> in_code (S r) N (ent G3) (fun c => M (rho j) c - ent G j c)).
  { intros j Hj. apply (code_trans r (S r) N (ent G)); auto. }
  assert (MP : in_code (S r) N (ent G3) (M (rho prow))).
  { apply (code_cong (S r) N (ent G3) (fun c => 1 * (M (rho prow) c - ent G prow c) + 1 * ent G prow c)).
    - intros c Hc. replace (1 * (M (rho prow) c - ent G prow c) + 1 * ent G prow c) with (M (rho prow) c) by ring. reflexivity.
    - apply (code_lin (S r) N (ent G3) (fun c => M (rho prow) c - ent G prow c) (ent G prow)); auto. }
  constructor.
  - intros j Hj. rewrite EX. apply T0. apply swp_lt; auto; lia.
  - intros k Hk. rewrite EX. destruct (Nat.eq_dec k r) as [->|]. { rewrite sr. auto. }
    rewrite slo by lia. apply (code_trans r (S r) N (ent G)); auto. apply T1. lia.
  - (* the new first rows are combinations of the rows of M *)
    assert (G0 : forall l, (l < r)%nat -> in_code (S r) N (fun k => M (exchange rho r prow k)) (ent G l)).
    { intros l Hl. apply (code_trans r (S r) N (fun k => M (rho k))). { apply T2. auto. }
      intros k Hk. replace (rho k) with (exchange rho r prow k) by (rewrite EX, slo by auto; auto).
      apply (code_row (S r) N (fun k => M (exchange rho r prow k)) k). lia. }
    assert (GP : in_code (S r) N (fun k => M (exchange rho r prow k)) (ent G prow)).
    { apply (code_cong (S r) N _ (fun c => 1 * M (rho prow) c + (-1) * (M (rho prow) c - ent G prow c))).
      - intros c Hc. replace (1 * M (rho prow) c + (-1) * (M (rho prow) c - ent G prow c)) with (ent G prow c) by ring. reflexivity.
      - apply (code_lin (S r) N _ (M (rho prow)) (fun c => M (rho prow) c - ent G prow c)).
        + replace (rho prow) with (exchange rho r prow r) by (rewrite EX, sr; auto). apply (code_row (S r) N (fun k => M (exchange rho r prow k)) r). lia.
        + apply (code_trans r (S r) N (ent G)); auto. }
    assert (GR : in_code (S r) N (fun k => M (exchange rho r prow k)) (ent G3 r)).
    { apply (code_cong (S r) N _ (fun c => s * ent G prow c + 0 * ent G prow c)).
      - intros c Hc. rewrite Er by auto. rewrite Z.mul_0_l, Z.add_0_r. reflexivity.
      - apply (code_lin (S r) N _ (ent G prow) (ent G prow)); auto. }
    intros k Hk. destruct (Nat.eq_dec k r) as [->|]; auto.
    apply (code_cong (S r) N _ (fun c => 1 * ent G k c + (- m k) * ent G3 r c)).
    + intros c Hc. rewrite (Ei k c) by lia. rewrite slo by lia. replace (1 * ent G k c + - m k * ent G3 r c) with (ent G k c - m k * ent G3 r c) by ring. reflexivity.
    + apply (code_lin (S r) N _ (ent G k) (ent G3 r)); auto. apply G0. lia.
  - intros j Hj. rewrite EX.
    assert (Hs' : (r <= swp r prow j < K)%nat). { unfold swp. destruct (Nat.eqb_spec j r), (Nat.eqb_spec j prow); lia. }
    apply (code_cong (S r) N _ (fun c => 1 * (M (rho (swp r prow j)) c - ent G (swp r prow j) c) + m j * ent G3 r c)).
    + intros c Hc. rewrite (Ei j c) by lia.
      replace (M (rho (swp r prow j)) c - (ent G (swp r prow j) c - m j * ent G3 r c))
        with (1 * (M (rho (swp r prow j)) c - ent G (swp r prow j) c) + m j * ent G3 r c) by ring. reflexivity.
    + apply (code_lin (S r) N _ (fun c => M (rho (swp r prow j)) c - ent G (swp r prow j) c) (ent G3 r)); auto.
Qed.

(** *** Erasure *)
Lemma bind_eq' {A B} (m m' : res A) (f g : A -> res B) : m = m' -> (forall a, f a = g a) -> bind m f = bind m' g.
Proof. intros -> H. apply bind_ext. auto. Qed.
Lemma swap_erase G r s : snd (swap_rows_t p G r s) = swap_rows p G r s.
Proof.
  unfold swap_rows_t, swap_rows. rewrite snd_tfor. apply for_ext'. intros i G1.
  repeat (rewrite snd_tbind; apply bind_ext; intros ?). reflexivity.
Qed.
Lemma scan_erase f G pcol : forall prow, snd (pivot_row_scan_t p f G prow pcol) = pivot_row_scan p f G prow pcol.
Proof.
  induction f; intros prow; cbn [pivot_row_scan_t pivot_row_scan]; [reflexivity|]. rewrite snd_tbind, snd_branch. cbn [bind].
  destruct (prow <? K)%nat; [|reflexivity]. rewrite snd_tbind. cbn [load2 snd]. apply bind_ext. intros g. rewrite snd_tbind, snd_branch. cbn [bind].
  destruct (g =? 0); [apply IHf|reflexivity].
Qed.
Lemma search_erase f G row : forall prow pcol, snd (pivot_search_t p f G row prow pcol) = pivot_search p f G row prow pcol.
Proof.
  induction f; intros prow pcol; cbn [pivot_search_t pivot_search]; [reflexivity|]. rewrite snd_tbind, snd_branch. cbn [bind].
  destruct (pcol <? N)%nat; [|reflexivity]. rewrite snd_tbind. cbn [load2 snd]. apply bind_ext. intros g. rewrite snd_tbind, snd_branch. cbn [bind].
  destruct (g =? 0); [|reflexivity]. rewrite snd_tbind, scan_erase. apply bind_ext. intros prow'. rewrite snd_tbind, snd_branch. cbn [bind].
  destruct (K <=? prow')%nat; apply IHf.
Qed.
Lemma rescale_erase G row pcol sf : snd (rescale_row_t p G row pcol sf) = rescale_row p G row pcol sf.
Proof. unfold rescale_row_t, rescale_row. rewrite snd_tfor. apply for_ext'. intros i G1. rewrite snd_tbind. reflexivity. Qed.
Lemma eliminate_row_erase G row r mult : snd (eliminate_row_t p G row r mult) = eliminate_row p G row r mult.
Proof.
  unfold eliminate_row_t, eliminate_row. rewrite snd_tfor. apply for_ext'. intros i G1. cbv zeta.
  repeat (rewrite snd_tbind; apply bind_ext; intros ?). reflexivity.
Qed.
Lemma eliminate_rows_erase G row pcol : snd (eliminate_rows_t p G row pcol) = eliminate_rows p G row pcol.
Proof.
  unfold eliminate_rows_t, eliminate_rows. rewrite snd_tfor. apply for_ext'. intros r G1. rewrite snd_tbind, snd_branch. cbn [bind].
  destruct (Nat.eqb r row); cbn [negb]; [reflexivity|]. rewrite snd_tbind. apply bind_ext. intros m. apply eliminate_row_erase.
Qed.
Lemma reduce_step_erase G fl r prow pc : snd (reduce_step_t p G fl r prow pc) =
  (piv' <- set fl pc 1 ;;
   G1 <- (if Nat.eqb r prow then Ok G else swap_rows p G r prow) ;;
   g <- get2 G1 r pc ;;
   G2 <- rescale_row p G1 r pc (fq_inv g) ;;
   G3 <- eliminate_rows p G2 r pc ;;
   Ok (G3, piv')).
Proof.
  unfold reduce_step_t. rewrite snd_tbind. apply bind_ext. intros piv'. rewrite snd_tbind, snd_branch. cbn [bind]. rewrite snd_tbind.
  apply bind_eq'. { destruct (Nat.eqb r prow); cbn [negb]; [reflexivity|apply swap_erase]. }
  intros G1. rewrite snd_tbind. apply bind_ext. intros g. rewrite snd_tbind, fq_inv_erase. cbn [bind].
  rewrite snd_tbind, rescale_erase. apply bind_ext. intros G2. rewrite snd_tbind, eliminate_rows_erase. apply bind_ext. intros G3. reflexivity.
Qed.
Lemma bind_assoc' {A B C} (m : res A) (f : A -> res B) (g : B -> res C) : bind (bind m f) g = bind m (fun a => bind (f a) g).
Proof. destruct m; reflexivity. Qed.
Lemma rref_rows_erase n : forall row G piv, snd (rref_rows_t p n row G piv) = rref_rows p n row G piv.
Proof.
  induction n; intros row G piv; cbn [rref_rows_t rref_rows]; [reflexivity|]. rewrite snd_tbind, snd_branch. cbn [bind].
  rewrite snd_tbind, search_erase. apply bind_ext. intros [prow pcol]. rewrite snd_tbind, snd_branch. cbn [bind].
  destruct (N <=? pcol)%nat; [reflexivity|]. rewrite snd_tbind, reduce_step_erase. rewrite bind_assoc'. apply bind_ext. intros piv'.
  rewrite bind_assoc'. apply bind_ext. intros G1. rewrite bind_assoc'. apply bind_ext. intros g. rewrite bind_assoc'. apply bind_ext. intros G2.
  rewrite bind_assoc'. apply bind_ext. intros G3. cbn [bind]. apply IHn.
Qed.
Lemma RREF_erase G piv : snd (generator_RREF_t p G piv) = generator_RREF p G piv.
Proof. apply rref_rows_erase. Qed.
Lemma extract_erase Q col : snd (extract_col_t p Q col) = extract_col p Q col.
Proof.
  unfold extract_col_t, extract_col. rewrite snd_tfor. apply for_ext'. intros i s. rewrite snd_tbind. apply bind_ext. intros pi.
  rewrite snd_tbind, snd_branch. cbn [bind]. destruct (pi =? Z.of_nat col); [|reflexivity]. rewrite snd_tbind. reflexivity.
Qed.

Lemma column_swap_erase V c1 c2 : snd (column_swap_t p V c1 c2) = column_swap p V c1 c2.
Proof.
  unfold column_swap_t, column_swap. rewrite snd_tfor. apply for_ext'. intros i V1.
  repeat (rewrite snd_tbind; apply bind_ext; intros ?). reflexivity.
Qed.
Lemma scan_up_erase f V pivot : forall i, snd (scan_up_t p f V i pivot) = scan_up p f V i pivot.
Proof.
  induction f; intros i; cbn [scan_up_t scan_up]; [reflexivity|]. cbv zeta. rewrite snd_tbind.
  change (snd (lex_compare_with_pivot_t p V (pos_t p (i + 1)) pivot)) with (snd (lex_compare_from_t K 0 V (Z.to_nat (pos_t p (i + 1))) pivot)).
  rewrite lex_compare_erase. apply bind_ext. intros c. rewrite snd_tbind, snd_branch. cbn [bind]. destruct (c =? 1); auto.
Qed.
Lemma scan_down_erase f V pivot : forall i, snd (scan_down_t p f V i pivot) = scan_down p f V i pivot.
Proof.
  induction f; intros i; cbn [scan_down_t scan_down]; [reflexivity|]. cbv zeta. rewrite snd_tbind.
  change (snd (lex_compare_with_pivot_t p V (pos_t p (i - 1)) pivot)) with (snd (lex_compare_from_t K 0 V (Z.to_nat (pos_t p (i - 1))) pivot)).
  rewrite lex_compare_erase. apply bind_ext. intros c. rewrite snd_tbind, snd_branch. cbn [bind]. destruct (c =? -1); auto.
Qed.
Lemma hoare_loop_erase f pivot : forall V i j, snd (hoare_loop_t p f V i j pivot) = hoare_loop p f V i j pivot.
Proof.
  induction f; intros V i j; cbn [hoare_loop_t hoare_loop]; [reflexivity|]. rewrite snd_tbind, scan_up_erase. apply bind_ext. intros i'.
  rewrite snd_tbind, scan_down_erase. apply bind_ext. intros j'. rewrite snd_tbind, snd_branch. cbn [bind]. destruct (i' >=? j'); [reflexivity|].
  rewrite snd_tbind, column_swap_erase. apply bind_ext. auto.
Qed.
Lemma hoare_erase V l h : snd (Hoare_partition_t p V l h) = Hoare_partition p V l h.
Proof.
  unfold Hoare_partition_t, Hoare_partition. rewrite snd_tbind, snd_tfor.
  match goal with |- bind (for_ _ _ ?f _) _ = bind (for_ _ _ ?g _) _ => rewrite (for_ext' K 0 f g) end.
  - apply bind_ext. intros pv. apply hoare_loop_erase.
  - intros i pv. rewrite snd_tbind. reflexivity.
Qed.
Lemma quicksort_erase f : forall V s e, snd (col_lex_quicksort_t p f V s e) = col_lex_quicksort p f V s e.
Proof.
  induction f; intros V s e; cbn [col_lex_quicksort_t col_lex_quicksort]; [reflexivity|]. rewrite snd_tbind, snd_branch. cbn [bind].
  destruct (s <? e); [|reflexivity]. rewrite snd_tbind, hoare_erase. apply bind_ext. intros [j V1]. rewrite snd_tbind, IHf. apply bind_ext. intros V2. apply IHf.
Qed.

Lemma prepare_erase V Qb G Q : snd (prepare_digest_input_t p V Qb G Q) = prepare_digest_input p V Qb G Q.
Proof.
  unfold prepare_digest_input_t, prepare_digest_input, commit_t. rewrite !snd_tbind, mul_erase, bind_assoc'. apply bind_ext. intros G1.
  rewrite snd_tbind, RREF_erase, bind_assoc'. apply bind_ext. intros [[rf Gd] piv]. rewrite snd_tbind, snd_tfor, bind_assoc'.
  match goal with |- bind (for_ _ _ ?f _) _ = bind (for_ _ _ ?g _) _ => rewrite (for_ext' N 0 f g) end.
  - apply bind_ext. intros [[[V1 Qb1] a] b]. cbn [ret snd bind]. rewrite snd_tbind. apply bind_eq'.
    + apply quicksort_erase.
    + reflexivity.
  - intros col [[[V1 Qb1] a] b]. rewrite snd_tbind, extract_erase. apply bind_ext. intros [ri v]. rewrite snd_tbind. apply bind_ext. intros f.
    rewrite snd_tbind, snd_branch. cbn [bind]. destruct (f =? 0).
    + rewrite snd_tbind, lex_minimize_erase. reflexivity.
    + rewrite snd_tbind. apply bind_ext. intros perm. rewrite snd_tbind. apply bind_ext. intros coef. reflexivity.
Qed.

(** *** The search for a pivot: same record, same place *)
Lemma fst_tbind {A B} (m : tm A) (k : A -> tm B) : fst (tbind m k) = fst m ++ match snd m with Ok a => fst (k a) | _ => [] end.
Proof. destruct m as [t [a| |]]; cbn [tbind fst snd]; rewrite ?app_nil_r; reflexivity. Qed.
Lemma fst_tbranch {B} b (k : bool -> tm B) : fst (tbind (branch b) k) = Branch b :: fst (k b).
Proof. reflexivity. Qed.
Lemma fst_tload2 {B} a G i j (k : Z -> tm B) : shape K N G -> (i < K)%nat -> (j < N)%nat -> fst (tbind (load2 a G i j) k) = Load a i j :: fst (k (ent G i j)).
Proof. intros H Hi Hj. rewrite fst_tbind. cbn [load2 fst snd]. rewrite (get2_ok _ K N) by auto. reflexivity. Qed.

Lemma cons_inv {A} (a b : A) x y : a :: x = b :: y -> a = b /\ x = y.
Proof. intros E. injection E as -> ->. auto. Qed.
Lemma branch_inv b b' : Branch b = Branch b' -> b = b'.
Proof. intros E. injection E as ->. auto. Qed.

Lemma scan_code f G G' pcol : shape K N G -> shape K N G' -> (pcol < N)%nat -> forall prow t t',
  fst (pivot_row_scan_t p f G prow pcol) ++ t = fst (pivot_row_scan_t p f G' prow pcol) ++ t' ->
  snd (pivot_row_scan_t p f G prow pcol) = snd (pivot_row_scan_t p f G' prow pcol) /\ t = t'.
Proof.
  intros HG HG' Hc. induction f; intros prow t t' E. { split; auto. }
  rewrite !scan_erase in *. cbn [pivot_row_scan_t] in E. rewrite !fst_tbranch in E. cbn [pivot_row_scan].
  destruct (Nat.ltb_spec prow K) as [L|L].
  - rewrite !fst_tload2 in E by auto. rewrite !fst_tbranch in E. cbn [app] in E. injection E as E1 E.
    rewrite !(get2_ok _ K N) by auto. cbn [bind]. rewrite E1 in *. destruct (ent G' prow pcol =? 0).
    + specialize (IHf (S prow) t t' E). rewrite !scan_erase in IHf. auto.
    + cbn [ret fst app] in E. auto.
  - cbn [ret fst app] in E. injection E as E. auto.
Qed.
Lemma scan_same f G G' pcol : shape K N G -> shape K N G' -> (pcol < N)%nat -> forall prow, (prow <= K)%nat -> (K - prow < f)%nat ->
  snd (pivot_row_scan_t p f G prow pcol) = snd (pivot_row_scan_t p f G' prow pcol) ->
  fst (pivot_row_scan_t p f G prow pcol) = fst (pivot_row_scan_t p f G' prow pcol).
Proof.
  intros HG HG' Hc. induction f; intros prow Hp Hf E. { reflexivity. }
  assert (ST : forall G, shape K N G -> ent G prow pcol = 0 -> (prow < K)%nat -> pivot_row_scan p f G (S prow) pcol <> Ok prow).
  { intros W HW _ L EW. destruct (pivot_row_scan_spec p f W (S prow) pcol HW Hc ltac:(lia) ltac:(lia)) as (x & Ex & Hx & _). rewrite Ex in EW. injection EW as ->. lia. }
  rewrite !scan_erase in *. cbn [pivot_row_scan_t]. rewrite !fst_tbranch. cbn [pivot_row_scan] in E.
  destruct (Nat.ltb_spec prow K) as [L|L]; [|reflexivity].
  rewrite !fst_tload2 by auto. rewrite !fst_tbranch. rewrite !(get2_ok _ K N) in E by auto. cbn [bind] in E.
  destruct (Z.eqb_spec (ent G prow pcol) 0) as [z|z], (Z.eqb_spec (ent G' prow pcol) 0) as [z'|z'].
  - do 3 f_equal. apply IHf; try lia. rewrite !scan_erase. auto.
  - exfalso. apply (ST G HG z L E).
  - exfalso. apply (ST G' HG' z' L). auto.
  - reflexivity.
Qed.

(** The place found is the first one. *)
Lemma search_first fuel G row pcol : shape K N G -> (row < K)%nat -> (pcol <= N)%nat -> (N - pcol + 2 <= fuel)%nat ->
  okp (pivot_search p fuel G row row pcol) (fun '(prow, pc) => (pcol <= pc <= N)%nat /\
    (forall i c, (row <= i < K)%nat -> (pcol <= c < pc)%nat -> ent G i c = 0) /\
    ((pc < N)%nat -> (row <= prow < K)%nat /\ ent G prow pc <> 0 /\ forall i, (row <= i < prow)%nat -> ent G i pc = 0)).
Proof.
  intros HG Hr. revert pcol. induction fuel as [|f IH]; intros pcol Hc Hf; [lia|].
  cbn [pivot_search]. destruct (Nat.ltb_spec pcol N).
  - rewrite (get2_ok _ K N) by auto. cbn [bind]. destruct (Z.eqb_spec (ent G row pcol) 0).
    + eapply okp_bind. { apply pivot_row_scan_spec; auto; lia. }
      intros pr (H1 & H2 & H3). destruct (Nat.leb_spec K pr).
      * eapply okp_mono. { apply IH; lia. }
        intros [pr' pc] (P1 & P2 & P3). split; [lia|]. split; auto.
        intros i c Hi Hc'. destruct (Nat.eq_dec c pcol); subst. { apply H2. lia. } apply P2; lia.
      * destruct f as [|f]; [lia|]. cbn [pivot_search]. destruct (Nat.ltb_spec pcol N); [|lia].
        rewrite (get2_ok _ K N) by (auto; lia). cbn [bind]. destruct (Z.eqb_spec (ent G pr pcol) 0). { exfalso. apply H3; auto. }
        apply okp_ok. split; [lia|]. split. { intros; lia. } intros _. split; [lia|auto].
    + apply okp_ok. split; [lia|]. split. { intros; lia. } intros _. split; [lia|]. split; auto. intros; lia.
  - apply okp_ok. split; [lia|]. split; intros; lia.
Qed.

Lemma search_code f G G' row : shape K N G -> shape K N G' -> (row < K)%nat -> forall prow pcol t t', (prow < K)%nat ->
  fst (pivot_search_t p f G row prow pcol) ++ t = fst (pivot_search_t p f G' row prow pcol) ++ t' ->
  snd (pivot_search_t p f G row prow pcol) = snd (pivot_search_t p f G' row prow pcol) /\ t = t'.
Proof.
  intros HG HG' Hr. induction f; intros prow pcol t t' Hp E. { split; auto. }
  rewrite !search_erase in *. cbn [pivot_search_t] in E. rewrite !fst_tbranch in E. cbn [pivot_search].
  destruct (Nat.ltb_spec pcol N) as [L|L].
  - rewrite !fst_tload2 in E by auto. rewrite !fst_tbranch in E. cbn [app] in E. apply cons_inv in E as (_ & E). apply cons_inv in E as (_ & E). apply cons_inv in E as (E1 & E). apply branch_inv in E1.
    rewrite !(get2_ok _ K N) by auto. cbn [bind]. rewrite E1 in *. destruct (ent G' prow pcol =? 0).
    + rewrite !fst_tbind, <- !app_assoc in E. apply scan_code in E; auto. destruct E as (E2 & E). rewrite <- !scan_erase. rewrite E2 in *.
      destruct (pivot_row_scan_spec p (S K) G' prow pcol HG' L ltac:(lia) ltac:(lia)) as (x & Ex & Hx & _).
      rewrite scan_erase, Ex in *. cbn [bind]. rewrite !fst_tbranch in E. cbn [app] in E. apply cons_inv in E as (_ & E).
      destruct (Nat.leb_spec K x).
      * specialize (IHf row (S pcol) t t' ltac:(lia) E). rewrite !search_erase in IHf. auto.
      * specialize (IHf x pcol t t' ltac:(lia) E). rewrite !search_erase in IHf. auto.
    + cbn [ret fst app] in E. auto.
  - cbn [ret fst app] in E. injection E as E. auto.
Qed.
Lemma search_same f G G' row : shape K N G -> shape K N G' -> (row < K)%nat -> forall pcol, (pcol <= N)%nat -> (N - pcol + 2 <= f)%nat ->
  snd (pivot_search_t p f G row row pcol) = snd (pivot_search_t p f G' row row pcol) ->
  fst (pivot_search_t p f G row row pcol) = fst (pivot_search_t p f G' row row pcol).
Proof.
  intros HG HG' Hr. induction f; intros pcol Hc Hf E; [lia|].
  (* the place found is not the present one if its entry is zero *)
  assert (NZ : forall G, shape K N G -> (pcol < N)%nat -> ent G row pcol = 0 -> pivot_search p (S f) G row row pcol <> Ok (row, pcol)).
  { intros W HW L Z EW. destruct (search_first (S f) W row pcol HW Hr Hc Hf) as ([a c] & Ex & _ & _ & H). rewrite Ex in EW. injection EW as -> ->.
    apply (proj1 (proj2 (H L))). auto. }
  assert (VAL : forall G, shape K N G -> (pcol < N)%nat -> ent G row pcol <> 0 -> pivot_search p (S f) G row row pcol = Ok (row, pcol)).
  { intros W HW L Z. cbn [pivot_search]. destruct (Nat.ltb_spec pcol N); [|lia]. rewrite (get2_ok _ K N) by auto. cbn [bind].
    destruct (Z.eqb_spec (ent W row pcol) 0); [contradiction|reflexivity]. }
  rewrite !search_erase in E. cbn [pivot_search_t]. rewrite !fst_tbranch.
  destruct (Nat.ltb_spec pcol N) as [L|L]; [|reflexivity].
  rewrite !fst_tload2 by auto. rewrite !fst_tbranch.
  destruct (Z.eqb_spec (ent G row pcol) 0) as [z|z], (Z.eqb_spec (ent G' row pcol) 0) as [z'|z'].
  - cbn [pivot_search] in E. destruct (Nat.ltb_spec pcol N); [|lia]. rewrite !(get2_ok _ K N) in E by auto. cbn [bind] in E. rewrite z, z', !Z.eqb_refl in E.
    destruct (pivot_row_scan_spec p (S K) G row pcol HG L ltac:(lia) ltac:(lia)) as (x & Ex & Hx & _ & Hx2).
    destruct (pivot_row_scan_spec p (S K) G' row pcol HG' L ltac:(lia) ltac:(lia)) as (x' & Ex' & Hx' & _ & Hx2').
    assert (FIN : forall W y, shape K N W -> (y < K)%nat -> ent W y pcol <> 0 -> pivot_search p f W row y pcol = Ok (y, pcol)).
    { intros W y HW Hy Hn. destruct f as [|g]; [lia|]. cbn [pivot_search]. destruct (Nat.ltb_spec pcol N); [|lia].
      rewrite (get2_ok _ K N) by auto. cbn [bind]. destruct (Z.eqb_spec (ent W y pcol) 0); [contradiction|reflexivity]. }
    assert (BEY : forall W y, shape K N W -> pivot_search p f W row row (S pcol) = Ok (y, pcol) -> False).
    { intros W y HW EW. destruct (search_first f W row (S pcol) HW Hr ltac:(lia) ltac:(lia)) as ([a c] & Ew & Hw & _). rewrite Ew in EW. injection EW as -> ->. lia. }
    assert (XX : x = x' /\ ((K <= x)%nat -> pivot_search p f G row row (S pcol) = pivot_search p f G' row row (S pcol))).
    { rewrite Ex in E. rewrite Ex' in E. cbn [bind] in E.
      destruct (Nat.leb_spec K x), (Nat.leb_spec K x').
      - split; [lia|]. auto.
      - exfalso. rewrite (FIN G' x') in E by auto. apply (BEY _ _ HG E).
      - exfalso. rewrite (FIN G x) in E by auto. apply (BEY _ x HG'). auto.
      - rewrite (FIN G x), (FIN G' x') in E by auto. injection E as ->. split; auto. lia. }
    destruct XX as (-> & XR). do 3 f_equal. rewrite !fst_tbind, !scan_erase, Ex, Ex'. f_equal.
    + apply scan_same; auto; try lia. rewrite !scan_erase, Ex, Ex'. reflexivity.
    + rewrite !fst_tbranch. f_equal. destruct (Nat.leb_spec K x').
      * apply IHf; try lia. rewrite !search_erase. auto.
      * destruct f as [|g]; [lia|]. cbn [pivot_search_t]. rewrite !fst_tbranch. destruct (Nat.ltb_spec pcol N); [|lia]. rewrite !fst_tload2 by auto.
        rewrite !fst_tbranch. destruct (Z.eqb_spec (ent G x' pcol) 0), (Z.eqb_spec (ent G' x' pcol) 0); try reflexivity; exfalso; [apply Hx2|apply Hx2|apply Hx2']; auto.
  - exfalso. apply (NZ G HG L z). rewrite E. apply VAL; auto.
  - exfalso. apply (NZ G' HG' L z'). rewrite <- E. apply VAL; auto.
  - reflexivity.
Qed.

(** *** The record of one step depends on the place of the pivot alone *)
Ltac step t := eapply tr_bind; [t|].
Definition swap_record (r s : nat) : list event :=
  loop (fun i => [Load G_values r i; Load G_values s i; Store G_values r i; Store G_values s i]) 0 N.
Definition step_record (r prow pc : nat) : list event :=
  [Store Is_pivot pc 0] ++ [Branch (negb (Nat.eqb r prow))] ++ (if negb (Nat.eqb r prow) then swap_record r prow else []) ++
  [Load G_values r pc] ++ inv_record ++ loop (fun i => [Load G_values r i; Store G_values r i]) pc (N - pc) ++
  loop (fun i => Branch (negb (Nat.eqb i r)) :: if negb (Nat.eqb i r) then Load G_values i pc ::
    loop (fun c => [Load G_values r c; Load G_values i c; Store G_values i c]) 0 N else []) 0 K.

Lemma step_record_ok G fl r prow pc : shape K N G -> length fl = N -> (r < K)%nat -> (prow < K)%nat -> (pc < N)%nat ->
  traces (reduce_step_t p G fl r prow pc) (step_record r prow pc) (fun _ => True).
Proof.
  intros HG HF Hr Hp Hc. unfold reduce_step_t, step_record.
  step ltac:(apply tr_store; lia). intros fl' _. step ltac:(apply tr_branch). intros b ->.
  eapply tr_bind with (P := fun G1 => shape K N G1).
  { destruct (negb (Nat.eqb r prow)); [|apply tr_ret; auto]. unfold swap_rows_t, swap_record. apply (tr_for (fun _ G => shape K N G)); auto.
    intros i G1 Hi H1. apply (tr_eq _ ([Load G_values r i] ++ [Load G_values prow i] ++ [Store G_values r i] ++ [Store G_values prow i])); [|reflexivity].
    step ltac:(eapply tr_load2; eauto; lia). intros x _. step ltac:(eapply tr_load2; eauto; lia). intros y _.
    step ltac:(eapply tr_store2; eauto; lia). intros G2 H2. eapply tr_store2; eauto; lia. }
  intros G1 H1. step ltac:(eapply tr_load2; eauto; lia). intros g _. step ltac:(apply tr_inv). intros sf _.
  eapply tr_bind with (P := fun G2 => shape K N G2).
  { unfold rescale_row_t. apply (tr_for (fun _ G => shape K N G)); auto. intros i G2 Hi H2.
    apply (tr_eq _ ([Load G_values r i] ++ [Store G_values r i])); [|reflexivity].
    step ltac:(eapply tr_load2; eauto; lia). intros x _. eapply tr_store2; eauto; lia. }
  intros G2 H2.
  match goal with |- traces _ ?T _ => apply (tr_eq _ (T ++ [])); [|apply app_nil_r] end.
  eapply tr_bind with (P := fun G3 => shape K N G3); [|intros G3 _; apply tr_ret; auto].
  unfold eliminate_rows_t. apply (tr_for (fun _ G => shape K N G)); auto. intros i G3 Hi H3.
  match goal with |- traces _ (Branch ?b :: ?T) _ => apply (tr_eq _ ([Branch b] ++ T)); [|reflexivity] end.
  step ltac:(apply tr_branch). intros b ->. destruct (negb (Nat.eqb i r)); [|apply tr_ret; auto].
  match goal with |- traces _ (Load ?a ?b ?c :: ?T) _ => apply (tr_eq _ ([Load a b c] ++ T)); [|reflexivity] end.
  step ltac:(eapply tr_load2; eauto; lia). intros m _. unfold eliminate_row_t. apply (tr_for (fun _ G => shape K N G)); auto. intros c G4 Hc4 H4. cbv zeta.
  apply (tr_eq _ ([Load G_values r c] ++ [Load G_values i c] ++ [Store G_values i c])); [|reflexivity].
  step ltac:(eapply tr_load2; eauto; lia). intros x _. step ltac:(eapply tr_load2; eauto; lia). intros y _. eapply tr_store2; eauto; lia.
Qed.

(** *** The whole reduction *)
Definition state (M : matf) (i : nat) (rho pv : nat -> nat) (G : mat) (fl : list Z) : Prop :=
  (exists M0, rref_inv p M0 i pv G fl) /\ track M i rho G.

Lemma state_shape M i rho pv G fl : state M i rho pv G fl -> shape K N G /\ redm p G /\ length fl = N /\ (forall k, (k < i)%nat -> (pv k < N)%nat).
Proof. intros ((M0 & [H1 H2 H3 H4 H5 H6 H7 H8 (H9 & _)]) & _). auto. Qed.

(** What one step does: either there is no pivot left, or the first independent row is taken. *)
Lemma state_step M i rho pv G fl : state M i rho pv G fl -> (i < K)%nat -> (K <= N)%nat ->
  exists prow pc, snd (pivot_search_t p (N + 2) G i i i) = Ok (prow, pc) /\
  if (N <=? pc)%nat then forall l, pivots_from K N M i rho pv l <-> l = []
  else (i <= prow < K)%nat /\ (pc < N)%nat /\
    exists G3 fl3, snd (reduce_step_t p G fl i prow pc) = Ok (G3, fl3) /\ state M (S i) (exchange rho i prow) (extend pv i pc) G3 fl3 /\
    forall l, pivots_from K N M i rho pv l <-> exists l', l = (prow, pc) :: l' /\ pivots_from K N M (S i) (exchange rho i prow) (extend pv i pc) l'.
Proof.
  intros ((M0 & HI) & HT) Hi HKN. pose proof (zero_dependent M0 M i rho pv G fl HI HT) as ZD. pose proof HI as HI'.
  destruct HI' as [HS HR HE HP HIn HU HL HRest (HF & _)].
  assert (LEFT : forall j c, (i <= j < K)%nat -> (c < i)%nat -> ent G j c = 0).
  { intros j c Hj Hc. apply (HRest j (i - 1)%nat); try lia. pose proof (incr_ge pv i HIn (i - 1)%nat). lia. }
  destruct (search_first (N + 2) G i i HS Hi ltac:(lia) ltac:(lia)) as ([prow pc] & Ex & H1 & H2 & H3).
  exists prow, pc. split. { rewrite search_erase. auto. }
  assert (Z0 : forall j c, (i <= j < K)%nat -> (c < pc)%nat -> ent G j c = 0).
  { intros j c Hj Hc. destruct (Nat.lt_ge_cases c i); [apply LEFT; auto|apply H2; lia]. }
  destruct (Nat.leb_spec N pc).
  - intros l. assert (D : forall r c, (i <= r < K)%nat -> (c < N)%nat -> dependent M i rho pv r c) by (intros r c Hr Hc; apply ZD; auto; apply Z0; auto; lia).
    split.
    + intros H'. inversion H'; subst; auto. exfalso. match goal with H : ~ dependent _ _ _ _ _ _ |- _ => apply H end. apply D; auto.
    + intros ->. apply pivots_none; auto.
  - destruct (H3 ltac:(lia)) as (H4 & H5 & H6). split; auto. split; [lia|].
    destruct (rref_step p M0 i pv G fl prow pc HI Hi ltac:(lia) ltac:(lia) (fun a c Ha Hc => H2 a c Ha Hc) H4 H5) as ([G3 fl3] & E3 & I3).
    destruct (step_rows G fl i pc prow HS HR HF Hi ltac:(lia) H4 (fun c Hc => Z0 prow c ltac:(lia) Hc) H5) as ([G3' fl3'] & E3' & s & s' & m & Hs & Er & Ei).
    pose proof (eq_trans (eq_sym E3) E3') as EE. injection EE as <- <-. clear E3'.
    exists G3, fl3. split. { rewrite reduce_step_erase. auto. }
    split. { split. { exists M0. exact I3. } eapply track_step; eauto. }
    assert (ND : ~ dependent M i rho pv prow pc) by (rewrite <- ZD by (auto; lia); auto).
    assert (BEF : forall r' c', (i <= r' < K)%nat -> (c' < N)%nat -> (c' < pc)%nat \/ c' = pc /\ (r' < prow)%nat -> dependent M i rho pv r' c').
    { intros r' c' Hr' Hc' L. apply ZD; auto. destruct L as [L|(-> & L)]; [apply Z0; auto|apply H6; lia]. }
    intros l. split.
    + intros H'. inversion H' as [rho0 cols0|i0 rho0 cols0 Hi0 HD0|i0 rho0 cols0 r' c' l0 Hr' Hc' HN' HB' HP']; subst.
      * lia.
      * exfalso. apply ND. apply HD0; auto; lia.
      * assert (E : pc = c').
        { destruct (Nat.lt_trichotomy pc c') as [L|[L|L]]; auto; exfalso; [apply ND; apply HB'|apply HN'; apply BEF]; auto; lia. }
        subst c'. assert (E : prow = r').
        { destruct (Nat.lt_trichotomy prow r') as [L|[L|L]]; auto; exfalso; [apply ND; apply HB'|apply HN'; apply BEF]; auto; lia. }
        subst r'. exists l0. auto.
    + intros (l' & -> & HP'). apply pivots_next; auto; lia.
Qed.

Lemma pivots_exist n : forall i M rho pv G fl, (i + n = K)%nat -> (K <= N)%nat -> state M i rho pv G fl -> exists l, pivots_from K N M i rho pv l.
Proof.
  induction n; intros i M rho pv G fl Hn HKN ST. { exists []. replace i with K by lia. apply pivots_all. }
  destruct (state_step M i rho pv G fl ST ltac:(lia) HKN) as (prow & pc & Ex & H). destruct (Nat.leb_spec N pc).
  - exists []. apply H. auto.
  - destruct H as (H1 & H2 & G3 & fl3 & _ & S3 & H). destruct (IHn (S i) M _ _ G3 fl3 ltac:(lia) HKN S3) as (l & Hl). exists ((prow, pc) :: l). apply H. eauto.
Qed.

Lemma fst_traces {A} (m : tm A) T Q : traces m T Q -> fst m = T.
Proof. intros (H & _). auto. Qed.

Lemma record_pivots n : forall i M M' rho pv G G' fl fl' l l' t t', (i + n = K)%nat -> (K <= N)%nat ->
  state M i rho pv G fl -> state M' i rho pv G' fl' -> pivots_from K N M i rho pv l -> pivots_from K N M' i rho pv l' ->
  (fst (rref_rows_t p n i G fl) ++ t = fst (rref_rows_t p n i G' fl') ++ t' <-> l = l' /\ t = t').
Proof.
  induction n; intros i M M' rho pv G G' fl fl' l l' t t' Hn HKN ST ST' HP HP'.
  - replace i with K in * by lia. cbn [rref_rows_t]. rewrite !fst_tbranch. cbn [ret fst app].
    assert (E : l = l'). { inversion HP; inversion HP'; subst; auto; lia. }
    split; [|intros (_ & ->); reflexivity]. intros E'. injection E' as ->. auto.
  - destruct (state_step M i rho pv G fl ST ltac:(lia) HKN) as (prow & pc & Ex & H).
    destruct (state_step M' i rho pv G' fl' ST' ltac:(lia) HKN) as (prow' & pc' & Ex' & H').
    destruct (state_shape _ _ _ _ _ _ ST) as (HS & HR & HF & _). destruct (state_shape _ _ _ _ _ _ ST') as (HS' & HR' & HF' & _).
    cbn [rref_rows_t]. rewrite !fst_tbranch, !fst_tbind, Ex, Ex'. rewrite !fst_tbranch. cbn [app].
    assert (KEY : forall x y, (prow, pc) = (prow', pc') -> (Branch true :: (fst (pivot_search_t p (N + 2) G i i i) ++ x) ++ t =
        Branch true :: (fst (pivot_search_t p (N + 2) G' i i i) ++ y) ++ t' <-> x ++ t = y ++ t')).
    { intros x y E. rewrite (search_same (N + 2) G G' i) by (auto; try lia; rewrite Ex, Ex', E; reflexivity).
      rewrite <- !app_assoc. split; intros E'; [injection E' as E'; apply app_inv_head in E'; auto|rewrite E'; auto]. }
    assert (DIFF : forall x y, (Branch true :: (fst (pivot_search_t p (N + 2) G i i i) ++ x) ++ t =
        Branch true :: (fst (pivot_search_t p (N + 2) G' i i i) ++ y) ++ t') -> (prow, pc) = (prow', pc')).
    { intros x y E. apply cons_inv in E as (_ & E). rewrite <- !app_assoc in E. apply search_code in E; auto; try lia. destruct E as (E & _). rewrite Ex, Ex' in E.
      injection E as -> ->. auto. }
    destruct (Nat.leb_spec N pc) as [L|L], (Nat.leb_spec N pc') as [L'|L'].
    + apply H in HP. apply H' in HP'. subst l l'. cbn [ret fst].
      split. { intros E. split; auto. pose proof (DIFF _ _ E) as D. apply KEY in E; auto. cbn [app] in E. injection E as ->. auto. }
      intros (_ & ->). destruct (search_first (N + 2) G i i HS ltac:(lia) ltac:(lia) ltac:(lia)) as ([a c] & Ea & Ha & _).
      destruct (search_first (N + 2) G' i i HS' ltac:(lia) ltac:(lia) ltac:(lia)) as ([a' c'] & Ea' & Ha' & _).
      rewrite search_erase in Ex, Ex'. rewrite Ex in Ea. rewrite Ex' in Ea'. injection Ea as <- <-. injection Ea' as <- <-.
      assert (EP : prow = prow').
      { (* no pivot: the row is where it started *)
        assert (RW : forall f W pcol a c, shape K N W -> (pcol <= N)%nat -> (N - pcol + 2 <= f)%nat -> pivot_search p f W i i pcol = Ok (a, c) -> (N <= c)%nat -> a = i).
        { induction f; intros W pcol a c HW Hc Hf EW HN; [lia|]. cbn [pivot_search] in EW. destruct (Nat.ltb_spec pcol N); [|congruence].
          rewrite (get2_ok _ K N) in EW by (auto; lia). cbn [bind] in EW. destruct (Z.eqb_spec (ent W i pcol) 0); [|injection EW as <- <-; lia].
          destruct (pivot_row_scan_spec p (S K) W i pcol HW ltac:(lia) ltac:(lia) ltac:(lia)) as (x & Exx & Hx & _ & Hx2). rewrite Exx in EW. cbn [bind] in EW.
          destruct (Nat.leb_spec K x); [apply (IHf W (S pcol) a c); auto; lia|]. destruct f as [|g]; [lia|]. cbn [pivot_search] in EW.
          destruct (Nat.ltb_spec pcol N); [|lia]. rewrite (get2_ok _ K N) in EW by (auto; lia). cbn [bind] in EW.
          destruct (Z.eqb_spec (ent W x pcol) 0); [exfalso; apply Hx2; auto|]. injection EW as <- <-. lia. }
        rewrite (RW (N + 2)%nat G i prow pc HS ltac:(lia) ltac:(lia) Ex L), (RW (N + 2)%nat G' i prow' pc' HS' ltac:(lia) ltac:(lia) Ex' L'). auto. }
      apply KEY; [|reflexivity]. rewrite EP. f_equal. lia.
    + apply H in HP. subst l. destruct H' as (_ & _ & G3 & fl3 & _ & _ & H'). apply H' in HP'. destruct HP' as (m & -> & _).
      split; [|intros (E & _); discriminate E]. intros E. apply DIFF in E. injection E as -> ->. lia.
    + apply H' in HP'. subst l'. destruct H as (_ & _ & G3 & fl3 & _ & _ & H). apply H in HP. destruct HP as (m & -> & _).
      split; [|intros (E & _); discriminate E]. intros E. apply DIFF in E. injection E as -> ->. lia.
    + destruct H as (H1 & H2 & G3 & fl3 & E3 & S3 & H). destruct H' as (H1' & H2' & G3' & fl3' & E3' & S3' & H').
      apply H in HP. destruct HP as (m & -> & HP). apply H' in HP'. destruct HP' as (m' & -> & HP').
      rewrite !fst_tbind, E3, E3'.
      rewrite (fst_traces _ _ _ (step_record_ok G fl i prow pc HS HF ltac:(lia) ltac:(lia) H2)), (fst_traces _ _ _ (step_record_ok G' fl' i prow' pc' HS' HF' ltac:(lia) ltac:(lia) H2')).
      assert (REC : (prow, pc) = (prow', pc') -> ((Branch false :: step_record i prow pc ++ fst (rref_rows_t p n (S i) G3 fl3)) ++ t =
          (Branch false :: step_record i prow' pc' ++ fst (rref_rows_t p n (S i) G3' fl3')) ++ t' <-> m = m' /\ t = t')).
      { intros E. injection E as -> ->. rewrite <- (IHn (S i) M M' _ _ G3 G3' fl3 fl3' m m' t t' ltac:(lia) HKN S3 S3' HP HP').
        cbn [app]. rewrite <- !app_assoc. split; [intros E; apply cons_inv in E as (_ & E); apply app_inv_head in E; auto|intros ->; auto]. }
      split.
      * intros E. pose proof (DIFF _ _ E) as D. apply KEY in E; auto. apply REC in E; auto. destruct E as (-> & ->). rewrite D. auto.
      * intros (E & ->). injection E as -> -> ->. apply KEY; auto. apply REC; auto.
Qed.

Lemma state_start G : shape K N G -> redm p G -> state (ent G) 0 (fun j => j) (fun _ => O) G (repeat 0 N).
Proof.
  intros HS HR. split.
  - exists (ent G). constructor; auto; try (intros; lia).
    + apply row_equiv_refl.
    + split. { apply repeat_length. } intros c Hc. split. { intros (k & Hk & _). lia. } intros _. apply nth_repeat.
  - constructor; auto; try (intros; lia). intros j Hj. exists (fun _ => 0). intros c Hc. cbn [sumn]. rewrite Z.sub_diag. reflexivity.
Qed.

End R.
