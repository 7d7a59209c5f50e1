(** The optimised [generator_RREF_o] computes the first N columns of the reference [generator_RREF]. *)
From Coq Require Import Setoid Morphisms.
From Verif Require Import Base BaseLemmas Params Fq FqProofs Sums LinAlg Codes RrefProofs Vec OptCodes VecProofs.

(** Values of a row of em: x, 2x, 3x, ... *)
Fixpoint emv (j : nat) (x : Z) : Z :=
  match j with
  | O => 0
  | S j' => if Nat.eqb j' 0 then x else addr (emv j' x) x
  end.
Lemma emv_fq j x : fq x -> emv j x = (Z.of_nat j * x) mod 127.
Proof.
  intros Hx. assert (Bx : 0 <= x < 127) by (unfold fq in Hx; lia). induction j as [|j IH]; [reflexivity|]. cbn [emv].
  destruct (Nat.eqb_spec j 0) as [->|]. { symmetry. rewrite Z.mod_small; lia. }
  rewrite addr_fq by (rewrite ?IH; auto with fq). rewrite IH. rewrite Z.add_mod_idemp_l by lia. f_equal. lia.
Qed.
Lemma emv_byte j x : is_byte x -> is_byte (emv j x).
Proof. intros H. destruct j; [unfold is_byte; cbn; lia|]. cbn [emv]. destruct (Nat.eqb j 0); auto. apply addr_byte. Qed.

Definition allb (r c : nat) (G : mat) : Prop := forall i j, (i < r)%nat -> (j < c)%nat -> is_byte (ent G i j).

Section R.
Variable p : params.
Variable NP : nat.
Notation N := (pN p).
Notation K := (pK p).
Notation W := (32 * num_words p)%nat.
Hypothesis HNP : (W <= NP)%nat.
Hypothesis HKN : (K <= N)%nat.

Lemma W_ge : (N <= W)%nat.
Proof. unfold num_words. lia. Qed.

(** Vector reads and writes of a matrix. *)
Lemma ldv_ok row k : (32 * k + 32 <= length row)%nat -> ldv row k = Ok (firstn 32 (skipn (32 * k) row)).
Proof. intros H. unfold ldv. apply rd_ok. lia. Qed.
Lemma blk_len {A} (row : list A) o : (o + 32 <= length row)%nat -> length (firstn 32 (skipn o row)) = 32%nat.
Proof. intros. rewrite firstn_length, skipn_length. lia. Qed.
Lemma blk_nth (row : list Z) o j d : (j < 32)%nat -> nth j (firstn 32 (skipn o row)) d = nth (o + j) row d.
Proof. intros. rewrite nth_firstn by auto. apply nth_skipn. Qed.

Lemma ldm_ok r c G a k : shape r c G -> (a < r)%nat -> (32 * k + 32 <= c)%nat ->
  ldm G a k = Ok (firstn 32 (skipn (32 * k) (nth a G []))).
Proof.
  intros HS Ha Hk. unfold ldm. rewrite (get_ok _ _ []) by (rewrite (shape_len _ _ _ HS); auto). cbn [bind].
  apply ldv_ok. rewrite (shape_row _ _ _ _ HS Ha). auto.
Qed.

Lemma stm_ok r c G a k v : shape r c G -> (a < r)%nat -> (32 * k + 32 <= c)%nat -> length v = 32%nat ->
  okp (stm G a k v) (fun G' => shape r c G' /\ forall i j, ent G' i j =
     if Nat.eqb i a && ((32 * k <=? j)%nat && (j <? 32 * k + 32)%nat) then nth (j - 32 * k) v 0 else ent G i j).
Proof.
  intros HS Ha Hk Hv. unfold stm, stv. rewrite (get_ok _ _ []) by (rewrite (shape_len _ _ _ HS); auto). cbn [bind].
  pose proof (shape_row _ _ _ _ HS Ha) as HR.
  rewrite wr_ok by (rewrite HR, Hv; auto). cbn [bind].
  rewrite set_ok by (rewrite (shape_len _ _ _ HS); auto). apply okp_ok.
  split. { apply shape_upd; auto. rewrite wr_length; auto. rewrite HR, Hv. auto. }
  intros i j. rewrite (ent_upd _ r c) by auto. unfold nthZ. rewrite nth_wr by (rewrite HR, Hv; auto). rewrite Hv.
  destruct (Nat.eqb_spec a i), (Nat.eqb_spec i a), (Nat.leb_spec (32 * k) j), (Nat.ltb_spec j (32 * k)), (Nat.ltb_spec j (32 * k + 32));
    cbn [andb]; subst; try lia; auto.
Qed.

(** A loop over the NW vectors of row [a], each replaced by a function of its position. *)
Lemma row_loop r c a (body : nat -> mat -> res mat) G (f : nat -> Z) n : shape r c G -> (a < r)%nat -> (32 * n <= c)%nat ->
  (forall k G', (k < n)%nat -> shape r c G' ->
     (forall i j, ent G' i j = if Nat.eqb i a && (j <? 32 * k)%nat then f j else ent G i j) ->
     exists v, body k G' = stm G' a k v /\ length v = 32%nat /\ forall j, (j < 32)%nat -> nth j v 0 = f (32 * k + j)%nat) ->
  okp (for_ n 0 body G) (fun G' => shape r c G' /\
     forall i j, ent G' i j = if Nat.eqb i a && (j <? 32 * n)%nat then f j else ent G i j).
Proof.
  intros HS Ha Hn HB. eapply okp_mono.
  { eapply okp_for with (I := fun k G' => shape r c G' /\
      forall i j, ent G' i j = if Nat.eqb i a && (j <? 32 * k)%nat then f j else ent G i j).
    - split; auto. intros i j. destruct (Nat.ltb_spec j (32 * 0)); [lia|]. rewrite andb_false_r. auto.
    - intros k G' Hk (S' & E'). destruct (HB k G' ltac:(lia) S' E') as (v & -> & Lv & Ev).
      eapply okp_mono. { apply (stm_ok r c); auto. lia. }
      intros G2 (S2 & E2). split; auto. intros i j. rewrite E2, E'.
      destruct (Nat.eqb_spec i a), (Nat.leb_spec (32 * k) j), (Nat.ltb_spec j (32 * k + 32)), (Nat.ltb_spec j (32 * k)), (Nat.ltb_spec j (32 * S k));
        cbn [andb]; auto; try lia. rewrite Ev by lia. f_equal. lia. }
  intros G' H. exact H.
Qed.

(** *** Row exchange *)
Lemma swap_rows_v_spec G r j : shape K NP G -> (r < K)%nat -> (j < K)%nat -> r <> j ->
  okp (swap_rows_v p G r j) (fun G' => shape K NP G' /\
    forall a b, (a < K)%nat -> ent G' a b = if (b <? W)%nat then ent G (swp r j a) b else ent G a b).
Proof.
  intros HS Hr Hj Hne. unfold swap_rows_v. eapply okp_mono.
  { eapply okp_for with (I := fun k G' => shape K NP G' /\
      forall a b, (a < K)%nat -> ent G' a b = if (b <? 32 * k)%nat then ent G (swp r j a) b else ent G a b).
    - split; auto.
    - intros k G' Hk (S' & E').
      rewrite (ldm_ok K NP) by (auto; lia). cbn [bind]. rewrite (ldm_ok K NP) by (auto; lia). cbn [bind].
      eapply okp_bind. { apply (stm_ok K NP); auto; try lia. apply blk_len. rewrite (shape_row _ K NP); auto; lia. }
      intros G1 (S1 & E1).
      eapply okp_mono. { apply (stm_ok K NP); auto; try lia. apply blk_len. rewrite (shape_row _ K NP); auto; lia. }
      intros G2 (S2 & E2). split; auto. intros a b Ha. rewrite E2, E1. unfold swp in *.
      destruct (Nat.leb_spec (32 * k) b), (Nat.ltb_spec b (32 * k + 32)); cbn [andb]; rewrite ?andb_true_r, ?andb_false_r.
      + rewrite !blk_nth by lia. replace (32 * k + (b - 32 * k))%nat with b by lia. fold (ent G' r b) (ent G' j b).
        rewrite !E' by auto. destruct (Nat.ltb_spec b (32 * k)); [lia|]. destruct (Nat.ltb_spec b (32 * S k)); [|lia].
        destruct (Nat.eqb_spec a j), (Nat.eqb_spec a r); subst; auto; lia.
      + rewrite E' by auto. destruct (Nat.ltb_spec b (32 * k)), (Nat.ltb_spec b (32 * S k)); auto; lia.
      + rewrite E' by auto. destruct (Nat.ltb_spec b (32 * k)), (Nat.ltb_spec b (32 * S k)); auto; lia.
      + rewrite E' by auto. destruct (Nat.ltb_spec b (32 * k)), (Nat.ltb_spec b (32 * S k)); auto; lia. }
  intros G' H. exact H.
Qed.

(** *** Multiples of the pivot row *)
Lemma fill_em_spec em rg : shape 128 W em -> length rg = NP ->
  okp (fill_em p em rg) (fun em' => shape 128 W em' /\
    forall j c, (1 <= j <= 126)%nat -> (c < W)%nat -> ent em' j c = emv j (nthZ rg c)).
Proof.
  intros HS HL. unfold fill_em. rewrite rd_ok by lia. cbn [bind].
  rewrite (get_ok _ _ []) by (rewrite (shape_len _ _ _ HS); lia). cbn [bind].
  pose proof (shape_row _ _ _ 1%nat HS ltac:(lia)) as H1.
  assert (HD : length (firstn W (skipn 0 rg)) = W) by (rewrite firstn_length, skipn_length; lia).
  rewrite wr_ok by (rewrite H1, HD; lia). cbn [bind].
  rewrite set_ok by (rewrite (shape_len _ _ _ HS); lia). cbn [bind]. rewrite HD. cbn [firstn app skipn Nat.add].
  rewrite skipn_all2 by lia. rewrite app_nil_r. cbn [skipn] in HD.
  eapply okp_mono.
  { eapply okp_for with (I := fun n em' => shape 128 W em' /\
      forall j c, (1 <= j < n)%nat -> (c < W)%nat -> ent em' j c = emv j (nthZ rg c)).
    - split. { apply shape_upd; auto. }
      intros j c Hj Hc. replace j with 1%nat by lia. rewrite (ent_upd _ 128 W) by (auto; lia). rewrite Nat.eqb_refl.
      unfold nthZ. rewrite nth_firstn by auto. reflexivity.
    - intros n em' Hn (S' & E'). eapply okp_mono.
      { apply (row_loop 128 W n) with (f := fun c => addr (ent em' (n - 1) c) (nthZ rg c)); auto; try lia.
        intros k G' Hk SG EG.
        rewrite (ldm_ok 128 W) by (auto; lia). cbn [bind]. rewrite ldv_ok by lia. cbn [bind].
        eexists. split; [reflexivity|].
        assert (La : length (firstn 32 (skipn (32 * k) (nth (n - 1) G' []))) = 32%nat) by (apply blk_len; rewrite (shape_row _ 128 W); auto; lia).
        assert (Lb : length (firstn 32 (skipn (32 * k) rg)) = 32%nat) by (apply blk_len; lia).
        rewrite add_red_spec by auto. split. { rewrite map2_length. lia. }
        intros j Hj. rewrite (map2_nth _ _ _ _ 0 0) by lia. rewrite !blk_nth by auto.
        fold (ent G' (n - 1) (32 * k + j)). rewrite EG. destruct (Nat.eqb_spec (n - 1) n); [lia|]. reflexivity. }
      intros em2 (S2 & E2). split; auto. intros j c Hj Hc. rewrite E2.
      destruct (Nat.eqb_spec j n) as [->|]; cbn [andb].
      + destruct (Nat.ltb_spec c W); [|lia]. rewrite E' by (auto; lia).
        destruct n as [|n]; [lia|]. cbn [emv]. destruct (Nat.eqb_spec n 0); [lia|]. replace (S n - 1)%nat with n by lia. reflexivity.
      + apply E'; lia. }
  intros em' (S' & E'). split; auto. intros j c Hj Hc. apply E'; lia.
Qed.

(** *** The pointer table *)
Lemma mul_inj a i j : fq a -> a <> 0 -> (1 <= i <= 126)%nat -> (1 <= j <= 126)%nat ->
  (Z.of_nat i * a) mod 127 = (Z.of_nat j * a) mod 127 -> i = j.
Proof.
  intros Ha Hn Hi Hj E. apply cong_iff in E.
  assert (C : a * (Z.of_nat i - Z.of_nat j) == 0).
  { replace (a * (Z.of_nat i - Z.of_nat j)) with (Z.of_nat i * a - Z.of_nat j * a) by ring. apply cong_sub0 in E. exact E. }
  apply cong_mul0 in C; [|apply fq_nz; auto]. apply cong_sub0 in C. apply cong_iff in C.
  rewrite !Z.mod_small in C by lia. lia.
Qed.
Lemma mul_range a i : fq a -> a <> 0 -> (1 <= i <= 126)%nat -> 1 <= (Z.of_nat i * a) mod 127 <= 126.
Proof.
  intros Ha Hn Hi. assert ((Z.of_nat i * a) mod 127 <> 0); [|lia].
  intros E. assert (C : Z.of_nat i * a == 0) by (apply cong_iff; rewrite E; reflexivity).
  assert (fq (Z.of_nat i)) by (unfold fq; lia).
  apply cong_mul0 in C; [|apply fq_nz; auto; lia]. apply (fq_nz a); auto.
Qed.

Lemma fill_ep_spec ep sc : length ep = 128%nat -> fq sc -> sc <> 0 ->
  okp (fill_ep ep sc) (fun ep' => length ep' = 128%nat /\
    forall j, (1 <= j <= 126)%nat -> nth (Z.to_nat ((Z.of_nat j * sc) mod 127)) ep' None = Some j).
Proof.
  intros HL Hf Hn. unfold fill_ep. rewrite set_ok by lia. cbn [bind].
  assert (Bs : 0 <= sc < 127) by (unfold fq in Hf; lia).
  eapply okp_bind.
  { eapply okp_for with (I := fun n '(ep', tmp) => length ep' = 128%nat /\ ((n <= 126)%nat -> tmp = (Z.of_nat n * sc) mod 127) /\
      forall j, (1 <= j < n)%nat -> nth (Z.to_nat ((Z.of_nat j * sc) mod 127)) ep' None = Some j).
    - split. { rewrite upd_length. auto. } split. { intros _. rewrite Z.mod_small; lia. } intros; lia.
    - intros n [ep' tmp] Hn' (L' & T' & E'). specialize (T' ltac:(lia)). pose proof (mul_range sc n Hf Hn ltac:(lia)) as R.
      rewrite <- T' in R. rewrite set_ok by lia. cbn [bind]. apply okp_ok.
      split. { rewrite upd_length. auto. } split.
      + intros Hlt. pose proof (mul_range sc (S n) Hf Hn ltac:(lia)) as R2. rewrite u8_id by lia. rewrite shr7, land127.
        assert (E2 : (Z.of_nat (S n) * sc) mod 127 = (tmp + sc) mod 127).
        { rewrite T'. rewrite Z.add_mod_idemp_l by lia. f_equal. lia. }
        rewrite E2 in *. set (s := tmp + sc) in *. assert (0 <= s <= 252) by lia. lia.
      + intros j Hj. rewrite nth_upd by lia. destruct (Nat.eqb_spec (Z.to_nat tmp) (Z.to_nat ((Z.of_nat j * sc) mod 127))) as [E|E].
        * f_equal. apply (mul_inj sc); auto; lia.
        * apply E'. destruct (Nat.eq_dec j n) as [->|]; [|lia]. exfalso. apply E. rewrite T'. reflexivity. }
  intros [ep' tmp] (L' & _ & E'). cbn [Nat.add] in E'. rewrite set_ok by lia. apply okp_ok. split. { rewrite upd_length. auto. }
  intros j Hj. pose proof (mul_range sc j Hf Hn ltac:(lia)) as R. rewrite nth_upd by lia.
  destruct (Nat.eqb_spec 127 (Z.to_nat ((Z.of_nat j * sc) mod 127))); [lia|]. apply E'. lia.
Qed.

(** The row reached through ep[k]: the pivot row times k / sc. *)
Lemma deref_spec em ep rg sc k : shape 128 W em -> length ep = 128%nat -> fq sc -> sc <> 0 -> (1 <= k <= 126)%nat ->
  (forall j c, (1 <= j <= 126)%nat -> (c < W)%nat -> ent em j c = emv j (nthZ rg c)) ->
  (forall j, (1 <= j <= 126)%nat -> nth (Z.to_nat ((Z.of_nat j * sc) mod 127)) ep None = Some j) ->
  (forall c, (c < N)%nat -> fq (nthZ rg c)) -> bytes rg ->
  okp (deref em ep k) (fun rp => length rp = W /\ (forall c, (c < W)%nat -> is_byte (nthZ rp c)) /\
    forall c, (c < N)%nat -> nthZ rp c = (Z.of_nat k * fq_inv sc * nthZ rg c) mod 127).
Proof.
  intros HS HL Hf Hn Hk HE HP HR HB.
  set (j := Z.to_nat ((Z.of_nat k * fq_inv sc) mod 127)).
  pose proof (mul_range (fq_inv sc) k (fq_inv_range sc) (fq_inv_nz sc Hf Hn) Hk) as Rj.
  assert (Ej : Z.of_nat j = (Z.of_nat k * fq_inv sc) mod 127) by lia.
  assert (Ek : (Z.of_nat j * sc) mod 127 = Z.of_nat k).
  { rewrite Ej. rewrite Z.mul_mod_idemp_l by lia. rewrite <- (Z.mod_small (Z.of_nat k) 127) at 2 by lia. apply cong_iff.
    rewrite <- Z.mul_assoc. rewrite (fq_inv_l sc Hf Hn). rewrite Z.mul_1_r. reflexivity. }
  unfold deref. rewrite (get_ok _ _ None) by lia. cbn [bind].
  specialize (HP j ltac:(lia)). rewrite Ek, Nat2Z.id in HP. rewrite HP.
  rewrite (get_ok _ _ []) by (rewrite (shape_len _ _ _ HS); lia). apply okp_ok.
  assert (HW := W_ge).
  split. { apply (shape_row _ 128 W); auto. lia. } split.
  - intros c Hc. unfold nthZ. fold (ent em j c). rewrite HE by (auto; lia). apply emv_byte. unfold nthZ. destruct (Nat.lt_ge_cases c (length rg)).
    + apply (proj1 (Forall_nth_Z _ _) HB). auto.
    + rewrite nth_overflow by auto. unfold is_byte. lia.
  - intros c Hc. unfold nthZ. fold (ent em j c). rewrite HE by (auto; lia). rewrite emv_fq by auto. rewrite Ej.
    apply Z.mul_mod_idemp_l. lia.
Qed.

(** *** Pivot search *)
Lemma row_scan_spec G n j c : shape K NP G -> (c < NP)%nat -> (j + n = K)%nat ->
  okp (row_scan n j G c) (fun f => match f with
    | None => forall i, (j <= i < K)%nat -> ent G i c = 0
    | Some r => (j <= r < K)%nat /\ ent G r c <> 0 /\ forall i, (j <= i < r)%nat -> ent G i c = 0 end).
Proof.
  intros HS Hc. revert j. induction n as [|n IH]; intros j Hj; cbn [row_scan].
  - apply okp_ok. intros; lia.
  - rewrite (get2_ok _ K NP) by (auto; lia). cbn [bind]. destruct (Z.eqb_spec (ent G j c) 0).
    + eapply okp_mono. { apply IH. lia. } intros [r|] H.
      * destruct H as (H1 & H2 & H3). split; [lia|]. split; auto. intros i Hi. destruct (Nat.eq_dec i j); subst; auto. apply H3. lia.
      * intros i Hi. destruct (Nat.eq_dec i j); subst; auto. apply H. lia.
    + apply okp_ok. split; [lia|]. split; auto. intros; lia.
Qed.
Lemma col_scan_spec G n r c : shape K NP G -> (r < K)%nat -> (c + n = N)%nat ->
  okp (col_scan p n r c G) (fun f => match f with
    | None => forall i b, (r <= i < K)%nat -> (c <= b < N)%nat -> ent G i b = 0
    | Some (j, pc) => (r <= j < K)%nat /\ (c <= pc < N)%nat /\ ent G j pc <> 0 /\ (forall i, (r <= i < j)%nat -> ent G i pc = 0) /\
        forall i b, (r <= i < K)%nat -> (c <= b < pc)%nat -> ent G i b = 0 end).
Proof.
  intros HS Hr. pose proof W_ge as HW. revert c. induction n as [|n IH]; intros c Hc; cbn [col_scan].
  - apply okp_ok. intros; lia.
  - eapply okp_bind. { apply row_scan_spec; auto; lia. } intros [j|] H.
    + destruct H as (H1 & H2 & H3). apply okp_ok. split; [lia|]. split; [lia|]. split; auto. split; auto. intros; lia.
    + eapply okp_mono. { apply IH. lia. } intros [[j pc]|] H'.
      * destruct H' as (A1 & A2 & A3 & A4 & A5). split; auto. split; [lia|]. split; auto. split; auto. intros i b Hi Hb.
        destruct (Nat.eq_dec b c); subst; auto. apply A5; lia.
      * intros i b Hi Hb. destruct (Nat.eq_dec b c); subst; auto. apply H'; lia.
Qed.

(** The reference search also returns the first suitable row. *)
Lemma pivot_search_first fuel G row pcol : shape K N G -> (row < K)%nat -> (pcol <= N)%nat -> (N - pcol + 2 <= fuel)%nat ->
  okp (pivot_search p fuel G row row pcol) (fun '(prow, pc) => (pcol <= pc <= N)%nat /\
    (forall i c, (row <= i < K)%nat -> (pcol <= c < pc)%nat -> ent G i c = 0) /\
    ((pc < N)%nat -> (row <= prow < K)%nat /\ ent G prow pc <> 0 /\ forall i, (row <= i < prow)%nat -> ent G i pc = 0)).
Proof.
  intros HG Hr. revert pcol. induction fuel as [|f IH]; intros pcol Hc Hf; [lia|].
  cbn [pivot_search]. destruct (Nat.ltb_spec pcol N).
  - rewrite (get2_ok _ K N) by (auto; lia). cbn [bind]. destruct (Z.eqb_spec (ent G row pcol) 0).
    + eapply okp_bind. { apply pivot_row_scan_spec; auto; lia. }
      intros pr (H1 & H2 & H3). destruct (Nat.leb_spec K pr).
      * eapply okp_mono. { apply IH; lia. }
        intros [pr' pc] (P1 & P2 & P3). split; [lia|]. split; auto.
        intros i c Hi Hc'. destruct (Nat.eq_dec c pcol); subst. { apply H2. lia. }
        apply P2; lia.
      * destruct f as [|f]; [lia|]. cbn [pivot_search]. destruct (Nat.ltb_spec pcol N); [|lia].
        rewrite (get2_ok _ K N) by (auto; lia). cbn [bind]. destruct (Z.eqb_spec (ent G pr pcol) 0). { exfalso. apply H3; auto. }
        apply okp_ok. split; [lia|]. split. { intros; lia. } intros _. split; [lia|auto].
    + apply okp_ok. split; [lia|]. split. { intros; lia. } intros _. split; [lia|]. split; auto. intros; lia.
  - apply okp_ok. split; [lia|]. split; intros; lia.
Qed.

(** The two matrices agree on the first N columns, and the rest of the optimised one consists of bytes. *)
Definition padm (G G' : mat) : Prop :=
  shape K NP G' /\ (forall i, (i < K)%nat -> bytes (nth i G' [])) /\ forall i j, (i < K)%nat -> (j < N)%nat -> ent G' i j = ent G i j.

Lemma padm_byte G G' i j : padm G G' -> (i < K)%nat -> is_byte (ent G' i j).
Proof.
  intros (H1 & H2 & _) Hi. unfold ent. destruct (Nat.lt_ge_cases j (length (nth i G' []))).
  - apply (proj1 (Forall_nth_Z _ _) (H2 i Hi)). auto.
  - rewrite nth_overflow by auto. unfold is_byte. lia.
Qed.

Lemma bytes_ent G r c i : shape r c G -> (i < r)%nat -> (forall j, (j < c)%nat -> is_byte (ent G i j)) -> bytes (nth i G []).
Proof. intros HS Hi H. apply Forall_nth_Z. intros j Hj. rewrite (shape_row _ r c) in Hj by auto. apply H; auto. Qed.

Lemma search_same G G' r : shape K N G -> padm G G' -> (r < K)%nat ->
  exists prow pc, pivot_search p (N + 2) G r r r = Ok (prow, pc) /\ (r <= pc <= N)%nat /\
    ((N <= pc)%nat -> col_scan p (N - r) r r G' = Ok None) /\
    ((pc < N)%nat -> col_scan p (N - r) r r G' = Ok (Some (prow, pc)) /\ (r <= prow < K)%nat /\ ent G prow pc <> 0 /\
       forall i c, (r <= i < K)%nat -> (r <= c < pc)%nat -> ent G i c = 0).
Proof.
  intros HS (S' & B' & E') Hr. pose proof W_ge as HW.
  destruct (pivot_search_first (N + 2) G r r HS Hr) as ([prow pc] & EQ & H1 & H2 & H3); try lia.
  destruct (col_scan_spec G' (N - r) r r S' Hr) as (f & EF & HF); [lia|].
  exists prow, pc. split; auto. split; auto. split.
  - intros Hpc. rewrite EF. f_equal. destruct f as [[j c]|]; auto. exfalso. destruct HF as (A1 & A2 & A3 & _).
    apply A3. rewrite E' by lia. apply H2; lia.
  - intros Hpc. destruct (H3 Hpc) as (P1 & P2 & P3). split; [|auto]. rewrite EF. f_equal. destruct f as [[j c]|].
    + destruct HF as (A1 & A2 & A3 & A4 & A5). assert (c = pc) as ->.
      { destruct (Nat.lt_trichotomy c pc) as [L|[L|L]]; auto; exfalso.
        - apply A3. rewrite E' by lia. apply H2; lia.
        - apply P2. rewrite <- E' by lia. apply A5; lia. }
      do 2 f_equal. destruct (Nat.lt_trichotomy j prow) as [L|[L|L]]; auto; exfalso.
      * apply A3. rewrite E' by lia. apply P3; lia.
      * apply P2. rewrite <- E' by lia. apply A4; lia.
    + exfalso. apply P2. rewrite <- E' by lia. apply HF; lia.
Qed.

(** *** One step of the reference, by values *)
Definition nrm (G : mat) (prow pc j : nat) : Z := fq_red (fq_inv (ent G prow pc) * ent G prow j).
Definition step_val (G : mat) (r prow pc i j : nat) : Z :=
  if Nat.eqb i r then nrm G prow pc j
  else elim_val (ent G (swp r prow i) pc) (nrm G prow pc j) (ent G (swp r prow i) j).

Lemma ref_step_val G r prow pc : shape K N G -> (r < K)%nat -> (prow < K)%nat -> (pc < N)%nat ->
  (forall c, (c < pc)%nat -> ent G prow c = 0) ->
  okp (bind (A := mat) (if Nat.eqb r prow then Ok G else swap_rows p G r prow) (fun G1 =>
       g <- get2 G1 r pc ;;
       G2 <- rescale_row p G1 r pc (fq_inv g) ;;
       eliminate_rows p G2 r pc))
    (fun G3 => shape K N G3 /\ forall i j, (i < K)%nat -> (j < N)%nat -> ent G3 i j = step_val G r prow pc i j).
Proof.
  intros HS Hr Hp Hc Hz.
  eapply okp_bind with (Q := fun G1 => shape K N G1 /\ forall i j, (i < K)%nat -> (j < N)%nat -> ent G1 i j = ent G (swp r prow i) j).
  { destruct (Nat.eqb_spec r prow) as [<-|].
    - apply okp_ok. split; auto. intros i j Hi Hj. unfold swp. destruct (Nat.eqb_spec i r); subst; auto.
    - apply swap_rows_spec; auto. }
  intros G1 (S1 & E1). rewrite (get2_ok _ K N) by auto. cbn [bind].
  assert (sr : swp r prow r = prow) by (unfold swp; rewrite Nat.eqb_refl; auto).
  eapply okp_bind. { apply rescale_row_spec; auto; lia. }
  intros G2 (S2 & E2).
  assert (N2 : forall j, (j < N)%nat -> ent G2 r j = nrm G prow pc j).
  { intros j Hj. rewrite E2 by auto. rewrite Nat.eqb_refl. cbn [andb]. rewrite !E1, sr by auto. unfold nrm.
    destruct (Nat.leb_spec pc j); auto. rewrite Hz by auto. rewrite Z.mul_0_r. reflexivity. }
  eapply okp_mono. { apply eliminate_rows_spec; auto. }
  intros G3 (S3 & E3). split; auto. intros i j Hi Hj. rewrite E3 by auto. unfold step_val.
  destruct (Nat.eqb_spec i r) as [->|]; auto. rewrite N2 by auto.
  rewrite !E2 by auto. destruct (Nat.eqb_spec i r); [lia|]. cbn [andb]. rewrite !E1 by auto. reflexivity.
Qed.

(** *** One step of the optimised version *)
Lemma addr_elim m x g : fq m -> m <> 0 -> fq g -> fq x -> addr g ((127 - m) * x mod 127) = elim_val m x g.
Proof.
  intros Hm Hn Hg Hx. apply cong_eq.
  - rewrite addr_fq; auto with fq.
  - apply elim_val_range.
  - rewrite elim_val_cong by auto. rewrite addr_fq by auto with fq. rewrite cong_mod, cong_mod. exists x. ring.
Qed.
Lemma elim_0 x g : fq x -> fq g -> elim_val 0 x g = g.
Proof. intros Hx Hg. apply cong_eq; auto using elim_val_range. rewrite elim_val_cong by auto with fq. exists 0. ring. Qed.

Lemma opt_step G G' em ep r prow pc : shape K N G -> redm p G -> padm G G' -> shape 128 W em -> length ep = 128%nat ->
  (r < K)%nat -> (prow < K)%nat -> (pc < N)%nat -> ent G prow pc <> 0 ->
  exists G1 rg em' sc ep' nr d rg' G2 G3,
    (if Nat.eqb r prow then Ok G' else swap_rows_v p G' r prow) = Ok G1 /\
    get G1 r = Ok rg /\ fill_em p em rg = Ok em' /\ get rg pc = Ok sc /\ fill_ep ep sc = Ok ep' /\
    deref em' ep' 1 = Ok nr /\ rd nr 0 W = Ok d /\ wr rg 0 d = Ok rg' /\ set G1 r rg' = Ok G2 /\
    eliminate_v p G2 em' ep' r pc = Ok G3 /\
    shape 128 W em' /\ length ep' = 128%nat /\ shape K NP G3 /\ (forall i, (i < K)%nat -> bytes (nth i G3 [])) /\
    forall i j, (i < K)%nat -> (j < N)%nat -> ent G3 i j = step_val G r prow pc i j.
Proof.
  intros HS HR HP SE LE Hr Hp Hc Hnz. pose proof W_ge as HW. pose proof HP as (S' & B' & E').
  assert (okp (if Nat.eqb r prow then Ok G' else swap_rows_v p G' r prow) (fun G1 => shape K NP G1 /\
     forall a b, (a < K)%nat -> ent G1 a b = if (b <? W)%nat then ent G' (swp r prow a) b else ent G' a b)) as (G1 & Q1 & S1 & E1).
  { destruct (Nat.eqb_spec r prow) as [<-|].
    - apply okp_ok. split; auto. intros a b Ha. unfold swp. destruct (Nat.eqb_spec a r) as [->|]; destruct (b <? W)%nat; auto.
    - apply swap_rows_v_spec; auto. }
  assert (sl : forall a, (a < K)%nat -> (swp r prow a < K)%nat) by (intros; apply swp_lt; auto).
  assert (sr : swp r prow r = prow) by (unfold swp; rewrite Nat.eqb_refl; auto).
  assert (B1 : forall a b, (a < K)%nat -> is_byte (ent G1 a b)).
  { intros a b Ha. rewrite E1 by auto. destruct (b <? W)%nat; eapply padm_byte; eauto. }
  assert (V1 : forall a b, (a < K)%nat -> (b < N)%nat -> ent G1 a b = ent G (swp r prow a) b).
  { intros a b Ha Hb. rewrite E1 by auto. destruct (Nat.ltb_spec b W); [|lia]. apply E'; auto. }
  set (rg := nth r G1 []).
  assert (Lr : length rg = NP) by (apply (shape_row _ K NP); auto).
  assert (Vr : forall j, (j < N)%nat -> nthZ rg j = ent G prow j).
  { intros j Hj. unfold nthZ, rg. fold (ent G1 r j). rewrite V1 by auto. rewrite sr. auto. }
  assert (Br : bytes rg) by (apply (bytes_ent G1 K NP); auto).
  destruct (fill_em_spec em rg SE Lr) as (em' & Q2 & S2 & E2).
  set (sc := ent G prow pc) in *. assert (Fs : fq sc) by (apply HR; auto).
  destruct (fill_ep_spec ep sc LE Fs Hnz) as (ep' & Q3 & L3 & E3).
  assert (Fr : forall c, (c < N)%nat -> fq (nthZ rg c)) by (intros; rewrite Vr; auto).
  assert (DR : forall k, (1 <= k <= 126)%nat -> okp (deref em' ep' k) (fun rp => length rp = W /\ (forall c, (c < W)%nat -> is_byte (nthZ rp c)) /\
    forall c, (c < N)%nat -> nthZ rp c = (Z.of_nat k * fq_inv sc * nthZ rg c) mod 127)) by (intros; apply deref_spec; auto).
  destruct (DR 1%nat) as (nr & Q4 & L4 & B4 & E4); [lia|].
  assert (Nr : forall j, (j < N)%nat -> nthZ nr j = nrm G prow pc j).
  { intros j Hj. rewrite E4 by auto. unfold nrm. fold sc. rewrite Vr by auto.
    rewrite fq_red_spec by (apply fq_mul_bound; auto with fq). f_equal. ring. }
  assert (Nf : forall j, fq (nrm G prow pc j)) by (intros; apply fq_red_range).
  assert (Ld : length (firstn W (skipn 0 nr)) = W) by (cbn [skipn]; rewrite firstn_all2; lia).
  set (rg' := firstn 0 rg ++ firstn W (skipn 0 nr) ++ skipn (0 + length (firstn W (skipn 0 nr))) rg).
  assert (Lr' : length rg' = NP) by (unfold rg'; rewrite wr_length; rewrite ?Ld; lia).
  assert (Vr' : forall j, nthZ rg' j = if (j <? W)%nat then nthZ nr j else nthZ rg j).
  { intros j. unfold nthZ, rg'. rewrite nth_wr by (rewrite Ld; lia). rewrite Ld. destruct (Nat.ltb_spec j 0); [lia|]. cbn [Nat.add].
    destruct (Nat.ltb_spec j W); auto. cbn [skipn]. rewrite nth_firstn by lia. f_equal. lia. }
  set (G2 := upd G1 r rg').
  assert (SG2 : shape K NP G2) by (apply shape_upd; auto).
  assert (EG2 : forall i j, ent G2 i j = if Nat.eqb r i then nthZ rg' j else ent G1 i j) by (intros; apply (ent_upd _ K NP); auto).
  assert (Brj : forall j, is_byte (nthZ rg j)) by (intros j; apply B1; auto).
  assert (BG2 : forall i j, (i < K)%nat -> is_byte (ent G2 i j)).
  { intros i j Hi. rewrite EG2. destruct (Nat.eqb r i); auto. rewrite Vr'. destruct (Nat.ltb_spec j W); auto. }
  assert (VG2 : forall i j, (i < K)%nat -> (j < N)%nat -> ent G2 i j = if Nat.eqb i r then nrm G prow pc j else ent G (swp r prow i) j).
  { intros i j Hi Hj. rewrite EG2. destruct (Nat.eqb_spec r i), (Nat.eqb_spec i r); subst; try lia; auto.
    rewrite Vr'. destruct (Nat.ltb_spec j W); [auto|lia]. }
  assert (okp (eliminate_v p G2 em' ep' r pc) (fun G3 => shape K NP G3 /\ (forall i j, (i < K)%nat -> is_byte (ent G3 i j)) /\
     forall i j, (i < K)%nat -> (j < N)%nat -> ent G3 i j = step_val G r prow pc i j)) as (G3 & Q5 & S5 & B5 & E5).
  { unfold eliminate_v. eapply okp_mono.
    { eapply okp_for with (I := fun n G3 => shape K NP G3 /\ (forall i j, (i < K)%nat -> is_byte (ent G3 i j)) /\
        forall i j, (i < K)%nat -> (j < N)%nat -> ent G3 i j = if (i <? n)%nat then step_val G r prow pc i j else ent G2 i j).
      - split; auto.
      - intros n G3 Hn (S3 & B3 & V3). rewrite (get2_ok _ K NP) by (auto; lia). cbn [bind].
        rewrite V3 by (auto; lia). rewrite Nat.ltb_irrefl. rewrite VG2 by (auto; lia).
        destruct (Nat.eqb_spec n r) as [->|Hnr].
        { rewrite andb_false_r. apply okp_ok. split; auto. split; auto. intros i j Hi Hj. rewrite V3 by auto.
          destruct (Nat.ltb_spec i r), (Nat.ltb_spec i (S r)); auto; try lia. replace i with r by lia.
          rewrite VG2 by auto. unfold step_val. rewrite Nat.eqb_refl. auto. }
        set (m := ent G (swp r prow n) pc). assert (Fm : fq m) by (apply HR; auto; apply sl; lia).
        assert (SV : forall j, (j < N)%nat -> step_val G r prow pc n j = elim_val m (nrm G prow pc j) (ent G (swp r prow n) j)).
        { intros j Hj. unfold step_val. destruct (Nat.eqb_spec n r); [lia|]. reflexivity. }
        destruct (Z.eqb_spec m 0) as [Em|Em]; cbn [negb andb].
        + apply okp_ok. split; auto. split; auto. intros i j Hi Hj. rewrite V3 by auto.
          destruct (Nat.ltb_spec i n), (Nat.ltb_spec i (S n)); auto; try lia. replace i with n by lia.
          rewrite SV by auto. rewrite VG2 by (auto; lia). destruct (Nat.eqb_spec n r); [lia|].
          rewrite Em. rewrite elim_0; auto. apply HR; auto. apply sl; lia.
        + assert (Bm : 1 <= m <= 126) by (unfold fq in Fm; lia). destruct (Z.ltb_spec 127 m); [lia|].
          destruct (DR (Z.to_nat (127 - m))) as (rp & Q6 & L6 & B6 & E6); [lia|]. rewrite Q6. cbn [bind].
          eapply okp_mono.
          { apply (row_loop K NP n) with (f := fun c => addr (ent G3 n c) (nthZ rp c)); auto; try lia.
            intros k G4 Hk SG4 EG4.
            rewrite (ldm_ok K NP) by (auto; lia). cbn [bind]. rewrite ldv_ok by lia. cbn [bind].
            eexists. split; [reflexivity|].
            assert (La : length (firstn 32 (skipn (32 * k) (nth n G4 []))) = 32%nat) by (apply blk_len; rewrite (shape_row _ K NP); auto; lia).
            assert (Lb : length (firstn 32 (skipn (32 * k) rp)) = 32%nat) by (apply blk_len; lia).
            rewrite add_red_spec by auto. split. { rewrite map2_length. lia. }
            intros j Hj. rewrite (map2_nth _ _ _ _ 0 0) by lia. rewrite !blk_nth by auto.
            fold (ent G4 n (32 * k + j)). rewrite EG4. destruct (Nat.ltb_spec (32 * k + j) (32 * k)); [lia|]. rewrite andb_false_r. reflexivity. }
          intros G4 (S4 & V4). split; auto. split.
          * intros i j Hi. rewrite V4. destruct (_ && _); auto. apply addr_byte.
          * intros i j Hi Hj. rewrite V4. destruct (Nat.ltb_spec j W); [|lia]. rewrite andb_true_r.
            destruct (Nat.eqb_spec i n) as [->|].
            -- destruct (Nat.ltb_spec n (S n)); [|lia]. rewrite SV by auto. rewrite V3 by auto. rewrite Nat.ltb_irrefl.
               rewrite VG2 by auto. destruct (Nat.eqb_spec n r); [lia|].
               rewrite E6 by auto. rewrite <- (addr_elim m) by (auto; apply HR; auto).
               f_equal. apply cong_iff. rewrite Z2Nat.id by lia. rewrite <- Nr by auto. rewrite E4 by auto. rewrite cong_mod.
               exists 0. ring.
            -- rewrite V3 by auto. destruct (Nat.ltb_spec i n), (Nat.ltb_spec i (S n)); auto; lia. }
    intros G3 (S3 & B3 & V3). split; auto. split; auto. intros i j Hi Hj. rewrite V3 by auto.
    destruct (Nat.ltb_spec i (0 + K)); auto; lia. }
  exists G1, rg, em', sc, ep', nr, (firstn W (skipn 0 nr)), rg', G2, G3.
  split; auto. split. { apply get_ok. rewrite (shape_len _ _ _ S1). auto. }
  split; auto. split. { rewrite (get_ok _ _ 0) by lia. f_equal. apply Vr. auto. }
  split; auto. split; auto. split. { apply rd_ok. lia. } split. { apply wr_ok. rewrite Ld. lia. }
  split. { apply set_ok. rewrite (shape_len _ _ _ S1). auto. }
  split; auto. split; auto. split; auto. split; auto. split; auto. intros i Hi. apply (bytes_ent _ K NP); auto.
Qed.

Definition padl (a b : list Z) : Prop := (length a <= length b)%nat /\ forall i, (i < length a)%nat -> nth i b 0 = nth i a 0.
Lemma padl_upd a b i x : padl a b -> (i < length a)%nat -> padl (upd a i x) (upd b i x).
Proof.
  intros (H1 & H2) Hi. split. { rewrite !upd_length. auto. } rewrite upd_length. intros j Hj. rewrite !nth_upd by lia.
  destruct (Nat.eqb i j); auto.
Qed.

(** *** The whole reduction *)
Lemma rref_rows_opt n M0 r pv G fl G' fl' em ep : (r + n = K)%nat -> rref_inv p M0 r pv G fl ->
  padm G G' -> padl fl fl' -> shape 128 W em -> length ep = 128%nat ->
  exists ret R RF R' RF', rref_rows p n r G fl = Ok (ret, R, RF) /\ rref_rows_v p n r G' fl' em ep = Ok (ret, R', RF') /\
    padm R R' /\ padl RF RF' /\ length RF' = length fl'.
Proof.
  revert r pv G fl G' fl' em ep. induction n as [|n IH]; intros r pv G fl G' fl' em ep Hn HI HP HF SE LE; cbn [rref_rows rref_rows_v].
  - do 5 eexists. split; [reflexivity|]. split; [reflexivity|]. auto.
  - pose proof (ri_shape _ _ _ _ _ _ HI) as HS.
    destruct (search_same G G' r HS HP ltac:(lia)) as (prow & pc & Q1 & H1 & H2 & H3). rewrite Q1. cbn [bind].
    destruct (Nat.leb_spec N pc) as [Hpc|Hpc].
    + rewrite (H2 Hpc). cbn [bind]. do 5 eexists. split; [reflexivity|]. split; [reflexivity|]. auto.
    + destruct (H3 Hpc) as (Q2 & P1 & P2 & P3). rewrite Q2. cbn [bind].
      pose proof (ri_flags _ _ _ _ _ _ HI) as (HFl & HFc).
      assert (Z0 : forall c, (c < pc)%nat -> ent G prow c = 0).
      { intros c Hc. destruct (Nat.lt_ge_cases c r); [|apply P3; lia].
        apply (ri_rest _ _ _ _ _ _ HI prow (r - 1)%nat); try lia. pose proof (incr_ge pv r (ri_inc _ _ _ _ _ _ HI) (r - 1)%nat). lia. }
      pose proof (rref_step p M0 r pv G fl prow pc HI ltac:(lia) Hpc ltac:(lia) P3 P1 P2) as ([G3 fl3] & Eq & Inv).
      destruct (ref_step_val G r prow pc HS ltac:(lia) ltac:(lia) Hpc Z0) as (G3' & Eq' & S3 & V3).
      rewrite set_ok in * by lia. cbn [bind] in *.
      apply bind_ok in Eq'. destruct Eq' as (a & Ea & Eq'). apply bind_ok in Eq'. destruct Eq' as (a1 & Ea1 & Eq').
      apply bind_ok in Eq'. destruct Eq' as (a2 & Ea2 & Eq').
      change ((if Nat.eqb r prow then @Ok mat G else swap_rows p G r prow) = @Ok mat a) in Ea.
      rewrite Ea in Eq |- *. cbn [bind] in Eq |- *. rewrite Ea1 in Eq |- *. cbn [bind] in Eq |- *.
      rewrite Ea2 in Eq |- *. cbn [bind] in Eq |- *. rewrite Eq' in Eq |- *. cbn [bind] in Eq |- *. injection Eq as <- <-.
      rewrite set_ok by (destruct HF; lia). cbn [bind].
      destruct (opt_step G G' em ep r prow pc HS (ri_red _ _ _ _ _ _ HI) HP SE LE ltac:(lia) ltac:(lia) Hpc P2)
        as (G1 & rg & em' & sc & ep' & nr & d & rg' & G2 & Gn & O1 & O2 & O3 & O4 & O5 & O6 & O7 & O8 & O9 & O10 & X1 & X2 & X3 & X4 & X5).
      rewrite O1. cbn [bind]. rewrite O2. cbn [bind]. rewrite O3. cbn [bind]. rewrite O4. cbn [bind]. rewrite O5. cbn [bind].
      rewrite O6. cbn [bind]. rewrite O7. cbn [bind]. rewrite O8. cbn [bind]. rewrite O9. cbn [bind]. rewrite O10. cbn [bind].
      destruct (IH (S r) (fun i => if Nat.eqb i r then pc else pv i) G3' (upd fl pc 1) Gn (upd fl' pc 1) em' ep')
        as (ret & R & RF & R' & RF' & A1 & A2 & A3 & A4 & A5); auto; try lia.
      { split; auto. split; auto. intros i j Hi Hj. rewrite X5, V3 by auto. auto. }
      { apply padl_upd; auto. lia. }
      exists ret, R, RF, R', RF'. rewrite upd_length in A5. auto.
Qed.

Theorem generator_RREF_opt G G' em0 : shape K N G -> redm p G -> padm G G' -> shape 128 W em0 ->
  exists ret R RF R' RF', generator_RREF p G (repeat 0 N) = Ok (ret, R, RF) /\
    generator_RREF_o p em0 G' (repeat 0 NP) = Ok (ret, R', RF') /\ padm R R' /\ padl RF RF' /\ length RF' = NP.
Proof.
  intros HS HR HP SE. pose proof W_ge as HW. unfold generator_RREF, generator_RREF_o.
  destruct (rref_rows_opt K (ent G) 0 (fun _ => O) G (repeat 0 N) G' (repeat 0 NP) em0 (repeat None 128))
    as (ret & R & RF & R' & RF' & A1 & A2 & A3 & A4 & A5); auto.
  { constructor; auto; try (intros; lia).
    - apply row_equiv_refl.
    - split. { apply repeat_length. } intros c Hc. split. { intros (i & Hi & _). lia. }
      intros _. apply nth_repeat. }
  { split. { rewrite !repeat_length. lia. } rewrite repeat_length. intros i Hi. rewrite !nth_repeat. auto. }
  exists ret, R, RF, R', RF'. rewrite repeat_length in A5. auto.
Qed.

End R.
