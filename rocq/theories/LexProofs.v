(** Column normalisation: [lex_minimize]. *)
From Coq Require Import Setoid Morphisms.
From Verif Require Import Base BaseLemmas Params Fq FqProofs Sums LinAlg Codes.

(** First non-zero value among the first [n] ones starting at [i], 0 if none. *)
Fixpoint first_nz (n i : nat) (v : nat -> Z) : Z :=
  match n with O => 0 | S n' => if v i =? 0 then first_nz n' (S i) v else v i end.

Definition norm (K : nat) (v : nat -> Z) (i : nat) : Z := fq_red (v i * fq_inv (first_nz K 0 v)).

Lemma first_nz_ext n i v w : (forall j, (i <= j < i + n)%nat -> v j = w j) ->
  first_nz n i v = first_nz n i w.
Proof.
  revert i. induction n; intros i H; simpl; auto. rewrite H by lia.
  rewrite IHn; auto. intros; apply H; lia.
Qed.

Lemma first_nz_cases n i v :
  (first_nz n i v = 0 /\ forall j, (i <= j < i + n)%nat -> v j = 0) \/
  (first_nz n i v <> 0 /\ exists l, (i <= l < i + n)%nat /\ v l = first_nz n i v /\
     forall j, (i <= j < l)%nat -> v j = 0).
Proof.
  revert i. induction n; intros i; simpl. { left. split; auto. intros; lia. }
  destruct (Z.eqb_spec (v i) 0).
  - destruct (IHn (S i)) as [[H1 H2]|[H1 (l & H2 & H3 & H4)]].
    + left. split; auto. intros j Hj. destruct (Nat.eq_dec j i); subst; auto. apply H2. lia.
    + right. split; auto. exists l. split; [lia|]. split; auto.
      intros j Hj. destruct (Nat.eq_dec j i); subst; auto. apply H4. lia.
  - right. split; auto. exists i. split; [lia|]. split; auto. intros; lia.
Qed.

Lemma first_nz_fq n i v : (forall j, (i <= j < i + n)%nat -> fq (v j)) -> fq (first_nz n i v).
Proof.
  intros H. destruct (first_nz_cases n i v) as [[E _]|[_ (l & Hl & E & _)]].
  - rewrite E. auto with fq.
  - rewrite <- E. auto.
Qed.

Lemma norm_range K v i : fq (norm K v i).
Proof. unfold norm. auto with fq. Qed.

Lemma norm_ext K v w i : (i < K)%nat -> (forall j, (j < K)%nat -> v j = w j) -> norm K v i = norm K w i.
Proof.
  intros Hi H. unfold norm. rewrite H by auto. rewrite (first_nz_ext K 0 v w); auto. intros; apply H; lia.
Qed.

(** Normalisation does not depend on the scale of the column. *)
Lemma norm_scale K v w e : (forall j, (j < K)%nat -> fq (v j)) -> (forall j, (j < K)%nat -> fq (w j)) ->
  ~ e == 0 -> (forall j, (j < K)%nat -> w j == e * v j) ->
  forall i, (i < K)%nat -> norm K w i = norm K v i.
Proof.
  intros Fv Fw He H i Hi. apply cong_eq; try apply norm_range.
  assert (Z0 : forall j, (j < K)%nat -> v j = 0 -> w j = 0).
  { intros j Hj E. apply fq_cong0; auto. rewrite H by auto. rewrite E, Z.mul_0_r. reflexivity. }
  assert (Z1 : forall j, (j < K)%nat -> w j = 0 -> v j = 0).
  { intros j Hj E. apply fq_cong0; auto. apply cong_mul0 with (a := e); auto. rewrite <- H by auto. rewrite E. reflexivity. }
  pose proof (first_nz_fq K 0 v ltac:(intros; apply Fv; lia)) as Gv.
  pose proof (first_nz_fq K 0 w ltac:(intros; apply Fw; lia)) as Gw.
  unfold norm. rewrite !fq_red_mul by auto with fq.
  destruct (first_nz_cases K 0 v) as [[E1 E2]|[E1 (l & Hl & E2 & E3)]].
  - rewrite (E2 i) by lia. rewrite (Z0 i) by (auto; apply E2; lia). rewrite !Z.mul_0_l. reflexivity.
  - assert (L : first_nz K 0 w = w l).
    { destruct (first_nz_cases K 0 w) as [[D1 D2]|[D1 (m & Hm & D2 & D3)]].
      - exfalso. apply E1. rewrite <- E2. apply Z1; [lia|]. apply D2. lia.
      - rewrite <- D2. f_equal. destruct (Nat.lt_trichotomy l m) as [C|[C|C]]; auto; exfalso.
        + apply E1. rewrite <- E2. apply Z1; [lia|]. apply D3. lia.
        + apply D1. rewrite <- D2. apply Z0; [lia|]. apply E3. lia. }
    assert (Nl : v l <> 0) by congruence.
    assert (Nw : w l <> 0). { intros C. apply Nl. apply Z1; auto; lia. }
    rewrite L, <- E2.
    pose proof (fq_inv_l (v l) (Fv l ltac:(lia)) Nl) as I1.
    pose proof (fq_inv_l (w l) (Fw l ltac:(lia)) Nw) as I2.
    (* w_i / w_l = e v_i / (e v_l) *)
    transitivity (w i * fq_inv (w l) * (fq_inv (v l) * v l)).
    { rewrite I1, Z.mul_1_r. reflexivity. }
    transitivity (v i * fq_inv (v l) * (fq_inv (w l) * (e * v l))).
    { rewrite (H i) by auto. apply cong_iff. f_equal. ring. }
    rewrite <- (H l) by lia. rewrite I2, Z.mul_1_r. reflexivity.
Qed.

(** The normalised column is a unit multiple of the column, and its first non-zero entry is 1. *)
Lemma norm_prop K v : (forall j, (j < K)%nat -> fq (v j)) ->
  exists e, ~ e == 0 /\ forall i, (i < K)%nat -> norm K v i == e * v i.
Proof.
  intros Fv. pose proof (first_nz_fq K 0 v ltac:(intros; apply Fv; lia)) as Gv.
  destruct (first_nz_cases K 0 v) as [[E1 E2]|[E1 _]].
  - exists 1. split. { intros C. apply cong_iff in C. discriminate. }
    intros i Hi. unfold norm. rewrite (E2 i) by lia. reflexivity.
  - exists (fq_inv (first_nz K 0 v)). split.
    + apply fq_nz; auto with fq. apply fq_inv_nz; auto.
    + intros i Hi. unfold norm. rewrite fq_red_mul by auto with fq. rewrite Z.mul_comm. reflexivity.
Qed.

Lemma norm_first K v : (forall j, (j < K)%nat -> fq (v j)) ->
  (forall i, (i < K)%nat -> norm K v i = 0) \/
  (exists l, (l < K)%nat /\ norm K v l = 1 /\ forall i, (i < l)%nat -> norm K v i = 0).
Proof.
  intros Fv. destruct (first_nz_cases K 0 v) as [[E1 E2]|[E1 (l & Hl & E2 & E3)]].
  - left. intros i Hi. unfold norm. rewrite (E2 i) by lia. rewrite Z.mul_0_l. reflexivity.
  - right. exists l. split; [lia|]. split.
    + apply cong_eq; auto with fq. { apply norm_range. } unfold norm. rewrite <- E2.
      rewrite fq_red_mul by (auto with fq; apply Fv; lia). rewrite Z.mul_comm. apply fq_inv_l.
      apply Fv; lia. congruence.
    + intros i Hi. unfold norm. rewrite (E3 i) by lia. rewrite Z.mul_0_l. reflexivity.
Qed.

Lemma lex_le_first a b l : length a = length b ->
  (forall i, (i < l)%nat -> nth i a 0 = nth i b 0) -> (l < length a)%nat ->
  nth l a 0 < nth l b 0 -> lex_le a b.
Proof.
  revert b l. induction a as [|x a IH]; intros [|y b] l Hl He Hlt H; simpl in *; try lia.
  destruct l; auto. right. split. { apply (He O). lia. }
  apply IH with (l := l); auto; try lia. intros i Hi. apply (He (S i)). lia.
Qed.

Lemma lex_le_refl a : lex_le a a.
Proof. induction a; simpl; auto. Qed.

Lemma proportional_sym a b : proportional a b -> proportional b a.
Proof.
  intros (H1 & e & He & H2). destruct (cong_inv e He) as (d & _ & Hd).
  split; auto. exists d. split. { apply cong_unit_nz with (b := e); auto. }
  intros i Hi. rewrite H2 by lia. rewrite Z.mul_assoc, Hd, Z.mul_1_l. reflexivity.
Qed.

Lemma cong_nonzero_mul a b : ~ a == 0 -> ~ b == 0 -> ~ a * b == 0.
Proof. intros H H' E. apply H'. eapply cong_mul0; eauto. Qed.

Lemma proportional_trans a b c : proportional a b -> proportional b c -> proportional a c.
Proof.
  intros (H1 & e & He & H2) (H3 & d & Hd & H4). split; [lia|].
  exists (d * e). split. { apply cong_nonzero_mul; auto. }
  intros i Hi. rewrite H4 by lia. rewrite H2 by auto. rewrite Z.mul_assoc. reflexivity.
Qed.

(** A reduced column whose first non-zero entry is 1 is least among its multiples. *)
Lemma first_one_least b c : proportional b c -> Forall fq b -> Forall fq c ->
  ((forall i, (i < length b)%nat -> nth i b 0 = 0) \/
   (exists l, (l < length b)%nat /\ nth l b 0 = 1 /\ forall i, (i < l)%nat -> nth i b 0 = 0)) ->
  lex_le b c.
Proof.
  intros (H1 & e & He & H2) Fb Fc.
  assert (Fb' : forall i, (i < length b)%nat -> fq (nth i b 0)) by (apply Forall_nth_Z; auto).
  assert (Fc' : forall i, (i < length b)%nat -> fq (nth i c 0)) by (rewrite H1; apply Forall_nth_Z; auto).
  intros [Z0|(l & Hl & L1 & L2)].
  - replace c with b; [apply lex_le_refl|]. apply (list_ext 0); auto. intros i Hi. rewrite Z0 by auto.
    symmetry. apply fq_cong0; auto. rewrite H2 by auto. rewrite Z0 by auto. rewrite Z.mul_0_r. reflexivity.
  - assert (L3 : forall i, (i < l)%nat -> nth i c 0 = 0).
    { intros i Hi. apply fq_cong0. { apply Fc'; lia. } rewrite H2 by lia. rewrite L2 by auto.
      rewrite Z.mul_0_r. reflexivity. }
    assert (L4 : nth l c 0 == e). { rewrite H2 by auto. rewrite L1, Z.mul_1_r. reflexivity. }
    destruct (Z.eq_dec (nth l c 0) 1) as [E|E].
    + replace c with b; [apply lex_le_refl|]. apply (list_ext 0); auto. intros i Hi.
      apply cong_eq; auto. rewrite H2 by auto. rewrite <- L4, E, Z.mul_1_l. reflexivity.
    + apply lex_le_first with (l := l); auto.
      * intros i Hi. rewrite L2, L3; auto.
      * pose proof (Fc' l Hl) as F. unfold fq in F. rewrite L1.
        assert (nth l c 0 <> 0). { intros C. apply He. rewrite <- L4, C. reflexivity. }
        lia.
Qed.

Lemma column_length K M c : length (column K M c) = K.
Proof. unfold column. rewrite map_length, seq_length. auto. Qed.

Lemma column_nth K M c i : (i < K)%nat -> nth i (column K M c) 0 = M i c.
Proof. intros H. unfold column. apply (nth_map_seq (fun i => M i c)); auto. Qed.

Lemma column_ext K M M' c c' : (forall i, (i < K)%nat -> M i c = M' i c') -> column K M c = column K M' c'.
Proof.
  intros H. unfold column. apply map_ext_in. intros i Hi. apply in_seq in Hi. apply H. lia.
Qed.

Section R.
Variable p : params.
Notation N := (pN p).
Notation K := (pK p).

Lemma lex_minimize_spec w V dst G col : shape K w V -> shape K N G -> (dst < w)%nat -> (col < N)%nat ->
  (forall i, (i < K)%nat -> fq (ent G i col)) ->
  okp (lex_minimize p V dst G col) (fun V' => shape K w V' /\
    forall i j, (i < K)%nat -> (j < w)%nat -> ent V' i j =
      if Nat.eqb j dst then norm K (fun i => ent G i col) i else ent V i j).
Proof.
  intros HV HG Hd Hc HF. unfold lex_minimize.
  eapply okp_bind with (Q := fun s => snd (fst s) = first_nz K 0 (fun i => ent G i col)).
  - eapply okp_mono.
    + eapply okp_for with (I := fun n (s : Z * Z * bool) => let '(_, fval, found) := s in
         (if found then fval = first_nz K 0 (fun i => ent G i col) /\ fq fval
          else fval = 0 /\ first_nz K 0 (fun i => ent G i col) = first_nz (K - n) n (fun i => ent G i col))).
      * split; auto. f_equal. lia.
      * intros i [[fi fv] fd] Hi HI. rewrite (get2_ok _ K N) by (auto; lia). cbn [bind].
        apply okp_ok. specialize (HF i ltac:(lia)).
        destruct fd; cbn [orb negb].
        -- rewrite orb_true_r, andb_false_r. cbn [b2z].
           destruct HI as [<- HI2]. rewrite Z.mul_0_r, Z.mul_1_r, Z.add_0_l. rewrite u8_id; auto.
           unfold fq in HI2; lia.
        -- destruct HI as [-> HI2]. replace (K - i)%nat with (S (K - S i)) in HI2 by lia.
           cbn [first_nz] in HI2. rewrite HI2.
           destruct (Z.eqb_spec (ent G i col) 0); cbn [negb b2z andb orb]; split; auto.
           ++ rewrite Z.mul_0_r, Z.mul_0_l, Z.add_0_l. reflexivity.
           ++ unfold fq in HF. rewrite Z.mul_0_l, Z.mul_1_r, Z.add_0_r. apply u8_id. lia.
           ++ rewrite Z.mul_0_l, Z.mul_1_r, Z.add_0_r. rewrite u8_id; auto. unfold fq in HF; lia.
    + intros [[fi fv] fd] HI. cbn [fst snd]. destruct fd; destruct HI as [-> HI]; auto.
      rewrite HI. replace (K - (0 + K))%nat with O by lia. reflexivity.
  - intros [[fi fv] fd] E. cbn [fst snd] in E. subst fv.
    eapply okp_mono. eapply okp_for with (I := fun n V' => shape K w V' /\
      forall i j, (i < K)%nat -> (j < w)%nat -> ent V' i j =
        if Nat.eqb j dst && (i <? n)%nat then norm K (fun i => ent G i col) i else ent V i j).
    + split; auto. intros. rewrite andb_false_r. auto.
    + intros n V' Hn (H1 & H2). rewrite (get2_ok _ K N) by (auto; lia). cbn [bind].
      rewrite (set2_ok _ K w) by (auto; lia). apply okp_ok. split. { apply shape_upd2; auto; lia. }
      intros i j Hi Hj. rewrite (ent_upd2 _ K w) by (auto; lia). rewrite !H2 by auto.
      destruct (Nat.eqb_spec n i), (Nat.eqb_spec dst j), (Nat.eqb_spec j dst), (Nat.ltb_spec i n), (Nat.ltb_spec i (S n));
        subst; simpl; auto; try lia.
    + intros V' (H1 & H2). split; auto. intros i j Hi Hj. rewrite H2 by auto.
      destruct (Nat.ltb_spec i (0 + K)); [|lia]. rewrite andb_true_r. auto.
Qed.

End R.
