(** Normal forms of codes: existence, uniqueness, invariance, and what equality of normal forms says. *)
From Coq Require Import Permutation Sorted Setoid Morphisms.
From Verif Require Import Base BaseLemmas Params ParamsProofs Fq FqProofs Sums EnumProofs LinAlg Monomial Codes
  RrefProofs LexProofs SortProofs MonoProofs Less ActionProofs.

(** Finite choice. *)
Lemma fin_choice {A} (d : A) n (P : nat -> A -> Prop) : (forall i, (i < n)%nat -> exists a, P i a) ->
  exists f : nat -> A, forall i, (i < n)%nat -> P i (f i).
Proof.
  induction n as [|n IH]; intros H. { exists (fun _ => d). intros; lia. }
  destruct IH as (f & Hf). { intros; apply H; lia. } destruct (H n ltac:(lia)) as (a & Ha).
  exists (fun i => if Nat.eqb i n then a else f i). intros i Hi. destruct (Nat.eqb_spec i n); subst; auto.
  apply Hf. lia.
Qed.

Lemma Forall2_len {A B} (R : A -> B -> Prop) l l' : Forall2 R l l' -> length l = length l'.
Proof. induction 1; cbn; auto. Qed.

Lemma Forall2_nth' {A B} (R : A -> B -> Prop) a b l l' : Forall2 R l l' -> forall i, (i < length l)%nat -> R (nth i l a) (nth i l' b).
Proof. induction 1; intros i Hi; cbn in *; [lia|]. destruct i; auto. apply IHForall2. lia. Qed.

Section C.
Variables K N : nat.

Lemma same_code_sym A B : same_code K N A B -> same_code K N B A.
Proof. intros H v. symmetry. apply H. Qed.
Lemma same_code_trans A B C : same_code K N A B -> same_code K N B C -> same_code K N A C.
Proof. intros H H' v. rewrite (H v). apply H'. Qed.

Lemma same_code_row_sub A B : full_rank K N B -> same_code K N A B -> row_sub K N B A.
Proof.
  intros FB S.
  destruct (fin_choice (fun _ => 0) K (fun i c => forall j, (j < N)%nat -> B i j == sumn K (fun l => c l * A l j))) as (c & Hc).
  { intros i Hi. destruct (proj2 (S (B i)) (row_in_code K N B i Hi)) as (a & Ha). exists a. auto. }
  assert (E : forall a j, (j < N)%nat -> sumn K (fun i => a i * B i j) == sumn K (fun l => sumn K (fun i => a i * c i l) * A l j)).
  { intros a j Hj. rewrite (sumn_cong K _ (fun i => sumn K (fun l => a i * c i l * A l j))).
    2:{ intros i Hi. rewrite Hc by auto. rewrite <- sumn_scal.
        rewrite (sumn_ext K _ (fun l => a i * c i l * A l j)); [reflexivity|]. intros; ring. }
    rewrite sumn_swap.
    rewrite (sumn_ext K (fun j0 => sumn K (fun i => a i * c i j0 * A j0 j)) (fun l => sumn K (fun i => a i * c i l) * A l j)); [reflexivity|].
    intros l Hl. rewrite <- sumn_scal_r. apply sumn_ext. auto. }
  exists (fun a l => sumn K (fun i => a i * c i l)). split; auto.
  intros a Ha. apply FB. intros j Hj. rewrite E by auto.
  rewrite (sumn_cong K _ (fun _ => 0)).
  - rewrite sumn_const0. reflexivity.
  - intros l Hl. rewrite Ha by auto. rewrite Z.mul_0_l. reflexivity.
Qed.

Lemma same_code_row_equiv A B : full_rank K N A -> full_rank K N B -> same_code K N A B -> row_equiv K N A B.
Proof. intros FA FB S. split; apply same_code_row_sub; auto. apply same_code_sym; auto. Qed.

Lemma rref_ext R piv piv' : (forall i, (i < K)%nat -> piv i = piv' i) -> is_rref K N R piv -> is_rref K N R piv'.
Proof.
  intros E (H1 & H2 & H3 & H4). split; [|split; [|split]].
  - intros i Hi. rewrite <- E; auto.
  - intros i j Hij Hj. rewrite <- !E by lia. auto.
  - intros i j Hi Hj. rewrite <- E by auto. auto.
  - intros i c Hi Hc. rewrite <- E in Hc by auto. auto.
Qed.

Lemma nonpivots_ext piv piv' : (forall i, (i < K)%nat -> piv i = piv' i) -> nonpivots K N piv = nonpivots K N piv'.
Proof.
  intros E. unfold nonpivots. apply filter_ext_in. intros c _. f_equal.
  assert (G : forall l, (forall i, In i l -> (i < K)%nat) -> existsb (fun i => Nat.eqb (piv i) c) l = existsb (fun i => Nat.eqb (piv' i) c) l).
  { induction l as [|x l IH]; intros H; auto. cbn. rewrite E by (apply H; left; auto). rewrite IH; auto. intros; apply H; right; auto. }
  apply G. intros i Hi. apply in_seq in Hi. lia.
Qed.

Lemma in_nonpivots piv c : In c (nonpivots K N piv) <-> (c < N)%nat /\ forall i, (i < K)%nat -> piv i <> c.
Proof.
  unfold nonpivots. rewrite filter_In, in_seq. split.
  - intros (H1 & H2). split; [lia|]. intros i Hi E. apply negb_true_iff in H2.
    assert (existsb (fun i => Nat.eqb (piv i) c) (seq 0 K) = true); [|congruence].
    apply existsb_exists. exists i. split; [apply in_seq; lia|]. apply Nat.eqb_eq. auto.
  - intros (H1 & H2). split; [lia|]. apply negb_true_iff. apply not_true_is_false. intros E.
    apply existsb_exists in E. destruct E as (i & Hi & Ei). apply in_seq in Hi. apply Nat.eqb_eq in Ei. apply (H2 i); [lia|auto].
Qed.

Lemma nonpivots_flags piv fl : flags_of K N piv fl -> nonpivots K N piv = enum (is_np fl) N.
Proof.
  intros F. unfold nonpivots, enum. apply filter_ext_in. intros c Hc. apply in_seq in Hc.
  pose proof (flags_np K N piv fl c F ltac:(lia)) as FN.
  destruct (is_np fl c).
  - apply negb_true_iff. apply not_true_is_false. intros E. apply existsb_exists in E. destruct E as (i & Hi & Ei).
    apply in_seq in Hi. apply Nat.eqb_eq in Ei. apply (proj1 FN eq_refl i); [lia|auto].
  - apply negb_false_iff. destruct (existsb (fun i => Nat.eqb (piv i) c) (seq 0 K)) eqn:E; auto.
    exfalso. assert (false = true); [|discriminate]. apply FN. intros i Hi Ei.
    assert (existsb (fun i => Nat.eqb (piv i) c) (seq 0 K) = true); [|congruence].
    apply existsb_exists. exists i. split; [apply in_seq; lia|]. apply Nat.eqb_eq. auto.
Qed.

Definition piv_flags (piv : nat -> nat) : list Z :=
  map (fun c => if existsb (fun i => Nat.eqb (piv i) c) (seq 0 K) then 1 else 0) (seq 0 N).

Lemma piv_flags_ok piv : flags_of K N piv (piv_flags piv).
Proof.
  split. { unfold piv_flags. rewrite map_length, seq_length. auto. }
  intros c Hc. unfold piv_flags. rewrite nth_map_seq by auto. split.
  - intros (i & Hi & Ei). replace (existsb (fun i => Nat.eqb (piv i) c) (seq 0 K)) with true; auto. symmetry.
    apply existsb_exists. exists i. split; [apply in_seq; lia|]. apply Nat.eqb_eq. auto.
  - intros H. destruct (existsb (fun i => Nat.eqb (piv i) c) (seq 0 K)) eqn:E; auto. exfalso.
    apply existsb_exists in E. destruct E as (i & Hi & Ei). apply in_seq in Hi. apply Nat.eqb_eq in Ei. apply (H i); [lia|auto].
Qed.

Lemma nonpivots_length R piv : is_rref K N R piv -> length (nonpivots K N piv) = (N - K)%nat.
Proof.
  intros HR. rewrite (nonpivots_flags piv _ (piv_flags_ok piv)). apply (flags_cnt_np K N R piv); auto. apply piv_flags_ok.
Qed.

Lemma least_multiple_unique a b c : least_multiple a b -> least_multiple a c -> b = c.
Proof.
  intros (P1 & F1 & L1) (P2 & F2 & L2). apply lex_le_antisym; auto.
Qed.

Lemma Forall2_least_unique l a b : Forall2 least_multiple l a -> Forall2 least_multiple l b -> a = b.
Proof.
  intros H. revert b. induction H; intros b' H'; inversion H'; subst; auto. f_equal; eauto using least_multiple_unique.
Qed.

(** Two normal forms of the same code are equal. *)
Lemma normal_form_unique M M' V V' : same_code K N M M' -> normal_form K N M V -> normal_form K N M' V' -> V = V'.
Proof.
  intros S (R & piv & cs & A1 & A2 & A3 & A4 & A5 & A6 & A7) (R' & piv' & cs' & B1 & B2 & B3 & B4 & B5 & B6 & B7).
  assert (SR : same_code K N R R').
  { eapply same_code_trans; [apply same_code_sym; exact A1|]. eapply same_code_trans; [exact S|exact B1]. }
  destruct (rref_unique K N R R' piv piv' SR A3 B3) as [E1 E2].
  assert (EN : nonpivots K N piv = nonpivots K N piv') by (apply nonpivots_ext; auto).
  assert (EC : map (column K R) (nonpivots K N piv) = map (column K R') (nonpivots K N piv')).
  { rewrite <- EN. apply map_ext_in. intros c Hc. apply in_nonpivots in Hc. apply column_ext. intros i Hi.
    apply cong_eq; auto. apply A2; auto. apply Hc. apply B2; auto. apply Hc. apply E2; auto. apply Hc. }
  rewrite EC in A4. pose proof (Forall2_least_unique _ _ _ A4 B4) as <-.
  assert (P : Permutation (columns K (N - K) (ent V)) (columns K (N - K) (ent V'))).
  { eapply Permutation_trans; [apply Permutation_sym; exact A6|exact B6]. }
  pose proof (sorted_perm_unique _ _ A7 B7 P) as E.
  apply (mat_ext _ _ K (N - K)); auto. intros i j Hi Hj.
  assert (EJ : nth j (columns K (N - K) (ent V)) [] = nth j (columns K (N - K) (ent V')) []) by congruence.
  unfold columns in EJ. rewrite !nth_map_seq in EJ by auto.
  apply (f_equal (fun l => nth i l 0)) in EJ. rewrite !column_nth in EJ by auto. auto.
Qed.

(** Every full-rank code with a reduced row-echelon form has the same normal form as any matrix of the code. *)
Lemma normal_form_same_code M M' V : same_code K N M M' -> normal_form K N M V -> normal_form K N M' V.
Proof.
  intros S (R & piv & cs & A1 & A). exists R, piv, cs. split; auto.
  eapply same_code_trans; [apply same_code_sym; exact S|auto].
Qed.

Lemma normal_form_full_rank M V : normal_form K N M V -> exists R piv, same_code K N M R /\ is_rref K N R piv.
Proof. intros (R & piv & cs & A1 & A2 & A3 & _). eauto. Qed.

(** *** Equal normal forms: the codes are equivalent. *)
Lemma perm_index {A} (d : A) l l' : Permutation l l' -> exists f, bij (length l) f /\
  forall i, (i < length l)%nat -> nth i l' d = nth (f i) l d.
Proof.
  intros P. apply (Permutation_nth l l' d) in P. destruct P as (HL & f & B1 & B2 & B3). exists f. split; auto. split.
  - intros i Hi. apply B1; auto.
  - intros i j Hi Hj E. apply B2; auto.
Qed.

Lemma filter_NoDup' {A} (f : A -> bool) l : NoDup l -> NoDup (filter f l).
Proof. apply NoDup_filter. Qed.

Lemma normal_form_equivalent A B V : normal_form K N A V -> normal_form K N B V -> equivalent_codes K N A B.
Proof.
  intros (R & piv & cs & A1 & A2 & A3 & A4 & A5 & A6 & A7) (R' & piv' & cs' & B1 & B2 & B3 & B4 & B5 & B6 & B7).
  assert (P : Permutation cs cs') by (eapply Permutation_trans; [exact A6|apply Permutation_sym; exact B6]).
  pose proof (nonpivots_length R piv A3) as LA. pose proof (nonpivots_length R' piv' B3) as LB.
  assert (LC : length cs = (N - K)%nat). { apply Forall2_len in A4. rewrite map_length in A4. lia. }
  assert (LC' : length cs' = (N - K)%nat). { apply Forall2_len in B4. rewrite map_length in B4. lia. }
  destruct (perm_index [] cs cs' P) as (f & Bf & Ef). rewrite LC in Bf, Ef.
  set (np := nonpivots K N piv) in *. set (np' := nonpivots K N piv') in *.
  (* column np'[k] of R' is proportional to column np[f k] of R *)
  assert (PR : forall k, (k < N - K)%nat -> proportional (column K R (nth (f k) np 0%nat)) (column K R' (nth k np' 0%nat))).
  { intros k Hk. destruct Bf as [Bf1 Bf2].
    assert (Q1 : least_multiple (column K R (nth (f k) np 0%nat)) (nth (f k) cs [])).
    { rewrite <- (map_nth (column K R)). rewrite (nth_indep _ _ []) by (rewrite map_length; specialize (Bf1 k); lia).
      apply Forall2_nth'; auto. rewrite map_length. specialize (Bf1 k); lia. }
    assert (Q2 : least_multiple (column K R' (nth k np' 0%nat)) (nth k cs' [])).
    { rewrite <- (map_nth (column K R')). rewrite (nth_indep _ _ []) by (rewrite map_length; lia).
      apply Forall2_nth'; auto. rewrite map_length. lia. }
    rewrite Ef in Q2 by auto. eapply proportional_trans. { apply Q1. } apply proportional_sym. apply Q2. }
  (* position of a column of B among the pivots or the others *)
  pose proof A3 as (P1 & P2 & P3 & P4). pose proof B3 as (P1' & P2' & P3' & P4').
  assert (LOC : forall c, (c < N)%nat -> (exists i, (i < K)%nat /\ piv' i = c) \/ (exists k, (k < N - K)%nat /\ nth k np' 0%nat = c)).
  { intros c Hc. destruct (existsb (fun i => Nat.eqb (piv' i) c) (seq 0 K)) eqn:E.
    - left. apply existsb_exists in E. destruct E as (i & Hi & Ei). apply in_seq in Hi. apply Nat.eqb_eq in Ei. exists i. split; [lia|auto].
    - right. assert (I : In c np'). { unfold np', nonpivots. apply filter_In. split. apply in_seq; lia. rewrite E. auto. }
      apply (In_nth _ _ 0%nat) in I. destruct I as (k & Hk & Ek). exists k. split; [lia|auto]. }
  (* the coordinate map and the scalars *)
  assert (GE : exists ge : nat -> nat * Z, forall c, (c < N)%nat -> (fst (ge c) < N)%nat /\ ~ snd (ge c) == 0 /\
     (forall i, (i < K)%nat -> R' i c == snd (ge c) * R i (fst (ge c))) /\
     ((exists i, (i < K)%nat /\ piv' i = c /\ fst (ge c) = piv i) \/
      (exists k, (k < N - K)%nat /\ nth k np' 0%nat = c /\ fst (ge c) = nth (f k) np 0%nat))).
  { apply (fin_choice (O, 0) N (fun c q => (fst q < N)%nat /\ ~ snd q == 0 /\
     (forall i, (i < K)%nat -> R' i c == snd q * R i (fst q)) /\
     ((exists i, (i < K)%nat /\ piv' i = c /\ fst q = piv i) \/
      (exists k, (k < N - K)%nat /\ nth k np' 0%nat = c /\ fst q = nth (f k) np 0%nat)))).
    intros c Hc. destruct (LOC c Hc) as [(i & Hi & Ei)|(k & Hk & Ek)].
    - exists (piv i, 1). cbn [fst snd]. split. { apply P1; auto. } split. { intros X. apply cong_eq in X; try discriminate; unfold fq; lia. }
      split. { intros l Hl. rewrite <- Ei. rewrite P3, P3' by auto. rewrite Z.mul_1_l. reflexivity. } left. eauto.
    - destruct (PR k Hk) as (_ & e & He & H2). exists (nth (f k) np 0%nat, e). cbn [fst snd].
      assert (IN : In (nth (f k) np 0%nat) np) by (apply nth_In; destruct Bf as [Bf1 _]; specialize (Bf1 k); lia).
      apply in_nonpivots in IN. split. { apply IN. } split; auto. split.
      { intros i Hi. rewrite column_length in H2. specialize (H2 i Hi). rewrite !column_nth in H2 by auto. rewrite <- Ek. auto. }
      right. eauto. }
  destruct GE as (ge & GE).
  exists (fun i a => snd (ge a) * A i (fst (ge a))), (fun a => fst (ge a)), (fun a => snd (ge a)). split.
  - split; [|split].
    + split. { intros a Ha. apply GE; auto. }
      intros a b Ha Hb E. destruct (GE a Ha) as (_ & _ & _ & Ca). destruct (GE b Hb) as (_ & _ & _ & Cb).
      assert (NDn : NoDup np) by (apply NoDup_filter, seq_NoDup).
      destruct Ca as [(i & Hi & Ei & Fi)|(k & Hk & Ek & Fk)], Cb as [(j & Hj & Ej & Fj)|(l & Hl & El & Fl)].
      * rewrite E, Fj in Fi. assert (i = j); [|congruence].
        destruct (Nat.lt_trichotomy i j) as [L|[L|L]]; auto; [specialize (P2 i j L Hj)|specialize (P2 j i L Hi)]; lia.
      * exfalso. assert (IN : In (nth (f l) np 0%nat) np) by (apply nth_In; destruct Bf as [Bf1 _]; specialize (Bf1 l); lia).
        apply in_nonpivots in IN. apply (proj2 IN i Hi). congruence.
      * exfalso. assert (IN : In (nth (f k) np 0%nat) np) by (apply nth_In; destruct Bf as [Bf1 _]; specialize (Bf1 k); lia).
        apply in_nonpivots in IN. apply (proj2 IN j Hj). congruence.
      * destruct Bf as [Bf1 Bf2]. assert (f k = f l).
        { apply (proj1 (NoDup_nth np 0%nat) NDn); [specialize (Bf1 k); lia|specialize (Bf1 l); lia|congruence]. }
        assert (k = l) by (apply Bf2; auto). congruence.
    + intros a Ha. apply GE; auto.
    + intros i a Hi Ha. reflexivity.
  - (* same code as B *)
    eapply same_code_trans with (B := fun i a => snd (ge a) * R i (fst (ge a))).
    + assert (T : forall U V0, same_code K N U V0 -> forall v, in_code K N (fun i a => snd (ge a) * U i (fst (ge a))) v ->
         in_code K N (fun i a => snd (ge a) * V0 i (fst (ge a))) v).
      { intros U V0 SUV v (a & Ha).
        destruct (proj1 (SUV (fun j => sumn K (fun i => a i * U i j)))) as (b & Hb). { exists a. reflexivity. }
        exists b. intros j Hj. rewrite Ha by auto.
        rewrite (sumn_ext K (fun i => a i * (snd (ge j) * U i (fst (ge j)))) (fun i => snd (ge j) * (a i * U i (fst (ge j))))) by (intros; ring).
        rewrite (sumn_ext K (fun i => b i * (snd (ge j) * V0 i (fst (ge j)))) (fun i => snd (ge j) * (b i * V0 i (fst (ge j))))) by (intros; ring).
        rewrite !sumn_scal. rewrite (Hb (fst (ge j))) by (apply GE; auto). reflexivity. }
      intros v. split; apply T; auto. apply same_code_sym; auto.
    + eapply same_code_trans; [|apply same_code_sym; exact B1]. apply row_equiv_same_code. apply row_equiv_cong.
      intros i j Hi Hj. symmetry. apply GE; auto.
Qed.

End C.

Section P.
Variable p : params.
Hypothesis wf : wf_params p.
Notation N := (pN p).
Notation K := (pK p).
Notation w := (pN p - pK p)%nat.

Lemma ncol_least R c : (c < N)%nat -> (forall i j, (i < K)%nat -> (j < N)%nat -> fq (R i j)) ->
  least_multiple (column K R c) (ncol p R c).
Proof.
  intros Hc HR.
  assert (FR : forall j, (j < K)%nat -> fq (R j c)) by auto.
  assert (FQ : Forall fq (ncol p R c)).
  { apply Forall_forall. intros x Hx. apply in_map_iff in Hx. destruct Hx as (i & <- & _). apply norm_range. }
  assert (PR : proportional (column K R c) (ncol p R c)).
  { split. { rewrite column_length, ncol_length. auto. }
    destruct (norm_prop K (fun i => R i c) FR) as (e & He & H). exists e. split; auto.
    rewrite column_length. intros i Hi. rewrite ncol_nth, column_nth by auto. apply H. auto. }
  split; auto. split; auto. intros d Hd Fd. apply first_one_least; auto.
  - eapply proportional_trans; [apply proportional_sym; exact PR|exact Hd].
  - rewrite ncol_length. destruct (norm_first K (fun i => R i c) FR) as [H|(l & Hl & H1 & H2)].
    + left. intros i Hi. rewrite ncol_nth by auto. apply H; auto.
    + right. exists l. split; auto. split. { rewrite ncol_nth by auto. auto. }
      intros i Hi. rewrite ncol_nth by lia. auto.
Qed.

Lemma digest_normal_form M R pv fl V : row_equiv K N M R -> (forall i j, (i < K)%nat -> (j < N)%nat -> fq (R i j)) ->
  is_rref K N R pv -> flags_of K N pv fl -> is_digest p R fl V -> normal_form K N M V.
Proof.
  intros E FR RR FL (D1 & D2 & D3 & D4).
  exists R, pv, (map (ncol p R) (enum (is_np fl) N)). split. { apply row_equiv_same_code; auto. }
  split. { exact FR. } split; auto. split.
  - rewrite (nonpivots_flags K N pv fl FL).
    assert (G : forall l, (forall c, In c l -> (c < N)%nat) -> Forall2 least_multiple (map (column K R) l) (map (ncol p R) l)).
    { induction l as [|c l IH]; intros H; cbn; constructor. { apply ncol_least; auto. apply H; left; auto. } apply IH. intros; apply H; right; auto. }
    apply G. intros c Hc. apply in_enum in Hc. apply Hc.
  - split; auto.
Qed.

Lemma unused_marked a : act_mem p a -> (forall k, (k < K)%nat -> 0 <= nthZ (a_perm a) k) ->
  unused N (a_perm a) = enum (fun c => negb (marked a K c)) N.
Proof.
  intros (A1 & A2) HR. unfold unused, enum. apply filter_ext_in. intros c Hc. f_equal.
  destruct (marked a K c) eqn:E.
  - apply marked_spec in E. destruct E as (k & Hk & Ek). apply existsb_exists. exists (nth k (a_perm a) 0).
    split. { apply nth_In. lia. } apply Z.eqb_eq. unfold pf, nthZ in Ek. specialize (HR k Hk). unfold nthZ in HR. lia.
  - apply not_true_is_false. intros X. apply existsb_exists in X. destruct X as (x & Hx & Ex). apply Z.eqb_eq in Ex. subst x.
    apply (In_nth _ _ 0) in Hx. destruct Hx as (k & Hk & Ek).
    assert (marked a K c = true); [|congruence]. apply marked_spec. exists k. split; [lia|]. unfold pf, nthZ. rewrite Ek. lia.
Qed.

Lemma good_action_iff a : act_ok p a <-> good_action K N (a_perm a) (a_coef a).
Proof.
  split.
  - intros [[A1 A1'] A2 A3 A4]. split; auto. split; auto. split.
    { apply (NoDup_nth _ 0). rewrite A1. intros i j Hi Hj E. apply A3; auto. }
    split; apply Forall_nth_Z. { rewrite A1. auto. } rewrite A1'. auto.
  - intros (A1 & A2 & A3 & A4 & A5). constructor. { split; auto. }
    + intros i Hi. apply (proj1 (Forall_nth_Z _ _) A4). lia.
    + intros i j Hi Hj E. apply (proj1 (NoDup_nth (a_perm a) 0) A3); auto; lia.
    + intros i Hi. apply (proj1 (Forall_nth_Z _ _) A5). lia.
Qed.

(** The normal form of G*Q computed by the signer. *)
Lemma times_action_src G a M : act_ok p a ->
  (times_action K N G (a_perm a) (a_coef a) M <->
   forall i k, (i < K)%nat -> (k < N)%nat -> M i k == (if (k <? K)%nat then nthZ (a_coef a) k else 1) * G i (act_src p a k)).
Proof.
  intros HA. pose proof (wf_K p wf) as HK.
  assert (U : unused N (a_perm a) = enum (fun c => negb (marked a K c)) N).
  { apply unused_marked. apply HA. intros k Hk. apply (ao_range p a HA); auto. }
  unfold times_action. rewrite U. split.
  - intros (H1 & H2) i k Hi Hk. unfold act_src. destruct (Nat.ltb_spec k K).
    + apply H1; auto.
    + replace k with (K + (k - K))%nat at 1 by lia. rewrite H2 by lia. rewrite Z.mul_1_l. reflexivity.
  - intros H. split.
    + intros i k Hi Hk. rewrite H by lia. unfold act_src. destruct (Nat.ltb_spec k K); [|lia]. reflexivity.
    + intros i k Hi Hk. rewrite H by lia. unfold act_src. destruct (Nat.ltb_spec (K + k) K); [lia|].
      replace (K + k - K)%nat with k by lia. rewrite Z.mul_1_l. reflexivity.
Qed.

(** *** Invariance of the normal form *)
Lemma normal_form_invariant M1 M2 R1 pv1 V1 V2 g e lam :
  normal_form K N M1 V1 -> normal_form K N M2 V2 ->
  same_code K N M1 R1 -> is_rref K N R1 pv1 ->
  bij N g -> (forall a, (a < N)%nat -> ~ e a == 0) ->
  same_code K N (fun i a => e a * M1 i (g a)) M2 ->
  ~ lam == 0 -> (forall a, (a < K)%nat -> g a = pv1 a /\ e a == lam) -> V1 = V2.
Proof.
  intros (R & pv & cs & A1 & A2 & A3 & A4 & A5 & A6 & A7) (R' & pv' & cs' & B1 & B2 & B3 & B4 & B5 & B6 & B7) S1 RR1 Bg He S2 Hl Ha.
  assert (SR : same_code K N R R1) by (eapply same_code_trans; [apply same_code_sym; exact A1|exact S1]).
  destruct (rref_unique K N R R1 pv pv1 SR A3 RR1) as [EP _].
  set (fl := piv_flags K N pv). set (fl' := piv_flags K N pv').
  assert (F : flags_of K N pv fl) by apply piv_flags_ok. assert (F' : flags_of K N pv' fl') by apply piv_flags_ok.
  assert (SC : forall U V0, same_code K N U V0 -> forall v, in_code K N (fun i a => e a * U i (g a)) v -> in_code K N (fun i a => e a * V0 i (g a)) v).
  { intros U V0 SUV v (a & Hv).
    destruct (proj1 (SUV (fun j => sumn K (fun i => a i * U i j)))) as (b & Hb). { exists a. reflexivity. }
    exists b. intros j Hj. rewrite Hv by auto.
    rewrite (sumn_ext K (fun i => a i * (e j * U i (g j))) (fun i => e j * (a i * U i (g j)))) by (intros; ring).
    rewrite (sumn_ext K (fun i => b i * (e j * V0 i (g j))) (fun i => e j * (b i * V0 i (g j)))) by (intros; ring).
    rewrite !sumn_scal. rewrite (Hb (g j)) by (apply Bg; auto). reflexivity. }
  assert (FRg : full_rank K N (fun i a => e a * R i (g a))).
  { intros a Hz i Hi.
    assert (Hp : exists c, (c < N)%nat /\ g c = pv i). { exists i. pose proof (wf_K p wf). split; [lia|]. rewrite EP by auto. apply Ha; auto. }
    destruct Hp as (c & Hc & Gc). specialize (Hz c Hc).
    rewrite (sumn_ext K _ (fun l => e c * (a l * R l (g c)))) in Hz by (intros; ring). rewrite sumn_scal in Hz.
    apply cong_mul0 in Hz; auto. rewrite Gc in Hz. rewrite (sumn_single K i) in Hz; auto.
    - destruct A3 as (_ & _ & P3 & _). rewrite P3, Nat.eqb_refl, Z.mul_1_r in Hz by auto. auto.
    - intros l Hl2 Hn. destruct A3 as (_ & _ & P3 & _). rewrite P3 by auto. destruct (Nat.eqb_spec l i); [lia|]. rewrite Z.mul_0_r. reflexivity. }
  assert (E2 : row_equiv K N (fun i a => e a * R i (g a)) R').
  { apply same_code_row_equiv; auto. { eapply rref_full_rank; eauto. }
    eapply same_code_trans; [|exact B1]. eapply same_code_trans; [|exact S2].
    intros v. split; apply SC; auto. apply same_code_sym; auto. }
  assert (PM : Permutation (map (ncol p R) (enum (is_np fl) N)) (map (ncol p R') (enum (is_np fl') N))).
  { apply (digest_same p wf R R pv fl R' R' pv' fl' g e lam); auto.
    - apply row_equiv_refl.
    - apply row_equiv_refl.
    - intros a Hna. destruct (Ha a Hna). rewrite EP by auto. auto. }
  assert (CS : forall Q q f, flags_of K N q f -> reduced K N Q -> forall c, Forall2 least_multiple (map (column K Q) (nonpivots K N q)) c ->
     c = map (ncol p Q) (enum (is_np f) N)).
  { intros Q q f HF HQ c Hc. eapply Forall2_least_unique; [exact Hc|]. rewrite (nonpivots_flags K N q f HF).
    assert (G : forall l, (forall c, In c l -> (c < N)%nat) -> Forall2 least_multiple (map (column K Q) l) (map (ncol p Q) l)).
    { induction l as [|x l IH]; intros H; cbn; constructor. { apply ncol_least; auto. apply H; left; auto. } apply IH. intros; apply H; right; auto. }
    apply G. intros x Hx. apply in_enum in Hx. apply Hx. }
  rewrite (CS R pv fl F A2 cs A4) in A6. rewrite (CS R' pv' fl' F' B2 cs' B4) in B6.
  assert (P : Permutation (columns K w (ent V1)) (columns K w (ent V2))).
  { eapply Permutation_trans; [apply Permutation_sym; exact A6|]. eapply Permutation_trans; [exact PM|exact B6]. }
  pose proof (sorted_perm_unique _ _ A7 B7 P) as E.
  apply (mat_ext _ _ K w); auto. intros i j Hi Hj.
  assert (EJ : nth j (columns K w (ent V1)) [] = nth j (columns K w (ent V2)) []) by congruence.
  rewrite !columns_nth in EJ by auto.
  apply (f_equal (fun l => nth i l 0)) in EJ. rewrite !column_nth in EJ by auto. auto.
Qed.

End P.
