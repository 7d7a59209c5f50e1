(** Enumerating the indices below [n] that satisfy a test. *)
From Coq Require Import Permutation Sorted.
From Verif Require Import Base BaseLemmas Sums.
From Verif Require Import Spec.

Definition enum (f : nat -> bool) (n : nat) : list nat := filter f (seq 0 n).
Definition cnt (f : nat -> bool) (n : nat) : nat := length (enum f n).

Lemma enum_S f n : enum f (S n) = enum f n ++ (if f n then [n] else []).
Proof. unfold enum. rewrite seq_S, filter_app. simpl. auto. Qed.

Lemma cnt_0 f : cnt f 0 = O.
Proof. reflexivity. Qed.

Lemma cnt_S f n : cnt f (S n) = (cnt f n + (if f n then 1 else 0))%nat.
Proof. unfold cnt. rewrite enum_S, app_length. destruct (f n); auto. Qed.

Lemma cnt_mono f a b : (a <= b)%nat -> (cnt f a <= cnt f b)%nat.
Proof. induction 1; auto. rewrite cnt_S. lia. Qed.

Lemma cnt_lt f c n : (c < n)%nat -> f c = true -> (cnt f c < cnt f n)%nat.
Proof. intros H E. pose proof (cnt_mono f (S c) n H). rewrite cnt_S, E in H0. lia. Qed.

Lemma cnt_le f n : (cnt f n <= n)%nat.
Proof. induction n; auto. rewrite cnt_S. destruct (f n); lia. Qed.

Lemma cnt_compl f n : (cnt f n + cnt (fun c => negb (f c)) n = n)%nat.
Proof. induction n; auto. rewrite !cnt_S. destruct (f n); simpl; lia. Qed.

Lemma cnt_ext f g n : (forall c, (c < n)%nat -> f c = g c) -> cnt f n = cnt g n.
Proof. induction n; auto. intros H. rewrite !cnt_S, IHn, H by auto. auto. Qed.

Lemma enum_ext f g n : (forall c, (c < n)%nat -> f c = g c) -> enum f n = enum g n.
Proof. induction n; auto. intros H. rewrite !enum_S, IHn, H by auto. auto. Qed.

Lemma cnt_inj f a b : f a = true -> f b = true -> cnt f a = cnt f b -> a = b.
Proof.
  intros Ha Hb E. destruct (Nat.lt_trichotomy a b) as [L|[L|L]]; auto.
  - pose proof (cnt_lt f a b L Ha). lia.
  - pose proof (cnt_lt f b a L Hb). lia.
Qed.

Lemma in_enum f n c : In c (enum f n) <-> (c < n)%nat /\ f c = true.
Proof.
  unfold enum. rewrite filter_In, in_seq. split; intros [H1 H2]; split; auto; lia.
Qed.

Lemma nth_enum_cnt f n c d : (c < n)%nat -> f c = true -> nth (cnt f c) (enum f n) d = c.
Proof.
  induction n; intros H E; [lia|]. rewrite enum_S.
  destruct (Nat.eq_dec c n) as [->|].
  - rewrite E. rewrite app_nth2; fold (cnt f n); [|lia]. rewrite Nat.sub_diag. auto.
  - rewrite app_nth1. { apply IHn; auto; lia. } fold (cnt f n). apply cnt_lt; auto; lia.
Qed.

Lemma cnt_nth_enum f n j d : (j < cnt f n)%nat ->
  (nth j (enum f n) d < n)%nat /\ f (nth j (enum f n) d) = true /\ cnt f (nth j (enum f n) d) = j.
Proof.
  induction n; intros H. { rewrite cnt_0 in H. lia. }
  rewrite cnt_S in H. rewrite enum_S.
  destruct (Nat.lt_ge_cases j (cnt f n)).
  - rewrite app_nth1 by auto. destruct (IHn H0) as (A & B & C). auto.
  - destruct (f n) eqn:E; [|lia]. rewrite app_nth2; fold (cnt f n); [|lia].
    replace (j - cnt f n)%nat with O by lia. simpl. split; auto. split; auto. lia.
Qed.

Lemma NoDup_enum f n : NoDup (enum f n).
Proof. apply NoDup_filter. apply seq_NoDup. Qed.

(** If [pv] is increasing and hits exactly the indices satisfying [f], it enumerates them. *)
Lemma cnt_incr f n k pv :
  (forall i, (i < k)%nat -> (pv i < n)%nat) ->
  (forall i j, (i < j)%nat -> (j < k)%nat -> (pv i < pv j)%nat) ->
  (forall c, (c < n)%nat -> f c = true <-> exists i, (i < k)%nat /\ pv i = c) ->
  cnt f n = k /\ forall i, (i < k)%nat -> cnt f (pv i) = i.
Proof.
  intros Hb Hi Hf.
  assert (ND : forall a b, (a < k)%nat -> (b < k)%nat -> pv a = pv b -> a = b).
  { intros a b Ha Hb' E. destruct (Nat.lt_trichotomy a b) as [L|[L|L]]; auto.
    - specialize (Hi a b). lia.
    - specialize (Hi b a). lia. }
  assert (P : Permutation (enum f n) (map pv (seq 0 k))).
  { apply NoDup_Permutation.
    - apply NoDup_enum.
    - assert (G : forall l, NoDup l -> (forall x, In x l -> (x < k)%nat) -> NoDup (map pv l)).
      { induction l as [|a l IH]; simpl; intros N H; constructor.
        - intros I. apply in_map_iff in I. destruct I as (b & E & I).
          assert (b = a) by (apply ND; auto). subst. inversion N; auto.
        - apply IH; auto. inversion N; auto. }
      apply G. apply seq_NoDup. intros x Hx. apply in_seq in Hx. lia.
    - intros c. rewrite in_enum, in_map_iff. split.
      + intros [Hc E]. apply Hf in E; auto. destruct E as (i & Hi' & E). exists i. split; auto. apply in_seq. lia.
      + intros (i & <- & Hi'). apply in_seq in Hi'. split. { apply Hb. lia. }
        apply Hf. { apply Hb. lia. } exists i. split; auto; lia. }
  split. { unfold cnt. rewrite (Permutation_length P), map_length, seq_length. auto. }
  (* number of hits below pv i *)
  intros i Hik. unfold cnt.
  assert (Q : Permutation (enum f (pv i)) (map pv (seq 0 i))).
  { apply NoDup_Permutation.
    - apply NoDup_enum.
    - assert (G : forall l, NoDup l -> (forall x, In x l -> (x < k)%nat) -> NoDup (map pv l)).
      { induction l as [|a l IH]; simpl; intros N H; constructor.
        - intros I. apply in_map_iff in I. destruct I as (b & E & I).
          assert (b = a) by (apply ND; auto). subst. inversion N; auto.
        - apply IH; auto. inversion N; auto. }
      apply G. apply seq_NoDup. intros x Hx. apply in_seq in Hx. lia.
    - intros c. rewrite in_enum, in_map_iff. split.
      + intros [Hc E]. apply Hf in E; [|specialize (Hb i Hik); lia]. destruct E as (j & Hj & E). exists j.
        split; auto. apply in_seq. destruct (Nat.lt_trichotomy i j) as [L|[L|L]]; subst; try lia.
        specialize (Hi i j). lia.
      + intros (j & <- & Hj). apply in_seq in Hj. split. { apply Hi; lia. }
        apply Hf. { apply Hb. lia. } exists j. split; auto; lia. }
  rewrite (Permutation_length Q), map_length, seq_length. auto.
Qed.

(** Pivot and non-pivot columns marked by a flag array. *)
Definition is_np (fl : list Z) (c : nat) : bool := nth c fl 0 =? 0.
Definition is_pv (fl : list Z) (c : nat) : bool := negb (nth c fl 0 =? 0).

Lemma flags_np K N pv fl c : flags_of K N pv fl -> (c < N)%nat ->
  (is_np fl c = true <-> forall i, (i < K)%nat -> pv i <> c).
Proof.
  intros (H1 & H2) Hc. destruct (H2 c Hc) as [A B]. unfold is_np. rewrite Z.eqb_eq. split.
  - intros E i Hi Ei. rewrite A in E. discriminate. eauto.
  - auto.
Qed.

Lemma flags_pv K N pv fl c : flags_of K N pv fl -> (c < N)%nat ->
  (is_pv fl c = true <-> exists i, (i < K)%nat /\ pv i = c).
Proof.
  intros (H1 & H2) Hc. destruct (H2 c Hc) as [A B]. unfold is_pv. rewrite negb_true_iff, Z.eqb_neq. split.
  - intros E.
    assert (D : forall k, (exists i, (i < k)%nat /\ pv i = c) \/ (forall i, (i < k)%nat -> pv i <> c)).
    { induction k. { right. intros; lia. }
      destruct IHk as [(i & Hi & Ei)|H]. { left. exists i. split; auto. }
      destruct (Nat.eq_dec (pv k) c). { left. exists k. auto. }
      right. intros i Hi. destruct (Nat.eq_dec i k); subst; auto. apply H. lia. }
    destruct (D K); auto. exfalso. auto.
  - intros E. rewrite A by auto. discriminate.
Qed.

Lemma flags_cnt_pv K N M pv fl : is_rref K N M pv -> flags_of K N pv fl ->
  cnt (is_pv fl) N = K /\ forall i, (i < K)%nat -> cnt (is_pv fl) (pv i) = i.
Proof.
  intros (R1 & R2 & _ & _) F. apply cnt_incr; auto. intros c Hc. eapply flags_pv; eauto.
Qed.

Lemma is_np_pv fl c : is_np fl c = negb (is_pv fl c).
Proof. unfold is_np, is_pv. rewrite negb_involutive. auto. Qed.

Lemma flags_cnt_np K N M pv fl : is_rref K N M pv -> flags_of K N pv fl ->
  cnt (is_np fl) N = (N - K)%nat.
Proof.
  intros R F. destruct (flags_cnt_pv K N M pv fl R F) as [E _].
  pose proof (cnt_compl (is_pv fl) N). rewrite (cnt_ext (is_np fl) (fun c => negb (is_pv fl c))).
  lia. intros; apply is_np_pv.
Qed.
