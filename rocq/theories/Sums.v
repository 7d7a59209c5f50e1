(** Finite sums over Z, used modulo 127. *)
From Coq Require Import Permutation Setoid Morphisms.
From Verif Require Import Base BaseLemmas Fq FqProofs.

Lemma sumn_ext n f g : (forall i, (i < n)%nat -> f i = g i) -> sumn n f = sumn n g.
Proof. induction n; simpl; intros H; auto. rewrite IHn, H by auto. auto. Qed.

Lemma sumn_cong n f g : (forall i, (i < n)%nat -> f i == g i) -> sumn n f == sumn n g.
Proof.
  induction n; simpl; intros H; [reflexivity|]. rewrite IHn, H by auto. reflexivity.
Qed.

Lemma sumn_zero n f : (forall i, (i < n)%nat -> f i == 0) -> sumn n f == 0.
Proof.
  induction n; simpl; intros H; [reflexivity|]. rewrite IHn, H by auto. reflexivity.
Qed.

Lemma sumn_add n f g : sumn n (fun i => f i + g i) = sumn n f + sumn n g.
Proof. induction n; simpl; lia. Qed.

Lemma sumn_sub n f g : sumn n (fun i => f i - g i) = sumn n f - sumn n g.
Proof. induction n; simpl; lia. Qed.

Lemma sumn_scal n c f : sumn n (fun i => c * f i) = c * sumn n f.
Proof. induction n; simpl; lia. Qed.

Lemma sumn_scal_r n c f : sumn n (fun i => f i * c) = sumn n f * c.
Proof. induction n; simpl; lia. Qed.

Lemma sumn_const0 n : sumn n (fun _ => 0) = 0.
Proof. induction n; simpl; lia. Qed.

Lemma sumn_swap n m (f : nat -> nat -> Z) :
  sumn n (fun i => sumn m (fun j => f i j)) = sumn m (fun j => sumn n (fun i => f i j)).
Proof.
  induction n; simpl. { rewrite sumn_const0. auto. }
  rewrite IHn. rewrite <- sumn_add. reflexivity.
Qed.

(** Sum with a single (possibly) non-zero term. *)
Lemma sumn_single n k f : (k < n)%nat -> (forall i, (i < n)%nat -> i <> k -> f i == 0) ->
  sumn n f == f k.
Proof.
  induction n; simpl; intros Hk H; [lia|].
  destruct (Nat.eq_dec k n) as [->|].
  - rewrite sumn_zero. { reflexivity. } intros i Hi. apply H; lia.
  - rewrite IHn by (auto; lia). rewrite (H n) by lia. rewrite Z.add_0_r. reflexivity.
Qed.

Lemma sumn_delta n k f : (k < n)%nat -> sumn n (fun i => if Nat.eqb i k then f i else 0) = f k.
Proof.
  induction n; simpl; intros Hk; [lia|].
  destruct (Nat.eqb_spec n k) as [->|].
  - assert (E : sumn k (fun i => if Nat.eqb i k then f i else 0) = 0).
    { clear. transitivity (sumn k (fun _ => 0)); [|apply sumn_const0].
      apply sumn_ext. intros i Hi. destruct (Nat.eqb_spec i k); auto; lia. }
    lia.
  - rewrite IHn by lia. lia.
Qed.

(** Sums over lists, invariant under permutation. *)
Definition sum_list (l : list Z) : Z := fold_right Z.add 0 l.

Lemma sum_list_app l l' : sum_list (l ++ l') = sum_list l + sum_list l'.
Proof. induction l; simpl; lia. Qed.

Lemma sum_list_perm l l' : Permutation l l' -> sum_list l = sum_list l'.
Proof. induction 1; simpl; lia. Qed.

Lemma sumn_list n f : sumn n f = sum_list (map f (seq 0 n)).
Proof.
  induction n; auto. cbn [sumn]. rewrite IHn. rewrite seq_S. rewrite map_app, sum_list_app. simpl. lia.
Qed.

Lemma bij_perm n g : bij n g -> Permutation (map g (seq 0 n)) (seq 0 n).
Proof.
  intros [H1 H2]. apply NoDup_Permutation_bis.
  -
    assert (E : forall l, NoDup l -> (forall x, In x l -> (x < n)%nat) -> NoDup (map g l)).
    { induction l as [|a l IH]; simpl; intros ND Hb; constructor.
      - intros Hin. apply in_map_iff in Hin. destruct Hin as (b & Eb & Hb').
        assert (a = b) by (apply H2; auto; symmetry; auto). subst. inversion ND; auto.
      - apply IH; auto. inversion ND; auto. }
    apply E. apply seq_NoDup. intros x Hx. apply in_seq in Hx. lia.
  - rewrite map_length. auto.
  - intros x Hx. apply in_map_iff in Hx. destruct Hx as (y & <- & Hy).
    apply in_seq in Hy. apply in_seq. specialize (H1 y). lia.
Qed.

Lemma bij_surj n g : bij n g -> forall j, (j < n)%nat -> exists i, (i < n)%nat /\ g i = j.
Proof.
  intros Hb j Hj. assert (I : In j (map g (seq 0 n))).
  { eapply Permutation_in. apply Permutation_sym. apply bij_perm; auto. apply in_seq. lia. }
  apply in_map_iff in I. destruct I as (i & <- & Hi). apply in_seq in Hi. exists i. split; auto; lia.
Qed.

Lemma sumn_reindex n g f : bij n g -> sumn n (fun i => f (g i)) = sumn n f.
Proof.
  intros H. rewrite !sumn_list. rewrite <- (map_map g f).
  apply sum_list_perm. apply Permutation_map. apply bij_perm. auto.
Qed.

(** Inverse of a bijection. *)
Fixpoint find_idx (n : nat) (g : nat -> nat) (j : nat) : nat :=
  match n with O => 0 | S n' => if Nat.eqb (g n') j then n' else find_idx n' g j end.

Lemma find_idx_spec n g j : (exists i, (i < n)%nat /\ g i = j) ->
  (find_idx n g j < n)%nat /\ g (find_idx n g j) = j.
Proof.
  induction n; intros (i & Hi & E); simpl; [lia|].
  destruct (Nat.eqb_spec (g n) j). { split; auto. }
  destruct IHn as [A B]. { exists i. split; auto. destruct (Nat.eq_dec i n); subst; auto; lia. }
  split; auto.
Qed.

Lemma bij_inv n g : bij n g -> exists h, bij n h /\
  (forall i, (i < n)%nat -> h (g i) = i) /\ (forall j, (j < n)%nat -> g (h j) = j).
Proof.
  intros H. exists (find_idx n g).
  assert (S : forall j, (j < n)%nat -> (find_idx n g j < n)%nat /\ g (find_idx n g j) = j).
  { intros j Hj. apply find_idx_spec. apply bij_surj; auto. }
  destruct H as [H1 H2].
  split; [split|split].
  - intros j Hj. apply S; auto.
  - intros i j Hi Hj E. rewrite <- (proj2 (S i Hi)), E. apply S; auto.
  - intros i Hi. apply H2; auto. apply S; auto. apply S; auto.
  - intros j Hj. apply S; auto.
Qed.
