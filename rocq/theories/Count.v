(** Counting: numbers of elements with a property. *)
From Coq Require Import Permutation.
From Verif Require Import Base BaseLemmas.

(** Exactly [m] elements have the property [P]. *)
Definition number {A} (P : A -> Prop) (m : Z) : Prop :=
  exists L, NoDup L /\ (forall x, In x L <-> P x) /\ Z.of_nat (length L) = m.

Lemma number_unique {A} (P : A -> Prop) a b : number P a -> number P b -> a = b.
Proof.
  intros (L & N1 & I1 & <-) (M & N2 & I2 & <-). f_equal. apply Permutation_length. apply NoDup_Permutation; auto.
  intros x. rewrite I1, I2. reflexivity.
Qed.

Lemma number_ext {A} (P Q : A -> Prop) a : (forall x, P x <-> Q x) -> number P a -> number Q a.
Proof. intros H (L & N1 & I1 & E). exists L. split; auto. split; auto. intros x. rewrite I1. apply H. Qed.

Lemma number_le {A} (P Q : A -> Prop) a b : (forall x, P x -> Q x) -> number P a -> number Q b -> a <= b.
Proof.
  intros H (L & N1 & I1 & <-) (M & N2 & I2 & <-). apply Nat2Z.inj_le. apply NoDup_incl_length; auto.
  intros x Hx. apply I2, H, I1. auto.
Qed.

Lemma number_nonneg {A} (P : A -> Prop) a : number P a -> 0 <= a.
Proof. intros (L & _ & _ & <-). lia. Qed.

Lemma number_none {A} (P : A -> Prop) : (forall x, ~ P x) -> number P 0.
Proof. intros H. exists []. split; [constructor|]. split; [|reflexivity]. intros x. split; [intros []|intros C; apply (H x C)]. Qed.

Lemma number_one {A} (P : A -> Prop) a : (forall x, P x <-> x = a) -> number P 1.
Proof.
  intros H. exists [a]. split; [repeat constructor; intros []|]. split; [|reflexivity]. intros x. rewrite H. cbn [In].
  split; [intros [->|[]]; auto|intros ->; auto].
Qed.

Lemma number_or {A} (P Q : A -> Prop) a b : number P a -> number Q b -> (forall x, P x -> Q x -> False) -> number (fun x => P x \/ Q x) (a + b).
Proof.
  intros (L & N1 & I1 & <-) (M & N2 & I2 & <-) D. exists (L ++ M). split; [|split].
  - assert (DL : forall x, In x L -> In x M -> False) by (intros x H1 H2; apply (D x); [apply I1|apply I2]; auto).
    clear - N1 N2 DL. induction N1 as [|x L Hx _ IH]; auto. cbn [app]. constructor.
    + intros H. apply in_app_or in H. destruct H as [H|H]; [auto|]. apply (DL x); [left|]; auto.
    + apply IH. intros y H1 H2. apply (DL y); [right|]; auto.
  - intros x. rewrite in_app_iff, I1, I2. reflexivity.
  - rewrite app_length. lia.
Qed.

Lemma number_minus {A} (P Q : A -> Prop) a b : (forall x, Q x \/ ~ Q x) -> number P a -> number (fun x => P x /\ Q x) b -> number (fun x => P x /\ ~ Q x) (a - b).
Proof.
  intros DQ (L & N1 & I1 & E1) HQ.
  assert (R : exists M, NoDup M /\ forall x, In x M <-> In x L /\ ~ Q x).
  { clear - N1 DQ. induction N1 as [|x L Hx _ (M & N2 & I2)]. { exists []. split; [constructor|]. cbn. tauto. }
    destruct (DQ x) as [H|H].
    - exists M. split; auto. intros y. rewrite I2. cbn [In]. split; [tauto|]. intros [[->|H1] H2]; tauto.
    - exists (x :: M). split. { constructor; auto. rewrite I2. tauto. }
      intros y. cbn [In]. rewrite I2. split; [intros [->|[H1 H2]]; tauto|tauto]. }
  destruct R as (M & N2 & I2).
  assert (HM : number (fun x => P x /\ ~ Q x) (Z.of_nat (length M))).
  { exists M. split; auto. split; auto. intros x. rewrite I2, I1. reflexivity. }
  assert (HS : number P (b + Z.of_nat (length M))).
  { eapply number_ext; [|apply (number_or _ _ _ _ HQ HM)]; cbn; [|tauto]. intros x. destruct (DQ x); tauto. }
  assert (HP : number P a) by (exists L; auto).
  rewrite (number_unique _ _ _ HP HS). replace (b + Z.of_nat (length M) - b) with (Z.of_nat (length M)) by lia. exact HM.
Qed.

Lemma number_pairs {A B C} (P : A -> Prop) (Q : A -> B -> Prop) (f : A -> B -> C) a b :
  number P a -> (forall x, P x -> number (Q x) b) ->
  (forall x y x' y', P x -> Q x y -> P x' -> Q x' y' -> f x y = f x' y' -> x = x' /\ y = y') ->
  number (fun z => exists x y, P x /\ Q x y /\ z = f x y) (a * b).
Proof.
  intros (L & N1 & I1 & <-) HQ HI.
  assert (G : forall L, NoDup L -> (forall x, In x L -> P x) -> number (fun z => exists x y, In x L /\ Q x y /\ z = f x y) (Z.of_nat (length L) * b)).
  { clear L N1 I1. induction L as [|x L IH]; intros N1 HL.
    - apply number_none. intros z (x & y & [] & _).
    - inversion N1 as [|? ? Hx N2]; subst. pose proof (HL x (or_introl eq_refl)) as Px.
      assert (H1 : number (fun z => exists y, Q x y /\ z = f x y) b).
      { destruct (HQ x Px) as (M & M1 & M2 & M3). exists (map (f x) M). split; [|split].
        - clear M3. assert (MQ : forall y, In y M -> Q x y) by (intros; apply M2; auto). clear M2.
          induction M1 as [|y M Hy _ IHM]; [constructor|]. cbn [map]. constructor.
          + intros H. apply in_map_iff in H. destruct H as (y' & E & H').
            destruct (HI x y' x y) as [_ ->]; auto; [apply MQ; right; auto|apply MQ; left; auto].
          + apply IHM. intros. apply MQ. right. auto.
        - intros z. rewrite in_map_iff. split.
          + intros (y & <- & Hy). exists y. split; auto. apply M2. auto.
          + intros (y & Hy & ->). exists y. split; auto. apply M2. auto.
        - rewrite map_length. auto. }
      assert (H2 : number (fun z => exists x y, In x L /\ Q x y /\ z = f x y) (Z.of_nat (length L) * b)).
      { apply IH; auto. intros y Hy. apply HL. right. auto. }
      replace (Z.of_nat (length (x :: L)) * b) with (b + Z.of_nat (length L) * b) by (cbn [length]; lia).
      eapply number_ext; [|apply (number_or _ _ _ _ H1 H2)].
      + intros z. cbn. split.
        * intros [(y & Hy & E)|(x' & y & H3 & H4 & E)]; [exists x, y; auto|exists x', y; auto].
        * intros (x' & y & [->|H3] & H4 & E); [left|right]; eauto.
      + cbn. intros z (y & Hy & E) (x' & y' & H3 & H4 & E'). subst z. destruct (HI x y x' y') as [-> _]; auto. apply HL. right. auto. }
  eapply number_ext; [|apply (G L N1); intros; apply I1; auto]. intros z. cbn. split; intros (x & y & H1 & H2 & E); exists x, y; (split; [apply I1; auto|auto]).
Qed.

Lemma number_image {A B} (P : A -> Prop) (f : A -> B) a : number P a -> (forall x y, P x -> P y -> f x = f y -> x = y) ->
  number (fun z => exists x, P x /\ z = f x) a.
Proof.
  intros HP HI. replace a with (a * 1) by lia.
  eapply number_ext; [|apply (number_pairs P (fun _ (y : unit) => y = tt) (fun x _ => f x) a 1 HP)].
  - cbn. intros z. split; [intros (x & y & H1 & H2 & E); eauto|intros (x & H1 & E); exists x, tt; auto].
  - intros x _. apply (number_one _ tt). tauto.
  - intros x [] x' [] H1 _ H2 _ E. auto.
Qed.

Lemma number_range lo hi : lo <= hi -> number (fun z => lo <= z < hi) (hi - lo).
Proof.
  intros H. exists (map (fun i => lo + Z.of_nat i) (seq 0 (Z.to_nat (hi - lo)))). split; [|split].
  - apply FinFun.Injective_map_NoDup; [intros i j; lia|apply seq_NoDup].
  - intros z. rewrite in_map_iff. split.
    + intros (i & <- & Hi). apply in_seq in Hi. lia.
    + intros Hz. exists (Z.to_nat (z - lo)). split; [lia|]. apply in_seq. lia.
  - rewrite map_length, seq_length. lia.
Qed.

(** Disjoint classes numbered below [n]. *)
Fixpoint total (n : nat) (f : nat -> Z) : Z := match n with O => 0 | S n' => total n' f + f n' end.

Lemma number_classes {A} (P : nat -> A -> Prop) (f : nat -> Z) n : (forall j, (j < n)%nat -> number (P j) (f j)) ->
  (forall i j x, P i x -> P j x -> i = j) -> number (fun x => exists j, (j < n)%nat /\ P j x) (total n f).
Proof.
  intros H D. induction n as [|n IH]; cbn [total].
  - apply number_none. intros x (j & Hj & _). lia.
  - eapply number_ext; [|apply (number_or _ _ _ _ (IH ltac:(intros; apply H; lia)) (H n ltac:(lia)))].
    + cbn. intros x. split.
      * intros [(j & Hj & HP)|HP]; [exists j|exists n]; auto.
      * intros (j & Hj & HP). destruct (Nat.eq_dec j n) as [->|]; [auto|]. left. exists j. split; auto; lia.
    + cbn. intros x (j & Hj & H1) H2. pose proof (D j n x H1 H2). lia.
Qed.

Lemma total_ext n f g : (forall i, (i < n)%nat -> f i = g i) -> total n f = total n g.
Proof. induction n; cbn [total]; intros H; auto. rewrite IHn, H by (try (intros; apply H); lia). auto. Qed.
Lemma total_le n f g : (forall i, (i < n)%nat -> f i <= g i) -> total n f <= total n g.
Proof. induction n; cbn [total]; intros H; [lia|]. specialize (H n ltac:(lia)) as H1. specialize (IHn ltac:(intros; apply H; lia)). lia. Qed.
Lemma total_scale n f c : total n (fun i => f i * c) = total n f * c.
Proof. induction n; cbn [total]; [lia|]. rewrite IHn. lia. Qed.
Lemma total_add n f g : total n (fun i => f i + g i) = total n f + total n g.
Proof. induction n; cbn [total]; [lia|]. rewrite IHn. lia. Qed.
Lemma total_const n c : total n (fun _ => c) = Z.of_nat n * c.
Proof. induction n; cbn [total]; [lia|]. rewrite IHn. lia. Qed.
