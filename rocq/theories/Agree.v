(** Two computations with related results. *)
From Verif Require Import Base BaseLemmas.

Definition agree {A B} (R : A -> B -> Prop) (m : res A) (m' : res B) : Prop :=
  match m, m' with Ok a, Ok b => R a b | UB, UB => True | NoFuel, NoFuel => True | _, _ => False end.

Lemma agree_bind {A B C D} (R : A -> B -> Prop) (Q : C -> D -> Prop) m m' f f' :
  agree R m m' -> (forall a b, R a b -> agree Q (f a) (f' b)) -> agree Q (bind m f) (bind m' f').
Proof. intros H1 H2. destruct m, m'; cbn in *; try contradiction; auto. Qed.
Lemma agree_refl {A} (m : res A) : agree eq m m.
Proof. destruct m; cbn; auto. Qed.
Lemma agree_eq {A} (m m' : res A) : agree eq m m' <-> m = m'.
Proof. split; [|intros ->; apply agree_refl]. destruct m, m'; cbn; try contradiction; auto. intros ->. auto. Qed.
Lemma agree_bind_eq {A C D} (Q : C -> D -> Prop) (m : res A) f f' : (forall a, m = Ok a -> agree Q (f a) (f' a)) -> agree Q (bind m f) (bind m f').
Proof. intros H. destruct m; cbn; auto. Qed.
Lemma agree_for {A B} (I : nat -> A -> B -> Prop) n start f f' a b : I start a b ->
  (forall i a b, (start <= i < start + n)%nat -> I i a b -> agree (I (S i)) (f i a) (f' i b)) ->
  agree (I (start + n)%nat) (for_ n start f a) (for_ n start f' b).
Proof.
  revert start a b. induction n as [|n IH]; intros start a b H0 HS; cbn [for_].
  - rewrite Nat.add_0_r. exact H0.
  - eapply agree_bind. { apply HS; [lia|exact H0]. }
    intros a' b' H'. replace (start + S n)%nat with (S start + n)%nat by lia. apply IH; auto. intros i x y Hi. apply HS. lia.
Qed.
Lemma agree_mono {A B} (R Q : A -> B -> Prop) m m' : agree R m m' -> (forall a b, R a b -> Q a b) -> agree Q m m'.
Proof. intros H HQ. destruct m, m'; cbn in *; auto. Qed.

Lemma agree_bindl {A B C} (R : A -> B -> Prop) (Q : C -> B -> Prop) m m' f :
  agree R m m' -> (forall a b, R a b -> agree Q (f a) (Ok b)) -> agree Q (bind m f) m'.
Proof. intros H1 H2. destruct m, m'; cbn in *; try contradiction; auto. Qed.
Lemma agree_map {A B} (g : B -> res A) m m' : agree (fun a b => Ok a = g b) m m' -> m = bind m' g.
Proof. intros H. destruct m, m'; cbn in *; try contradiction; auto. Qed.
