(** Reasoning principles for the error monad. *)
From Verif Require Import Base.

Global Arguments Z.mul : simpl never.
Global Arguments Z.add : simpl never.
Global Arguments Z.sub : simpl never.
Global Arguments Z.opp : simpl never.
Global Arguments Z.modulo : simpl never.
Global Arguments Z.div : simpl never.
Global Arguments Z.pow : simpl never.
Global Arguments Z.land : simpl never.
Global Arguments Z.lor : simpl never.
Global Arguments Z.lxor : simpl never.
Global Arguments Z.shiftl : simpl never.
Global Arguments Z.shiftr : simpl never.
Global Arguments Z.of_nat : simpl never.
Global Arguments Z.to_nat : simpl never.
Global Arguments u8 : simpl never.
Global Arguments u16 : simpl never.
Global Arguments u32 : simpl never.
Global Arguments u64 : simpl never.
Global Arguments Nat.div : simpl never.
Global Arguments Nat.modulo : simpl never.
Global Arguments Nat.pow : simpl never.

(** Total correctness: the computation succeeds and its result satisfies [P]. *)
Definition okp {A} (m : res A) (P : A -> Prop) : Prop := exists a, m = Ok a /\ P a.

(** Partial correctness: no [UB]; if it succeeds the result satisfies [P];
    it may run out of fuel. *)
Definition wp {A} (m : res A) (P : A -> Prop) : Prop :=
  match m with Ok a => P a | UB => False | NoFuel => True end.

Lemma okp_ok {A} (a : A) (P : A -> Prop) : P a -> okp (Ok a) P.
Proof. intros H; exists a; auto. Qed.

Lemma okp_bind {A B} (m : res A) (f : A -> res B) (Q : A -> Prop) (P : B -> Prop) :
  okp m Q -> (forall a, Q a -> okp (f a) P) -> okp (bind m f) P.
Proof. intros (a & -> & Ha) H. simpl. auto. Qed.

Lemma okp_mono {A} (m : res A) (P Q : A -> Prop) :
  okp m P -> (forall a, P a -> Q a) -> okp m Q.
Proof. intros (a & E & Ha) H. exists a; auto. Qed.

Lemma okp_eq {A} (m : res A) (a : A) (P : A -> Prop) : okp m P -> m = Ok a -> P a.
Proof. intros (b & -> & Hb) E. congruence. Qed.

Lemma okp_and {A} (m : res A) (P Q : A -> Prop) :
  okp m P -> okp m Q -> okp m (fun a => P a /\ Q a).
Proof. intros (a & E & Ha) (b & E2 & Hb). exists a. split; auto. split; auto. congruence. Qed.

Lemma okp_wp {A} (m : res A) (P : A -> Prop) : okp m P -> wp m P.
Proof. intros (a & -> & H). exact H. Qed.

Lemma wp_bind {A B} (m : res A) (f : A -> res B) (Q : A -> Prop) (P : B -> Prop) :
  wp m Q -> (forall a, Q a -> wp (f a) P) -> wp (bind m f) P.
Proof. destruct m; simpl; auto. Qed.

Lemma wp_mono {A} (m : res A) (P Q : A -> Prop) :
  wp m P -> (forall a, P a -> Q a) -> wp m Q.
Proof. destruct m; simpl; auto. Qed.

Lemma wp_eq {A} (m : res A) (a : A) (P : A -> Prop) : wp m P -> m = Ok a -> P a.
Proof. intros H E. subst. exact H. Qed.

Lemma wp_noub {A} (m : res A) (P : A -> Prop) : wp m P -> m <> UB.
Proof. destruct m; simpl; congruence. Qed.

Lemma wp_intro {A} (m : res A) (P : A -> Prop) :
  m <> UB -> (forall a, m = Ok a -> P a) -> wp m P.
Proof. destruct m; simpl; auto. Qed.

Lemma wp_keep {A} (m : res A) (P : A -> Prop) :
  wp m P -> wp m (fun a => m = Ok a /\ P a).
Proof. destruct m; simpl; auto. Qed.

Lemma okp_keep {A} (m : res A) (P : A -> Prop) :
  okp m P -> okp m (fun a => m = Ok a /\ P a).
Proof. intros (a & -> & H). exists a; auto. Qed.

Lemma bind_ok {A B} (m : res A) (f : A -> res B) (b : B) :
  bind m f = Ok b -> exists a, m = Ok a /\ f a = Ok b.
Proof. destruct m; simpl; try discriminate. eauto. Qed.

Lemma bind_assoc {A B C} (m : res A) (f : A -> res B) (g : B -> res C) :
  bind (bind m f) g = bind m (fun a => bind (f a) g).
Proof. destruct m; reflexivity. Qed.

(** *** Loops *)
Lemma okp_for {S} (I : nat -> S -> Prop) n start (body : nat -> S -> res S) s :
  I start s ->
  (forall i s, (start <= i < start + n)%nat -> I i s -> okp (body i s) (I (Datatypes.S i))) ->
  okp (for_ n start body s) (I (start + n)%nat).
Proof.
  revert start s. induction n as [|n IH]; intros start s H0 Hs; simpl.
  - apply okp_ok. replace (start + 0)%nat with start by lia. auto.
  - eapply okp_bind. { apply Hs; [lia|exact H0]. }
    intros s' H'. replace (start + Datatypes.S n)%nat with (Datatypes.S start + n)%nat by lia.
    apply IH; auto. intros i s2 Hi. apply Hs. lia.
Qed.

Lemma wp_for {S} (I : nat -> S -> Prop) n start (body : nat -> S -> res S) s :
  I start s ->
  (forall i s, (start <= i < start + n)%nat -> I i s -> wp (body i s) (I (Datatypes.S i))) ->
  wp (for_ n start body s) (I (start + n)%nat).
Proof.
  revert start s. induction n as [|n IH]; intros start s H0 Hs; simpl.
  - replace (start + 0)%nat with start by lia. auto.
  - eapply wp_bind. { apply Hs; [lia|exact H0]. }
    intros s' H'. replace (start + Datatypes.S n)%nat with (Datatypes.S start + n)%nat by lia.
    apply IH; auto. intros i s2 Hi. apply Hs. lia.
Qed.

(** What a successful run of a loop says. *)
Lemma for_ok_inv {S} (I : nat -> S -> Prop) n start (body : nat -> S -> res S) s s' :
  for_ n start body s = Ok s' ->
  I start s ->
  (forall i s s', (start <= i < start + n)%nat -> I i s -> body i s = Ok s' -> I (Datatypes.S i) s') ->
  I (start + n)%nat s'.
Proof.
  revert start s. induction n as [|n IH]; intros start s H H0 Hs; simpl in H.
  - injection H as <-. replace (start + 0)%nat with start by lia. auto.
  - apply bind_ok in H. destruct H as (s1 & H1 & H2).
    replace (start + Datatypes.S n)%nat with (Datatypes.S start + n)%nat by lia.
    eapply IH; eauto. { eapply Hs; eauto. lia. }
    intros i a b Hi. apply Hs. lia.
Qed.

Lemma for_ext {S} n start (f g : nat -> S -> res S) s :
  (forall i s, (start <= i < start + n)%nat -> f i s = g i s) ->
  for_ n start f s = for_ n start g s.
Proof.
  revert start s. induction n as [|n IH]; intros start s H; simpl; auto.
  rewrite H by lia. destruct (g start s); simpl; auto. apply IH. intros; apply H; lia.
Qed.

Lemma for_plus {S} n m start (f : nat -> S -> res S) s :
  for_ (n + m) start f s = (s' <- for_ n start f s ;; for_ m (start + n) f s').
Proof.
  revert start s. induction n as [|n IH]; intros start s; simpl.
  - replace (start + 0)%nat with start by lia. reflexivity.
  - rewrite bind_assoc. destruct (f start s); simpl; auto. rewrite IH.
    replace (Datatypes.S start + n)%nat with (start + Datatypes.S n)%nat by lia. reflexivity.
Qed.

(** *** Lists *)
Lemma upd_length {A} (l : list A) i x : length (upd l i x) = length l.
Proof. revert i; induction l; destruct i; simpl; auto. Qed.

Lemma nth_upd {A} (l : list A) i j x d :
  (i < length l)%nat -> nth j (upd l i x) d = if Nat.eqb i j then x else nth j l d.
Proof.
  revert i j; induction l as [|h t IH]; intros i j Hi; simpl in *; [lia|].
  destruct i, j; simpl; auto. apply IH. lia.
Qed.

Lemma nth_upd_same {A} (l : list A) i x d : (i < length l)%nat -> nth i (upd l i x) d = x.
Proof. intros. rewrite nth_upd by auto. rewrite Nat.eqb_refl. auto. Qed.

Lemma nth_upd_other {A} (l : list A) i j x d : i <> j -> nth j (upd l i x) d = nth j l d.
Proof.
  revert i j; induction l as [|h t IH]; intros i j Hij; simpl; auto.
  destruct i, j; simpl; auto; try congruence.
Qed.

Lemma get_ok {A} (l : list A) i d : (i < length l)%nat -> get l i = Ok (nth i l d).
Proof.
  intros H. unfold get. destruct (nth_error l i) eqn:E.
  - f_equal. symmetry. apply nth_error_nth. auto.
  - apply nth_error_None in E. lia.
Qed.

Lemma get_inv {A} (l : list A) i x : get l i = Ok x -> (i < length l)%nat /\ forall d, nth i l d = x.
Proof.
  unfold get. destruct (nth_error l i) eqn:E; try discriminate.
  intros H; injection H as <-. split. { apply nth_error_Some. congruence. }
  intros. apply nth_error_nth. auto.
Qed.

Lemma get_ub {A} (l : list A) i : (length l <= i)%nat -> get l i = UB.
Proof. intros H. unfold get. apply nth_error_None in H. rewrite H. auto. Qed.

Lemma set_ok {A} (l : list A) i x : (i < length l)%nat -> set l i x = Ok (upd l i x).
Proof. intros H. unfold set. destruct (Nat.ltb_spec i (length l)); auto; lia. Qed.

Lemma set_inv {A} (l : list A) i x l' : set l i x = Ok l' -> (i < length l)%nat /\ l' = upd l i x.
Proof. unfold set. destruct (Nat.ltb_spec i (length l)); intros H'; [|discriminate]. injection H' as <-. auto. Qed.

Lemma set_ub {A} (l : list A) i (x : A) : (length l <= i)%nat -> set l i x = UB.
Proof. intros H. unfold set. destruct (Nat.ltb_spec i (length l)); auto; lia. Qed.

Lemma shape_row m r c i : shape r c m -> (i < r)%nat -> length (nth i m []) = c.
Proof.
  intros [Hl Hf] Hi. rewrite Forall_forall in Hf. apply Hf. apply nth_In. lia.
Qed.

Lemma shape_len m r c : shape r c m -> length m = r.
Proof. intros [H _]; exact H. Qed.

Lemma get2_ok m r c i j : shape r c m -> (i < r)%nat -> (j < c)%nat -> get2 m i j = Ok (ent m i j).
Proof.
  intros Hs Hi Hj. unfold get2, ent.
  rewrite (get_ok m i []) by (rewrite (shape_len _ _ _ Hs); auto). simpl.
  rewrite (get_ok _ j 0); auto. erewrite shape_row; eauto.
Qed.

Definition upd2 (m : list (list Z)) (i j : nat) (x : Z) : list (list Z) :=
  upd m i (upd (nth i m []) j x).

Lemma set2_ok m r c i j x : shape r c m -> (i < r)%nat -> (j < c)%nat ->
  set2 m i j x = Ok (upd2 m i j x).
Proof.
  intros Hs Hi Hj. unfold set2, upd2.
  rewrite (get_ok m i []) by (rewrite (shape_len _ _ _ Hs); auto). simpl.
  rewrite (set_ok _ j) by (erewrite shape_row; eauto). simpl.
  rewrite set_ok by (rewrite (shape_len _ _ _ Hs); auto). reflexivity.
Qed.

Lemma Forall_upd {A} (P : A -> Prop) l i x : Forall P l -> P x -> Forall P (upd l i x).
Proof.
  intros H Hx. revert i. induction H; intros [|i]; simpl; constructor; auto.
Qed.

Lemma shape_upd m r c i row : shape r c m -> length row = c -> shape r c (upd m i row).
Proof.
  intros [H1 H2] H3. split. { rewrite upd_length; auto. }
  apply Forall_upd; auto.
Qed.

Lemma shape_upd2 m r c i j x : shape r c m -> (i < r)%nat -> shape r c (upd2 m i j x).
Proof.
  intros Hs Hi. unfold upd2. apply shape_upd; auto. rewrite upd_length. eapply shape_row; eauto.
Qed.

Lemma ent_upd2 m r c i j x a b : shape r c m -> (i < r)%nat -> (j < c)%nat ->
  ent (upd2 m i j x) a b = if Nat.eqb i a && Nat.eqb j b then x else ent m a b.
Proof.
  intros Hs Hi Hj. unfold ent, upd2.
  rewrite nth_upd by (rewrite (shape_len _ _ _ Hs); auto).
  destruct (Nat.eqb_spec i a) as [->|]; simpl; auto.
  rewrite nth_upd by (erewrite shape_row; eauto). reflexivity.
Qed.

Lemma ent_upd2_same m r c i j x : shape r c m -> (i < r)%nat -> (j < c)%nat ->
  ent (upd2 m i j x) i j = x.
Proof. intros. erewrite ent_upd2 by eauto. rewrite !Nat.eqb_refl. reflexivity. Qed.

Lemma ent_upd2_other m r c i j x a b : shape r c m -> (i < r)%nat -> (j < c)%nat ->
  (a <> i \/ b <> j)%nat -> ent (upd2 m i j x) a b = ent m a b.
Proof.
  intros. erewrite ent_upd2 by eauto.
  destruct (Nat.eqb_spec i a), (Nat.eqb_spec j b); simpl; auto. lia.
Qed.

Lemma ent_upd m r c i row a b : shape r c m -> (i < r)%nat ->
  ent (upd m i row) a b = if Nat.eqb i a then nthZ row b else ent m a b.
Proof.
  intros Hs Hi. unfold ent. rewrite nth_upd by (rewrite (shape_len _ _ _ Hs); auto).
  destruct (Nat.eqb_spec i a); reflexivity.
Qed.

Lemma list_ext {A} (d : A) (l l' : list A) :
  length l = length l' -> (forall i, (i < length l)%nat -> nth i l d = nth i l' d) -> l = l'.
Proof. intros. eapply nth_ext; eauto. Qed.

Lemma mat_ext m m' r c : shape r c m -> shape r c m' ->
  (forall i j, (i < r)%nat -> (j < c)%nat -> ent m i j = ent m' i j) -> m = m'.
Proof.
  intros H H' E. apply (list_ext []).
  - rewrite (shape_len _ _ _ H), (shape_len _ _ _ H'). auto.
  - intros i Hi. rewrite (shape_len _ _ _ H) in Hi. apply (list_ext 0).
    + rewrite (shape_row _ _ _ _ H Hi), (shape_row _ _ _ _ H' Hi). auto.
    + intros j Hj. erewrite shape_row in Hj by eauto. apply E; auto.
Qed.

Lemma rd_ok {A} (l : list A) off len : (off + len <= length l)%nat ->
  rd l off len = Ok (firstn len (skipn off l)).
Proof. intros H. unfold rd. destruct (Nat.leb_spec (off + len) (length l)); auto; lia. Qed.

Lemma rd_length {A} (l : list A) off len x : rd l off len = Ok x -> length x = len.
Proof.
  unfold rd. destruct (Nat.leb_spec (off + len) (length l)); try discriminate.
  intros E; injection E as <-. rewrite firstn_length, skipn_length. lia.
Qed.

Lemma wr_ok {A} (l : list A) off d : (off + length d <= length l)%nat ->
  wr l off d = Ok (firstn off l ++ d ++ skipn (off + length d) l).
Proof. intros H. unfold wr. destruct (Nat.leb_spec (off + length d) (length l)); auto; lia. Qed.

Lemma nth_firstn {A} (l : list A) n i d : (i < n)%nat -> nth i (firstn n l) d = nth i l d.
Proof.
  revert n i. induction l as [|h t IH]; intros [|n] [|i] H; simpl; auto; try lia. apply IH. lia.
Qed.

Lemma nth_skipn {A} (l : list A) n i d : nth i (skipn n l) d = nth (n + i) l d.
Proof.
  revert n. induction l as [|h t IH]; intros [|n]; simpl; auto. destruct i; auto.
Qed.

Lemma Forall_firstn {A} (P : A -> Prop) l n : Forall P l -> Forall P (firstn n l).
Proof. intros H. revert n. induction H; intros [|n]; simpl; constructor; auto. Qed.

Lemma Forall_skipn {A} (P : A -> Prop) l n : Forall P l -> Forall P (skipn n l).
Proof. intros H. revert n. induction H; intros [|n]; simpl; auto. Qed.

Lemma nth_wr {A} (l d : list A) off i x : (off + length d <= length l)%nat ->
  nth i (firstn off l ++ d ++ skipn (off + length d) l) x =
  if (i <? off)%nat then nth i l x else if (i <? off + length d)%nat then nth (i - off) d x else nth i l x.
Proof.
  intros H. destruct (Nat.ltb_spec i off).
  - rewrite app_nth1 by (rewrite firstn_length; lia). apply nth_firstn. auto.
  - rewrite app_nth2 by (rewrite firstn_length; lia). rewrite firstn_length, Nat.min_l by lia.
    destruct (Nat.ltb_spec i (off + length d)).
    + rewrite app_nth1 by lia. auto.
    + rewrite app_nth2 by lia. rewrite nth_skipn. f_equal. lia.
Qed.

Lemma wr_length {A} (l d : list A) off : (off + length d <= length l)%nat ->
  length (firstn off l ++ d ++ skipn (off + length d) l) = length l.
Proof. intros H. rewrite !app_length, firstn_length, skipn_length. lia. Qed.

Lemma Forall_wr {A} (P : A -> Prop) (l d : list A) off : Forall P l -> Forall P d ->
  Forall P (firstn off l ++ d ++ skipn (off + length d) l).
Proof. intros H1 H2. apply Forall_app. split. apply Forall_firstn; auto. apply Forall_app. split; auto. apply Forall_skipn; auto. Qed.

(** Reading a slice after a write. *)
Lemma slice_wr_same {A} (l d : list A) off : (off + length d <= length l)%nat ->
  firstn (length d) (skipn off (firstn off l ++ d ++ skipn (off + length d) l)) = d.
Proof.
  intros H. rewrite skipn_app. rewrite firstn_length, Nat.min_l by lia. rewrite Nat.sub_diag. cbn [skipn].
  rewrite (skipn_all2 (firstn off l)) by (rewrite firstn_length; lia). cbn [app].
  rewrite firstn_app. rewrite firstn_all, Nat.sub_diag. cbn [firstn]. apply app_nil_r.
Qed.

Lemma slice_ext {A} (l l' : list A) o n (x : A) : length l = length l' ->
  (forall i, (o <= i < o + n)%nat -> nth i l x = nth i l' x) ->
  firstn n (skipn o l) = firstn n (skipn o l').
Proof.
  intros E H. apply nth_ext with (d := x) (d' := x). { rewrite !firstn_length, !skipn_length. lia. }
  intros i Hi. rewrite firstn_length in Hi. rewrite !nth_firstn by lia. rewrite !nth_skipn. apply H. lia.
Qed.

Lemma slice_wr_other {A} (l d : list A) off o n (x : A) : (off + length d <= length l)%nat ->
  (o + n <= off \/ off + length d <= o)%nat ->
  firstn n (skipn o (firstn off l ++ d ++ skipn (off + length d) l)) = firstn n (skipn o l).
Proof.
  intros H D. apply (slice_ext _ _ _ _ x). { apply wr_length; auto. }
  intros i Hi. rewrite nth_wr by auto.
  destruct (Nat.ltb_spec i off), (Nat.ltb_spec i (off + length d)); auto; lia.
Qed.

Lemma Forall_nth_Z (P : Z -> Prop) l : Forall P l <-> forall i, (i < length l)%nat -> P (nthZ l i).
Proof.
  split.
  - intros H i Hi. rewrite Forall_forall in H. apply H. apply nth_In. auto.
  - intros H. apply Forall_forall. intros x Hx. apply In_nth with (d := 0) in Hx.
    destruct Hx as (i & Hi & <-). apply H; auto.
Qed.

Lemma nth_map_seq {A} (f : nat -> A) n i d : (i < n)%nat -> nth i (map f (seq 0 n)) d = f i.
Proof.
  intros H. rewrite nth_indep with (d' := f 0%nat) by (rewrite map_length, seq_length; auto).
  rewrite map_nth. rewrite seq_nth; auto.
Qed.

(** Matrix given by its entries. *)
Definition mk_mat (r c : nat) (f : nat -> nat -> Z) : list (list Z) :=
  map (fun i => map (fun j => f i j) (seq 0 c)) (seq 0 r).

Lemma shape_mk_mat r c f : shape r c (mk_mat r c f).
Proof.
  split. { unfold mk_mat. rewrite map_length, seq_length. auto. }
  apply Forall_forall. intros x Hx. apply in_map_iff in Hx. destruct Hx as (i & <- & _).
  rewrite map_length, seq_length. auto.
Qed.

Lemma ent_mk_mat r c f i j : (i < r)%nat -> (j < c)%nat -> ent (mk_mat r c f) i j = f i j.
Proof.
  intros Hi Hj. unfold ent, mk_mat. rewrite nth_map_seq by auto.
  rewrite nth_map_seq by auto. reflexivity.
Qed.

Lemma is_byte_u8 x : is_byte (u8 x).
Proof. unfold is_byte, u8. lia. Qed.

Lemma u8_id x : 0 <= x < 256 -> u8 x = x.
Proof. unfold u8. intros. apply Z.mod_small. auto. Qed.

Lemma u16_id x : 0 <= x < 65536 -> u16 x = x.
Proof. unfold u16. intros. apply Z.mod_small. auto. Qed.

(** Step tactics: discharge the next array access of a total computation. *)
Ltac ok_step := eapply okp_bind; [|cbv beta].
