(** The parser of massif files follows their grammar. *)
From Coq Require Import String Ascii.
From Verif Require Import Base BaseLemmas KatMain KatSpec KatTextProofs Massif MassifSpec.
Local Open Scope list_scope.

(** *** Characters *)
Lemma digit_iff c : is_digit c = true <-> digit c.
Proof. unfold is_digit, digit. lia. Qed.
Lemma space_iff c : py_space c = true <-> space c.
Proof. unfold py_space, space. lia. Qed.
Lemma word_iff c : py_word c = true <-> wordchar c.
Proof. unfold py_word, wordchar, is_digit, digit. lia. Qed.

Lemma span_iff f P : (forall c, f c = true <-> P c) -> forall l a b, span f l = (a, b) <-> (l = a ++ b /\ Forall P a /\ ends_at P b).
Proof.
  intros H. induction l as [|c l IH]; intros a b; cbn [span].
  - split. { intros E. injection E as <- <-. cbn. auto. } intros (E & _ & _). destruct a, b; try discriminate. reflexivity.
  - destruct (f c) eqn:F.
    + destruct (span f l) as [a1 b1] eqn:E1. destruct (proj1 (IH a1 b1) eq_refl) as (-> & A & B). split.
      * intros E. injection E as <- <-. split; auto. split; auto. constructor; auto. apply H. auto.
      * intros (E & A' & B'). destruct a as [|c' a].
        { cbn [app] in E. subst b. exfalso. apply B'. apply H. auto. }
        injection E as -> E. inversion A' as [|? ? A1 A2]; subst. pose proof (proj2 (IH a b) (conj E (conj A2 B'))) as E2. congruence.
    + split.
      * intros E. injection E as <- <-. split; auto. split; auto. cbn. rewrite <- H. congruence.
      * intros (E & A' & B'). destruct a as [|c' a]; [cbn in E; subst b; reflexivity|].
        injection E as -> E. inversion A' as [|? ? A1 A2]; subst. apply H in A1. congruence.
Qed.

Lemma strip_prefix_iff s : forall l r, strip_prefix s l = Some r <-> l = s ++ r.
Proof.
  induction s as [|a s IH]; intros l r; cbn [strip_prefix app]. { split; congruence. }
  destruct l as [|c l]. { split; discriminate. } destruct (Z.eqb_spec a c) as [->|NE].
  - rewrite IH. split; congruence.
  - split; [discriminate|]. intros E. congruence.
Qed.

Lemma comment_iff l : comment_re l = true <-> comment_line l.
Proof.
  unfold comment_re, comment_line. destruct (span py_space l) as [a b] eqn:E. pose proof (proj1 (span_iff _ _ space_iff l a b) E) as (-> & A & B). cbn [snd]. split.
  - intros H. exists a, b. split; auto. split; auto. destruct b as [|c b]; auto. right. exists b. f_equal. lia.
  - intros (sp & r & E2 & S & R).
    assert (X : span py_space (a ++ b) = (sp, r)).
    { apply (span_iff _ _ space_iff). split; auto. split; auto. destruct R as [->|(r' & ->)]; cbn; auto. unfold space. lia. }
    rewrite E in X. injection X as -> ->. destruct R as [->|(r' & ->)]; reflexivity.
Qed.

Lemma field_text_iff key l d : field_text key l = Some d <-> text_field key d l.
Proof.
  unfold field_text, text_field. rewrite str_text. destruct (strip_prefix (text key) l) as [r|] eqn:E.
  - apply strip_prefix_iff in E. subst l. destruct r as [|c r].
    + split; [discriminate|]. intros (c & _ & E). apply app_inv_head in E. discriminate.
    + destruct (py_space c) eqn:S.
      * split. { intros E. injection E as <-. exists c. split; auto. apply space_iff. auto. } intros (c' & _ & E). apply app_inv_head in E. congruence.
      * split; [discriminate|]. intros (c' & S' & E). apply app_inv_head in E. injection E as <- _. apply space_iff in S'. congruence.
  - split; [discriminate|]. intros (c & _ & E2). apply strip_prefix_iff in E2. congruence.
Qed.

Lemma field_unit_iff l d : field_unit l = Some d <-> unit_field d l.
Proof.
  unfold field_unit, unit_field. destruct (field_text "time_unit:" l) as [data|] eqn:E.
  - pose proof (proj1 (field_text_iff _ _ _) E) as T. rewrite !str_text.
    match goal with |- context [existsb ?f ?u] => pose proof (existsb_exists f u) as X; destruct (existsb f u) end.
    + split.
      * intros H. injection H as <-. split; auto. destruct (proj1 X eq_refl) as (x & I & D). destruct (list_eq_dec Z.eq_dec data x); [subst; auto|discriminate].
      * intros [T' _]. apply field_text_iff in T'. congruence.
    + split; [discriminate|]. intros [T' I]. apply field_text_iff in T'. rewrite E in T'. injection T' as ->.
      assert (N : false = true); [|discriminate]. apply X. exists d. split; auto. destruct (list_eq_dec Z.eq_dec d d); auto.
  - split; [discriminate|]. intros [T' _]. apply field_text_iff in T'. congruence.
Qed.

(** A key followed by the longest run of characters of a class. *)
Definition run_field (P : Z -> Prop) (key : string) (w l : list Z) : Prop :=
  exists r, l = text key ++ w ++ r /\ w <> [] /\ Forall P w /\ ends_at P r.
Lemma run_field_iff f P key l d : (forall c, f c = true <-> P c) ->
  match strip_prefix (str key) l with Some r => match fst (span f r) with [] => None | d => Some d end | None => None end = Some d <-> run_field P key d l.
Proof.
  intros H. unfold run_field. rewrite str_text. destruct (strip_prefix (text key) l) as [r|] eqn:E.
  - apply strip_prefix_iff in E. subst l. destruct (span f r) as [a b] eqn:E. pose proof (proj1 (span_iff _ _ H r a b) E) as (-> & A & B). cbn [fst]. split.
    + destruct a as [|c a]; [discriminate|]. intros E2. injection E2 as <-. exists b. split; auto. split; [discriminate|auto].
    + intros (r & E2 & NE & A2 & B2). apply app_inv_head in E2. pose proof (proj2 (span_iff _ _ H _ _ _) (conj E2 (conj A2 B2))) as X.
      rewrite E in X. injection X as -> ->. destruct d; congruence.
  - split; [discriminate|]. intros (r & E2 & _). apply strip_prefix_iff in E2. congruence.
Qed.
Lemma field_digits_iff key l d : field_digits key l = Some d <-> run_field digit key d l.
Proof. apply run_field_iff, digit_iff. Qed.
Lemma field_word_iff key l d : field_word key l = Some d <-> word_field key d l.
Proof. apply (run_field_iff py_word wordchar), word_iff. Qed.

Lemma int_digits_value l : int_digits l = value l.
Proof.
  unfold int_digits. assert (H : forall v, fold_left (fun v c => 10 * v + (c - 48)) l v = v * 10 ^ Z.of_nat (length l) + value l).
  { induction l as [|c l IH]; intros v; cbn [fold_left value length]. { cbn. lia. }
    rewrite IH. rewrite Nat2Z.inj_succ, Z.pow_succ_r by lia. ring. }
  rewrite H. lia.
Qed.
Lemma number_field_iff key v l : number_field key v l <-> exists d, run_field digit key d l /\ v = int_digits d.
Proof.
  unfold number_field, run_field, numeral. split.
  - intros (d & r & -> & (NE & F & ->) & E). exists d. split; [|symmetry; apply int_digits_value]. exists r. auto.
  - intros (d & (r & -> & NE & F & E) & ->). exists d, r. split; auto. split; auto. split; auto. split; auto. apply int_digits_value.
Qed.

Definition heap_digits (d : list Z * list Z) (l : list Z) : Prop :=
  exists sp c1 c2 details, l = sp ++ [110] ++ fst d ++ [58; c1] ++ snd d ++ [c2] ++ details /\
    Forall space sp /\ space c1 /\ space c2 /\ (fst d <> [] /\ Forall digit (fst d)) /\ (snd d <> [] /\ Forall digit (snd d)).
Lemma heap_entry_iff l d : heap_entry l = Some d <-> heap_digits d l.
Proof.
  split.
  - unfold heap_entry. destruct (span py_space l) as [a b] eqn:E1. cbn [snd].
    destruct (Z.eq_dec (hd 0 b) 110) as [Hb|Hb].
    2:{ destruct b as [|c b]; [discriminate|]. cbn in Hb. intros H. exfalso.
        assert (X : match c with 110 => true | _ => false end = false) by (destruct c as [|q|q]; auto; do 7 (destruct q as [q|q|]; auto); exfalso; auto).
        clear - X H. destruct c as [|q|q]; try discriminate H. do 7 (destruct q as [q|q|]; try discriminate H). discriminate X. }
    destruct b as [|c r]; [discriminate|]. cbn [hd] in Hb. subst c.
    apply (span_iff _ _ space_iff) in E1. destruct E1 as (-> & A & _).
    destruct (span is_digit r) as [d1 r1] eqn:E2. apply (span_iff _ _ digit_iff) in E2. destruct E2 as (-> & A1 & _).
    destruct d1 as [|x d1]; [discriminate|].
    destruct r1 as [|c r1]; [discriminate|]. destruct (Z.eq_dec c 58) as [->|NC].
    2:{ intros H. exfalso. clear - NC H. destruct c as [|q|q]; try discriminate H. do 6 (destruct q as [q|q|]; try discriminate H). auto. }
    destruct r1 as [|c1 r2]; [discriminate|]. destruct (py_space c1) eqn:S1; [|discriminate].
    destruct (span is_digit r2) as [d2 r3] eqn:E3. apply (span_iff _ _ digit_iff) in E3. destruct E3 as (-> & A2 & _).
    destruct d2 as [|y d2]; [discriminate|]. destruct r3 as [|c2 r3]; [discriminate|]. destruct (py_space c2) eqn:S2; [|discriminate].
    intros H. injection H as <-. exists a, c1, c2, r3. cbn [fst snd]. split. { reflexivity. }
    split; auto. split; [apply space_iff; auto|]. split; [apply space_iff; auto|]. split; split; auto; discriminate.
  - destruct d as [d1 d2]. intros (sp & c1 & c2 & details & -> & S & S1 & S2 & (N1 & F1) & (N2 & F2)). cbn [fst snd] in *. unfold heap_entry.
    assert (E1 : span py_space (sp ++ [110] ++ d1 ++ [58; c1] ++ d2 ++ [c2] ++ details) = (sp, 110 :: d1 ++ [58; c1] ++ d2 ++ [c2] ++ details)).
    { apply (span_iff _ _ space_iff). split; auto. split; auto. cbn. unfold space. lia. }
    rewrite E1. cbn [snd].
    assert (E2 : span is_digit (d1 ++ [58; c1] ++ d2 ++ [c2] ++ details) = (d1, [58; c1] ++ d2 ++ [c2] ++ details)).
    { apply (span_iff _ _ digit_iff). split; auto. split; auto. cbn. unfold digit. lia. }
    rewrite E2. destruct d1 as [|x d1]; [congruence|]. cbn [app]. apply space_iff in S1 as S1'. rewrite S1'.
    assert (E3 : span is_digit (d2 ++ c2 :: details) = (d2, c2 :: details)).
    { apply (span_iff _ _ digit_iff). split; auto. split; auto. cbn. unfold digit. unfold space in S2. lia. }
    rewrite E3. destruct d2 as [|y d2]; [congruence|]. apply space_iff in S2 as S2'. rewrite S2'. reflexivity.
Qed.
Lemma heap_line_iff nc nb l : heap_line nc nb l <-> exists d, heap_digits d l /\ nc = int_digits (fst d) /\ nb = int_digits (snd d).
Proof.
  unfold heap_line, heap_digits, numeral. split.
  - intros (sp & d1 & c1 & d2 & c2 & details & -> & H1 & H2 & H3 & (N1 & F1 & ->) & (N2 & F2 & ->)). exists (d1, d2). cbn [fst snd].
    rewrite !int_digits_value. split; auto. exists sp, c1, c2, details. repeat (split; auto).
  - intros ((d1, d2) & (sp & c1 & c2 & details & -> & H1 & H2 & H3 & (N1 & F1) & (N2 & F2)) & -> & ->). cbn [fst snd] in *.
    rewrite !int_digits_value. exists sp, d1, c1, d2, c2, details. repeat (split; auto).
Qed.

(** *** Lines *)
Lemma readline_line l r : line_ok l -> readline (l ++ 10 :: r) = (l ++ [10], r).
Proof.
  induction l as [|c l IH]; intros H. { reflexivity. }
  cbn [app readline]. destruct (Z.eqb_spec c 10) as [->|NE]. { exfalso. apply H. left. auto. }
  rewrite IH; auto. intros I. apply H. right. auto.
Qed.
Lemma readline_last l : line_ok l -> readline l = (l, []).
Proof.
  induction l as [|c l IH]; intros H. { reflexivity. }
  cbn [readline]. destruct (Z.eqb_spec c 10) as [->|NE]. { exfalso. apply H. left. auto. }
  rewrite IH; auto. intros I. apply H. right. auto.
Qed.
Lemma drop_none l : line_ok l -> drop_newlines l = l.
Proof.
  intros H. unfold drop_newlines. destruct l as [|c l]; [reflexivity|]. cbn [span].
  destruct (Z.eqb_spec c 10) as [->|NE]; [exfalso; apply H; left; auto|reflexivity].
Qed.
Lemma line_ok_rev l : line_ok l -> line_ok (rev l).
Proof. intros H I. apply H. apply in_rev. auto. Qed.
Lemma strip_line l : line_ok l -> strip_newlines l = l.
Proof. intros H. unfold strip_newlines. rewrite (drop_none l H), (drop_none (rev l) (line_ok_rev l H)). apply rev_involutive. Qed.
Lemma strip_line_nl l : line_ok l -> strip_newlines (l ++ [10]) = l.
Proof.
  intros H. unfold strip_newlines. destruct l as [|c l]. { reflexivity. }
  assert (E : drop_newlines ((c :: l) ++ [10]) = (c :: l) ++ [10]).
  { unfold drop_newlines. cbn [app span]. destruct (Z.eqb_spec c 10) as [->|NE]; [exfalso; apply H; left; auto|reflexivity]. }
  rewrite E, rev_app_distr. cbn [rev app]. unfold drop_newlines at 1. cbn [span Z.eqb Pos.eqb].
  pose proof (drop_none (rev (c :: l)) (line_ok_rev _ H)) as D. unfold drop_newlines in D. cbn [rev] in D.
  destruct (span (fun c0 => c0 =? 10) (rev l ++ [c])) as [x y]. cbn [snd] in *. rewrite D. rewrite rev_app_distr, rev_involutive. reflexivity.
Qed.

Lemma content_nil c : content_lines [] c -> c = [].
Proof. intros (_ & [E|(i & la & E & _)]); auto. destruct i; discriminate. Qed.
Lemma content_cons l ls c : content_lines (l :: ls) c ->
  line_ok l /\ ((exists r, c = l ++ 10 :: r /\ content_lines ls r) \/ (c = l /\ l <> [] /\ ls = [])).
Proof.
  intros (F & H). inversion F as [|? ? F1 F2]; subst. split; auto. destruct H as [->|(i & la & E & NE & ->)].
  - left. eexists. cbn [map concat]. rewrite <- app_assoc. split; [reflexivity|]. split; auto.
  - destruct i as [|x i]; injection E as -> E.
    + right. subst ls. auto.
    + left. eexists. cbn [map concat]. rewrite <- !app_assoc. split; [reflexivity|]. split; auto. right. exists i, la. auto.
Qed.
Lemma content_length ls : forall c, content_lines ls c -> (length ls <= length c)%nat.
Proof.
  induction ls as [|l ls IH]; intros c H; cbn [length]. { lia. }
  destruct (content_cons _ _ _ H) as (_ & [(r & -> & R)|(-> & NE & ->)]).
  - specialize (IH r R). rewrite app_length. cbn [length]. lia.
  - destruct l; [congruence|]. cbn. lia.
Qed.
Lemma content_ok ls c : content_lines ls c -> Forall line_ok ls.
Proof. intros [H _]. auto. Qed.
Lemma content_exists c : exists ls, content_lines ls c.
Proof.
  assert (H : forall n c, (length c <= n)%nat -> exists ls, content_lines ls c).
  { clear. induction n as [|n IH]; intros c L. { destruct c; [|cbn in L; lia]. exists []. split; auto. }
    destruct (in_dec Z.eq_dec 10 c) as [I|NI].
    - assert (exists l r, c = l ++ 10 :: r /\ line_ok l) as (l & r & -> & O).
      { clear - I. induction c as [|x c IH]; [destruct I|]. destruct (Z.eq_dec x 10) as [->|NE].
        - exists [], c. split; auto. intros [].
        - destruct I as [->|I]; [congruence|]. destruct (IH I) as (l & r & -> & O). exists (x :: l), r. split; auto. intros [->|X]; [congruence|apply O; auto]. }
      rewrite app_length in L. cbn [length] in L. destruct (IH r ltac:(lia)) as (ls & F & [E|(i & la & E & NE & E2)]).
      + exists (l :: ls). split. { constructor; auto. } left. cbn [map concat]. rewrite <- app_assoc, <- E. reflexivity.
      + exists (l :: ls). split. { constructor; auto. } right. exists (l :: i), la. split. { cbn. congruence. } split; auto. cbn [map concat]. rewrite <- !app_assoc, <- E2. reflexivity.
    - destruct c as [|x c]. { exists []. split; auto. } exists [x :: c]. split. { constructor; auto. } right. exists [], (x :: c). split; auto. split; [discriminate|reflexivity]. }
  apply (H (length c)). auto.
Qed.

(** Reading a line. *)
Lemma next_eof ctx b : content_lines [] (rest ctx) ->
  get_next_line ctx b = if b then Ret (None, {| rest := []; lineno := S (lineno ctx) |}) else Raise (ParseError (S (lineno ctx))).
Proof. intros H. apply content_nil in H. unfold get_next_line. rewrite H. reflexivity. Qed.
Lemma next_line ctx b l ls : content_lines (l :: ls) (rest ctx) ->
  exists r, content_lines ls r /\ get_next_line ctx b = Ret (Some l, {| rest := r; lineno := S (lineno ctx) |}).
Proof.
  intros H. destruct (content_cons _ _ _ H) as (O & [(r & E & R)|(E & NE & ->)]); unfold get_next_line; rewrite E.
  - exists r. split; auto. rewrite (readline_line l r O). rewrite strip_line_nl by auto. destruct l; reflexivity.
  - exists []. split. { split; auto. } rewrite (readline_last l O), strip_line by auto. destruct l; [congruence|reflexivity].
Qed.

(** *** Readers *)

(** The line at which reading [ls] must fail. *)
Definition fails {A} (S : A -> list (list Z) -> Prop) (ls : list (list Z)) (before n : nat) : Prop :=
  exists used, viable S used /\ (forall a, ~ S a used) /\ n = (before + Datatypes.S (length used))%nat /\
    (ls = used \/ exists l ls', ls = used ++ l :: ls' /\ ~ viable S (used ++ [l])).

Definition outcome {A} (S : A -> list (list Z) -> Prop) (ls : list (list Z)) (before : nat) (m : py (A * pctx)) : Prop :=
  match m with
  | Ret (a, ctx') => exists used ls', ls = used ++ ls' /\ content_lines ls' (rest ctx') /\ lineno ctx' = (before + length used)%nat /\ S a used
  | Raise (ParseError n) => fails S ls before n
  | _ => False
  end.

(** [f] reads the language [S], from texts of fewer than [n] lines. *)
Definition reads {A} (n : nat) (f : pctx -> py (A * pctx)) (S : A -> list (list Z) -> Prop) : Prop :=
  forall ctx ls, (length ls < n)%nat -> content_lines ls (rest ctx) -> outcome S ls (lineno ctx) (f ctx).

Definition prefix_free {A} (S : A -> list (list Z) -> Prop) : Prop :=
  forall a u x a' u' x', S a u -> S a' u' -> u ++ x = u' ++ x' -> a = a' /\ u = u'.

Lemma app_split {A} (a b c d : list A) : a ++ b = c ++ d -> (exists e, a = c ++ e /\ d = e ++ b) \/ (exists e, c = a ++ e /\ b = e ++ d).
Proof.
  revert c. induction a as [|x a IH]; intros c E. { right. exists c. auto. }
  destruct c as [|y c]. { left. exists (x :: a). auto. }
  injection E as -> E. destruct (IH c E) as [(e & -> & ->)|(e & -> & ->)]; [left|right]; exists e; auto.
Qed.

(** A text that begins with something complete is read. *)
Lemma not_fails {A} (S : A -> list (list Z) -> Prop) a used ls' before n : prefix_free S -> Forall line_ok (used ++ ls') ->
  S a used -> ~ fails S (used ++ ls') before n.
Proof.
  intros PF OK HS (u & V & NC & _ & H).
  assert (K : forall e, used = u ++ e -> e = []).
  { intros e ->. destruct e as [|l e]; auto. exfalso. destruct H as [H|(l' & r & H & NV)].
    - rewrite <- app_assoc in H. apply (f_equal (@length _)) in H. rewrite !app_length in H. cbn in H. lia.
    - rewrite <- app_assoc in H. apply app_inv_head in H. injection H as <- H. apply NV. exists e, a. split.
      + rewrite !Forall_app in OK. destruct OK as [[_ OK] _]. inversion OK; auto.
      + rewrite <- app_assoc. exact HS. }
  assert (X : exists r, used ++ ls' = u ++ r). { destruct H as [->|(l & r & -> & _)]; [exists []; rewrite app_nil_r; auto|eauto]. }
  destruct X as (r & E). destruct (app_split _ _ _ _ E) as [(e & -> & ->)|(e & -> & ->)].
  - pose proof (K e eq_refl) as ->. rewrite app_nil_r in *. apply (NC a). auto.
  - destruct V as (more & b & _ & V). rewrite <- app_assoc in V. destruct (PF a used (e ++ more) b _ [] HS V) as (_ & U). { rewrite app_nil_r. reflexivity. }
    assert (e = []). { destruct e; auto. apply (f_equal (@length _)) in U. rewrite !app_length in U. cbn in U. lia. }
    subst e. rewrite app_nil_r in *. apply (NC a). auto.
Qed.

Lemma reads_complete {A} n f (S : A -> list (list Z) -> Prop) : reads n f S -> prefix_free S ->
  forall ctx a used ls', (length (used ++ ls') < n)%nat -> content_lines (used ++ ls') (rest ctx) -> S a used ->
  exists ctx', f ctx = Ret (a, ctx') /\ content_lines ls' (rest ctx') /\ lineno ctx' = (lineno ctx + length used)%nat.
Proof.
  intros R PF ctx a used ls' L C HS. specialize (R ctx _ L C). destruct (f ctx) as [[a' ctx']|[m| |]|]; cbn [outcome] in R; try contradiction.
  - destruct R as (u & l & E & C' & LN & HS'). destruct (PF _ _ _ _ _ _ HS HS' E) as (<- & <-). apply app_inv_head in E. subst l. eauto.
  - exfalso. exact (not_fails S a used ls' _ m PF (content_ok _ _ C) HS R).
Qed.

Lemma reads_le {A} n m f (S : A -> list (list Z) -> Prop) : (m <= n)%nat -> reads n f S -> reads m f S.
Proof. intros L R ctx ls H C. apply R; auto. lia. Qed.

(** One after another. *)
Definition seq_lang {A B} (S1 : A -> list (list Z) -> Prop) (S2 : A -> B -> list (list Z) -> Prop) (b : B) (ls : list (list Z)) : Prop :=
  exists a u v, ls = u ++ v /\ S1 a u /\ S2 a b v.

Lemma seq_prefix_free {A B} (S1 : A -> list (list Z) -> Prop) (S2 : A -> B -> list (list Z) -> Prop) :
  prefix_free S1 -> (forall a, prefix_free (S2 a)) -> prefix_free (seq_lang S1 S2).
Proof.
  intros P1 P2 b u x b' u' x' (a & u1 & u2 & -> & A1 & A2) (a' & u1' & u2' & -> & B1 & B2) E. rewrite <- !app_assoc in E.
  destruct (P1 _ _ _ _ _ _ A1 B1 E) as (<- & <-). apply app_inv_head in E. destruct (P2 a _ _ _ _ _ _ A2 B2 E) as (<- & <-). auto.
Qed.

(** [S] has an element. *)
Definition possible {A} (S : A -> list (list Z) -> Prop) : Prop := exists a ls, Forall line_ok ls /\ S a ls.
Lemma seq_possible {A B} (S1 : A -> list (list Z) -> Prop) (S2 : A -> B -> list (list Z) -> Prop) :
  possible S1 -> (forall a, possible (S2 a)) -> possible (seq_lang S1 S2).
Proof.
  intros (a & l1 & O1 & H1) P2. destruct (P2 a) as (b & l2 & O2 & H2). exists b, (l1 ++ l2). split. { apply Forall_app. auto. }
  exists a, l1, l2. auto.
Qed.

Lemma fails_seq1 {A B} (S1 : A -> list (list Z) -> Prop) (S2 : A -> B -> list (list Z) -> Prop) ls before n :
  prefix_free S1 -> (forall a u, S1 a u -> Forall line_ok u -> possible (S2 a)) -> Forall line_ok ls -> fails S1 ls before n -> fails (seq_lang S1 S2) ls before n.
Proof.
  intros PF P2 OK F. pose proof F as (used & V & NC & EN & H).
  assert (OU : Forall line_ok used). { destruct H as [->|(l & r & -> & _)]; auto. apply Forall_app in OK. tauto. }
  assert (NP : forall a u v, S1 a u -> u ++ v = used -> False).
  { intros a u v HS E. destruct H as [->|(l & r & -> & _)].
    - rewrite <- E in *. exact (not_fails S1 a u v before n PF OK HS F).
    - rewrite <- E, <- app_assoc in *. exact (not_fails S1 a u (v ++ l :: r) before n PF OK HS F). }
  exists used. split; [|split; [|split]]; auto.
  - destruct V as (more & a & O & HS). destruct (P2 a _ HS ltac:(apply Forall_app; auto)) as (b & v & O2 & H2). exists (more ++ v), b. split. { apply Forall_app. auto. }
    exists a, (used ++ more), v. rewrite app_assoc. auto.
  - intros b (a & u & v & E & H1 & _). eapply NP; eauto.
  - destruct H as [->|(l & r & -> & NV)]; auto. right. exists l, r. split; auto. intros (more & b & O & (a & u & v & E & H1 & H2)).
    destruct (app_split _ _ _ _ E) as [(e & E1 & ->)|(e & -> & ->)].
    + destruct e as [|l' e _] using rev_ind.
      * rewrite app_nil_r in E1. subst u. apply NV. exists [], a. split; auto. rewrite app_nil_r. auto.
      * rewrite app_assoc in E1. apply app_inj_tail in E1. destruct E1 as [E1 _]. eapply NP; [exact H1|symmetry; exact E1].
    + apply NV. exists e, a. split; auto. apply Forall_app in O. tauto.
Qed.

Lemma fails_seq2 {A B} (S1 : A -> list (list Z) -> Prop) (S2 : A -> B -> list (list Z) -> Prop) a u ls before n :
  prefix_free S1 -> S1 a u -> fails (S2 a) ls (before + length u) n -> fails (seq_lang S1 S2) (u ++ ls) before n.
Proof.
  intros PF H1 (used & V & NC & EN & H). exists (u ++ used). split; [|split; [|split]].
  - destruct V as (more & b & O & HS). exists more, b. split; auto. exists a, u, (used ++ more). rewrite app_assoc. auto.
  - intros b (a' & u' & v & E & H1' & H2). destruct (PF _ _ _ _ _ _ H1 H1' E) as (<- & <-). apply app_inv_head in E. subst v. apply (NC b). auto.
  - rewrite app_length. lia.
  - destruct H as [->|(l & r & -> & NV)]; auto. right. exists l, r. rewrite <- app_assoc. split; auto.
    intros (more & b & O & (a' & u' & v & E & H1' & H2)). rewrite <- !app_assoc in E.
    destruct (PF _ _ _ _ _ _ H1 H1' E) as (<- & <-). apply app_inv_head in E. subst v. apply NV. exists more, b. split; auto. rewrite <- app_assoc. auto.
Qed.

Lemma reads_bind {A B} n m (f : pctx -> py (A * pctx)) (g : A -> pctx -> py (B * pctx)) S1 S2 :
  reads n f S1 -> (forall a u, S1 a u -> Forall line_ok u -> reads m (g a) (S2 a)) -> prefix_free S1 -> (forall a u, S1 a u -> Forall line_ok u -> possible (S2 a)) ->
  (forall a u, S1 a u -> (n <= m + length u)%nat) ->
  reads n (fun ctx => pbind (f ctx) (fun x => match x with (a, ctx') => g a ctx' end)) (seq_lang S1 S2).
Proof.
  intros RF RG PF P2 LU ctx ls L C. pose proof (RF ctx ls L C) as O. destruct (f ctx) as [[a ctx1]|[k| |]|]; cbn [outcome pbind] in *; try contradiction.
  - destruct O as (u & v & -> & C1 & LN & H1). pose proof (LU a u H1) as LU'. rewrite app_length in L.
    assert (OU : Forall line_ok u) by (pose proof (content_ok _ _ C) as X; apply Forall_app in X; tauto).
    pose proof (RG a u H1 OU ctx1 v ltac:(lia) C1) as O. destruct (g a ctx1) as [[b ctx2]|[k| |]|]; cbn [outcome] in *; try contradiction.
    + destruct O as (u2 & v2 & -> & C2 & LN2 & H2). exists (u ++ u2), v2. rewrite app_length, app_assoc. split; auto. split; auto. split. { lia. }
      exists a, u, u2. auto.
    + rewrite LN in O. apply (fails_seq2 _ _ a); auto.
  - apply fails_seq1; auto. apply (content_ok _ _ C).
Qed.

Lemma viable_iff {A} (S S' : A -> list (list Z) -> Prop) ls : (forall a ls, S a ls <-> S' a ls) -> viable S ls <-> viable S' ls.
Proof. intros H. split; intros (m & a & O & X); exists m, a; split; auto; apply H; auto. Qed.
Lemma outcome_iff {A} (S S' : A -> list (list Z) -> Prop) ls k m : (forall a ls, S a ls <-> S' a ls) -> outcome S ls k m -> outcome S' ls k m.
Proof.
  intros H O. destruct m as [[a c]|[j| |]|]; cbn [outcome] in *; auto.
  - destruct O as (u & v & E & C & L & X). exists u, v. split; auto. split; auto. split; auto. apply H. auto.
  - destruct O as (u & V & NC & E & X). exists u. split. { apply (viable_iff S S'); auto. } split. { intros a Y. apply (NC a), H. auto. }
    split; auto. destruct X as [X|(l & r & X & NV)]; auto. right. exists l, r. split; auto. intros Y. apply NV. apply (viable_iff S S'); auto.
Qed.
Lemma reads_iff {A} n f (S S' : A -> list (list Z) -> Prop) : (forall a ls, S a ls <-> S' a ls) -> reads n f S -> reads n f S'.
Proof. intros H R ctx ls L C. apply (outcome_iff S S'); auto. Qed.
Lemma prefix_free_iff {A} (S S' : A -> list (list Z) -> Prop) : (forall a ls, S a ls <-> S' a ls) -> prefix_free S -> prefix_free S'.
Proof. intros H P a u x a' u' x' X Y E. apply H in X, Y. eapply P; eauto. Qed.

(** Nothing more to read. *)
Lemma reads_ret {A} n (a : A) : reads n (fun ctx => Ret (a, ctx)) (fun b ls => b = a /\ ls = []).
Proof. intros ctx ls L C. cbn. exists [], ls. split; [reflexivity|]. split; [exact C|]. split; [cbn; lia|auto]. Qed.
Lemma ret_prefix_free {A} (a : A) : prefix_free (fun b ls => b = a /\ ls = []).
Proof. intros b u x b' u' x' [-> ->] [-> ->] _. auto. Qed.
Lemma ret_possible {A} (a : A) : possible (fun b ls => b = a /\ ls = []).
Proof. exists a, []. auto. Qed.

(** *** Fields *)
Section Field.
Context {A : Type} (re : list Z -> option A) (P : A -> list Z -> Prop).
Context (HR : forall l a, re l = Some a <-> P a l) (HC : forall a l, P a l -> ~ comment_line l) (HE : exists a l, line_ok l /\ P a l).

Lemma field_prefix_free : prefix_free (field P).
Proof.
  intros a u x a' u' x' (cs & l & -> & C & H) (cs' & l' & -> & C' & H'). revert cs' C'. induction C as [|c cs C1 C IH]; intros cs' C' E.
  - destruct cs' as [|c' cs'].
    + cbn [app] in E. injection E as <- _. apply HR in H, H'. split; [congruence|reflexivity].
    + cbn [app] in E. injection E as <- _. inversion C'; subst. exfalso. apply (HC a l); auto.
  - destruct cs' as [|c' cs'].
    + cbn [app] in E. injection E as -> _. exfalso. apply (HC a' l'); auto.
    + cbn [app] in E. injection E as -> E. inversion C'; subst. destruct (IH cs') as (-> & E'); auto. split; auto. cbn [app]. congruence.
Qed.
Lemma field_possible : possible (field P).
Proof. destruct HE as (a & l & O & H). exists a, [l]. split; auto. exists [], l. auto. Qed.

(** What the loop does with the lines [ls]. *)
Definition field_outcome (b : bool) (ls : list (list Z)) (before : nat) (m : py (option A * pctx)) : Prop :=
  match m with
  | Ret (Some a, ctx') => exists used ls', ls = used ++ ls' /\ content_lines ls' (rest ctx') /\ lineno ctx' = (before + length used)%nat /\ field P a used
  | Ret (None, _) => b = true /\ Forall comment_line ls
  | Raise (ParseError n) => (b = true -> ~ Forall comment_line ls) /\ fails (field P) ls before n
  | _ => False
  end.
Lemma fields_comments cs : Forall comment_line cs -> viable (field P) cs /\ forall a, ~ field P a cs.
Proof.
  intros C. split.
  - destruct HE as (a & l & O & H). exists [l], a. split; auto. exists cs, l. auto.
  - intros a (cs' & l & -> & C' & H). apply Forall_app in C. destruct C as [_ C]. inversion C; subst. apply (HC a l); auto.
Qed.
Lemma field_loop_ok b : forall fuel ls ctx before cs, (length ls < fuel)%nat -> content_lines ls (rest ctx) -> Forall comment_line cs ->
  lineno ctx = (before + length cs)%nat -> field_outcome b (cs ++ ls) before (field_loop fuel re b ctx).
Proof.
  induction fuel as [|fuel IH]; intros ls ctx before cs L C CC LN. { lia. }
  cbn [field_loop]. destruct ls as [|l ls].
  - rewrite (next_eof ctx b C). destruct (fields_comments cs CC) as (V & NC). rewrite app_nil_r. destruct b; cbn [pbind field_outcome]; auto.
    split; [discriminate|]. exists cs. split; auto. split; auto. split; [lia|auto].
  - destruct (next_line ctx b l ls C) as (r & C1 & ->). cbn [pbind]. destruct (comment_re l) eqn:CR.
    + apply comment_iff in CR. replace (cs ++ l :: ls) with ((cs ++ [l]) ++ ls) by (rewrite <- app_assoc; reflexivity).
      apply IH; cbn [rest lineno]; auto.
      * cbn [length] in L. lia.
      * apply Forall_app. auto.
      * rewrite app_length. cbn [length]. lia.
    + assert (NL : ~ comment_line l) by (intros X; apply comment_iff in X; congruence).
      destruct (re l) as [a|] eqn:E; cbn [field_outcome].
      * exists (cs ++ [l]), ls. rewrite <- app_assoc. split; auto. split; auto. split. { rewrite app_length. cbn. lia. }
        exists cs, l. split; auto. split; auto. apply HR. auto.
      * destruct (fields_comments cs CC) as (V & NC). split. { intros _ X. apply Forall_app in X. destruct X as [_ X]. inversion X; auto. }
        exists cs. split; auto. split; auto. split. { cbn [lineno]. lia. } right. exists l, ls. split; auto.
        intros (more & a & O & (cs' & l' & E' & C' & H)). rewrite <- app_assoc in E'. cbn [app] in E'.
        assert (X : forall cs cs' more, cs ++ l :: more = cs' ++ [l'] -> Forall comment_line cs -> Forall comment_line cs' -> False).
        { clear - NL H HC HR E. induction cs as [|c cs IHc]; intros cs' more EQ F1 F2; destruct cs' as [|c' cs'].
          - injection EQ as -> _. apply HR in H. congruence.
          - injection EQ as -> _. inversion F2; auto.
          - injection EQ as -> _. inversion F1; subst. apply (HC a l'); auto.
          - injection EQ as -> EQ. inversion F1; inversion F2; subst. eapply IHc; eauto. }
        eapply X; eauto.
Qed.
Lemma get_field_ok b ls ctx : content_lines ls (rest ctx) -> field_outcome b ls (lineno ctx) (get_next_field re b ctx).
Proof.
  intros C. unfold get_next_field. apply (field_loop_ok b (S (S (length (rest ctx)))) ls ctx (lineno ctx) []); auto.
  pose proof (content_length _ _ C). lia.
Qed.
Lemma need_field_reads n : reads n (need_field re) (field P).
Proof.
  intros ctx ls _ C. unfold need_field. pose proof (get_field_ok false ls ctx C) as O.
  destruct (get_next_field re false ctx) as [[[a|] ctx']|[k| |]|]; cbn [pbind field_outcome outcome] in *; auto; try tauto. destruct O; discriminate.
Qed.
Lemma field_nonempty a u : field P a u -> (1 <= length u)%nat.
Proof. intros (cs & l & -> & _). rewrite app_length. cbn. lia. Qed.
End Field.

(** The fields of the file. *)
Lemma key_not_comment key r c s : text key = c :: s -> ~ space c -> c <> 35 -> ~ comment_line (text key ++ r).
Proof.
  intros -> NS N (sp & r' & E & S & R). destruct sp as [|x sp].
  - cbn in E. destruct R as [->|(y & ->)]; [discriminate|]. injection E as -> _. auto.
  - injection E as -> _. inversion S; auto.
Qed.
Lemma text_line_ok s : ~ In 10 (text s) -> line_ok (text s). Proof. auto. Qed.

Definition text_ok (s : string) : bool := match text s with [] => false | c :: _ => negb (py_space c) && negb (c =? 35) && negb (existsb (fun x => x =? 10) (text s)) end.
Lemma text_ok_line s : text_ok s = true -> line_ok (text s) /\ forall r, ~ comment_line (text s ++ r).
Proof.
  unfold text_ok. destruct (text s) as [|c t] eqn:E; [discriminate|]. intros H. rewrite !Bool.andb_true_iff, !Bool.negb_true_iff in H. destruct H as ((H1 & H2) & H3).
  split.
  - intros I. assert (X : existsb (fun x => x =? 10) (c :: t) = true) by (apply existsb_exists; exists 10; auto). congruence.
  - intros r. rewrite <- E. apply (key_not_comment s r c t E).
    + intros S. apply space_iff in S. congruence.
    + intros ->. discriminate.
Qed.
Lemma line_ok_app a b : line_ok a -> line_ok b -> line_ok (a ++ b).
Proof. intros H1 H2 I. apply in_app_iff in I. destruct I; auto. Qed.

Lemma text_field_not key d l : text_ok key = true -> text_field key d l -> ~ comment_line l.
Proof. intros K (c & _ & ->). apply text_ok_line. auto. Qed.
Lemma text_field_ex key : text_ok key = true -> exists d l, line_ok l /\ text_field key d l.
Proof.
  intros K. exists [], (text key ++ [32]). split. { apply line_ok_app. apply text_ok_line; auto. intros [X|[]]. discriminate. }
  exists 32. split; auto. right. lia.
Qed.
Lemma unit_field_not d l : unit_field d l -> ~ comment_line l.
Proof. intros [H _]. apply (text_field_not "time_unit:" d); auto. Qed.
Lemma unit_field_ex : exists d l, line_ok l /\ unit_field d l.
Proof.
  exists (text "B"), (text "time_unit: B"). split. { apply text_ok_line. reflexivity. } split; [|cbn; auto]. exists 32. split; [right; lia|reflexivity].
Qed.
Lemma run_field_not Q key d l : text_ok key = true -> run_field Q key d l -> ~ comment_line l.
Proof. intros K (r & -> & _). apply text_ok_line. auto. Qed.
Lemma run_field_ex (Q : Z -> Prop) key : text_ok key = true -> Q 48 -> exists d l, line_ok l /\ run_field Q key d l.
Proof.
  intros K H. exists [48], (text key ++ [48]). split. { apply line_ok_app. apply text_ok_line; auto. intros [X|[]]. discriminate. }
  exists []. split; auto. split; [discriminate|]. split; [constructor; auto|exact I].
Qed.

(** *** Trees *)
Scheme tree_ind2 := Minimality for tree_lines Sort Prop with forest_ind2 := Minimality for forest_lines Sort Prop.
Combined Scheme tree_forest_ind from tree_ind2, forest_ind2.

Lemma heap_line_fun nc nb nc' nb' l : heap_line nc nb l -> heap_line nc' nb' l -> nc = nc' /\ nb = nb'.
Proof.
  intros H H'. apply heap_line_iff in H, H'. destruct H as (d & H & -> & ->). destruct H' as (d' & H' & -> & ->).
  apply heap_entry_iff in H, H'. rewrite H in H'. injection H' as <-. auto.
Qed.
Lemma tree_prefix :
  (forall t u, tree_lines t u -> forall x t' u' x', tree_lines t' u' -> u ++ x = u' ++ x' -> t = t' /\ u = u') /\
  (forall ts u, forest_lines ts u -> forall x ts' u' x', forest_lines ts' u' -> length ts = length ts' -> u ++ x = u' ++ x' -> ts = ts' /\ u = u').
Proof.
  apply tree_forest_ind.
  - intros nb cs l ls H _ IH x t' u' x' H' E. inversion H' as [nb' cs' l' ls' HL HF]; subst. cbn [app] in E. injection E as <- E.
    destruct (heap_line_fun _ _ _ _ _ H HL) as (EC & <-). destruct (IH x cs' ls' x' HF ltac:(lia) E) as (<- & <-). auto.
  - intros x ts' u' x' H' L E. inversion H'; subst; auto. discriminate.
  - intros t ts u ls _ IH1 _ IH2 x ts' u' x' H' L E. inversion H' as [|t' ts2 u2 ls2 HT HF]; subst; [discriminate|]. cbn in L.
    rewrite <- !app_assoc in E. destruct (IH1 _ _ _ _ HT E) as (<- & <-). apply app_inv_head in E.
    destruct (IH2 _ _ _ _ HF ltac:(lia) E) as (<- & <-). auto.
Qed.
Lemma tree_prefix_free : prefix_free tree_lines.
Proof. intros t u x t' u' x' H H' E. exact (proj1 tree_prefix t u H x t' u' x' H' E). Qed.
Definition forest_of (k : Z) (ts : list node) (ls : list (list Z)) : Prop := Z.of_nat (length ts) = k /\ forest_lines ts ls.
Lemma forest_prefix_free k : prefix_free (forest_of k).
Proof. intros t u x t' u' x' (L & H) (L' & H') E. apply (proj2 tree_prefix t u H x t' u' x' H'); auto. lia. Qed.

Lemma leaf_line : heap_line 0 0 (text "n0: 0 x") /\ line_ok (text "n0: 0 x").
Proof.
  split; [|apply text_ok_line; reflexivity]. exists [], [48], 32, [48], 32, (text "x"). split. { reflexivity. }
  split; auto. split; [right; lia|]. split; [right; lia|]. unfold numeral. split; (split; [discriminate|split; [constructor; [red; lia|auto]|reflexivity]]).
Qed.
Lemma tree_possible : possible tree_lines.
Proof. exists (Node 0 []), [text "n0: 0 x"]. destruct leaf_line. split; auto. constructor; auto. constructor. Qed.
Lemma forest_possible k : 0 <= k -> possible (forest_of k).
Proof.
  intros H. rewrite <- (Z2Nat.id k H). induction (Z.to_nat k) as [|n (ts & ls & O & L & IH)]. { exists [], []. split; auto. split; [reflexivity|constructor]. }
  destruct tree_possible as (t & u & OT & HT). exists (t :: ts), (u ++ ls). split. { apply Forall_app. auto. } split. { cbn [length]. lia. } constructor; auto.
Qed.

Lemma value_nonneg l : Forall digit l -> 0 <= value l.
Proof. induction 1 as [|c l H _ IH]; cbn [value]. { lia. } red in H. pose proof (Z.pow_nonneg 10 (Z.of_nat (length l))). nia. Qed.
Lemma heap_digits_nonneg d l : heap_digits d l -> 0 <= int_digits (fst d).
Proof. intros (sp & c1 & c2 & r & _ & _ & _ & _ & (_ & F) & _). rewrite int_digits_value. apply value_nonneg. auto. Qed.

(** One line of a tree. *)
Definition entry_lang (d : list Z * list Z) (ls : list (list Z)) : Prop := exists l, ls = [l] /\ heap_digits d l.
Definition entry_reader (ctx : pctx) : py ((list Z * list Z) * pctx) :=
  ' (line, ctx1) <~ get_next_line ctx false ;;;
  match line with
  | None => Raise ValueError
  | Some l => match heap_entry l with None => Raise (ParseError (lineno ctx1)) | Some d => Ret (d, ctx1) end
  end.
Lemma entry_viable : viable entry_lang [] /\ forall a, ~ entry_lang a [].
Proof.
  split; [|intros a (l & E & _); discriminate]. exists [text "n0: 0 x"], ([48], [48]). destruct leaf_line as (H & O). split; auto. exists (text "n0: 0 x"). split; auto.
  exists [], 32, 32, (text "x"). split; [reflexivity|]. split; auto. split; [right; lia|]. split; [right; lia|].
  cbn [fst snd]. split; (split; [discriminate|constructor; [red; lia|auto]]).
Qed.
Lemma entry_reads n : reads n entry_reader entry_lang.
Proof.
  intros ctx ls _ C. unfold entry_reader. destruct entry_viable as (V & NC). destruct ls as [|l ls].
  - rewrite (next_eof ctx false C). cbn [pbind outcome]. exists []. split; auto. split; auto. split; [cbn; lia|auto].
  - destruct (next_line ctx false l ls C) as (r & C1 & ->). cbn [pbind]. destruct (heap_entry l) as [d|] eqn:E; cbn [outcome].
    + exists [l], ls. split; auto. split; auto. split; [cbn; lia|]. exists l. split; auto. apply heap_entry_iff. auto.
    + exists []. split; auto. split; auto. split; [cbn; lia|]. right. exists l, ls. split; auto. intros (more & d & _ & (l' & E' & H)).
      injection E' as <- _. apply heap_entry_iff in H. congruence.
Qed.
Lemma entry_prefix_free : prefix_free entry_lang.
Proof.
  intros d u x d' u' x' (l & -> & H) (l' & -> & H') E. injection E as <- _. apply heap_entry_iff in H, H'. split; [congruence|auto].
Qed.

Definition children_loop (tree : pctx -> py (node * pctx)) : nat -> Z -> pctx -> py (list node * pctx) :=
  fix loop (g : nat) (n : Z) (ctx : pctx) :=
    if 0 <? n then
      match g with
      | O => PyNoFuel
      | S g' => ' (c, ctx1) <~ tree ctx ;;; ' (cs, ctx2) <~ loop g' (n - 1) ctx1 ;;; Ret (c :: cs, ctx2)
      end
    else Ret ([], ctx).
Lemma parse_heap_tree_eq fuel ctx : parse_heap_tree (S fuel) ctx =
  pbind (entry_reader ctx) (fun x => match x with (d, ctx1) =>
    pbind (children_loop (parse_heap_tree fuel) fuel (int_digits (fst d)) ctx1) (fun y => match y with (cs, ctx2) => Ret (Node (int_digits (snd d)) cs, ctx2) end) end).
Proof.
  cbn [parse_heap_tree]. unfold entry_reader. destruct (get_next_line ctx false) as [[[l|] ctx1]| |]; cbn [pbind]; auto.
  destruct (heap_entry l) as [[d1 d2]|]; cbn [pbind fst snd]; reflexivity.
Qed.

Lemma tree_nonempty t u : tree_lines t u -> (1 <= length u)%nat.
Proof. intros H. inversion H. cbn. lia. Qed.

Lemma children_reads tree fuel : reads fuel tree tree_lines -> forall g n, 0 <= n -> (g <= fuel)%nat ->
  reads g (children_loop tree g n) (forest_of n).
Proof.
  intros RT. induction g as [|g IH]; intros n Hn Hg. { intros ctx ls L. lia. }
  cbn [children_loop]. destruct (Z.ltb_spec 0 n) as [P|P].
  - apply (reads_iff _ _ (seq_lang tree_lines (fun c => seq_lang (forest_of (n - 1)) (fun cs r ls => r = c :: cs /\ ls = [])))).
    + intros ts ls. split.
      * intros (t & u & v & -> & HT & (cs & v1 & v2 & -> & (L & HF) & (-> & ->))). rewrite app_nil_r. split. { cbn [length]. lia. } constructor; auto.
      * intros (L & HF). inversion HF as [|t ts' u ls' HT HF']; subst. { cbn in P. lia. }
        exists t, u, ls'. split; auto. split; auto. exists ts', ls', []. rewrite app_nil_r. split; auto. split; auto. split; auto. cbn [length]. lia.
    + apply (reads_bind (S g) g tree (fun c ctx1 => pbind (children_loop tree g (n - 1) ctx1) (fun x => match x with (cs, ctx2) => Ret (c :: cs, ctx2) end))).
      * apply (reads_le fuel); auto.
      * intros t _ _ _. apply (reads_bind g g (children_loop tree g (n - 1)) (fun cs ctx => Ret (t :: cs, ctx))).
        -- apply IH; lia.
        -- intros cs _ _ _. apply reads_ret.
        -- apply forest_prefix_free.
        -- intros cs _ _ _. apply ret_possible.
        -- intros; lia.
      * apply tree_prefix_free.
      * intros t _ _ _. apply seq_possible. { apply forest_possible. lia. } intros cs. apply ret_possible.
      * intros t u HT. apply tree_nonempty in HT. lia.
  - apply (reads_iff _ _ (fun b ls => b = [] /\ ls = [])); [|apply reads_ret]. intros ts ls. split.
    + intros [-> ->]. split; [cbn; lia|constructor].
    + intros (L & HF). destruct ts; [|cbn in L; lia]. inversion HF. auto.
Qed.

Lemma tree_lang_iff t ls : tree_lines t ls <->
  seq_lang entry_lang (fun d => seq_lang (forest_of (int_digits (fst d))) (fun cs r ls => r = Node (int_digits (snd d)) cs /\ ls = [])) t ls.
Proof.
  split.
  - intros H. inversion H as [nb cs l ls' HL HF]; subst. apply heap_line_iff in HL. destruct HL as (d & HD & EC & ->).
    exists d, [l], ls'. split; auto. split. { exists l. auto. } exists cs, ls', []. rewrite app_nil_r. repeat (split; auto).
  - intros (d & u & v & -> & (l & -> & HD) & (cs & v1 & v2 & -> & (L & HF) & (-> & ->))). rewrite app_nil_r. cbn [app]. constructor; auto.
    apply heap_line_iff. exists d. auto.
Qed.

Lemma tree_reads fuel : reads fuel (parse_heap_tree fuel) tree_lines.
Proof.
  induction fuel as [|fuel IH]. { intros ctx ls L. lia. }
  intros ctx ls L C. rewrite parse_heap_tree_eq. apply (outcome_iff _ tree_lines _ _ _ (fun t ls => iff_sym (tree_lang_iff t ls))).
  apply (reads_bind (S fuel) fuel entry_reader
    (fun d ctx1 => pbind (children_loop (parse_heap_tree fuel) fuel (int_digits (fst d)) ctx1) (fun y => match y with (cs, ctx2) => Ret (Node (int_digits (snd d)) cs, ctx2) end))); auto.
  - apply entry_reads.
  - intros d u (l & -> & HD) _. apply (reads_bind fuel fuel (children_loop (parse_heap_tree fuel) fuel (int_digits (fst d))) (fun cs ctx2 => Ret (Node (int_digits (snd d)) cs, ctx2))).
    + apply children_reads with (fuel := fuel); auto. apply (heap_digits_nonneg d l). auto.
    + intros cs _ _ _. apply reads_ret.
    + apply forest_prefix_free.
    + intros cs _ _ _. apply ret_possible.
    + intros; lia.
  - apply entry_prefix_free.
  - intros d u (l & -> & HD) _. apply seq_possible. { apply forest_possible. apply (heap_digits_nonneg d l). auto. } intros cs. apply ret_possible.
  - intros d u (l & -> & _). cbn. lia.
Qed.
