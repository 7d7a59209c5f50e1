(** The parser of massif files, continued: snapshots and files. *)
From Coq Require Import String Ascii.
From Verif Require Import Base BaseLemmas KatMain KatSpec KatTextProofs Massif MassifSpec MassifProofs.
Local Open Scope list_scope.

(** *** Snapshots *)
Definition digits_lang (key : string) := field (run_field digit key).
Lemma digits_facts key : text_ok key = true ->
  (forall n, reads n (need_field (field_digits key)) (digits_lang key)) /\ prefix_free (digits_lang key) /\ possible (digits_lang key).
Proof.
  intros K. assert (HC : forall a l, run_field digit key a l -> ~ comment_line l) by (intros a l; apply run_field_not; auto).
  assert (HE : exists a l, line_ok l /\ run_field digit key a l) by (apply run_field_ex; auto; red; lia).
  split; [|split].
  - intros n. apply (need_field_reads _ _ (field_digits_iff key) HC HE).
  - apply (field_prefix_free _ _ (field_digits_iff key) HC).
  - apply (field_possible _ HE).
Qed.
Lemma word_facts :
  (forall n, reads n (need_field (field_word "heap_tree=")) (field (word_field "heap_tree="))) /\ prefix_free (field (word_field "heap_tree=")) /\ possible (field (word_field "heap_tree=")).
Proof.
  assert (HC : forall a l, word_field "heap_tree=" a l -> ~ comment_line l) by (intros a l; apply (run_field_not wordchar); auto).
  assert (HE : exists a l, line_ok l /\ word_field "heap_tree=" a l) by (apply (run_field_ex wordchar); auto; red; unfold digit; lia).
  split; [|split].
  - intros n. apply (need_field_reads _ _ (field_word_iff "heap_tree=") HC HE).
  - apply (field_prefix_free _ _ (field_word_iff "heap_tree=") HC).
  - apply (field_possible _ HE).
Qed.
Lemma number_lang key v u : field (number_field key) v u <-> exists d, digits_lang key d u /\ v = int_digits d.
Proof.
  unfold digits_lang, field. split.
  - intros (cs & l & -> & C & H). apply number_field_iff in H. destruct H as (d & H & ->). exists d. split; auto. exists cs, l. auto.
  - intros (d & (cs & l & -> & C & H) & ->). exists cs, l. split; auto. split; auto. apply number_field_iff. eauto.
Qed.

Definition snap_data (id time heap extra stacks : list Z) (t : option node) : snapshot :=
  {| s_id := int_digits id; s_time := int_digits time; s_heap := int_digits heap; s_extra := int_digits extra; s_stack := int_digits stacks; s_tree := t |}.
Definition whole_tree (ctx : pctx) : py (node * pctx) := parse_heap_tree (S (S (length (rest ctx)))) ctx.
Lemma whole_tree_reads n : reads n whole_tree tree_lines.
Proof.
  intros ctx ls _ C. apply (tree_reads (S (S (length (rest ctx)))) ctx ls); auto. pose proof (content_length _ _ C). lia.
Qed.

Definition end_reader (data : option node -> snapshot) (w : list Z) (ctx : pctx) : py ((bool * bool * snapshot) * pctx) :=
  if list_eq_dec Z.eq_dec w (str "empty") then Ret ((false, false, data None), ctx)
  else pbind (whole_tree ctx) (fun x => match x with (t, ctx) =>
         Ret ((true, (if list_eq_dec Z.eq_dec w (str "peak") then true else false), data (Some t)), ctx) end).
Definition end_lang (data : option node -> snapshot) (w : list Z) (x : bool * bool * snapshot) (ls : list (list Z)) : Prop :=
  (w = text "empty" /\ ls = [] /\ x = (false, false, data None)) \/
  (w <> text "empty" /\ exists t, tree_lines t ls /\ x = (true, (if list_eq_dec Z.eq_dec w (text "peak") then true else false), data (Some t))).
Lemma end_facts data w : (forall n, reads n (end_reader data w) (end_lang data w)) /\ prefix_free (end_lang data w) /\ possible (end_lang data w).
Proof.
  destruct (list_eq_dec Z.eq_dec w (text "empty")) as [E|E].
  - assert (I : forall x ls, (x = (false, false, data None) /\ ls = []) <-> end_lang data w x ls).
    { intros x ls. unfold end_lang. split; [intros [-> ->]; auto|]. intros [(_ & -> & ->)|[N _]]; auto. contradiction. }
    split; [|split].
    + intros n. apply (reads_iff _ _ _ _ I). intros ctx ls L C. unfold end_reader. rewrite (str_text "empty"). destruct (list_eq_dec Z.eq_dec w (text "empty")); [|contradiction].
      apply (reads_ret n (false, false, data None) ctx ls L C).
    + apply (prefix_free_iff _ _ I). apply ret_prefix_free.
    + exists (false, false, data None), []. split; auto. apply I. auto.
  - set (pk := if list_eq_dec Z.eq_dec w (text "peak") then true else false).
    assert (I : forall x ls, seq_lang tree_lines (fun t r l => r = (true, pk, data (Some t)) /\ l = []) x ls <-> end_lang data w x ls).
    { intros x ls. unfold end_lang. fold pk. split.
      - intros (t & u & v & -> & HT & (-> & ->)). rewrite app_nil_r. right. eauto.
      - intros [(N & _)|(_ & t & HT & ->)]; [contradiction|]. exists t, ls, []. rewrite app_nil_r. auto. }
    split; [|split].
    + intros n. apply (reads_iff _ _ _ _ I). intros ctx ls L C. unfold end_reader. rewrite (str_text "empty"), (str_text "peak"). fold pk.
      destruct (list_eq_dec Z.eq_dec w (text "empty")); [contradiction|].
      revert ctx ls L C. change (reads n (fun ctx => pbind (whole_tree ctx) (fun x => match x with (t, ctx) => Ret ((true, pk, data (Some t)), ctx) end))
        (seq_lang tree_lines (fun t r l => r = (true, pk, data (Some t)) /\ l = []))).
      apply (reads_bind n n whole_tree (fun t ctx => Ret ((true, pk, data (Some t)), ctx))).
      * apply whole_tree_reads.
      * intros t _ _ _. apply reads_ret.
      * apply tree_prefix_free.
      * intros t _ _ _. apply ret_possible.
      * intros; lia.
    + apply (prefix_free_iff _ _ I). apply seq_prefix_free; [apply tree_prefix_free|]. intros t. apply ret_prefix_free.
    + destruct (seq_possible tree_lines (fun t r l => r = (true, pk, data (Some t)) /\ l = []) tree_possible) as (x & ls & O & H). { intros t. apply ret_possible. }
      exists x, ls. split; auto. apply I. auto.
Qed.

(** A reader, its language and what follows. *)
Lemma bind_facts {A B} (f : pctx -> py (A * pctx)) (g : A -> pctx -> py (B * pctx)) S1 S2 :
  ((forall n, reads n f S1) /\ prefix_free S1 /\ possible S1) ->
  (forall a, (forall n, reads n (g a) (S2 a)) /\ prefix_free (S2 a) /\ possible (S2 a)) ->
  (forall n, reads n (fun ctx => pbind (f ctx) (fun x => match x with (a, ctx') => g a ctx' end)) (seq_lang S1 S2)) /\
  prefix_free (seq_lang S1 S2) /\ possible (seq_lang S1 S2).
Proof.
  intros (R1 & P1 & E1) H2. split; [|split].
  - intros n. apply (reads_bind n n); auto; [intros a u _ _; apply H2|intros a u _ _; apply H2|intros; lia].
  - apply seq_prefix_free; auto. intros a. apply H2.
  - apply seq_possible; auto. intros a. apply H2.
Qed.

Definition rest_reader (id : list Z) (ctx : pctx) : py ((bool * bool * snapshot) * pctx) :=
  pbind (need_field (field_digits "time=") ctx) (fun x => match x with (time, ctx) =>
  pbind (need_field (field_digits "mem_heap_B=") ctx) (fun x => match x with (heap, ctx) =>
  pbind (need_field (field_digits "mem_heap_extra_B=") ctx) (fun x => match x with (extra, ctx) =>
  pbind (need_field (field_digits "mem_stacks_B=") ctx) (fun x => match x with (stacks, ctx) =>
  pbind (need_field (field_word "heap_tree=") ctx) (fun x => match x with (w, ctx) => end_reader (snap_data id time heap extra stacks) w ctx end) end) end) end) end).
Definition rest_lang (id : list Z) : bool * bool * snapshot -> list (list Z) -> Prop :=
  seq_lang (digits_lang "time=") (fun time => seq_lang (digits_lang "mem_heap_B=") (fun heap => seq_lang (digits_lang "mem_heap_extra_B=") (fun extra =>
  seq_lang (digits_lang "mem_stacks_B=") (fun stacks => seq_lang (field (word_field "heap_tree=")) (fun w => end_lang (snap_data id time heap extra stacks) w))))).
Lemma rest_facts id : (forall n, reads n (rest_reader id) (rest_lang id)) /\ prefix_free (rest_lang id) /\ possible (rest_lang id).
Proof.
  unfold rest_reader, rest_lang. apply bind_facts; [apply digits_facts; reflexivity|]. intros time.
  apply bind_facts; [apply digits_facts; reflexivity|]. intros heap.
  apply bind_facts; [apply digits_facts; reflexivity|]. intros extra.
  apply bind_facts; [apply digits_facts; reflexivity|]. intros stacks.
  apply bind_facts; [apply word_facts|]. intros w. apply end_facts.
Qed.

Lemma parse_snapshot_eq ctx : parse_snapshot ctx =
  pbind (get_next_field (field_digits "snapshot=") true ctx) (fun x => match x with
    | (None, ctx) => Ret (None, ctx)
    | (Some id, ctx) => pbind (rest_reader id ctx) (fun x => match x with (y, ctx) => Ret (Some y, ctx) end)
    end).
Proof.
  unfold parse_snapshot, rest_reader, end_reader, whole_tree, snap_data. destruct (get_next_field (field_digits "snapshot=") true ctx) as [[[id|] c0]| |]; cbn [pbind]; auto.
  destruct (need_field (field_digits "time=") c0) as [[time c1]| |]; cbn [pbind]; auto.
  destruct (need_field (field_digits "mem_heap_B=") c1) as [[heap c2]| |]; cbn [pbind]; auto.
  destruct (need_field (field_digits "mem_heap_extra_B=") c2) as [[extra c3]| |]; cbn [pbind]; auto.
  destruct (need_field (field_digits "mem_stacks_B=") c3) as [[stacks c4]| |]; cbn [pbind]; auto.
  destruct (need_field (field_word "heap_tree=") c4) as [[w c5]| |]; cbn [pbind]; auto.
  destruct (list_eq_dec Z.eq_dec w (str "empty")); cbn [pbind]; auto.
  destruct (parse_heap_tree (S (S (length (rest c5)))) c5) as [[t c6]| |]; cbn [pbind]; auto.
Qed.

Lemma snapshot_lang_iff x ls : seq_lang (digits_lang "snapshot=") rest_lang x ls <-> snapshot_lines x ls.
Proof.
  split.
  - intros (id & l1 & r1 & -> & H1 & (time & l2 & r2 & -> & H2 & (heap & l3 & r3 & -> & H3 & (extra & l4 & r4 & -> & H4 & (stacks & l5 & r5 & -> & H5 & (w & l6 & lt & -> & H6 & HE)))))).
    destruct x as [[det peak] s]. exists l1, l2, l3, l4, l5, l6, lt, w. split; auto.
    destruct HE as [(-> & -> & E)|(NW & t & HT & E)]; injection E as -> -> ->; cbn [snap_data s_id s_time s_heap s_extra s_stack s_tree];
      (split; [apply number_lang; eauto|]); (split; [apply number_lang; eauto|]); (split; [apply number_lang; eauto|]);
      (split; [apply number_lang; eauto|]); (split; [apply number_lang; eauto|]); (split; [exact H6|]).
    + left. auto.
    + right. split; auto. exists t. split; auto. split; auto. split; auto. destruct (list_eq_dec Z.eq_dec w (text "peak")); split; auto; discriminate.
  - destruct x as [[det peak] s]. intros (l1 & l2 & l3 & l4 & l5 & l6 & lt & w & -> & H1 & H2 & H3 & H4 & H5 & H6 & HE).
    apply number_lang in H1, H2, H3, H4, H5. destruct H1 as (id & H1 & E1), H2 as (time & H2 & E2), H3 as (heap & H3 & E3), H4 as (extra & H4 & E4), H5 as (stacks & H5 & E5).
    exists id, l1, (l2 ++ l3 ++ l4 ++ l5 ++ l6 ++ lt). split; auto. split; auto.
    exists time, l2, (l3 ++ l4 ++ l5 ++ l6 ++ lt). split; auto. split; auto.
    exists heap, l3, (l4 ++ l5 ++ l6 ++ lt). split; auto. split; auto.
    exists extra, l4, (l5 ++ l6 ++ lt). split; auto. split; auto.
    exists stacks, l5, (l6 ++ lt). split; auto. split; auto.
    exists w, l6, lt. split; auto. split; auto. destruct s as [i ti h ex st tr]. cbn [s_id s_time s_heap s_extra s_stack s_tree] in *. subst.
    destruct HE as [(-> & -> & -> & -> & ->)|(NW & t & -> & HT & -> & HP)].
    + left. auto.
    + right. split; auto. exists t. split; auto. f_equal. f_equal. destruct (list_eq_dec Z.eq_dec w (text "peak")) as [E|E]; [apply HP; auto|].
      destruct peak; auto. exfalso. apply E. apply HP. auto.
Qed.

Lemma snapshot_prefix_free : prefix_free snapshot_lines.
Proof. apply (prefix_free_iff _ _ snapshot_lang_iff). apply seq_prefix_free; [apply digits_facts; reflexivity|]. intros id. apply rest_facts. Qed.
Lemma snapshot_not_comments x u v : snapshot_lines x u -> ~ Forall comment_line (u ++ v).
Proof.
  intros H F. apply snapshot_lang_iff in H. destruct H as (id & l1 & r & -> & (cs & l & -> & _ & H) & _).
  rewrite !Forall_app in F. destruct F as (((_ & F) & _) & _). inversion F; subst. apply (run_field_not digit "snapshot=" id l); auto.
Qed.
Lemma comments_viable cs : Forall comment_line cs -> viable snapshot_lines cs.
Proof.
  intros C. destruct (seq_possible (digits_lang "snapshot=") rest_lang) as (x & ls & O & H). { apply digits_facts. reflexivity. } { intros id. apply rest_facts. }
  exists ls, x. split; auto. apply snapshot_lang_iff. destruct H as (id & u & v & -> & (c2 & l & -> & C2 & H) & HR). exists id, (cs ++ c2 ++ [l]), v.
  rewrite <- !app_assoc. split; auto. split; auto. exists (cs ++ c2), l. rewrite <- app_assoc. split; auto. split; auto. apply Forall_app. auto.
Qed.

Lemma parse_snapshot_ok ls ctx : content_lines ls (rest ctx) ->
  match parse_snapshot ctx with
  | Ret (None, _) => Forall comment_line ls
  | Ret (Some x, ctx') => exists used ls', ls = used ++ ls' /\ content_lines ls' (rest ctx') /\ lineno ctx' = (lineno ctx + length used)%nat /\ snapshot_lines x used
  | Raise (ParseError n) => ~ Forall comment_line ls /\ fails snapshot_lines ls (lineno ctx) n
  | _ => False
  end.
Proof.
  intros C. rewrite parse_snapshot_eq.
  assert (HC : forall a l, run_field digit "snapshot=" a l -> ~ comment_line l) by (intros a l; apply run_field_not; reflexivity).
  assert (HE : exists a l, line_ok l /\ run_field digit "snapshot=" a l) by (apply run_field_ex; [reflexivity|red; lia]).
  pose proof (get_field_ok _ _ (field_digits_iff "snapshot=") HC HE true ls ctx C) as O.
  destruct (get_next_field (field_digits "snapshot=") true ctx) as [[[id|] c0]|[k| |]|]; cbn [pbind field_outcome] in *; try contradiction.
  - destruct O as (u & v & -> & C0 & LN & H1). destruct (rest_facts id) as (RR & _ & _). specialize (RR (S (length v)) c0 v (le_n _) C0).
    destruct (rest_reader id c0) as [[x c1]|[k| |]|]; cbn [pbind outcome] in *; try contradiction.
    + destruct RR as (u2 & v2 & -> & C1 & LN2 & H2). exists (u ++ u2), v2. rewrite app_assoc, app_length. split; auto. split; auto. split; [lia|].
      apply snapshot_lang_iff. exists id, u, u2. auto.
    + split.
      * destruct H1 as (cs & l & -> & _ & H). intros F. rewrite !Forall_app in F. destruct F as ((_ & F) & _). inversion F; subst. apply (HC id l); auto.
      * rewrite LN in RR. pose proof (fails_seq2 (digits_lang "snapshot=") rest_lang id u v (lineno ctx) k (proj1 (proj2 (digits_facts "snapshot=" eq_refl))) H1 RR) as F.
        exact (outcome_iff _ snapshot_lines _ _ (Raise (ParseError k)) snapshot_lang_iff F).
  - destruct O as [_ O]. exact O.
  - destruct O as [O F]. split; [apply O; auto|].
    assert (F2 : fails (seq_lang (digits_lang "snapshot=") rest_lang) ls (lineno ctx) k).
    { apply fails_seq1; auto; [apply digits_facts; reflexivity|intros id _ _ _; apply rest_facts|apply (content_ok _ _ C)]. }
    exact (outcome_iff _ snapshot_lines _ _ (Raise (ParseError k)) snapshot_lang_iff F2).
Qed.

(** *** Files *)

(** The line at which reading the whole text [ls] must fail. *)
Definition final_fails {A} (S : A -> list (list Z) -> Prop) (ls : list (list Z)) (before n : nat) : Prop :=
  exists used, viable S used /\ n = (before + Datatypes.S (length used))%nat /\
    ((ls = used /\ forall a, ~ S a ls) \/ exists l ls', ls = used ++ l :: ls' /\ ~ viable S (used ++ [l])).

Lemma fails_final {A} (S : A -> list (list Z) -> Prop) ls before n : fails S ls before n -> final_fails S ls before n.
Proof. intros (u & V & NC & E & H). exists u. split; auto. split; auto. destruct H as [->|H]; auto. Qed.
Lemma final_not {A} (S : A -> list (list Z) -> Prop) a ls before n : Forall line_ok ls -> S a ls -> ~ final_fails S ls before n.
Proof.
  intros O H (u & V & E & [(-> & N)|(l & r & -> & NV)]). { apply (N a). auto. }
  apply NV. exists r, a. split. { apply Forall_app in O. destruct O as [_ O]. inversion O; auto. } rewrite <- app_assoc. exact H.
Qed.
Lemma final_seq2 {A B} (S1 : A -> list (list Z) -> Prop) (S2 : A -> B -> list (list Z) -> Prop) a u ls before n :
  prefix_free S1 -> S1 a u -> final_fails (S2 a) ls (before + length u) n -> final_fails (seq_lang S1 S2) (u ++ ls) before n.
Proof.
  intros PF H1 (used & V & EN & H). exists (u ++ used). split; [|split].
  - destruct V as (more & b & O & HS). exists more, b. split; auto. exists a, u, (used ++ more). rewrite app_assoc. auto.
  - rewrite app_length. lia.
  - destruct H as [(-> & NC)|(l & r & -> & NV)].
    + left. split; auto. intros b (a' & u' & v & E & H1' & H2). destruct (PF _ _ _ _ _ _ H1 H1' E) as (<- & <-). apply app_inv_head in E. subst v. apply (NC b). auto.
    + right. exists l, r. rewrite <- app_assoc. split; auto.
      intros (more & b & O & (a' & u' & v & E & H1' & H2)). rewrite <- !app_assoc in E.
      destruct (PF _ _ _ _ _ _ H1 H1' E) as (<- & <-). apply app_inv_head in E. subst v. apply NV. exists more, b. split; auto. rewrite <- app_assoc. auto.
Qed.
Lemma final_iff {A} (S S' : A -> list (list Z) -> Prop) ls before n : (forall a ls, S a ls <-> S' a ls) -> final_fails S ls before n -> final_fails S' ls before n.
Proof.
  intros H (u & V & E & X). exists u. split. { apply (viable_iff S S'); auto. } split; auto. destruct X as [(-> & N)|(l & r & -> & NV)].
  - left. split; auto. intros a Y. apply (N a), H. auto.
  - right. exists l, r. split; auto. intros Y. apply NV. apply (viable_iff S S'); auto.
Qed.

Lemma snapshots_inv xs ls : snapshots_lines xs ls ->
  match xs with [] => Forall comment_line ls | x :: xs' => exists u v, ls = u ++ v /\ snapshot_lines x u /\ snapshots_lines xs' v end.
Proof. intros H. destruct H; eauto. Qed.
Lemma snapshots_fun xs ls : snapshots_lines xs ls -> forall xs', snapshots_lines xs' ls -> xs = xs'.
Proof.
  induction 1 as [cs C|x xs u ls H H2 IH]; intros xs' H'.
  - apply snapshots_inv in H'. destruct xs' as [|y ys]; auto. destruct H' as (u & v & -> & HY & _). exfalso. apply (snapshot_not_comments y u v); auto.
  - apply snapshots_inv in H'. destruct xs' as [|y ys]. { exfalso. apply (snapshot_not_comments x u ls); auto. }
    destruct H' as (u' & v & E & HY & HYS). destruct (snapshot_prefix_free _ _ _ _ _ _ H HY E) as (<- & <-). apply app_inv_head in E. subst v. f_equal. auto.
Qed.

(** What the loop gathers. *)
Fixpoint gather (index : nat) (acc : list snapshot * list nat * option nat) (xs : list (bool * bool * snapshot)) : list snapshot * list nat * option nat :=
  match xs with
  | [] => acc
  | (det, peak, s) :: xs' =>
      let '(ss, ds, pk) := acc in gather (S index) (ss ++ [s], (if det : bool then ds ++ [index] else ds), if peak : bool then Some index else pk) xs'
  end.

Lemma snapshots_loop_ok : forall fuel ls ctx index ss ds pk, (length ls < fuel)%nat -> content_lines ls (rest ctx) ->
  match snapshots_loop fuel index ss ds pk ctx with
  | Ret r => exists xs, snapshots_lines xs ls /\ r = gather index (ss, ds, pk) xs
  | Raise (ParseError n) => final_fails snapshots_lines ls (lineno ctx) n
  | _ => False
  end.
Proof.
  induction fuel as [|fuel IH]; intros ls ctx index ss ds pk L C. { lia. }
  cbn [snapshots_loop]. pose proof (parse_snapshot_ok ls ctx C) as O.
  destruct (parse_snapshot ctx) as [[[[[det peak] s]|] c1]|[k| |]|]; cbn [pbind]; try contradiction.
  - destruct O as (u & v & -> & C1 & LN & H). rewrite app_length in L.
    assert (LU : (1 <= length u)%nat). { destruct u; [|cbn; lia]. exfalso. apply (snapshot_not_comments _ [] [] H). constructor. }
    specialize (IH v c1 (S index) (ss ++ [s]) (if det then ds ++ [index] else ds) (if peak then Some index else pk) ltac:(lia) C1).
    destruct (snapshots_loop fuel (S index) _ _ _ c1) as [r|[k| |]|]; try contradiction.
    + destruct IH as (xs & HX & ->). exists ((det, peak, s) :: xs). split; [constructor; auto|reflexivity].
    + rewrite LN in IH. destruct IH as (used & V & EN & X). exists (u ++ used). split; [|split].
      * destruct V as (more & xs & OM & HS). exists more, ((det, peak, s) :: xs). split; auto. rewrite <- app_assoc. constructor; auto.
      * rewrite app_length. lia.
      * assert (INV : forall xs w, snapshots_lines xs (u ++ w) -> exists xs', snapshots_lines xs' w).
        { intros xs w HX. apply snapshots_inv in HX. destruct xs as [|y ys].
          - exfalso. apply (snapshot_not_comments _ u w H). auto.
          - destruct HX as (u' & w' & E & HY & HYS). destruct (snapshot_prefix_free _ _ _ _ _ _ H HY E) as (_ & <-). apply app_inv_head in E. subst w'. eauto. }
        destruct X as [(-> & NC)|(l & r & -> & NV)].
        -- left. split; auto. intros xs HX. destruct (INV xs used HX) as (xs' & HX'). apply (NC xs'). auto.
        -- right. exists l, r. rewrite <- app_assoc. split; auto. intros (more & xs & OM & HX). rewrite <- !app_assoc in HX.
           destruct (INV _ _ HX) as (xs' & HX'). apply NV. exists more, xs'. split; auto. rewrite <- app_assoc. auto.
  - exists []. split; [constructor; auto|reflexivity].
  - destruct O as (NCm & F). pose proof F as (used & V & NC & EN & X). pose proof (content_ok _ _ C) as OK. exists used. split; [|split; auto].
    + destruct V as (more & x & OM & HS). exists more, [x]. split; auto. rewrite <- (app_nil_r (used ++ more)). constructor; auto. constructor. auto.
    + destruct X as [->|(l & r & -> & NV)].
      * left. split; auto. intros xs HX. apply snapshots_inv in HX. destruct xs as [|y ys]. { auto. } destruct HX as (u & v & -> & HY & _).
        exact (not_fails snapshot_lines y u v _ k snapshot_prefix_free OK HY F).
      * right. exists l, r. split; auto. intros (more & xs & OM & HX). apply snapshots_inv in HX. destruct xs as [|y ys].
        -- apply NV. apply comments_viable. apply Forall_app in HX. tauto.
        -- destruct HX as (u & v & E & HY & _). destruct (app_split _ _ _ _ (eq_sym E)) as [(e & E1 & E2)|(e & E1 & E2)].
           ++ apply NV. exists e, y. rewrite <- E1. split; auto. rewrite E2 in OM. apply Forall_app in OM. tauto.
           ++ destruct e as [|l' e _] using rev_ind.
              ** rewrite app_nil_r in E1. apply NV. exists [], y. rewrite app_nil_r, E1. auto.
              ** rewrite app_assoc in E1. apply app_inj_tail in E1. destruct E1 as [E1 _]. subst used. rewrite <- app_assoc in F, OK.
                 exact (not_fails snapshot_lines y u (e ++ l :: r) _ k snapshot_prefix_free OK HY F).
Qed.

Lemma positions_cons {A} (f : A -> bool) x xs : positions f (x :: xs) = (if f x then [0%nat] else []) ++ map S (positions f xs).
Proof.
  unfold positions. cbn [length seq filter nth_error]. rewrite <- seq_shift.
  assert (E : forall l, filter (fun i => match nth_error (x :: xs) i with Some x0 => f x0 | None => false end) (map S l) = map S (filter (fun i => match nth_error xs i with Some x0 => f x0 | None => false end) l)).
  { induction l as [|i l IH]; cbn [map filter nth_error]; auto. rewrite IH. destruct (match nth_error xs i with Some x0 => f x0 | None => false end); reflexivity. }
  rewrite E. destruct (f x); reflexivity.
Qed.
Lemma last_of_app a b : last_of (a ++ b) = match last_of b with Some i => Some i | None => last_of a end.
Proof. unfold last_of. rewrite rev_app_distr. destruct (rev b); reflexivity. Qed.

Lemma gather_ok xs : forall index ss ds pk, gather index (ss, ds, pk) xs =
  (ss ++ map snd xs, ds ++ map (fun i => index + i)%nat (positions (fun '(det, _, _) => det) xs),
   match last_of (map (fun i => index + i)%nat (positions (fun '(_, peak, _) => peak) xs)) with Some i => Some i | None => pk end).
Proof.
  induction xs as [|[[det peak] s] xs IH]; intros index ss ds pk; cbn [gather].
  - cbn. rewrite !app_nil_r. reflexivity.
  - rewrite IH, !positions_cons, !map_app, !map_map, last_of_app. cbn [map snd]. rewrite <- app_assoc.
    assert (E : forall l, map (fun i => S index + i)%nat l = map (fun i => index + S i)%nat l) by (intros l; apply map_ext; intros; lia). rewrite !E.
    f_equal; [f_equal|].
    + destruct det; cbn [map app]; [rewrite Nat.add_0_r, <- app_assoc; reflexivity|reflexivity].
    + destruct (last_of _); auto. destruct peak; cbn [map app last_of rev]; [rewrite Nat.add_0_r|]; reflexivity.
Qed.

(** The file as a sequence. *)
Definition desc_facts : (forall n, reads n (need_field (field_text "desc:")) (field (text_field "desc:"))) /\ prefix_free (field (text_field "desc:")) /\ possible (field (text_field "desc:")).
Proof.
  split; [|split].
  - intros n. apply (need_field_reads _ _ (field_text_iff "desc:") (fun a l => text_field_not "desc:" a l eq_refl) (text_field_ex "desc:" eq_refl)).
  - apply (field_prefix_free _ _ (field_text_iff "desc:") (fun a l => text_field_not "desc:" a l eq_refl)).
  - apply (field_possible _ (text_field_ex "desc:" eq_refl)).
Qed.
Definition cmd_facts : (forall n, reads n (need_field (field_text "cmd:")) (field (text_field "cmd:"))) /\ prefix_free (field (text_field "cmd:")) /\ possible (field (text_field "cmd:")).
Proof.
  split; [|split].
  - intros n. apply (need_field_reads _ _ (field_text_iff "cmd:") (fun a l => text_field_not "cmd:" a l eq_refl) (text_field_ex "cmd:" eq_refl)).
  - apply (field_prefix_free _ _ (field_text_iff "cmd:") (fun a l => text_field_not "cmd:" a l eq_refl)).
  - apply (field_possible _ (text_field_ex "cmd:" eq_refl)).
Qed.
Definition unit_facts : (forall n, reads n (need_field field_unit) (field unit_field)) /\ prefix_free (field unit_field) /\ possible (field unit_field).
Proof.
  split; [|split].
  - intros n. apply (need_field_reads _ _ field_unit_iff unit_field_not unit_field_ex).
  - apply (field_prefix_free _ _ field_unit_iff unit_field_not).
  - apply (field_possible _ unit_field_ex).
Qed.

Definition make (desc cmd unit : list Z) (xs : list (bool * bool * snapshot)) : mdata :=
  {| m_desc := desc; m_cmd := cmd; m_unit := unit; m_snapshots := map snd xs; m_detailed := positions (fun '(det, _, _) => det) xs;
     m_peak := last_of (positions (fun '(_, peak, _) => peak) xs) |}.
Definition body_lang (desc cmd unit : list Z) (d : mdata) (ls : list (list Z)) : Prop := exists xs, snapshots_lines xs ls /\ d = make desc cmd unit xs.
Definition file_lang : mdata -> list (list Z) -> Prop :=
  seq_lang (field (text_field "desc:")) (fun desc => seq_lang (field (text_field "cmd:")) (fun cmd => seq_lang (field unit_field) (fun unit => body_lang desc cmd unit))).
Lemma file_lang_iff d ls : file_lang d ls <-> massif_lines d ls.
Proof.
  split.
  - intros (desc & l1 & r1 & -> & H1 & (cmd & l2 & r2 & -> & H2 & (unit & l3 & l4 & -> & H3 & (xs & H4 & ->)))).
    exists l1, l2, l3, l4, xs. repeat (split; auto).
  - intros (l1 & l2 & l3 & l4 & xs & -> & H1 & H2 & H3 & H4 & E1 & E2 & E3).
    exists (m_desc d), l1, (l2 ++ l3 ++ l4). split; auto. split; auto. exists (m_cmd d), l2, (l3 ++ l4). split; auto. split; auto.
    exists (m_unit d), l3, l4. split; auto. split; auto. exists xs. split; auto. destruct d as [a b c s de pk]. cbn in *. subst. reflexivity.
Qed.
Lemma file_lang_fun d d' ls : file_lang d ls -> file_lang d' ls -> d = d'.
Proof.
  intros (desc & l1 & r1 & -> & H1 & (cmd & l2 & r2 & -> & H2 & (unit & l3 & l4 & -> & H3 & (xs & H4 & ->)))).
  intros (desc' & l1' & r1' & E1 & H1' & (cmd' & l2' & r2' & -> & H2' & (unit' & l3' & l4' & -> & H3' & (xs' & H4' & ->)))).
  destruct (proj1 (proj2 desc_facts) _ _ _ _ _ _ H1 H1' E1) as (<- & <-). apply app_inv_head in E1.
  destruct (proj1 (proj2 cmd_facts) _ _ _ _ _ _ H2 H2' E1) as (<- & <-). apply app_inv_head in E1.
  destruct (proj1 (proj2 unit_facts) _ _ _ _ _ _ H3 H3' E1) as (<- & <-). apply app_inv_head in E1. subst l4'.
  rewrite (snapshots_fun xs l4 H4 xs' H4'). reflexivity.
Qed.
Lemma body_possible desc cmd unit : possible (body_lang desc cmd unit).
Proof. exists (make desc cmd unit []), []. split; auto. exists []. split; auto. constructor. auto. Qed.

Lemma parse_ok ls content : content_lines ls content ->
  match massif_parse content with
  | Ret d => massif_lines d ls
  | Raise (ParseError n) => final_fails massif_lines ls 0 n
  | _ => False
  end.
Proof.
  intros C. pose proof (content_ok _ _ C) as OK.
  enough (G : match massif_parse content with Ret d => file_lang d ls | Raise (ParseError n) => final_fails file_lang ls 0 n | _ => False end).
  { destruct (massif_parse content) as [d|[n| |]|]; auto. { apply file_lang_iff. auto. } apply (final_iff _ _ _ _ _ file_lang_iff). auto. }
  unfold massif_parse. cbv zeta. set (c0 := {| rest := content; lineno := 0 |}).
  pose proof (proj1 desc_facts (S (length ls)) c0 ls (le_n _) C) as O.
  assert (PU : forall desc cmd, possible (seq_lang (field unit_field) (fun unit => body_lang desc cmd unit))).
  { intros. apply seq_possible; [apply unit_facts|]. intros. apply body_possible. }
  assert (PC : forall desc, possible (seq_lang (field (text_field "cmd:")) (fun cmd => seq_lang (field unit_field) (fun unit => body_lang desc cmd unit)))).
  { intros. apply seq_possible; [apply cmd_facts|]. intros. apply PU. }
  destruct (need_field (field_text "desc:") c0) as [[desc c1]|[k| |]|]; cbn [pbind outcome] in *; try contradiction.
  2:{ apply fails_final. apply fails_seq1; auto. apply desc_facts. }
  destruct O as (l1 & r1 & -> & C1 & LN1 & H1). apply Forall_app in OK. destruct OK as [_ OK].
  pose proof (proj1 cmd_facts (S (length r1)) c1 r1 (le_n _) C1) as O.
  destruct (need_field (field_text "cmd:") c1) as [[cmd c2]|[k| |]|]; cbn [pbind outcome] in *; try contradiction.
  2:{ apply (final_seq2 _ _ desc); [apply desc_facts|exact H1|]. cbn [lineno] in LN1. rewrite LN1 in O. apply fails_final. apply fails_seq1; auto. apply cmd_facts. }
  destruct O as (l2 & r2 & -> & C2 & LN2 & H2). apply Forall_app in OK. destruct OK as [_ OK].
  pose proof (proj1 unit_facts (S (length r2)) c2 r2 (le_n _) C2) as O.
  destruct (need_field field_unit c2) as [[unit c3]|[k| |]|]; cbn [pbind outcome] in *; try contradiction.
  2:{ apply (final_seq2 _ _ desc); [apply desc_facts|exact H1|]. apply (final_seq2 _ _ cmd); [apply cmd_facts|exact H2|].
      rewrite LN2, LN1 in O. apply fails_final. apply fails_seq1; auto; [apply unit_facts|]. intros. apply body_possible. }
  destruct O as (l3 & l4 & -> & C3 & LN3 & H3).
  pose proof (content_length _ _ C3) as L3.
  pose proof (snapshots_loop_ok (S (S (length (rest c3)))) l4 c3 0 [] [] None ltac:(lia) C3) as O.
  destruct (snapshots_loop (S (S (length (rest c3)))) 0 [] [] None c3) as [[[ss ds] pk]|[k| |]|]; cbn [pbind] in *; try contradiction.
  - destruct O as (xs & HX & E). rewrite gather_ok in E. cbn [app] in E.
    assert (M : forall l, map (fun i => 0 + i)%nat l = l) by (intros l; rewrite <- (map_id l) at 2; apply map_ext; reflexivity). rewrite !M in E.
    injection E as -> -> ->. exists desc, l1, (l2 ++ l3 ++ l4). split; auto. split; auto. exists cmd, l2, (l3 ++ l4). split; auto. split; auto.
    exists unit, l3, l4. split; auto. split; auto. exists xs. split; auto. unfold make. destruct (last_of _); reflexivity.
  - apply (final_seq2 _ _ desc); [apply desc_facts|exact H1|]. apply (final_seq2 _ _ cmd); [apply cmd_facts|exact H2|].
    apply (final_seq2 _ _ unit); [apply unit_facts|exact H3|]. rewrite LN3, LN2, LN1 in O. cbn [lineno] in O.
    assert (I : forall d ls, (exists xs, snapshots_lines xs ls /\ d = make desc cmd unit xs) <-> body_lang desc cmd unit d ls) by (intros; reflexivity).
    destruct O as (used & V & EN & X). exists used. split; [|split; auto].
    + destruct V as (more & xs & OM & HX). exists more, (make desc cmd unit xs). split; auto. exists xs. auto.
    + destruct X as [(-> & NC)|(l & r & -> & NV)].
      * left. split; auto. intros d (xs & HX & _). apply (NC xs). auto.
      * right. exists l, r. split; auto. intros (more & d & OM & (xs & HX & _)). apply NV. exists more, xs. auto.
Qed.
