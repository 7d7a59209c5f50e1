(** C69: what the script of the memory benchmark computes from the files of massif. *)
From Coq Require Import String Ascii.
From Verif Require Import Base BaseLemmas KatMain KatSpec KatTextProofs Massif MassifSpec MassifProofs MassifFile.
Local Open Scope list_scope.

(** Every text has lines, and only one sequence of them. *)
Theorem C69_lines : forall content, exists ls, content_lines ls content /\ forall ls', content_lines ls' content -> ls' = ls.
Proof.
  intros content. destruct (content_exists content) as (ls & H). exists ls. split; auto. revert content H.
  induction ls as [|l ls IH]; intros content H ls' H'.
  - apply content_nil in H. subst content. destruct ls' as [|l' ls']; auto. destruct (content_cons _ _ _ H') as (_ & [(r & E & _)|(E & N & _)]); [destruct l'; discriminate|congruence].
  - destruct ls' as [|l' ls'].
    { apply content_nil in H'. subst content. destruct (content_cons _ _ _ H) as (_ & [(r & E & _)|(E & N & _)]); [destruct l; discriminate|congruence]. }
    assert (SP : forall a r b r', line_ok a -> line_ok b -> a ++ 10 :: r = b ++ 10 :: r' -> a = b /\ r = r').
    { clear. intros a r b r' A B E. pose proof (readline_line a r A) as X. rewrite E, (readline_line b r' B) in X. injection X as X ->. apply app_inj_tail in X. destruct X as [-> _]. auto. }
    destruct (content_cons _ _ _ H) as (O & [(r & E & R)|(E & N & ->)]); destruct (content_cons _ _ _ H') as (O' & [(r' & E' & R')|(E' & N' & ->)]).
    + rewrite E in E'. destruct (SP _ _ _ _ O O' E') as (-> & ->). f_equal. eapply IH; eauto.
    + exfalso. apply O'. rewrite <- E', E. apply in_app_iff. cbn. auto.
    + exfalso. apply O. rewrite <- E, E'. apply in_app_iff. cbn. auto.
    + congruence.
Qed.

(** The parser returns the data of the file exactly if the text is a massif file. Otherwise it raises an error, with the number of the first
    line that no massif file has there after the lines before it; or, if the text is the beginning of a massif file, with one more than
    the number of lines. *)
Theorem C69_parse : forall content ls, content_lines ls content ->
  (forall d, massif_parse content = Ret d <-> massif_lines d ls) /\
  (forall n, massif_parse content = Raise (ParseError n) <->
     exists good, n = S (length good) /\ viable massif_lines good /\
       ((ls = good /\ forall d, ~ massif_lines d ls) \/ exists l more, ls = good ++ l :: more /\ ~ viable massif_lines (good ++ [l]))) /\
  ((exists d, massif_parse content = Ret d) \/ exists n, massif_parse content = Raise (ParseError n)).
Proof.
  intros content ls C. pose proof (parse_ok ls content C) as P. pose proof (content_ok _ _ C) as OK. split; [|split].
  - intros d. split.
    + intros E. rewrite E in P. auto.
    + intros H. destruct (massif_parse content) as [d'|[n| |]|]; try contradiction.
      * f_equal. apply file_lang_iff in H, P. apply (file_lang_fun d' d ls); auto.
      * exfalso. exact (final_not massif_lines d ls 0 n OK H P).
  - intros n. split.
    + intros E. rewrite E in P. destruct P as (used & V & EN & X). exists used. split; auto.
    + intros (good & -> & V & X). destruct (massif_parse content) as [d|[n| |]|]; try contradiction.
      * exfalso. apply (final_not massif_lines d ls 0 (S (length good)) OK P). exists good. split; auto.
      * f_equal. f_equal. destruct P as (used & V' & -> & X'). cbn [plus]. f_equal.
        assert (PR : forall a b r, Forall line_ok b -> viable massif_lines b -> b = a ++ r -> viable massif_lines a).
        { intros a b r OB (m & d & OM & H) ->. exists (r ++ m), d. split. { apply Forall_app in OB. apply Forall_app. tauto. } rewrite app_assoc. auto. }
        assert (LE : forall u v, viable massif_lines u -> (exists r, ls = u ++ r) ->
          ((ls = v /\ forall d, ~ massif_lines d ls) \/ exists l more, ls = v ++ l :: more /\ ~ viable massif_lines (v ++ [l])) -> (length u <= length v)%nat).
        { intros u v VU (r & E) [(-> & _)|(l & more & E2 & NV)].
          - rewrite E, app_length. lia.
          - rewrite E in E2. destruct (app_split _ _ _ _ E2) as [(e & -> & E3)|(e & -> & _)]; [|rewrite app_length; lia].
            destruct e as [|l' e]; [rewrite app_nil_r; lia|]. exfalso. cbn [app] in E3. injection E3 as <- _. apply NV.
            apply (PR (v ++ [l]) (v ++ l :: e) e); auto. { rewrite E in OK. apply Forall_app in OK. tauto. } rewrite <- app_assoc. reflexivity. }
        assert (P1 : exists r, ls = used ++ r) by (destruct X' as [(-> & _)|(l & more & -> & _)]; [exists []; rewrite app_nil_r; auto|eauto]).
        assert (P2 : exists r, ls = good ++ r) by (destruct X as [(-> & _)|(l & more & -> & _)]; [exists []; rewrite app_nil_r; auto|eauto]).
        pose proof (LE used good V' P1 X). pose proof (LE good used V P2 X'). lia.
  - destruct (massif_parse content) as [d|[n| |]|]; try contradiction; eauto.
Qed.

(** The analysis yields the largest heap and the largest stack of the snapshots. *)
Lemma fold_largest (f g : snapshot -> Z) l : Forall (fun s => 0 <= f s /\ 0 <= g s) l ->
  let '(a, b) := fold_left (fun '(a, b) s => (if a <? f s then f s else a, if b <? g s then g s else b)) l (0, 0) in
  largest (map f l) a /\ largest (map g l) b.
Proof.
  assert (G : forall l a b, Forall (fun s => 0 <= f s /\ 0 <= g s) l -> 0 <= a -> 0 <= b ->
    let '(x, y) := fold_left (fun '(a, b) s => (if a <? f s then f s else a, if b <? g s then g s else b)) l (a, b) in
    (a <= x /\ Forall (fun v => v <= x) (map f l) /\ (x = a \/ In x (map f l))) /\ (b <= y /\ Forall (fun v => v <= y) (map g l) /\ (y = b \/ In y (map g l)))).
  { clear l. induction l as [|s l IH]; intros a b F HA HB; cbn [fold_left map]. { repeat split; auto; lia. }
    inversion F as [|? ? [F1 F2] FR]; subst.
    specialize (IH (if a <? f s then f s else a) (if b <? g s then g s else b) FR). destruct (fold_left _ l _) as [x y].
    destruct IH as ((A1 & A2 & A3) & (B1 & B2 & B3)); [destruct (Z.ltb_spec a (f s)); lia|destruct (Z.ltb_spec b (g s)); lia|].
    split.
    - destruct (Z.ltb_spec a (f s)); split; try lia; (split; [constructor; [lia|auto]|]); cbn [In]; destruct A3; auto.
    - destruct (Z.ltb_spec b (g s)); split; try lia; (split; [constructor; [lia|auto]|]); cbn [In]; destruct B3; auto. }
  intros F. specialize (G l 0 0 F ltac:(lia) ltac:(lia)). destruct (fold_left _ l (0, 0)) as [x y]. destruct G as ((A1 & A2 & A3) & (B1 & B2 & B3)).
  assert (K : forall (h : snapshot -> Z) v, Forall (fun s => 0 <= h s) l -> 0 <= v -> Forall (fun w => w <= v) (map h l) -> v = 0 \/ In v (map h l) -> largest (map h l) v).
  { intros h v FN HV FM [->|I]; [|right; auto]. destruct l as [|s r]; [left; auto|]. right. split; auto. left.
    inversion FM; inversion FN; subst. lia. }
  split; apply K; auto; eapply Forall_impl; try exact F; cbn; intros; lia.
Qed.
Lemma largest_fun l a b : largest l a -> largest l b -> a = b.
Proof.
  intros [[-> ->]|[I F]] [[E ->]|[I' F']]; auto; try (subst; destruct I); try (destruct I').
  rewrite Forall_forall in *. pose proof (F _ I'). pose proof (F' _ I). lia.
Qed.
Lemma snapshots_nonneg xs ls : snapshots_lines xs ls -> Forall (fun s => 0 <= s_heap s /\ 0 <= s_stack s) (map snd xs).
Proof.
  induction 1 as [|[[det pk] s] xs u ls H _ IH]; cbn [map snd]; constructor; auto.
  destruct H as (l1 & l2 & l3 & l4 & l5 & l6 & lt & w & _ & _ & _ & H3 & _ & H5 & _).
  assert (N : forall key v l, field (number_field key) v l -> 0 <= v).
  { intros key v l (cs & l' & _ & _ & (d & r & _ & (_ & F & ->) & _)). apply value_nonneg. auto. }
  split; [eapply N; exact H3|eapply N; exact H5].
Qed.

Theorem C69_analyse : forall content ls, content_lines ls content -> forall heap stack,
  massif_analyse content = Ret (heap, stack) <->
  exists d, massif_lines d ls /\ largest (map s_heap (m_snapshots d)) heap /\ largest (map s_stack (m_snapshots d)) stack.
Proof.
  intros content ls C heap stack. destruct (C69_parse content ls C) as (PD & _ & _). unfold massif_analyse. split.
  - destruct (massif_parse content) as [d| |] eqn:E; cbn [pbind]; try discriminate. intros R. injection R as R. exists d.
    assert (H : massif_lines d ls) by (apply PD; auto). split; auto. destruct H as (l1 & l2 & l3 & l4 & xs & _ & _ & _ & _ & HX & E1 & _ & _).
    pose proof (fold_largest s_heap s_stack (m_snapshots d)) as G. rewrite R in G. apply G. rewrite E1. apply (snapshots_nonneg xs l4). auto.
  - intros (d & H & L1 & L2). rewrite (proj2 (PD d) H). cbn [pbind]. destruct H as (l1 & l2 & l3 & l4 & xs & _ & _ & _ & _ & HX & E1 & _ & _).
    pose proof (fold_largest s_heap s_stack (m_snapshots d)) as G. destruct (fold_left _ (m_snapshots d) (0, 0)) as [a b].
    destruct G as (G1 & G2). { rewrite E1. apply (snapshots_nonneg xs l4). auto. }
    rewrite (largest_fun _ _ _ L1 G1), (largest_fun _ _ _ L2 G2). reflexivity.
Qed.

(** *** The table *)

(** An entry of nested dictionaries. *)
Fixpoint find_key {K V} (dec : forall a b : K, {a = b} + {a <> b}) (d : list (K * V)) (k : K) : option V :=
  match d with [] => None | (k', v) :: d' => if dec k' k then Some v else find_key dec d' k end.
Definition text_dec := list_eq_dec Z.eq_dec.
Definition entry (t : table) (cat : Z) (kind method : list Z) : option Z :=
  match find_key Z.eq_dec t cat with
  | Some ks => match find_key text_dec ks kind with Some ms => find_key text_dec ms method | None => None end
  | None => None
  end.
Definition present (t : table) (cat : Z) (kind : list Z) : Prop :=
  exists ks ms, find_key Z.eq_dec t cat = Some ks /\ find_key text_dec ks kind = Some ms.

Lemma set_method_find d m v m' : find_key text_dec (set_method d m v) m' = if text_dec m m' then Some v else find_key text_dec d m'.
Proof.
  induction d as [|[k w] d IH]; cbn [set_method find_key]. { destruct (text_dec m m'); reflexivity. }
  unfold same_key. fold text_dec. destruct (text_dec k m) as [->|NE]; cbn [find_key].
  - destruct (text_dec m m'); reflexivity.
  - rewrite IH. destruct (text_dec k m') as [->|]; auto. destruct (text_dec m m'); congruence.
Qed.
Lemma set_kind_find d k m v ms : find_key text_dec d k = Some ms ->
  exists d', set_kind d k m v = Ret d' /\ forall k', find_key text_dec d' k' = if text_dec k k' then Some (set_method ms m v) else find_key text_dec d k'.
Proof.
  induction d as [|[k0 w] d IH]; cbn [set_kind find_key]; [discriminate|]. unfold same_key. fold text_dec. destruct (text_dec k0 k) as [->|NE].
  - intros E. injection E as ->. eexists. split; [reflexivity|]. intros k'. cbn [find_key]. destruct (text_dec k k'); reflexivity.
  - intros E. destruct (IH E) as (d' & -> & F). cbn [pbind]. eexists. split; [reflexivity|]. intros k'. cbn [find_key]. rewrite F.
    destruct (text_dec k0 k') as [->|]; auto. destruct (text_dec k k'); congruence.
Qed.
Lemma set_value_find t c k m v : present t c k ->
  exists t', set_value t c k m v = Ret t' /\ (forall c' k', present t' c' k' <-> present t c' k') /\
    forall c' k' m', entry t' c' k' m' = if Z.eq_dec c c' then if text_dec k k' then if text_dec m m' then Some v else entry t c' k' m' else entry t c' k' m' else entry t c' k' m'.
Proof.
  intros (ks & ms & F1 & F2). destruct (set_kind_find ks k m v ms F2) as (ks' & E & FK).
  assert (G : forall t, find_key Z.eq_dec t c = Some ks -> exists t', set_value t c k m v = Ret t' /\ forall c', find_key Z.eq_dec t' c' = if Z.eq_dec c c' then Some ks' else find_key Z.eq_dec t c').
  { clear t F1. induction t as [|[c0 w] t IH]; cbn [set_value find_key]; [discriminate|]. destruct (Z.eq_dec c0 c) as [->|NE].
    - intros X. injection X as ->. rewrite Z.eqb_refl, E. cbn [pbind]. eexists. split; [reflexivity|]. intros c'. cbn [find_key]. destruct (Z.eq_dec c c'); reflexivity.
    - intros X. destruct (IH X) as (t' & E' & F). destruct (Z.eqb_spec c0 c); [contradiction|]. rewrite E'. cbn [pbind]. eexists. split; [reflexivity|].
      intros c'. cbn [find_key]. rewrite F. destruct (Z.eq_dec c0 c') as [->|]; auto. destruct (Z.eq_dec c c'); congruence. }
  destruct (G t F1) as (t' & E' & FC). exists t'. split; auto. split.
  - intros c' k'. unfold present. rewrite FC. destruct (Z.eq_dec c c') as [<-|]; [|reflexivity]. split.
    + intros (a & b & A & B). injection A as <-. rewrite FK in B. destruct (text_dec k k') as [<-|]; [exists ks, ms; auto|exists ks, b; auto].
    + intros (a & b & A & B). rewrite F1 in A. injection A as <-. pose proof (FK k') as FK'. destruct (text_dec k k') as [<-|]; [exists ks', (set_method ms m v)|exists ks', b]; split; auto; congruence.
  - intros c' k' m'. unfold entry. rewrite FC. destruct (Z.eq_dec c c') as [<-|]; [|reflexivity]. rewrite FK, F1.
    destruct (text_dec k k') as [<-|]; [|reflexivity]. rewrite set_method_find, F2. reflexivity.
Qed.

(** File names. *)
Definition is_massif (name : list Z) : Prop := exists base, name = base ++ text ".massif".
Lemma ends_with_iff dir name : ends_with (str ".massif") (dir ++ str "/" ++ name) = true <-> is_massif name.
Proof.
  rewrite !str_text. set (m := text ".massif"). assert (EW : forall l, ends_with m l = true <-> exists b, l = b ++ m).
  { intros l. unfold ends_with, same_key. rewrite Bool.andb_true_iff, Nat.leb_le. split.
    - intros [H L]. destruct (list_eq_dec Z.eq_dec _ m) as [E|]; [|discriminate]. exists (firstn (length l - length m) l). rewrite <- E at 2. symmetry. apply firstn_skipn.
    - intros (b & ->). rewrite app_length. split; [|lia]. replace (length b + length m - length m)%nat with (length b) by lia. rewrite skipn_app, skipn_all, Nat.sub_diag. cbn [app skipn].
      destruct (list_eq_dec Z.eq_dec m m); auto. }
  rewrite EW. unfold is_massif. fold m. split.
  - intros (b & E). rewrite app_assoc in E. destruct (app_split _ _ _ _ (eq_sym E)) as [(e & _ & EM)|(e & E1 & EM)].
    + exists e. exact EM.
    + destruct e as [|z e _] using rev_ind. { exists []. symmetry. exact EM. }
      exfalso. rewrite app_assoc in E1. apply app_inj_tail in E1. destruct E1 as [_ <-].
      assert (N : ~ In 47 m) by (vm_compute; intuition discriminate). apply N. rewrite EM. rewrite !in_app_iff. cbn. auto.
  - intros (b & ->). exists ((dir ++ text "/") ++ b). rewrite <- !app_assoc. reflexivity.
Qed.

Lemma split_none c l : ~ In c l -> split_at c l = [l].
Proof.
  induction l as [|a l IH]; intros N; cbn [split_at]; auto. destruct (Z.eqb_spec a c) as [->|]; [exfalso; apply N; left; auto|].
  rewrite IH; auto. intros I. apply N. right. auto.
Qed.
Lemma split_first c a r : ~ In c a -> split_at c (a ++ c :: r) = a :: split_at c r.
Proof.
  induction a as [|x a IH]; intros N; cbn [app split_at]. { rewrite Z.eqb_refl. auto. }
  destruct (Z.eqb_spec x c) as [->|]; [exfalso; apply N; left; auto|]. rewrite IH; auto. intros I. apply N. right. auto.
Qed.
Lemma digits_no l c : Forall digit l -> ~ digit c -> ~ In c l.
Proof. intros F N I. rewrite Forall_forall in F. auto. Qed.
Lemma int_string_ok l v : numeral l v -> int_string l = Ret v.
Proof.
  intros (NE & F & ->). unfold int_string.
  assert (SP : forall l, Forall digit l -> snd (span py_space l) = l).
  { clear. intros l F. destruct F as [|c l H F]; auto. cbn [span]. destruct (py_space c) eqn:E; auto. apply space_iff in E. red in H, E. lia. }
  rewrite (SP l F), (SP (rev l)) by (apply Forall_forall; intros x I; rewrite Forall_forall in F; apply F, in_rev; auto). rewrite rev_involutive.
  assert (FB : forallb is_digit l = true) by (apply forallb_forall; intros x I; apply digit_iff; rewrite Forall_forall in F; auto).
  destruct l as [|c l]; [congruence|]. inversion F as [|? ? H _]; subst. red in H.
  assert (E : (match c :: l with 43 :: r => (1, r) | 45 :: r => (-1, r) | _ => (1, c :: l) end) = (1, c :: l)).
  { destruct c as [|q|q]; auto. do 6 (destruct q as [q|q|]; auto; try lia). }
  rewrite E, FB, int_digits_value. f_equal. lia.
Qed.

Lemma pieces_ok name cat kind method : file_name name cat kind method ->
  exists c m, match split_at 95 name with
    | [_; _; cat; kind; method] => Ret (cat, kind, method)
    | [_; _; cat; kind; kind_2; method] => Ret (cat, kind ++ str "_" ++ kind_2, method)
    | _ => Raise ValueError
    end = Ret (c, kind, m) /\ hd [] (split_at 46 m) = method /\ int_string c = Ret cat.
Proof.
  intros (a & b & c & sx & -> & NA & NB & NC & NK & NM & DM & NS & SX). change (text "_") with [95]. cbn [app].
  assert (CU : ~ In 95 c) by (destruct NC as (_ & F & _); apply (digits_no _ _ F); unfold digit; lia).
  exists c, (method ++ sx). split; [|split].
  - rewrite (split_first 95 a) by exact NA. rewrite (split_first 95 b) by exact NB. rewrite (split_first 95 c) by exact CU.
    assert (L : split_at 95 (method ++ sx) = [method ++ sx]).
    { apply split_none. intros I. apply in_app_iff in I. destruct I; [apply NM|apply NS]; auto. }
    destruct NK as [NK|(k1 & k2 & -> & N1 & N2)].
    + rewrite (split_first 95 kind) by exact NK. rewrite L. reflexivity.
    + rewrite <- app_assoc. change (text "_") with [95]. cbn [app]. rewrite (split_first 95 k1) by exact N1. rewrite (split_first 95 k2) by exact N2. rewrite L. reflexivity.
  - destruct SX as [->|(r & ->)].
    + rewrite app_nil_r, split_none by auto. reflexivity.
    + change (text ".") with [46]. cbn [app]. rewrite split_first by auto. reflexivity.
  - apply int_string_ok. auto.
Qed.

(** The categories and names of parameters that the table has, and the largest stack of a file. *)
Definition known (cat : Z) (kind : list Z) : Prop := In cat [1; 3; 5] /\ In kind [text "INTERMEDIATE"; text "SHORT_SIG"; text "BALANCED"].
Definition stack_of (content : list Z) (stack : Z) : Prop :=
  exists ls d, content_lines ls content /\ massif_lines d ls /\ largest (map s_stack (m_snapshots d)) stack.
Definition good_file (f : file) : Prop :=
  let '(_, name, content) := f in
  is_massif name -> exists cat kind method stack, file_name name cat kind method /\ known cat kind /\ stack_of content stack.
(** [f] is a file about [cat], [kind] and [method]. *)
Definition about (f : file) (cat : Z) (kind method : list Z) : Prop := let '(_, name, _) := f in is_massif name /\ file_name name cat kind method.

Lemma file_name_fun name c k m c' k' m' : file_name name c k m -> file_name name c' k' m' -> c = c' /\ k = k' /\ m = m'.
Proof.
  intros H H'. destruct (pieces_ok _ _ _ _ H) as (x & y & E1 & E2 & E3). destruct (pieces_ok _ _ _ _ H') as (x' & y' & E1' & E2' & E3').
  rewrite E1 in E1'. injection E1' as <- <- <-. rewrite E3 in E3'. injection E3' as <-. split; auto. split; auto. congruence.
Qed.
Lemma stack_of_analyse content stack : stack_of content stack -> exists heap, massif_analyse content = Ret (heap, stack).
Proof.
  intros (ls & d & C & H & L). destruct H as (l1 & l2 & l3 & l4 & xs & H0).
  pose proof (fold_largest s_heap s_stack (m_snapshots d)) as G. destruct (fold_left _ (m_snapshots d) (0, 0)) as [a b].
  destruct G as (G1 & G2). { destruct H0 as (_ & _ & _ & _ & HX & -> & _). apply (snapshots_nonneg xs l4). auto. }
  exists a. apply (C69_analyse content ls C). exists d. split; [exists l1, l2, l3, l4, xs; exact H0|]. auto.
Qed.

(** If every massif file has such a name and content, the script ends without an exception. Each entry of the table is then the largest stack
    of the last file about it, and what it was initially if there is none. *)
Theorem C69_table : forall fs, Forall good_file fs ->
  exists t, bench_main fs = Ret t /\ forall cat kind method,
    (forall before f after stack, fs = before ++ f :: after -> about f cat kind method -> Forall (fun g => ~ about g cat kind method) after ->
       stack_of (snd f) stack -> entry t cat kind method = Some stack) /\
    (Forall (fun g => ~ about g cat kind method) fs ->
       entry t cat kind method = if in_dec text_dec method [text "keygen"; text "sign"; text "verify"] then
                                   if in_dec Z.eq_dec cat [1; 3; 5] then
                                     if in_dec text_dec kind [text "INTERMEDIATE"; text "SHORT_SIG"; text "BALANCED"] then Some 0 else None
                                   else None
                                 else None).
Proof.
  assert (G : forall fs t0, Forall good_file fs -> (forall cat kind, known cat kind -> present t0 cat kind) ->
    exists t, bench_loop t0 fs = Ret t /\ forall cat kind method,
    (forall before f after stack, fs = before ++ f :: after -> about f cat kind method -> Forall (fun g => ~ about g cat kind method) after ->
       stack_of (snd f) stack -> entry t cat kind method = Some stack) /\
    (Forall (fun g => ~ about g cat kind method) fs -> entry t cat kind method = entry t0 cat kind method)).
  { induction fs as [|f fs IH]; intros t0 GF KP; cbn [bench_loop].
    - exists t0. split; auto. intros cat kind method. split; auto. intros before f after stack E. destruct before; discriminate.
    - inversion GF as [|? ? GF1 GF2]; subst. destruct f as [[dir name] content].
      assert (ST : exists t1, bench_file t0 (dir, name, content) = Ret t1 /\ (forall cat kind, present t1 cat kind <-> present t0 cat kind) /\
        forall cat kind method, (about (dir, name, content) cat kind method -> forall stack, stack_of content stack -> entry t1 cat kind method = Some stack) /\
          (~ about (dir, name, content) cat kind method -> entry t1 cat kind method = entry t0 cat kind method)).
      { unfold bench_file. destruct (ends_with (str ".massif") (dir ++ str "/" ++ name)) eqn:EW.
        - apply ends_with_iff in EW. destruct (GF1 EW) as (cat & kind & method & stack & FN & KN & SO).
          destruct (pieces_ok _ _ _ _ FN) as (c & m & -> & E2 & E3). cbn [pbind]. rewrite E3. cbn [pbind]. destruct (stack_of_analyse _ _ SO) as (heap & EA). rewrite EA. cbn [pbind].
          rewrite E2. destruct (set_value_find t0 cat kind method stack (KP _ _ KN)) as (t1 & E1 & PR & FE). exists t1. split; auto. split; auto.
          intros cat' kind' method'. rewrite FE. split.
          + intros (_ & FN') stack' SO'. destruct (file_name_fun _ _ _ _ _ _ _ FN FN') as (<- & <- & <-).
            destruct (Z.eq_dec cat cat); [|congruence]. destruct (text_dec kind kind); [|congruence]. destruct (text_dec method method); [|congruence].
            destruct (stack_of_analyse _ _ SO') as (heap' & EA'). congruence.
          + intros NA. destruct (Z.eq_dec cat cat') as [<-|]; auto. destruct (text_dec kind kind') as [<-|]; auto. destruct (text_dec method method') as [<-|]; auto.
            exfalso. apply NA. split; auto.
        - exists t0. split; auto. split; [reflexivity|]. intros cat kind method. split; auto. intros (IM & _). apply (ends_with_iff dir) in IM. congruence. }
      destruct ST as (t1 & -> & PR & FE). cbn [pbind]. destruct (IH t1 GF2) as (t & E & FT). { intros cat kind KN. apply PR. auto. }
      exists t. split; auto. intros cat kind method. destruct (FT cat kind method) as (FT1 & FT2). split.
      + intros before f after stack EQ AB NA SO. destruct before as [|b before]; injection EQ as <- EQ.
        * subst after. rewrite (FT2 NA). apply (proj1 (FE cat kind method)); auto.
        * apply (FT1 before f after stack); auto.
      + intros NA. inversion NA; subst. rewrite FT2 by auto. apply FE. auto. }
  intros fs GF. destruct (G fs values GF) as (t & E & FT).
  { intros cat kind (IC & IK). cbn in IC, IK.
    destruct IC as [<-|[<-|[<-|[]]]]; destruct IK as [<-|[<-|[<-|[]]]]; eexists; eexists; split; reflexivity. }
  exists t. split; auto. intros cat kind method. destruct (FT cat kind method) as (FT1 & FT2). split; auto. intros NA. rewrite (FT2 NA). clear.
  assert (FK : forall ks kind, ks = zero_kinds -> match find_key text_dec ks kind with Some ms => find_key text_dec ms method | None => None end =
    if in_dec text_dec method [text "keygen"; text "sign"; text "verify"] then if in_dec text_dec kind [text "INTERMEDIATE"; text "SHORT_SIG"; text "BALANCED"] then Some 0 else None else None).
  { intros ks k ->.
    assert (FM : find_key text_dec zero_methods method = if in_dec text_dec method [text "keygen"; text "sign"; text "verify"] then Some 0 else None).
    { unfold zero_methods. rewrite !str_text. cbn [find_key]. destruct (in_dec text_dec method _) as [I|I]; cbn [In] in I;
        repeat match goal with |- context [text_dec ?a ?b] => destruct (text_dec a b) end; auto; exfalso; tauto. }
    unfold zero_kinds. rewrite !str_text. cbn [find_key]. destruct (in_dec text_dec k _) as [I|I]; cbn [In] in I;
      repeat match goal with |- context [text_dec ?a k] => destruct (text_dec a k) end; rewrite ?FM; destruct (in_dec text_dec method _); auto; exfalso; tauto. }
  unfold entry, values. cbn [find_key].
  destruct (in_dec Z.eq_dec cat [1; 3; 5]) as [I|I]; cbn [In] in I; repeat match goal with |- context [Z.eq_dec ?a cat] => destruct (Z.eq_dec a cat) end;
    try (rewrite (FK zero_kinds kind eq_refl); reflexivity); try (exfalso; tauto). destruct (in_dec text_dec method _); reflexivity.
Qed.

(** The files that bench.sh makes, in any order and with any other files around: each of the 21 entries becomes the largest stack of its program. The
    entries of the two sets that do not exist stay 0. *)
Definition sets : list (Z * string) :=
  [(1, "SHORT_SIG"); (1, "INTERMEDIATE"); (1, "BALANCED"); (3, "SHORT_SIG"); (3, "BALANCED"); (5, "SHORT_SIG"); (5, "BALANCED")]%string.
Definition program_file (cat : Z) (kind method : string) : list Z := target_name cat kind method ++ text ".massif".

Lemma print_small : print_dec 1 = [49] /\ print_dec 3 = [51] /\ print_dec 5 = [53].
Proof. vm_compute. auto. Qed.
Definition no_char (c : Z) (l : list Z) : bool := negb (existsb (Z.eqb c) l).
Lemma no_char_ok c l : no_char c l = true -> ~ In c l.
Proof. unfold no_char. rewrite Bool.negb_true_iff. intros H I. assert (X : existsb (Z.eqb c) l = true) by (apply existsb_exists; exists c; split; auto; apply Z.eqb_refl). congruence. Qed.

Lemma program_name cat kind method : In (cat, kind) sets -> In method ["keygen"; "sign"; "verify"]%string ->
  file_name (program_file cat kind method) cat (text kind) (text method) /\ known cat (text kind).
Proof.
  intros IS IM.
  assert (M : no_underscore (text method) /\ ~ In 46 (text method)).
  { cbn [In] in IM. destruct IM as [<-|[<-|[<-|[]]]]; split; apply no_char_ok; reflexivity. }
  assert (K : (no_underscore (text kind) \/ exists k1 k2, text kind = k1 ++ text "_" ++ k2 /\ no_underscore k1 /\ no_underscore k2) /\ known cat (text kind) /\ numeral (print_dec cat) cat).
  { destruct print_small as (P1 & P3 & P5). unfold sets in IS. cbn [In] in IS.
    assert (N1 : numeral (print_dec 1) 1) by (rewrite P1; split; [discriminate|split; [constructor; [red; lia|auto]|reflexivity]]).
    assert (N3 : numeral (print_dec 3) 3) by (rewrite P3; split; [discriminate|split; [constructor; [red; lia|auto]|reflexivity]]).
    assert (N5 : numeral (print_dec 5) 5) by (rewrite P5; split; [discriminate|split; [constructor; [red; lia|auto]|reflexivity]]).
    assert (SH : exists k1 k2, text "SHORT_SIG" = k1 ++ text "_" ++ k2 /\ no_underscore k1 /\ no_underscore k2).
    { exists (text "SHORT"), (text "SIG"). split; [reflexivity|]. split; apply no_char_ok; reflexivity. }
    assert (IN : no_underscore (text "INTERMEDIATE")) by (apply no_char_ok; reflexivity).
    assert (BA : no_underscore (text "BALANCED")) by (apply no_char_ok; reflexivity).
    destruct IS as [E|[E|[E|[E|[E|[E|[E|[]]]]]]]]; injection E as <- <-; (split; [auto|]); (split; [split; cbn [In]; auto|auto]). }
  destruct K as (K1 & K2 & K3). split; auto. destruct M as (M1 & M2). unfold program_file, target_name. rewrite !str_text.
  exists (text "LESS"), (text "memory"), (print_dec cat), (text ".massif"). split.
  { change (text "LESS_memory_") with (text "LESS" ++ text "_" ++ text "memory" ++ text "_"). rewrite <- !app_assoc. reflexivity. }
  split; [apply no_char_ok; reflexivity|]. split; [apply no_char_ok; reflexivity|]. split; auto. split; auto. split; auto. split; auto.
  split; [apply no_char_ok; reflexivity|]. right. exists (text "massif"). reflexivity.
Qed.

(** These are the files of the model of the build. *)
Theorem C69_programs : forall name, In name massif_files <->
  exists cat kind method, In (cat, kind) sets /\ In method ["keygen"; "sign"; "verify"]%string /\ name = program_file cat kind method.
Proof.
  intros name. unfold massif_files, target_names. rewrite in_map_iff. split.
  - intros (x & <- & I). apply in_flat_map in I. destruct I as (cat & IC & I). apply in_flat_map in I. destruct I as (kind & IK & I). apply in_map_iff in I. destruct I as (method & <- & IM).
    exists cat, kind, method. split; [|split; auto]. unfold sets. cbn [In] in IC. destruct IC as [<-|[<-|[<-|[]]]]; cbn in IK |- *; intuition congruence.
  - intros (cat & kind & method & IS & IM & ->). exists (target_name cat kind method). split; [reflexivity|]. apply in_flat_map. exists cat.
    assert (C : In cat [1; 3; 5] /\ In kind (param_targets cat)). { unfold sets in IS. cbn [In] in IS. destruct IS as [E|[E|[E|[E|[E|[E|[E|[]]]]]]]]; injection E as <- <-; cbn; auto. }
    destruct C as (C1 & C2). split; auto. apply in_flat_map. exists kind. split; auto. apply in_map. auto.
Qed.

Theorem C69_bench : forall fs,
  (forall dir name content, In (dir, name, content) fs -> is_massif name -> In name massif_files /\ exists stack, stack_of content stack) ->
  NoDup (map (fun '(_, name, _) => name) fs) ->
  exists t, bench_main fs = Ret t /\
    (forall cat kind method dir content stack, In (cat, kind) sets -> In method ["keygen"; "sign"; "verify"]%string ->
       In (dir, program_file cat kind method, content) fs -> stack_of content stack -> entry t cat (text kind) (text method) = Some stack) /\
    (forall cat method, cat = 3 \/ cat = 5 -> In method ["keygen"; "sign"; "verify"]%string -> entry t cat (text "INTERMEDIATE") (text method) = Some 0).
Proof.
  intros fs HF ND.
  assert (GF : Forall good_file fs).
  { apply Forall_forall. intros [[dir name] content] I IM. destruct (HF dir name content I IM) as (IN & stack & SO).
    apply C69_programs in IN. destruct IN as (cat & kind & method & IS & IMe & ->). destruct (program_name cat kind method IS IMe) as (FN & KN). eauto 8. }
  destruct (C69_table fs GF) as (t & E & FT). exists t. split; auto. split.
  - intros cat kind method dir content stack IS IM I SO. destruct (in_split _ _ I) as (before & after & EQ).
    destruct (program_name cat kind method IS IM) as (FN & _).
    apply (proj1 (FT cat (text kind) (text method)) before (dir, program_file cat kind method, content) after stack); auto.
    + split; auto. exists (target_name cat kind method). reflexivity.
    + apply Forall_forall. intros [[dir' name'] content'] I' (IM' & FN'). rewrite EQ in HF.
      destruct (HF dir' name' content' ltac:(apply in_app_iff; cbn [In]; auto) IM') as (IN & _). apply C69_programs in IN. destruct IN as (cat' & kind' & method' & IS' & IMe' & ->).
      destruct (program_name cat' kind' method' IS' IMe') as (FN2 & _). destruct (file_name_fun _ _ _ _ _ _ _ FN2 FN') as (<- & EK & EM).
      assert (SAME : program_file cat' kind' method' = program_file cat' kind method) by (unfold program_file, target_name; rewrite (str_text kind), (str_text kind'), (str_text method), (str_text method'), EK, EM; reflexivity).
      rewrite EQ, map_app in ND. cbn [map] in ND. apply NoDup_remove_2 in ND. apply ND. apply in_app_iff. right. rewrite <- SAME.
      apply (in_map (fun '(_, name, _) => name) after (dir', program_file cat' kind' method', content') I').
  - intros cat method HC IM. destruct (FT cat (text "INTERMEDIATE") (text method)) as (_ & F0). rewrite F0.
    + destruct (in_dec text_dec (text method) _) as [_|N].
      * destruct (in_dec Z.eq_dec cat [1; 3; 5]) as [_|N]; [|exfalso; apply N; cbn; destruct HC; auto].
        destruct (in_dec text_dec (text "INTERMEDIATE") _) as [_|N]; [reflexivity|exfalso; apply N; left; reflexivity].
      * exfalso. apply N. cbn [In] in IM |- *. destruct IM as [<-|[<-|[<-|[]]]]; auto.
    + apply Forall_forall. intros [[dir name] content] I (IMa & FN). destruct (HF dir name content I IMa) as (IN & _). apply C69_programs in IN.
      destruct IN as (cat' & kind' & method' & IS' & IMe' & ->). destruct (program_name cat' kind' method' IS' IMe') as (FN2 & _).
      destruct (file_name_fun _ _ _ _ _ _ _ FN2 FN) as (<- & EK & _). unfold sets in IS'. cbn [In] in IS'.
      destruct IS' as [EQ|[EQ|[EQ|[EQ|[EQ|[EQ|[EQ|[]]]]]]]]; injection EQ as <- <-; try (destruct HC; discriminate); vm_compute in EK; discriminate.
Qed.

(** A massif file whose name has fewer than four or more than five underscores stops the script. *)
Lemma split_length c l : length (split_at c l) = S (count_occ Z.eq_dec l c).
Proof.
  induction l as [|a l IH]; cbn [split_at count_occ]; auto. destruct (Z.eqb_spec a c) as [->|NE].
  - cbn [length]. rewrite IH. destruct (Z.eq_dec c c); congruence.
  - destruct (Z.eq_dec a c); [contradiction|]. rewrite <- IH. destruct (split_at c l); [discriminate|reflexivity].
Qed.
Theorem C69_other_names : forall dir name content fs, is_massif name -> count_occ Z.eq_dec name 95 <> 4%nat -> count_occ Z.eq_dec name 95 <> 5%nat ->
  bench_main ((dir, name, content) :: fs) = Raise ValueError.
Proof.
  intros dir name content fs IM H5 H6. unfold bench_main. cbn [bench_loop]. unfold bench_file. rewrite (proj2 (ends_with_iff dir name) IM).
  pose proof (split_length 95 name) as SL.
  destruct (split_at 95 name) as [|a [|b [|c [|d [|e [|f [|g l]]]]]]]; cbn [length] in *; try reflexivity; congruence.
Qed.

(** *** Examples *)
Definition rows (l : list string) : list Z := flat_map (fun s => text s ++ [10]) l.
Definition example_file : list Z := rows
  ["desc: --stacks=yes --massif-out-file=a.massif"; "cmd: ./a"; "time_unit: i"; "#-----------"; "snapshot=0"; "#-----------"; "time=0"; "mem_heap_B=0";
   "mem_heap_extra_B=0"; "mem_stacks_B=0"; "heap_tree=empty"; "snapshot=1"; "time=107"; "mem_heap_B=72"; "mem_heap_extra_B=8"; "mem_stacks_B=2400";
   "heap_tree=peak"; "n2: 72 (heap allocation functions) malloc/new/new[], --alloc-fns, etc."; " n0: 40 0x1: f (a.c:3)"; " n0: 32 in 1 place, below massif's threshold (1.00%)";
   "snapshot=2"; "time=200"; "mem_heap_B=16"; "mem_heap_extra_B=8"; "mem_stacks_B=1800"; "heap_tree=empty"]%string.
(** The same with a tree that announces three children and has two. *)
Definition broken_file : list Z := rows
  ["desc: d"; "cmd: c"; "time_unit: i"; "snapshot=0"; "time=0"; "mem_heap_B=72"; "mem_heap_extra_B=0"; "mem_stacks_B=0"; "heap_tree=detailed";
   "n3: 72 (heap)"; " n0: 40 a"; " n0: 32 b"; "snapshot=1"]%string.
Example C69_example_analyse : massif_analyse example_file = Ret (72, 2400).
Proof. vm_compute. reflexivity. Qed.
Example C69_example_peak : match massif_parse example_file with
  | Ret d => m_peak d = Some 1%nat /\ m_detailed d = [1%nat] /\ map s_time (m_snapshots d) = [0; 107; 200] /\
             map s_tree (m_snapshots d) = [None; Some (Node 72 [Node 40 []; Node 32 []]); None]
  | _ => False
  end.
Proof. vm_compute. auto. Qed.
Example C69_example_error : massif_parse broken_file = Raise (ParseError 13).
Proof. vm_compute. reflexivity. Qed.
(** A text that ends too early: the error has the number after the last line. *)
Example C69_example_end : massif_parse (rows ["desc: d"; "cmd: c"]%string) = Raise (ParseError 3).
Proof. vm_compute. reflexivity. Qed.

(** The hypotheses of [C69_table] and [C69_bench] hold of a directory with one program file and another file. *)
Definition example_dir : list file :=
  [(text "build", text "LESS_memory_1_SHORT_SIG_sign.massif", example_file); (text "build", text "Makefile", text "all:")].
Lemma example_stack : stack_of example_file 2400.
Proof.
  destruct (content_exists example_file) as (ls & C). exists ls. destruct (proj1 (C69_analyse example_file ls C 72 2400) C69_example_analyse) as (d & H & _ & L). eauto.
Qed.
Example C69_example_dir : exists t, bench_main example_dir = Ret t /\ entry t 1 (text "SHORT_SIG") (text "sign") = Some 2400 /\
  entry t 3 (text "INTERMEDIATE") (text "sign") = Some 0.
Proof.
  destruct (C69_bench example_dir) as (t & E & P & Z0).
  - intros dir name content I IM. cbn [example_dir In] in I. destruct I as [I|[I|[]]]; injection I as <- <- <-.
    + split; [|exists 2400; apply example_stack]. apply C69_programs. exists 1, "SHORT_SIG"%string, "sign"%string. cbn. auto.
    + exfalso. destruct IM as (b & IM). apply (f_equal (@rev Z)) in IM. rewrite rev_app_distr in IM. vm_compute in IM. discriminate.
  - constructor; [|constructor; [intros []|constructor]]. intros [H|[]]. vm_compute in H. discriminate.
  - exists t. split; auto. split.
    + apply (P 1 "SHORT_SIG" "sign" (text "build") example_file 2400)%string; [cbn; auto|cbn; auto|left; reflexivity|apply example_stack].
    + apply (Z0 3 "sign"%string); cbn; auto.
Qed.
(** Names of other shapes, and sets that the table does not have. *)
Example C69_example_names :
  bench_main [(text "build", text "a_b.massif", example_file)] = Raise ValueError /\
  bench_main [(text "build", text "LESS_memory_x_BALANCED_sign.massif", example_file)] = Raise ValueError /\
  bench_main [(text "build", text "LESS_memory_2_BALANCED_sign.massif", example_file)] = Raise KeyError.
Proof. vm_compute. auto. Qed.

Print Assumptions C69_lines.
Print Assumptions C69_parse.
Print Assumptions C69_analyse.
Print Assumptions C69_table.
Print Assumptions C69_programs.
Print Assumptions C69_bench.
Print Assumptions C69_other_names.
