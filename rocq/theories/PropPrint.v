(** Property C54: the printing functions stay inside their arrays, and what they print can be read back. *)
From Coq Require Import String Ascii Permutation.
From Verif Require Import Base BaseLemmas Params ParamsProofs Fq FqProofs Sums Samplers Monomial Codes KatMain Print Spec
  LinAlg MonoProofs CanonProofs RoundProofs PropCanon PropCodec PropMono PropLinAlg Toy.

(** *** Reading a text: the numbers in each of its lines *)

(** The lines of a text (without the newline characters). *)
Fixpoint lines (cur s : list Z) : list (list Z) :=
  match s with
  | [] => match cur with [] => [] | _ => [cur] end
  | c :: s' => if c =? 10 then cur :: lines [] s' else lines (cur ++ [c]) s'
  end.

(** The decimal numbers in a line: the maximal runs of digits. *)
Fixpoint numbers (cur : option Z) (s : list Z) : list Z :=
  match s with
  | [] => match cur with None => [] | Some v => [v] end
  | c :: s' => if (48 <=? c) && (c <=? 57)
               then numbers (Some (10 * match cur with None => 0 | Some v => v end + (c - 48))) s'
               else match cur with None => numbers None s' | Some v => v :: numbers None s' end
  end.

Definition read_text (s : list Z) : list (list Z) := map (numbers None) (lines [] s).

(** A text without digits and newlines. *)
Definition plain (s : list Z) : Prop := Forall (fun c => c <> 10 /\ ~ (48 <= c <= 57)) s.
(** Values of the types that are printed. *)
Definition small (l : list Z) : Prop := Forall (fun v => 0 <= v < 65536) l.

(** *** Lemmas *)
Lemma numbers_plain s t : plain s -> numbers None (s ++ t) = numbers None t.
Proof.
  induction 1 as [|c s [H1 H2] _ IH]; auto. cbn [app numbers].
  destruct (Z.leb_spec 48 c), (Z.leb_spec c 57); cbn [andb]; auto; lia.
Qed.

Lemma numbers_digit cur d t : 0 <= d < 10 -> numbers cur ((48 + d) :: t) = numbers (Some (10 * match cur with None => 0 | Some v => v end + d)) t.
Proof.
  intros H. cbn [numbers]. destruct (Z.leb_spec 48 (48 + d)), (Z.leb_spec (48 + d) 57); cbn [andb]; try lia.
  do 2 f_equal. lia.
Qed.

Lemma numbers_stop v c t : c <> 10 /\ ~ (48 <= c <= 57) -> numbers (Some v) (c :: t) = v :: numbers None t.
Proof. intros [_ H]. cbn [numbers]. destruct (Z.leb_spec 48 c), (Z.leb_spec c 57); cbn [andb]; auto; lia. Qed.

Lemma digits_read fuel : forall n cur, 0 <= n < 10 ^ Z.of_nat fuel -> (0 < fuel)%nat -> cur = None \/ cur = Some 0 ->
  forall t, numbers cur (digits fuel n ++ t) = numbers (Some n) t.
Proof.
  induction fuel as [|f IH]; intros n cur Hn Hf HC t; [lia|]. cbn [digits].
  destruct (Z.ltb_spec n 10).
  - cbn [app]. rewrite numbers_digit by lia. f_equal. f_equal. destruct HC as [-> | ->]; lia.
  - rewrite <- app_assoc. rewrite Nat2Z.inj_succ, Z.pow_succ_r in Hn by lia.
    assert (f <> 0%nat) by (intros ->; cbn in Hn; lia).
    rewrite IH; auto; try lia.
    cbn [app]. rewrite numbers_digit by (apply Z.mod_pos_bound; lia). do 2 f_equal.
    rewrite (Z.div_mod n 10) at 3 by lia. reflexivity.
Qed.

(** A conversion prints the value: digits, read as that value, and no newline. *)
Definition faithful (fmt : Z -> list Z) : Prop := forall v, 0 <= v < 65536 ->
  Forall (fun c => 48 <= c <= 57) (fmt v) /\ forall t, numbers None (fmt v ++ t) = numbers (Some v) t.

Lemma digits_range fuel : forall n, 0 <= n -> Forall (fun c => 48 <= c <= 57) (digits fuel n).
Proof.
  induction fuel as [|f IH]; intros n Hn; cbn [digits]. { constructor. }
  destruct (Z.ltb_spec n 10). { constructor; [lia|constructor]. }
  apply Forall_app. split. { apply IH. apply Z.div_pos; lia. }
  constructor; [|constructor]. pose proof (Z.mod_pos_bound n 10). lia.
Qed.

Lemma fmt_u_faithful : faithful fmt_u.
Proof.
  intros v Hv. split. { apply digits_range. lia. }
  intros t. apply digits_read; auto; lia.
Qed.

Lemma numbers_zeros k : forall cur u, cur = None \/ cur = Some 0 -> numbers cur (repeat 48 (S k) ++ u) = numbers (Some 0) u.
Proof.
  induction k as [|k IH]; intros cur u HC.
  - cbn [repeat app]. change 48 with (48 + 0) at 1. rewrite numbers_digit by lia. destruct HC as [-> | ->]; reflexivity.
  - change (repeat 48 (S (S k)) ++ u) with ((48 + 0) :: repeat 48 (S k) ++ u). rewrite numbers_digit by lia.
    replace (10 * match cur with Some v => v | None => 0 end + 0) with 0 by (destruct HC as [-> | ->]; lia).
    apply (IH (Some 0) u). auto.
Qed.

Lemma fmt_03u_faithful : faithful fmt_03u.
Proof.
  intros v Hv. destruct (fmt_u_faithful v Hv) as [H1 H2]. split.
  - unfold fmt_03u. apply Forall_app. split; auto. apply Forall_forall. intros c Hc. apply repeat_spec in Hc. lia.
  - intros t. unfold fmt_03u. rewrite <- app_assoc. destruct (3 - length (fmt_u v))%nat as [|k]. { apply H2. }
    rewrite numbers_zeros by auto. apply digits_read; auto; lia.
Qed.

Lemma lines_app cur s t : Forall (fun c => c <> 10) s -> lines cur (s ++ 10 :: t) = (cur ++ s) :: lines [] t.
Proof.
  intros H. revert cur. induction H as [|c s H1 _ IH]; intros cur; cbn [app lines].
  - rewrite Z.eqb_refl, app_nil_r. reflexivity.
  - destruct (Z.eqb_spec c 10); [contradiction|]. rewrite IH, <- app_assoc. reflexivity.
Qed.

(** One array. *)
Definition row_text (fmt : Z -> list Z) (l closing : list Z) : list Z :=
  concat (map (fun v => fmt v ++ str ", ") (firstn (length l - 1) l)) ++ fmt (nth (length l - 1) l 0) ++ closing.

Lemma print_values_text fmt n l closing out : (0 < n)%nat -> length l = n ->
  print_values fmt n l closing out = Ok (out ++ row_text fmt l closing).
Proof.
  intros Hn HL. unfold print_values, row_text. rewrite HL.
  assert (L : forall k, (k <= n - 1)%nat -> for_ k 0 (fun j o => v <- get l j ;; Ok (o ++ fmt v ++ str ", ")) out =
    Ok (out ++ concat (map (fun v => fmt v ++ str ", ") (firstn k l)))).
  { intros k Hk. destruct (okp_for (fun i o => o = out ++ concat (map (fun v => fmt v ++ str ", ") (firstn i l))) k 0
      (fun j o => v <- get l j ;; Ok (o ++ fmt v ++ str ", ")) out) as (a & -> & ->).
    - cbn. rewrite app_nil_r. reflexivity.
    - intros i s Hi ->. rewrite (get_ok l i 0) by lia. cbn [bind]. eexists. split; [reflexivity|].
      assert (E : firstn (S i) l = firstn i l ++ [nth i l 0]).
      { apply (list_ext 0). { rewrite app_length, !firstn_length. cbn [length]. lia. }
        intros j Hj. rewrite firstn_length in Hj. destruct (Nat.eq_dec j i) as [->|].
        - rewrite app_nth2 by (rewrite firstn_length; lia). rewrite firstn_length, Nat.min_l, Nat.sub_diag by lia.
          rewrite nth_firstn by lia. reflexivity.
        - rewrite app_nth1 by (rewrite firstn_length; lia). rewrite !nth_firstn by lia. reflexivity. }
      rewrite E, map_app, concat_app. cbn [map concat]. rewrite app_nil_r, <- app_assoc. reflexivity.
    - reflexivity. }
  rewrite L by lia. cbn [bind]. rewrite (get_ok l (n - 1) 0) by lia. cbn [bind]. rewrite <- app_assoc. reflexivity.
Qed.

(** What is read from an array printed with closing text [cl], up to its end of line. *)
Lemma row_text_numbers fmt l cl t : faithful fmt -> small l -> (0 < length l)%nat -> plain cl -> cl <> [] ->
  numbers None (row_text fmt l cl ++ t) = l ++ numbers None t.
Proof.
  intros HF HS HL HC HN. unfold row_text.
  assert (A : forall m u, small m -> numbers None (concat (map (fun v => fmt v ++ str ", ") m) ++ u) = m ++ numbers None u).
  { induction m as [|v m IH]; intros u Hm; auto. inversion Hm; subst. cbn [map concat]. rewrite <- !app_assoc.
    rewrite (proj2 (HF v H1)). cbn [str list_ascii_of_string map app].
    rewrite numbers_stop by (cbn; lia). rewrite <- IH by auto. cbn [app]. reflexivity. }
  rewrite <- !app_assoc. rewrite A.
  2:{ apply Forall_forall. intros x Hx. unfold small in HS. rewrite Forall_forall in HS. apply HS.
      rewrite <- (firstn_skipn (length l - 1) l). apply in_or_app. auto. }
  assert (HV : 0 <= nth (length l - 1) l 0 < 65536).
  { unfold small in HS. rewrite Forall_forall in HS. apply HS. apply nth_In. lia. }
  rewrite (proj2 (HF _ HV)). destruct cl as [|c cl]; [contradiction|]. inversion HC; subst. cbn [app].
  rewrite numbers_stop by auto. rewrite numbers_plain by auto.
  change (nth (length l - 1) l 0 :: numbers None t) with ([nth (length l - 1) l 0] ++ numbers None t). rewrite app_assoc. f_equal.
  symmetry. rewrite <- (firstn_skipn (length l - 1) l) at 1. f_equal.
  apply (list_ext 0). { rewrite skipn_length. cbn. lia. }
  intros i Hi. rewrite skipn_length in Hi. assert (i = 0%nat) as -> by lia. rewrite nth_skipn, Nat.add_0_r. reflexivity.
Qed.

Lemma row_text_line fmt l cl : faithful fmt -> small l -> (0 < length l)%nat -> plain cl -> Forall (fun c => c <> 10) (row_text fmt l cl).
Proof.
  intros HF HS HL HC. unfold row_text.
  assert (FN : forall v, 0 <= v < 65536 -> Forall (fun c => c <> 10) (fmt v)).
  { intros v Hv. eapply Forall_impl; [|apply (HF v Hv)]. cbn. lia. }
  unfold small in HS. rewrite Forall_forall in HS.
  apply Forall_app. split; [|apply Forall_app; split].
  - apply Forall_forall. intros c Hc. apply in_concat in Hc. destruct Hc as (x & Hx & Hc). apply in_map_iff in Hx. destruct Hx as (v & <- & Hv).
    apply in_app_or in Hc. destruct Hc as [Hc|Hc].
    + assert (V : 0 <= v < 65536). { apply HS. rewrite <- (firstn_skipn (length l - 1) l). apply in_or_app. auto. }
      specialize (FN v V). rewrite Forall_forall in FN. apply FN. exact Hc.
    + cbn in Hc. lia.
  - apply FN. apply HS. apply nth_In. lia.
  - eapply Forall_impl; [|exact HC]. cbn. tauto.
Qed.

Lemma plain_line s : plain s -> Forall (fun c => c <> 10) s.
Proof. apply Forall_impl. tauto. Qed.

(** Text printed before an array, the array and its line end. *)
Lemma read_line fmt pre l cl t : faithful fmt -> plain pre -> small l -> (0 < length l)%nat -> plain cl -> cl <> [] ->
  read_text (pre ++ row_text fmt l cl ++ newline ++ t) = l :: read_text t.
Proof.
  intros HF HP HS HL HC HN. unfold read_text, newline. rewrite app_assoc. cbn [app].
  rewrite lines_app. 2:{ apply Forall_app. split; [apply plain_line; auto|apply row_text_line; auto]. }
  cbn [map app]. f_equal. rewrite numbers_plain by auto.
  rewrite <- (app_nil_r (row_text fmt l cl)). rewrite row_text_numbers by auto. cbn [numbers]. apply app_nil_r.
Qed.

Lemma read_plain pre t : plain pre -> read_text (pre ++ newline ++ t) = [] :: read_text t.
Proof.
  intros HP. unfold read_text, newline. cbn [app]. rewrite lines_app by (apply plain_line; auto). cbn [map app]. f_equal.
  rewrite <- (app_nil_r pre). rewrite numbers_plain by auto. reflexivity.
Qed.

Lemma row_text_nl fmt l a b : row_text fmt l (a ++ b) = row_text fmt l a ++ b.
Proof. unfold row_text. rewrite !app_assoc. reflexivity. Qed.

Lemma firstn_snoc_nth {A} (l : list A) i d : (i < length l)%nat -> firstn (S i) l = firstn i l ++ [nth i l d].
Proof.
  intros H. apply (list_ext d). { rewrite app_length, !firstn_length. cbn [length]. lia. }
  intros j Hj. rewrite firstn_length in Hj. destruct (Nat.eq_dec j i) as [->|].
  - rewrite app_nth2 by (rewrite firstn_length; lia). rewrite firstn_length, Nat.min_l, Nat.sub_diag by lia.
    rewrite nth_firstn by lia. reflexivity.
  - rewrite app_nth1 by (rewrite firstn_length; lia). rewrite !nth_firstn by lia. reflexivity.
Qed.

(** Matrices. *)
Lemma print_rows_text r c G closing pre0 pre : (0 < r)%nat -> (0 < c)%nat -> shape r c G -> Forall small G ->
  plain closing -> closing <> [] -> plain pre -> forall X, (forall t, read_text (pre0 ++ t) = X ++ read_text (pre ++ t)) ->
  okp (print_rows r c G (closing ++ newline) pre0) (fun s => forall t, read_text (s ++ t) = X ++ G ++ read_text t).
Proof.
  intros Hr Hc [S1 S2] HG HC HN HP X HX. unfold print_rows. rewrite Forall_forall in S2, HG.
  assert (RW : forall i, (i < r)%nat -> length (nth i G []) = c /\ small (nth i G [])).
  { intros i Hi. split; [apply S2|apply HG]; apply nth_In; lia. }
  assert (PB : plain (str "[")) by (repeat constructor; cbn; lia).
  eapply okp_bind.
  { apply (okp_for (fun i o => exists q, plain q /\ forall t, read_text (o ++ t) = X ++ firstn i G ++ read_text (q ++ t))).
    - exists pre. split; auto.
    - intros i o Hi (q & Hq & HI). rewrite (get_ok G i []) by lia. cbn [bind].
      destruct (RW i ltac:(lia)) as [L1 L2]. rewrite print_values_text by auto.
      eexists. split; [reflexivity|]. exists []. split; [constructor|]. intros t. cbn [app].
      rewrite row_text_nl, <- !app_assoc. rewrite HI. rewrite (firstn_snoc_nth G i []) by lia. rewrite <- app_assoc. do 2 f_equal.
      rewrite app_assoc. rewrite read_line; auto.
      + apply fmt_u_faithful.
      + apply Forall_app. auto.
      + lia.
      + repeat constructor; cbn; lia.
      + discriminate. }
  intros o (q & Hq & HI). cbn [Nat.add] in HI. rewrite (get_ok G (r - 1) []) by lia. cbn [bind].
  destruct (RW (r - 1)%nat ltac:(lia)) as [L1 L2]. rewrite print_values_text by auto.
  eexists. split; [reflexivity|]. intros t. rewrite row_text_nl, <- !app_assoc. rewrite HI. f_equal.
  rewrite app_assoc. rewrite read_line; auto.
  - change (nth (r - 1) G [] :: read_text t) with ([nth (r - 1) G []] ++ read_text t). rewrite app_assoc. f_equal.
    rewrite <- firstn_snoc_nth by lia. apply firstn_all2. lia.
  - apply fmt_u_faithful.
  - apply Forall_app. auto.
  - lia.
Qed.

(** *** The printed texts *)

(** The matrix is read back, one row per line. *)
Theorem C54_generator : forall p, wf_params p -> forall name G, plain name -> shape (pK p) (pN p) G -> Forall small G ->
  exists s, generator_pretty_print_name p name G = Ok s /\ read_text s = G.
Proof.
  intros p wf name G HN HS HG. pose proof (wf_K p wf) as HK. unfold generator_pretty_print_name.
  destruct (print_rows_text (pK p) (pN p) G (str " ] ])") (name ++ str " = M([") (name ++ str " = M([")) with (X := @nil (list Z))
    as (s & E & H); auto; try lia.
  - repeat constructor; cbn; lia.
  - discriminate.
  - apply Forall_app. split; auto. repeat constructor; cbn; lia.
  - exists s. split; auto. specialize (H []). rewrite app_nil_r in H. rewrite H. cbn. apply app_nil_r.
Qed.

(** The value part and the positions of the first K non-pivot columns are read back, after a line with the name and
    before a line with a heading; this needs K <= N - K, as the positions are an array of N - K values. *)
Theorem C54_rref : forall p, wf_params p -> forall name G, plain name -> shape (pK p) (pN p - pK p) (r_vals G) -> Forall small (r_vals G) ->
  length (r_pos G) = (pN p - pK p)%nat -> small (r_pos G) ->
  ((pK p <= pN p - pK p)%nat -> exists s, generator_rref_pretty_print_name p name G = Ok s /\
     read_text s = [] :: r_vals G ++ [[]; firstn (pK p) (r_pos G)]) /\
  ((pN p - pK p < pK p)%nat -> generator_rref_pretty_print_name p name G = UB).
Proof.
  intros p wf name G HN HS HG HL HQ. pose proof (wf_K p wf) as HK. unfold generator_rref_pretty_print_name.
  destruct (print_rows_text (pK p) (pN p - pK p) (r_vals G) (str " ] ]") (name ++ str " =" ++ newline ++ str "[") (str "[")) with (X := [@nil Z])
    as (s & E & H); auto; try lia.
  - repeat constructor; cbn; lia.
  - discriminate.
  - repeat constructor; cbn; lia.
  - intros t. rewrite <- !app_assoc. rewrite (app_assoc name). rewrite read_plain; [reflexivity|]. apply Forall_app. split; auto. repeat constructor; cbn; lia.
  - rewrite E. cbn [bind].
    set (body := fun x o => v <- get (r_pos G) x ;; Ok (o ++ str " " ++ fmt_u v ++ str " ")).
    assert (FL : forall k, (k <= pN p - pK p)%nat -> forall o, for_ k 0 body o = Ok (o ++ concat (map (fun v => str " " ++ fmt_u v ++ str " ") (firstn k (r_pos G))))).
    { intros k Hk o. destruct (okp_for (fun i x => x = o ++ concat (map (fun v => str " " ++ fmt_u v ++ str " ") (firstn i (r_pos G)))) k 0 body o)
        as (a & -> & ->); [cbn; rewrite app_nil_r; reflexivity| |reflexivity].
      intros i a Hi ->. unfold body. rewrite (get_ok (r_pos G) i 0) by lia. cbn [bind]. eexists. split; [reflexivity|].
      rewrite (firstn_snoc_nth (r_pos G) i 0) by lia. rewrite map_app, concat_app. cbn [map concat]. rewrite app_nil_r, <- app_assoc. reflexivity. }
    split; intros HC.
    + rewrite FL by auto. cbn [bind]. eexists. split; [reflexivity|].
      rewrite <- !app_assoc. rewrite H. cbn [app]. f_equal. f_equal.
      rewrite read_plain by (repeat constructor; cbn; lia). f_equal.
      assert (NB : forall m t, small m -> numbers None (concat (map (fun v => str " " ++ fmt_u v ++ str " ") m) ++ t) = m ++ numbers None t /\
        Forall (fun c => c <> 10) (concat (map (fun v => str " " ++ fmt_u v ++ str " ") m))).
      { induction m as [|v m IH]; intros t Hm. { split; [reflexivity|constructor]. } inversion Hm as [|? ? H1 H2]; subst. cbn [map concat]. rewrite <- !app_assoc.
        destruct (fmt_u_faithful v H1) as [F1 F2]. split.
        - rewrite numbers_plain by (repeat constructor; cbn; lia). rewrite F2. cbn [str list_ascii_of_string map app].
          rewrite numbers_stop by (cbn; lia). f_equal. apply (IH t H2).
        - apply Forall_app. split; [repeat constructor; cbn; lia|]. apply Forall_app. split.
          { eapply Forall_impl; [|exact F1]. cbn. lia. }
          apply Forall_app. split; [repeat constructor; cbn; lia|]. apply (IH [] H2). }
      assert (SF : small (firstn (pK p) (r_pos G))).
      { apply Forall_forall. intros x Hx. unfold small in HQ. rewrite Forall_forall in HQ. apply HQ.
        rewrite <- (firstn_skipn (pK p) (r_pos G)). apply in_or_app. auto. }
      destruct (NB _ (str "]") SF) as [B1 B2].
      unfold read_text, newline. rewrite !app_assoc. rewrite lines_app.
      2:{ repeat (apply Forall_app; split); auto; repeat constructor; cbn; lia. }
      cbn [lines map app]. f_equal. rewrite <- app_assoc. rewrite numbers_plain by (repeat constructor; cbn; lia).
      rewrite B1. cbn. apply app_nil_r.
    + replace (pK p) with ((pN p - pK p) + (pK p - (pN p - pK p)))%nat by lia. rewrite for_plus. rewrite FL by lia. cbn [bind].
      replace (pK p - (pN p - pK p))%nat with (S (pK p - (pN p - pK p) - 1)) by lia. cbn [for_]. unfold body at 1.
      rewrite get_ub by lia. reflexivity.
Qed.

(** Both functions for monomial matrices: the permutation and the coefficients are read back. *)
Theorem C54_monomial : forall p, wf_params p -> forall name Q, plain name -> mono_array p Q -> small (m_perm Q) -> small (m_coef Q) ->
  (exists s, monomial_mat_pretty_print_name p name Q = Ok s /\ read_text s = [m_perm Q; m_coef Q]) /\
  monomial_mat_pretty_print p Q = monomial_mat_pretty_print_name p (str "perm") Q.
Proof.
  intros p wf name Q HN [L1 L2] S1 S2. pose proof (wf_K p wf) as HK. split; [|reflexivity].
  unfold monomial_mat_pretty_print_name. rewrite print_values_text by (auto; lia). cbn [bind]. rewrite print_values_text by (auto; lia).
  eexists. split; [reflexivity|]. rewrite !row_text_nl, <- !app_assoc. rewrite (app_assoc name).
  rewrite read_line; auto using fmt_03u_faithful; try lia.
  - f_equal. rewrite <- (app_nil_r newline). rewrite read_line; auto using fmt_03u_faithful; try lia; try discriminate; repeat constructor; cbn; lia.
  - apply Forall_app. split; auto. repeat constructor; cbn; lia.
  - repeat constructor; cbn; lia.
  - discriminate.
Qed.

Lemma first_bad b l : Exists (fun x => b <= x) l ->
  exists n, (n < length l)%nat /\ b <= nth n l 0 /\ forall i, (i < n)%nat -> nth i l 0 < b.
Proof.
  induction l as [|x l IH]; intros H; inversion H; subst; destruct (Z.le_gt_cases b x) as [Hx|Hx].
  1, 3: exists 0%nat; cbn [length nth]; repeat split; auto; lia.
  - lia.
  - destruct (IH ltac:(auto)) as (n & A1 & A2 & A3). exists (S n). cbn [length nth]. repeat split; auto; [lia|].
    intros [|i] Hi; [cbn; lia|]. cbn [nth]. apply A3. lia.
Qed.

(** The expanded matrix: coefficient i stands in row perm(i) and column i, and nothing else is printed but zeros;
    a permutation entry beyond N is written outside the array. *)
Theorem C54_matrix : forall p, wf_params p -> forall name Q, plain name -> mono_array p Q -> small (m_perm Q) -> small (m_coef Q) ->
  (Forall (fun x => x < Z.of_nat (pN p)) (m_perm Q) ->
   exists s mu, monomial_mat_print_exp_name p name Q = Ok s /\ read_text s = mu /\ shape (pN p) (pN p) mu /\
     forall r c, (r < pN p)%nat -> (c < pN p)%nat -> ent mu r c = if Z.of_nat r =? nth c (m_perm Q) 0 then nth c (m_coef Q) 0 else 0) /\
  (Exists (fun x => Z.of_nat (pN p) <= x) (m_perm Q) -> monomial_mat_print_exp_name p name Q = UB).
Proof.
  intros p wf name Q HN [L1 L2] S1 S2. pose proof (wf_K p wf) as HK. unfold monomial_mat_print_exp_name.
  set (body := fun i mu => a <- get (m_perm Q) i ;; c <- get (m_coef Q) i ;; set2 mu (Z.to_nat a) i c).
  set (I := fun n mu => shape (pN p) (pN p) mu /\ forall r c, (r < pN p)%nat -> (c < pN p)%nat ->
    ent mu r c = if (c <? n)%nat && (Z.of_nat r =? nth c (m_perm Q) 0) then nth c (m_coef Q) 0 else 0).
  unfold small in S1, S2. rewrite Forall_forall in S1, S2.
  assert (RP : forall i, (i < pN p)%nat -> 0 <= nth i (m_perm Q) 0 < 65536) by (intros; apply S1, nth_In; lia).
  assert (RC : forall i, (i < pN p)%nat -> 0 <= nth i (m_coef Q) 0 < 65536) by (intros; apply S2, nth_In; lia).
  assert (LP : forall n, (n <= pN p)%nat -> (forall i, (i < n)%nat -> nth i (m_perm Q) 0 < Z.of_nat (pN p)) ->
    okp (for_ n 0 body (repeat (repeat 0 (pN p)) (pN p))) (I n)).
  { intros n Hn Hlt. apply (okp_for I).
    - split. { split; [apply repeat_length|]. apply Forall_forall. intros x Hx. apply repeat_spec in Hx. subst. apply repeat_length. }
      intros r c Hr Hc. replace (c <? 0)%nat with false by (symmetry; apply Nat.ltb_ge; lia). cbn [andb]. unfold ent.
      rewrite (nth_indep _ [] (repeat 0 (pN p))) by (rewrite repeat_length; auto). rewrite nth_repeat. apply nth_repeat.
    - intros i mu Hi [H1 H2]. unfold body. rewrite (get_ok (m_perm Q) i 0) by lia. cbn [bind]. rewrite (get_ok (m_coef Q) i 0) by lia. cbn [bind].
      specialize (Hlt i ltac:(lia)). pose proof (RP i ltac:(lia)).
      rewrite (set2_ok mu (pN p) (pN p)) by (auto; lia). eexists. split; [reflexivity|]. split. { apply shape_upd2; auto; lia. }
      intros r c Hr Hc. rewrite (ent_upd2 mu (pN p) (pN p)) by (auto; lia). rewrite H2 by auto.
      destruct (Nat.eqb_spec (Z.to_nat (nth i (m_perm Q) 0)) r), (Nat.eqb_spec i c); cbn [andb]; subst;
        repeat match goal with |- context [(?a <? ?b)%nat] => destruct (Nat.ltb_spec a b) end; cbn [andb]; try lia; auto;
        repeat match goal with |- context [?a =? ?b] => destruct (Z.eqb_spec a b) end; auto; lia. }
  split; intros HB.
  - rewrite Forall_forall in HB. destruct (LP (pN p) ltac:(lia)) as (mu & E & HS & HE). { intros i Hi. apply HB, nth_In. lia. }
    rewrite E. cbn [bind].
    destruct (print_rows_text (pN p) (pN p) mu (str " ] ])") (name ++ str " = Mon([") (name ++ str " = Mon([")) with (X := @nil (list Z))
      as (s & E2 & H); auto; try lia.
    + destruct HS as [G1 G2]. rewrite Forall_forall in G2. apply Forall_forall. intros row Hrow. apply In_nth with (d := []) in Hrow.
      destruct Hrow as (r & Hr & <-). apply Forall_forall. intros x Hx. apply In_nth with (d := 0) in Hx. destruct Hx as (c & Hc & <-).
      rewrite (G2 (nth r mu [])) in Hc by (apply nth_In; auto). change (nth c (nth r mu []) 0) with (ent mu r c). rewrite HE by lia.
      destruct (andb _ _); [apply RC; auto|lia].
    + repeat constructor; cbn; lia.
    + discriminate.
    + apply Forall_app. split; auto. repeat constructor; cbn; lia.
    + exists s, mu. split; auto. split. { specialize (H []). rewrite app_nil_r in H. rewrite H. cbn. apply app_nil_r. } split; auto.
      intros r c Hr Hc. rewrite HE by auto. replace (c <? pN p)%nat with true by (symmetry; apply Nat.ltb_lt; auto). reflexivity.
  - (* the first bad entry *)
    assert (exists n, (n < pN p)%nat /\ Z.of_nat (pN p) <= nth n (m_perm Q) 0 /\ forall i, (i < n)%nat -> nth i (m_perm Q) 0 < Z.of_nat (pN p)) as (n & Hn & H1 & H2).
    { destruct (first_bad _ _ HB) as (n & A1 & A2 & A3). exists n. split; [lia|]. auto. }
    replace (pN p) with (n + S (pN p - n - 1))%nat at 1 by lia. rewrite for_plus.
    destruct (LP n ltac:(lia) H2) as (mu & -> & [HS _]). cbn [bind for_ Nat.add]. unfold body at 1.
    rewrite (get_ok (m_perm Q) n 0) by lia. cbn [bind]. rewrite (get_ok (m_coef Q) n 0) by lia. cbn [bind].
    unfold set2. rewrite get_ub; [reflexivity|]. destruct HS. lia.
Qed.

(** The printed matrix is the transpose of the one by which generator_monomial_mul multiplies: entry (i, c) of
    the product is the sum over s of G(i,s) times the printed entry (c, s). *)
Theorem C54_transpose : forall p, wf_params p -> forall name Q G r, plain name -> good_mono p Q -> matrix p G -> reduced (pK p) (pN p) (ent G) -> matrix p r ->
  exists s mu GQ, monomial_mat_print_exp_name p name Q = Ok s /\ read_text s = mu /\ shape (pN p) (pN p) mu /\
    generator_monomial_mul p r G Q = Ok GQ /\
    forall i c, (i < pK p)%nat -> (c < pN p)%nat -> ent GQ i c == sumn (pN p) (fun s => ent G i s * ent mu c s).
Proof.
  intros p wf name Q G r HN HQ G1 G2 Hr. pose proof (wf_K p wf) as HK.
  assert (O1 : mono_ok p Q) by (destruct HQ as (A & B & C); constructor; auto).
  destruct (mono_ok_mem p Q O1) as [M1 M2]. pose proof (perm_list_bij _ _ (mo_perm p Q O1)) as BJ.
  assert (PR : Forall (fun x => 0 <= x < Z.of_nat (pN p)) (m_perm Q)).
  { apply Forall_forall. intros x Hx. apply In_nth with (d := 0) in Hx. destruct Hx as (i & Hi & <-).
    apply (perm_list_range (pN p) (m_perm Q) i); [apply (mo_perm p Q O1)|lia]. }
  assert (NB : Z.of_nat (pN p) <= 65536) by (pose proof (wf_cat p wf); destruct (p_cat p); lia).
  destruct (C54_matrix p wf name Q HN (conj M1 M2)) as [CM _].
  { eapply Forall_impl; [|exact PR]. cbn. lia. }
  { eapply Forall_impl; [|exact (mo_coef p Q O1)]. intros x Hx. apply fq_unit_fq in Hx. unfold fq in Hx. lia. }
  destruct CM as (s & mu & E & HR & HS & HE). { eapply Forall_impl; [|exact PR]. cbn. lia. }
  destruct (generator_monomial_mul_spec p r G Q Hr G1 O1 G2) as (GQ & E2 & S2 & R2 & V2).
  exists s, mu, GQ. split; [auto|]. split; [auto|]. split; [auto|]. split; [auto|].
  intros i c Hi Hc. destruct (bij_surj (pN p) _ BJ c Hc) as (k & Hk & <-).
  rewrite V2 by auto. symmetry.
  assert (EK : forall t, (t < pN p)%nat -> ent mu (pf (m_perm Q) k) t = if (pf (m_perm Q) k =? pf (m_perm Q) t)%nat then nth t (m_coef Q) 0 else 0).
  { intros t Ht. rewrite HE by (auto; apply BJ; auto). rewrite Forall_forall in PR.
    assert (P1 : 0 <= nth t (m_perm Q) 0) by (apply PR, nth_In; lia).
    unfold pf at 3. unfold nthZ. destruct (Nat.eqb_spec (pf (m_perm Q) k) (Z.to_nat (nth t (m_perm Q) 0))), (Z.eqb_spec (Z.of_nat (pf (m_perm Q) k)) (nth t (m_perm Q) 0)); auto; lia. }
  rewrite (sumn_single (pN p) k); auto.
  - rewrite EK by auto. rewrite Nat.eqb_refl. unfold nthZ. rewrite Z.mul_comm. reflexivity.
  - intros t Ht Hne. rewrite EK by auto. destruct (Nat.eqb_spec (pf (m_perm Q) k) (pf (m_perm Q) t)) as [Eq|].
    + exfalso. apply Hne. symmetry. apply BJ; auto.
    + rewrite Z.mul_0_r. reflexivity.
Qed.

(** It is not that matrix itself. *)
Theorem C54_product_refuted : exists p, wf_params p /\ exists name Q G r s GQ, plain name /\ good_mono p Q /\ matrix p G /\
  reduced (pK p) (pN p) (ent G) /\ matrix p r /\ monomial_mat_print_exp_name p name Q = Ok s /\ generator_monomial_mul p r G Q = Ok GQ /\
  exists i c, (i < pK p)%nat /\ (c < pN p)%nat /\ ~ ent GQ i c == sumn (pN p) (fun t => ent G i t * ent (read_text s) t c).
Proof.
  exists toy_params. split; [exact toy_wf|].
  set (G := (1 :: repeat 0 131) :: repeat (repeat 0 132) 2).
  assert (GM : good_mono toy_params ex_mono) by apply C21_example.
  assert (HG : matrix toy_params G) by (split; [reflexivity|repeat constructor]).
  assert (GE : forall i t, ent G i t = if (i =? 0)%nat && (t =? 0)%nat then 1 else 0).
  { intros i t. unfold ent, G. destruct i as [|[|[|i]]]; cbn [Nat.eqb andb nth repeat].
    - destruct t as [|t]; cbn [Nat.eqb]; [reflexivity|]. exact (nth_repeat 0 131 t).
    - exact (nth_repeat 0 132 t).
    - exact (nth_repeat 0 132 t).
    - destruct i; destruct t; reflexivity. }
  destruct (C54_matrix toy_params toy_wf (str "Q") ex_mono) as [CM _].
  - repeat constructor; cbn; lia.
  - split; reflexivity.
  - apply Forall_forall. intros x Hx. apply in_map_iff in Hx. destruct Hx as (i & <- & _). pose proof (Z.mod_pos_bound (Z.of_nat i + 5) 132). lia.
  - apply Forall_forall. intros x Hx. apply in_map_iff in Hx. destruct Hx as (i & <- & _). pose proof (Z.mod_pos_bound (3 * Z.of_nat i) 126). lia.
  - destruct CM as (s & mu & E & HR & HS & HE).
    { apply Forall_forall. intros x Hx. apply in_map_iff in Hx. destruct Hx as (i & <- & _). pose proof (Z.mod_pos_bound (Z.of_nat i + 5) 132). cbn. lia. }
    destruct (generator_monomial_mul toy_params (repeat (repeat 9 132) 3) G ex_mono) as [GQ| |] eqn:EG; [|vm_compute in EG; discriminate ..].
    exists (str "Q"), ex_mono, G, (repeat (repeat 9 132) 3), s, GQ. split. { repeat constructor; cbn; lia. } split; [auto|]. split; [auto|].
    split. { intros i t _ _. rewrite GE. destruct (_ && _); split; lia. }
    split. { split; [reflexivity|repeat constructor]. } split; [auto|]. split; [auto|]. exists 0%nat, 5%nat. split; [cbn; lia|]. split; [cbn; lia|].
    rewrite HR. intros H. rewrite (sumn_single (pN toy_params) 0) in H.
    + rewrite GE, HE in H by (cbn; lia). replace (ent GQ 0 5) with 1 in H.
      * change (nth 5 (m_perm ex_mono) 0) with 10 in H. change (1 == 0) in H. destruct H as [k H]. lia.
      * replace GQ with (match generator_monomial_mul toy_params (repeat (repeat 9 132) 3) G ex_mono with Ok x => x | _ => [] end) by (rewrite EG; reflexivity).
        vm_compute. reflexivity.
    + cbn. lia.
    + intros i _ Hi. rewrite GE. destruct i; [contradiction|]. cbn. reflexivity.
Qed.

(** Runs: a matrix with entries of one, two and three digits; the beginning of the text; the reader; a matrix in
    echelon form of which three column positions out of 129 are printed; a monomial matrix. *)
Definition ex_print_G : mat := map (fun i => map (fun j => (Z.of_nat (i * 132 + j) * 7) mod 127) (seq 0 132)) (seq 0 3).
Definition ex_print_R : rref_mat := {| r_vals := map (fun i => map (fun j => (Z.of_nat (i + j) * 11) mod 127) (seq 0 129)) (seq 0 3);
  r_pos := map Z.of_nat (seq 3 129) |}.
Example C54_example :
  (s <- generator_pretty_print_name toy_params (str "G") ex_print_G ;; Ok (firstn 27 s, read_text s)) =
    Ok (str "G = M([[0, 7, 14, 21, 28, 3", ex_print_G) /\
  (s <- generator_rref_pretty_print_name toy_params (str "R") ex_print_R ;; Ok (read_text s)) = Ok ([] :: r_vals ex_print_R ++ [[]; [3; 4; 5]]) /\
  (s <- monomial_mat_pretty_print toy_params ex_mono ;; Ok (firstn 28 s, read_text s)) =
    Ok (str "perm = [005, 006, 007, 008, ", [m_perm ex_mono; m_coef ex_mono]) /\
  read_text (str "a = [10, 007 ]" ++ newline ++ str "b" ++ newline ++ str "[3 ]" ++ newline) = [[10; 7]; []; [3]] /\
  monomial_mat_print_exp_name toy_params (str "Q") {| m_perm := repeat 132 132; m_coef := repeat 1 132 |} = UB.
Proof. vm_compute. repeat split. Qed.

Print Assumptions C54_generator.
Print Assumptions C54_rref.
Print Assumptions C54_monomial.
Print Assumptions C54_matrix.
Print Assumptions C54_transpose.
Print Assumptions C54_product_refuted.
