(** Properties C60 and C61: what branches and addresses reveal. *)
From Verif Require Import Base BaseLemmas Params ParamsProofs Fq Prim Samplers Monomial Codes Utils Less Spec
  FqProofs MonoProofs SamplerProofs SampleSpec Sums Leak LeakProofs Toy.

(** *** C60: the functions said to be constant time *)

(** Comparing digests: the record depends on the length alone. *)
Theorem C60_memcmp : forall len a b a' b', (len <= length a)%nat -> (len <= length b)%nat -> (len <= length a')%nat -> (len <= length b')%nat ->
  snd (timing_safe_memcmp_t a b len) = timing_safe_memcmp a b len /\
  fst (timing_safe_memcmp_t a b len) = fst (timing_safe_memcmp_t a' b' len).
Proof.
  intros len a b a' b' H1 H2 H3 H4. split. { apply memcmp_erase. }
  rewrite (proj1 (memcmp_record a b len H1 H2)), (proj1 (memcmp_record a' b' len H3 H4)). reflexivity.
Qed.

(** Inverting a field element: the record is the same for all. *)
Theorem C60_inverse : forall x y, snd (fq_inv_t x) = Ok (fq_inv x) /\ fst (fq_inv_t x) = fst (fq_inv_t y).
Proof. intros x y. split. { apply fq_inv_erase. } rewrite (proj1 (tr_inv x)), (proj1 (tr_inv y)). reflexivity. Qed.

Lemma minimize_codes G G' col i : codes (minimize_round G col) (minimize_round G' col) i.
Proof.
  intros r r' E. unfold minimize_round in *. cbv zeta in *.
  destruct (ent G i col =? 0), (ent G' i col =? 0), (nonzero_before G col i), (nonzero_before G' col i); cbn [app negb] in *; try reflexivity; discriminate E.
Qed.

(** Minimising a column: the record tells which entries of the column are zero, and nothing else. *)
Theorem C60_lex_minimize : forall p c d V V' dst G G' col, shape (pK p) c G -> shape (pK p) c G' -> (col < c)%nat ->
  shape (pK p) d V -> shape (pK p) d V' -> (dst < d)%nat ->
  snd (lex_minimize_t p V dst G col) = lex_minimize p V dst G col /\
  (fst (lex_minimize_t p V dst G col) = fst (lex_minimize_t p V' dst G' col) <->
   forall i, (i < pK p)%nat -> (ent G i col = 0 <-> ent G' i col = 0)).
Proof.
  intros p c d V V' dst G G' col HG HG' Hc HV HV' Hd. split. { apply lex_minimize_erase. }
  rewrite (proj1 (minimize_record_ok p V dst G col c d HG Hc HV Hd)), (proj1 (minimize_record_ok p V' dst G' col c d HG' Hc HV' Hd)).
  unfold minimize_record. split.
  - intros E. apply loop_split in E; [|intros i _; apply minimize_codes]. destruct E as (_ & E). intros i Hi. specialize (E i ltac:(lia)).
    unfold minimize_round in E. cbv zeta in E. cbn [app] in E. injection E as E _.
    destruct (Z.eqb_spec (ent G i col) 0), (Z.eqb_spec (ent G' i col) 0); cbn in E; try discriminate E; tauto.
  - intros H. f_equal. apply loop_ext. intros i Hi.
    assert (Z : forall j, (j < pK p)%nat -> (ent G j col =? 0) = (ent G' j col =? 0)).
    { intros j Hj. specialize (H j Hj). destruct (Z.eqb_spec (ent G j col) 0), (Z.eqb_spec (ent G' j col) 0); tauto. }
    assert (B : nonzero_before G col i = nonzero_before G' col i).
    { unfold nonzero_before. assert (S : forall j, In j (seq 0 i) -> (j < pK p)%nat) by (intros j Hj; apply in_seq in Hj; lia).
      induction (seq 0 i) as [|j l IH]; cbn [existsb]; auto. rewrite (Z j) by (apply S; left; auto). f_equal. apply IH. intros k Hk. apply S. right. auto. }
    unfold minimize_round. rewrite B, (Z i) by lia. reflexivity.
Qed.

(** So it is not constant time: already two columns of field elements give different records. *)
Theorem C60_lex_minimize_refuted : forall p, wf_params p ->
  exists V G G', shape (pK p) (pN p - pK p) V /\ shape (pK p) (pN p) G /\ shape (pK p) (pN p) G' /\
    Forall (Forall fq) G /\ Forall (Forall fq) G' /\ fst (lex_minimize_t p V 0 G 0) <> fst (lex_minimize_t p V 0 G' 0).
Proof.
  intros p wf. pose proof (wf_K p wf) as HK.
  assert (SH : forall x r c, shape r c (repeat (repeat x c) r)).
  { intros x r c. split. apply repeat_length. apply Forall_forall. intros y Hy. apply repeat_spec in Hy. subst y. apply repeat_length. }
  assert (F : forall x r c, fq x -> Forall (Forall fq) (repeat (repeat x c) r)).
  { intros x r c Hx. apply Forall_forall. intros y Hy. apply repeat_spec in Hy. subst y. apply Forall_forall. intros z Hz. apply repeat_spec in Hz. subst z. exact Hx. }
  exists (repeat (repeat 0 (pN p - pK p)) (pK p)), (repeat (repeat 0 (pN p)) (pK p)), (repeat (repeat 1 (pN p)) (pK p)).
  split; [apply SH|]. split; [apply SH|]. split; [apply SH|]. split; [apply F; unfold fq; lia|]. split; [apply F; unfold fq; lia|].
  intros E. destruct (C60_lex_minimize p (pN p) (pN p - pK p) (repeat (repeat 0 (pN p - pK p)) (pK p)) (repeat (repeat 0 (pN p - pK p)) (pK p)) 0
    (repeat (repeat 0 (pN p)) (pK p)) (repeat (repeat 1 (pN p)) (pK p)) 0) as (_ & I & _); auto; try lia.
  specialize (I E 0%nat ltac:(lia)). destruct (pK p) as [|k]; [lia|]. destruct (pN p) as [|n]; [lia|]. unfold ent in I. cbn [repeat nth] in I. lia.
Qed.

(** Comparing a column with the pivot column: the record tells the number of leading rows in which they agree and the
    result of the comparison. *)
Definition agree_from (V : mat) (col : nat) (pivot : list Z) (i c : nat) : Prop :=
  forall j, (i <= j < i + c)%nat -> ent V j col = nth j pivot 0.

Lemma compare_record p w n : forall i V col pivot, shape (pK p) w V -> (col < w)%nat -> length pivot = pK p -> (i + S n <= pK p)%nat ->
  fst (lex_compare_from_t (S n) i V col pivot) =
  [Branch true; Load V_values i col; Load Pivot i 0; Branch (ent V i col - nth i pivot 0 =? 0)] ++
  (if ent V i col - nth i pivot 0 =? 0 then fst (lex_compare_from_t n (S i) V col pivot)
   else [Branch false; Load V_values i col; Load Pivot i 0; Branch (ent V i col - nth i pivot 0 >? 0)]).
Proof.
  intros i V col pivot HV Hc HP Hi. cbn [lex_compare_from_t]. unfold load2, load, branch.
  rewrite (get2_ok V (pK p) w i col) by (auto; lia). rewrite (get_ok pivot i 0) by lia. cbn [tbind fst snd].
  destruct (ent V i col - nth i pivot 0 =? 0); cbn [app fst snd ret tbind]; reflexivity.
Qed.
Lemma compare_value p w n : forall i V col pivot, shape (pK p) w V -> (col < w)%nat -> length pivot = pK p -> (i + S n <= pK p)%nat ->
  lex_compare_from (S n) i V col pivot =
  if ent V i col - nth i pivot 0 =? 0 then lex_compare_from n (S i) V col pivot
  else if ent V i col - nth i pivot 0 >? 0 then Ok (-1) else Ok 1.
Proof.
  intros i V col pivot HV Hc HP Hi. cbn [lex_compare_from]. rewrite (get2_ok V (pK p) w i col) by (auto; lia). cbn [bind].
  rewrite (get_ok pivot i 0) by lia. reflexivity.
Qed.
Lemma compare_leak p w V V' col pivot pivot' : shape (pK p) w V -> shape (pK p) w V' -> (col < w)%nat -> length pivot = pK p -> length pivot' = pK p ->
  forall n i, (i + n <= pK p)%nat ->
  (fst (lex_compare_from_t n i V col pivot) = fst (lex_compare_from_t n i V' col pivot') <->
   (forall c, (c <= n)%nat -> (agree_from V col pivot i c <-> agree_from V' col pivot' i c)) /\
   lex_compare_from n i V col pivot = lex_compare_from n i V' col pivot').
Proof.
  intros HV HV' Hc HP HP'. induction n; intros i Hi.
  - split; intros _; [|reflexivity]. split; [|reflexivity]. intros c H. unfold agree_from. split; intros _ j Hj; lia.
  - rewrite !(compare_record p w) by (auto; lia). rewrite !(compare_value p w) by (auto; lia).
    specialize (IHn (S i) ltac:(lia)).
    assert (ST : forall V col pivot c, agree_from V col pivot i (S c) <-> ent V i col - nth i pivot 0 = 0 /\ agree_from V col pivot (S i) c).
    { intros W cl pv c. unfold agree_from. split.
      - intros H. split; [specialize (H i ltac:(lia)); lia|]. intros j Hj. apply H. lia.
      - intros (H0 & H) j Hj. destruct (Nat.eq_dec j i) as [->|]; [lia|apply H; lia]. }
    assert (Z0 : forall W cl pv, agree_from W cl pv i 0) by (intros W cl pv j Hj; lia).
    destruct (Z.eqb_spec (ent V i col - nth i pivot 0) 0) as [e|e], (Z.eqb_spec (ent V' i col - nth i pivot' 0) 0) as [e'|e'].
    + split.
      * intros E. cbn [app] in E. injection E as E. apply IHn in E. destruct E as (E1 & E2). split; auto.
        intros [|c] Hcc; [split; auto|]. rewrite !ST. specialize (E1 c ltac:(lia)). tauto.
      * intros (E1 & E2). cbn [app]. do 4 f_equal. apply IHn. split; auto. intros c Hcc. specialize (E1 (S c) ltac:(lia)). rewrite !ST in E1. tauto.
    + split; [intros E; cbn [app] in E; discriminate E|]. intros (E1 & _). specialize (E1 1%nat ltac:(lia)). rewrite !ST in E1.
      destruct E1 as (E1 & _). destruct E1; [|contradiction]. split; auto. intros j Hj. lia.
    + split; [intros E; cbn [app] in E; discriminate E|]. intros (E1 & _). specialize (E1 1%nat ltac:(lia)). rewrite !ST in E1.
      destruct E1 as (_ & E1). destruct E1; [|contradiction]. split; auto. intros j Hj. lia.
    + split.
      * intros E. cbn [app] in E. injection E as E. split; [|rewrite E; reflexivity]. intros [|c] Hcc; [split; auto|]. rewrite !ST. tauto.
      * intros (_ & E). cbn [app]. do 7 f_equal. f_equal. destruct (ent V i col - nth i pivot 0 >? 0), (ent V' i col - nth i pivot' 0 >? 0); auto; discriminate E.
Qed.

Theorem C60_compare : forall p w V V' col pivot pivot', shape (pK p) w V -> shape (pK p) w V' -> 0 <= col < Z.of_nat w ->
  length pivot = pK p -> length pivot' = pK p ->
  snd (lex_compare_with_pivot_t p V col pivot) = lex_compare_with_pivot p V col pivot /\
  (fst (lex_compare_with_pivot_t p V col pivot) = fst (lex_compare_with_pivot_t p V' col pivot') <->
   (forall c, (c <= pK p)%nat -> ((forall j, (j < c)%nat -> ent V j (Z.to_nat col) = nth j pivot 0) <->
                                  (forall j, (j < c)%nat -> ent V' j (Z.to_nat col) = nth j pivot' 0))) /\
   lex_compare_with_pivot p V col pivot = lex_compare_with_pivot p V' col pivot').
Proof.
  intros p w V V' col pivot pivot' HV HV' Hc HP HP'. split. { apply lex_compare_erase. }
  unfold lex_compare_with_pivot_t, lex_compare_with_pivot.
  rewrite (compare_leak p w V V' (Z.to_nat col) pivot pivot' HV HV' ltac:(lia) HP HP' (pK p) 0 ltac:(lia)).
  assert (E : forall W pv c, agree_from W (Z.to_nat col) pv 0 c <-> forall j, (j < c)%nat -> ent W j (Z.to_nat col) = nth j pv 0).
  { intros W pv c. unfold agree_from. split; intros H j Hj; apply H; lia. }
  split; intros (H1 & H2); (split; [|exact H2]); intros c Hcc; specialize (H1 c Hcc); rewrite !E in *; exact H1.
Qed.

(** A comparison of digests that differ in the middle, the inverse of 5, and one column minimised with its third entry zero
    and not zero, or with other nonzero entries. *)
Definition ex_mat (x : nat -> Z) : mat := map (fun i => repeat (x i) (pN toy_params)) (seq 0 (pK toy_params)).
Definition ex_V : mat := repeat (repeat 0 (pN toy_params - pK toy_params)) (pK toy_params).
Definition event_eqb (a b : event) : bool :=
  match a, b with
  | Load x i j, Load y k l | Store x i j, Store y k l => (if array_dec x y then true else false) && (i =? k)%nat && (j =? l)%nat
  | Branch x, Branch y => Bool.eqb x y
  | _, _ => false
  end.
Fixpoint record_eqb (s t : list event) : bool :=
  match s, t with [], [] => true | a :: s, b :: t => event_eqb a b && record_eqb s t | _, _ => false end.
Example C60_example :
  length (fst (timing_safe_memcmp_t [1; 2; 3] [1; 7; 3] 3)) = 10%nat /\ snd (timing_safe_memcmp_t [1; 2; 3] [1; 7; 3] 3) = Ok 1 /\
  snd (timing_safe_memcmp_t [1; 2; 3] [1; 2; 3] 3) = Ok 0 /\ length (fst (fq_inv_t 5)) = 15%nat /\ snd (fq_inv_t 5) = Ok 51 /\
  (let T x := fst (lex_minimize_t toy_params ex_V 1 (ex_mat x) 0) in
   record_eqb (T (fun i => if (i =? 2)%nat then 0 else 7)) (T (fun i => if (i =? 2)%nat then 0 else Z.of_nat (i + 1))) = true /\
   record_eqb (T (fun i => if (i =? 2)%nat then 0 else 7)) (T (fun _ => 7)) = false).
Proof. vm_compute. repeat split. Qed.

(** *** C61: operations on private permutations *)

Definition same_permutation (Q Q' : monomial) : Prop := m_perm Q = m_perm Q'.

Lemma mono_idx p Q : mono_ok p Q -> length (m_coef Q) = pN p /\ idx_list p (pN p) (m_perm Q).
Proof.
  intros H. split. { apply (mo_clen p Q H). } pose proof (mo_perm p Q H) as P. split. { apply (perm_list_len _ _ P). }
  apply Forall_forall. intros x Hx. apply (perm_list_in _ _ x P Hx).
Qed.

(** Multiplying a generator matrix by a monomial matrix: the record tells the permutation, and nothing about the
    coefficients and the matrix. *)
Theorem C61_multiply : forall p, (1 <= pK p)%nat -> forall r r' G G' Q Q', shape (pK p) (pN p) r -> shape (pK p) (pN p) r' ->
  shape (pK p) (pN p) G -> shape (pK p) (pN p) G' -> mono_ok p Q -> mono_ok p Q' ->
  snd (generator_monomial_mul_t p r G Q) = generator_monomial_mul p r G Q /\
  (fst (generator_monomial_mul_t p r G Q) = fst (generator_monomial_mul_t p r' G' Q') <-> same_permutation Q Q').
Proof.
  intros p HK r r' G G' Q Q' Hr Hr' HG HG' HQ HQ'. split. { apply mul_erase. }
  destruct (mono_idx p Q HQ) as (C & I). destruct (mono_idx p Q' HQ') as (C' & I').
  rewrite (proj1 (mul_record_ok p r G Q Hr HG C I)), (proj1 (mul_record_ok p r' G' Q' Hr' HG' C' I')).
  unfold mul_record, same_permutation. rewrite (idx_eq p (pN p)) by auto. rewrite loop_inj.
  - split.
    + intros H i Hi. specialize (H i ltac:(lia)). rewrite loop_inj in H by (intros j Hj; apply codes_len; reflexivity).
      specialize (H 0%nat ltac:(lia)). injection H as H. exact H.
    + intros H i Hi. apply loop_ext. intros j Hj. rewrite (H i) by lia. reflexivity.
  - intros i Hi. apply codes_len. unfold loop. rewrite !app_length. f_equal. generalize (seq 0 (pK p)). intros l.
    induction l as [|x l IH]; [reflexivity|]. cbn [flat_map]. rewrite !app_length, IH. reflexivity.
Qed.

(** Inverting a monomial matrix. *)
Theorem C61_invert : forall p r r' Q Q', mono_sized p r -> mono_sized p r' -> mono_ok p Q -> mono_ok p Q' ->
  snd (monomial_mat_inv_t p r Q) = monomial_mat_inv p r Q /\
  (fst (monomial_mat_inv_t p r Q) = fst (monomial_mat_inv_t p r' Q') <-> same_permutation Q Q').
Proof.
  intros p r r' Q Q' Hr Hr' HQ HQ'. split. { apply inv_erase. }
  destruct (mono_idx p Q HQ) as (C & I). destruct (mono_idx p Q' HQ') as (C' & I').
  rewrite (proj1 (inverse_record_ok p r Q Hr C I)), (proj1 (inverse_record_ok p r' Q' Hr' C' I')).
  unfold inverse_record, same_permutation. rewrite (idx_eq p (pN p)) by auto. rewrite loop_inj by (intros i Hi; apply codes_len; reflexivity). split.
  - intros H i Hi. specialize (H i ltac:(lia)). cbv zeta in H. cbn [app] in H. injection H as H _. exact H.
  - intros H i Hi. cbv zeta. rewrite (H i) by lia. reflexivity.
Qed.

(** Composing a monomial with an action: the record tells both permutations. *)
Theorem C61_compose : forall p rev rev' out out' Q Q' inp inp', mono_sized p rev -> mono_sized p rev' -> act_sized p out -> act_sized p out' ->
  mono_ok p Q -> mono_ok p Q' -> length (a_coef inp) = pK p -> length (a_coef inp') = pK p ->
  idx_list p (pK p) (a_perm inp) -> idx_list p (pK p) (a_perm inp') ->
  snd (monomial_compose_action_t p rev out Q inp) = monomial_compose_action p rev out Q inp /\
  (fst (monomial_compose_action_t p rev out Q inp) = fst (monomial_compose_action_t p rev' out' Q' inp') <->
   same_permutation Q Q' /\ a_perm inp = a_perm inp').
Proof.
  intros p rev rev' out out' Q Q' inp inp' Hr Hr' Ho Ho' HQ HQ' A A' B B'. split. { apply compose_erase. }
  destruct (mono_idx p Q HQ) as (C & I). destruct (mono_idx p Q' HQ') as (C' & I').
  rewrite (proj1 (compose_record_ok p rev out Q inp Hr Ho C I A B)), (proj1 (compose_record_ok p rev' out' Q' inp' Hr' Ho' C' I' A' B')).
  unfold compose_record, same_permutation. rewrite (idx_eq p (pN p) (m_perm Q)), (idx_eq p (pK p) (a_perm inp)) by auto. split.
  - intros E. apply loop_split in E; [|intros i Hi; apply codes_len; reflexivity]. destruct E as (E2 & E1).
    rewrite loop_inj in E2 by (intros i Hi; apply codes_len; reflexivity). split; intros i Hi.
    + specialize (E1 i ltac:(lia)). cbv zeta in E1. injection E1 as E1 _. exact E1.
    + specialize (E2 i ltac:(lia)). cbv zeta in E2. injection E2 as E2 _. exact E2.
  - intros (E1 & E2). f_equal; apply loop_ext; intros i Hi; cbv zeta; [rewrite (E1 i) by lia|rewrite (E2 i) by lia]; reflexivity.
Qed.

(** The shuffle: the record tells the permutation that results, and nothing more about the random bytes. *)
Lemma shuffle_leak p rs rs' l : length l = pN p -> NoDup l ->
  (forall i, (i < pN p - 1)%nat -> (i <= rs i < pN p)%nat) -> (forall i, (i < pN p - 1)%nat -> (i <= rs' i < pN p)%nat) ->
  (shuffle_record p rs = shuffle_record p rs' <-> fisher_yates (pN p - 1) rs l = fisher_yates (pN p - 1) rs' l).
Proof.
  intros L ND H H'. unfold shuffle_record. split.
  - intros E. apply app_inv_head in E. rewrite loop_inj in E by (intros i Hi; apply codes_len; reflexivity). apply fy_ext. intros i Hi.
    specialize (E i ltac:(lia)). injection E as E _. exact E.
  - intros E. f_equal. apply loop_ext. intros i Hi. rewrite (fy_injective (pN p - 1) rs rs' l); auto; try lia; intros j Hj; rewrite L; auto.
Qed.
Theorem C61_shuffle : forall X p, wf_params p -> lawful X (hash_len p) -> forall st st' perm, length perm = pN p -> NoDup perm ->
  snd (yt_shuffle_state_t X p st perm) = yt_shuffle_state X p st perm /\
  exists l s l' s', yt_shuffle_state X p st perm = Ok (l, s) /\ yt_shuffle_state X p st' perm = Ok (l', s') /\
  (fst (yt_shuffle_state_t X p st perm) = fst (yt_shuffle_state_t X p st' perm) <-> l = l').
Proof.
  intros X p wf LX st st' perm HL ND. split. { apply shuffle_erase. }
  do 4 eexists. split; [apply (yt_shuffle_fun X p wf); auto|]. split; [apply (yt_shuffle_fun X p wf); auto|].
  rewrite (proj1 (shuffle_record_ok X p st perm wf LX HL)), (proj1 (shuffle_record_ok X p st' perm wf LX HL)).
  apply shuffle_leak; auto; intros i Hi; apply shuffle_index_range; auto.
Qed.

Lemma perm_stores p a Q : a = R_perm -> idx_list p (pN p) (m_perm Q) ->
  forall T, (forall i, (i < pN p)%nat -> stores a (T i) = [Z.to_nat (nth i (m_perm Q) 0)]) -> stores a (loop T 0 (pN p)) = map Z.to_nat (m_perm Q).
Proof.
  intros -> (L & _) T H. rewrite stores_loop. rewrite (flat_single _ (fun i => Z.to_nat (nth i (m_perm Q) 0))).
  - apply (list_ext 0%nat). { rewrite !map_length, seq_length. auto. } intros i Hi. rewrite map_length, seq_length in Hi.
    rewrite nth_map_seq by auto. symmetry. apply (map_nth Z.to_nat (m_perm Q) 0%Z i).
  - intros i Hi. apply in_seq in Hi. apply H. lia.
Qed.
Lemma expand_stores X p fuel r seed Q : wf_params p -> lawful X (hash_len p) -> mono_sized p r ->
  monomial_mat_seed_expand_prikey X p fuel r seed = Ok Q -> stores R_perm (fst (monomial_mat_seed_expand_prikey_t X p fuel r seed)) = [].
Proof.
  intros wf LX Hr E. destruct (expand_record X p fuel r seed Q wf LX Hr E) as (rs & _ & _ & (-> & _)).
  rewrite !stores_app, rand_stores by discriminate. unfold shuffle_record. rewrite stores_app, !stores_loop.
  rewrite !flat_none by (intros i _; reflexivity). reflexivity.
Qed.
Lemma expand_mono X p fuel r seed Q : wf_params p -> lawful X (hash_len p) -> mono_sized p r ->
  monomial_mat_seed_expand_prikey X p fuel r seed = Ok Q -> mono_ok p Q.
Proof. intros wf LX (R1 & R2) E. apply (wp_eq _ Q _ (monomial_expand_spec X p wf fuel r seed LX ltac:(split; auto)) E). Qed.

(** The words drawn for the coefficients are accepted and rejected alike. *)
Definition same_verdicts X (seed seed' : list Z) : Prop :=
  forall n, map (fun w => map (fun v => v <=? 125) (chunks7 w)) (draw_words X n (x_init X seed)) =
            map (fun w => map (fun v => v <=? 125) (chunks7 w)) (draw_words X n (x_init X seed')).

Lemma expand_same X p fuel r r' seed seed' Q Q' : wf_params p -> lawful X (hash_len p) -> mono_sized p r -> mono_sized p r' ->
  monomial_mat_seed_expand_prikey X p fuel r seed = Ok Q -> monomial_mat_seed_expand_prikey X p fuel r' seed' = Ok Q' ->
  same_permutation Q Q' -> same_verdicts X seed seed' ->
  fst (monomial_mat_seed_expand_prikey_t X p fuel r seed) = fst (monomial_mat_seed_expand_prikey_t X p fuel r' seed').
Proof.
  intros wf LX Hr Hr' E E' SP SV. pose proof (wf_K p wf) as HK.
  destruct (expand_record X p fuel r seed Q wf LX Hr E) as (rs & R & P & (-> & _)).
  destruct (expand_record X p fuel r' seed' Q' wf LX Hr' E') as (rs' & R' & P' & (-> & _)).
  assert (LI : length (identity p) = pN p) by (unfold identity; rewrite map_length, seq_length; auto).
  f_equal.
  - destruct Hr as (H1 & _), Hr' as (H2 & _). apply (rand_same X p); auto. lia.
  - f_equal. apply (shuffle_leak p rs rs' (identity p)); auto.
    + unfold identity. apply FinFun.Injective_map_NoDup; [|apply seq_NoDup]. intros a b Hab. lia.
    + rewrite <- P, <- P'. exact SP.
Qed.

(** Signing: the addresses of the stores into reverse_Q.permutation, in order, are the private permutation. Beyond it and
    the permutation of the committed action, the record tells which random words were rejected for the coefficients. *)
Theorem C61_sign : forall X p, wf_params p -> lawful X (hash_len p) ->
  forall fuel q0 rev0 out0 bar seed Q, mono_sized p q0 -> mono_sized p rev0 -> act_sized p out0 ->
  length (a_coef bar) = pK p -> idx_list p (pK p) (a_perm bar) ->
  monomial_mat_seed_expand_prikey X p fuel q0 seed = Ok Q ->
  snd (sign_secret_t X p fuel q0 rev0 out0 bar seed) = monomial_compose_action p rev0 out0 Q bar /\
  stores R_perm (fst (sign_secret_t X p fuel q0 rev0 out0 bar seed)) = map Z.to_nat (m_perm Q) /\
  forall q0' rev0' out0' bar' seed' Q', mono_sized p q0' -> mono_sized p rev0' -> act_sized p out0' ->
    length (a_coef bar') = pK p -> idx_list p (pK p) (a_perm bar') ->
    monomial_mat_seed_expand_prikey X p fuel q0' seed' = Ok Q' ->
    same_permutation Q Q' -> same_verdicts X seed seed' -> a_perm bar = a_perm bar' ->
    fst (sign_secret_t X p fuel q0 rev0 out0 bar seed) = fst (sign_secret_t X p fuel q0' rev0' out0' bar' seed').
Proof.
  intros X p wf LX fuel q0 rev0 out0 bar seed Q Hq Hr Ho Hb Hi E.
  assert (F : forall q0 rev0 out0 bar seed Q, mono_sized p q0 -> mono_sized p rev0 -> act_sized p out0 -> length (a_coef bar) = pK p ->
    idx_list p (pK p) (a_perm bar) -> monomial_mat_seed_expand_prikey X p fuel q0 seed = Ok Q ->
    fst (sign_secret_t X p fuel q0 rev0 out0 bar seed) = fst (monomial_mat_seed_expand_prikey_t X p fuel q0 seed) ++ compose_record p Q bar).
  { clear - wf LX. intros q0 rev0 out0 bar seed Q Hq Hr Ho Hb Hi E. unfold sign_secret_t.
    pose proof (expand_erase X p fuel q0 seed) as EE. rewrite E in EE.
    destruct (mono_idx p Q (expand_mono X p fuel q0 seed Q wf LX Hq E)) as (C & I).
    destruct (monomial_mat_seed_expand_prikey_t X p fuel q0 seed) as [T res]. cbn [snd] in EE. subst res. cbn [tbind fst]. f_equal.
    apply compose_record_ok; auto. }
  destruct (mono_idx p Q (expand_mono X p fuel q0 seed Q wf LX Hq E)) as (C & I).
  split; [|split].
  - unfold sign_secret_t. rewrite snd_tbind, expand_erase, E. cbn [bind]. apply compose_erase.
  - rewrite (F q0 rev0 out0 bar seed Q) by auto. rewrite stores_app, (expand_stores X p fuel q0 seed Q) by auto. cbn [app].
    unfold compose_record. rewrite stores_app, (perm_stores p R_perm Q eq_refl I) by (intros i Hl; reflexivity).
    rewrite stores_loop, flat_none by (intros i Hl; reflexivity). apply app_nil_r.
  - intros q0' rev0' out0' bar' seed' Q' Hq' Hr' Ho' Hb' Hi' E' SP SV SB.
    rewrite (F q0 rev0 out0 bar seed Q), (F q0' rev0' out0' bar' seed' Q') by auto.
    rewrite (expand_same X p fuel q0 q0' seed seed' Q Q') by auto. f_equal. unfold compose_record. rewrite SP, SB. reflexivity.
Qed.

(** Key generation: the same, through the inversion; the private permutation is read off twice, the second time from the
    columns into which the public matrix is copied. *)
Theorem C61_keygen : forall X p, wf_params p -> lawful X (hash_len p) ->
  forall fuel q0 qi0 r0 G seed Q, mono_sized p q0 -> mono_sized p qi0 -> shape (pK p) (pN p) r0 -> shape (pK p) (pN p) G ->
  monomial_mat_seed_expand_prikey X p fuel qi0 seed = Ok Q ->
  (exists qi, monomial_mat_inv p q0 Q = Ok qi /\
     snd (keygen_secret_t X p fuel q0 qi0 r0 G seed) = generator_monomial_mul p r0 G qi) /\
  stores R_perm (fst (keygen_secret_t X p fuel q0 qi0 r0 G seed)) = map Z.to_nat (m_perm Q) /\
  forall q0' qi0' r0' G' seed' Q', mono_sized p q0' -> mono_sized p qi0' -> shape (pK p) (pN p) r0' -> shape (pK p) (pN p) G' ->
    monomial_mat_seed_expand_prikey X p fuel qi0' seed' = Ok Q' ->
    same_permutation Q Q' -> same_verdicts X seed seed' ->
    fst (keygen_secret_t X p fuel q0 qi0 r0 G seed) = fst (keygen_secret_t X p fuel q0' qi0' r0' G' seed').
Proof.
  intros X p wf LX fuel q0 qi0 r0 G seed Q Hq Hqi Hr HG E.
  assert (F : forall q0 qi0 r0 G seed Q, mono_sized p q0 -> mono_sized p qi0 -> shape (pK p) (pN p) r0 -> shape (pK p) (pN p) G ->
    monomial_mat_seed_expand_prikey X p fuel qi0 seed = Ok Q ->
    exists qi, monomial_mat_inv p q0 Q = Ok qi /\ mono_ok p qi /\ (forall i, (i < pN p)%nat -> pf (m_perm qi) (pf (m_perm Q) i) = i) /\
    fst (keygen_secret_t X p fuel q0 qi0 r0 G seed) =
    fst (monomial_mat_seed_expand_prikey_t X p fuel qi0 seed) ++ inverse_record p Q ++ mul_record p qi).
  { clear - wf LX. intros q0 qi0 r0 G seed Q Hq Hqi Hr HG E. unfold keygen_secret_t.
    pose proof (expand_erase X p fuel qi0 seed) as EE. rewrite E in EE.
    pose proof (expand_mono X p fuel qi0 seed Q wf LX Hqi E) as MQ.
    destruct (mono_idx p Q MQ) as (C & I).
    destruct (monomial_mat_inv_spec p wf q0 Q ltac:(destruct Hq; split; auto) MQ) as (qi & EI & MI & PI & _).
    destruct (mono_idx p qi MI) as (C' & I').
    exists qi. split; [exact EI|]. split; [exact MI|]. split; [exact PI|].
    destruct (monomial_mat_seed_expand_prikey_t X p fuel qi0 seed) as [T res]. cbn [snd] in EE. subst res. cbn [tbind fst]. f_equal.
    pose proof (inverse_record_ok p q0 Q Hq C I) as (R & _). pose proof (inv_erase p q0 Q) as RE. rewrite EI in RE.
    destruct (monomial_mat_inv_t p q0 Q) as [T' res]. cbn [snd fst] in *. subst res T'. cbn [tbind fst]. f_equal.
    apply mul_record_ok; auto. }
  destruct (mono_idx p Q (expand_mono X p fuel qi0 seed Q wf LX Hqi E)) as (C & I).
  destruct (F q0 qi0 r0 G seed Q) as (qi & EI & MI & PI & FR); auto.
  split; [|split].
  - exists qi. split; [exact EI|]. unfold keygen_secret_t. rewrite snd_tbind, expand_erase, E. cbn [bind]. rewrite snd_tbind, inv_erase, EI. cbn [bind]. apply mul_erase.
  - rewrite FR, !stores_app, (expand_stores X p fuel qi0 seed Q) by auto. cbn [app].
    unfold inverse_record. rewrite (perm_stores p R_perm Q eq_refl I) by (intros i Hl; reflexivity).
    unfold mul_record. rewrite stores_loop, flat_none; [apply app_nil_r|]. intros i Hl. rewrite stores_loop, flat_none; auto.
  - intros q0' qi0' r0' G' seed' Q' Hq' Hqi' Hr' HG' E' SP SV.
    destruct (F q0' qi0' r0' G' seed' Q') as (qi' & EI' & MI' & PI' & FR'); auto. rewrite FR, FR'.
    rewrite (expand_same X p fuel qi0 qi0' seed seed' Q Q') by auto. f_equal. unfold inverse_record. rewrite SP. f_equal.
    unfold mul_record. replace (m_perm qi') with (m_perm qi); [reflexivity|].
    apply (idx_eq p (pN p)). { apply mono_idx; auto. } { apply mono_idx; auto. } intros i Hi.
    pose proof (expand_mono X p fuel qi0 seed Q wf LX Hqi E) as MQ.
    destruct (bij_surj _ _ (perm_list_bij _ _ (mo_perm p Q MQ)) i Hi) as (j & Hj & EJ).
    specialize (PI j Hj). specialize (PI' j Hj). rewrite <- SP, EJ in PI'. rewrite EJ in PI. unfold pf, nthZ in *. congruence.
Qed.

(** Two monomials with the same permutation and other coefficients, one with another permutation; and rounds of signing and
    key generation in which the private permutation is read off. *)
Definition ex_reverse : monomial := {| m_coef := repeat 5 (pN toy_params); m_perm := rev (map Z.of_nat (seq 0 (pN toy_params))) |}.
Definition ex_reverse' : monomial := {| m_coef := repeat 8 (pN toy_params); m_perm := rev (map Z.of_nat (seq 0 (pN toy_params))) |}.
Definition ex_identity : monomial := {| m_coef := repeat 5 (pN toy_params); m_perm := map Z.of_nat (seq 0 (pN toy_params)) |}.
Definition ex_bar : action := {| a_perm := map Z.of_nat (seq 3 (pK toy_params)); a_coef := repeat 1 (pK toy_params) |}.
Definition ex_out : action := {| a_perm := repeat 0 (pK toy_params); a_coef := repeat 0 (pK toy_params) |}.
Example C61_example :
  (let T q := fst (monomial_mat_inv_t toy_params ex_identity q) in
   record_eqb (T ex_reverse) (T ex_reverse') = true /\ record_eqb (T ex_reverse) (T ex_identity) = false) /\
  (let M := ex_mat (fun _ => 1) in let T q := fst (generator_monomial_mul_t toy_params M M q) in
   record_eqb (T ex_reverse) (T ex_reverse') = true /\ record_eqb (T ex_reverse) (T ex_identity) = false) /\
  (let S seed := fst (sign_secret_t toyX toy_params 200 ex_identity ex_identity ex_out ex_bar seed) in
   let Q seed := okd ex_identity (monomial_mat_seed_expand_prikey toyX toy_params 200 ex_identity seed) in
   stores R_perm (S [1; 2; 3]) = map Z.to_nat (m_perm (Q [1; 2; 3])) /\ firstn 4 (m_perm (Q [1; 2; 3])) = [80; 60; 91; 22] /\
   record_eqb (S [1; 2; 3]) (S [0; 139; 3]) = true /\ record_eqb (S [1; 2; 3]) (S [1; 2; 4]) = false).
Proof. vm_compute. repeat split. Qed.

Print Assumptions C60_memcmp.
Print Assumptions C60_inverse.
Print Assumptions C60_lex_minimize.
Print Assumptions C60_lex_minimize_refuted.
Print Assumptions C60_compare.
Print Assumptions C61_multiply.
Print Assumptions C61_invert.
Print Assumptions C61_compose.
Print Assumptions C61_shuffle.
Print Assumptions C61_sign.
Print Assumptions C61_keygen.
