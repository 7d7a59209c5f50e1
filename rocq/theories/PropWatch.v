(** Property C72: whoever sees the branches and addresses of one commitment and the response to it learns K entries of the
    private permutation. The programs [watch] and [learn] are not in the repository: they are what the observer runs. *)
From Coq Require Import Permutation.
From Verif Require Import Base BaseLemmas Params ParamsProofs Fq FqProofs Sums Monomial Codes Spec LinAlg RrefProofs EnumProofs MonoProofs ActionProofs RoundProofs SortProofs
  PropMono PropCanon Leak LeakProofs LeakRref LeakRrefProofs PropLeak PropRref PropLeakSort Toy.

(** The row of the ephemeral monomial whose coefficient was read last before each store into the action. *)
Fixpoint watch (last : nat) (T : list event) : list nat :=
  match T with
  | [] => []
  | Load Q_coef i _ :: T' => watch i T'
  | Store Out_perm _ _ :: T' => last :: watch last T'
  | _ :: T' => watch last T'
  end.
(** Pairs of a column of the key and the place where the private permutation sends it, from the record [T] of a commitment
    and the response [b]. *)
Definition learn (p : params) (T : list event) (b : action) : list (nat * nat) :=
  combine (map Z.to_nat (a_perm b)) (firstn (pK p) (watch 0 T)).

(** *** Following the record *)
Fixpoint after (last : nat) (T : list event) : nat :=
  match T with
  | [] => last
  | Load Q_coef i _ :: T' => after i T'
  | _ :: T' => after last T'
  end.
Lemma watch_app T : forall l T', watch l (T ++ T') = watch l T ++ watch (after l T) T'.
Proof.
  induction T as [|e T IH]; intros l T'; [reflexivity|].
  destruct e as [a i j|a i j|b]; [destruct a|destruct a|]; cbn [app watch after]; rewrite IH; reflexivity.
Qed.
Lemma after_app T : forall l T', after l (T ++ T') = after (after l T) T'.
Proof.
  induction T as [|e T IH]; intros l T'; [reflexivity|]. destruct e as [a i j|a i j|b]; [destruct a|destruct a|]; cbn [app after]; apply IH.
Qed.

Definition silent (T : list event) : Prop := forall l, watch l T = [].
Lemma silent_app T T' : silent T -> silent T' -> silent (T ++ T').
Proof. intros H H' l. rewrite watch_app, H, H'. reflexivity. Qed.
Definition quiet {A} (m : tm A) : Prop := silent (fst m).
Lemma quiet_bind {A B} (m : tm A) (k : A -> tm B) : quiet m -> (forall a, quiet (k a)) -> quiet (tbind m k).
Proof. intros H HK. unfold quiet. rewrite fst_tbind. apply silent_app; auto. destruct (snd m); [apply HK|intros l; reflexivity..]. Qed.
Lemma quiet_ret {A} (a : A) : quiet (ret a).
Proof. intros l. reflexivity. Qed.
Lemma quiet_branch b : quiet (branch b).
Proof. intros l. reflexivity. Qed.
Lemma quiet_load a x i : quiet (load a x i).
Proof. intros l. destruct a; reflexivity. Qed.
Lemma quiet_load2 a x i j : quiet (load2 a x i j).
Proof. intros l. destruct a; reflexivity. Qed.
Lemma quiet_store a x i v : a <> Out_perm -> quiet (store a x i v).
Proof. intros H l. destruct a; try reflexivity. congruence. Qed.
Lemma quiet_store2 a x i j v : a <> Out_perm -> quiet (store2 a x i j v).
Proof. intros H l. destruct a; try reflexivity. congruence. Qed.
Lemma quiet_for {S} (f : nat -> S -> tm S) n : (forall i s, quiet (f i s)) -> forall start s, quiet (tfor n start f s).
Proof.
  intros H. induction n; intros start s; cbn [tfor].
  - apply quiet_bind; [apply quiet_branch|]. intros _. apply quiet_ret.
  - apply quiet_bind; [apply quiet_branch|]. intros _. apply quiet_bind; auto.
Qed.
Lemma quiet_none {A} : quiet (@no_fuel A).
Proof. intros l. reflexivity. Qed.
Ltac calm := repeat first [apply quiet_ret | apply quiet_branch | apply quiet_load | apply quiet_load2 | apply quiet_none
  | apply quiet_store; discriminate | apply quiet_store2; discriminate | apply quiet_bind | apply quiet_for; intros ? ? | match goal with |- forall _, _ => intros ? end | assumption | solve [auto]
  | match goal with |- quiet (if ?b then _ else _) => destruct b | |- quiet (match ?x with (_, _) => _ end) => destruct x end ].

Section Q.
Variable p : params.
Lemma quiet_swap G r s : quiet (swap_rows_t p G r s).
Proof. unfold swap_rows_t. calm. Qed.
Lemma quiet_scan f : forall G a b, quiet (pivot_row_scan_t p f G a b).
Proof. induction f; intros G a b; cbn [pivot_row_scan_t]; calm. Qed.
Lemma quiet_search f : forall G r a b, quiet (pivot_search_t p f G r a b).
Proof. pose proof quiet_scan as QS. induction f; intros G r a b; cbn [pivot_search_t]; calm. Qed.
Lemma quiet_pow e : forall a x, quiet (fq_pow_loop_t e a x).
Proof. induction e; intros a x; cbn [fq_pow_loop_t]; calm. Qed.
Lemma quiet_inv x : quiet (fq_inv_t x).
Proof. unfold fq_inv_t. apply quiet_bind; [apply quiet_pow|]. intros a. apply quiet_ret. Qed.
Lemma quiet_rescale G r c sf : quiet (rescale_row_t p G r c sf).
Proof. unfold rescale_row_t. calm. Qed.
Lemma quiet_elim G a b m : quiet (eliminate_row_t p G a b m).
Proof. unfold eliminate_row_t. cbv zeta. calm. Qed.
Lemma quiet_elims G a b : quiet (eliminate_rows_t p G a b).
Proof. pose proof quiet_elim as QE. unfold eliminate_rows_t. calm. Qed.
Lemma quiet_step G piv r a b : quiet (reduce_step_t p G piv r a b).
Proof. pose proof quiet_swap as Q1. pose proof quiet_inv as Q2. pose proof quiet_rescale as Q3. pose proof quiet_elims as Q4. unfold reduce_step_t. calm. Qed.
Lemma quiet_rows n : forall r G piv, quiet (rref_rows_t p n r G piv).
Proof. pose proof quiet_search as Q1. pose proof quiet_step as Q2. induction n; intros r G piv; cbn [rref_rows_t]; calm. Qed.
Lemma quiet_rref G piv : quiet (generator_RREF_t p G piv).
Proof. apply quiet_rows. Qed.
Lemma quiet_mul r G Q : quiet (generator_monomial_mul_t p r G Q).
Proof. unfold generator_monomial_mul_t. calm. Qed.
End Q.

(** What holds of record and result if there is a result. *)
Definition ws {A} (m : tm A) (P : list event -> A -> Prop) : Prop := match snd m with Ok a => P (fst m) a | _ => True end.
Lemma ws_bind {A B} (m : tm A) (k : A -> tm B) P Q : ws m P -> (forall T a, P T a -> ws (k a) (fun T' b => Q (T ++ T') b)) -> ws (tbind m k) Q.
Proof.
  unfold ws. intros H HK. rewrite snd_tbind, fst_tbind. destruct (snd m) as [a| |]; cbn [bind]; auto. specialize (HK (fst m) a H). destruct (snd (k a)); auto.
Qed.
Lemma ws_mono {A} (m : tm A) (P Q : list event -> A -> Prop) : ws m P -> (forall T a, P T a -> Q T a) -> ws m Q.
Proof. unfold ws. destruct (snd m); auto. Qed.
Lemma ws_ret {A} (a : A) (P : list event -> A -> Prop) : P [] a -> ws (ret a) P.
Proof. intros H. exact H. Qed.
Lemma ws_branch b (P : list event -> bool -> Prop) : P [Branch b] b -> ws (branch b) P.
Proof. intros H. exact H. Qed.
Lemma ws_load a l i (P : list event -> Z -> Prop) : ((i < length l)%nat -> P [Load a i 0] (nth i l 0)) -> ws (load a l i) P.
Proof.
  intros H. unfold ws. cbn [load fst snd]. destruct (get l i) eqn:E; auto. apply get_inv in E. destruct E as (E1 & E2). specialize (E2 0). subst. auto.
Qed.
Lemma ws_store a l i x (P : list event -> list Z -> Prop) : ((i < length l)%nat -> P [Store a i 0] (upd l i x)) -> ws (store a l i x) P.
Proof.
  intros H. unfold ws. cbn [store fst snd]. destruct (set l i x) eqn:E; auto. apply set_inv in E. destruct E as (E1 & ->). auto.
Qed.
Lemma ws_for {S} (I : nat -> list event -> S -> Prop) (f : nat -> S -> tm S) n : forall start T0 s,
  (forall i T s, (start <= i < start + n)%nat -> I i T s -> ws (f i s) (fun T' s' => I (Datatypes.S i) (T ++ Branch true :: T') s')) ->
  I start T0 s -> ws (tfor n start f s) (fun T s' => exists T1, T0 ++ T = T1 ++ [Branch false] /\ I (start + n)%nat T1 s').
Proof.
  induction n; intros start T0 s H H0; cbn [tfor].
  - eapply ws_bind with (P := fun T b => T = [Branch false]). { apply ws_branch. reflexivity. } intros T _ ->. apply ws_ret. exists T0. rewrite Nat.add_0_r, app_nil_r. auto.
  - eapply ws_bind with (P := fun T b => T = [Branch true]). { apply ws_branch. reflexivity. } intros T _ ->.
    eapply ws_bind with (P := fun T' s' => I (Datatypes.S start) (T0 ++ Branch true :: T') s'). { apply H; [lia|auto]. } intros T a Ha. cbn beta.
    eapply ws_mono. { apply (IHn (Datatypes.S start) (T0 ++ Branch true :: T) a); auto. intros i U x Hi. apply H. lia. }
    intros T' b (T1 & E & HI). exists T1. split. { rewrite <- E, <- !app_assoc. reflexivity. } replace (start + Datatypes.S n)%nat with (Datatypes.S start + n)%nat by lia. auto.
Qed.
Lemma ws_quiet {A} (m : tm A) (P : list event -> A -> Prop) : quiet m -> (forall T a, silent T -> snd m = Ok a -> P T a) -> ws m P.
Proof. intros H HP. unfold ws. destruct (snd m) eqn:E; auto. Qed.

Section W.
Variable p : params.
Hypothesis wf : wf_params p.
Notation N := (pN p).
Notation K := (pK p).
Notation w := (pN p - pK p)%nat.
Notation zeros := (repeat (repeat 0 N) K).

Lemma quiet_minimize V dst G col : quiet (lex_minimize_t p V dst G col).
Proof. pose proof quiet_inv as QI. unfold lex_minimize_t. cbv zeta. unfold and_t, or_t, orl_t. calm. Qed.

Lemma extract_watch Q col l : (exists j, (j < N)%nat /\ nth j (m_perm Q) 0 = Z.of_nat col) ->
  ws (extract_col_t p Q col) (fun T s => watch l T = [] /\ fst s = Z.of_nat (after l T)).
Proof.
  intros (j & Hj & Ej). unfold extract_col_t. eapply ws_mono.
  { apply (ws_for (fun i T s => watch l T = [] /\ ((exists j, (j < i)%nat /\ nth j (m_perm Q) 0 = Z.of_nat col) -> fst s = Z.of_nat (after l T))) _ N 0 []).
    - intros i T s Hi (H1 & H2).
      eapply ws_bind with (P := fun U x => U = [Load Q_perm i 0] /\ x = nth i (m_perm Q) 0). { apply ws_load. auto. } intros U x (-> & ->).
      eapply ws_bind with (P := fun U b => U = [Branch b] /\ b = (nth i (m_perm Q) 0 =? Z.of_nat col)). { apply ws_branch. auto. } intros U b (-> & ->). cbn [app].
      destruct (Z.eqb_spec (nth i (m_perm Q) 0) (Z.of_nat col)) as [E|E].
      + eapply ws_bind with (P := fun U x => U = [Load Q_coef i 0]). { apply ws_load. auto. } intros U x ->. apply ws_ret. cbn [app fst].
        rewrite watch_app, after_app, H1. cbn [watch after app]. split; auto. intros _. apply pos_t_id; auto. lia.
      + apply ws_ret. rewrite watch_app, after_app, H1. cbn [watch after app]. split; auto. intros (k & Hk & Ek). apply H2. exists k. split; auto.
        destruct (Nat.eq_dec k i) as [->|]; [contradiction|lia].
    - split; auto. intros (k & Hk & _). lia. }
  intros T s (T1 & E & H1 & H2). cbn [app] in E. subst T. rewrite watch_app, after_app, H1. cbn [watch after app Nat.add] in *. split; auto. apply H2. eauto.
Qed.

Lemma columns_watch Q G fl V Qb l0 : mono_ok p Q -> act_mem p Qb -> length fl = N -> cnt (is_pv fl) N = K ->
  ws (tfor N 0 (fun col s =>
      let '(V, Qb, piv_idx, non_piv_idx) := s in
      ' (row_idx, val) <~ extract_col_t p Q col ;;
      f <~ load Is_pivot fl col ;;
      b <~ branch (f =? 0) ;;
      if b then
        (V' <~ lex_minimize_t p V (Z.to_nat (pos_t p (non_piv_idx - Z.of_nat K))) G col ;;
         ret (V', Qb, piv_idx, pos_t p (non_piv_idx + 1)))
      else
        (perm <~ store Out_perm (a_perm Qb) (Z.to_nat piv_idx) row_idx ;;
         coef <~ store Out_coef (a_coef Qb) (Z.to_nat piv_idx) (u8 val) ;;
         ret (V, {| a_perm := perm; a_coef := coef |}, pos_t p (piv_idx + 1), non_piv_idx)))
    (V, Qb, 0, pos_t p (Z.of_nat K)))
  (fun T s => map Z.of_nat (watch l0 T) = a_perm (snd (fst (fst s)))).
Proof.
  intros HQ HB Hfl HC. pose proof (wf_K p wf) as HK. eapply ws_mono.
  { apply (ws_for (fun n T s => let '(V, Qb, pi, _) := s in act_mem p Qb /\ pi = Z.of_nat (cnt (is_pv fl) n) /\ length (watch l0 T) = cnt (is_pv fl) n /\
      forall k, (k < cnt (is_pv fl) n)%nat -> nth k (a_perm Qb) 0 = Z.of_nat (nth k (watch l0 T) 0%nat)) _ N 0 []).
    2:{ cbn [watch length]. rewrite cnt_0. split; auto. split; auto. split; auto. intros; lia. }
    intros n T [[[V1 Qb1] pi] npi] Hn ((A1 & A2) & -> & H2 & H3). set (l1 := after l0 T).
    eapply ws_bind. { apply (extract_watch Q n l1). destruct (perm_surj p Q n HQ ltac:(lia)) as (s & Hs & Es). exists s. split; auto.
      unfold pf in Es. pose proof (perm_list_in N _ (nthZ (m_perm Q) s) (mo_perm p Q HQ)) as R. unfold nthZ in *.
      rewrite <- Es, Z2Nat.id; auto. apply R. apply nth_In. rewrite (perm_list_len N _ (mo_perm p Q HQ)). auto. }
    intros U [ri v] (U1 & U2). cbn [fst] in U2. subst ri.
    eapply ws_bind with (P := fun U x => U = [Load Is_pivot n 0] /\ x = nth n fl 0). { apply ws_load. auto. } intros U' x (-> & ->).
    eapply ws_bind with (P := fun U b => U = [Branch b] /\ b = (nth n fl 0 =? 0)). { apply ws_branch. auto. } intros U' b (-> & ->).
    assert (EX : forall W, watch l0 (T ++ Branch true :: U ++ [Load Is_pivot n 0] ++ [Branch (nth n fl 0 =? 0)] ++ W) = watch l0 T ++ watch (after l1 U) W).
    { intros W. rewrite watch_app. fold l1. f_equal. cbn [watch]. rewrite watch_app, U1. reflexivity. }
    destruct (nth n fl 0 =? 0) eqn:Ef.
    - assert (Ep : is_pv fl n = false) by (unfold is_pv; rewrite Ef; reflexivity).
      eapply ws_bind with (P := fun W _ => silent W). { apply ws_quiet; auto. apply quiet_minimize. } intros W V2 SW. apply ws_ret. rewrite app_nil_r.
      rewrite EX, SW, app_nil_r, cnt_S, Ep, Nat.add_0_r. split; [split; auto|]. auto.
    - assert (Ep : is_pv fl n = true) by (unfold is_pv; rewrite Ef; reflexivity). pose proof (cnt_lt (is_pv fl) n N ltac:(lia) Ep) as Lp.
      rewrite Nat2Z.id. eapply ws_bind with (P := fun W x => W = [Store Out_perm (cnt (is_pv fl) n) 0] /\ x = upd (a_perm Qb1) (cnt (is_pv fl) n) (Z.of_nat (after l1 U))).
      { apply ws_store. auto. } intros W pm (-> & ->).
      eapply ws_bind with (P := fun W x => W = [Store Out_coef (cnt (is_pv fl) n) 0] /\ length x = K).
      { apply ws_store. intros _. split; auto. rewrite upd_length. auto. } intros W cf (-> & Lc). apply ws_ret. cbn [a_perm a_coef].
      rewrite EX. cbn [app watch]. rewrite cnt_S, Ep.
      split. { split; cbn [a_perm a_coef]; rewrite ?upd_length; auto. } split. { rewrite pos_t_id by (auto; lia). lia. }
      split. { rewrite app_length. cbn [length]. lia. } intros k Hk. rewrite nth_upd by lia. destruct (Nat.eqb_spec (cnt (is_pv fl) n) k) as [<-|NE].
      + rewrite app_nth2 by lia. rewrite H2, Nat.sub_diag. reflexivity.
      + rewrite app_nth1 by lia. apply H3. lia. }
  intros T [[[V1 Qb1] pi] npi] (T1 & E & (A1 & A2) & _ & H2 & H3). cbn [app fst snd Nat.add] in *. subst T. rewrite watch_app. cbn [watch]. rewrite app_nil_r.
  rewrite HC in *. apply (list_ext 0). { rewrite map_length. lia. } intros k Hk. rewrite map_length in Hk.
  rewrite (nth_indep _ 0 (Z.of_nat 0)) by (rewrite map_length; lia). rewrite map_nth. symmetry. apply H3. lia.
Qed.

Lemma prepare_watch V Qb G Q V' bar : shape K w V -> act_mem p Qb -> G_ok p G -> mono_ok p Q -> prepare_digest_input p V Qb G Q = Ok (V', bar) ->
  map Z.of_nat (firstn K (watch 0 (fst (prepare_digest_input_t p V Qb G Q)))) = a_perm bar /\ act_ok p bar.
Proof.
  intros HV HB HG HQ E. pose proof HG as (HG1 & HG2 & HG3). pose proof (wf_K p wf) as HK.
  destruct (prepare_digest_input_spec p wf V Qb G Q HV HB HG1 HG2 HG3 HQ) as ([V0 bar0] & E0 & AO & _). rewrite E in E0. injection E0 as <- <-. split; auto.
  destruct (generator_monomial_mul_spec p zeros G Q (zeros_shape p) HG1 HQ HG2) as (M & EM & G1a & G1b & _).
  destruct (commit_record p wf V Qb G Q M HV HB HG HQ EM) as (R0 & pv0 & fl0 & EQ0 & SR0 & RM0 & RR0 & FL0 & _).
  assert (C : ws (commit_t p V Qb G Q) (fun T s => map Z.of_nat (watch 0 T) = a_perm (snd s))).
  { unfold commit_t. eapply ws_bind with (P := fun T x => silent T /\ x = M).
    { apply ws_quiet; [apply quiet_mul|]. intros T a ST Ea. rewrite mul_erase, EM in Ea. split; congruence. }
    intros T1 x (ST1 & ->). destruct (generator_RREF_spec p M G1a G1b ltac:(lia)) as ([[rt R] fl] & ER & Gd1 & Gd2 & Gd3 & Gd4).
    eapply ws_bind with (P := fun T x => silent T /\ x = (rt, R, fl)).
    { apply ws_quiet; [apply quiet_rref|]. intros T a ST Ea. rewrite RREF_erase, ER in Ea. split; congruence. }
    intros T2 x (ST2 & ->). destruct Gd4 as [(-> & pv & RR & FL)|(_ & X)].
    2:{ exfalso. apply X. apply (row_sub_full_rank K N (ent M) (ent R0)); [apply EQ0|apply (rref_full_rank K N (ent R0) pv0); auto]. }
    destruct (flags_cnt_pv K N (ent R) pv fl RR FL) as [Epv _]. pose proof FL as (Lfl & _).
    eapply ws_bind. { apply (columns_watch Q R fl V Qb (after (after 0 T1) T2)); auto. }
    intros T3 [[[V1 Qb1] pi] npi] H3. apply ws_ret. cbn [fst snd] in *. rewrite app_nil_r. rewrite !watch_app, ST1, ST2. exact H3. }
  destruct (commit_ok p wf V Qb G Q HV HB HG HQ) as (W & a & EC & _). unfold ws in C. rewrite EC in C. cbn [snd] in C.
  assert (a = bar) as ->.
  { rewrite <- prepare_erase in E. unfold prepare_digest_input_t in E. rewrite snd_tbind, EC in E. cbn [bind] in E. rewrite snd_tbind in E.
    destruct (snd (lex_sort_cols_t p W)); [|discriminate E..]. cbn [bind ret snd] in E. congruence. }
  destruct AO as [(A1 & A2) _ _ _]. unfold prepare_digest_input_t. rewrite fst_tbind, watch_app, EC.
  assert (L : length (watch 0 (fst (commit_t p V Qb G Q))) = K) by (rewrite <- A1, <- C, map_length; reflexivity).
  rewrite <- L, firstn_app, Nat.sub_diag, firstn_all. cbn [firstn]. rewrite app_nil_r. exact C.
Qed.
End W.

(** The record names the rows of the ephemeral monomial that the action keeps. *)
Theorem C72_commitment : forall p, wf_params p -> forall V Qb G Q V' bar,
  shape (pK p) (pN p - pK p) V -> act_array p Qb -> good_matrix p G -> good_mono p Q -> prepare_digest_input p V Qb G Q = Ok (V', bar) ->
  map Z.of_nat (firstn (pK p) (watch 0 (fst (prepare_digest_input_t p V Qb G Q)))) = a_perm bar.
Proof. intros p wf V Qb G Q V' bar HV HB HG HQ E. rewrite good_mono_ok in HQ. apply (prepare_watch p wf V Qb G Q V' bar); auto. Qed.

(** [T] is the record of a commitment which was answered by [b] under the private monomial [P]. *)
Definition answers (p : params) (P : monomial) (T : list event) (b : action) : Prop :=
  exists V Qb G Q V' bar rev out, shape (pK p) (pN p - pK p) V /\ act_array p Qb /\ good_matrix p G /\ good_mono p Q /\ mono_array p rev /\ act_array p out /\
    T = fst (prepare_digest_input_t p V Qb G Q) /\ prepare_digest_input p V Qb G Q = Ok (V', bar) /\ monomial_compose_action p rev out P bar = Ok b.

Lemma map_fst_combine (l : list nat) : forall L : list nat, length l = length L -> map fst (combine l L) = l.
Proof. induction l; intros [|y L] H; try discriminate H; auto. cbn [combine map fst]. f_equal. apply IHl. cbn [length] in H. lia. Qed.

(** With the response, each of the K rows is an entry of the private permutation. *)
Theorem C72_response : forall p, wf_params p -> forall P T b, good_mono p P -> answers p P T b ->
  length (learn p T b) = pK p /\ NoDup (map fst (learn p T b)) /\ map fst (learn p T b) = map Z.to_nat (a_perm b) /\
  forall s d, In (s, d) (learn p T b) -> (s < pN p)%nat /\ nth s (m_perm P) 0 = Z.of_nat d.
Proof.
  intros p wf P T b HP (V & Qb & G & Q & V' & bar & rev & out & HV & HB & HG & HQ & (HR1 & HR2) & HO & -> & E & EB). rewrite good_mono_ok in HQ, HP.
  destruct (prepare_watch p wf V Qb G Q V' bar HV HB HG HQ E) as (W & AO). pose proof AO as [(A1 & A2) A3 A4 A5].
  destruct (monomial_compose_action_spec p wf rev out P bar (conj HR1 HR2) HO HP AO) as (b0 & E0 & BO & HK). rewrite EB in E0. injection E0 as <-.
  pose proof BO as [(B1 & B2) B3 B4 B5]. unfold learn. set (L := firstn (pK p) (watch 0 (fst (prepare_digest_input_t p V Qb G Q)))) in *.
  assert (LL : length L = pK p) by (rewrite <- A1, <- W, map_length; reflexivity).
  assert (LB : length (map Z.to_nat (a_perm b)) = pK p) by (rewrite map_length; auto).
  assert (F : map fst (combine (map Z.to_nat (a_perm b)) L) = map Z.to_nat (a_perm b)).
  { apply map_fst_combine. congruence. }
  split. { rewrite combine_length, LL, LB. apply Nat.min_id. } split.
  { rewrite F. apply (NoDup_nth _ O). rewrite LB. intros i j Hi Hj EE. rewrite !(map_nth Z.to_nat (a_perm b) 0) in EE. apply B4; auto.
    pose proof (B3 i Hi). pose proof (B3 j Hj). unfold nthZ in *. lia. }
  split; [exact F|]. intros s d HI. apply (In_nth _ _ (O, O)) in HI. destruct HI as (k & Hk & Ek). rewrite combine_length, LL, LB, Nat.min_id in Hk.
  rewrite combine_nth in Ek by congruence. injection Ek as Es Ed.
  assert (Eb : nth k (a_perm bar) 0 = Z.of_nat d). { rewrite <- W, <- Ed. rewrite (nth_indep _ 0 (Z.of_nat 0)) by (rewrite map_length; lia). apply map_nth. }
  pose proof (A3 k Hk) as RA. unfold nthZ in RA. rewrite Eb in RA.
  destruct (perm_surj p P d HP ltac:(lia)) as (r & Hr & Er).
  destruct (HK k r Hk Hr) as (H1 & _). { rewrite Er. unfold pf, nthZ. rewrite Eb. apply Nat2Z.id. }
  assert (s = r) as ->. { rewrite <- Es, (map_nth Z.to_nat (a_perm b) 0). exact H1. }
  split; auto. unfold pf, nthZ in Er.
  assert (I : In (nth r (m_perm P) 0) (m_perm P)). { apply nth_In. rewrite (perm_list_len _ _ (mo_perm p P HP)). auto. }
  pose proof (perm_list_in _ _ _ (mo_perm p P HP) I). lia.
Qed.

(** If the responses name every column, nothing is left of the private permutation. *)
Theorem C72_whole : forall p, wf_params p -> forall P seen, good_mono p P ->
  (forall T b, In (T, b) seen -> answers p P T b) ->
  (forall s, (s < pN p)%nat -> exists T b, In (T, b) seen /\ In (Z.of_nat s) (a_perm b)) ->
  forall l, (length l = pN p /\ forall T b s d, In (T, b) seen -> In (s, d) (learn p T b) -> nth s l 0 = Z.of_nat d) <-> l = m_perm P.
Proof.
  intros p wf P seen HP HA HC l. pose proof HP as HP'. rewrite good_mono_ok in HP'. pose proof (perm_list_len _ _ (mo_perm p P HP')) as LP. split.
  - intros (HL & H). apply (list_ext 0). { congruence. } intros s Hs. destruct (HC s ltac:(lia)) as (T & b & I & J).
    destruct (C72_response p wf P T b HP (HA T b I)) as (_ & _ & F & R).
    assert (X : In s (map fst (learn p T b))). { rewrite F. replace s with (Z.to_nat (Z.of_nat s)) by apply Nat2Z.id. apply in_map. auto. }
    apply in_map_iff in X. destruct X as ((s', d) & Es & X). cbn [fst] in Es. subst s'. rewrite (H T b s d I X). symmetry. apply (R s d X).
  - intros ->. split; auto. intros T b s d I J. apply (C72_response p wf P T b HP (HA T b I)). auto.
Qed.

(** A commitment with an ephemeral monomial that reverses the columns and a private one that moves them by seven: three entries. *)
Definition ex_ephem : monomial := {| m_coef := repeat 5 (pN toy_params); m_perm := map Z.of_nat (List.rev (seq 0 (pN toy_params))) |}.
Definition ex_private : monomial := {| m_coef := repeat 9 (pN toy_params); m_perm := map Z.of_nat (seq 7 (pN toy_params - 7) ++ seq 0 7) |}.
Lemma ex_coef_good x : fq_unit x -> Forall fq_unit (repeat x (pN toy_params)).
Proof. intros H. apply Forall_forall. intros y Hy. apply repeat_spec in Hy. congruence. Qed.
Lemma ex_ephem_good : good_mono toy_params ex_ephem.
Proof.
  split. { apply Permutation_map. apply Permutation_sym, Permutation_rev. } split; [reflexivity|]. apply ex_coef_good. unfold fq_unit. lia.
Qed.
Lemma ex_private_good : good_mono toy_params ex_private.
Proof.
  split. { apply Permutation_map. eapply Permutation_trans. { apply Permutation_app_comm. } apply Permutation_refl. } split; [reflexivity|]. apply ex_coef_good. unfold fq_unit. lia.
Qed.
Definition ex_act : action := {| a_perm := repeat 0 (pK toy_params); a_coef := repeat 0 (pK toy_params) |}.
Definition ex_mono : monomial := {| m_coef := repeat 0 (pN toy_params); m_perm := repeat 0 (pN toy_params) |}.
Local Notation ex_T := (fst (prepare_digest_input_t toy_params ex_V ex_act sort_G ex_ephem)).
Definition the_action (x : res (mat * action)) : action := match x with Ok (_, a) => a | _ => ex_act end.
Definition the_answer (x : res action) : action := match x with Ok b => b | _ => ex_act end.
Local Notation ex_bar := (the_action (snd (commit_t toy_params ex_V ex_act sort_G ex_ephem))).
Local Notation ex_answer := (the_answer (monomial_compose_action toy_params ex_mono ex_act ex_private ex_bar)).
Lemma learn_eq p T b : learn p T b = combine (map Z.to_nat (a_perm b)) (firstn (pK p) (watch 0 T)).
Proof. reflexivity. Qed.
Lemma sort_bar p V Qb G Q V' bar W a : prepare_digest_input p V Qb G Q = Ok (V', bar) -> snd (commit_t p V Qb G Q) = Ok (W, a) -> bar = a.
Proof.
  intros E E1. rewrite <- prepare_erase in E. unfold prepare_digest_input_t in E. rewrite snd_tbind, E1 in E. cbn [bind] in E. rewrite snd_tbind in E.
  destruct (snd (lex_sort_cols_t p W)); [|discriminate E..]. cbn [bind ret snd] in E. congruence.
Qed.
Lemma answers_intro p P V Qb G Q V' bar rev out b : shape (pK p) (pN p - pK p) V -> act_array p Qb -> good_matrix p G -> good_mono p Q -> mono_array p rev -> act_array p out ->
  prepare_digest_input p V Qb G Q = Ok (V', bar) -> monomial_compose_action p rev out P bar = Ok b -> answers p P (fst (prepare_digest_input_t p V Qb G Q)) b.
Proof. intros. exists V, Qb, G, Q, V', bar, rev, out. repeat (split; auto). Qed.
Example C72_example : good_mono toy_params ex_private /\ answers toy_params ex_private ex_T ex_answer /\ learn toy_params ex_T ex_answer = [(124, 131); (123, 130); (127, 2)]%nat.
Proof.
  assert (SV : shape (pK toy_params) (pN toy_params - pK toy_params) ex_V) by apply ex_V_good.
  assert (A0 : act_array toy_params ex_act) by (split; reflexivity). assert (M0 : mono_array toy_params ex_mono) by (split; reflexivity).
  split; [exact ex_private_good|].
  destruct (C70_prepare toy_params toy_wf ex_V ex_V ex_act ex_act sort_G ex_ephem ex_ephem SV SV A0 A0 sort_G_good ex_ephem_good ex_ephem_good) as (_ & W & _ & a & _ & E1 & _ & _ & _).
  assert (G' : G_ok toy_params sort_G) by exact sort_G_good. destruct G' as (G1 & G2 & G3).
  destruct (prepare_digest_input_spec toy_params toy_wf ex_V ex_act sort_G ex_ephem SV A0 G1 G2 G3 (proj1 (good_mono_ok _ _) ex_ephem_good)) as ([V' bar] & E & AO & _).
  assert (B : bar = ex_bar). { rewrite E1. exact (sort_bar _ _ _ _ _ _ _ _ _ E E1). }
  destruct (monomial_compose_action_spec toy_params toy_wf ex_mono ex_act ex_private bar M0 A0 (proj1 (good_mono_ok _ _) ex_private_good) AO) as (b & Eb & _).
  assert (Eb' : b = ex_answer) by (rewrite <- B, Eb; reflexivity).
  split.
  - rewrite <- Eb'. exact (answers_intro _ _ _ _ _ _ _ _ _ _ _ SV A0 sort_G_good ex_ephem_good M0 A0 E Eb).
  - rewrite learn_eq. pose proof (C72_commitment toy_params toy_wf ex_V ex_act sort_G ex_ephem V' bar SV A0 sort_G_good ex_ephem_good E) as H.
    assert (H' : firstn (pK toy_params) (watch 0 ex_T) = map Z.to_nat (a_perm ex_bar)).
    { rewrite <- B, <- H, map_map. rewrite (map_ext _ (fun x => x)) by (intros x; apply Nat2Z.id). symmetry. apply map_id. }
    rewrite H'. vm_compute. reflexivity.
Qed.

Print Assumptions C72_commitment.
Print Assumptions C72_response.
Print Assumptions C72_whole.
