(** Records of branches and addresses: erasing them, computing them, and reading them back. *)
From Verif Require Import Base BaseLemmas Params ParamsProofs Fq Prim Samplers Monomial Codes Utils Spec BitCodec MonoProofs SortProofs SamplerProofs SampleSpec Leak.

(** *** Erasure *)
Lemma snd_tbind {A B} (m : tm A) (k : A -> tm B) : snd (tbind m k) = bind (snd m) (fun a => snd (k a)).
Proof. destruct m as [t [a| |]]; reflexivity. Qed.
Lemma snd_tfor {S} n : forall i (f : nat -> S -> tm S) s, snd (tfor n i f s) = for_ n i (fun i s => snd (f i s)) s.
Proof.
  induction n; intros i f s; cbn [tfor for_]. { reflexivity. }
  rewrite snd_tbind. cbn [branch snd bind]. rewrite snd_tbind. destruct (snd (f i s)); cbn [bind]; auto.
Qed.
Lemma snd_if {A} (b : bool) (x y : tm A) : snd (if b then x else y) = if b then snd x else snd y.
Proof. destruct b; auto. Qed.
Lemma snd_branch b : snd (branch b) = Ok b. Proof. reflexivity. Qed.
Lemma snd_ret {A} (a : A) : snd (ret a) = Ok a. Proof. reflexivity. Qed.
Lemma bind_ext {A B} (m : res A) (f g : A -> res B) : (forall a, f a = g a) -> bind m f = bind m g.
Proof. intros H. destruct m; cbn [bind]; auto. Qed.
Lemma for_ext' {S} n : forall start (f g : nat -> S -> res S) s, (forall i s, f i s = g i s) -> for_ n start f s = for_ n start g s.
Proof. induction n; intros start f g s H; cbn [for_]; auto. rewrite H. apply bind_ext. intros. apply IHn; auto. Qed.

(** *** Computing records *)

(** The record is [T], the computation succeeds and its result satisfies [Q]. *)
Definition traces {A} (m : tm A) (T : list event) (Q : A -> Prop) : Prop := fst m = T /\ exists a, snd m = Ok a /\ Q a.

Lemma tr_bind {A B} (m : tm A) (k : A -> tm B) T1 T2 P Q :
  traces m T1 P -> (forall a, P a -> traces (k a) T2 Q) -> traces (tbind m k) (T1 ++ T2) Q.
Proof.
  destruct m as [t r]. intros (E & a & E2 & Pa) H. cbn [fst snd] in *. subst t r. specialize (H a Pa).
  destruct H as (H1 & b & H2 & H3). cbn [tbind]. split; cbn [fst snd]; [rewrite H1; auto|exists b; auto].
Qed.
Lemma tr_ret {A} (a : A) (Q : A -> Prop) : Q a -> traces (ret a) [] Q.
Proof. intros H. split; auto. exists a. auto. Qed.
Lemma tr_branch b : traces (branch b) [Branch b] (fun c => c = b).
Proof. split; auto. exists b. auto. Qed.
Lemma tr_load a (l : list Z) i : (i < length l)%nat -> traces (load a l i) [Load a i 0] (fun x => x = nth i l 0).
Proof. intros H. split; auto. exists (nth i l 0). split; auto. apply get_ok. auto. Qed.
Lemma tr_load2 a m r c i j : shape r c m -> (i < r)%nat -> (j < c)%nat -> traces (load2 a m i j) [Load a i j] (fun x => x = ent m i j).
Proof. intros H Hi Hj. split; auto. exists (ent m i j). split; auto. eapply get2_ok; eauto. Qed.
Lemma tr_store a (l : list Z) i x : (i < length l)%nat -> traces (store a l i x) [Store a i 0] (fun l' => l' = upd l i x).
Proof. intros H. split; auto. exists (upd l i x). split; auto. apply set_ok. auto. Qed.
Lemma tr_store2 a m r c i j x : shape r c m -> (i < r)%nat -> (j < c)%nat -> traces (store2 a m i j x) [Store a i j] (shape r c).
Proof.
  intros H Hi Hj. split; auto. exists (upd2 m i j x). split. { eapply set2_ok; eauto. } apply shape_upd2; auto.
Qed.
Lemma tr_mono {A} (m : tm A) T (P Q : A -> Prop) : traces m T P -> (forall a, P a -> Q a) -> traces m T Q.
Proof. intros (H1 & a & H2 & H3) H. split; auto. exists a. auto. Qed.
Lemma tr_eq {A} (m : tm A) T T' (Q : A -> Prop) : traces m T Q -> T = T' -> traces m T' Q.
Proof. intros H <-. auto. Qed.

Definition loop (T : nat -> list event) (start n : nat) : list event :=
  flat_map (fun i => Branch true :: T i) (seq start n) ++ [Branch false].

Lemma tr_for {S} (I : nat -> S -> Prop) (T : nat -> list event) (f : nat -> S -> tm S) n : forall start s,
  (forall i s, (start <= i < start + n)%nat -> I i s -> traces (f i s) (T i) (I (Datatypes.S i))) -> I start s ->
  traces (tfor n start f s) (loop T start n) (I (start + n)%nat).
Proof.
  induction n; intros start s H H0; cbn [tfor].
  - rewrite Nat.add_0_r. apply (tr_eq _ ([Branch false] ++ [])); [|reflexivity].
    eapply tr_bind. apply tr_branch. intros _ _. apply tr_ret. auto.
  - apply (tr_eq _ ([Branch true] ++ T start ++ loop T (Datatypes.S start) n)).
    2: { unfold loop. cbn [seq flat_map]. rewrite <- !app_assoc. reflexivity. }
    eapply tr_bind. apply tr_branch. intros _ _. eapply tr_bind. { apply H; [lia|exact H0]. }
    intros s' Hs. replace (start + Datatypes.S n)%nat with (Datatypes.S start + n)%nat by lia. apply IHn; auto.
    intros i s1 Hi. apply H. lia.
Qed.

(** *** Reading records back *)
Definition codes (T T' : nat -> list event) i : Prop := forall r r', T i ++ r = T' i ++ r' -> T i = T' i.
Lemma codes_len T T' i : length (T i) = length (T' i) -> codes T T' i.
Proof. intros L r r' E. apply (f_equal (firstn (length (T i)))) in E. rewrite firstn_app, firstn_all, Nat.sub_diag, app_nil_r in E.
  rewrite L, firstn_app, firstn_all, Nat.sub_diag, app_nil_r in E. auto. Qed.

(** Two loops with the same record have the same record in each round; and what follows them is the same. *)
Lemma loop_split T T' n : forall start r r', (forall i, (start <= i < start + n)%nat -> codes T T' i) ->
  loop T start n ++ r = loop T' start n ++ r' -> r = r' /\ forall i, (start <= i < start + n)%nat -> T i = T' i.
Proof.
  induction n; intros start r r' C E; unfold loop in E; cbn [seq flat_map] in E.
  - cbn [app] in E. injection E as ->. split; auto. intros; lia.
  - rewrite <- !app_comm_cons, <- !app_assoc in E. injection E as E.
    assert (E0 : T start = T' start) by (eapply C; [lia|exact E]). rewrite E0 in E. apply app_inv_head in E.
    destruct (IHn (S start) r r') as (H1 & H2). { intros i Hi. apply C. lia. } { unfold loop. rewrite <- !app_assoc. exact E. }
    split; auto. intros i Hi. destruct (Nat.eq_dec i start) as [->|]; [auto|apply H2; lia].
Qed.
Lemma loop_inj T T' start n : (forall i, (start <= i < start + n)%nat -> codes T T' i) ->
  (loop T start n = loop T' start n <-> forall i, (start <= i < start + n)%nat -> T i = T' i).
Proof.
  intros C. split.
  - intros E. apply (loop_split T T' n start [] []); auto. rewrite !app_nil_r. auto.
  - intros H. unfold loop. f_equal. revert start C H. induction n; intros start C H; cbn [seq flat_map]; auto.
    rewrite (H start) by lia. f_equal. apply IHn; intros i Hi; [apply C|apply H]; lia.
Qed.
Lemma loop_ext T T' start n : (forall i, (start <= i < start + n)%nat -> T i = T' i) -> loop T start n = loop T' start n.
Proof.
  intros H. unfold loop. f_equal. revert start H. induction n; intros start H; cbn [seq flat_map]; auto.
  rewrite (H start) by lia. f_equal. apply IHn. intros i Hi. apply H. lia.
Qed.

(** *** The functions *)

(** The record of fq_inv: the bits of 125. *)
Definition inv_record : list event :=
  concat (map (fun b => [Branch true; Branch b]) [true; false; true; true; true; true; true]) ++ [Branch false].
Lemma tr_inv x : traces (fq_inv_t x) inv_record (fun y => y = fq_inv x).
Proof. split; [reflexivity|]. eexists. split; reflexivity. Qed.

Section P.
Variable X : prim.
Variable p : params.
Notation N := (pN p).
Notation K := (pK p).

(** Indices of columns. *)
Definition idx_list (n : nat) (l : list Z) : Prop := length l = n /\ Forall (fun x => 0 <= x < Z.of_nat N) l.
Lemma idx_nth n l i : idx_list n l -> (i < n)%nat -> (Z.to_nat (nth i l 0%Z) < N)%nat.
Proof. intros (L & F) Hi. rewrite Forall_forall in F. specialize (F (nth i l 0) ltac:(apply nth_In; lia)). lia. Qed.
Lemma idx_eq n l l' : idx_list n l -> idx_list n l' -> (l = l' <-> forall i, (i < n)%nat -> Z.to_nat (nth i l 0) = Z.to_nat (nth i l' 0)).
Proof.
  intros (L & F) (L' & F'). split; [intros ->; auto|]. intros H. apply (list_ext 0); [lia|]. intros i Hi.
  rewrite Forall_forall in F, F'. specialize (F (nth i l 0) ltac:(apply nth_In; lia)). specialize (F' (nth i l' 0) ltac:(apply nth_In; lia)).
  specialize (H i ltac:(lia)). lia.
Qed.

Definition mono_sized (Q : monomial) : Prop := length (m_coef Q) = N /\ length (m_perm Q) = N.
Definition act_sized (a : action) : Prop := length (a_coef a) = K /\ length (a_perm a) = K.

(** *** Erasure, for each function *)
Lemma memcmp_erase a b len : snd (timing_safe_memcmp_t a b len) = for_ len 0 (fun i d => x <- get a i ;; y <- get b i ;; Ok (Z.lor d (b2z (negb (x =? y))))) 0.
Proof. unfold timing_safe_memcmp_t. rewrite snd_tfor. apply for_ext'. intros i d. rewrite snd_tbind. apply bind_ext. intros x. rewrite snd_tbind. reflexivity. Qed.
Lemma fq_inv_erase x : snd (fq_inv_t x) = Ok (fq_inv x).
Proof. destruct (tr_inv x) as (_ & a & H & ->). exact H. Qed.
Lemma lex_minimize_erase V dst G col : snd (lex_minimize_t p V dst G col) = lex_minimize p V dst G col.
Proof.
  unfold lex_minimize_t, lex_minimize. rewrite snd_tbind, snd_tfor.
  match goal with |- bind (for_ _ _ ?f _) _ = bind (for_ _ _ ?g _) _ => rewrite (for_ext' K 0 f g) end.
  - apply bind_ext. intros [[a fval] b]. rewrite snd_tbind, fq_inv_erase. cbn [bind]. rewrite snd_tfor. apply for_ext'. intros i V'.
    rewrite snd_tbind. reflexivity.
  - intros i [[fidx fval] found]. unfold and_t, or_t, orl_t. repeat rewrite ?snd_tbind. cbn [load2 snd].
    destruct (get2 G i col) as [g| |] eqn:E; cbn [bind]; auto. cbn [ret snd bind branch].
    repeat (rewrite snd_tbind; cbn [load2 snd]; rewrite ?E; cbn [bind ret snd branch]).
    destruct found; cbn [orb negb andb snd bind ret]; auto.
    rewrite snd_tbind. cbn [load2 snd]. rewrite E. reflexivity.
Qed.
Lemma lex_compare_erase n V col pivot : forall i, snd (lex_compare_from_t n i V col pivot) = lex_compare_from n i V col pivot.
Proof.
  induction n; intros i; cbn [lex_compare_from_t lex_compare_from]. { reflexivity. }
  rewrite snd_tbind. cbn [branch snd bind]. rewrite snd_tbind. cbn [load2 snd]. destruct (get2 V i col) as [v| |] eqn:EV; cbn [bind]; auto.
  rewrite snd_tbind. cbn [load snd]. destruct (get pivot i) as [pv| |] eqn:EP; cbn [bind]; auto.
  rewrite snd_tbind, snd_branch. cbn [bind]. destruct (v - pv =? 0); auto.
  rewrite snd_tbind, snd_branch. cbn [bind]. rewrite snd_tbind. cbn [load2 snd]. rewrite EV. cbn [bind].
  rewrite snd_tbind. cbn [load snd]. rewrite EP. cbn [bind]. rewrite snd_tbind, snd_branch. cbn [bind]. destruct (v - pv >? 0); reflexivity.
Qed.
Lemma mul_erase r G Q : snd (generator_monomial_mul_t p r G Q) = generator_monomial_mul p r G Q.
Proof.
  unfold generator_monomial_mul_t, generator_monomial_mul. rewrite snd_tfor. apply for_ext'. intros src r1. rewrite snd_tfor. apply for_ext'. intros row r2.
  repeat (rewrite snd_tbind; apply bind_ext; intros ?). reflexivity.
Qed.
Lemma inv_erase r A : snd (monomial_mat_inv_t p r A) = monomial_mat_inv p r A.
Proof.
  unfold monomial_mat_inv_t, monomial_mat_inv. rewrite snd_tfor. apply for_ext'. intros i r1.
  rewrite snd_tbind. cbn [load snd]. destruct (get (m_perm A) i) as [a| |] eqn:E; cbn [bind]; auto.
  rewrite snd_tbind. apply bind_ext. intros perm. rewrite snd_tbind. apply bind_ext. intros c.
  rewrite snd_tbind, fq_inv_erase. cbn [bind]. rewrite snd_tbind. cbn [load snd]. rewrite E. cbn [bind]. rewrite snd_tbind. reflexivity.
Qed.
Lemma compose_erase rev out Q inp : snd (monomial_compose_action_t p rev out Q inp) = monomial_compose_action p rev out Q inp.
Proof.
  unfold monomial_compose_action_t, monomial_compose_action. rewrite snd_tbind, snd_tfor.
  match goal with |- bind (for_ _ _ ?f _) _ = bind (for_ _ _ ?g _) _ => rewrite (for_ext' N 0 f g) end.
  - apply bind_ext. intros rv. rewrite snd_tfor. apply for_ext'. intros i o.
    rewrite snd_tbind. cbn [load snd]. destruct (get (a_perm inp) i) as [a| |] eqn:E; cbn [bind]; auto.
    rewrite snd_tbind. apply bind_ext. intros b. rewrite snd_tbind. apply bind_ext. intros perm. rewrite snd_tbind. apply bind_ext. intros c.
    rewrite snd_tbind. cbn [load snd]. rewrite E. cbn [bind]. rewrite snd_tbind. apply bind_ext. intros d. rewrite snd_tbind. reflexivity.
  - intros i r. rewrite snd_tbind. cbn [load snd]. destruct (get (m_perm Q) i) as [a| |] eqn:E; cbn [bind]; auto.
    rewrite snd_tbind. apply bind_ext. intros perm. rewrite snd_tbind. apply bind_ext. intros c.
    rewrite snd_tbind. cbn [load snd]. rewrite E. cbn [bind]. rewrite snd_tbind. reflexivity.
Qed.
Lemma shuffle_erase st perm : snd (yt_shuffle_state_t X p st perm) = yt_shuffle_state X p st perm.
Proof.
  unfold yt_shuffle_state_t, yt_shuffle_state. destruct (x_squeeze X (4 * N) st) as [bs st']. rewrite snd_tbind, snd_tfor.
  match goal with |- bind (for_ _ _ ?f _) _ = bind (for_ _ _ ?g _) _ => rewrite (for_ext' (N - 1) 0 f g) end.
  - apply bind_ext. intros ru. rewrite snd_tbind, snd_tfor.
    match goal with |- bind (for_ _ _ ?f _) _ = bind (for_ _ _ ?g _) _ => rewrite (for_ext' (N - 1) 0 f g) end; [reflexivity|].
    intros i pm. rewrite snd_tbind. apply bind_ext. intros tmp. rewrite snd_tbind. cbn [load snd].
    destruct (get ru i) as [a| |] eqn:E; cbn [bind]; auto. rewrite snd_tbind. apply bind_ext. intros y. rewrite snd_tbind. apply bind_ext. intros pm1.
    rewrite snd_tbind. cbn [load snd]. rewrite E. reflexivity.
  - intros i r. rewrite snd_tbind. reflexivity.
Qed.
Lemma chunks_erase c minv span req num : forall word count buf,
  snd (rand_chunks_t c minv span req num word count buf) = rand_chunks c minv span req num word count buf.
Proof.
  induction c; intros word count buf; cbn [rand_chunks_t rand_chunks]. { reflexivity. }
  cbv zeta. rewrite snd_tbind. cbn [branch snd bind]. rewrite snd_tbind, snd_branch. cbn [bind].
  destruct (u8 (Z.land word (2 ^ req - 1)) <=? span).
  - rewrite !snd_tbind. cbn [store snd]. destruct (set buf count (u8 (u8 (Z.land word (2 ^ req - 1)) + minv))); cbn [bind ret snd]; auto.
    rewrite snd_tbind, snd_branch. cbn [bind]. destruct (num <=? S count)%nat; [reflexivity|apply IHc].
  - rewrite snd_tbind. cbn [ret snd bind]. rewrite snd_tbind, snd_branch. cbn [bind]. destruct (num <=? count)%nat; [reflexivity|apply IHc].
Qed.
Lemma rand_erase f minv span req num : forall st count buf,
  snd (rand_loop_t X f minv span req num st count buf) = rand_loop X f minv span req num st count buf.
Proof.
  induction f; intros st count buf; cbn [rand_loop_t rand_loop]. { reflexivity. }
  destruct (x_squeeze X 8 st) as [bs st']. rewrite snd_tbind, chunks_erase. apply bind_ext. intros [fin [count' buf']]. destruct fin; auto.
Qed.
Lemma expand_erase fuel r seed : snd (monomial_mat_seed_expand_prikey_t X p fuel r seed) = monomial_mat_seed_expand_prikey X p fuel r seed.
Proof.
  unfold monomial_mat_seed_expand_prikey_t, monomial_mat_seed_expand_prikey, monomial_expand, fq_star_rnd_state_elements, def_rand.
  rewrite snd_tbind, rand_erase. apply bind_ext. intros [coefs st1]. rewrite snd_tbind, snd_tfor. apply bind_ext. intros perm.
  rewrite snd_tbind, shuffle_erase. apply bind_ext. intros [perm' st2]. reflexivity.
Qed.

(** *** Records, for each function *)
Ltac step t := eapply tr_bind; [t|].

Lemma memcmp_record a b len : (len <= length a)%nat -> (len <= length b)%nat ->
  traces (timing_safe_memcmp_t a b len) (loop (fun i => [Load A_bytes i 0; Load B_bytes i 0]) 0 len) (fun _ => True).
Proof.
  intros Ha Hb. unfold timing_safe_memcmp_t. apply (tr_for (fun _ _ => True)); auto. intros i d Hi _.
  apply (tr_eq _ ([Load A_bytes i 0] ++ [Load B_bytes i 0] ++ [])); [|reflexivity].
  step ltac:(apply tr_load; lia). intros x _. step ltac:(apply tr_load; lia). intros y _. apply tr_ret. auto.
Qed.

Definition nonzero_before (G : mat) (col i : nat) : bool := existsb (fun j => negb (ent G j col =? 0)) (seq 0 i).
Definition minimize_round (G : mat) (col i : nat) : list event :=
  let z := ent G i col =? 0 in
  [Load G_values i col; Branch (negb z); Load G_values i col; Branch z; Load G_values i col;
   Load G_values i col; Branch (negb z); Load G_values i col; Branch z; Branch (nonzero_before G col i)] ++
  (if nonzero_before G col i then [] else [Load G_values i col]).
Definition minimize_record (G : mat) (dst col : nat) : list event :=
  loop (minimize_round G col) 0 K ++ inv_record ++ loop (fun i => [Load G_values i col; Store V_values i dst]) 0 K.

Lemma nonzero_before_S G col i : nonzero_before G col (S i) = nonzero_before G col i || negb (ent G i col =? 0).
Proof. unfold nonzero_before. rewrite seq_S, existsb_app. cbn [existsb Nat.add]. rewrite orb_false_r. auto. Qed.

Lemma minimize_record_ok V dst G col c d : shape K c G -> (col < c)%nat -> shape K d V -> (dst < d)%nat ->
  traces (lex_minimize_t p V dst G col) (minimize_record G dst col) (shape K d).
Proof.
  intros HG Hc HV Hd. unfold lex_minimize_t, minimize_record.
  step ltac:(apply (tr_for (fun i (s : Z * Z * bool) => snd s = nonzero_before G col i) (minimize_round G col)); [|reflexivity]).
  - intros i [[fidx fval] found] Hi E. cbn [snd] in E. subst found. unfold minimize_round.
    set (f := nonzero_before G col i) in *. set (g := ent G i col) in *.
    assert (LD : traces (load2 G_values G i col) [Load G_values i col] (fun x => x = g)) by (eapply tr_load2; eauto; lia).
    assert (NZ : traces (g <~ load2 G_values G i col ;; ret (negb (g =? 0))) [Load G_values i col] (fun b => b = negb (g =? 0))).
    { apply (tr_eq _ ([Load G_values i col] ++ [])); [|reflexivity]. step ltac:(exact LD). intros x ->. apply tr_ret. auto. }
    assert (ZE : traces (g <~ load2 G_values G i col ;; ret (g =? 0)) [Load G_values i col] (fun b => b = (g =? 0))).
    { apply (tr_eq _ ([Load G_values i col] ++ [])); [|reflexivity]. step ltac:(exact LD). intros x ->. apply tr_ret. auto. }
    assert (AN : traces (and_t (g <~ load2 G_values G i col ;; ret (negb (g =? 0))) (negb f)) [Load G_values i col; Branch (negb (g =? 0))] (fun b => True)).
    { unfold and_t. apply (tr_eq _ ([Load G_values i col] ++ [Branch (negb (g =? 0))] ++ [])); [|reflexivity].
      step ltac:(exact NZ). intros b ->. step ltac:(apply tr_branch). intros b' _. apply tr_ret. auto. }
    assert (OR : traces (or_t (g <~ load2 G_values G i col ;; ret (g =? 0)) f) [Load G_values i col; Branch (g =? 0)] (fun b => True)).
    { unfold or_t. apply (tr_eq _ ([Load G_values i col] ++ [Branch (g =? 0)] ++ [])); [|reflexivity].
      step ltac:(exact ZE). intros b ->. step ltac:(apply tr_branch). intros b' _. apply tr_ret. auto. }
    apply (tr_eq _ ([Load G_values i col; Branch (negb (g =? 0))] ++ [Load G_values i col; Branch (g =? 0)] ++ [Load G_values i col] ++
      [Load G_values i col; Branch (negb (g =? 0))] ++ [Load G_values i col; Branch (g =? 0)] ++
      ([Branch f] ++ (if f then [] else [Load G_values i col])) ++ [])); [|rewrite !app_nil_r; reflexivity].
    cbv zeta. step ltac:(exact AN). intros h1 _. step ltac:(exact OR). intros m1 _. step ltac:(exact LD). intros g' _.
    step ltac:(exact AN). intros h2 _. step ltac:(exact OR). intros m2 _.
    eapply tr_bind with (P := fun b => b = f || negb (g =? 0)).
    + unfold orl_t. step ltac:(apply tr_branch). intros _ _. destruct f; cbn [orb]; [apply tr_ret; auto|exact NZ].
    + intros b ->. apply tr_ret. cbn [snd]. rewrite nonzero_before_S. reflexivity.
  - intros [[a fval] b] _. step ltac:(apply tr_inv). intros iv _.
    apply (tr_for (fun _ V => shape K d V)); auto. intros i V1 Hi HV1.
    apply (tr_eq _ ([Load G_values i col] ++ [Store V_values i dst])); [|reflexivity].
    step ltac:(eapply tr_load2; eauto; lia). intros x _. eapply tr_store2; eauto. lia.
Qed.

Definition mul_record (Q : monomial) : list event :=
  loop (fun src => loop (fun row => [Load Q_perm src 0; Load G_values row src; Load Q_coef src 0;
    Store Res_values row (Z.to_nat (nth src (m_perm Q) 0%Z))]) 0 K) 0 N.
Lemma mul_record_ok r G Q : shape K N r -> shape K N G -> length (m_coef Q) = N -> idx_list N (m_perm Q) ->
  traces (generator_monomial_mul_t p r G Q) (mul_record Q) (shape K N).
Proof.
  intros Hr HG HC HP. unfold generator_monomial_mul_t, mul_record. apply (tr_for (fun _ r => shape K N r)); auto. intros src r1 Hs Hr1.
  apply (tr_for (fun _ r => shape K N r)); auto. intros row r2 Hw Hr2.
  apply (tr_eq _ ([Load Q_perm src 0] ++ [Load G_values row src] ++ [Load Q_coef src 0] ++ [Store Res_values row (Z.to_nat (nth src (m_perm Q) 0%Z))])); [|reflexivity].
  step ltac:(apply tr_load; destruct HP; lia). intros dd ->. step ltac:(eapply tr_load2; eauto; lia). intros g _.
  step ltac:(apply tr_load; lia). intros cc _. eapply tr_store2; eauto; try lia. apply (idx_nth N); auto. lia.
Qed.

Definition inverse_record (A : monomial) : list event :=
  loop (fun i => let a := Z.to_nat (nth i (m_perm A) 0%Z) in
    [Load Q_perm i 0; Store R_perm a 0; Load Q_coef i 0] ++ inv_record ++ [Load Q_perm i 0; Store R_coef a 0]) 0 N.
Lemma inverse_record_ok r A : mono_sized r -> length (m_coef A) = N -> idx_list N (m_perm A) ->
  traces (monomial_mat_inv_t p r A) (inverse_record A) mono_sized.
Proof.
  intros Hr HC HP. unfold monomial_mat_inv_t, inverse_record. apply (tr_for (fun _ r => mono_sized r)); auto. intros i r1 Hi (H1 & H2). cbv zeta.
  pose proof (idx_nth N _ i HP ltac:(lia)) as B. set (a := Z.to_nat (nth i (m_perm A) 0)) in *.
  apply (tr_eq _ ([Load Q_perm i 0] ++ [Store R_perm a 0] ++ [Load Q_coef i 0] ++ inv_record ++ [Load Q_perm i 0] ++ [Store R_coef a 0] ++ [])); [|reflexivity].
  step ltac:(apply tr_load; destruct HP; lia). intros a1 ->. fold a. step ltac:(apply tr_store; lia). intros pm ->.
  step ltac:(apply tr_load; lia). intros cc _. step ltac:(apply tr_inv). intros iv _. step ltac:(apply tr_load; destruct HP; lia). intros a2 ->. fold a.
  step ltac:(apply tr_store; lia). intros cf ->. apply tr_ret. split; cbn [m_coef m_perm]; rewrite upd_length; auto.
Qed.

Definition compose_record (Q : monomial) (inp : action) : list event :=
  loop (fun i => let a := Z.to_nat (nth i (m_perm Q) 0%Z) in
    [Load Q_perm i 0; Store R_perm a 0; Load Q_coef i 0; Load Q_perm i 0; Store R_coef a 0]) 0 N ++
  loop (fun i => let a := Z.to_nat (nth i (a_perm inp) 0%Z) in
    [Load In_perm i 0; Load R_perm a 0; Store Out_perm i 0; Load In_coef i 0; Load In_perm i 0; Load R_coef a 0; Store Out_coef i 0]) 0 K.
Lemma compose_record_ok rev out Q inp : mono_sized rev -> act_sized out -> length (m_coef Q) = N -> idx_list N (m_perm Q) ->
  length (a_coef inp) = K -> idx_list K (a_perm inp) ->
  traces (monomial_compose_action_t p rev out Q inp) (compose_record Q inp) act_sized.
Proof.
  intros Hr Ho HC HP HA HI. unfold monomial_compose_action_t, compose_record.
  step ltac:(apply (tr_for (fun _ r => mono_sized r) (fun i => let a := Z.to_nat (nth i (m_perm Q) 0%Z) in
    [Load Q_perm i 0; Store R_perm a 0; Load Q_coef i 0; Load Q_perm i 0; Store R_coef a 0])); [|exact Hr]).
  - intros i r1 Hi (H1 & H2). cbv zeta. pose proof (idx_nth N _ i HP ltac:(lia)) as B. set (a := Z.to_nat (nth i (m_perm Q) 0)) in *.
    apply (tr_eq _ ([Load Q_perm i 0] ++ [Store R_perm a 0] ++ [Load Q_coef i 0] ++ [Load Q_perm i 0] ++ [Store R_coef a 0] ++ [])); [|reflexivity].
    step ltac:(apply tr_load; destruct HP; lia). intros a1 ->. fold a. step ltac:(apply tr_store; lia). intros pm ->.
    step ltac:(apply tr_load; lia). intros cc _. step ltac:(apply tr_load; destruct HP; lia). intros a2 ->. fold a.
    step ltac:(apply tr_store; lia). intros cf ->. apply tr_ret. split; cbn [m_coef m_perm]; rewrite upd_length; auto.
  - intros rv (V1 & V2). apply (tr_for (fun _ o => act_sized o)); auto. intros i o Hi (H1 & H2). cbv zeta.
    pose proof (idx_nth K _ i HI ltac:(lia)) as B. set (a := Z.to_nat (nth i (a_perm inp) 0)) in *.
    apply (tr_eq _ ([Load In_perm i 0] ++ [Load R_perm a 0] ++ [Store Out_perm i 0] ++ [Load In_coef i 0] ++ [Load In_perm i 0] ++ [Load R_coef a 0] ++ [Store Out_coef i 0] ++ [])); [|reflexivity].
    step ltac:(apply tr_load; destruct HI; lia). intros a1 ->. fold a. step ltac:(apply tr_load; lia). intros b _.
    step ltac:(apply tr_store; lia). intros pm ->. step ltac:(apply tr_load; lia). intros cc _. step ltac:(apply tr_load; destruct HI; lia). intros a2 ->. fold a.
    step ltac:(apply tr_load; lia). intros dd _. step ltac:(apply tr_store; lia). intros cf ->.
    apply tr_ret. split; cbn [a_coef a_perm]; rewrite upd_length; auto.
Qed.

Definition shuffle_record (rs : nat -> nat) : list event :=
  loop (fun i => [Load Rand i 0; Store Rand i 0]) 0 (N - 1) ++
  loop (fun i => [Load Perm i 0; Load Rand i 0; Load Perm (rs i) 0; Store Perm i 0; Load Rand i 0; Store Perm (rs i) 0]) 0 (N - 1).
Lemma shuffle_record_ok st perm : wf_params p -> lawful X (hash_len p) -> length perm = N ->
  traces (yt_shuffle_state_t X p st perm) (shuffle_record (shuffle_index p (fst (x_squeeze X (4 * N) st)))) (fun _ => True).
Proof.
  intros wf LX HP. pose proof (wf_K p wf) as HK.
  assert (HN : Z.of_nat N < 1024). { pose proof (wf_cat p wf) as C. destruct (p_cat p); lia. }
  unfold yt_shuffle_state_t, shuffle_record. destruct (x_squeeze X (4 * N) st) as [bs st'] eqn:ES. cbn [fst].
  step ltac:(apply (tr_for (fun n r => length r = N /\ (forall i, (n <= i < N)%nat -> nthZ r i = le_val (firstn 4 (skipn (4 * i) bs))) /\
        forall i, (i < n)%nat -> nthZ r i = Z.of_nat (shuffle_index p bs i)) (fun i => [Load Rand i 0; Store Rand i 0]))).
  - intros i r Hi (H1 & H0 & H2). apply (tr_eq _ ([Load Rand i 0] ++ [Store Rand i 0])); [|reflexivity].
    step ltac:(apply tr_load; lia). intros x0 ->. eapply tr_mono. { apply tr_store. lia. } intros r' ->.
    fold (nthZ r i). rewrite H0 by lia. set (x := le_val (firstn 4 (skipn (4 * i) bs))).
    assert (B : 0 <= x mod (Z.of_nat N - Z.of_nat i) < Z.of_nat N - Z.of_nat i) by (apply Z.mod_pos_bound; lia).
    split. { rewrite upd_length; auto. } split.
    + intros j Hj. unfold nthZ. rewrite nth_upd by lia. destruct (Nat.eqb_spec i j); [lia|]. apply H0. lia.
    + intros j Hj. unfold nthZ. rewrite nth_upd by lia. destruct (Nat.eqb_spec i j) as [<-|]; [|apply H2; lia].
      unfold u32. rewrite Z.mod_small by lia. unfold shuffle_index. fold x. lia.
  - split. { unfold words32. rewrite map_length, seq_length. auto. } split; [|intros; lia].
    intros i Hi. unfold nthZ, words32. rewrite nth_map_seq by lia. auto.
  - intros r (L & _ & Hr). cbn [Nat.add] in Hr.
    apply (tr_eq _ (loop (fun i => [Load Perm i 0; Load Rand i 0; Load Perm (shuffle_index p bs i) 0; Store Perm i 0; Load Rand i 0; Store Perm (shuffle_index p bs i) 0]) 0 (N - 1) ++ [])); [|apply app_nil_r].
    step ltac:(apply (tr_for (fun _ pm => length pm = N) (fun i => [Load Perm i 0; Load Rand i 0; Load Perm (shuffle_index p bs i) 0; Store Perm i 0; Load Rand i 0; Store Perm (shuffle_index p bs i) 0])); [|exact HP]).
    + intros i pm Hi HL. set (s := shuffle_index p bs i).
      assert (Es : Z.to_nat (nth i r 0) = s). { fold (nthZ r i). rewrite Hr by lia. apply Nat2Z.id. }
      assert (Rs : (s < N)%nat) by (apply shuffle_index_range; lia).
      apply (tr_eq _ ([Load Perm i 0] ++ [Load Rand i 0] ++ [Load Perm s 0] ++ [Store Perm i 0] ++ [Load Rand i 0] ++ [Store Perm s 0])); [|reflexivity].
      step ltac:(apply tr_load; lia). intros tmp _. step ltac:(apply tr_load; lia). intros r1 ->. rewrite Es. step ltac:(apply tr_load; lia). intros y _.
      step ltac:(apply tr_store; lia). intros pm1 ->. step ltac:(apply tr_load; lia). intros r2 ->. rewrite Es.
      eapply tr_mono. { apply tr_store. rewrite upd_length. lia. } intros pm2 ->. rewrite !upd_length. auto.
    + intros pm _. apply tr_ret. auto.
Qed.

(** *** The samplers *)

(** Whether each seven-bit chunk of a word is accepted. *)
Definition verdicts (word : Z) : list bool := map (fun v => v <=? 125) (chunks7 word).

Lemma verdicts_chunk word i : (i < 9)%nat -> nth i (verdicts word) false = ((word / 2 ^ (7 * Z.of_nat i)) mod 128 <=? 125).
Proof.
  intros Hi. unfold verdicts, chunks7. rewrite map_map.
  rewrite (nth_indep _ false ((word / 2 ^ (7 * Z.of_nat 0)) mod 128 <=? 125)) by (rewrite map_length, seq_length; auto).
  rewrite (map_nth (fun i => (word / 2 ^ (7 * Z.of_nat i)) mod 128 <=? 125)). rewrite seq_nth by auto. reflexivity.
Qed.

Lemma chunks_same num c : forall word word' count buf buf', (count < num)%nat -> length buf = num -> length buf' = num ->
  0 <= word -> 0 <= word' ->
  (forall i, (i < c)%nat -> ((word / 2 ^ (7 * Z.of_nat i)) mod 128 <=? 125) = ((word' / 2 ^ (7 * Z.of_nat i)) mod 128 <=? 125)) ->
  exists T fin count' b b',
    rand_chunks_t c 1 125 7 num word count buf = (T, Ok (fin, (count', b))) /\
    rand_chunks_t c 1 125 7 num word' count buf' = (T, Ok (fin, (count', b'))) /\
    length b = num /\ length b' = num /\ (fin = false -> (count' < num)%nat).
Proof.
  induction c; intros word word' count buf buf' HC HL HL' H0 H0' H; cbn [rand_chunks_t].
  - do 5 eexists. split; [reflexivity|]. split; [reflexivity|]. auto.
  - assert (V : forall w, 0 <= w -> u8 (Z.land w (2 ^ 7 - 1)) = w mod 128).
    { intros w Hw. rewrite land_pred by lia. apply u8_id. change (2 ^ 7) with 128. lia. }
    cbv zeta. rewrite !V by auto.
    pose proof (H 0%nat ltac:(lia)) as E0. cbn [Z.of_nat Z.mul Z.pow] in E0. rewrite !Z.div_1_r in E0.
    assert (SH : forall w i, 0 <= w -> Z.shiftr w 7 / 2 ^ (7 * Z.of_nat i) = w / 2 ^ (7 * Z.of_nat (S i))).
    { intros w i Hw. rewrite Z.shiftr_div_pow2, Z.div_div by lia. f_equal. rewrite <- Z.pow_add_r by lia. f_equal. lia. }
    assert (HS : forall i, (i < c)%nat -> ((Z.shiftr word 7 / 2 ^ (7 * Z.of_nat i)) mod 128 <=? 125) = ((Z.shiftr word' 7 / 2 ^ (7 * Z.of_nat i)) mod 128 <=? 125)).
    { intros i Hi. rewrite !SH by auto. apply H. lia. }
    assert (P : 0 <= Z.shiftr word 7) by (apply Z.shiftr_nonneg; auto). assert (P' : 0 <= Z.shiftr word' 7) by (apply Z.shiftr_nonneg; auto).
    unfold branch. cbn [tbind fst snd]. rewrite E0. destruct (word' mod 128 <=? 125).
    + unfold store. rewrite (set_ok buf) by (rewrite HL; exact HC). rewrite (set_ok buf') by (rewrite HL'; exact HC). cbn [tbind ret fst snd]. destruct (Nat.leb_spec num (S count)).
      * do 5 eexists. split; [reflexivity|]. split; [reflexivity|]. rewrite !upd_length. split; auto. split; auto. discriminate.
      * destruct (IHc (Z.shiftr word 7) (Z.shiftr word' 7) (S count) (upd buf count (u8 (word mod 128 + 1))) (upd buf' count (u8 (word' mod 128 + 1)))) as (T & fin & c' & b & b' & E1 & E2 & E3); auto; try (rewrite upd_length; auto).
        rewrite E1, E2. do 5 eexists. split; [reflexivity|]. split; [reflexivity|]. exact E3.
    + cbn [tbind ret fst snd]. destruct (Nat.leb_spec num count) as [Hle|_]; [exfalso; exact (Nat.lt_irrefl _ (Nat.lt_le_trans _ _ _ HC Hle))|].
      destruct (IHc (Z.shiftr word 7) (Z.shiftr word' 7) count buf buf') as (T & fin & c' & b & b' & E1 & E2 & E3); auto.
      rewrite E1, E2. do 5 eexists. split; [reflexivity|]. split; [reflexivity|]. exact E3.
Qed.

(** The same verdicts on the words drawn from two states give the same record. *)
Lemma rand_same num fuel : lawful X (hash_len p) -> forall st st' count buf buf', (count < num)%nat -> length buf = num -> length buf' = num ->
  (forall n, map verdicts (draw_words X n st) = map verdicts (draw_words X n st')) ->
  fst (rand_loop_t X fuel 1 125 7 num st count buf) = fst (rand_loop_t X fuel 1 125 7 num st' count buf').
Proof.
  intros LX. induction fuel as [|f IH]; intros st st' count buf buf' HC HL HL' H; cbn [rand_loop_t]; [reflexivity|].
  destruct (x_squeeze X 8 st) as [bs s1] eqn:E1. destruct (x_squeeze X 8 st') as [bs' s1'] eqn:E2.
  assert (D : forall n, map verdicts (draw_words X n s1) = map verdicts (draw_words X n s1') /\ verdicts (le_val bs) = verdicts (le_val bs')).
  { intros n. specialize (H (S n)). cbn [draw_words map] in H. rewrite E1, E2 in H. cbn [fst snd] in H. split; [exact (f_equal (@tl _) H)|exact (f_equal (hd []) H)]. }
  assert (P : 0 <= le_val bs). { apply le_val_nonneg. pose proof (law_sq_bytes _ _ LX 8 st) as B. rewrite E1 in B. exact B. }
  assert (P' : 0 <= le_val bs'). { apply le_val_nonneg. pose proof (law_sq_bytes _ _ LX 8 st') as B. rewrite E2 in B. exact B. }
  change (Z.to_nat (64 / 7)) with 9%nat.
  destruct (chunks_same num 9 (le_val bs) (le_val bs') count buf buf' HC HL HL' P P') as (T & fin & c' & b & b' & F1 & F2 & F3 & F4 & F5).
  { intros i Hi. rewrite <- !verdicts_chunk by auto. rewrite (proj2 (D 0%nat)). auto. }
  rewrite F1, F2. cbn [tbind fst]. f_equal. destruct fin; [reflexivity|]. apply IH; auto. intros n. apply D.
Qed.

(** Indices of the stores into an array, in order. *)
Definition array_dec : forall a b : array, {a = b} + {a <> b}.
Proof. decide equality. Defined.
Definition stores (a : array) (T : list event) : list nat :=
  flat_map (fun e => match e with Store b i _ => if array_dec a b then [i] else [] | _ => [] end) T.
Lemma stores_app a T T' : stores a (T ++ T') = stores a T ++ stores a T'.
Proof. apply flat_map_app. Qed.
Lemma stores_loop a T start n : stores a (loop T start n) = flat_map (fun i => stores a (T i)) (seq start n).
Proof.
  unfold loop. rewrite stores_app. cbn [stores flat_map]. rewrite app_nil_r. generalize (seq start n). intros l.
  induction l as [|x l IH]; cbn [flat_map]; [reflexivity|]. rewrite stores_app, IH. reflexivity.
Qed.
Lemma flat_single {A B} (f : A -> list B) (g : A -> B) l : (forall i, In i l -> f i = [g i]) -> flat_map f l = map g l.
Proof. intros H. induction l; cbn [flat_map map]; auto. rewrite (H a) by (left; auto). cbn [app]. f_equal. apply IHl. intros i Hi. apply H. right. auto. Qed.
Lemma flat_none {A B} (f : A -> list B) l : (forall i, In i l -> f i = []) -> flat_map f l = [].
Proof. intros H. induction l; cbn [flat_map]; auto. rewrite (H a) by (left; auto). cbn [app]. apply IHl. intros i Hi. apply H. right. auto. Qed.

Lemma chunks_stores a c minv span req num : a <> Buffer -> forall word count buf, stores a (fst (rand_chunks_t c minv span req num word count buf)) = [].
Proof.
  intros Ha. assert (D : forall i j, stores a [Store Buffer i j] = []). { intros i j. cbn. destruct (array_dec a Buffer); [contradiction|reflexivity]. }
  induction c; intros word count buf; cbn [rand_chunks_t]; [reflexivity|]. cbv zeta. unfold branch. cbn [tbind fst snd].
  destruct (u8 (Z.land word (2 ^ req - 1)) <=? span).
  - unfold store. destruct (set buf count _) as [b| |]; cbn [tbind ret fst snd app].
    + destruct (num <=? S count)%nat; cbn [fst]; rewrite ?app_nil_r.
      * exact (D count 0%nat).
      * change (stores a ([Store Buffer count 0] ++ fst (rand_chunks_t c minv span req num (Z.shiftr word req) (S count) b)) = []).
        rewrite stores_app, D, IHc. reflexivity.
    + exact (D count 0%nat).
    + exact (D count 0%nat).
  - cbn [tbind ret fst snd]. destruct (num <=? count)%nat; [reflexivity|]. cbn [app stores flat_map]. apply IHc.
Qed.
Lemma rand_stores a f minv span req num : a <> Buffer -> forall st count buf, stores a (fst (rand_loop_t X f minv span req num st count buf)) = [].
Proof.
  intros Ha. induction f; intros st count buf; cbn [rand_loop_t]; [reflexivity|]. destruct (x_squeeze X 8 st) as [bs s1].
  pose proof (chunks_stores a (Z.to_nat (64 / req)) minv span req num Ha (le_val bs) count buf) as E.
  destruct (rand_chunks_t _ _ _ _ _ _ _ _) as [T [[fin [c' b]]| |]]; cbn [tbind fst] in *; rewrite ?stores_app, ?E; auto. cbn [app]. destruct fin; auto.
Qed.

(** *** Expansion of a private monomial *)
Definition identity : list Z := map Z.of_nat (seq 0 N).

Lemma expand_record fuel r seed Q : wf_params p -> lawful X (hash_len p) -> mono_sized r ->
  monomial_mat_seed_expand_prikey X p fuel r seed = Ok Q ->
  exists rs, (forall i, (i < N - 1)%nat -> (i <= rs i < N)%nat) /\ m_perm Q = fisher_yates (N - 1) rs identity /\
    traces (monomial_mat_seed_expand_prikey_t X p fuel r seed)
      (fst (rand_loop_t X fuel 1 125 7 N (x_init X seed) 0 (m_coef r)) ++ loop (fun i => [Store Perm i 0]) 0 N ++ shuffle_record rs) (fun q => q = Q).
Proof.
  intros wf LX (R1 & R2) E. pose proof (wf_K p wf) as HK.
  pose proof (expand_erase fuel r seed) as EE. rewrite E in EE.
  unfold monomial_mat_seed_expand_prikey, monomial_expand, fq_star_rnd_state_elements, def_rand in E.
  change (bits_to_represent (126 - 1)) with 7 in E. change (126 - 1) with 125 in E.
  destruct (rand_loop X fuel 1 125 7 N (x_init X seed) 0 (m_coef r)) as [[coefs st1]| |] eqn:ER; cbn [bind] in E; try discriminate.
  assert (ID : traces (tfor N 0 (fun i pm => store Perm pm i (pos_t p (Z.of_nat i))) (m_perm r)) (loop (fun i => [Store Perm i 0]) 0 N) (fun pm => pm = identity)).
  { eapply tr_mono.
    - apply (tr_for (fun n pm => length pm = N /\ forall i, (i < n)%nat -> nthZ pm i = Z.of_nat i) (fun i => [Store Perm i 0])).
      + intros i pm Hi (L & H). eapply tr_mono. { apply tr_store. lia. } intros pm' ->. split. { rewrite upd_length. auto. }
        intros j Hj. unfold nthZ. rewrite nth_upd by lia. destruct (Nat.eqb_spec i j) as [<-|]; [apply pos_t_id; auto; lia|apply H; lia].
      + split; auto. intros; lia.
    - intros pm (L & H). cbn [Nat.add] in *. unfold identity. apply (list_ext 0). { rewrite map_length, seq_length. auto. }
      intros i Hi. rewrite nth_map_seq by lia. apply H. lia. }
  set (bs := fst (x_squeeze X (4 * N) st1)).
  exists (shuffle_index p bs). split. { intros i Hi. apply shuffle_index_range; auto. }
  pose proof ID as (_ & pm & EP & ->). rewrite snd_tfor in EP. cbn [store snd] in EP. rewrite EP in E. cbn [bind] in E.
  assert (LI : length identity = N) by (unfold identity; rewrite map_length, seq_length; auto).
  rewrite (yt_shuffle_fun X p wf) in E by auto. cbn [bind] in E. injection E as EQ. split; [rewrite <- EQ; reflexivity|].
  split; [|exists Q; auto].
  unfold monomial_mat_seed_expand_prikey_t. change (bits_to_represent 125) with 7.
  pose proof (rand_erase fuel 1 125 7 N (x_init X seed) 0 (m_coef r)) as RE. rewrite ER in RE.
  destruct (rand_loop_t X fuel 1 125 7 N (x_init X seed) 0 (m_coef r)) as [T res]. cbn [snd] in RE. subst res. cbn [tbind fst]. f_equal.
  pose proof (shuffle_record_ok st1 identity wf LX LI) as SR. fold bs in SR.
  assert (A : traces (perm <~ tfor N 0 (fun i pm => store Perm pm i (pos_t p (Z.of_nat i))) (m_perm r) ;;
    ' (perm', _) <~ yt_shuffle_state_t X p st1 perm ;; ret {| m_coef := coefs; m_perm := perm' |})
    (loop (fun i => [Store Perm i 0]) 0 N ++ shuffle_record (shuffle_index p bs) ++ []) (fun _ => True)).
  { step ltac:(exact ID). intros pm ->. step ltac:(exact SR). intros [pm' s2] _. apply tr_ret. auto. }
  rewrite app_nil_r in A. exact (proj1 A).
Qed.
End P.
