(** Concrete cases for theorems of PropParam (C12), PropLinAlg (C17) and PropCanon (C33). *)
From Verif Require Import Base BaseLemmas Params ParamsProofs Fq Codes SeedTree Spec TreeFacts TreeMax PropParam PropLinAlg PropCanon PropRref MonoProofs RoundProofs FqProofs Monomial PropMono PropWatch PropLeakSort PropLeak Toy.

(** Six rounds of which two are answered: at most four seeds are published, and some pattern needs four. *)
Example C12_example : let p := toy_params in let tree := repeat (repeat 0 (seed_len p)) (num_nodes p) in let stg := repeat 0 (num_leaves p * seed_len p) in
  (exists ind stg', length ind = 6%nat /\ weight ind = 2%nat /\ seed_tree_path p tree ind stg = Ok (4%nat, stg')) /\
  forall ind, length ind = 6%nat -> Forall (fun x => x = 0 \/ x = 1) ind -> weight ind = 2%nat -> exists n stg', seed_tree_path p tree ind stg = Ok (n, stg') /\ (n <= 4)%nat.
Proof.
  cbv zeta. destruct (C12_maximum toy_params toy_wf 2 ltac:(split; apply Nat.leb_le; reflexivity) (repeat (repeat 0 (seed_len toy_params)) (num_nodes toy_params))
    (repeat 0 (num_leaves toy_params * seed_len toy_params))) as ((ind & stg' & A & _ & B & C) & H).
  { split; [apply repeat_length|]. apply Forall_forall. intros x Hx. apply repeat_spec in Hx. subst x. apply repeat_length. }
  { rewrite repeat_length. apply Nat.le_refl. }
  assert (M : most_published (tree_height toy_params) (pT toy_params) 2 = 4%nat) by (vm_compute; reflexivity). rewrite M in *.
  split; [exists ind, stg'; auto|exact H].
Qed.

(** A matrix whose pivots are in the columns 1, 2 and 4: its reduced form, which is another matrix, is left as it is. *)
Definition top_row (x : res (Z * mat * list Z)) : Z * list Z := match x with Ok (r, R, _) => (r, firstn 5 (nth 0 R [])) | _ => (0, []) end.
Example C17_example : shape (pK toy_params) (pN toy_params) piv_G /\ reduced (pK toy_params) (pN toy_params) (ent piv_G) /\
  exists R flags, generator_RREF toy_params piv_G (repeat 0 (pN toy_params)) = Ok (1, R, flags) /\ R <> piv_G /\
    generator_RREF toy_params R (repeat 0 (pN toy_params)) = Ok (1, R, flags).
Proof.
  assert (S : shape (pK toy_params) (pN toy_params) piv_G) by apply table_shape.
  assert (D : reduced (pK toy_params) (pN toy_params) (ent piv_G)).
  { intros i j Hi Hj. rewrite piv_ent by assumption. assert (F : Forall (Forall fq) piv_rows) by (repeat constructor; unfold fq; lia).
    assert (Z0 : fq 0) by (unfold fq; lia). destruct (nth_in_or_default i piv_rows []) as [I| ->].
    - rewrite Forall_forall in F. specialize (F _ I). rewrite Forall_forall in F. destruct (nth_in_or_default j (nth i piv_rows []) 0) as [J| ->]; auto.
    - destruct j; exact Z0. }
  split; auto. split; auto.
  assert (V : top_row (generator_RREF toy_params piv_G (repeat 0 (pN toy_params))) = (1, [0; 1; 0; 52; 0])) by (vm_compute; reflexivity).
  destruct (generator_RREF toy_params piv_G (repeat 0 (pN toy_params))) as [[[r R] fl]| |] eqn:E; cbn [top_row] in V; [|discriminate V..].
  injection V as -> V. exists R, fl. split; auto. split.
  - intros ->. vm_compute in V. discriminate V.
  - exact (C17_idempotent toy_params toy_wf piv_G R fl S D E).
Qed.

(** A revealed seed for the key [sort_G] and a response for another key, to one commitment: the key is a scaled rearrangement of [sort_G]. *)
Lemma two_keys p V0 G0 Q Qs out rv : wf_params p -> shape (pK p) (pN p - pK p) V0 -> good_matrix p G0 -> good_mono p Q -> good_mono p Qs -> act_array p out -> mono_array p rv ->
  exists V a G1 a1, prepare_digest_input p V0 out G0 Q = Ok (V, a) /\ good_matrix p G1 /\ good_act p a1 /\ verifier_round p V0 G1 a1 = Ok V /\
    forall i j, (i < pK p)%nat -> (j < pN p)%nat -> ent G1 i j == fq_inv (nthZ (m_coef Qs) j) * ent G0 i (pf (m_perm Qs) j).
Proof.
  intros wf SV HG HQ HQs HO HR. pose proof HG as (G1 & G2 & G3). pose proof (proj1 (good_mono_ok p Q) HQ) as OQ. pose proof (proj1 (good_mono_ok p Qs) HQs) as OS.
  destruct (prep_round p wf V0 out G0 Q SV HO HG OQ) as ([V a] & E & HP).
  destruct (monomial_mat_inv_spec p wf rv Qs HR OS) as (Qi & EI & O1 & P1 & C1).
  destruct (generator_monomial_mul_spec p (repeat (repeat 0 (pN p)) (pK p)) G0 Qi (zeros_shape p) G1 O1 G2) as (M & EM & S1 & R1 & V1').
  destruct (monomial_compose_action_spec p wf rv out Qs a HR HO OS (proj1 HP)) as (b & EC & Ob & _).
  assert (RM : forall i j, (i < pK p)%nat -> (j < pN p)%nat -> ent M i j == fq_inv (nthZ (m_coef Qs) j) * ent G0 i (pf (m_perm Qs) j)).
  { assert (BQ : bij (pN p) (pf (m_perm Qs))) by (apply perm_list_bij; apply (mo_perm p Qs OS)).
    intros i j Hi Hj. rewrite <- (P1 j) at 1 by auto. rewrite V1' by (auto; apply BQ; auto). rewrite C1 by auto. reflexivity. }
  assert (HM : good_matrix p M).
  { split; auto. split; auto. apply (full_rank_cols p (ent G0) (ent M) (pf (m_perm Qs)) (fun j => fq_inv (nthZ (m_coef Qs) j))); auto.
    - apply perm_list_bij. apply (mo_perm p Qs OS).
    - intros c Hc. apply fq_unit_nz. apply fq_unit_inv. apply (mono_coef p); auto. }
  exists V, a, M, b. split; auto. split; auto. split. { apply good_act_ok. auto. } split; auto.
  apply (C18_round p wf V0 out G0 Q V a Qs rv (repeat (repeat 0 (pN p)) (pK p)) Qi M M rv out b V0); auto. { apply zeros_shape. } intros v. reflexivity.
Qed.
Example C33_example : exists V a G1 a1, prepare_digest_input toy_params ex_V ex_act sort_G ex_ephem = Ok (V, a) /\ good_matrix toy_params G1 /\ good_act toy_params a1 /\
  verifier_round toy_params ex_V G1 a1 = Ok V /\ ent G1 0 0 = 113 /\ ent sort_G 0 0 = 1 /\ equivalent_codes (pK toy_params) (pN toy_params) (ent sort_G) (ent G1).
Proof.
  assert (SV : shape (pK toy_params) (pN toy_params - pK toy_params) ex_V) by apply ex_V_good.
  assert (A0 : act_array toy_params ex_act) by (split; reflexivity). assert (M0 : mono_array toy_params ex_mono) by (split; reflexivity).
  destruct (two_keys toy_params ex_V sort_G ex_ephem ex_private ex_act ex_mono toy_wf SV sort_G_good ex_ephem_good ex_private_good A0 M0) as (V & a & G1 & a1 & H1 & H2 & H3 & H4 & H5).
  exists V, a, G1, a1. split; [exact H1|]. split; [exact H2|]. split; [exact H3|]. split; [exact H4|]. split; [|split].
  - assert (L1 : (0 < pK toy_params)%nat) by (apply Nat.ltb_lt; reflexivity). assert (L2 : (0 < pN toy_params)%nat) by (apply Nat.ltb_lt; reflexivity).
    specialize (H5 0%nat 0%nat L1 L2). destruct H2 as (_ & R & _). specialize (R 0%nat 0%nat L1 L2). apply cong_eq; [exact R|unfold fq; lia|]. apply cong_iff in H5. apply cong_iff. rewrite H5. vm_compute. reflexivity.
  - vm_compute. reflexivity.
  - exact (C33_seed_and_response toy_params toy_wf ex_V ex_act sort_G ex_ephem a ex_V G1 a1 V SV A0 sort_G_good ex_ephem_good SV H2 H3 H1 H4).
Qed.

Print Assumptions C12_example.
Print Assumptions C17_example.
Print Assumptions C33_example.
