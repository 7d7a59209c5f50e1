(** Properties C09 and C23: the challenge expansion and the samplers. *)
From Coq Require Import Permutation.
From Verif Require Import Base BaseLemmas Params ParamsProofs Fq Prim Samplers Monomial Codes Utils Spec
  EnumProofs MonoProofs SamplerProofs SampleSpec CanonProofs RoundProofs PropMono Toy.

(** C09. [fuel] bounds the number of draws in the model; running out of it stands for a loop that has
    not finished. There is no other way to fail. *)
Theorem C09_fixed_weight : forall X p, wf_params p -> forall fuel digest,
  expand_digest_to_fixed_weight X p fuel (repeat 0 (pT p)) digest <> UB /\
  forall c, expand_digest_to_fixed_weight X p fuel (repeat 0 (pT p)) digest = Ok c ->
    length c = pT p /\ weight c = pW p /\
    Forall (fun x => x = 0 \/ 1 <= x <= Z.of_nat (p_nk p) - 1) c.
Proof.
  intros X p wf fuel digest. pose proof (expand_digest_spec X p wf fuel digest) as H.
  split. { apply (wp_noub _ _ H). }
  intros c E. rewrite E in H. destruct H as (A & B & C). split; auto. split; auto.
  eapply Forall_impl; [|exact C]. intros x Hx. cbv beta in *. lia.
Qed.

Example C09_example : expand_digest_to_fixed_weight toyX toy_params 100 (repeat 0 6) [3; 1; 4; 1; 5] = Ok [1; 0; 2; 0; 0; 0].
Proof. vm_compute. reflexivity. Qed.

(** C23. The rejection samplers read the smallest number of 64-bit words that yields enough accepted
    chunks, and return the accepted chunks in order. They fail only by running out of [fuel]. The two
    ranges used are 1..126 and 0..126. *)
Theorem C23_sampler : forall X, (forall n s, bytes (fst (x_squeeze X n s))) ->
  forall minv maxv, (minv = 0 \/ minv = 1) -> maxv = 126 ->
  forall fuel num st buf, (0 < num)%nat -> length buf = num ->
  (forall n, (n < fuel)%nat -> (length (samples minv maxv (draw_words X n st)) < num)%nat ->
     (num <= length (samples minv maxv (draw_words X (S n) st)))%nat ->
     def_rand X minv maxv fuel num st buf =
       Ok (firstn num (samples minv maxv (draw_words X (S n) st)), after_words X (S n) st)) /\
  ((num <= length (samples minv maxv (draw_words X fuel st)))%nat ->
     exists n, (n < fuel)%nat /\ (length (samples minv maxv (draw_words X n st)) < num)%nat /\
       (num <= length (samples minv maxv (draw_words X (S n) st)))%nat) /\
  ((length (samples minv maxv (draw_words X fuel st)) < num)%nat -> def_rand X minv maxv fuel num st buf = NoFuel).
Proof.
  intros X HB minv maxv Hm Hx fuel num st buf Hn HL.
  destruct (def_rand_fun X minv maxv fuel num st buf ltac:(lia) ltac:(lia) ltac:(lia) HB Hn HL) as [A B].
  split; [exact A|]. split; [|exact B]. apply least_words. exact Hn.
Qed.

Lemma samples_range minv maxv words : 0 <= minv -> Forall (fun x => minv <= x <= maxv) (samples minv maxv words).
Proof.
  intros Hm. apply Forall_forall. intros x Hx. unfold samples in Hx. apply in_map_iff in Hx. destruct Hx as (v & <- & Hv).
  apply filter_In in Hv. destruct Hv as [H1 H2]. apply in_concat in H1. destruct H1 as (l & H1 & H3).
  apply in_map_iff in H1. destruct H1 as (wd & <- & _). apply in_map_iff in H3. destruct H3 as (i & <- & _).
  pose proof (Z.mod_pos_bound (wd / 2 ^ (7 * Z.of_nat i)) 128 ltac:(lia)). lia.
Qed.

Theorem C23_sampler_range : forall X, (forall n s, bytes (fst (x_squeeze X n s))) ->
  forall minv maxv, (minv = 0 \/ minv = 1) -> maxv = 126 ->
  forall fuel num st buf, (0 < num)%nat -> length buf = num ->
  def_rand X minv maxv fuel num st buf <> UB /\
  forall out st', def_rand X minv maxv fuel num st buf = Ok (out, st') ->
    length out = num /\ Forall (fun x => minv <= x <= maxv) out.
Proof.
  intros X HB minv maxv Hm Hx fuel num st buf Hn HL.
  destruct (C23_sampler X HB minv maxv Hm Hx fuel num st buf Hn HL) as (A & B & C).
  destruct (le_lt_dec num (length (samples minv maxv (draw_words X fuel st)))) as [Hle|Hlt].
  - destruct (B Hle) as (n & H1 & H2 & H3). rewrite (A n H1 H2 H3). split; [discriminate|].
    intros out st' E. injection E as <- _. split. { apply firstn_length_le. auto. }
    apply Forall_firstn. apply samples_range. lia.
  - rewrite (C Hlt). split; discriminate.
Qed.

Example C23_example_sampler :
  samples 1 126 (draw_words toyX 1 5) = [61; 27; 42; 124; 70; 43; 113; 99; 30] /\
  bind (def_rand toyX 1 126 10 12 5 (repeat 0 12)) (fun r => Ok (fst r)) =
    Ok (firstn 12 (samples 1 126 (draw_words toyX 2 5))) /\
  samples 1 126 [2 ^ 64 - 1; 125 + 128 * 126] = [126; 1; 1; 1; 1; 1; 1; 1].
Proof. split; [|split]; vm_compute; reflexivity. Qed.

(** The shuffle is Fisher-Yates with index i + word_i mod (N - i), word_i being the i-th 32-bit word of
    one request for 4 N bytes. *)
Theorem C23_shuffle : forall X p, wf_params p -> lawful X (hash_len p) -> forall st perm,
  perm_list (pN p) perm ->
  yt_shuffle_state X p st perm =
    Ok (fisher_yates (pN p - 1) (shuffle_index p (fst (x_squeeze X (4 * pN p) st))) perm, snd (x_squeeze X (4 * pN p) st)) /\
  perm_list (pN p) (fisher_yates (pN p - 1) (shuffle_index p (fst (x_squeeze X (4 * pN p) st))) perm).
Proof.
  intros X p wf LX st perm HP. pose proof (perm_list_len _ _ HP) as HL.
  pose proof (yt_shuffle_fun X p wf st perm LX HL) as E.
  split; [exact E|]. destruct (yt_shuffle_spec X p wf st perm LX HP) as ([q st'] & E' & H).
  rewrite E in E'. injection E' as <- _. exact H.
Qed.

(** Every permutation is reached from the identity by exactly one sequence of indices. *)
Theorem C23_shuffle_bijective : forall p, wf_params p -> forall target, perm_list (pN p) target ->
  exists rs, (forall i, (i < pN p - 1)%nat -> (i <= rs i < pN p)%nat) /\
    fisher_yates (pN p - 1) rs (map Z.of_nat (seq 0 (pN p))) = target /\
    forall rs', (forall i, (i < pN p - 1)%nat -> (i <= rs' i < pN p)%nat) ->
      fisher_yates (pN p - 1) rs' (map Z.of_nat (seq 0 (pN p))) = target ->
      forall i, (i < pN p - 1)%nat -> rs i = rs' i.
Proof.
  intros p wf target HT. pose proof (wf_K p wf) as HK.
  assert (L : length (map Z.of_nat (seq 0 (pN p))) = pN p) by (rewrite map_length, seq_length; auto).
  destruct (fy_bijective (pN p - 1) (map Z.of_nat (seq 0 (pN p))) target) as (rs & A & B & C).
  - rewrite L. lia.
  - apply FinFun.Injective_map_NoDup; [|apply seq_NoDup]. intros a b. lia.
  - exact HT.
  - rewrite L in *. exists rs. auto.
Qed.

Example C23_example_shuffle :
  fisher_yates 3 (fun i => nth i [2; 1; 3]%nat 0%nat) [0; 1; 2; 3] = [2; 1; 3; 0].
Proof. reflexivity. Qed.

(** Expanded monomials and generators are well formed. *)
Theorem C23_monomial : forall X p, wf_params p -> lawful X (hash_len p) -> forall fuel r seed, mono_array p r ->
  monomial_expand X p fuel r seed <> UB /\
  forall Q, monomial_expand X p fuel r seed = Ok Q -> good_mono p Q.
Proof.
  intros X p wf LX fuel r seed HR. pose proof (monomial_expand_spec X p wf fuel r seed LX HR) as H.
  split. { apply (wp_noub _ _ H). } intros Q E. rewrite E in H. apply good_mono_ok. exact H.
Qed.

Theorem C23_generator : forall X p, wf_params p -> forall fuel r seed,
  shape (pK p) (pN p - pK p) (r_vals r) -> length (r_pos r) = (pN p - pK p)%nat ->
  generator_SF_seed_expand X p fuel r seed <> UB /\
  forall c, generator_SF_seed_expand X p fuel r seed = Ok c ->
    shape (pK p) (pN p - pK p) (r_vals c) /\ reduced (pK p) (pN p - pK p) (ent (r_vals c)) /\
    r_pos c = map Z.of_nat (seq (pK p) (pN p - pK p)).
Proof.
  intros X p wf fuel r seed HS HP. pose proof (generator_SF_seed_expand_spec X p wf fuel r seed HS HP) as H.
  split. { apply (wp_noub _ _ H). } intros c E. rewrite E in H. destruct H as (A & B & C & D).
  split; auto. split; auto. apply (list_ext 0). { rewrite map_length, seq_length. auto. }
  intros i Hi. fold (nthZ (r_pos c) i). rewrite D by lia.
  rewrite (nth_indep _ 0 (Z.of_nat 0)) by (rewrite map_length, seq_length; lia). rewrite map_nth, seq_nth by lia. lia.
Qed.

Example C23_example_monomial :
  bind (monomial_expand toyX toy_params 100 {| m_coef := repeat 9 132; m_perm := repeat 9 132 |} [1; 2; 3])
    (fun Q => Ok (firstn 5 (m_perm Q), firstn 5 (m_coef Q))) = Ok ([80; 60; 91; 22; 18], [19; 39; 33; 86; 37]).
Proof. vm_compute. reflexivity. Qed.

Print Assumptions C09_fixed_weight.
Print Assumptions C23_sampler.
Print Assumptions C23_sampler_range.
Print Assumptions C23_shuffle.
Print Assumptions C23_shuffle_bijective.
Print Assumptions C23_monomial.
Print Assumptions C23_generator.
