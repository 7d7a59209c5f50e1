(** Properties C16, C17, C19, C20: row reduction, column sorting and column normalisation. *)
From Coq Require Import Permutation Sorted.
From Verif Require Import Base BaseLemmas Params ParamsProofs Fq Prim Samplers Monomial Codes Spec
  FqProofs Sums LinAlg RrefProofs LexProofs SortProofs EnumProofs MonoProofs ActionProofs CanonProofs RoundProofs PropCodec.


Lemma wf_K_le p : wf_params p -> (pK p <= pN p)%nat.
Proof. intros wf. pose proof (wf_K p wf). lia. Qed.

(** C16: row reduction decides full rank, and yields a reduced row-echelon generator of the same code. *)
Theorem C16_rref : forall p, wf_params p -> forall G,
  shape (pK p) (pN p) G -> reduced (pK p) (pN p) (ent G) ->
  exists ret R flags, generator_RREF p G (repeat 0 (pN p)) = Ok (ret, R, flags) /\
    shape (pK p) (pN p) R /\ reduced (pK p) (pN p) (ent R) /\ same_code (pK p) (pN p) (ent G) (ent R) /\
    (ret = 0 \/ ret = 1) /\ (ret = 1 <-> full_rank (pK p) (pN p) (ent G)) /\
    (ret = 1 -> exists piv, is_rref (pK p) (pN p) (ent R) piv /\ flags_of (pK p) (pN p) piv flags).
Proof.
  intros p wf G HS HR.
  destruct (generator_RREF_spec p G HS HR (wf_K_le p wf)) as ([[ret R] fl] & E & S & Rd & Q & H).
  exists ret, R, fl. split; [exact E|]. split; [exact S|]. split; [exact Rd|].
  split; [apply row_equiv_same_code; exact Q|].
  destruct H as [(-> & pv & A & B)|(-> & A)].
  - split; [auto|]. split; [|intros _; exists pv; auto]. split; [intros _|auto].
    apply (row_equiv_full_rank _ _ (ent R)). apply row_equiv_sym. exact Q. apply (rref_full_rank _ _ _ pv A).
  - split; [auto|]. split; [|discriminate]. split; [discriminate|]. intros F. contradiction.
Qed.

Lemma rref_agree p (wf : wf_params p) A B : shape (pK p) (pN p) A -> shape (pK p) (pN p) B ->
  reduced (pK p) (pN p) (ent A) -> reduced (pK p) (pN p) (ent B) ->
  full_rank (pK p) (pN p) (ent A) -> full_rank (pK p) (pN p) (ent B) ->
  same_code (pK p) (pN p) (ent A) (ent B) ->
  exists R flags, generator_RREF p A (repeat 0 (pN p)) = Ok (1, R, flags) /\
    generator_RREF p B (repeat 0 (pN p)) = Ok (1, R, flags).
Proof.
  intros SA SB RA RB FA FB SC.
  destruct (C16_rref p wf A SA RA) as (ra & R & fl & E & S & Rd & Q & _ & H & H').
  destruct (C16_rref p wf B SB RB) as (rb & R' & fl' & E' & S' & Rd' & Q' & _ & I & I').
  apply H in FA. apply I in FB. subst ra rb. destruct (H' eq_refl) as (pv & P & F). destruct (I' eq_refl) as (pv' & P' & F').
  assert (SC' : same_code (pK p) (pN p) (ent R) (ent R')).
  { intros v. rewrite <- (Q v), (SC v), (Q' v). reflexivity. }
  destruct (rref_unique _ _ _ _ _ _ SC' P P') as [U V].
  exists R, fl. split; [exact E|]. rewrite E'. f_equal. f_equal; [f_equal|].
  - apply (mat_ext R' R (pK p) (pN p)); auto. intros i j Hi Hj. apply cong_eq; auto. symmetry. auto.
  - apply (flags_det p pv' pv); auto. intros i Hi. symmetry. auto.
Qed.

(** C17: the result depends only on the code ... *)
Theorem C17_canonical : forall p, wf_params p -> forall A B,
  shape (pK p) (pN p) A -> shape (pK p) (pN p) B ->
  reduced (pK p) (pN p) (ent A) -> reduced (pK p) (pN p) (ent B) ->
  full_rank (pK p) (pN p) (ent A) -> full_rank (pK p) (pN p) (ent B) ->
  same_code (pK p) (pN p) (ent A) (ent B) ->
  exists R flags, generator_RREF p A (repeat 0 (pN p)) = Ok (1, R, flags) /\
    generator_RREF p B (repeat 0 (pN p)) = Ok (1, R, flags).
Proof. exact rref_agree. Qed.

(** ... in particular reducing twice is the same as reducing once. *)
Theorem C17_idempotent : forall p, wf_params p -> forall A R flags,
  shape (pK p) (pN p) A -> reduced (pK p) (pN p) (ent A) ->
  generator_RREF p A (repeat 0 (pN p)) = Ok (1, R, flags) ->
  generator_RREF p R (repeat 0 (pN p)) = Ok (1, R, flags).
Proof.
  intros p wf A R fl SA RA E.
  destruct (C16_rref p wf A SA RA) as (ra & R1 & fl1 & E1 & S & Rd & Q & _ & H & H').
  rewrite E in E1. injection E1 as <- <- <-. destruct (H' eq_refl) as (pv & P & F).
  destruct (rref_agree p wf A R SA S RA Rd) as (R2 & fl2 & E2 & E3); auto.
  - apply H. reflexivity.
  - apply (rref_full_rank _ _ _ pv P).
  - rewrite E in E2. injection E2 as <- <-. exact E3.
Qed.

(** Two generators of one code: rows of [ex_G] recombined (invertibly). *)
Definition row_mix (l : list (list Z)) : mat :=
  map (fun cs => map (fun c => sumn 3 (fun i => nth i cs 0 * ent ex_G i c) mod 127) (seq 0 132)) l.
Example C16_example :
  generator_RREF toy_params (row_mix [[1; 2; 3]; [0; 5; 7]; [4; 4; 4]]) (repeat 0 132) = Ok (1, ex_G, ex_flags) /\
  generator_RREF toy_params ex_G (repeat 0 132) = Ok (1, ex_G, ex_flags).
Proof. split; vm_compute; reflexivity. Qed.
(** Dependent rows are reported. *)
Example C16_example_singular :
  bind (generator_RREF toy_params (row_mix [[1; 2; 3]; [0; 5; 7]; [1; 7; 10]]) (repeat 0 132)) (fun x => Ok (fst (fst x))) = Ok 0.
Proof. vm_compute. reflexivity. Qed.

(** C19: the columns come out sorted, with the same multiset of columns. *)
Theorem C19_sorts : forall p, wf_params p -> forall V,
  shape (pK p) (pN p - pK p) V ->
  (forall i j, (i < pK p)%nat -> (j < pN p - pK p)%nat -> is_byte (ent V i j)) ->
  exists S, lex_sort_cols p V = Ok S /\ shape (pK p) (pN p - pK p) S /\
    Permutation (columns (pK p) (pN p - pK p) (ent V)) (columns (pK p) (pN p - pK p) (ent S)) /\
    StronglySorted lex_le (columns (pK p) (pN p - pK p) (ent S)).
Proof.
  intros p wf V HS HB. destruct (lex_sort_cols_spec p wf V HS HB) as (S & E & A & B & C & D).
  exists S. auto.
Qed.

(** Hence the result is the same for every order in which the columns are presented. *)
Theorem C19_order_irrelevant : forall p, wf_params p -> forall V W,
  shape (pK p) (pN p - pK p) V -> shape (pK p) (pN p - pK p) W ->
  (forall i j, (i < pK p)%nat -> (j < pN p - pK p)%nat -> is_byte (ent V i j)) ->
  (forall i j, (i < pK p)%nat -> (j < pN p - pK p)%nat -> is_byte (ent W i j)) ->
  Permutation (columns (pK p) (pN p - pK p) (ent V)) (columns (pK p) (pN p - pK p) (ent W)) ->
  exists S, lex_sort_cols p V = Ok S /\ lex_sort_cols p W = Ok S.
Proof. intros p wf V W SV SW BV BW HP. exact (lex_sort_cols_canonical p wf V W SV BV SW BW HP). Qed.

Example C19_example :
  let V := map (fun i => map (fun j => Z.of_nat ((i + 2) * (j + 5) * 37) mod 5) (seq 0 129)) (seq 0 3) in
  bind (lex_sort_cols toy_params V) (fun S => Ok (map (fun j => column 3 (ent S) j) [0; 1; 50; 51; 52; 128]%nat)) =
  Ok [[0; 0; 0]; [0; 0; 0]; [1; 4; 2]; [2; 3; 4]; [2; 3; 4]; [4; 1; 3]].
Proof. vm_compute. reflexivity. Qed.

(** C20: the destination column becomes the least multiple of the source column, and nothing else
    changes. *)
Theorem C20_minimize : forall p, wf_params p -> forall V dst G col,
  shape (pK p) (pN p - pK p) V -> shape (pK p) (pN p) G ->
  (dst < pN p - pK p)%nat -> (col < pN p)%nat -> reduced (pK p) (pN p) (ent G) ->
  exists V', lex_minimize p V dst G col = Ok V' /\ shape (pK p) (pN p - pK p) V' /\
    least_multiple (column (pK p) (ent G) col) (column (pK p) (ent V') dst) /\
    (forall i j, (i < pK p)%nat -> (j < pN p - pK p)%nat -> j <> dst -> ent V' i j = ent V i j).
Proof.
  intros p wf V dst G col SV SG Hd Hc HR.
  destruct (lex_minimize_spec p (pN p - pK p) V dst G col SV SG Hd Hc (fun i Hi => HR i col Hi Hc)) as (V' & E & S & H).
  exists V'. split; [exact E|]. split; [exact S|]. split.
  - replace (column (pK p) (ent V') dst) with (ncol p (ent G) col). apply ncol_least; auto.
    apply (list_ext 0). rewrite ncol_length, column_length. auto.
    rewrite ncol_length. intros i Hi. rewrite ncol_nth, column_nth, H by auto. rewrite Nat.eqb_refl. auto.
  - intros i j Hi Hj Hn. rewrite H by auto. destruct (Nat.eqb_spec j dst); [contradiction|auto].
Qed.

(** The first non-zero entry of the result is 1; the zero column stays zero. *)
Theorem C20_first_entry : forall p, wf_params p -> forall V dst G col V',
  shape (pK p) (pN p - pK p) V -> shape (pK p) (pN p) G ->
  (dst < pN p - pK p)%nat -> (col < pN p)%nat -> reduced (pK p) (pN p) (ent G) ->
  lex_minimize p V dst G col = Ok V' ->
  ((forall i, (i < pK p)%nat -> ent G i col = 0) /\ (forall i, (i < pK p)%nat -> ent V' i dst = 0)) \/
  (exists l, (l < pK p)%nat /\ ent V' l dst = 1 /\ ent G l col <> 0 /\
     forall i, (i < l)%nat -> ent V' i dst = 0 /\ ent G i col = 0).
Proof.
  intros p wf V dst G col V' SV SG Hd Hc HR E.
  pose proof (fun i Hi => HR i col Hi Hc) as HC.
  destruct (lex_minimize_spec p (pN p - pK p) V dst G col SV SG Hd Hc HC) as (V1 & E1 & S & H).
  rewrite E in E1. injection E1 as <-.
  assert (H' : forall i, (i < pK p)%nat -> ent V' i dst = norm (pK p) (fun i => ent G i col) i).
  { intros i Hi. rewrite H by auto. rewrite Nat.eqb_refl. auto. }
  destruct (norm_prop (pK p) (fun i => ent G i col) HC) as (e & He & Hp).
  assert (Z0 : forall i, (i < pK p)%nat -> norm (pK p) (fun i => ent G i col) i = 0 -> ent G i col = 0).
  { intros i Hi Hn. apply cong_eq; [apply HC; auto|unfold fq; lia|].
    destruct (cong0_dec (ent G i col)) as [C|C]; [exact C|]. exfalso.
    apply (cong_nonzero_mul e (ent G i col)); auto. rewrite <- (Hp i Hi), Hn. reflexivity. }
  destruct (norm_first (pK p) (fun i => ent G i col) HC) as [A|(l & Hl & A & B)].
  - left. split; intros i Hi. auto. rewrite H' by auto. auto.
  - right. exists l. split; [exact Hl|]. rewrite H' by auto. split; [exact A|]. split.
    + intros Hz. assert (X := Hp l Hl). cbn beta in X. rewrite A, Hz, Z.mul_0_r in X. destruct X as [k X]. lia.
    + intros i Hi. rewrite H' by lia. auto with arith. split; [auto|]. apply Z0; [lia|auto].
Qed.

(** Two columns get the same representative exactly when they are non-zero multiples of each other. *)
Theorem C20_equal_iff_proportional : forall p, wf_params p -> forall V1 V2 d1 d2 G1 G2 c1 c2 V1' V2',
  shape (pK p) (pN p - pK p) V1 -> shape (pK p) (pN p - pK p) V2 ->
  shape (pK p) (pN p) G1 -> shape (pK p) (pN p) G2 ->
  (d1 < pN p - pK p)%nat -> (d2 < pN p - pK p)%nat -> (c1 < pN p)%nat -> (c2 < pN p)%nat ->
  reduced (pK p) (pN p) (ent G1) -> reduced (pK p) (pN p) (ent G2) ->
  lex_minimize p V1 d1 G1 c1 = Ok V1' -> lex_minimize p V2 d2 G2 c2 = Ok V2' ->
  (column (pK p) (ent V1') d1 = column (pK p) (ent V2') d2 <->
   proportional (column (pK p) (ent G1) c1) (column (pK p) (ent G2) c2)).
Proof.
  intros p wf V1 V2 d1 d2 G1 G2 c1 c2 V1' V2' SV1 SV2 SG1 SG2 Hd1 Hd2 Hc1 Hc2 R1 R2 E1 E2.
  destruct (C20_minimize p wf V1 d1 G1 c1 SV1 SG1 Hd1 Hc1 R1) as (x & Ex & _ & L1 & _). rewrite E1 in Ex. injection Ex as <-.
  destruct (C20_minimize p wf V2 d2 G2 c2 SV2 SG2 Hd2 Hc2 R2) as (y & Ey & _ & L2 & _). rewrite E2 in Ey. injection Ey as <-.
  split.
  - intros E. destruct L1 as [P1 _]. destruct L2 as [P2 _]. rewrite E in P1.
    apply (proportional_trans _ _ _ P1). apply proportional_sym. exact P2.
  - intros P. apply (least_multiple_unique (column (pK p) (ent G1) c1)); auto.
    destruct L2 as (A & B & C). split; [|split; [exact B|]].
    + apply (proportional_trans _ _ _ P A).
    + intros c Hp Hf. apply C; auto. apply (proportional_trans _ _ _ (proportional_sym _ _ P) Hp).
Qed.

Example C20_example :
  bind (lex_minimize toy_params (repeat (repeat 9 129) 3) 4 (row_mix [[0; 0; 0]; [0; 5; 7]; [4; 4; 4]]) 8)
    (fun V => Ok (column 3 (ent V) 3, column 3 (ent V) 4, map (fun x => (15 * x) mod 127) (column 3 (ent V) 4),
                  column 3 (ent (row_mix [[0; 0; 0]; [0; 5; 7]; [4; 4; 4]])) 8))
  = Ok ([9; 9; 9], [0; 1; 109], [0; 15; 111], [0; 15; 111]).
Proof. vm_compute. reflexivity. Qed.

Print Assumptions C16_rref.
Print Assumptions C17_canonical.
Print Assumptions C17_idempotent.
Print Assumptions C19_sorts.
Print Assumptions C19_order_irrelevant.
Print Assumptions C20_minimize.
Print Assumptions C20_first_entry.
Print Assumptions C20_equal_iff_proportional.
