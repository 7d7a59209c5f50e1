(** Properties C13, C14 and C32 (packed and compact representations), and the local part of C15. *)
From Verif Require Import Base BaseLemmas Params ParamsProofs Fq Prim Samplers Monomial Codes Spec
  FqProofs Sums EnumProofs LinAlg MonoProofs CanonProofs BitCodec CodecProofs RrefCodec LayoutProofs.

(** *** C13 *)

(** Every generator in reduced row-echelon form survives packing and unpacking, whatever was in the
    packed buffer and in the destination matrix before. *)
Theorem C13_roundtrip : forall p, wf_params p -> forall buf old G pivots flags,
  bytes buf -> length buf = rref_bytes p -> shape (pK p) (pN p) old ->
  shape (pK p) (pN p) G -> reduced (pK p) (pN p) (ent G) ->
  is_rref (pK p) (pN p) (ent G) pivots -> flags_of (pK p) (pN p) pivots flags ->
  exists b, compress_rref p buf G flags = Ok b /\ length b = rref_bytes p /\ bytes b /\
    expand_to_rref p old b = Ok G.
Proof.
  intros p wf buf old G pivots flags H1 H2 H3 H4 H5 H6 H7.
  exact (rref_roundtrip p wf buf old G flags pivots H1 H2 H3 H4 H5 H6 H7).
Qed.

(** The packed bytes, read as one little-endian integer, are exactly: one bit per column (1 for a
    pivot), padded to whole bytes, then the entries of the other columns on 7 bits each, row by row.
    The right-hand side fixes all bits of all bytes. *)
Theorem C13_layout : forall p, wf_params p -> forall buf G pivots flags,
  bytes buf -> length buf = rref_bytes p ->
  shape (pK p) (pN p) G -> reduced (pK p) (pN p) (ent G) ->
  is_rref (pK p) (pN p) (ent G) pivots -> flags_of (pK p) (pN p) pivots flags ->
  exists b, compress_rref p buf G flags = Ok b /\ length b = rref_bytes p /\ bytes b /\
    le_val b =
      sumn (pN p) (fun c => nth c flags 0 * 2 ^ Z.of_nat c) +
      2 ^ (8 * Z.of_nat ((pN p + 7) / 8)) *
      sumn (pK p) (fun i => sumn (pN p - pK p) (fun j =>
        ent G i (nth j (nonpivots (pK p) (pN p) pivots) 0%nat) *
        2 ^ (7 * (Z.of_nat i * Z.of_nat (pN p - pK p) + Z.of_nat j)))).
Proof.
  intros p wf buf G pivots flags H1 H2 H3 H4 H5 H6.
  exact (rref_layout p wf buf G flags pivots H1 H2 H3 H4 H5 H6).
Qed.

(** The encoder overwrites the whole buffer. *)
Theorem C13_overwrites : forall p, wf_params p -> forall buf buf' G pivots flags,
  bytes buf -> length buf = rref_bytes p -> bytes buf' -> length buf' = rref_bytes p ->
  shape (pK p) (pN p) G -> reduced (pK p) (pN p) (ent G) ->
  is_rref (pK p) (pN p) (ent G) pivots -> flags_of (pK p) (pN p) pivots flags ->
  compress_rref p buf G flags = compress_rref p buf' G flags.
Proof.
  intros p wf buf buf' G pivots flags H1 H2 H3 H4 H5 H6 H7 H8.
  exact (rref_old p wf buf buf' G flags pivots H1 H2 H3 H4 H5 H6 H7 H8).
Qed.

(** A generator of the small parameter set with pivots in columns 0, 2 and 5. *)
Definition ex_pivot (i : nat) : nat := nth i [0; 2; 5]%nat 0%nat.
Definition ex_flags : list Z := map (fun c => if existsb (Nat.eqb c) [0; 2; 5]%nat then 1 else 0) (seq 0 132).
Definition ex_G : mat := map (fun i => map (fun c =>
    if Nat.eqb c (ex_pivot i) then 1
    else if existsb (Nat.eqb c) [0; 2; 5]%nat || (c <? ex_pivot i)%nat then 0
    else (Z.of_nat (7 * i + c) * 11 + 3) mod 127) (seq 0 132)) (seq 0 3).
Example C13_example :
  shape 3 132 ex_G /\ reduced 3 132 (ent ex_G) /\ is_rref 3 132 (ent ex_G) ex_pivot /\ flags_of 3 132 ex_pivot ex_flags.
Proof.
  assert (Sh : shape 3 132 ex_G).
  { split. reflexivity. repeat constructor. }
  assert (I : forall i, (i < 3)%nat -> In i [0; 1; 2]%nat) by (intros; cbn; lia).
  split; auto. split; [|split].
  - intros i j Hi Hj.
    assert (E : forallb (fun i => forallb (fun j => (0 <=? ent ex_G i j) && (ent ex_G i j <? 127)) (seq 0 132)) [0; 1; 2]%nat = true)
      by (vm_compute; reflexivity).
    rewrite forallb_forall in E. specialize (E i (I i Hi)). rewrite forallb_forall in E.
    specialize (E j). rewrite in_seq in E. specialize (E ltac:(lia)). unfold fq. lia.
  - split; [|split; [|split]].
    + intros i Hi. apply I in Hi. destruct Hi as [<-|[<-|[<-|[]]]]; cbn; lia.
    + intros i j Hij Hj. assert (Hi : (i < 3)%nat) by lia. apply I in Hi, Hj.
      destruct Hi as [<-|[<-|[<-|[]]]], Hj as [<-|[<-|[<-|[]]]]; cbn; lia.
    + intros i j Hi Hj. apply I in Hi, Hj.
      destruct Hi as [<-|[<-|[<-|[]]]], Hj as [<-|[<-|[<-|[]]]]; vm_compute; reflexivity.
    + intros i c Hi Hc. apply I in Hi. destruct Hi as [<-|[<-|[<-|[]]]]; cbn in Hc; [lia| |].
      * destruct c as [|[|c]]; [reflexivity|reflexivity|lia].
      * destruct c as [|[|[|[|[|c]]]]]; try reflexivity; lia.
  - split. reflexivity. intros c Hc.
    assert (E : forallb (fun c => nth c ex_flags 0 =? (if existsb (Nat.eqb c) [0; 2; 5]%nat then 1 else 0)) (seq 0 132) = true)
      by (vm_compute; reflexivity).
    rewrite forallb_forall in E. specialize (E c). rewrite in_seq in E. specialize (E ltac:(lia)).
    apply Z.eqb_eq in E. rewrite E. split.
    + intros (i & Hi & <-). apply I in Hi. destruct Hi as [<-|[<-|[<-|[]]]]; reflexivity.
    + intros H. assert (A := H 0%nat ltac:(lia)). assert (B := H 1%nat ltac:(lia)). assert (C := H 2%nat ltac:(lia)).
      cbn in A, B, C |- *.
      destruct (Nat.eqb_spec c 0), (Nat.eqb_spec c 2), (Nat.eqb_spec c 5); try congruence; reflexivity.
Qed.

(** *** C14 *)

(** The number of bits of a packed position. *)
Definition position_bits (p : params) : Z := match p_cat p with Cat1 => 8 | Cat3 => 9 | Cat5 => 10 end.

Theorem C14_roundtrip : forall p, wf_params p -> forall buf old a,
  bytes buf -> length buf = mono_bytes p ->
  length (a_perm old) = pK p -> length (a_coef old) = pK p ->
  length (a_perm a) = pK p -> length (a_coef a) = pK p ->
  Forall (fun x => 0 <= x < Z.of_nat (pN p)) (a_perm a) -> Forall fq (a_coef a) ->
  exists b, compress_monom_action p buf a = Ok b /\ length b = mono_bytes p /\ bytes b /\
    expand_to_monom_action p old b = Ok a.
Proof.
  intros p wf buf old a H1 H2 H3 H4 H5 H6 H7 H8.
  apply (action_roundtrip p wf buf old a H1 H2 (conj H3 H4) (conj H5 H6)).
  - intros i Hi. rewrite Forall_nth_Z in H7. specialize (H7 i ltac:(lia)). pose proof (N_lt_nb p wf). lia.
  - intros i Hi. rewrite Forall_nth_Z in H8. specialize (H8 i ltac:(lia)). unfold fq in H8. lia.
Qed.

(** The packed bytes as one integer: positions on 8, 9 or 10 bits, then coefficients on 7 bits. *)
Theorem C14_layout : forall p, wf_params p -> forall buf a,
  bytes buf -> length buf = mono_bytes p ->
  length (a_perm a) = pK p -> length (a_coef a) = pK p ->
  Forall (fun x => 0 <= x < Z.of_nat (pN p)) (a_perm a) -> Forall fq (a_coef a) ->
  exists b, compress_monom_action p buf a = Ok b /\ length b = mono_bytes p /\ bytes b /\
    le_val b =
      sumn (pK p) (fun i => nth i (a_perm a) 0 * 2 ^ (position_bits p * Z.of_nat i)) +
      2 ^ (position_bits p * Z.of_nat (pK p)) * sumn (pK p) (fun i => nth i (a_coef a) 0 * 2 ^ (7 * Z.of_nat i)).
Proof.
  intros p wf buf a H1 H2 H3 H4 H5 H6.
  apply (action_layout p wf buf a H1 H2 (conj H3 H4)).
  - intros i Hi. rewrite Forall_nth_Z in H5. specialize (H5 i ltac:(lia)). pose proof (N_lt_nb p wf). lia.
  - intros i Hi. rewrite Forall_nth_Z in H6. specialize (H6 i ltac:(lia)). unfold fq in H6. lia.
Qed.

Theorem C14_overwrites : forall p, wf_params p -> forall buf buf' a,
  bytes buf -> length buf = mono_bytes p -> bytes buf' -> length buf' = mono_bytes p ->
  length (a_perm a) = pK p -> length (a_coef a) = pK p ->
  Forall (fun x => 0 <= x < Z.of_nat (pN p)) (a_perm a) -> Forall fq (a_coef a) ->
  compress_monom_action p buf a = compress_monom_action p buf' a.
Proof.
  intros p wf buf buf' a H1 H2 H1' H2' H3 H4 H5 H6.
  apply (action_old p wf buf buf' a H1 H2 H1' H2' (conj H3 H4)).
  - intros i Hi. rewrite Forall_nth_Z in H5. specialize (H5 i ltac:(lia)). pose proof (N_lt_nb p wf). lia.
  - intros i Hi. rewrite Forall_nth_Z in H6. specialize (H6 i ltac:(lia)). unfold fq in H6. lia.
Qed.

(** Unpacking never fails: any bytes decode, to the corresponding bit fields. *)
Theorem C14_decode_total : forall p, wf_params p -> forall old buf,
  bytes buf -> length buf = mono_bytes p -> length (a_perm old) = pK p -> length (a_coef old) = pK p ->
  exists a, expand_to_monom_action p old buf = Ok a /\
    length (a_perm a) = pK p /\ length (a_coef a) = pK p /\
    forall i, (i < pK p)%nat ->
      nth i (a_perm a) 0 = (le_val buf / 2 ^ (position_bits p * Z.of_nat i)) mod 2 ^ position_bits p /\
      nth i (a_coef a) 0 = (le_val buf / 2 ^ (position_bits p * Z.of_nat (pK p) + 7 * Z.of_nat i)) mod 2 ^ 7.
Proof.
  intros p wf old buf H1 H2 H3 H4.
  destruct (expand_to_monom_action_spec p wf old buf H1 H2 (conj H3 H4)) as (a & A & (B1 & B2) & C & D).
  exists a. repeat split; auto.
  - exact (C i H).
  - exact (D i H).
Qed.

Example C14_example : let a := {| a_perm := [131; 0; 77]; a_coef := [126; 1; 64] |} in
  compress_monom_action toy_params (repeat 255 6) a = Ok [131; 0; 77; 254; 0; 16] /\
  expand_to_monom_action toy_params {| a_perm := [9; 9; 9]; a_coef := [9; 9; 9] |} [131; 0; 77; 254; 0; 16] = Ok a.
Proof. split; vm_compute; reflexivity. Qed.

(** *** C15, the check itself: it accepts exactly the well-formed partial monomials. *)
Theorem C15_check : forall p, wf_params p -> forall a,
  length (a_perm a) = pK p -> length (a_coef a) = pK p ->
  exists r, is_monom_action_valid p a = Ok r /\ (r = 0 \/ r = 1) /\
    (r = 1 <-> good_action (pK p) (pN p) (a_perm a) (a_coef a)).
Proof.
  intros p wf a H1 H2.
  destruct (is_monom_action_valid_spec p a (conj H1 H2)) as (r & A & B & C).
  exists r. split; auto. split; [tauto|]. rewrite B. apply good_action_iff.
Qed.

Example C15_example :
  is_monom_action_valid toy_params {| a_perm := [131; 0; 77]; a_coef := [126; 1; 64] |} = Ok 1 /\
  is_monom_action_valid toy_params {| a_perm := [131; 0; 131]; a_coef := [126; 1; 64] |} = Ok 0 /\
  is_monom_action_valid toy_params {| a_perm := [132; 0; 77]; a_coef := [126; 1; 64] |} = Ok 0 /\
  is_monom_action_valid toy_params {| a_perm := [131; 0; 77]; a_coef := [126; 127; 64] |} = Ok 0.
Proof. repeat split; vm_compute; reflexivity. Qed.

(** *** C32 *)
Theorem C32_compact_expand : forall p, wf_params p -> forall c G pivots flags old,
  shape (pK p) (pN p - pK p) (r_vals c) -> length (r_pos c) = (pN p - pK p)%nat ->
  shape (pK p) (pN p) G -> shape (pK p) (pN p) old ->
  is_rref (pK p) (pN p) (ent G) pivots -> flags_of (pK p) (pN p) pivots flags ->
  exists c', generator_rref_compact p c G flags = Ok c' /\
    generator_rref_expand p old c' = Ok G /\
    r_pos c' = map Z.of_nat (nonpivots (pK p) (pN p) pivots) /\
    forall i j, (i < pK p)%nat -> (j < pN p - pK p)%nat ->
      ent (r_vals c') i j = ent G i (nth j (nonpivots (pK p) (pN p) pivots) 0%nat).
Proof.
  intros p wf c G pivots flags old H1 H2 H3 H4 H5 H6.
  destruct (compact_expand_roundtrip p wf c G flags pivots old H1 H2 H3 H4 H5 H6) as (c' & A & B).
  destruct (generator_rref_compact_spec p wf c G flags pivots H1 H2 H3 H5 H6) as (c'' & A' & C1 & C2 & C3 & C4).
  assert (c'' = c') by congruence. subst c''.
  exists c'. rewrite (nonpivots_flags _ _ _ _ H6). repeat split; auto.
  apply (list_ext 0).
  - rewrite map_length. rewrite C2. rewrite <- (nonpivots_flags _ _ _ _ H6). symmetry. eapply nonpivots_length; eauto.
  - intros j Hj. rewrite C2 in Hj. change (nth j (r_pos c') 0) with (nthZ (r_pos c') j). rewrite C3 by auto.
    rewrite (map_nth Z.of_nat _ 0%nat j). reflexivity.
Qed.

Example C32_example :
  bind (generator_rref_compact toy_params {| r_vals := repeat (repeat 9 129) 3; r_pos := repeat 9 129 |} ex_G ex_flags)
    (fun c => bind (generator_rref_expand toy_params (repeat (repeat 7 132) 3) c) (fun G => Ok (firstn 4 (r_pos c), G)))
  = Ok ([1; 3; 4; 6], ex_G).
Proof. vm_compute. reflexivity. Qed.

Print Assumptions C13_roundtrip.
Print Assumptions C13_layout.
Print Assumptions C13_overwrites.
Print Assumptions C14_roundtrip.
Print Assumptions C14_layout.
Print Assumptions C14_overwrites.
Print Assumptions C14_decode_total.
Print Assumptions C15_check.
Print Assumptions C32_compact_expand.
