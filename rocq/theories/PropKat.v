(** Properties C45 to C48: the test vector program. *)
From Coq Require Import String Ascii.
From Verif Require Import Base BaseLemmas Params ParamsProofs Prim Spec Less Sign LessSpec RoundProofs SeedTreeProofs TreeFacts SignerProofs ApiProofs PropApi PropSpec Toy
  KatRng KatMain KatSpec KatRngProofs KatTextProofs KatMainProofs.
Local Open Scope list_scope.

(** What is assumed of AES-256: blocks of 16 bytes. *)
Definition block_cipher (aes : list Z -> list Z -> list Z) : Prop := forall k b, length (aes k b) = 16%nat /\ bytes (aes k b).

(** A function for the examples. *)
Definition toy_aes (k b : list Z) : list Z :=
  map (fun i => (nthZ b i * 5 + nthZ b 15 * 7 + nthZ k i + 3 * nthZ k (i + 16) + Z.of_nat i) mod 256) (seq 0 16).
Lemma toy_aes_ok : block_cipher toy_aes.
Proof.
  intros k b. unfold toy_aes. rewrite map_length, seq_length. split; auto. apply Forall_forall. intros x H. apply in_map_iff in H.
  destruct H as (i & <- & _). red. apply Z.mod_pos_bound. lia.
Qed.

(** *** C45: the generator *)

(** A caller that asks for [ns] bytes in turn, each time with a fresh buffer; the locals of every call hold anything. *)
Fixpoint ask (aes : list Z -> list Z -> list Z) (block0 temp0 : nat -> list Z) (ctx : drbg_ctx) (ns : list nat) : res (list (list Z)) :=
  match ns with
  | [] => Ok []
  | n :: ns' =>
      ' (ret, x, ctx') <- KAT_NIST_randombytes aes (block0 (length ns)) (temp0 (length ns)) ctx (repeat 0 n) (Z.of_nat n) ;;
      if ret =? 0 then r <- ask aes block0 temp0 ctx' ns' ;; Ok (x :: r) else UB
  end.

Fixpoint answers (aes : list Z -> list Z -> list Z) (st : list Z * Z) (ns : list nat) : list (list Z) :=
  match ns with [] => [] | n :: ns' => fst (drbg_generate aes st n) :: answers aes (snd (drbg_generate aes st n)) ns' end.

(** Whatever the global context and the locals hold, instantiating the generator and asking for any sequence of
    lengths gives the bytes that the CTR_DRBG of SP 800-90A gives. *)
Theorem C45_drbg : forall aes, block_cipher aes ->
  forall temp ctx entropy pers block0 temp0 ns, length temp = 48%nat -> length (d_key ctx) = 32%nat -> length (d_v ctx) = 16%nat ->
  length entropy = 48%nat -> bytes entropy -> match pers with Some d => length d = 48%nat /\ bytes d | None => True end ->
  (forall i, length (block0 i) = 16%nat) -> (forall i, length (temp0 i) = 48%nat) -> Forall (fun n => Z.of_nat n < 2 ^ 31) ns ->
  (ctx' <- KAT_NIST_randombytes_init aes temp ctx entropy pers ;; ask aes block0 temp0 ctx' ns) =
    Ok (answers aes (drbg_instantiate aes (match pers with Some d => xor_bytes entropy d | None => entropy end)) ns).
Proof.
  intros aes HA temp ctx entropy pers block0 temp0 ns H1 H2 H3 H4 H5 H6 H7 H8 H9.
  destruct (init_ok aes HA temp ctx entropy pers H1 H2 H3 H4 H5 H6) as (ctx1 & -> & _ & R). cbn [bind]. revert R.
  generalize (drbg_instantiate aes (match pers with Some d => xor_bytes entropy d | None => entropy end)) as st. revert ctx1.
  induction H9 as [|n ns Hn HN IH]; intros ctx1 st R; cbn [ask answers]; auto.
  destruct (random_ok aes HA (block0 (length (n :: ns))) (temp0 (length (n :: ns))) ctx1 st (repeat 0 n) n R (H7 _) (H8 _)) as (ctx2 & -> & _ & R2); auto.
  { rewrite repeat_length. lia. }
  cbn [bind Z.eqb]. rewrite (IH ctx2 _ R2). cbn [bind]. rewrite skipn_all2, app_nil_r by (rewrite repeat_length; lia). reflexivity.
Qed.

(** The index of the output buffer is an int: a request of 2^31 bytes or more has undefined behaviour. *)
Lemma random_loop_ub aes key : block_cipher aes -> length key = 32%nat -> forall fuel n block v x k, (n <= fuel)%nat -> length block = 16%nat ->
  Z.of_nat (16 * k) < 2 ^ 31 -> 2 ^ 31 <= Z.of_nat (16 * k + n) ->
  random_loop aes fuel key block (be_bytes 16 v) x (Z.of_nat (16 * k)) (Z.of_nat n) = UB.
Proof.
  intros HA HK. induction fuel as [|fuel IH]; intros n block v x k HF HB Hi Hn. { lia. }
  cbn [random_loop]. destruct (Z.ltb_spec 0 (Z.of_nat n)); [|lia].
  rewrite increment16. cbn [bind]. rewrite (ecb_ok aes HA) by (auto; lia). cbn [bind]. rewrite firstn_O. cbn [app]. rewrite skipn_all2 by lia. rewrite app_nil_r.
  destruct (Z.ltb_spec 15 (Z.of_nat n)); [|lia]. set (b := aes key (be_bytes 16 (v + 1))). assert (LB : length b = 16%nat) by apply HA.
  rewrite rd_ok by lia. cbn [bind skipn]. rewrite firstn_all2 by lia. unfold wr. destruct (_ <=? _)%nat; [|reflexivity]. cbn [bind].
  destruct (Z.ltb_spec (Z.of_nat (16 * k) + 16) (2 ^ 31)); [|reflexivity].
  replace (Z.of_nat (16 * k) + 16) with (Z.of_nat (16 * S k)) by lia. replace (Z.of_nat n - 16) with (Z.of_nat (n - 16)) by lia.
  apply IH; auto; lia.
Qed.

Theorem C45_long : forall aes, block_cipher aes -> forall block0 temp0 ctx x n v, length block0 = 16%nat ->
  length (d_key ctx) = 32%nat -> d_v ctx = be_bytes 16 v -> 2 ^ 31 <= n -> KAT_NIST_randombytes aes block0 temp0 ctx x n = UB.
Proof.
  intros aes HA block0 temp0 ctx x n v H1 H2 H3 Hn. unfold KAT_NIST_randombytes. rewrite H3.
  pose proof (random_loop_ub aes (d_key ctx) HA H2 (Z.to_nat n) (Z.to_nat n) block0 v x 0 (le_n _) H1 ltac:(lia) ltac:(lia)) as E.
  change (Z.of_nat (16 * 0)) with 0 in E. rewrite Z2Nat.id in E by lia. rewrite E. reflexivity.
Qed.

(** 20 and 3 bytes with the function of the examples, from the entropy of the test vector program. *)
Example C45_example : forall ctx, length (d_key ctx) = 32%nat -> length (d_v ctx) = 16%nat ->
  (ctx' <- KAT_NIST_randombytes_init toy_aes (repeat 1 48) ctx (map Z.of_nat (seq 0 48)) None ;;
   ask toy_aes (fun _ => repeat 2 16) (fun _ => repeat 4 48) ctx' [20%nat; 3%nat]) =
  Ok [[53; 66; 231; 4; 33; 38; 19; 8; 13; 42; 255; 44; 73; 78; 59; 39; 60; 73; 238; 11]; [30; 148; 98]].
Proof.
  intros ctx H1 H2.
  rewrite (C45_drbg toy_aes toy_aes_ok (repeat 1 48) ctx (map Z.of_nat (seq 0 48)) None (fun _ => repeat 2 16) (fun _ => repeat 4 48) [20; 3]%nat
    eq_refl H1 H2 eq_refl (bytes_of_check (map Z.of_nat (seq 0 48)) eq_refl) I (fun _ => eq_refl) (fun _ => eq_refl)).
  - vm_compute. reflexivity.
  - repeat constructor.
Qed.

(** *** C46: the seed expander *)

(** A caller asking for [ns] bytes in turn: the status and the buffer, filled with zeros before. *)
Fixpoint expand (aes : list Z -> list Z -> list Z) (ctx : xof_ctx) (ns : list nat) : res (list (Z * list Z)) :=
  match ns with
  | [] => Ok []
  | n :: ns' =>
      ' (ret, x, ctx') <- KAT_NIST_seedexpander aes ctx (repeat 0 n) (Z.of_nat n) ;;
      r <- expand aes ctx' ns' ;; Ok ((ret, x) :: r)
  end.

(** After [s] bytes a request of [n] bytes is refused unless fewer than [maxlen] bytes will have been delivered;
    it gets the next [n] bytes of the key stream. *)
Fixpoint expansion (stream : nat -> Z) (maxlen : Z) (s : nat) (ns : list nat) : list (Z * list Z) :=
  match ns with
  | [] => []
  | n :: ns' =>
      if Z.of_nat (s + n) <? maxlen then (0, map stream (seq s n)) :: expansion stream maxlen (s + n) ns'
      else (-3, repeat 0 n) :: expansion stream maxlen s ns'
  end.

Theorem C46_expander : forall aes, block_cipher aes ->
  forall ctx seed div maxlen ns, length (x_key ctx) = 32%nat -> length (x_ctr ctx) = 16%nat -> length (x_buffer ctx) = 16%nat ->
  length seed = 32%nat -> length div = 8%nat ->
  (2 ^ 32 <= maxlen -> KAT_NIST_seedexpander_init ctx seed div maxlen = Ok (-1, ctx)) /\
  (0 <= maxlen < 2 ^ 32 -> exists ctx', KAT_NIST_seedexpander_init ctx seed div maxlen = Ok (0, ctx') /\
     expand aes ctx' ns = Ok (expansion (expander_byte aes seed div maxlen) maxlen 0 ns)).
Proof.
  intros aes HA ctx seed div maxlen ns H1 H2 H3 H4 H5. split.
  { intros HM. unfold KAT_NIST_seedexpander_init. destruct (Z.leb_spec 4294967296 maxlen); [reflexivity|lia]. }
  intros HM. destruct (expander_init_ok aes HA ctx seed div maxlen H1 H2 H3 H4 H5 HM) as (ctx' & E & RM & ST). exists ctx'. split; auto. clear E.
  replace maxlen with (maxlen - Z.of_nat 0) in RM by lia. revert RM ST. generalize 0%nat as s. revert ctx'.
  induction ns as [|n ns IH]; intros ctx' s RM ST; cbn [expand expansion]; auto.
  destruct (Z.ltb_spec (Z.of_nat (s + n)) maxlen) as [G|G].
  - destruct (expander_ok aes HA seed div maxlen ctx' s (repeat 0 n) n H4 H5 ST RM) as (ctx2 & E & RM2 & ST2); auto; try lia. { rewrite repeat_length. lia. }
    rewrite E. cbn [bind]. rewrite (IH ctx2 _ RM2 ST2). cbn [bind]. rewrite skipn_all2, app_nil_r by (rewrite repeat_length; lia). reflexivity.
  - unfold KAT_NIST_seedexpander. destruct (Z.leb_spec (x_remaining ctx') (Z.of_nat n)); [|lia]. cbn [bind]. rewrite (IH ctx' s RM ST). reflexivity.
Qed.

(** Of 40 bytes 39 can be had: 10, then 20 (across blocks), then not 10 more, but 9. *)
Example C46_example : forall ctx, length (x_key ctx) = 32%nat -> length (x_ctr ctx) = 16%nat -> length (x_buffer ctx) = 16%nat ->
  exists ctx', KAT_NIST_seedexpander_init ctx (map Z.of_nat (seq 1 32)) (map Z.of_nat (seq 100 8)) 40 = Ok (0, ctx') /\
    expand toy_aes ctx' [10; 20; 10; 9]%nat = Ok (expansion (expander_byte toy_aes (map Z.of_nat (seq 1 32)) (map Z.of_nat (seq 100 8)) 40) 40 0 [10; 20; 10; 9]%nat) /\
    map fst (expansion (expander_byte toy_aes (map Z.of_nat (seq 1 32)) (map Z.of_nat (seq 100 8)) 40) 40 0 [10; 20; 10; 9]%nat) = [0; 0; -3; 0].
Proof.
  intros ctx H1 H2 H3. destruct (proj2 (C46_expander toy_aes toy_aes_ok ctx (map Z.of_nat (seq 1 32)) (map Z.of_nat (seq 100 8)) 40 [10; 20; 10; 9]%nat H1 H2 H3 eq_refl eq_refl)) as (ctx' & A & B).
  { lia. } exists ctx'. split; auto.
Qed.

(** *** C47: reading and writing text *)

(** FindMarker reads to the end of the first occurrence of the marker, or to the end of the file if there is none. *)
Theorem C47_marker : forall inp marker, (length marker <= 49)%nat ->
  (exists k, occurs_at marker inp k /\ (forall j, (j < k)%nat -> ~ occurs_at marker inp j) /\ FindMarker inp marker = (1, skipn (k + length marker) inp)) \/
  ((forall k, ~ occurs_at marker inp k) /\ FindMarker inp marker = (0, [])).
Proof. intros inp marker. apply FindMarker_spec. Qed.

Example C47_marker_example :
  FindMarker (text "xx mmmlen = 77") (text "mlen = ") = (1, text "77") /\ FindMarker (text "mle n = 77") (text "mlen = ") = (0, []).
Proof. vm_compute. auto. Qed.

(** What fprintBstr writes, ReadHex reads back, into any buffer of that size, whatever precedes it (as long as the
    first occurrence of the label is this one), and it stops at the end of the line. *)
Theorem C47_hex : forall inp label a A rest, (length label <= 49)%nat -> a <> [] -> bytes a -> length A = length a ->
  fprintBstr label a (length a) = Ok (label ++ hexadecimal a ++ [10]) /\
  (forall k, occurs_at label inp k -> (forall j, (j < k)%nat -> ~ occurs_at label inp j) -> skipn k inp = label ++ hexadecimal a ++ 10 :: rest ->
   ReadHex inp A (length a) label = Ok (1, a, rest)).
Proof.
  intros inp label a A rest HL HN HB HA. split. { apply fprintBstr_full; auto. destruct a; [congruence|cbn; lia]. }
  intros k K1 K2 K3. apply (ReadHex_print inp A a label 10 rest); auto.
  destruct (FindMarker_spec label inp HL) as [(k' & J1 & J2 & J3)|(J & _)]; [|destruct (J k K1)].
  assert (k' = k). { destruct (Nat.lt_trichotomy k' k) as [G|[G|G]]; auto; exfalso; [apply (K2 k' G J1)|apply (J2 k G K1)]. } subst k'.
  rewrite J3. f_equal. rewrite <- skipn_skipn', K3, skipn_app, skipn_all, Nat.sub_diag. reflexivity.
Qed.

(** [rest] is what follows the first occurrence of [label] in [inp]. *)
Definition after_first (label inp rest : list Z) : Prop :=
  exists k, occurs_at label inp k /\ (forall j, (j < k)%nat -> ~ occurs_at label inp j) /\ skipn (k + length label) inp = rest.

Lemma after_first_found label inp rest : (length label <= 49)%nat -> after_first label inp rest -> FindMarker inp label = (1, rest).
Proof.
  intros HL (k & K1 & K2 & K3). destruct (FindMarker_spec label inp HL) as [(k' & J1 & J2 & J3)|(J & _)]; [|destruct (J k K1)].
  assert (k' = k). { destruct (Nat.lt_trichotomy k' k) as [G|[G|G]]; auto; exfalso; [apply (K2 k' G J1)|apply (J2 k G K1)]. } subst k'.
  rewrite J3, K3. reflexivity.
Qed.

Lemma digit16_iff c v : digit16 c v <-> isxdigit c = true /\ hex_value c = v.
Proof.
  split.
  - intros (Hv & H).
    assert (In v (map Z.of_nat (seq 0 16))) as I by (replace v with (Z.of_nat (Z.to_nat v)) by lia; apply in_map; apply in_seq; lia).
    cbn in I. repeat (destruct I as [<-|I]; [destruct H as [-> | ->]; vm_compute; auto|]). contradiction.
  - intros (H & <-). assert (I : In c (map Z.of_nat (seq 48 10 ++ seq 65 6 ++ seq 97 6))).
    { replace c with (Z.of_nat (Z.to_nat c)) by (unfold isxdigit in H; lia). apply in_map. rewrite !in_app_iff, !in_seq. unfold isxdigit in H. lia. }
    clear H. cbn in I. repeat (destruct I as [<-|I]; [split; [vm_compute; split; [discriminate|reflexivity]|vm_compute; auto]|]). contradiction.
Qed.
Lemma not_digit16 c : (forall v, ~ digit16 c v) -> isxdigit c = false.
Proof. intros H. destruct (isxdigit c) eqn:E; auto. destruct (H (hex_value c)). apply digit16_iff. auto. Qed.

(** In general ReadHex skips characters up to the first hexadecimal digit of the line, reads the digits up to the
    next other character, which it consumes, and keeps the last ones that fit, after zeros if there are too few. *)
Theorem C47_hex_any : forall inp A n label skip ds vs tail rest, (length label <= 49)%nat -> (0 < n <= length A)%nat ->
  after_first label inp (skip ++ ds ++ tail) -> Forall (fun c => (forall v, ~ digit16 c v) /\ c <> 10) skip ->
  Forall2 digit16 ds vs -> ds <> [] ->
  (tail = [] /\ rest = []) \/ (exists c, tail = c :: rest /\ forall v, ~ digit16 c v) ->
  exists a, ReadHex inp A n label = Ok (1, a ++ skipn n A, rest) /\ length a = n /\ bytes a /\
    flat_map (fun b => [b / 16; b mod 16]) a = skipn (length ds) (repeat 0 (2 * n) ++ vs).
Proof.
  intros inp A n label skip ds vs tail rest HL Hn AF HS HD HN HT.
  assert (ED : Forall (fun c => isxdigit c = true) ds /\ map hex_value ds = vs).
  { clear HN AF. induction HD as [|c v ds vs H HD (IH1 & IH2)]; [auto|]. apply digit16_iff in H. destruct H as (H1 & H2).
    split; [constructor; auto|]. cbn [map]. congruence. }
  destruct ED as (ED & <-).
  destruct (ReadHex_spec inp A n label skip ds tail rest Hn (after_first_found _ _ _ HL AF)) as (a & R & LA & BA & NA); auto.
  - eapply Forall_impl; [|exact HS]. intros c (H1 & H2). split; [apply not_digit16; auto|exact H2].
  - destruct HT as [HT|(c & -> & Hc)]; [left; auto|right]. exists c. split; auto. apply not_digit16. auto.
  - exists a. auto.
Qed.

(** A line without digits gives zeros, and so does a missing label, which is reported. *)
Theorem C47_no_digits : forall inp A n label skip tail rest, (length label <= 49)%nat -> (0 < n <= length A)%nat ->
  after_first label inp (skip ++ tail) -> Forall (fun c => (forall v, ~ digit16 c v) /\ c <> 10) skip ->
  (tail = [] /\ rest = []) \/ tail = 10 :: rest -> ReadHex inp A n label = Ok (1, repeat 0 n ++ skipn n A, rest).
Proof.
  intros inp A n label skip tail rest HL Hn AF HS HT. unfold ReadHex. destruct (Nat.eqb_spec n 0); [lia|]. rewrite wr_ok by (rewrite repeat_length; lia). cbn [bind].
  rewrite (after_first_found _ _ _ HL AF). cbn [Z.eqb Pos.eqb]. rewrite firstn_O, repeat_length, Nat.add_0_l. cbn [app].
  rewrite hex_loop_skip by (eapply Forall_impl; [|exact HS]; intros c (H1 & H2); split; [apply not_digit16; auto|exact H2]).
  destruct HT as [(-> & ->)| ->]; reflexivity.
Qed.
Theorem C47_no_label : forall inp A n label, (length label <= 49)%nat -> (0 < n <= length A)%nat -> (forall k, ~ occurs_at label inp k) ->
  ReadHex inp A n label = Ok (0, repeat 0 n ++ skipn n A, []).
Proof.
  intros inp A n label HL Hn HO. unfold ReadHex. destruct (Nat.eqb_spec n 0); [lia|]. rewrite wr_ok by (rewrite repeat_length; lia). cbn [bind].
  destruct (FindMarker_spec label inp HL) as [(k & J & _)|(_ & ->)]; [destruct (HO k J)|].
  rewrite firstn_O, repeat_length, Nat.add_0_l. reflexivity.
Qed.

Example C47_hex_example :
  ReadHex (text "ab msg = 0F9Ac" ++ 10 :: text "q") [7; 7; 7] 3 (text "msg = ") = Ok (1, [0; 249; 172], text "q") /\
  ReadHex (text "msg = -1234567" ++ 10 :: text "q") [7; 7; 7] 2 (text "msg = ") = Ok (1, [69; 103; 7], text "q") /\
  ReadHex (text "msg = -xyz" ++ 10 :: text "12") [7; 7; 7] 2 (text "msg = ") = Ok (1, [0; 0; 7], text "12") /\
  ReadHex (text "msg=12") [7; 7; 7] 2 (text "msg = ") = Ok (0, [0; 0; 7], []) /\
  after_first (text "msg = ") (text "msg = -1b" ++ 10 :: text "q") (text "-" ++ text "1b" ++ 10 :: text "q") /\ Forall2 digit16 (text "1b") [1; 11].
Proof.
  split; [|split; [|split; [|split; [|split]]]]; try (vm_compute; reflexivity).
  - exists 0%nat. split; [vm_compute; auto|]. split; [lia|reflexivity].
  - repeat constructor; vm_compute; auto; discriminate.
Qed.

(** A length of zero is not handled: a byte is written to the empty buffer; and with a longer one the line is not consumed. *)
Theorem C47_empty : forall inp label, ReadHex inp [] 0 label = UB /\ (forall b A, ReadHex inp (b :: A) 0 label = Ok (1, 0 :: A, inp)).
Proof. intros inp label. split; [reflexivity|]. intros b A. reflexivity. Qed.

(** The numbers printed are decimal representations, of which there is one for each number, and fscanf reads them back. *)
Theorem C47_decimal : forall n, 0 <= n < 10 ^ 20 -> decimal n (print_dec n) /\ (forall l, decimal n l -> l = print_dec n) /\
  forall c rest, c < 48 \/ 57 < c -> fscanf_number (print_dec n ++ c :: rest) = (1, Some n, c :: rest).
Proof.
  intros n Hn. pose proof (print_dec_ok n Hn) as D. split; auto. split. { intros l Hl. apply (decimal_unique n); auto. }
  intros c rest Hc. apply fscanf_decimal; auto. unfold is_digit. lia.
Qed.

Example C47_decimal_example : print_dec 3300 = text "3300" /\ print_dec 0 = text "0" /\ fscanf_number (text " 3300x") = (1, Some 3300, text "x").
Proof. vm_compute. auto. Qed.

(** *** C48: the program *)

Definition in_record (i : nat) (aes : list Z -> list Z -> list Z) : list Z * list Z := nth i (kat_inputs aes) ([], []).

(** Whatever the uninitialised variables hold, there is no undefined behaviour; the request file consists of the
    100 requests; the response file of the responses to them, made of the vectors of the specification. The
    program returns 0 after 100 vectors, or -4 after the first vector with MAX_PUBLISHED_SEEDS published seeds. *)
Theorem C48_vectors : forall aes X p, block_cipher aes -> wf_params p -> lawful X (hash_len p) ->
  forall fuel junk ctx0, length (d_key ctx0) = 32%nat -> length (d_v ctx0) = 16%nat ->
  kat_main aes X p fuel junk ctx0 <> UB /\
  forall code req rsp, kat_main aes X p fuel junk ctx0 = Ok (code, req, rsp) ->
    (exists recs, length recs = 100%nat /\ req = concat recs /\
       forall i, (i < 100)%nat -> request_record i (fst (in_record i aes)) (snd (in_record i aes)) (nth i recs [])) /\
    (exists recs, rsp = text "# LESS" ++ [10; 10] ++ concat recs /\
       ((code = 0 /\ length recs = 100%nat) \/ (code = -4 /\ (1 <= length recs <= 100)%nat)) /\
       forall i, (i < length recs)%nat -> exists pk sk sm num,
         test_vector X p (fst (in_record i aes)) (snd (in_record i aes)) pk sk sm num /\
         response_record i (fst (in_record i aes)) (snd (in_record i aes)) pk sk sm (nth i recs []) /\
         Z.of_nat num <= max_seeds p /\ (Z.of_nat num = max_seeds p <-> code = -4 /\ S i = length recs)).
Proof.
  intros aes X p HA wf LX fuel junk ctx0 H1 H2.
  assert (S : gp True (kat_main aes X p fuel junk ctx0) (fun '(code, req, rsp) =>
    (exists recs, length recs = 100%nat /\ req = concat recs /\
       forall i, (i < 100)%nat -> request_record i (fst (in_record i aes)) (snd (in_record i aes)) (nth i recs [])) /\
    (exists recs, rsp = text "# LESS" ++ [10; 10] ++ concat recs /\
       ((code = 0 /\ length recs = 100%nat) \/ (code = -4 /\ (1 <= length recs <= 100)%nat)) /\
       forall i, (i < length recs)%nat -> exists pk sk sm num,
         test_vector X p (fst (in_record i aes)) (snd (in_record i aes)) pk sk sm num /\
         response_record i (fst (in_record i aes)) (snd (in_record i aes)) pk sk sm (nth i recs []) /\
         Z.of_nat num <= max_seeds p /\ (Z.of_nat num = max_seeds p <-> code = -4 /\ S i = length recs)))).
  { apply (main_ok aes HA X p wf LX True); auto. intros x _. split; auto. }
  split.
  - intros E. rewrite E in S. exact S.
  - intros code req rsp E. rewrite E in S. exact S.
Qed.

(** If the scheme yields a vector for each of the inputs, the program ends, with any large enough fuel. *)
Theorem C48_ends : forall aes X p, block_cipher aes -> wf_params p -> lawful X (hash_len p) ->
  (forall i, (i < 100)%nat -> exists pk sk sm num, test_vector X p (fst (in_record i aes)) (snd (in_record i aes)) pk sk sm num) ->
  exists f, forall fuel junk ctx0, (f <= fuel)%nat -> length (d_key ctx0) = 32%nat -> length (d_v ctx0) = 16%nat ->
    exists code req rsp, kat_main aes X p fuel junk ctx0 = Ok (code, req, rsp).
Proof.
  intros aes X p HA wf LX HV.
  assert (ST : forall l, (forall x, In x l -> good_input x /\ exists pk sk sm num, test_vector X p (fst x) (snd x) pk sk sm num) ->
     exists f, forall fuel junk, (f <= fuel)%nat -> forall x, In x l -> stuck X p fuel junk False (fst x) (snd x)).
  { induction l as [|x l IH]; intros HL. { exists 0%nat. intros fuel junk _ x []. }
    destruct IH as (f1 & F1). { intros y Hy. apply HL. right. auto. }
    destruct (HL x (or_introl eq_refl)) as (GI & pk & sk & sm & num & TV). destruct (vector_not_stuck X p wf LX x pk sk sm num GI TV) as (f2 & F2).
    exists (Nat.max f1 f2). intros fuel junk Hf y [<-|Hy]; [apply F2; lia|apply F1; auto; lia]. }
  assert (LI : length (kat_inputs aes) = 100%nat) by apply kat_inputs_length.
  destruct (ST (kat_inputs aes)) as (f & Hf).
  { intros x Hx. split. { exact (proj1 (Forall_forall _ _) (kat_inputs_good aes HA) x Hx). }
    destruct (In_nth _ _ ([], []) Hx) as (i & Hi & <-). apply (HV i). lia. }
  exists f. intros fuel junk ctx0 Hfu H1 H2.
  pose proof (main_ok aes HA X p wf LX False fuel junk ctx0 H1 H2 (Hf fuel junk Hfu)) as S.
  destruct (kat_main aes X p fuel junk ctx0) as [[[code req] rsp]| |]; cbn [gp] in S; try tauto. eauto.
Qed.

(** For five of the seven sets the program returns 0. *)
Theorem C48_five_sets : forall p, In p [cat1_short_sig; cat3_balanced; cat3_short_sig; cat5_balanced; cat5_short_sig] ->
  forall aes X, block_cipher aes -> lawful X (hash_len p) ->
  forall fuel junk ctx0, length (d_key ctx0) = 32%nat -> length (d_v ctx0) = 16%nat ->
  forall code req rsp, kat_main aes X p fuel junk ctx0 = Ok (code, req, rsp) -> code = 0.
Proof.
  intros p Hp aes X HA LX fuel junk ctx0 H1 H2 code req rsp E. destruct (below_max p Hp) as [wf HM].
  destruct (C48_vectors aes X p HA wf LX fuel junk ctx0 H1 H2) as (_ & V). destruct (V _ _ _ E) as (_ & recs & _ & [[C _]|[C L]] & VR); auto. exfalso.
  destruct (VR (length recs - 1)%nat ltac:(lia)) as (pk & sk & sm & num & TV & _ & _ & IFF).
  assert (EM : Z.of_nat num = max_seeds p) by (apply IFF; split; auto; lia).
  pose proof (kat_inputs_good aes HA) as GI. rewrite Forall_forall in GI.
  assert (LI : length (kat_inputs aes) = 100%nat) by apply kat_inputs_length.
  assert (IN : In (in_record (length recs - 1) aes) (kat_inputs aes)) by (apply nth_In; lia).
  pose proof (vector_below X p wf LX HM _ pk sk sm num (GI _ IN) TV). lia.
Qed.

(** One request for the toy parameters, and the shape of the response: the step goes on to the next request, and the
    record is that of a vector. *)
Definition toy_seed48 : list Z := map Z.of_nat (seq 7 48).
Definition toy_request : list Z :=
  line "count = " (text "5") ++ line "seed = " (hexadecimal toy_seed48) ++ line "mlen = " (text "3") ++ line "msg = " (hexadecimal toy_msg) ++ leftover.
Definition toy_step : res step :=
  response_step toyX toy_params 1000 toy_junk (toy_request ++ text "count = 6") (text "#") (repeat 9 (sizeof_pk toy_params)) (repeat 9 (sizeof_sk toy_params)) (repeat 9 48) 0 0.

Lemma toy_request_record : request_record 5 toy_seed48 toy_msg toy_request.
Proof. exists (text "5"), (text "3"). split; [|split; [|reflexivity]]; repeat split; try discriminate; repeat constructor; cbn; lia. Qed.

Example C48_example :
  match toy_step with
  | Ok (Go req rsp pk sk seed count mlen) => (req, firstn 20 rsp, (length pk, length sk), seed, count, mlen) =
      (leftover ++ text "count = 6", text "#count = 5" ++ 10 :: text "seed = 07", (sizeof_pk toy_params, sizeof_sk toy_params), toy_seed48, 5, 3)
  | _ => False
  end.
Proof. vm_compute. reflexivity. Qed.

Print Assumptions C45_drbg.
Print Assumptions C45_long.
Print Assumptions C46_expander.
Print Assumptions C47_marker.
Print Assumptions C47_hex.
Print Assumptions C47_hex_any.
Print Assumptions C47_no_digits.
Print Assumptions C47_no_label.
Print Assumptions C47_empty.
Print Assumptions C47_decimal.
Print Assumptions C48_vectors.
Print Assumptions C48_ends.
Print Assumptions C48_five_sets.
