(** Proofs about the text input and output of the test vector program. *)
From Coq Require Import String Ascii.
From Verif Require Import Base BaseLemmas Params Prim Less Sign KatRng KatMain KatSpec KatRngProofs.
Local Open Scope list_scope.

Lemma str_text s : str s = text s.
Proof. reflexivity. Qed.

(** *** FindMarker *)

Lemma find_loop_spec M : forall inp line, length line = length M ->
  (exists k, occurs_at M (line ++ inp) k /\ (forall j, (j < k)%nat -> ~ occurs_at M (line ++ inp) j) /\ find_loop M line inp = (1, skipn (k + length M) (line ++ inp))) \/
  ((forall k, ~ occurs_at M (line ++ inp) k) /\ find_loop M line inp = (0, [])).
Proof.
  induction inp as [|c inp IH]; intros line HL; cbn [find_loop]; destruct (list_eq_dec Z.eq_dec line M) as [->|N].
  - left. exists 0%nat. unfold occurs_at. rewrite app_nil_r. cbn [skipn Nat.add]. rewrite firstn_all, skipn_all. split; auto. split; [intros; lia|auto].
  - right. split; auto. intros k O. unfold occurs_at in O. rewrite app_nil_r in O. assert (L := f_equal (@length Z) O). rewrite firstn_length, skipn_length in L.
    destruct (Nat.eq_dec k 0) as [->|]. { cbn [skipn] in O. rewrite firstn_all2 in O by lia. auto. }
    assert (length M = 0%nat) by lia. apply N. destruct line; [|cbn in HL; lia]. destruct M; [auto|cbn in *; lia].
  - left. exists 0%nat. unfold occurs_at. cbn [skipn Nat.add]. rewrite firstn_app, firstn_all, Nat.sub_diag, firstn_O, app_nil_r. split; auto. split; [intros; lia|].
    rewrite skipn_app, skipn_all, Nat.sub_diag. reflexivity.
  - destruct line as [|l line]; [destruct M; [congruence|discriminate]|]. cbn [tl].
    assert (N0 : ~ occurs_at M ((l :: line) ++ c :: inp) 0).
    { unfold occurs_at. cbn [skipn]. rewrite firstn_app, <- HL, firstn_all, Nat.sub_diag, firstn_O, app_nil_r. exact N. }
    destruct (IH (line ++ [c])) as [(k & K1 & K2 & K3)|(K1 & K2)]. { rewrite app_length. cbn in *. lia. }
    + left. exists (S k). rewrite <- app_assoc in *. cbn [app] in *. split; [exact K1|]. split.
      * intros [|j] Hj; auto. apply (K2 j). lia.
      * rewrite K3. reflexivity.
    + right. rewrite <- app_assoc in *. cbn [app] in *. split; [|exact K2]. intros [|k]; auto. apply (K1 k).
Qed.

Lemma FindMarker_spec M inp : (length M <= 49)%nat ->
  (exists k, occurs_at M inp k /\ (forall j, (j < k)%nat -> ~ occurs_at M inp j) /\ FindMarker inp M = (1, skipn (k + length M) inp)) \/
  ((forall k, ~ occurs_at M inp k) /\ FindMarker inp M = (0, [])).
Proof.
  intros HM. unfold FindMarker. rewrite (firstn_all2 M) by lia. destruct (Nat.ltb_spec (length inp) (length M)) as [G|G].
  - right. split; auto. intros k O. unfold occurs_at in O. apply (f_equal (@length Z)) in O. rewrite firstn_length, skipn_length in O. lia.
  - pose proof (find_loop_spec M (skipn (length M) inp) (firstn (length M) inp)) as H. rewrite firstn_skipn in H. apply H. rewrite firstn_length. lia.
Qed.

(** A marker after characters other than its first. *)
Lemma FindMarker_skip pre h M rest : (length (h :: M) <= 49)%nat -> ~ In h pre -> FindMarker (pre ++ (h :: M) ++ rest) (h :: M) = (1, rest).
Proof.
  intros HL HN. assert (O : occurs_at (h :: M) (pre ++ (h :: M) ++ rest) (length pre)).
  { unfold occurs_at. rewrite skipn_app, skipn_all, Nat.sub_diag. cbn [app skipn]. change (h :: M ++ rest) with ((h :: M) ++ rest).
    rewrite firstn_app, firstn_all, Nat.sub_diag, firstn_O, app_nil_r. reflexivity. }
  assert (NO : forall j, (j < length pre)%nat -> ~ occurs_at (h :: M) (pre ++ (h :: M) ++ rest) j).
  { intros j Hj E. unfold occurs_at in E. rewrite skipn_app in E. destruct (skipn j pre) as [|x r] eqn:EJ.
    - apply (f_equal (@length Z)) in EJ. rewrite skipn_length in EJ. cbn in EJ. lia.
    - cbn [length firstn app] in E. injection E as -> _. apply HN. rewrite <- (firstn_skipn j pre), EJ. apply in_app_iff. right. left. auto. }
  destruct (FindMarker_spec (h :: M) (pre ++ (h :: M) ++ rest) HL) as [(k & K1 & K2 & K3)|(K1 & _)]; [|destruct (K1 _ O)].
  assert (k = length pre). { destruct (Nat.lt_trichotomy k (length pre)) as [G|[G|G]]; auto; exfalso; [apply (NO k G K1)|apply (K2 _ G O)]. }
  subst k. rewrite K3. f_equal. rewrite skipn_app, skipn_all2 by lia. cbn [app]. replace (length pre + length (h :: M) - length pre)%nat with (length (h :: M)) by lia.
  change (h :: M ++ rest) with ((h :: M) ++ rest). rewrite skipn_app, skipn_all, Nat.sub_diag. reflexivity.
Qed.

Lemma FindMarker_none pre h M : (length (h :: M) <= 49)%nat -> ~ In h pre -> FindMarker pre (h :: M) = (0, []).
Proof.
  intros HL HN. destruct (FindMarker_spec (h :: M) pre HL) as [(k & K1 & _)|(_ & K)]; auto. exfalso. unfold occurs_at in K1.
  destruct (skipn k pre) as [|x r] eqn:EJ; [discriminate|]. cbn [length firstn] in K1. injection K1 as -> _. apply HN. rewrite <- (firstn_skipn k pre), EJ. apply in_app_iff. right. left. auto.
Qed.

(** *** Hexadecimal numbers *)

(** The half bytes of a list of bytes. *)
Definition nibbles (l : list Z) : list Z := flat_map (fun b => [b / 16; b mod 16]) l.

Lemma nibbles_length l : length (nibbles l) = (2 * length l)%nat.
Proof. unfold nibbles. induction l; cbn [flat_map app length]; auto. rewrite IHl. lia. Qed.

Lemma nibbles_inj l : forall l', nibbles l = nibbles l' -> l = l'.
Proof.
  induction l as [|x l IH]; intros [|y l'] E; try discriminate; auto. cbn in E. injection E as E1 E2 E3. f_equal; auto.
  rewrite (Z.div_mod x 16), (Z.div_mod y 16) by lia. lia.
Qed.

Lemma lor_nibble a d : 0 <= d < 16 -> Z.lor (Z.shiftl a 4) d = 16 * a + d.
Proof.
  intros Hd. assert (L : Z.land (Z.shiftl a 4) d = 0).
  { apply Z.bits_inj'. intros n Hn. rewrite Z.land_spec, Z.bits_0. destruct (Z.ltb_spec n 4).
    - rewrite Z.shiftl_spec_low by lia. reflexivity.
    - replace d with (d mod 2 ^ 4) by (apply Z.mod_small; change (2 ^ 4) with 16; lia). rewrite Z.mod_pow2_bits_high by lia. apply andb_false_r. }
  rewrite <- Z.lxor_lor, <- Z.add_nocarry_lxor by exact L. rewrite Z.shiftl_mul_pow2 by lia. change (2 ^ 4) with 16. ring.
Qed.

(** The array shifted by half a byte. *)
Fixpoint nshift (l : list Z) (d : Z) : list Z :=
  match l with
  | [] => []
  | b :: r => u8 (16 * b + match r with [] => d | b' :: _ => b' / 16 end) :: nshift r d
  end.

Lemma nshift_length l d : length (nshift l d) = length l.
Proof. induction l; cbn [nshift length]; auto. Qed.

Lemma nshift_bytes l d : bytes (nshift l d).
Proof. induction l; cbn [nshift]; constructor; auto. apply is_byte_u8. Qed.

Lemma nibble_byte b d : is_byte b -> 0 <= d < 16 -> u8 (16 * b + d) / 16 = b mod 16 /\ u8 (16 * b + d) mod 16 = d.
Proof.
  unfold is_byte, u8. intros Hb Hd. pose proof (Z.div_mod b 16 ltac:(lia)) as D. pose proof (Z.mod_pos_bound b 16 ltac:(lia)) as B.
  assert (E : (16 * b + d) mod 256 = 16 * (b mod 16) + d). { symmetry. apply Z.mod_unique with (b / 16); lia. }
  rewrite E. split; [symmetry; apply Z.div_unique with d; lia|symmetry; apply Z.mod_unique with (b mod 16); lia].
Qed.

Lemma nshift_nibbles l d : bytes l -> l <> [] -> 0 <= d < 16 -> nibbles (nshift l d) = tl (nibbles l) ++ [d].
Proof.
  intros HB HN Hd. induction HB as [|b r Hb HR IH]; [congruence|]. cbn [nshift]. unfold nibbles in *. cbn [flat_map app tl].
  destruct r as [|b' r].
  - destruct (nibble_byte b d Hb Hd) as [-> ->]. reflexivity.
  - inversion HR as [|? ? Hb' _]; subst. rewrite IH by congruence. destruct (nibble_byte b (b' / 16) Hb) as [-> ->].
    { red in Hb'. split; [apply Z.div_pos; lia|apply Z.div_lt_upper_bound; lia]. }
    cbn [flat_map app tl]. reflexivity.
Qed.

Lemma shift_in_ok l suf d : bytes l -> l <> [] -> 0 <= d < 16 -> shift_in (l ++ suf) (length l) d = Ok (nshift l d ++ suf).
Proof.
  intros HB HN Hd. unfold shift_in.
  assert (G : forall l pre, bytes l -> l <> [] ->
    (A1 <- for_ (length l - 1) (length pre) (fun i A => a <- get A i ;; b <- get A (i + 1) ;; set A i (u8 (Z.lor (Z.shiftl a 4) (Z.shiftr b 4)))) (pre ++ l ++ suf) ;;
     a <- get A1 (length pre + length l - 1) ;; set A1 (length pre + length l - 1) (u8 (Z.lor (Z.shiftl a 4) d))) = Ok (pre ++ nshift l d ++ suf)).
  { clear l HB HN. induction l as [|b r IH]; intros pre HB HN; [congruence|]. inversion HB as [|? ? Hb HR]; subst. destruct r as [|b' r].
    - cbn [length Nat.sub for_ bind app]. replace (length pre + 1 - 1)%nat with (length pre) by lia. rewrite get_mid. cbn [bind]. rewrite set_mid.
      rewrite lor_nibble by auto. reflexivity.
    - replace (length (b :: b' :: r) - 1)%nat with (S (length (b' :: r) - 1)) by (cbn [length]; lia). cbn [for_ app]. rewrite get_mid. cbn [bind].
      replace (pre ++ b :: b' :: r ++ suf) with ((pre ++ [b]) ++ b' :: r ++ suf) by (rewrite <- app_assoc; reflexivity).
      replace (length pre + 1)%nat with (length (pre ++ [b])) by (rewrite app_length; reflexivity). rewrite get_mid. cbn [bind].
      rewrite <- app_assoc. cbn [app]. rewrite set_mid. cbn [bind]. inversion HR as [|? ? Hb' _]; subst. red in Hb'.
      rewrite Z.shiftr_div_pow2 by lia. change (2 ^ 4) with 16. rewrite lor_nibble by (split; [apply Z.div_pos; lia|apply Z.div_lt_upper_bound; lia]).
      set (x := u8 (16 * b + b' / 16)). specialize (IH (pre ++ [x]) HR ltac:(congruence)). rewrite <- !app_assoc in IH. cbn [app] in IH.
      rewrite app_length in IH. replace (length pre + length [x])%nat with (S (length pre)) in IH by (cbn [length]; lia).
      replace (length pre + length (b :: b' :: r) - 1)%nat with (S (length pre) + length (b' :: r) - 1)%nat by (cbn [length]; lia).
      exact IH. }
  specialize (G l [] HB HN). exact G.
Qed.

Lemma hex_value_range ch : isxdigit ch = true -> 0 <= hex_value ch < 16.
Proof.
  unfold isxdigit, hex_value. intros H.
  destruct ((48 <=? ch) && (ch <=? 57)) eqn:E1; [lia|]. destruct ((65 <=? ch) && (ch <=? 70)) eqn:E2; [lia|]. destruct ((97 <=? ch) && (ch <=? 102)) eqn:E3; lia.
Qed.

(** After some digits, the digits of the array are the last of those it had and those read. *)
Lemma hex_loop_digits ds : forall l suf tail started, bytes l -> l <> [] -> Forall (fun c => isxdigit c = true) ds ->
  exists l', length l' = length l /\ bytes l' /\ nibbles l' = skipn (length ds) (nibbles l ++ map hex_value ds) /\
    hex_loop (ds ++ tail) started (l ++ suf) (length l) = hex_loop tail (match ds with [] => started | _ => true end) (l' ++ suf) (length l).
Proof.
  induction ds as [|c ds IH]; intros l suf tail started HB HN HD.
  { exists l. cbn [length skipn map app]. rewrite app_nil_r. auto. }
  inversion HD as [|? ? Hc HD']; subst. cbn [app hex_loop]. rewrite Hc. cbn [negb].
  rewrite shift_in_ok by (auto using hex_value_range). cbn [bind].
  assert (HN' : nshift l (hex_value c) <> []). { destruct l; [congruence|]. cbn. discriminate. }
  destruct (IH (nshift l (hex_value c)) suf tail true (nshift_bytes _ _) HN' HD') as (l' & L1 & L2 & L3 & L4).
  exists l'. rewrite nshift_length in *. split; auto. split; auto. split.
  - rewrite L3, nshift_nibbles by (auto using hex_value_range). cbn [length map].
    destruct (nibbles l) as [|n0 ns] eqn:EN. { apply (f_equal (@length Z)) in EN. rewrite nibbles_length in EN. destruct l; [congruence|]. cbn in EN. lia. }
    cbn [tl skipn app]. rewrite <- app_assoc. reflexivity.
  - rewrite L4. destruct ds; reflexivity.
Qed.

(** What ends a number: the end of the file or a character that is no digit, which is consumed. *)
Definition hex_ends (tail rest : list Z) : Prop := (tail = [] /\ rest = []) \/ exists c, tail = c :: rest /\ isxdigit c = false.

Lemma hex_loop_skip skip t A n : Forall (fun c => isxdigit c = false /\ c <> newline) skip -> hex_loop (skip ++ t) false A n = hex_loop t false A n.
Proof.
  induction 1 as [|c skip [Hc Hn] HS IH]; auto. cbn [app hex_loop]. rewrite Hc. cbn [negb]. destruct (Z.eqb_spec c newline); [congruence|]. exact IH.
Qed.

Lemma zeros_bytes n : bytes (repeat 0 n).
Proof. apply Forall_forall. intros x Hx. apply repeat_spec in Hx. subst. red. lia. Qed.

Lemma nibbles_zeros n : nibbles (repeat 0 n) = repeat 0 (2 * n).
Proof. unfold nibbles. induction n. reflexivity. cbn [repeat flat_map app]. rewrite IHn. replace (2 * S n)%nat with (S (S (2 * n))) by lia. reflexivity. Qed.

Lemma ReadHex_spec inp A n M skip ds tail rest : (0 < n <= length A)%nat -> FindMarker inp M = (1, skip ++ ds ++ tail) ->
  Forall (fun c => isxdigit c = false /\ c <> newline) skip -> Forall (fun c => isxdigit c = true) ds -> ds <> [] -> hex_ends tail rest ->
  exists a, ReadHex inp A n M = Ok (1, a ++ skipn n A, rest) /\ length a = n /\ bytes a /\
    nibbles a = skipn (length ds) (repeat 0 (2 * n) ++ map hex_value ds).
Proof.
  intros Hn HF HS HD HE HT. unfold ReadHex. destruct (Nat.eqb_spec n 0); [lia|]. rewrite wr_ok by (rewrite repeat_length; lia). cbn [bind].
  rewrite HF. cbn [Z.eqb Pos.eqb]. rewrite firstn_O, repeat_length, Nat.add_0_l. cbn [app]. rewrite hex_loop_skip by auto.
  destruct (hex_loop_digits ds (repeat 0 n) (skipn n A) tail false (zeros_bytes n)) as (a & L1 & L2 & L3 & L4); auto. { destruct n; [lia|discriminate]. }
  rewrite repeat_length in *. rewrite L4. exists a. rewrite L3, nibbles_zeros. split; auto.
  destruct ds as [|d ds]; [congruence|]. destruct HT as [[-> ->]|(c & -> & Hc)]; cbn [hex_loop]; [reflexivity|]. rewrite Hc. reflexivity.
Qed.

(** *** Printing *)

Lemma forallb_Forall' {A} (P : A -> bool) l : forallb P l = true -> Forall (fun x => P x = true) l.
Proof. intros H. apply Forall_forall. apply forallb_forall. exact H. Qed.

Lemma byte_forall (P : Z -> bool) : forallb P (map Z.of_nat (seq 0 256)) = true -> forall b, is_byte b -> P b = true.
Proof.
  intros H b Hb. rewrite forallb_forall in H. apply H. apply in_map_iff. exists (Z.to_nat b). red in Hb. split; [lia|]. apply in_seq. lia.
Qed.

Definition hex2_check (b : Z) : bool :=
  (if list_eq_dec Z.eq_dec (map hex_value (print_hex2 b)) [b / 16; b mod 16] then true else false) && forallb isxdigit (print_hex2 b) &&
  (if list_eq_dec Z.eq_dec (print_hex2 b) [nth (Z.to_nat (b / 16)) (text "0123456789ABCDEF") 0; nth (Z.to_nat (b mod 16)) (text "0123456789ABCDEF") 0] then true else false).

Lemma print_hex2_ok b : is_byte b -> map hex_value (print_hex2 b) = [b / 16; b mod 16] /\ forallb isxdigit (print_hex2 b) = true /\
  print_hex2 b = [nth (Z.to_nat (b / 16)) (text "0123456789ABCDEF") 0; nth (Z.to_nat (b mod 16)) (text "0123456789ABCDEF") 0].
Proof.
  intros Hb.
  assert (H : hex2_check b = true) by (apply (byte_forall hex2_check); auto; vm_compute; reflexivity). unfold hex2_check in H.
  apply andb_true_iff in H. destruct H as [H H3]. apply andb_true_iff in H. destruct H as [H1 H2].
  destruct (list_eq_dec Z.eq_dec (map hex_value (print_hex2 b)) _); [|discriminate]. destruct (list_eq_dec Z.eq_dec (print_hex2 b) _); [|discriminate]. auto.
Qed.

Lemma hexadecimal_print a : bytes a -> concat (map print_hex2 a) = hexadecimal a.
Proof.
  induction 1 as [|b a Hb Ha IH]; auto. cbn [map concat]. rewrite IH. unfold hexadecimal. cbn [flat_map].
  rewrite (proj2 (proj2 (print_hex2_ok b Hb))). reflexivity.
Qed.

Lemma hexadecimal_digits a : bytes a -> Forall (fun c => isxdigit c = true) (hexadecimal a).
Proof.
  intros Ha. rewrite <- hexadecimal_print by auto. induction Ha as [|b a Hb Ha IH]; cbn [map concat]. constructor.
  apply Forall_app. split; auto. apply forallb_Forall'. apply (proj1 (proj2 (print_hex2_ok b Hb))).
Qed.

Lemma hexadecimal_values a : bytes a -> map hex_value (hexadecimal a) = nibbles a.
Proof.
  intros Ha. rewrite <- hexadecimal_print by auto. induction Ha as [|b a Hb Ha IH]; auto. cbn [map concat]. rewrite map_app, IH.
  rewrite (proj1 (print_hex2_ok b Hb)). reflexivity.
Qed.

Lemma hexadecimal_length a : length (hexadecimal a) = (2 * length a)%nat.
Proof. unfold hexadecimal. induction a; cbn [flat_map app length]; auto. rewrite IHa. lia. Qed.

Lemma fprintBstr_ok S A n : (0 < n <= length A)%nat -> bytes (firstn n A) -> fprintBstr S A n = Ok (S ++ hexadecimal (firstn n A) ++ [newline]).
Proof.
  intros Hn HB. unfold fprintBstr. rewrite rd_ok by lia. cbn [bind skipn]. rewrite hexadecimal_print by auto.
  destruct (Nat.eqb_spec n 0); [lia|]. reflexivity.
Qed.

Lemma ReadHex_print inp A a M c rest : a <> [] -> length a = length A -> bytes a -> isxdigit c = false -> FindMarker inp M = (1, hexadecimal a ++ c :: rest) ->
  ReadHex inp A (length a) M = Ok (1, a, rest).
Proof.
  intros HN HL HB Hc HF.
  destruct (ReadHex_spec inp A (length a) M [] (hexadecimal a) (c :: rest) rest) as (a' & E & L & B & NB); auto.
  - destruct a; [congruence|]. cbn [length] in *. lia.
  - apply hexadecimal_digits. auto.
  - intros E. apply (f_equal (@length Z)) in E. rewrite hexadecimal_length in E. destruct a; [congruence|]. cbn in E. lia.
  - right. eauto.
  - rewrite E. rewrite skipn_all2, app_nil_r by lia. rewrite hexadecimal_length, hexadecimal_values, skipn_app, repeat_length, Nat.sub_diag in NB by auto.
    rewrite skipn_all2 in NB by (rewrite repeat_length; lia). cbn [app skipn] in NB. apply nibbles_inj in NB. rewrite NB. reflexivity.
Qed.

(** *** Decimal numbers *)

Definition dec_val (l : list Z) (v : Z) : Z := fold_left (fun v c => 10 * v + (c - 48)) l v.

Lemma dec_val_app a b v : dec_val (a ++ b) v = dec_val b (dec_val a v).
Proof. unfold dec_val. apply fold_left_app. Qed.

Lemma print_dec_decimal f : forall n, 0 <= n < 10 ^ Z.of_nat (S f) -> decimal n (print_dec_fuel (S f) n) /\ (0 < n -> hd 0 (print_dec_fuel (S f) n) <> 48).
Proof.
  induction f as [|f IH]; intros n Hn; cbn [print_dec_fuel]; destruct (Z.ltb_spec n 10) as [G|G].
  1,3: (split; [|cbn [hd]; lia]; unfold decimal; cbn [fold_left hd]; split; [repeat constructor; lia|]; split; [discriminate|]; split; [intros E; f_equal; lia|lia]).
  - change (10 ^ Z.of_nat 1) with 10 in Hn. lia.
  - assert (Hd : 0 <= n / 10 < 10 ^ Z.of_nat (S f)).
    { split; [apply Z.div_pos; lia|]. apply Z.div_lt_upper_bound; [lia|]. rewrite Nat2Z.inj_succ, Z.pow_succ_r in Hn by lia. lia. }
    destruct (IH _ Hd) as ((I1 & I2 & I3 & I4) & I5). set (q := print_dec_fuel (S f) (n / 10)) in *. change (if n / 10 <? 10 then _ else _) with q.
    assert (P : 0 < n / 10) by (apply Z.div_str_pos; lia). specialize (I5 P). pose proof (Z.mod_pos_bound n 10 ltac:(lia)) as B. pose proof (Z.div_mod n 10 ltac:(lia)) as D.
    assert (EH : hd 0 (q ++ [48 + n mod 10]) = hd 0 q) by (destruct q; [congruence|reflexivity]).
    rewrite EH. split; auto. split; [apply Forall_app; split; auto; repeat constructor; lia|]. split; [destruct q; discriminate|]. split; [rewrite EH; congruence|].
    fold (dec_val (q ++ [48 + n mod 10]) 0). rewrite dec_val_app. unfold dec_val at 2. rewrite I4. unfold dec_val. cbn [fold_left]. lia.
Qed.

Lemma scan_digits_ok l : forall c rest v, Forall (fun c => 48 <= c <= 57) l -> is_digit c = false -> scan_digits (l ++ c :: rest) v = (dec_val l v, c :: rest).
Proof.
  induction l as [|x l IH]; intros c rest v HL Hc; cbn [app scan_digits]. { rewrite Hc. reflexivity. }
  inversion HL as [|? ? Hx HL']; subst. replace (is_digit x) with true by (unfold is_digit; lia). rewrite IH by auto. reflexivity.
Qed.

Lemma fscanf_decimal n l c rest : decimal n l -> is_digit c = false -> fscanf_number (l ++ c :: rest) = (1, Some n, c :: rest).
Proof.
  intros (H1 & H2 & _ & H4) Hc. unfold fscanf_number. destruct l as [|x l]; [congruence|]. inversion H1 as [|? ? Hx HL]; subst.
  cbn [app skip_space]. replace (is_space x) with false by (unfold is_space; lia). replace (is_digit x) with true by (unfold is_digit; lia).
  change (x :: l ++ c :: rest) with ((x :: l) ++ c :: rest). rewrite scan_digits_ok by auto. reflexivity.
Qed.

(** Two decimal representations of a number are equal. *)
Lemma dec_val_split l v : Forall (fun c => 48 <= c <= 57) l -> v * 10 ^ Z.of_nat (length l) <= dec_val l v < (v + 1) * 10 ^ Z.of_nat (length l).
Proof.
  intros H. revert v. induction H as [|c l Hc HL IH]; intros v. { cbn. lia. }
  unfold dec_val in *. cbn [fold_left length]. specialize (IH (10 * v + (c - 48))). rewrite Nat2Z.inj_succ, Z.pow_succ_r by lia. 
  assert (0 < 10 ^ Z.of_nat (length l)) by (apply Z.pow_pos_nonneg; lia). nia.
Qed.

Lemma dec_val_inj l : forall l' v v', length l = length l' -> Forall (fun c => 48 <= c <= 57) l -> Forall (fun c => 48 <= c <= 57) l' ->
  dec_val l v = dec_val l' v' -> v = v' /\ l = l'.
Proof.
  induction l as [|c l IH]; intros [|c' l'] v v' HL H H' E; try discriminate; auto.
  inversion H; inversion H'; subst. unfold dec_val in *. cbn [fold_left] in E. destruct (IH l' (10 * v + (c - 48)) (10 * v' + (c' - 48))) as [E1 ->]; auto.
  assert (v = v') by lia. subst. split; auto. f_equal. lia.
Qed.

Lemma decimal_length n l : decimal n l -> (n = 0 /\ l = [48]) \/ 10 ^ Z.of_nat (length l - 1) <= n < 10 ^ Z.of_nat (length l).
Proof.
  intros (H1 & H2 & H3 & H4). destruct l as [|c l]; [congruence|]. inversion H1 as [|? ? Hc HL]; subst. cbn [hd] in H3.
  destruct (Z.eq_dec c 48) as [->|N]. { left. specialize (H3 eq_refl). injection H3 as ->. cbn. auto. }
  right. cbn [fold_left length]. pose proof (dec_val_split l (10 * 0 + (c - 48)) HL) as D. unfold dec_val in D. replace (S (length l) - 1)%nat with (length l) by lia.
  rewrite Nat2Z.inj_succ, Z.pow_succ_r by lia. assert (0 < 10 ^ Z.of_nat (length l)) by (apply Z.pow_pos_nonneg; lia). nia.
Qed.

Lemma decimal_unique n l l' : decimal n l -> decimal n l' -> l = l'.
Proof.
  intros D D'. assert (EL : length l = length l').
  { destruct (decimal_length n l D) as [[E1 ->]|A]; destruct (decimal_length n l' D') as [[E2 ->]|B]; auto.
    - assert (0 < 10 ^ Z.of_nat (length l' - 1)) by (apply Z.pow_pos_nonneg; lia). lia.
    - assert (0 < 10 ^ Z.of_nat (length l - 1)) by (apply Z.pow_pos_nonneg; lia). lia.
    - assert (length l <> 0%nat) by (destruct D as (_ & N & _); destruct l; [congruence|discriminate]).
      assert (length l' <> 0%nat) by (destruct D' as (_ & N & _); destruct l'; [congruence|discriminate]).
      destruct (Nat.lt_trichotomy (length l) (length l')) as [G|[G|G]]; auto; exfalso.
      + pose proof (Z.pow_le_mono_r 10 (Z.of_nat (length l)) (Z.of_nat (length l' - 1)) ltac:(lia) ltac:(lia)). lia.
      + pose proof (Z.pow_le_mono_r 10 (Z.of_nat (length l')) (Z.of_nat (length l - 1)) ltac:(lia) ltac:(lia)). lia. }
  destruct D as (H1 & _ & _ & H4), D' as (H1' & _ & _ & H4'). apply (dec_val_inj l l' 0 0 EL H1 H1'). unfold dec_val. congruence.
Qed.

Lemma print_dec_ok n : 0 <= n < 10 ^ 20 -> decimal n (print_dec n).
Proof. intros H. apply (print_dec_decimal 19). exact H. Qed.
