(** Model of Reference_Implementation/lib/keccakf1600.c. A state is the array of 25 lanes uint64_t. *)
From Verif Require Import Base.

(** keccakf1600.c:12, with 0 < [k] < 64 *)
Definition rol64 (a : Z) (k : Z) : Z := Z.lxor (u64 (Z.shiftl a k)) (Z.shiftr a (64 - k)).
(** [~a] on uint64_t *)
Definition not64 (a : Z) : Z := 18446744073709551615 - a.

(** keccakf1600.c:11, 14-39 (the constants in decimal) *)
Definition NROUNDS : nat := 24.
Definition KeccakF_RoundConstants : list Z :=
  [1; 32898; 9223372036854808714;
   9223372039002292224; 32907; 2147483649;
   9223372039002292353; 9223372036854808585; 138;
   136; 2147516425; 2147483658;
   2147516555; 9223372036854775947; 9223372036854808713;
   9223372036854808579; 9223372036854808578; 9223372036854775936;
   32778; 9223372039002259466; 9223372039002292353;
   9223372036854808704; 2147483649; 9223372039002292232].

(** keccakf1600.c:41-48 *)
Definition StateExtractBytes (state data : list Z) (offset length : nat) : res (list Z) :=
  for_ length 0 (fun i data =>
    lane <- get state ((offset + i) / 8) ;;
    set data i (u8 (Z.shiftr lane (8 * Z.of_nat ((offset + i) mod 8))))) data.

(** keccakf1600.c:50-57 *)
Definition StateXORBytes (state data : list Z) (offset length : nat) : res (list Z) :=
  for_ length 0 (fun i state =>
    lane <- get state ((offset + i) / 8) ;;
    d <- get data i ;;
    set state ((offset + i) / 8) (Z.lxor lane (u64 (Z.shiftl d (8 * Z.of_nat ((offset + i) mod 8)))))) state.

(** keccakf1600.c:104-198. First half of the loop body: from the variables A to the variables E;
    [rc] is KeccakF_RoundConstants[round]. *)
Definition round_even (rc : Z) (st : list Z) : res (list Z) :=
  match st with
  | [aba; abe; abi; abo; abu; aga; age; agi; ago; agu; aka; ake; aki; ako; aku; ama; ame; ami; amo; amu; asa; ase; asi; aso; asu] =>
  let bca := Z.lxor (Z.lxor (Z.lxor (Z.lxor aba aga) aka) ama) asa in
  let bce := Z.lxor (Z.lxor (Z.lxor (Z.lxor abe age) ake) ame) ase in
  let bci := Z.lxor (Z.lxor (Z.lxor (Z.lxor abi agi) aki) ami) asi in
  let bco := Z.lxor (Z.lxor (Z.lxor (Z.lxor abo ago) ako) amo) aso in
  let bcu := Z.lxor (Z.lxor (Z.lxor (Z.lxor abu agu) aku) amu) asu in
  let da := Z.lxor bcu (rol64 bce 1) in
  let de := Z.lxor bca (rol64 bci 1) in
  let di := Z.lxor bce (rol64 bco 1) in
  let d_o := Z.lxor bci (rol64 bcu 1) in
  let du := Z.lxor bco (rol64 bca 1) in
  let aba := Z.lxor aba da in
  let bca := aba in
  let age := Z.lxor age de in
  let bce := rol64 age 44 in
  let aki := Z.lxor aki di in
  let bci := rol64 aki 43 in
  let amo := Z.lxor amo d_o in
  let bco := rol64 amo 21 in
  let asu := Z.lxor asu du in
  let bcu := rol64 asu 14 in
  let eba := Z.lxor bca (Z.land (not64 bce) bci) in
  let eba := Z.lxor eba rc in
  let ebe := Z.lxor bce (Z.land (not64 bci) bco) in
  let ebi := Z.lxor bci (Z.land (not64 bco) bcu) in
  let ebo := Z.lxor bco (Z.land (not64 bcu) bca) in
  let ebu := Z.lxor bcu (Z.land (not64 bca) bce) in
  let abo := Z.lxor abo d_o in
  let bca := rol64 abo 28 in
  let agu := Z.lxor agu du in
  let bce := rol64 agu 20 in
  let aka := Z.lxor aka da in
  let bci := rol64 aka 3 in
  let ame := Z.lxor ame de in
  let bco := rol64 ame 45 in
  let asi := Z.lxor asi di in
  let bcu := rol64 asi 61 in
  let ega := Z.lxor bca (Z.land (not64 bce) bci) in
  let ege := Z.lxor bce (Z.land (not64 bci) bco) in
  let egi := Z.lxor bci (Z.land (not64 bco) bcu) in
  let ego := Z.lxor bco (Z.land (not64 bcu) bca) in
  let egu := Z.lxor bcu (Z.land (not64 bca) bce) in
  let abe := Z.lxor abe de in
  let bca := rol64 abe 1 in
  let agi := Z.lxor agi di in
  let bce := rol64 agi 6 in
  let ako := Z.lxor ako d_o in
  let bci := rol64 ako 25 in
  let amu := Z.lxor amu du in
  let bco := rol64 amu 8 in
  let asa := Z.lxor asa da in
  let bcu := rol64 asa 18 in
  let eka := Z.lxor bca (Z.land (not64 bce) bci) in
  let eke := Z.lxor bce (Z.land (not64 bci) bco) in
  let eki := Z.lxor bci (Z.land (not64 bco) bcu) in
  let eko := Z.lxor bco (Z.land (not64 bcu) bca) in
  let eku := Z.lxor bcu (Z.land (not64 bca) bce) in
  let abu := Z.lxor abu du in
  let bca := rol64 abu 27 in
  let aga := Z.lxor aga da in
  let bce := rol64 aga 36 in
  let ake := Z.lxor ake de in
  let bci := rol64 ake 10 in
  let ami := Z.lxor ami di in
  let bco := rol64 ami 15 in
  let aso := Z.lxor aso d_o in
  let bcu := rol64 aso 56 in
  let ema := Z.lxor bca (Z.land (not64 bce) bci) in
  let eme := Z.lxor bce (Z.land (not64 bci) bco) in
  let emi := Z.lxor bci (Z.land (not64 bco) bcu) in
  let emo := Z.lxor bco (Z.land (not64 bcu) bca) in
  let emu := Z.lxor bcu (Z.land (not64 bca) bce) in
  let abi := Z.lxor abi di in
  let bca := rol64 abi 62 in
  let ago := Z.lxor ago d_o in
  let bce := rol64 ago 55 in
  let aku := Z.lxor aku du in
  let bci := rol64 aku 39 in
  let ama := Z.lxor ama da in
  let bco := rol64 ama 41 in
  let ase := Z.lxor ase de in
  let bcu := rol64 ase 2 in
  let esa := Z.lxor bca (Z.land (not64 bce) bci) in
  let ese := Z.lxor bce (Z.land (not64 bci) bco) in
  let esi := Z.lxor bci (Z.land (not64 bco) bcu) in
  let eso := Z.lxor bco (Z.land (not64 bcu) bca) in
  let esu := Z.lxor bcu (Z.land (not64 bca) bce) in
  Ok [eba; ebe; ebi; ebo; ebu; ega; ege; egi; ego; egu; eka; eke; eki; eko; eku; ema; eme; emi; emo; emu; esa; ese; esi; eso; esu]
  | _ => UB
  end.

(** keccakf1600.c:199-293. Second half: from E to A, with KeccakF_RoundConstants[round+1]. *)
Definition round_odd (rc : Z) (st : list Z) : res (list Z) :=
  match st with
  | [eba; ebe; ebi; ebo; ebu; ega; ege; egi; ego; egu; eka; eke; eki; eko; eku; ema; eme; emi; emo; emu; esa; ese; esi; eso; esu] =>
  let bca := Z.lxor (Z.lxor (Z.lxor (Z.lxor eba ega) eka) ema) esa in
  let bce := Z.lxor (Z.lxor (Z.lxor (Z.lxor ebe ege) eke) eme) ese in
  let bci := Z.lxor (Z.lxor (Z.lxor (Z.lxor ebi egi) eki) emi) esi in
  let bco := Z.lxor (Z.lxor (Z.lxor (Z.lxor ebo ego) eko) emo) eso in
  let bcu := Z.lxor (Z.lxor (Z.lxor (Z.lxor ebu egu) eku) emu) esu in
  let da := Z.lxor bcu (rol64 bce 1) in
  let de := Z.lxor bca (rol64 bci 1) in
  let di := Z.lxor bce (rol64 bco 1) in
  let d_o := Z.lxor bci (rol64 bcu 1) in
  let du := Z.lxor bco (rol64 bca 1) in
  let eba := Z.lxor eba da in
  let bca := eba in
  let ege := Z.lxor ege de in
  let bce := rol64 ege 44 in
  let eki := Z.lxor eki di in
  let bci := rol64 eki 43 in
  let emo := Z.lxor emo d_o in
  let bco := rol64 emo 21 in
  let esu := Z.lxor esu du in
  let bcu := rol64 esu 14 in
  let aba := Z.lxor bca (Z.land (not64 bce) bci) in
  let aba := Z.lxor aba rc in
  let abe := Z.lxor bce (Z.land (not64 bci) bco) in
  let abi := Z.lxor bci (Z.land (not64 bco) bcu) in
  let abo := Z.lxor bco (Z.land (not64 bcu) bca) in
  let abu := Z.lxor bcu (Z.land (not64 bca) bce) in
  let ebo := Z.lxor ebo d_o in
  let bca := rol64 ebo 28 in
  let egu := Z.lxor egu du in
  let bce := rol64 egu 20 in
  let eka := Z.lxor eka da in
  let bci := rol64 eka 3 in
  let eme := Z.lxor eme de in
  let bco := rol64 eme 45 in
  let esi := Z.lxor esi di in
  let bcu := rol64 esi 61 in
  let aga := Z.lxor bca (Z.land (not64 bce) bci) in
  let age := Z.lxor bce (Z.land (not64 bci) bco) in
  let agi := Z.lxor bci (Z.land (not64 bco) bcu) in
  let ago := Z.lxor bco (Z.land (not64 bcu) bca) in
  let agu := Z.lxor bcu (Z.land (not64 bca) bce) in
  let ebe := Z.lxor ebe de in
  let bca := rol64 ebe 1 in
  let egi := Z.lxor egi di in
  let bce := rol64 egi 6 in
  let eko := Z.lxor eko d_o in
  let bci := rol64 eko 25 in
  let emu := Z.lxor emu du in
  let bco := rol64 emu 8 in
  let esa := Z.lxor esa da in
  let bcu := rol64 esa 18 in
  let aka := Z.lxor bca (Z.land (not64 bce) bci) in
  let ake := Z.lxor bce (Z.land (not64 bci) bco) in
  let aki := Z.lxor bci (Z.land (not64 bco) bcu) in
  let ako := Z.lxor bco (Z.land (not64 bcu) bca) in
  let aku := Z.lxor bcu (Z.land (not64 bca) bce) in
  let ebu := Z.lxor ebu du in
  let bca := rol64 ebu 27 in
  let ega := Z.lxor ega da in
  let bce := rol64 ega 36 in
  let eke := Z.lxor eke de in
  let bci := rol64 eke 10 in
  let emi := Z.lxor emi di in
  let bco := rol64 emi 15 in
  let eso := Z.lxor eso d_o in
  let bcu := rol64 eso 56 in
  let ama := Z.lxor bca (Z.land (not64 bce) bci) in
  let ame := Z.lxor bce (Z.land (not64 bci) bco) in
  let ami := Z.lxor bci (Z.land (not64 bco) bcu) in
  let amo := Z.lxor bco (Z.land (not64 bcu) bca) in
  let amu := Z.lxor bcu (Z.land (not64 bca) bce) in
  let ebi := Z.lxor ebi di in
  let bca := rol64 ebi 62 in
  let ego := Z.lxor ego d_o in
  let bce := rol64 ego 55 in
  let eku := Z.lxor eku du in
  let bci := rol64 eku 39 in
  let ema := Z.lxor ema da in
  let bco := rol64 ema 41 in
  let ese := Z.lxor ese de in
  let bcu := rol64 ese 2 in
  let asa := Z.lxor bca (Z.land (not64 bce) bci) in
  let ase := Z.lxor bce (Z.land (not64 bci) bco) in
  let asi := Z.lxor bci (Z.land (not64 bco) bcu) in
  let aso := Z.lxor bco (Z.land (not64 bcu) bca) in
  let asu := Z.lxor bcu (Z.land (not64 bca) bce) in
  Ok [aba; abe; abi; abo; abu; aga; age; agi; ago; agu; aka; ake; aki; ako; aku; ama; ame; ami; amo; amu; asa; ase; asi; aso; asu]
  | _ => UB
  end.

(** keccakf1600.c:59-322. The copies from and to the state are the identity; [round] = 2 [i]. *)
Definition StatePermute (state : list Z) : res (list Z) :=
  for_ (NROUNDS / 2) 0 (fun i st =>
    rc0 <- get KeccakF_RoundConstants (2 * i) ;;
    e <- round_even rc0 st ;;
    rc1 <- get KeccakF_RoundConstants (2 * i + 1) ;;
    round_odd rc1 e) state.
