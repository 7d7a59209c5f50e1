(** A specification of the LESS signature scheme in one place: what key generation, signing and
    verification compute, in terms of the extendable-output function, the hash function, linear codes
    over F_127 and bit layouts. It uses no definition of the model of the code (only the parameters, the
    interface to the primitives, and the specifications of Spec.v and SampleSpec.v), no bound on
    iterations and no memory. *)
From Coq Require Import Sorted.
From Verif Require Import Base Params Prim Spec SampleSpec.

Section LS.
Variable X : prim.
Variable p : params.
Notation N := (pN p).
Notation K := (pK p).

(** *** Sampling *)

(** The next [num] values of minv .. maxv from the stream [st]: 64-bit words are read until their
    7-bit chunks contain [num] values in range; the chunks left over in the last word are dropped. *)
Definition next_samples (minv maxv : Z) (num : nat) (st : xstate X) (vals : list Z) (st' : xstate X) : Prop :=
  exists n,
    (length (samples minv maxv (draw_words X n st)) < num)%nat /\
    (num <= length (samples minv maxv (draw_words X (S n) st)))%nat /\
    vals = firstn num (samples minv maxv (draw_words X (S n) st)) /\
    st' = after_words X (S n) st.

(** The monomial matrix expanded from [input]: N non-zero coefficients, then a Fisher-Yates shuffle of
    the identity with indices taken from the 4 N following bytes. *)
Definition monomial_of (input perm coef : list Z) : Prop :=
  exists st, next_samples 1 126 N (x_init X input) coef st /\
    perm = fisher_yates (N - 1) (shuffle_index p (fst (x_squeeze X (4 * N) st))) (map Z.of_nat (seq 0 N)).

(** [n] rows of [w] entries, one after the other. *)
Inductive next_rows (w : nat) : nat -> xstate X -> list (list Z) -> Prop :=
| rows_nil st : next_rows w 0 st []
| rows_cons n st row st' rows : next_samples 0 126 w st row st' -> next_rows w n st' rows ->
    next_rows w (S n) st (row :: rows).

(** The systematic generator (I | A) expanded from [seed]. *)
Definition generator_of (seed : list Z) (G : matf) : Prop :=
  exists rows, next_rows (N - K) K (x_init X seed) rows /\
    forall i j, (i < K)%nat -> (j < N)%nat ->
      G i j = if (j <? K)%nat then (if Nat.eqb i j then 1 else 0) else ent rows i (j - K).

(** The [x]-th private seed: the answer to the [x]-th request to the stream of the compressed key. *)
Definition private_seed (csk : list Z) (x : nat) : list Z :=
  fst (x_squeeze X (prikey_seed_len p) (Nat.iter x (fun st => snd (x_squeeze X (prikey_seed_len p) st)) (x_init X csk))).

(** *** Seed trees *)

(** In a tree whose node [i] holds [s], node [j] (below [i]) holds [s']: the two children of a node are
    the two halves of the expansion of the salt followed by the seed of the node. *)
Inductive tree_seed (salt : list Z) (i : nat) (s : list Z) : nat -> list Z -> Prop :=
| ts_here : tree_seed salt i s i s
| ts_left j s' : tree_seed salt i s j s' ->
    tree_seed salt i s (2 * j + 1) (firstn (seed_len p) (fst (x_squeeze X (2 * seed_len p) (x_init X (salt ++ s')))))
| ts_right j s' : tree_seed salt i s j s' ->
    tree_seed salt i s (2 * j + 2) (skipn (seed_len p) (fst (x_squeeze X (2 * seed_len p) (x_init X (salt ++ s'))))).

(** The node of round [t]. *)
Definition leaf (t : nat) : nat := (num_leaves p - 1 + t)%nat.

(** No challenged round lies below node [i]. *)
Definition unchallenged (chal : list Z) (i : nat) : Prop :=
  forall t, (t < pT p)%nat -> nth t chal 0 <> 0 -> ~ below i (leaf t).

(** The roots of the maximal unchallenged subtrees, in increasing order. *)
Definition published (chal : list Z) (nodes : list nat) : Prop :=
  StronglySorted lt nodes /\
  forall i, In i nodes <->
    (i < num_nodes p)%nat /\ unchallenged chal i /\ forall j, below j i -> unchallenged chal j -> j = i.

(** *** Challenges *)

Fixpoint draw_halfwords (n : nat) (st : xstate X) : list Z :=
  match n with
  | O => []
  | S n' => le_val (fst (x_squeeze X 2 st)) :: draw_halfwords n' (snd (x_squeeze X 2 st))
  end.

(** A 16-bit word gives a value and a position; the value is stored if both are in range and the
    position still holds zero. *)
Definition place (c : list Z) (word : Z) : list Z :=
  let kb := Z.log2 (Z.of_nat (p_nk p) - 1) + 1 in
  let pb := Z.log2 (Z.of_nat (pT p) - 1) + 1 in
  let value := word mod 2 ^ kb in
  let pos := (word / 2 ^ kb) mod 2 ^ pb in
  if (value <? Z.of_nat (p_nk p)) && (pos <? Z.of_nat (pT p)) && (nth (Z.to_nat pos) c 0 =? 0)
  then upd c (Z.to_nat pos) value else c.

(** The challenge is complete when it has W non-zero entries. *)
Definition challenge_of (digest c : list Z) : Prop :=
  exists n, c = fold_left place (draw_halfwords n (x_init X digest)) (repeat 0 (pT p)) /\ weight c = pW p /\
    forall k, (k < n)%nat -> (weight (fold_left place (draw_halfwords k (x_init X digest)) (repeat 0%Z (pT p))) < pW p)%nat.

(** *** Packed forms *)

(** K positions on 8, 9 or 10 bits, then K coefficients on 7 bits, little-endian. *)
Definition packed_action (l perm coef : list Z) : Prop :=
  let pb := match p_cat p with Cat1 => 8 | Cat3 => 9 | Cat5 => 10 end in
  length l = mono_bytes p /\ bytes l /\
  le_val l = sumn K (fun i => nth i perm 0 * 2 ^ (pb * Z.of_nat i)) +
    2 ^ (pb * Z.of_nat K) * sumn K (fun i => nth i coef 0 * 2 ^ (7 * Z.of_nat i)).

(** The same fields read back; the padding bits at the end are not looked at. *)
Definition read_action (l perm coef : list Z) : Prop :=
  let pb := match p_cat p with Cat1 => 8 | Cat3 => 9 | Cat5 => 10 end in
  length perm = K /\ length coef = K /\
  forall i, (i < K)%nat ->
    nth i perm 0 = (le_val l / 2 ^ (pb * Z.of_nat i)) mod 2 ^ pb /\
    nth i coef 0 = (le_val l / 2 ^ (pb * Z.of_nat K + 7 * Z.of_nat i)) mod 2 ^ 7.

(** One bit per column (1 for a pivot) padded to whole bytes, then the entries of the other columns,
    row by row, on 7 bits. *)
Definition packed_matrix (l : list Z) (G : matf) (piv : nat -> nat) : Prop :=
  length l = rref_bytes p /\ bytes l /\
  le_val l = sumn N (fun c => (if existsb (fun i => Nat.eqb (piv i) c) (seq 0 K) then 1 else 0) * 2 ^ Z.of_nat c) +
    2 ^ (8 * Z.of_nat ((N + 7) / 8)) *
    sumn K (fun i => sumn (N - K) (fun j =>
      G i (nth j (nonpivots K N piv) 0%nat) * 2 ^ (7 * (Z.of_nat i * Z.of_nat (N - K) + Z.of_nat j)))).

Definition bytes_at (l : list Z) (o n : nat) : list Z := firstn n (skipn o l).

(** *** Key generation *)

(** Component [x] of the public key: the packed reduced row-echelon form of the code M with
    M Q = G_0, Q being the private monomial. *)
Definition key_component_of (csk : list Z) (G0 : matf) (x : nat) (chunk : list Z) : Prop :=
  exists perm coef M G piv,
    monomial_of (private_seed csk x) perm coef /\ times_monomial K N M perm coef G0 /\
    same_code K N M G /\ reduced K N G /\ is_rref K N G piv /\ packed_matrix chunk G piv.

(** From generator state [rng], the keys [sk] and [pk], leaving the generator in state [rng']. *)
Definition generates (rng : xstate X) (sk pk : list Z) (rng' : xstate X) : Prop :=
  exists csk g0 rng1 G0,
    x_squeeze X (prikey_seed_len p) rng = (csk, rng1) /\ x_squeeze X (seed_len p) rng1 = (g0, rng') /\
    sk = csk ++ g0 /\ length pk = sizeof_pk p /\ bytes_at pk 0 (seed_len p) = g0 /\ generator_of g0 G0 /\
    forall x, (x < p_nk p - 1)%nat -> key_component_of csk G0 x (bytes_at pk (off_sf p x) (rref_bytes p)).

(** *** Signing *)

(** Round [t]: the ephemeral monomial (perm, coef) from the leaf seed, and the normal form [V] of the
    code G_0 (perm, coef), whose pivot columns are [piv]. *)
Definition commitment_of (salt root : list Z) (G0 : matf) (t : nat) (perm coef : list Z) (piv : nat -> nat) (V : list (list Z)) : Prop :=
  exists seed M R,
    tree_seed salt 0 root (leaf t) seed /\ monomial_of (seed ++ salt ++ le_bytes 2 (Z.of_nat t)) perm coef /\
    times_monomial K N G0 perm coef M /\ same_code K N M R /\ is_rref K N R piv /\ normal_form K N M V.

(** Response [chunk] to a challenge answered with the private monomial (pb, cb): entry [k] names the
    column of the public code that reaches pivot [k], through both monomials, and the product of the
    factors met on the way. *)
Definition response_of (perm coef : list Z) (piv : nat -> nat) (pb cb chunk : list Z) : Prop :=
  exists rp rc, packed_action chunk rp rc /\ Forall fq_unit rc /\ length rp = K /\ length rc = K /\
    forall k, (k < K)%nat -> exists j s, (j < N)%nat /\ (s < N)%nat /\
      nth k rp 0 = Z.of_nat j /\ nth j pb 0 = Z.of_nat s /\ nth s perm 0 = Z.of_nat (piv k) /\
      nth k rc 0 == nth s coef 0 * nth j cb 0.

(** The hash of a string. *)
Definition hash (s : list Z) : list Z := h_final X (h_absorb X (h_init X) s).

(** From generator state [rng], the signature [sig] of [m] under [sk], with [num] published seeds.
    [old] is the previous content of the signature buffer: its last byte survives unless every place
    for a seed is used. *)
Definition signs (rng : xstate X) (sk m old sig : list Z) (num : nat) (rng' : xstate X) : Prop :=
  exists root salt rng1 G0 rounds chal nodes seeds,
    x_squeeze X (seed_len p) rng = (root, rng1) /\ x_squeeze X (hash_len p) rng1 = (salt, rng') /\
    generator_of (bytes_at sk (off_sk_g0 p) (seed_len p)) G0 /\
    (** commitments, digest and challenge *)
    length rounds = pT p /\
    (forall t, (t < pT p)%nat -> forall perm coef piv V, nth t rounds ([], [], fun _ => 0%nat, []) = (perm, coef, piv, V) ->
       commitment_of salt root G0 t perm coef piv V) /\
    challenge_of (hash (concat (map (fun r => concat (snd r)) rounds) ++ m ++ salt)) chal /\
    (** the signature *)
    length sig = sizeof_sign p /\
    bytes_at sig 0 (hash_len p) = salt /\
    (forall t, (t < pT p)%nat -> nth t chal 0 <> 0 -> forall perm coef piv V, nth t rounds ([], [], fun _ => 0%nat, []) = (perm, coef, piv, V) ->
       exists pb cb, monomial_of (private_seed (bytes_at sk 0 (prikey_seed_len p)) (Z.to_nat (nth t chal 0 - 1))) pb cb /\
         response_of perm coef piv pb cb (bytes_at sig (off_monom p (weight (firstn t chal))) (mono_bytes p))) /\
    bytes_at sig (off_digest p) (hash_len p) = hash (concat (map (fun r => concat (snd r)) rounds) ++ m ++ salt) /\
    published chal nodes /\ Forall2 (tree_seed salt 0 root) nodes seeds /\ num = length nodes /\
    bytes_at sig (off_seeds p) (num * seed_len p) = concat seeds /\
    nth (off_seeds p + num * seed_len p) sig 0 = Z.of_nat num /\
    (forall k, (num * seed_len p < k < Z.to_nat (p_maxbytes p))%nat -> nth (off_seeds p + k) sig 0 = 0) /\
    ((num * seed_len p < Z.to_nat (p_maxbytes p))%nat ->
       nth (off_seeds p + Z.to_nat (p_maxbytes p)) sig 0 = nth (off_seeds p + Z.to_nat (p_maxbytes p)) old 0).

(** *** Verification *)

(** What round [t] contributes: for an unchallenged round the normal form of G_0 times the monomial of
    the leaf, whose seed is derived from the published seed above it; for a challenged round the normal
    form of the component of the key times the response, which must be a well-formed action. *)
Definition checks_round (pk sig salt chal : list Z) (nodes : list nat) (seeds : list (list Z)) (G0 : matf) (t : nat) (V : list (list Z)) : Prop :=
  if nth t chal 0 =? 0 then
    exists u seed perm coef M,
      (u < length nodes)%nat /\ tree_seed salt (nth u nodes 0%nat) (nth u seeds []) (leaf t) seed /\
      monomial_of (seed ++ salt ++ le_bytes 2 (Z.of_nat t)) perm coef /\
      times_monomial K N G0 perm coef M /\ normal_form K N M V
  else
    exists G piv rp rc M,
      packed_matrix (bytes_at pk (off_sf p (Z.to_nat (nth t chal 0 - 1))) (rref_bytes p)) G piv /\
      reduced K N G /\ is_rref K N G piv /\
      read_action (bytes_at sig (off_monom p (weight (firstn t chal))) (mono_bytes p)) rp rc /\ good_action K N rp rc /\
      times_action K N G rp rc M /\ normal_form K N M V.

(** A public key in the form that key generation gives it: every component is the packed form of a
    matrix in reduced row echelon form. *)
Definition key_form (pk : list Z) : Prop := length pk = sizeof_pk p /\
  forall x, (x < p_nk p - 1)%nat -> exists G piv,
    reduced K N G /\ is_rref K N G piv /\ packed_matrix (bytes_at pk (off_sf p x) (rref_bytes p)) G piv.

(** The bytes [buf] announce [flagged buf] pivot columns. *)
Definition flagged (buf : list Z) : nat := length (filter (fun c => (le_val buf / 2 ^ Z.of_nat c) mod 2 =? 1) (seq 0 N)).

(** Field number [u], of 7 bits, after the flags. *)
Definition entry_field (buf : list Z) (u : nat) : Z := (le_val buf / 2 ^ (8 * Z.of_nat ((N + 7) / 8) + 7 * Z.of_nat u)) mod 128.

(** A weaker condition on public keys, which does not ask for an echelon form: every component announces
    at least K pivot columns, and the fields of the other columns are elements of the field. *)
Definition usable_key (pk : list Z) : Prop := length pk = sizeof_pk p /\
  forall x, (x < p_nk p - 1)%nat -> let buf := bytes_at pk (off_sf p x) (rref_bytes p) in
    (K <= flagged buf)%nat /\ forall u, (u < K * (N - flagged buf))%nat -> entry_field buf u < 127.

(** The object [sig] is long enough for the parts of fixed size and for the seeds its challenge asks for. *)
Definition long_enough (sig : list Z) : Prop := (off_seeds p <= length sig)%nat /\
  forall chal nodes, challenge_of (bytes_at sig (off_digest p) (hash_len p)) chal -> published chal nodes ->
    (off_seeds p + length nodes * seed_len p <= length sig)%nat.

(** [sig] is a signature of [m] under [pk]. *)
Definition valid (pk m sig : list Z) : Prop :=
  let salt := bytes_at sig 0 (hash_len p) in
  let digest := bytes_at sig (off_digest p) (hash_len p) in
  exists chal nodes seeds G0 Vs,
    challenge_of digest chal /\
    published chal nodes /\ length seeds = length nodes /\ Forall (fun s => length s = seed_len p) seeds /\
    bytes_at sig (off_seeds p) (length nodes * seed_len p) = concat seeds /\
    generator_of (bytes_at pk 0 (seed_len p)) G0 /\
    length Vs = pT p /\ (forall t, (t < pT p)%nat -> checks_round pk sig salt chal nodes seeds G0 t (nth t Vs [])) /\
    hash (concat (map (@concat Z) Vs) ++ m ++ salt) = digest.
End LS.
