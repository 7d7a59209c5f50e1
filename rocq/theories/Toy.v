(** A small instance used by the examples: toy parameters and a toy generator in place of SHAKE/SHA-3
    (a linear congruential generator; it has the interface laws, and of course no security). *)
From Verif Require Import Base BaseLemmas Params ParamsProofs Prim Less Sign BitCodec.

Definition lcg (s : Z) : Z := (s * 137 + 1237) mod 65521.
Fixpoint lcg_bytes (n : nat) (s : Z) : list Z * Z :=
  match n with
  | O => ([], s)
  | S n' => let s' := lcg s in let (l, s'') := lcg_bytes n' s' in ((s' / 32) mod 256 :: l, s'')
  end.
Definition lcg_absorb (s : Z) (l : list Z) : Z := fold_left (fun s b => lcg (s + b)) l s.
Definition toyX : prim :=
  {| xstate := Z; x_init := lcg_absorb 42; x_squeeze := lcg_bytes;
     hstate := Z; h_init := 7; h_absorb := lcg_absorb; h_final := fun s => fst (lcg_bytes 32 s) |}.

Lemma lcg_bytes_ok n s : length (fst (lcg_bytes n s)) = n /\ bytes (fst (lcg_bytes n s)).
Proof.
  revert s. induction n as [|n IH]; intros s; cbn [lcg_bytes]. { split; [reflexivity|constructor]. }
  cbv zeta. specialize (IH (lcg s)). destruct (lcg_bytes n (lcg s)) as [l s']. cbn [fst length] in *. destruct IH as [A B].
  split; [lia|]. constructor; auto. unfold is_byte. apply Z.mod_pos_bound. lia.
Qed.

Lemma toyX_lawful : lawful toyX (hash_len toy_params).
Proof.
  constructor; cbn [toyX x_squeeze h_final h_absorb].
  - intros. apply lcg_bytes_ok.
  - intros. apply lcg_bytes_ok.
  - intros. apply lcg_bytes_ok.
  - intros. apply lcg_bytes_ok.
  - intros. unfold lcg_absorb. rewrite fold_left_app. reflexivity.
Qed.

Definition toy_junk (a b : nat) : Z := Z.of_nat (a + b).
Definition toy_keys : res (list Z * list Z * Z) :=
  LESS_keygen toyX toy_params 1000 toy_junk 5 (repeat 9 (sizeof_sk toy_params)) (repeat 9 (sizeof_pk toy_params)).
Definition okd {A} (d : A) (m : res A) : A := match m with Ok a => a | _ => d end.
Definition toy_sk : list Z := Eval vm_compute in fst (fst (okd ([], [], 0) toy_keys)).
Definition toy_pk : list Z := Eval vm_compute in snd (fst (okd ([], [], 0) toy_keys)).
Definition toy_msg : list Z := [1; 2; 3].
Definition toy_sign (rng : Z) : res (list Z * nat * Z) :=
  LESS_sign toyX toy_params 1000 toy_junk rng toy_sk toy_msg (repeat 3 (sizeof_sign toy_params)).

(** A complete run; with generator state 80 the signature publishes two seeds. *)
Definition toy_sig80 : list Z := Eval vm_compute in fst (fst (okd ([], 0%nat, 0) (toy_sign 80))).
Definition toy_rng5 : Z := Eval vm_compute in snd (okd ([], [], 0) toy_keys).
Definition toy_rng80 : Z := Eval vm_compute in snd (okd ([], 0%nat, 0) (toy_sign 80)).

Lemma toy_keys_run :
  LESS_keygen toyX toy_params 1000 toy_junk 5 (repeat 9 (sizeof_sk toy_params)) (repeat 9 (sizeof_pk toy_params)) =
  Ok (toy_sk, toy_pk, toy_rng5).
Proof. vm_compute. reflexivity. Qed.
Lemma toy_sign_run :
  LESS_sign toyX toy_params 1000 toy_junk 80 toy_sk toy_msg (repeat 3 (sizeof_sign toy_params)) =
  Ok (toy_sig80, 2%nat, toy_rng80).
Proof. vm_compute. reflexivity. Qed.
(** Another message with the same random bytes: a signature with four seeds. *)
Definition toy_sig80b : list Z := Eval vm_compute in
  fst (fst (okd ([], 0%nat, 0) (LESS_sign toyX toy_params 1000 toy_junk 80 toy_sk [1; 2; 4] (repeat 3 (sizeof_sign toy_params))))).
Lemma toy_sign_run_b : LESS_sign toyX toy_params 1000 toy_junk 80 toy_sk [1; 2; 4] (repeat 3 (sizeof_sign toy_params)) = Ok (toy_sig80b, 4%nat, toy_rng80).
Proof. vm_compute. reflexivity. Qed.
Lemma toy_reject : LESS_verify toyX toy_params 1000 (fun _ _ => 0) toy_pk [1; 2; 4] toy_sig80 = Ok 0.
Proof. vm_compute. reflexivity. Qed.
