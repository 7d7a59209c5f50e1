(** Model of /repo/Utilities/MemoryBenchmarking/bench.py: the parser of massif files and the table of stack sizes; and of the
    names that CMakeLists.txt and bench.sh of that directory give to the files. *)
From Coq Require Import String Ascii.
From Verif Require Import Base KatMain.
Local Open Scope list_scope.

(** The exceptions that end the script. bench.py:85-96, [ParseError]: of the attributes the line number is kept.
    [ValueError] comes from [int] and from unpacking, [KeyError] from the table. *)
Inductive exn := ParseError (line : nat) | ValueError | KeyError.
Inductive py (A : Type) := Ret (a : A) | Raise (e : exn) | PyNoFuel.
Arguments Ret {A} _. Arguments Raise {A} _. Arguments PyNoFuel {A}.
Definition pbind {A B} (m : py A) (k : A -> py B) : py B :=
  match m with Ret a => k a | Raise e => Raise e | PyNoFuel => PyNoFuel end.
Notation "' p <~ m ;;; k" := (pbind m (fun x => match x with p => k end)) (at level 61, p pattern, m at next level, right associativity).

(** Character classes of the regular expressions. Simplified: the file holds ASCII characters, which are numbers here. *)
Definition py_space (c : Z) : bool := ((9 <=? c) && (c <=? 13)) || ((28 <=? c) && (c <=? 32)).
Definition py_word (c : Z) : bool :=
  is_digit c || ((65 <=? c) && (c <=? 90)) || ((97 <=? c) && (c <=? 122)) || (c =? 95).

(** The longest prefix of characters in a class, and what follows. *)
Fixpoint span (f : Z -> bool) (l : list Z) : list Z * list Z :=
  match l with
  | [] => ([], [])
  | c :: r => if f c then let (a, b) := span f r in (c :: a, b) else ([], l)
  end.

(** What follows the prefix [s], if it is there. *)
Fixpoint strip_prefix (s l : list Z) : option (list Z) :=
  match s, l with
  | [], _ => Some l
  | a :: s', c :: l' => if a =? c then strip_prefix s' l' else None
  | _, [] => None
  end.

(** bench.py:10, [_COMMENT_RE]. *)
Definition comment_re (line : list Z) : bool :=
  match snd (span py_space line) with [] => true | c :: _ => c =? 35 end.

(** bench.py:13-14, [_FIELD_DESC_RE] and [_FIELD_CMD_RE]: the key, one white-space character, the data. A line holds no newline, so that
    [.*] is the rest of it. *)
Definition field_text (key : string) (line : list Z) : option (list Z) :=
  match strip_prefix (str key) line with
  | Some (c :: data) => if py_space c then Some data else None
  | _ => None
  end.

(** bench.py:15, [_FIELD_TIME_UNIT_RE]. *)
Definition field_unit (line : list Z) : option (list Z) :=
  match field_text "time_unit:" line with
  | Some data => if existsb (fun u => if list_eq_dec Z.eq_dec data u then true else false) [str "ms"; str "B"; str "i"] then Some data else None
  | None => None
  end.

(** bench.py:18-22, the fields of a snapshot: the key and one or more digits; what follows is ignored. *)
Definition field_digits (key : string) (line : list Z) : option (list Z) :=
  match strip_prefix (str key) line with
  | Some r => match fst (span is_digit r) with [] => None | d => Some d end
  | None => None
  end.

(** bench.py:23, [_FIELD_HEAP_TREE_RE]. *)
Definition field_word (key : string) (line : list Z) : option (list Z) :=
  match strip_prefix (str key) line with
  | Some r => match fst (span py_word r) with [] => None | d => Some d end
  | None => None
  end.

(** bench.py:29-36, [_HEAP_ENTRY_RE]: the digits of the number of children and of the number of bytes. The details are left out, and
    so are lines 38-63 and 242-261 of the script, which take them apart: nothing depends on them. *)
Definition heap_entry (line : list Z) : option (list Z * list Z) :=
  match snd (span py_space line) with
  | 110 :: r =>
      match span is_digit r with
      | ((_ :: _) as d1, 58 :: c :: r2) =>
          if py_space c then
            match span is_digit r2 with
            | ((_ :: _) as d2, c2 :: _) => if py_space c2 then Some (d1, d2) else None
            | _ => None
            end
          else None
      | _ => None
      end
  | _ => None
  end.

(** [int] of a string of digits. Simplified: Python from 3.11 on refuses more than 4300 digits. *)
Definition int_digits (l : list Z) : Z := fold_left (fun v c => 10 * v + (c - 48)) l 0.

(** bench.py:66-82, [ParseContext]: the rest of the file and the number of lines read. Simplified: the rest of the file is the text as
    [open] delivers it, with \n for every end of line. *)
Record pctx := { rest : list Z; lineno : nat }.

(** [readline] of a file: up to and including the next newline. *)
Fixpoint readline (inp : list Z) : list Z * list Z :=
  match inp with
  | [] => ([], [])
  | c :: r => if c =? 10 then ([c], r) else let (l, r') := readline r in (c :: l, r')
  end.

(** [line.strip("\n")]. *)
Definition drop_newlines (l : list Z) : list Z := snd (span (fun c => c =? 10) l).
Definition strip_newlines (l : list Z) : list Z := rev (drop_newlines (rev (drop_newlines l))).

(** bench.py:130-143, [_get_next_line]. *)
Definition get_next_line (ctx : pctx) (may_reach_eof : bool) : py (option (list Z) * pctx) :=
  let (line, r) := readline (rest ctx) in
  let ctx' := {| rest := r; lineno := S (lineno ctx) |} in
  match line with
  | [] => if may_reach_eof then Ret (None, ctx') else Raise (ParseError (lineno ctx'))
  | _ => Ret (Some (strip_newlines line), ctx')
  end.

(** bench.py:146-161, [_get_next_field]; lines 118-127, [_match_unconditional]. Each turn of the loop reads a line. *)
Fixpoint field_loop {A} (fuel : nat) (re : list Z -> option A) (may_reach_eof : bool) (ctx : pctx) : py (option A * pctx) :=
  match fuel with
  | O => PyNoFuel
  | S fuel' =>
      ' (line, ctx') <~ get_next_line ctx may_reach_eof ;;;
      match line with
      | None => Ret (None, ctx')
      | Some l =>
          if comment_re l then field_loop fuel' re may_reach_eof ctx'
          else match re l with Some data => Ret (Some data, ctx') | None => Raise (ParseError (lineno ctx')) end
      end
  end.
Definition get_next_field {A} (re : list Z -> option A) (may_reach_eof : bool) (ctx : pctx) : py (option A * pctx) :=
  field_loop (S (S (length (rest ctx)))) re may_reach_eof ctx.

(** A field that must be there. [_get_next_field] returns [None] only at the end of the file, which is not allowed here. *)
Definition need_field {A} (re : list Z -> option A) (ctx : pctx) : py (A * pctx) :=
  ' (d, ctx') <~ get_next_field re false ctx ;;;
  match d with Some a => Ret (a, ctx') | None => Raise ValueError end.

(** bench.py:235-272, [_parse_heap_tree]: a node holds the number of bytes and the children. Simplified: Python allows
    about a thousand nested calls. *)
Inductive node := Node (nbytes : Z) (children : list node).
Fixpoint parse_heap_tree (fuel : nat) (ctx : pctx) : py (node * pctx) :=
  match fuel with
  | O => PyNoFuel
  | S fuel' =>
      ' (line, ctx1) <~ get_next_line ctx false ;;;
      match line with
      | None => Raise ValueError
      | Some l =>
          match heap_entry l with
          | None => Raise (ParseError (lineno ctx1))
          | Some (num_children, num_bytes) =>
              ' (cs, ctx2) <~
                (fix loop (g : nat) (n : Z) (ctx : pctx) : py (list node * pctx) :=
                   if 0 <? n then
                     match g with
                     | O => PyNoFuel
                     | S g' =>
                         ' (c, ctx1) <~ parse_heap_tree fuel' ctx ;;;
                         ' (cs, ctx2) <~ loop g' (n - 1) ctx1 ;;;
                         Ret (c :: cs, ctx2)
                     end
                   else Ret ([], ctx)) fuel' (int_digits num_children) ctx1 ;;;
              Ret (Node (int_digits num_bytes) cs, ctx2)
          end
      end
  end.

(** The dictionary of a snapshot, bench.py:224-231. *)
Record snapshot := { s_id : Z; s_time : Z; s_heap : Z; s_extra : Z; s_stack : Z; s_tree : option node }.

(** bench.py:194-232, [_parse_snapshot]: [is_detailed], [is_peak] and the data, or [None] at the end of the file. *)
Definition parse_snapshot (ctx0 : pctx) : py (option (bool * bool * snapshot) * pctx) :=
  ' (id, ctx) <~ get_next_field (field_digits "snapshot=") true ctx0 ;;;
  match id with
  | None => Ret (None, ctx)
  | Some id =>
      ' (time, ctx) <~ need_field (field_digits "time=") ctx ;;;
      ' (heap, ctx) <~ need_field (field_digits "mem_heap_B=") ctx ;;;
      ' (extra, ctx) <~ need_field (field_digits "mem_heap_extra_B=") ctx ;;;
      ' (stacks, ctx) <~ need_field (field_digits "mem_stacks_B=") ctx ;;;
      ' (tree, ctx) <~ need_field (field_word "heap_tree=") ctx ;;;
      let data t := {| s_id := int_digits id; s_time := int_digits time; s_heap := int_digits heap; s_extra := int_digits extra;
                       s_stack := int_digits stacks; s_tree := t |} in
      if list_eq_dec Z.eq_dec tree (str "empty") then Ret (Some (false, false, data None), ctx)
      else
        let peak := if list_eq_dec Z.eq_dec tree (str "peak") then true else false in
        ' (t, ctx) <~ parse_heap_tree (S (S (length (rest ctx)))) ctx ;;;
        Ret (Some (true, peak, data (Some t)), ctx)
  end.

(** bench.py:170-192, [_parse_snapshots]. *)
Fixpoint snapshots_loop (fuel : nat) (index : nat) (snaps : list snapshot) (detailed : list nat) (peak : option nat) (ctx : pctx) :
  py (list snapshot * list nat * option nat) :=
  match fuel with
  | O => PyNoFuel
  | S fuel' =>
      ' (s, ctx') <~ parse_snapshot ctx ;;;
      match s with
      | None => Ret (snaps, detailed, peak)
      | Some (is_detailed, is_peak, data) =>
          snapshots_loop fuel' (S index) (snaps ++ [data]) (if is_detailed : bool then detailed ++ [index] else detailed)
            (if is_peak : bool then Some index else peak) ctx'
      end
  end.

(** bench.py:107-115, [parse], and 164-167, [_parse_header]. *)
Record mdata := { m_desc : list Z; m_cmd : list Z; m_unit : list Z; m_snapshots : list snapshot; m_detailed : list nat; m_peak : option nat }.
Definition massif_parse (content : list Z) : py mdata :=
  let ctx := {| rest := content; lineno := 0 |} in
  ' (desc, ctx) <~ need_field (field_text "desc:") ctx ;;;
  ' (cmd, ctx) <~ need_field (field_text "cmd:") ctx ;;;
  ' (unit, ctx) <~ need_field field_unit ctx ;;;
  ' (snaps, detailed, peak) <~ snapshots_loop (S (S (length (rest ctx)))) 0 [] [] None ctx ;;;
  Ret {| m_desc := desc; m_cmd := cmd; m_unit := unit; m_snapshots := snaps; m_detailed := detailed; m_peak := peak |}.

(** bench.py:275-295, [massif_analyse]: the largest heap and the largest stack. *)
Definition massif_analyse (content : list Z) : py (Z * Z) :=
  ' data <~ massif_parse content ;;;
  Ret (fold_left (fun '(max_heap, max_stack) s =>
         (if max_heap <? s_heap s then s_heap s else max_heap, if max_stack <? s_stack s then s_stack s else max_stack))
       (m_snapshots data) (0, 0)).

(** [split] of a string at a character. *)
Fixpoint split_at (c : Z) (l : list Z) : list (list Z) :=
  match l with
  | [] => [[]]
  | a :: r => if a =? c then [] :: split_at c r
              else match split_at c r with p :: ps => (a :: p) :: ps | [] => [[a]] end
  end.

(** [int] of a string: digits with an optional sign, between white space. Simplified: no underscores, as the string comes from a
    split at underscores. *)
Definition int_string (l : list Z) : py Z :=
  let l := rev (snd (span py_space (rev (snd (span py_space l))))) in
  let '(sign, d) := match l with 43 :: r => (1, r) | 45 :: r => (-1, r) | _ => (1, l) end in
  match d with
  | [] => Raise ValueError
  | _ => if forallb is_digit d then Ret (sign * int_digits d) else Raise ValueError
  end.

(** bench.py:304-314, [values]: nested dictionaries. *)
Definition methods := list (list Z * Z).
Definition table := list (Z * list (list Z * methods)).
Definition zero_methods : methods := [(str "keygen", 0); (str "sign", 0); (str "verify", 0)].
Definition zero_kinds : list (list Z * methods) := [(str "INTERMEDIATE", zero_methods); (str "SHORT_SIG", zero_methods); (str "BALANCED", zero_methods)].
Definition values : table := [(1, zero_kinds); (3, zero_kinds); (5, zero_kinds)].

(** Assignment to an entry of a dictionary, and to an entry of a dictionary inside a dictionary. *)
Definition same_key (a b : list Z) : bool := if list_eq_dec Z.eq_dec a b then true else false.
Fixpoint set_method (d : methods) (m : list Z) (v : Z) : methods :=
  match d with
  | [] => [(m, v)]
  | (m', v') :: d' => if same_key m' m then (m, v) :: d' else (m', v') :: set_method d' m v
  end.
Fixpoint set_kind (d : list (list Z * methods)) (k m : list Z) (v : Z) : py (list (list Z * methods)) :=
  match d with
  | [] => Raise KeyError
  | (k', ms) :: d' => if same_key k' k then Ret ((k', set_method ms m v) :: d') else ' d2 <~ set_kind d' k m v ;;; Ret ((k', ms) :: d2)
  end.
Fixpoint set_value (t : table) (cat : Z) (k m : list Z) (v : Z) : py table :=
  match t with
  | [] => Raise KeyError
  | (c, ks) :: t' => if c =? cat then ' ks2 <~ set_kind ks k m v ;;; Ret ((c, ks2) :: t') else ' t2 <~ set_value t' cat k m v ;;; Ret ((c, ks) :: t2)
  end.

Definition ends_with (s l : list Z) : bool := same_key (skipn (length l - length s) l) s && (length s <=? length l)%nat.

(** bench.py:320-337, the loop over the files. A file is its directory, its name and its content; [os.walk] may yield
    the files in any order. Running bench.sh (line 317) and printing the table (line 340) are left out. *)
Definition file := (list Z * list Z * list Z)%type.
Definition bench_file (t : table) (f : file) : py table :=
  let '(subdir, name, content) := f in
  if ends_with (str ".massif") (subdir ++ str "/" ++ name) then
    ' (cat, kind, method) <~
      match split_at 95 name with
      | [_; _; cat; kind; method] => Ret (cat, kind, method)
      | [_; _; cat; kind; kind_2; method] => Ret (cat, kind ++ str "_" ++ kind_2, method)
      | _ => Raise ValueError
      end ;;;
    let method := hd [] (split_at 46 method) in
    ' cat <~ int_string cat ;;;
    ' (_, max_stack) <~ massif_analyse content ;;;
    set_value t cat kind method max_stack
  else Ret t.
Fixpoint bench_loop (t : table) (fs : list file) : py table :=
  match fs with [] => Ret t | f :: fs' => ' t' <~ bench_file t f ;;; bench_loop t' fs' end.
Definition bench_main (fs : list file) : py table := bench_loop values fs.

(** CMakeLists.txt:157-209 of the same directory: the programs for each category and target; bench.sh:13-18: program x writes
    build/x.massif. *)
Definition target_name (category : Z) (target method : string) : list Z :=
  str "LESS_memory_" ++ print_dec category ++ str "_" ++ str target ++ str "_" ++ str method.
Definition param_targets (category : Z) : list string :=
  if category =? 1 then ["SHORT_SIG"; "INTERMEDIATE"; "BALANCED"]%string else ["SHORT_SIG"; "BALANCED"]%string.
Definition target_names : list (list Z) :=
  flat_map (fun category => flat_map (fun target => map (target_name category target) ["keygen"; "sign"; "verify"]%string) (param_targets category)) [1; 3; 5].
Definition massif_files : list (list Z) := map (fun x => x ++ str ".massif") target_names.
