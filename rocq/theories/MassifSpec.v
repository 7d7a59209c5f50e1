(** What a massif file is, as lines of text; and the names of the files of the memory benchmark. *)
From Coq Require Import String Ascii.
From Verif Require Import Base KatSpec Massif.
Local Open Scope list_scope.

(** A text and its lines: every line ends with a newline, except perhaps the last one. *)
Definition line_ok (l : list Z) : Prop := ~ In 10 l.
Definition content_lines (ls : list (list Z)) (content : list Z) : Prop :=
  Forall line_ok ls /\
  (content = concat (map (fun l => l ++ [10]) ls) \/
   exists init last, ls = init ++ [last] /\ last <> [] /\ content = concat (map (fun l => l ++ [10]) init) ++ last).

(** Characters. *)
Definition digit (c : Z) : Prop := 48 <= c <= 57.
Definition space (c : Z) : Prop := 9 <= c <= 13 \/ 28 <= c <= 32.
Definition wordchar (c : Z) : Prop := digit c \/ 65 <= c <= 90 \/ 97 <= c <= 122 \/ c = 95.
(** The end of the line or a character of another kind. *)
Definition ends_at (P : Z -> Prop) (l : list Z) : Prop := match l with [] => True | c :: _ => ~ P c end.

(** Numbers in decimal notation, leading zeros allowed. *)
Fixpoint value (l : list Z) : Z := match l with [] => 0 | c :: r => (c - 48) * 10 ^ Z.of_nat (length r) + value r end.
Definition numeral (l : list Z) (v : Z) : Prop := l <> [] /\ Forall digit l /\ v = value l.

(** The kinds of lines. *)
Definition comment_line (l : list Z) : Prop := exists sp r, l = sp ++ r /\ Forall space sp /\ (r = [] \/ exists r', r = 35 :: r').
Definition text_field (key : string) (data l : list Z) : Prop := exists c, space c /\ l = text key ++ c :: data.
Definition unit_field (data l : list Z) : Prop := text_field "time_unit:" data l /\ In data [text "ms"; text "B"; text "i"].
Definition number_field (key : string) (v : Z) (l : list Z) : Prop := exists d r, l = text key ++ d ++ r /\ numeral d v /\ ends_at digit r.
Definition word_field (key : string) (w l : list Z) : Prop :=
  exists r, l = text key ++ w ++ r /\ w <> [] /\ Forall wordchar w /\ ends_at wordchar r.
(** An entry of a heap tree: "n<number of children>: <number of bytes> <details>". *)
Definition heap_line (children bytes : Z) (l : list Z) : Prop :=
  exists sp d1 c1 d2 c2 details, l = sp ++ [110] ++ d1 ++ [58; c1] ++ d2 ++ [c2] ++ details /\
    Forall space sp /\ space c1 /\ space c2 /\ numeral d1 children /\ numeral d2 bytes.

(** A field, with comments before it. *)
Definition field {A} (P : A -> list Z -> Prop) (a : A) (ls : list (list Z)) : Prop :=
  exists cs l, ls = cs ++ [l] /\ Forall comment_line cs /\ P a l.

(** A tree: an entry, then the children one after another. *)
Inductive tree_lines : node -> list (list Z) -> Prop :=
| tree_node nb cs l ls : heap_line (Z.of_nat (length cs)) nb l -> forest_lines cs ls -> tree_lines (Node nb cs) (l :: ls)
with forest_lines : list node -> list (list Z) -> Prop :=
| forest_nil : forest_lines [] []
| forest_cons t ts u ls : tree_lines t u -> forest_lines ts ls -> forest_lines (t :: ts) (u ++ ls).

(** A snapshot, and whether it is detailed and the peak. *)
Definition snapshot_lines (x : bool * bool * snapshot) (ls : list (list Z)) : Prop :=
  let '(detailed, peak, s) := x in
  exists l1 l2 l3 l4 l5 l6 lt w, ls = l1 ++ l2 ++ l3 ++ l4 ++ l5 ++ l6 ++ lt /\
    field (number_field "snapshot=") (s_id s) l1 /\ field (number_field "time=") (s_time s) l2 /\
    field (number_field "mem_heap_B=") (s_heap s) l3 /\ field (number_field "mem_heap_extra_B=") (s_extra s) l4 /\
    field (number_field "mem_stacks_B=") (s_stack s) l5 /\ field (word_field "heap_tree=") w l6 /\
    ((w = text "empty" /\ lt = [] /\ s_tree s = None /\ detailed = false /\ peak = false) \/
     (w <> text "empty" /\ exists t, s_tree s = Some t /\ tree_lines t lt /\ detailed = true /\ (peak = true <-> w = text "peak"))).

Inductive snapshots_lines : list (bool * bool * snapshot) -> list (list Z) -> Prop :=
| snapshots_end cs : Forall comment_line cs -> snapshots_lines [] cs
| snapshots_next x xs u ls : snapshot_lines x u -> snapshots_lines xs ls -> snapshots_lines (x :: xs) (u ++ ls).

(** The positions in [xs] of the elements with a property. *)
Definition positions {A} (f : A -> bool) (xs : list A) : list nat :=
  filter (fun i => match nth_error xs i with Some x => f x | None => false end) (seq 0 (length xs)).
Definition last_of (l : list nat) : option nat := match rev l with [] => None | i :: _ => Some i end.

(** A file. *)
Definition massif_lines (d : mdata) (ls : list (list Z)) : Prop :=
  exists l1 l2 l3 l4 xs, ls = l1 ++ l2 ++ l3 ++ l4 /\
    field (text_field "desc:") (m_desc d) l1 /\ field (text_field "cmd:") (m_cmd d) l2 /\ field unit_field (m_unit d) l3 /\
    snapshots_lines xs l4 /\ m_snapshots d = map snd xs /\
    m_detailed d = positions (fun '(detailed, _, _) => detailed) xs /\
    m_peak d = last_of (positions (fun '(_, peak, _) => peak) xs).

(** The lines [ls] are the beginning of something. *)
Definition viable {A} (S : A -> list (list Z) -> Prop) (ls : list (list Z)) : Prop := exists more a, Forall line_ok more /\ S a (ls ++ more).

(** The largest of some numbers, 0 if there are none. *)
Definition largest (l : list Z) (m : Z) : Prop := (l = [] /\ m = 0) \/ (In m l /\ Forall (fun x => x <= m) l).

(** The pieces of a file name: two pieces that do not matter, the category, the name of the parameters, which has one underscore or
    none, and the method; then a suffix. *)
Definition no_underscore (l : list Z) : Prop := ~ In 95 l.
Definition file_name (name : list Z) (cat : Z) (kind method : list Z) : Prop :=
  exists a b c suffix, name = a ++ text "_" ++ b ++ text "_" ++ c ++ text "_" ++ kind ++ text "_" ++ method ++ suffix /\
    no_underscore a /\ no_underscore b /\ numeral c cat /\
    (no_underscore kind \/ exists k1 k2, kind = k1 ++ text "_" ++ k2 /\ no_underscore k1 /\ no_underscore k2) /\
    no_underscore method /\ ~ In 46 method /\ no_underscore suffix /\ (suffix = [] \/ exists r, suffix = text "." ++ r).
