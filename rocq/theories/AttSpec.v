(** What a file in AT&T format says: the text of its lines, and the words accepted.
    Uses only the representation of symbols and transducers. *)
From Verif Require Import Base AlphabetModel TransducerModel TransducerSpec RelabelSpec ComposeSpec.

(** * The words of a file *)
(** One line: a transition between two states reading [upper] and writing [lower], or a final
    state; both with a weight (in millionths). *)
Inductive line :=
| LArc (from to : Z) (upper lower : list symbol) (w : Z)
| LFinal (s w : Z).
Definition source (l : line) : Z := match l with LArc s _ _ _ _ | LFinal s _ => s end.
Definition line_states (l : line) : list Z := match l with LArc s s' _ _ _ => [s; s'] | LFinal s _ => [s] end.
(** A transducer is its lines; it starts where the first one does. *)
Definition start_of (m : list line) : Z := match m with [] => 0 | l :: _ => source l end.
Inductive walk (m : list line) : Z -> list symbol -> list symbol -> Z -> Z -> Prop :=
| walk_nil s : walk m s [] [] 0 s
| walk_cons s s' u l w x y c s'' : In (LArc s s' u l w) m -> walk m s' x y c s'' -> walk m s (u ++ x) (l ++ y) (w + c) s''.
(** The first line for a final state gives its weight. *)
Inductive final_line : list line -> Z -> Z -> Prop :=
| fl_here m s f : final_line (LFinal s f :: m) s f
| fl_later m s f l : (forall f', l <> LFinal s f') -> final_line m s f -> final_line (l :: m) s f.
Definition means_from (m : list line) (s : Z) (x y : list symbol) (c : Z) : Prop :=
  exists s' d f, walk m s x y d s' /\ final_line m s' f /\ c = d + f.
Definition means (m : list line) : list symbol -> list symbol -> Z -> Prop := means_from m (start_of m).
(** A file with several transducers accepts what one of them accepts. *)
Definition file_means (ms : list (list line)) (x y : list symbol) (c : Z) : Prop := exists m, In m ms /\ means m x y c.
(** No transition is given twice with different weights. *)
Definition weights_agree (m : list line) : Prop :=
  forall s s' u l w w', In (LArc s s' u l w) m -> In (LArc s s' u l w') m -> w = w'.

(** * The text *)
Definition is_digit (c : Z) : Prop := 48 <= c <= 57.
Definition decimal_value (s : ustr) : Z := fold_left (fun n c => n * 10 + (c - 48)) s 0.
Definition numeral (s : ustr) (n : Z) : Prop := s <> [] /\ Forall is_digit s /\ decimal_value s = n.
(** A weight: digits, and up to six decimals. *)
Inductive amount : ustr -> Z -> Prop :=
| am_whole s n : numeral s n -> amount s (n * 1000000)
| am_point s n d : numeral s n -> Forall is_digit d -> (length d <= 6)%nat ->
    amount (s ++ [46] ++ d) (n * 1000000 + decimal_value d * 10 ^ (6 - Z.of_nat (length d)))
| am_minus s w : (forall r, s <> 45 :: r) -> amount s w -> amount (45 :: s) (- w).
Definition sp_zero : ustr := [64; 48; 64].
Definition sp_epsilon : ustr := [64; 95; 69; 80; 83; 73; 76; 79; 78; 95; 83; 89; 77; 66; 79; 76; 95; 64].
Definition sp_greek : ustr := [949].
Definition sp_space : ustr := [64; 95; 83; 80; 65; 67; 69; 95; 64].
Definition sp_tab : ustr := [64; 95; 84; 65; 66; 95; 64].
Definition specials (hfst : bool) : list ustr := [[]; sp_zero; sp_epsilon; sp_space; sp_tab] ++ if hfst then [] else [sp_greek].
Definition tag_text (s : ustr) : Prop := exists n, s = [60] ++ n ++ [62].
Definition utf16 (c : Z) : ustr := if c <? 65536 then [c] else [0xD800 + (c - 65536) / 1024; 0xDC00 + (c - 65536) mod 1024].
Definition character (c : Z) : Prop := 0 < c < 0xD800 \/ 0xE000 <= c < 0x110000.
(** What a column means: nothing, a space, a tab, a tag, or its characters. *)
Inductive column (hfst : bool) : ustr -> list symbol -> Prop :=
| col_empty : column hfst [] []
| col_zero : column hfst sp_zero []
| col_epsilon : column hfst sp_epsilon []
| col_greek : hfst = false -> column hfst sp_greek []
| col_space : column hfst sp_space [SChar 32]
| col_tab : column hfst sp_tab [SChar 9]
| col_tag s : tag_text s -> column hfst s [STag s]
| col_chars cs : Forall character cs -> ~ In (flat_map utf16 cs) (specials hfst) -> ~ tag_text (flat_map utf16 cs) ->
    column hfst (flat_map utf16 cs) (map SChar cs).
(** The columns of a line. *)
Inductive columns (hfst : bool) : list ustr -> line -> Prop :=
| cl_arc c0 c1 c2 c3 s s' u l : numeral c0 s -> numeral c1 s' -> column hfst c2 u -> column hfst c3 l ->
    columns hfst [c0; c1; c2; c3] (LArc s s' u l 0)
| cl_weighted c0 c1 c2 c3 c4 s s' u l w : numeral c0 s -> numeral c1 s' -> column hfst c2 u -> column hfst c3 l -> amount c4 w ->
    columns hfst [c0; c1; c2; c3; c4] (LArc s s' u l w)
| cl_final c0 s : numeral c0 s -> columns hfst [c0] (LFinal s 0)
| cl_final_weighted c0 c1 s w : numeral c0 s -> amount c1 w -> columns hfst [c0; c1] (LFinal s w).
(** Columns are separated by tabs; lines end with a newline. *)
Definition plain_unit (c : Z) : Prop := c <> 9 /\ c <> 10 /\ c <> 65535.
Fixpoint tabbed (cols : list ustr) : ustr :=
  match cols with
  | [] => []
  | [c] => c
  | c :: r => c ++ [9] ++ tabbed r
  end.
Definition line_text (cols : list ustr) : ustr := tabbed cols ++ [10].
Definition line_says (hfst : bool) (cols : list ustr) (l : line) : Prop :=
  columns hfst cols l /\ Forall (Forall plain_unit) cols.
(** A transducer in a file; the first line has more than one column. *)
Definition machine_says (hfst : bool) (rows : list (list ustr)) (m : list line) : Prop :=
  Forall2 (line_says hfst) rows m /\ exists c0 c1 cols rest, rows = (c0 :: c1 :: cols) :: rest.
(** Several are separated by a line with hyphens. *)
Inductive file_says (hfst : bool) : ustr -> list (list line) -> Prop :=
| fs_one rows m : machine_says hfst rows m -> file_says hfst (flat_map line_text rows) [m]
| fs_more rows m text ms : machine_says hfst rows m -> file_says hfst text ms ->
    file_says hfst (flat_map line_text rows ++ line_text [[45; 45]] ++ text) (m :: ms).

(** State numbers are small enough for int, also after renumbering. *)
Definition top_state (m : list line) : Z := fold_right Z.max 0 (flat_map line_states m).
Definition fits (ms : list (list line)) : Prop := fold_right (fun m n => top_state m + 1 + n) 1 ms < 2 ^ 31.

(** The words of a compiled section; the second column is read when [rl]. *)
Definition section_means (rl : bool) (t : transducer) (a : alphabet) (x y : list symbol) (c : Z) : Prop :=
  if rl then srel t a y x c else srel t a x y c.

(** * Words and punctuation *)
(** The side that is read. *)
Definition side (rl : bool) (u l : list symbol) : list symbol := if rl then l else u.
Definition line_chars (l : line) : list symbol := match l with LArc _ _ u v _ => u ++ v | LFinal _ _ => [] end.
Definition combining_mark (c : Z) : Prop :=
  0x0300 <= c <= 0x036F \/ 0x1AB0 <= c <= 0x1AFF \/ 0x1DC0 <= c <= 0x1DFF \/ 0x20D0 <= c <= 0x20FF \/ 0xFE20 <= c <= 0xFE2F.
Definition word_letter (punct space : Z -> bool) (c : Z) : Prop :=
  combining_mark c \/ (punct c = false /\ space c = false).
(** A letter and its other case. *)
Definition letter_of (punct space lower upper : Z -> bool) (toupper tolower : Z -> Z) (c v : Z) : Prop :=
  word_letter punct space c
  /\ (v = c \/ (lower c = true /\ v = toupper c) \/ (lower c = false /\ upper c = true /\ v = tolower c)).
(** The state is reached from [s0] without reading a character of the class. *)
Inductive reached_without (rl : bool) (K : Z -> Prop) (m : list line) (s0 : Z) : Z -> Prop :=
| rw_start : reached_without rl K m s0 s0
| rw_step s s' u l w : reached_without rl K m s0 s -> In (LArc s s' u l w) m ->
    (forall c, In (SChar c) (side rl u l) -> ~ K c) -> reached_without rl K m s0 s'.
(** A walk that leaves no such state. *)
Inductive walk_apart (rl : bool) (K : Z -> Prop) (m : list line) (s0 : Z) : Z -> list symbol -> list symbol -> Z -> Z -> Prop :=
| wa_nil s : walk_apart rl K m s0 s [] [] 0 s
| wa_cons s s' u l w x y c s'' : ~ reached_without rl K m s0 s -> In (LArc s s' u l w) m ->
    walk_apart rl K m s0 s' x y c s'' -> walk_apart rl K m s0 s (u ++ x) (l ++ y) (w + c) s''.
(** Every line that leaves the start begins with a word character or with punctuation, and
    the start is not final. *)
Definition plain_start (rl : bool) (punct space : Z -> bool) (m : list line) : Prop :=
  (forall f, ~ In (LFinal (start_of m) f) m)
  /\ (forall s' u l w, In (LArc (start_of m) s' u l w) m ->
        exists c r, side rl u l = SChar c :: r /\ (word_letter punct space c \/ punct c = true)).
(** No line leads back to the start. *)
Definition fresh_start (m : list line) : Prop := forall s u l w, ~ In (LArc s (start_of m) u l w) m.

(** * Printing *)
(** A symbol that a column can hold: nothing, a tag, or a character that is no separator and is
    not read as something else. *)
Definition printable (hfst : bool) (s : symbol) : Prop :=
  match s with
  | STag n => tag_text n /\ Forall (fun c => plain_unit c /\ c <> 0) n
  | SChar c => c = 0 \/ (character c /\ c <> 10 /\ c <> 65535 /\ (hfst = false -> c <> 9 /\ c <> 949))
  end.
Definition prints (hfst : bool) (a : alphabet) (t : transducer) : Prop :=
  forall p tag q w s, has_arc t p tag q w -> as_symbols a tag s -> printable hfst (fst s) /\ printable hfst (snd s).
(** No two arcs differ in weight only. *)
Definition one_weight (t : transducer) : Prop :=
  forall p tag q w w', has_arc t p tag q w -> has_arc t p tag q w' -> w = w'.
(** A section that can be printed. *)
Definition section_prints (hfst : bool) (a : alphabet) (t : transducer) : Prop :=
  wf t /\ initial t = 0%nat /\ finals t <> [] /\ arcs_of t 0 <> [] /\ symbols_in t a /\ prints hfst a t.
