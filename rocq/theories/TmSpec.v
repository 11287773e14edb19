(** What looking a text up in a translation memory should give (C77): the text is cut into
    units of the memory, which are replaced by their translations, and the rest, which is
    kept.  Nothing here uses the input buffer, the queue of blanks or the numbers read. *)
From Verif Require Import Base AlphabetModel StateModel StateSpec FinalsModel InputModel InputProps StreamModel StreamProps
  ProcessorModel CompoundProps AnalysisSpec.

(** * Texts *)
Inductive bit :=
| Char (c : Z) | Esc (c : Z) | Number (digits : list Z) | Super (body : list Z) | Wblank (body : list Z).
Definition bit_text (i : bit) : list Z :=
  match i with
  | Char c => [c]
  | Esc c => [92; c]
  | Number ds => ds
  | Super b => 91 :: b ++ [93]
  | Wblank b => 91 :: 91 :: b ++ [93; 93]
  end.
Definition bits_text (l : list bit) : list Z := concat (map bit_text l).
(** What the memory is asked for: a number is the symbol -1, a blank is a space. *)
Definition bit_symbol (i : bit) : Z :=
  match i with Char c | Esc c => c | Number _ => -1 | Super _ | Wblank _ => 32 end.
Notation syms := (map bit_symbol).
Definition bit_blanks (i : bit) : list ustr :=
  match i with Super _ | Wblank _ => [utf16_text (bit_text i)] | _ => [] end.
Definition bit_numbers (i : bit) : list ustr := match i with Number ds => [ds] | _ => [] end.
Definition blanks_in (l : list bit) : list ustr := flat_map bit_blanks l.
Definition numbers_in (l : list bit) : list ustr := flat_map bit_numbers l.
Definition ascii_digit (c : Z) : Prop := 48 <= c <= 57.
Definition bit_ok (isdigit : Z -> bool) (i : bit) : Prop :=
  match i with
  | Char c => scalar c /\ c <> 0 /\ ~ meta c /\ isdigit c = false
  | Esc c => meta c
  | Number ds => ds <> [] /\ Forall ascii_digit ds
  | Super b => Forall scalar b /\ block_body 93 b /\ hd 0 b <> 91
  | Wblank b => Forall scalar b /\ wblank_body b
  end.
Definition blank_bit (i : bit) : Prop := bit_blanks i <> [].
(** Two numbers do not touch. *)
Fixpoint apart (l : list bit) : Prop :=
  match l with
  | [] => True
  | i :: r => (match i, r with Number _, Number _ :: _ => False | _, _ => True end) /\ apart r
  end.

(** * Translations *)
(** The characters of a translation, special ones behind a backslash *)
Inductive spelled : list (Z * Z) -> ustr -> Prop :=
| sp_nil : spelled [] []
| sp_none w s t : spelled s t -> spelled ((0, w) :: s) t
| sp_char c w s t : scalar c -> c <> 0 -> ~ meta c -> spelled s t -> spelled ((c, w) :: s) (utf16 c ++ t)
| sp_meta c w s t : meta c -> spelled s t -> spelled ((c, w) :: s) ([92; c] ++ t).
Inductive slashed (fins : list (nat * Z)) : analyses -> ustr -> Prop :=
| sl_nil : slashed fins [] []
| sl_final q s d st x t : final_weight q fins <> None -> spelled s x -> slashed fins st t ->
    slashed fins (mkV q s d :: st) (47 :: x ++ t)
| sl_other q s d st t : final_weight q fins = None -> slashed fins st t -> slashed fins (mkV q s d :: st) t.

(** In a translation "(#)" stands for the next blank of the unit, or a space, and @(k), whose @
    has a backslash, for the k-th number. *)
Definition value (ds : list Z) : Z := fold_left (fun n c => 10 * n + (c - 48)) ds 0.
(** [f] has "@(" and a digit. *)
Definition refers (f : ustr) : Prop := exists a c r, f = a ++ [92; 64; 40] ++ c :: r /\ (ascii_digit c \/ 128 <= c).
Definition marks (f : ustr) : Prop := exists a, f = a ++ [40; 35].
Inductive filled (ns : list ustr) : list ustr -> ustr -> ustr -> list ustr -> Prop :=
| fi_end q t : ~ In 41 t -> filled ns q t t q
| fi_blank x b y q a r o q' : ~ In 41 a -> filled ns q r o q' ->
    filled ns ((x :: b ++ [y]) :: q) (a ++ [40; 35; 41] ++ r) (a ++ b ++ o) q'
| fi_space a r o q' : ~ In 41 a -> filled ns [] r o q' ->
    filled ns [] (a ++ [40; 35; 41] ++ r) (a ++ [32] ++ o) q'
| fi_number q a ds n r o q' : ~ In 41 a -> ds <> [] -> Forall ascii_digit ds -> value ds < 2 ^ 31 -> 1 <= value ds ->
    nth_error ns (Z.to_nat (value ds - 1)) = Some n -> filled ns q r o q' ->
    filled ns q (a ++ [92; 64; 40] ++ ds ++ [41] ++ r) (a ++ n ++ o) q'
| fi_close q a r o q' : ~ In 41 a -> ~ marks a -> ~ refers a -> filled ns q r o q' ->
    filled ns q (a ++ [41] ++ r) (a ++ [41] ++ o) q'.

(** Where units are and what their translations are, given which sequences of symbols begin a
    unit ([live]), are one ([accept]) and have the translations [t] ([answer]) *)
Section Spec.
  Context (isspace ispunct : Z -> bool) (space_mode : bool) (live accept : list Z -> Prop) (answer : list Z -> ustr -> Prop).

  Definition between_words_by (i : bit) : Prop := isspace (bit_symbol i) = true \/ ispunct (bit_symbol i) = true.
  (** What may follow a unit *)
  Definition stop_by (i : bit) : Prop :=
    ispunct (bit_symbol i) = true \/ (space_mode = true /\ isspace (bit_symbol i) = true).
  (** The first [k] bits are a unit, and what follows them may follow a unit. *)
  Definition unit_at_by (l : list bit) (k : nat) : Prop :=
    exists i, nth_error l k = Some i /\ stop_by i /\ accept (syms (firstn k l)).

  Inductive segment := Kept (l : list bit) | Unit (l : list bit) (next : bit) | Lost (l : list bit).
  (** [cut_by l segs]: from the left, [l] consists of [segs]. *)
  Inductive cut_by : list bit -> list segment -> Prop :=
  | cut_end : cut_by [] []
  | cut_gap g r segs : between_words_by g -> ~ live [bit_symbol g] -> ~ unit_at_by (g :: r) 0 -> cut_by r segs ->
      cut_by (g :: r) (Kept [g] :: segs)
  (* the beginning [u] of a unit, and the rest [w] of the word that is not as in the unit *)
  | cut_text u w r segs : (forall i x, u = i :: x -> ~ blank_bit i) -> Forall (fun i => forall c, i <> Esc c) (u ++ w) ->
      live (syms u) -> (forall i x, w ++ r = i :: x -> ~ live (syms (u ++ [i]))) -> w ++ r <> [] ->
      (forall k, (k <= length u)%nat -> ~ unit_at_by (u ++ w ++ r) k) ->
      Forall (fun i => ~ between_words_by i) w -> (forall i x, r = i :: x -> between_words_by i) ->
      (w = [] -> u <> []) -> (r = [] -> blanks_in u = []) -> cut_by r segs ->
      cut_by (u ++ w ++ r) (Kept (u ++ w) :: segs)
  | cut_unit u p r segs : (forall i x, u = i :: x -> ~ blank_bit i) -> u <> [] -> stop_by p ->
      accept (syms u) -> ~ live (syms (u ++ [p])) ->
      (forall k, (k < length u)%nat -> ~ unit_at_by (u ++ [p]) k) -> cut_by (p :: r) segs ->
      cut_by (u ++ p :: r) (Unit u p :: segs)
  (* the beginning of a unit, or a unit, at the end of the text *)
  | cut_lost u : (forall i x, u = i :: x -> ~ blank_bit i) -> u <> [] -> live (syms u) ->
      (forall k, (k < length u)%nat -> ~ unit_at_by u k) -> cut_by u [Lost u].

  (** The translation of a unit, with its numbers and blanks; all its blanks are used. *)
  Definition translated_by (u : list bit) (p : bit) (o : ustr) : Prop :=
    o <> [] /\ exists t, answer (syms u) t /\ filled (numbers_in u) (blanks_in (u ++ [p])) t (47 :: o) (blanks_in [p]).
  Inductive shown_by : list segment -> ustr -> Prop :=
  | sh_end : shown_by [] []
  | sh_kept l segs o : shown_by segs o -> shown_by (Kept l :: segs) (utf16_text (bits_text l) ++ o)
  | sh_unit u p segs x o : translated_by u p x -> shown_by segs o -> shown_by (Unit u p :: segs) ([91] ++ x ++ [93] ++ o)
  (* only the blanks remain *)
  | sh_lost u : shown_by [Lost u] (concat (blanks_in u)).
  (** The translations of a unit can be filled in. *)
  Definition fillable_by (s : segment) : Prop :=
    match s with
    | Kept _ | Lost _ => True
    | Unit u p => forall t, answer (syms u) t ->
        exists o, o <> [] /\ filled (numbers_in u) (blanks_in (u ++ [p])) t (47 :: o) (blanks_in [p])
    end.
End Spec.

(** * The units of a compiled memory: the paths of its graph *)
(** The translations of [w], each behind a slash: [t] *)
Definition answers (P : processor) (w : list Z) (t : ustr) : Prop :=
  exists st : analyses,
    (forall q s d, In (mkV q s d) st <-> exists l,
       reading (p_isupper P) (p_tolower P) false w l d /\ rpath (p_find P) (p_root P) l s q)
    /\ slashed (all_finals P) st t.
Notation between_words P ispunct := (between_words_by (p_isspace P) ispunct).
Notation stop P ispunct space_mode := (stop_by (p_isspace P) ispunct space_mode).
Notation unit_at P ispunct space_mode := (unit_at_by (p_isspace P) ispunct space_mode (accepting P false (all_finals P))).
Notation cut P ispunct space_mode := (cut_by (p_isspace P) ispunct space_mode (living P false) (accepting P false (all_finals P))).
Notation translated P := (translated_by (answers P)).
Notation shown P := (shown_by (answers P)).
Notation fillable P := (fillable_by (answers P)).

(** * The memories considered; what is assumed of ICU *)
Record memory_ok (P : processor) (ispunct isdigit : Z -> bool) : Prop := {
  mo_eps : eps_acyclic (p_find P);
  (* the symbol of numbers *)
  mo_number : symbol_code [60; 110; 62] (p_alpha P) = -1;
  (* translations consist of characters *)
  mo_texts : forall l s q, rpath (p_find P) (p_root P) l s q -> final_weight q (all_finals P) <> None ->
    Forall (fun x => scalar (fst x)) s;
  mo_space : p_isspace P 32 = true /\ (forall c, meta c -> p_isspace P c = false);
  mo_symbol : p_isspace P (-1) = false /\ ispunct (-1) = false;
  mo_digit : (forall c, ascii_digit c -> isdigit c = true) /\ (forall c, isdigit c = true -> c < 128 -> ascii_digit c)
    /\ isdigit U_EOF = false
}.
