(** What a dictionary means: a set of words for every section, a word being a list of
    pairs of symbols.  Independent of the compiler; only the type of its input is used. *)
From Verif Require Import Base AlphabetModel RegexpModel RegexpSpec CompilerModel.

Definition pset : Type := list (Z * Z) -> Prop.
Definition cat (X Y : pset) : pset := fun w => exists u v, w = u ++ v /\ X u /\ Y v.
Definition join_sets (X Y : pset) : pset := fun w => X w \/ Y w.

(** Two sides, symbol by symbol; the shorter side is filled up with the empty symbol 0. *)
Fixpoint align (ls rs : list Z) : list (Z * Z) :=
  match ls, rs with
  | [], _ => map (fun y => (0, y)) rs
  | x :: ls, [] => (x, 0) :: align ls []
  | x :: ls, y :: rs => (x, y) :: align ls rs
  end.

(** The symbols a negated class of a regular expression chooses from. *)
Definition latin1 (c : Z) : Prop := 0 <= c <= 255.
Definition same_pairs (cs : list Z) : list (Z * Z) :=
  map (fun c => (c, c)) (filter (fun c => negb (c =? 0)) cs).

(** The words of an element, for the given direction and meaning of the paradigms. *)
Definition element_set (left_to_right : bool) (env : ustr -> pset) (el : entry_token) : pset :=
  match el with
  | Single l r _ => fun w => w = if left_to_right then align l r else align r l
  | Paradigm n => env n
  | Regexp er => fun w => exists r cs, g_alt r er /\ choosable latin1 r /\ den latin1 r cs /\ w = same_pairs cs
  end.
Fixpoint entry_set (left_to_right : bool) (env : ustr -> pset) (els : list entry_token) : pset :=
  match els with
  | [] => fun w => w = []
  | el :: r => cat (element_set left_to_right env el) (entry_set left_to_right env r)
  end.
Definition entries_set (left_to_right : bool) (env : ustr -> pset) (es : list (list entry_token)) : pset :=
  fun w => exists els, In els es /\ entry_set left_to_right env els w.

(** A dictionary: paradigm definitions and sections, in order. *)
Inductive item :=
| Pardef (name : ustr) (es : list (list entry_token))
| Sec (name : ustr) (es : list (list entry_token)).
Definition item_events (it : item) : list event :=
  match it with
  | Pardef n es => PardefStart n :: map Entry es ++ [PardefEnd]
  | Sec n es => SectionStart n :: map Entry es ++ [SectionEnd]
  end.
Definition dict_events (items : list item) : list event := flat_map item_events items.

(** The paradigms a dictionary defines. *)
Fixpoint pardef_names (items : list item) : list ustr :=
  match items with
  | [] => []
  | Pardef n _ :: r => n :: pardef_names r
  | Sec _ _ :: r => pardef_names r
  end.

Definition no_words : pset := fun _ => False.
Definition define (n : ustr) (X : pset) (env : ustr -> pset) : ustr -> pset :=
  fun m => if ustr_eq_dec m n then X else env m.
(** The words of the sections of the given name. *)
Fixpoint section_set (left_to_right : bool) (env : ustr -> pset) (items : list item) (name : ustr) : pset :=
  match items with
  | [] => no_words
  | Pardef n es :: r => section_set left_to_right (define n (entries_set left_to_right env es) env) r name
  | Sec n es :: r =>
      join_sets (fun w => n = name /\ entries_set left_to_right env es w) (section_set left_to_right env r name)
  end.

(** * Dictionaries for which this is what the compiler does *)
Definition bounded (X : pset) : Prop := exists N, forall w, X w -> (length w <= N)%nat.
(** No empty symbols, expressions that can be parsed, paradigms that are defined; and
    before the last element only paradigms whose words have a longest one. *)
Definition element_ok (env : ustr -> pset) (defined : list ustr) (last : bool) (el : entry_token) : Prop :=
  match el with
  | Single l r _ => ~ In 0 l /\ ~ In 0 r
  | Paradigm n => In n defined /\ (last = false -> bounded (env n))
  | Regexp er => exists r, g_alt r er /\ Forall (fun c => c <> FIN_FICHERO) er /\ choosable latin1 r
  end.
Fixpoint entry_ok (env : ustr -> pset) (defined : list ustr) (els : list entry_token) : Prop :=
  match els with
  | [] => True
  | el :: r => element_ok env defined (match r with [] => true | _ => false end) el /\ entry_ok env defined r
  end.
(** Paradigms are defined once, before they are used, and the last one before a section is
    not empty. *)
Fixpoint dict_ok (left_to_right : bool) (env : ustr -> pset) (defined : list ustr) (items : list item) : Prop :=
  match items with
  | [] => True
  | Pardef n es :: r =>
      n <> [] /\ ~ In n defined /\ Forall (entry_ok env defined) es
      /\ match r with
         | Sec _ _ :: _ => exists w, entries_set left_to_right env es w
         | _ => True
         end
      /\ dict_ok left_to_right (define n (entries_set left_to_right env es) env) (n :: defined) r
  | Sec n es :: r => Forall (entry_ok env defined) es /\ dict_ok left_to_right env defined r
  end.
