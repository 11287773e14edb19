(** What a dictionary with restricted entries means: the words of its sections when only some
    of the entries count.  Independent of the compiler and of lt-restrict; of the models only
    the types of their inputs are used. *)
From Verif Require Import Base AlphabetModel ExpanderModel CompilerModel CompilerSpec UnifiedModel.

(** Entries with their attributes. *)
Definition rentry : Type := attributes * list entry_token.
Inductive ritem :=
| RPardef (name : ustr) (es : list rentry)
| RSec (name : ustr) (es : list rentry).

(** The words of the entries that [sel] chooses. *)
Definition chosen_set (sel : attributes -> Prop) (left_to_right : bool) (env : ustr -> pset) (es : list rentry) : pset :=
  fun w => exists at_ els, In (at_, els) es /\ sel at_ /\ entry_set left_to_right env els w.
Fixpoint chosen_section (sel : attributes -> Prop) (left_to_right : bool) (env : ustr -> pset) (items : list ritem) (name : ustr) : pset :=
  match items with
  | [] => no_words
  | RPardef n es :: r =>
      chosen_section sel left_to_right (define n (chosen_set sel left_to_right env es) env) r name
  | RSec n es :: r =>
      join_sets (fun w => n = name /\ chosen_set sel left_to_right env es w) (chosen_section sel left_to_right env r name)
  end.

(** [f] is one of the words of [value], which spaces separate. *)
Definition has_word (value f : ustr) : Prop :=
  f <> [] /\ ~ In 32 f /\ exists pre post, value = pre ++ f ++ post
    /\ (pre = [] \/ exists p, pre = p ++ [32]) /\ (post = [] \/ exists q, post = 32 :: q).
(** An attribute admits what it names; without a word it admits all. *)
Definition admitted (value : ustr) (wanted : list ustr) : Prop :=
  (forall f, ~ has_word value f) \/ exists f, In f wanted /\ has_word value f.
(** The direction given: lr, LR, rl or RL. *)
Definition direction (left_to_right : bool) (r : restriction) : Prop :=
  r_dir r = (if left_to_right then [108; 114] else [114; 108]) \/ r_dir r = if left_to_right then LR_val else RL_val.
(** The entries lt-restrict is to leave: those for the direction, the alternatives and the
    variants asked for; without variants, those for any. *)
Definition kept (left_to_right : bool) (r : restriction) (at_ : attributes) : Prop :=
  at_ignore at_ <> yes_val
  /\ admitted (at_r at_) [if left_to_right then LR_val else RL_val]
  /\ admitted (at_alt at_) (r_alt r)
  /\ (r_var r = [] \/ admitted (at_v at_) (r_var r))
  /\ admitted (at_vl at_) (r_vl r) /\ admitted (at_vr at_) (r_vr r).

(** * Dictionaries for which this is so *)
Definition item_entries (it : ritem) : list rentry := match it with RPardef _ es | RSec _ es => es end.
Definition all_entries (items : list ritem) : list rentry := flat_map item_entries items.
Definition item_event (it : ritem) : list uevent :=
  match it with
  | RPardef n es => UEvent (PardefStart n) :: map (fun e => UEntry (fst e) (snd e)) es ++ [UEvent PardefEnd]
  | RSec n es => UEvent (SectionStart n) :: map (fun e => UEntry (fst e) (snd e)) es ++ [UEvent SectionEnd]
  end.
Definition ritem_events (items : list ritem) : list uevent := flat_map item_event items.

(** The dictionary without its attributes, the ignored entries left out. *)
Definition not_ignored (e : rentry) : bool := if ustr_eq_dec (at_ignore (fst e)) yes_val then false else true.
Definition bare_item (it : ritem) : CompilerSpec.item :=
  match it with
  | RPardef n es => Pardef n (map snd (filter not_ignored es))
  | RSec n es => Sec n (map snd (filter not_ignored es))
  end.
Definition bare (items : list ritem) : list CompilerSpec.item := map bare_item items.

(** A name that could be taken for a restriction: it begins with <r:, <alt:, <v:, <vl: or <vr: *)
Definition restricting (t : ustr) : Prop :=
  exists p rest, In p [[114]; [97; 108; 116]; [118]; [118; 108]; [118; 114]] /\ t = [60] ++ p ++ [58] ++ rest.
(** Symbols of entries are letters or among the [n] first of the alphabet. *)
Definition written (n : nat) (el : entry_token) : Prop :=
  match el with
  | Single l r _ => Forall (fun c => - Z.of_nat n <= c) (l ++ r)
  | Paradigm _ => True
  | Regexp er => Forall (fun c => 0 <= c) er
  end.
(** The attributes of an entry, and their values with hyphens between them. *)
Definition values (at_ : attributes) : list ustr := [at_r at_; at_alt at_; at_v at_; at_vl at_; at_vr at_].
Definition hyphened (at_ : attributes) : ustr :=
  at_r at_ ++ [45] ++ at_alt at_ ++ [45] ++ at_v at_ ++ [45] ++ at_vl at_ ++ [45] ++ at_vr at_.
(** The dictionary defines what it uses; no symbol is like a restriction; different attributes
    are different with hyphens too, and no paradigm has such a name after --. *)
Record restrictable (names : list ustr) (items : list ritem) : Prop := {
  rs_dict : dict_ok true (fun _ => no_words) [] (bare items);
  rs_names : forall t, In t names -> ~ restricting t;
  rs_entries : forall at_ els, In (at_, els) (all_entries items) -> Forall (written (length names)) els;
  rs_apart : forall at1 els1 at2 els2, In (at1, els1) (all_entries items) -> In (at2, els2) (all_entries items) ->
    hyphened at1 = hyphened at2 -> values at1 = values at2;
  rs_pardefs : forall at_ els, In (at_, els) (all_entries items) -> ~ In ([45; 45] ++ hyphened at_) (pardef_names (bare items))
}.
