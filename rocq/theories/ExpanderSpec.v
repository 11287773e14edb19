(** What the expansion of a dictionary is.  Independent of the expander; only the types of
    its input are used. *)
From Verif Require Import Base AlphabetModel ExpanderModel.

(** An expansion can be used in both directions or in one only. *)
Inductive direction := Both | LR | RL.
Definition expansion : Type := direction * ustr * ustr.
Definition meet (d e : direction) : option direction :=
  match d, e with
  | Both, _ => Some e
  | _, Both => Some d
  | LR, LR => Some LR
  | RL, RL => Some RL
  | _, _ => None
  end.
Definition follow (x y : expansion) : list expansion :=
  let '(d, l, r) := x in
  let '(e, l', r') := y in
  match meet d e with Some f => [(f, l ++ l', r ++ r')] | None => [] end.
Definition product (X Y : list expansion) : list expansion :=
  flat_map (fun x => flat_map (follow x) Y) X.

(** * How the parts of an entry are written *)
(** The characters that have a meaning in a line: ^ $ / < > { } \ * @ # + ~ : *)
Definition special (c : Z) : Prop := In c [94; 36; 47; 60; 62; 123; 125; 92; 42; 64; 35; 43; 126; 58].
(** [spells t s]: [t] is the text [s] with backslashes before these and before no others. *)
Inductive spells : ustr -> ustr -> Prop :=
| sp_nil : spells [] []
| sp_char c t s : ~ special c -> spells t s -> spells (c :: t) (c :: s)
| sp_escaped c t s : special c -> spells t s -> spells (92 :: c :: t) (c :: s).
(** In a regular expression a backslash already protects the character behind it. *)
Inductive re_spells : ustr -> ustr -> Prop :=
| re_nil : re_spells [] []
| re_end : re_spells [92] [92]
| re_protected c t s : re_spells t s -> re_spells (92 :: c :: t) (92 :: c :: s)
| re_char c t s : ~ special c -> re_spells t s -> re_spells (c :: t) (c :: s)
| re_special c t s : special c -> c <> 92 -> re_spells t s -> re_spells (92 :: c :: t) (c :: s).
Inductive shown (keep : bool) : piece -> ustr -> Prop :=
| sh_text s t : spells t s -> shown keep (PText s) t
| sh_blank : shown keep PBlank [32]
| sh_boundary : keep = true -> shown keep PMorph [62]
| sh_no_boundary : keep = false -> shown keep PMorph []
| sh_join : shown keep PJoin [43]
| sh_post : shown keep PPost [126]
| sh_group : shown keep PGroup [35]
| sh_group_end : shown keep PGroupEnd []
| sh_sym n : shown keep (PSym n) ([60] ++ n ++ [62])
| sh_word : shown keep PWord [60; 36; 62]                                             (* <$> *)
| sh_char : shown keep PAnyChar [60; 65; 78; 89; 95; 67; 72; 65; 82; 62]               (* <ANY_CHAR> *)
| sh_tag : shown keep PAnyTag [60; 65; 78; 89; 95; 84; 65; 71; 62].                    (* <ANY_TAG> *)
Definition written (keep : bool) (l : list piece) (t : ustr) : Prop :=
  exists ts, Forall2 (shown keep) l ts /\ t = concat ts.

(** The choices for the elements of an entry. *)
Definition literal (o : options) (el : element) (l r : ustr) : Prop :=
  match el with
  | EId s => written (o_keep o) s l /\ r = l
  | EGroup s => written (o_keep o) s l /\ r = [35] ++ l
  | EPair a b => written (o_keep o) a l /\ written (o_keep o) b r
  | ERe s => exists t, re_spells t s /\ l = [95; 95; 82; 69; 71; 69; 88; 80; 95; 95] ++ t /\ r = l  (* __REGEXP__ *)
  | _ => False
  end.
Definition env : Type := ustr -> list expansion.
Inductive choices (o : options) (E : env) : list element -> list expansion -> Prop :=
| ch_nil : choices o E [] [(Both, [], [])]
| ch_literal el l r els X : literal o el l r -> choices o E els X ->
    choices o E (el :: els) (product [(Both, l, r)] X)
| ch_par n els X : choices o E els X -> choices o E (EPar n :: els) (product (E n) X).

(** The directions of an entry. *)
Definition mismatch (value wanted : ustr) : Prop := value <> [] /\ value <> wanted.
Definition for_lr (o : options) (a : attributes) : Prop :=
  at_r a <> RL_val /\ ~ mismatch (at_vr a) (o_vr o).
Definition for_rl (o : options) (a : attributes) : Prop :=
  at_r a <> LR_val /\ ~ mismatch (at_v a) (o_v o) /\ ~ mismatch (at_vl a) (o_vl o).
Definition used (o : options) (a : attributes) : Prop :=
  at_ignore a <> yes_val /\ ~ mismatch (at_alt a) (o_alt o) /\ (for_lr o a \/ for_rl o a).
Definition direction_of (o : options) (a : attributes) (d : direction) : Prop :=
  match d with
  | Both => for_lr o a /\ for_rl o a
  | LR => for_lr o a /\ ~ for_rl o a
  | RL => for_rl o a /\ ~ for_lr o a
  end.
(** The expansions of an entry. *)
Inductive entry_expansions (o : options) (E : env) (a : attributes) (els : list element) : list expansion -> Prop :=
| ee_unused : ~ used o a -> entry_expansions o E a els []
| ee_used d X : used o a -> direction_of o a d -> choices o E els X ->
    entry_expansions o E a els (product [(d, [], [])] X).

(** A dictionary: paradigms and sections, in order. *)
Inductive item :=
| Pardef (name : ustr) (es : list (attributes * list element))
| Sec (es : list (attributes * list element)).
Definition entry_node (e : attributes * list element) : node := NEntry (fst e) (snd e).
Definition item_nodes (it : item) : list node :=
  match it with
  | Pardef n es => NPardef n :: map entry_node es ++ [NPardefEnd]
  | Sec es => NOther :: map entry_node es ++ [NOther]
  end.
Definition define (n : ustr) (X : list expansion) (E : env) : env :=
  fun m => if ustr_eq_dec m n then X else E m.
(** The expansions of all entries of the sections, in order. *)
Inductive dictionary (o : options) : env -> list item -> list (list expansion) -> Prop :=
| di_nil E : dictionary o E [] []
| di_pardef E n es Xs items Ys :
    Forall2 (fun e X => entry_expansions o E (fst e) (snd e) X) es Xs ->
    dictionary o (define n (concat Xs) E) items Ys ->
    dictionary o E (Pardef n es :: items) Ys
| di_section E es Xs items Ys :
    Forall2 (fun e X => entry_expansions o E (fst e) (snd e) X) es Xs ->
    dictionary o E items Ys ->
    dictionary o E (Sec es :: items) (Xs ++ Ys).
Definition show (x : expansion) : ustr :=
  let '(d, l, r) := x in
  l ++ match d with Both => [58] | LR => [58; 62; 58] | RL => [58; 60; 58] end ++ r ++ [10].

(** * Dictionaries for which this is what the expander does *)
(** No text begins with one of the special characters. *)
Definition plain_start (p : piece) : Prop :=
  match p with PText s => s <> [] /\ ~ special (hd 0 s) | _ => True end.
Definition plain_starts (el : element) : Prop :=
  match el with
  | EId s | EGroup s => Forall plain_start s
  | EPair l r => Forall plain_start l /\ Forall plain_start r
  | _ => True
  end.
(** Not both v and vr exclude the entry.  Paradigms used have expansions.  In an entry marked
    LR or RL a paradigm which is not the last element has expansions for that direction; in
    an entry for both directions a paradigm before another one has expansions for both
    directions only; an entry for one direction by its variant has no paradigms. *)
Definition entry_fine (o : options) (E : env) (e : attributes * list element) : Prop :=
  let '(a, els) := e in
  ~ (mismatch (at_v a) (o_v o) /\ mismatch (at_vr a) (o_vr o))
  /\ (used o a ->
      Forall plain_starts els
      /\ (forall n, In (EPar n) els -> E n <> [])
      /\ (at_r a = LR_val -> forall pre n post, els = pre ++ EPar n :: post -> post <> [] ->
           exists d l r, In (d, l, r) (E n) /\ d <> RL)
      /\ (at_r a = RL_val -> forall pre n post, els = pre ++ EPar n :: post -> post <> [] ->
           exists d l r, In (d, l, r) (E n) /\ d <> LR)
      /\ (direction_of o a Both -> forall pre n mid m post, els = pre ++ EPar n :: mid ++ EPar m :: post ->
           forall x, In x (E n) -> fst (fst x) = Both)
      /\ (at_r a <> LR_val -> at_r a <> RL_val -> ~ direction_of o a Both -> forall n, ~ In (EPar n) els)).
(** Paradigms are defined once and before they are used. *)
Inductive dictionary_fine (o : options) : env -> list ustr -> list item -> Prop :=
| df_nil E ns : dictionary_fine o E ns []
| df_pardef E ns n es Xs items : n <> [] -> ~ In n ns -> Forall (entry_fine o E) es ->
    Forall2 (fun e X => entry_expansions o E (fst e) (snd e) X) es Xs ->
    dictionary_fine o (define n (concat Xs) E) (n :: ns) items ->
    dictionary_fine o E ns (Pardef n es :: items)
| df_section E ns es items : Forall (entry_fine o E) es -> dictionary_fine o E ns items ->
    dictionary_fine o E ns (Sec es :: items).
