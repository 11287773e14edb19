(** Unified compilation, Compiler::symbolFilters and the first branch of procEntry
    (lttoolbox/compiler.cc:709-793), and lt-restrict (lttoolbox/lt_restrict.cc:23-119).
    Definitions only.  Entries come with their attributes; parts of the compiler as in
    CompilerModel.v, file contents as lists of sections.  The options of lt-restrict are given
    as strings (to_ustring is not modelled). *)
From Verif Require Import Base AlphabetModel SortedVectorModel TransducerModel RelabelModel StringModel ExpanderModel CompilerModel.

(** "<" prefix ":" word ">", compiler.cc:715-721 and lt_restrict.cc:26-32 *)
Definition filter_tag (prefix word : ustr) : ustr := [60] ++ prefix ++ [58] ++ word ++ [62].
Definition p_r : ustr := [114].
Definition p_alt : ustr := [97; 108; 116].
Definition p_v : ustr := [118].
Definition p_vl : ustr := [118; 108].
Definition p_vr : ustr := [118; 114].

(** * Compiling for both directions and all variants *)
(** compiler.cc:714-724 *)
Fixpoint filter_symbols (prefix : ustr) (words : list ustr) (a : alphabet) : list Z * alphabet :=
  match words with
  | [] => ([], a)
  | [] :: r => filter_symbols prefix r a
  | w :: r =>
      let tag := filter_tag prefix w in
      let a := includeSymbol tag a in
      let c := symbol_code tag a in
      let '(cs, a) := filter_symbols prefix r a in
      (c :: cs, a)
  end.
(** compiler.cc:709-726 [symbolFilters]: the vectors pushed (none or one) *)
Definition symbolFilters (value prefix : ustr) (a : alphabet) : outcome (list (list Z) * alphabet) :=
  match value with
  | [] => Ok ([], a)
  | _ =>
      let! words := split (S (length value)) value [32] in
      let '(syms, a) := filter_symbols prefix words a in
      Ok (match syms with [] => [] | _ => [syms] end, a)
  end.
(** compiler.cc:743-748 *)
Definition entry_filters (at_ : attributes) (a : alphabet) : outcome (list (list Z) * alphabet) :=
  let! (s1, a) := symbolFilters (at_r at_) p_r a in
  let! (s2, a) := symbolFilters (at_alt at_) p_alt a in
  let! (s3, a) := symbolFilters (at_v at_) p_v a in
  let! (s4, a) := symbolFilters (at_vl at_) p_vl a in
  let! (s5, a) := symbolFilters (at_vr at_) p_vr a in
  Ok (s1 ++ s2 ++ s3 ++ s4 ++ s5, a).
(** compiler.cc:758-766 *)
Definition filter_paradigm (at_ : attributes) : ustr :=
  [45; 45] ++ at_r at_ ++ [45] ++ at_alt at_ ++ [45] ++ at_v at_ ++ [45] ++ at_vl at_ ++ [45] ++ at_vr at_.
(** compiler.cc:768-776 *)
Definition filter_regexp (symbols : list (list Z)) : list Z :=
  flat_map (fun it => match it with [c] => [c] | _ => [91] ++ it ++ [93] end) symbols.
Definition with_alph (a : alphabet) (c : compiler) : compiler :=
  mkComp a (c_pars c) (c_secs c) (c_caches c) (current_paradigm c) (current_section c).
Definition with_paradigm (p : ustr) (c : compiler) : compiler :=
  mkComp (c_alph c) (c_pars c) (c_secs c) (c_caches c) p (current_section c).
(** compiler.cc:742-793: the first elements of the entry *)
Definition filter_elements (s : settings) (at_ : attributes) (c : compiler) : outcome (list entry_token * compiler) :=
  let! (symbols, a) := entry_filters at_ (c_alph c) in
  let c := with_alph a c in
  match symbols with
  | [] => Ok ([], c)
  | _ =>
      if existsb (fun it => (1 <? length it)%nat) symbols then
        let parname := filter_paradigm at_ in
        let! c :=
          match name_find parname (c_pars c) with
          | Some _ => Ok c
          | None =>
              let! c' := insertEntryTokens s [Regexp (filter_regexp symbols)] (with_paradigm parname c) in
              Ok (with_paradigm (current_paradigm c) c')
          end in
        Ok ([Paradigm parname], c)
      else
        let syms := map (fun it => hd 0 it) symbols in
        Ok ([Single syms syms 0], c)
  end.

(** An entry and what surrounds it *)
Inductive uevent :=
| UEvent (ev : event)
| UEntry (at_ : attributes) (els : list entry_token).
(** compiler.cc:728-917 [procEntry], unified: an ignored entry is skipped (794-812) *)
Definition uproc (s : settings) (ev : uevent) (c : compiler) : outcome compiler :=
  match ev with
  | UEvent ev => proc s ev c
  | UEntry at_ els =>
      if ustr_eq_dec (at_ignore at_) yes_val then Ok c
      else
        let! (pre, c) := filter_elements s at_ c in
        let! keep := scan_entry c els in
        if keep then insertEntryTokens s (pre ++ els) c else Ok c
  end.
Fixpoint uprocs (s : settings) (evs : list uevent) (c : compiler) : outcome compiler :=
  match evs with
  | [] => Ok c
  | ev :: evs => let! c := uproc s ev c in uprocs s evs c
  end.
(** compiler.cc:44-88 [parse] with the direction "u": compiled from left to right *)
Definition compile_unified (a : alphabet) (evs : list uevent) : outcome (alphabet * list (ustr * transducer)) :=
  let s := mkSet true [] None in
  let! c := uprocs s evs (new_compiler a) in
  let! m := minimize_all (c_secs c) in
  Ok (c_alph c, m).
(** with the check at the end, 100-106 *)
Definition parse_unified (a : alphabet) (evs : list uevent) : outcome (alphabet * list (ustr * transducer)) :=
  let! (a, m) := compile_unified a evs in
  let! ok := valid a m in
  if ok then Ok (a, m) else Exit.

(** * lt-restrict *)
(** The arguments: direction, variants, alternatives, variants of the left and of the right
    language, whether to minimise (option -m or LT_RELEASE). *)
Record restriction := mkRestr {
  r_dir : ustr; r_var : list ustr; r_alt : list ustr; r_vl : list ustr; r_vr : list ustr; r_min : bool
}.
(** 23-35 [get_symbol] *)
Definition get_symbol (word prefix : ustr) (a : alphabet) (vec : list Z) : list Z * alphabet :=
  let t := filter_tag prefix word in
  if isSymbolDefined t a then
    let '(c, a) := pair_code (symbol_code t a, symbol_code t a) a in
    (sv_insert Z.ltb c vec, a)
  else (vec, a).
Fixpoint get_symbols (words : list ustr) (prefix : ustr) (a : alphabet) (vec : list Z) : list Z * alphabet :=
  match words with
  | [] => (vec, a)
  | w :: r => let '(vec, a) := get_symbol w prefix a vec in get_symbols r prefix a vec
  end.
(** 51-53 *)
Definition upper_direction (d : ustr) : ustr :=
  if ustr_eq_dec d [108; 114] then LR_val else if ustr_eq_dec d [114; 108] then RL_val else d.
(** 65-78 *)
Definition kept_symbols (r : restriction) (a : alphabet) : list Z * alphabet :=
  let '(k, a) := get_symbol (upper_direction (r_dir r)) p_r a [] in
  let '(k, a) := get_symbols (r_var r) p_v a k in
  let '(k, a) := get_symbols (r_alt r) p_alt a k in
  let '(k, a) := get_symbols (r_vl r) p_vl a k in
  get_symbols (r_vr r) p_vr a k.
Definition prefixed (p t : ustr) : bool := startswith t ([60] ++ p ++ [58]).
(** 80-96: the names of the alphabet from [i] on *)
Fixpoint sort_symbols (has_var : bool) (names : list ustr) (i : Z) (a : alphabet) (keep drop : list Z) : list Z * list Z * alphabet :=
  match names with
  | [] => (keep, drop, a)
  | t :: r =>
      if prefixed p_r t || (has_var && prefixed p_v t) || prefixed p_alt t || prefixed p_vl t || prefixed p_vr t then
        let '(s, a) := pair_code (- i, - i) a in
        let drop := if existsb (Z.eqb s) keep then drop else sv_insert Z.ltb s drop in
        sort_symbols has_var r (i + 1) a keep drop
      else if negb has_var && prefixed p_v t then
        let '(s, a) := pair_code (- i, - i) a in
        sort_symbols has_var r (i + 1) a (sv_insert Z.ltb s keep) drop
      else sort_symbols has_var r (i + 1) a keep drop
  end.
(** 104-112 *)
Fixpoint restrict_sections (fuel : nat) (r : restriction) (keep drop : list Z) (m : list (ustr * transducer)) (a : alphabet)
  : outcome (list (ustr * transducer) * alphabet) :=
  match m with
  | [] => Ok ([], a)
  | (name, t) :: rest =>
      let t := deleteSymbols drop t in
      let! t := epsilonizeSymbols fuel keep t in
      let! (t, a) := if ustr_eq_dec (upper_direction (r_dir r)) RL_val then invert t a else Ok (t, a) in
      let! t := if r_min r then minimize 0 t else Ok t in
      let! (rest, a) := restrict_sections fuel r keep drop rest a in
      Ok ((name, t) :: rest, a)
  end.
(** 57-114: from the contents of the file to that of the result; [fuel] bounds the loop of
    epsilonizeSymbols *)
Definition lt_restrict (fuel : nat) (r : restriction) (a : alphabet) (m : list (ustr * transducer))
  : outcome (alphabet * list (ustr * transducer)) :=
  let '(keep, a) := kept_symbols r a in
  let has_var := match r_var r with [] => false | _ => true end in
  let '(keep, drop, a) := sort_symbols has_var (slexicinv a) 1 a keep [] in
  let! (m, a) := restrict_sections fuel r keep drop m a in
  Ok (a, m).
