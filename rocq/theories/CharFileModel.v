(** The files of characters: those to be ignored (ICX) and restored (RCX) by lt-proc
    (lttoolbox/fst_processor.cc:46-49, 67-176, lt_proc.cc:133-151) and those to be taken as
    equivalent by lt-comp and lt-apply-acx (acx.cc:24-60, xml_walk_util.cc:3-60, 80-90).
    Definitions only.

    libxml2 is not modelled: for lt-proc a document is the list of nodes the reader stops at
    and whether it fails after the last one (DixModel.v); for readACX it is the tree.  Messages
    are not modelled. *)
From Verif Require Import Base CompressionModel AlphabetModel CompilerModel DixModel RelabelModel FileModel ProcessorModel.

Definition n_ignored_chars : ustr := [105; 103; 110; 111; 114; 101; 100; 45; 99; 104; 97; 114; 115].  (* ignored-chars *)
Definition n_restore_chars : ustr := [114; 101; 115; 116; 111; 114; 101; 45; 99; 104; 97; 114; 115].  (* restore-chars *)
Definition n_restore_char : ustr := [114; 101; 115; 116; 111; 114; 101; 45; 99; 104; 97; 114].  (* restore-char *)
Definition n_char : ustr := [99; 104; 97; 114].  (* char *)
Definition n_equiv_char : ustr := [101; 113; 117; 105; 118; 45; 99; 104; 97; 114].  (* equiv-char *)
Definition a_value : ustr := [118; 97; 108; 117; 101].  (* value *)

(** attrib(reader, "value")[0]: the first unit; that of the empty string is its NUL *)
Definition first_unit (n : xnode) : Z := match attrib a_value n with [] => 0 | u :: _ => u end.
Definition is_named (n : xnode) (name : ustr) : bool := if ustr_eq_dec (x_name n) name then true else false.

(** * lt-proc *)
(** A file: its nodes, and whether the reader fails after the last one (which ends the loop
    like the end of the file does). *)
Record char_file := mkCF { cf_nodes : list xnode; cf_broken : bool }.

(** fst_processor.cc:112-138 [procNodeICX] *)
Definition procNodeICX (n : xnode) (ignored : list Z) : outcome (list Z) :=
  if is_named n n_text then Ok ignored
  else if is_named n n_ignored_chars then Ok ignored
  else if is_named n n_char then Ok (zset_insert (first_unit n) ignored)
  else if is_named n n_comment then Ok ignored
  else Exit.
Fixpoint icx_nodes (l : list xnode) (ignored : list Z) : outcome (list Z) :=
  match l with
  | [] => Ok ignored
  | n :: r => let! ignored := procNodeICX n ignored in icx_nodes r ignored
  end.
(** 67-90 [parseICX]; a file that cannot be opened is [None].  The state is useIgnoredChars
    and ignored_chars. *)
Definition parseICX (file : option char_file) (st : bool * list Z) : outcome (bool * list Z) :=
  let '(use, ignored) := st in
  if use then
    match file with
    | None => Exit
    | Some f =>
        let! ignored := icx_nodes (cf_nodes f) ignored in
        Ok (match ignored with [] => false | _ => true end, ignored)
    end
  else Ok st.
Fixpoint parse_icx_files (l : list (option char_file)) (st : bool * list Z) : outcome (bool * list Z) :=
  match l with
  | [] => Ok st
  | f :: r => let! st := parseICX f st in parse_icx_files r st
  end.

(** rcx_map: a map from characters to sets of characters *)
Definition rcx_table : Type := list (Z * list Z).
Fixpoint rcx_find (c : Z) (m : rcx_table) : option (list Z) :=
  match m with
  | [] => None
  | (d, l) :: r => if c =? d then Some l else rcx_find c r
  end.
(** rcx_map[c].insert(x) *)
Fixpoint rcx_insert (c x : Z) (m : rcx_table) : rcx_table :=
  match m with
  | [] => [(c, [x])]
  | (d, l) :: r => if c =? d then (d, zset_insert x l) :: r else (d, l) :: rcx_insert c x r
  end.
(** 146-176 [procNodeRCX]; the state is rcx_current_char and rcx_map.  rcx_current_char has no
    initial value: it is [None] until a <char>. *)
Definition procNodeRCX (n : xnode) (st : option Z * rcx_table) : outcome (option Z * rcx_table) :=
  if is_named n n_text then Ok st
  else if is_named n n_restore_chars then Ok st
  else if is_named n n_char then Ok (Some (first_unit n), snd st)
  else if is_named n n_restore_char then
    match fst st with
    | None => UB
    | Some c => Ok (fst st, rcx_insert c (first_unit n) (snd st))
    end
  else if is_named n n_comment then Ok st
  else Exit.
Fixpoint rcx_nodes (l : list xnode) (st : option Z * rcx_table) : outcome (option Z * rcx_table) :=
  match l with
  | [] => Ok st
  | n :: r => let! st := procNodeRCX n st in rcx_nodes r st
  end.
(** 92-110 [parseRCX], useRestoreChars being set *)
Fixpoint parse_rcx_files (l : list (option char_file)) (st : option Z * rcx_table) : outcome (option Z * rcx_table) :=
  match l with
  | [] => Ok st
  | None :: _ => Exit
  | Some f :: r => let! st := rcx_nodes (cf_nodes f) st in parse_rcx_files r st
  end.

(** fst_processor.cc:46-49, lt_proc.cc:133, 138-151: -I, the files of -i and of -r ([None]:
    option absent); what readAnalysis (197) ignores and what the analysis (888-900) restores.
    For analysis and decompounding: initGeneration (659) switches useIgnoredChars off. *)
Definition lt_proc_chars (no_default : bool) (icx rcx : option (list (option char_file)))
  : outcome ((Z -> bool) * (Z -> option (list Z))) :=
  let ignored := [173] in
  let use_default := negb no_default in
  let! (use, ignored) :=
    match icx with
    | None => Ok (false, ignored)
    | Some l => parse_icx_files l (true, ignored)
    end in
  let! (use_default, restore, m) :=
    match rcx with
    | None => Ok (use_default, false, [])
    | Some l => let! (_, m) := parse_rcx_files l (None, []) in Ok (false, true, m)
    end in
  Ok (fun c => (use || use_default) && existsb (Z.eqb c) ignored,
      fun c => if restore then rcx_find c m else None).

(** A processor with these characters *)
Definition with_chars (ig : Z -> bool) (rc : Z -> option (list Z)) (P : processor) : processor :=
  mkP (p_find P) (p_root P) (p_fuel P) (p_standard P) (p_incond P) (p_postblank P) (p_preblank P)
    (p_alpha P) (p_letters P) ig (p_isalnum P) (p_isspace P) (p_isupper P) (p_tolower P) (p_toupper P)
    (p_ctolower P) (p_strlower P) (p_sort P) (p_caseSensitive P) (p_dictionaryCase P) (p_weights P)
    (p_maxAnalyses P) (p_maxClasses P) (p_decomp P) (p_onlyL P) (p_cpR P) (p_maxElements P) rc.

(** * readACX *)
(** A node below a <char>, and a node below the root with those below it *)
Record leaf := mkLeaf { lf_element : bool; lf_name : ustr; lf_attrs : list (ustr * ustr) }.
Record branch := mkBranch { br_node : leaf; br_children : list leaf }.

(** acx.cc:24-36 [get_val] with getattr (xml_walk_util.cc:80-90): an attribute written
    value="" has no children and its content is read through a null pointer *)
Definition get_val (n : leaf) : outcome Z :=
  match name_find a_value (lf_attrs n) with
  | None => Exit
  | Some [] => UB
  | Some s => match ustring_to_vec32 s with [c] => Ok c | [] => UB | _ => Exit end
  end.
Definition leaf_named (n : leaf) (name : ustr) : bool := if ustr_eq_dec (lf_name n) name then true else false.
(** acx.cc:49-55 *)
Fixpoint acx_equivs (l : list leaf) (vec : list Z) : outcome (list Z) :=
  match l with
  | [] => Ok vec
  | n :: r =>
      if negb (lf_element n) then acx_equivs r vec
      else if negb (leaf_named n n_equiv_char) then Exit
      else let! c := get_val n in acx_equivs r (zset_insert c vec)
  end.
(** std::map::insert: nothing happens if the key is there *)
Fixpoint acx_insert (key : Z) (vec : list Z) (m : acx_table) : acx_table :=
  match m with
  | [] => [(key, vec)]
  | (k, v) :: r => if key <? k then (key, vec) :: m else if key =? k then m else (k, v) :: acx_insert key vec r
  end.
(** acx.cc:38-60 [readACX]; a file that cannot be parsed is [None] *)
Fixpoint acx_chars (l : list branch) (acx : acx_table) : outcome acx_table :=
  match l with
  | [] => Ok acx
  | b :: r =>
      if negb (lf_element (br_node b)) then acx_chars r acx
      else if negb (leaf_named (br_node b) n_char) then Exit
      else
        let! key := get_val (br_node b) in
        let! vec := acx_equivs (br_children b) [] in
        acx_chars r (match vec with [] => acx | _ => acx_insert key vec acx end)
  end.
Definition readACX (doc : option (list branch)) : outcome acx_table :=
  match doc with None => Exit | Some l => acx_chars l [] end.

(** lt_comp.cc:131-157 with compiler.cc:35-42 [parseACX]: the equivalents a dictionary is compiled
    with. [file] is the argument acx_file, if there is one, as libxml2 reads it; for rl it is left
    alone. Mode u is not modelled. *)
Definition comp_acx (left_to_right : bool) (file : option (option (list branch))) : outcome acx_table :=
  match left_to_right, file with
  | true, Some doc => readACX doc
  | _, _ => Ok []
  end.
