(** Reading a dictionary: the XML part of lttoolbox/compiler.cc (44-199, 308-562, 660-1007)
    and xml_parse_util.cc.  Definitions only.

    The XML parser (libxml2) is not modelled: a document is the list of the nodes
    xmlTextReaderRead stops at, with what the reader can be asked about each, and a flag that
    says whether the reader reports an error after the last one.  A node's value is given as
    code points and its name and attributes as UTF-16 units (the conversions from UTF-8 are
    not modelled).  Messages are not modelled.  Entry debugging (828-850, off by default) is
    left out.  What is done with the tokens of an entry is in CompilerModel.v and
    UnifiedModel.v. *)
From Verif Require Import Base CompressionModel AlphabetModel TransducerModel StringModel ExpanderModel EntryFilterModel CompilerModel UnifiedModel.

(** compiler.h:312-362 and transducer.h:97-102 *)
Definition n_dictionary : ustr := [100; 105; 99; 116; 105; 111; 110; 97; 114; 121].  (* dictionary *)
Definition n_alphabet : ustr := [97; 108; 112; 104; 97; 98; 101; 116].  (* alphabet *)
Definition n_sdefs : ustr := [115; 100; 101; 102; 115].  (* sdefs *)
Definition n_sdef : ustr := [115; 100; 101; 102].  (* sdef *)
Definition n_pardefs : ustr := [112; 97; 114; 100; 101; 102; 115].  (* pardefs *)
Definition n_pardef : ustr := [112; 97; 114; 100; 101; 102].  (* pardef *)
Definition n_par : ustr := [112; 97; 114].  (* par *)
Definition n_e : ustr := [101].  (* e *)
Definition n_p : ustr := [112].  (* p *)
Definition n_l : ustr := [108].  (* l *)
Definition n_r : ustr := [114].  (* r *)
Definition n_s : ustr := [115].  (* s *)
Definition n_m : ustr := [109].  (* m *)
Definition n_re : ustr := [114; 101].  (* re *)
Definition n_section : ustr := [115; 101; 99; 116; 105; 111; 110].  (* section *)
Definition n_i : ustr := [105].  (* i *)
Definition n_ig : ustr := [105; 103].  (* ig *)
Definition n_j : ustr := [106].  (* j *)
Definition n_b : ustr := [98].  (* b *)
Definition n_a : ustr := [97].  (* a *)
Definition n_g : ustr := [103].  (* g *)
Definition n_d : ustr := [100].  (* d *)
Definition n_w : ustr := [119].  (* w *)
Definition n_t : ustr := [116].  (* t *)
Definition n_f : ustr := [102].  (* f *)
Definition n_text : ustr := [35; 116; 101; 120; 116].  (* #text *)
Definition n_comment : ustr := [35; 99; 111; 109; 109; 101; 110; 116].  (* #comment *)
Definition a_n : ustr := [110].  (* n *)
Definition a_id : ustr := [105; 100].  (* id *)
Definition a_type : ustr := [116; 121; 112; 101].  (* type *)
Definition a_alt : ustr := [97; 108; 116].  (* alt *)
Definition a_v : ustr := [118].  (* v *)
Definition a_vl : ustr := [118; 108].  (* vl *)
Definition a_vr : ustr := [118; 114].  (* vr *)
Definition a_space : ustr := [115; 112; 97; 99; 101].  (* space *)
Definition v_no : ustr := [110; 111].  (* no *)
Definition v_sequential : ustr := [115; 101; 113; 117; 101; 110; 116; 105; 97; 108].  (* sequential *)
Definition v_separable : ustr := [115; 101; 112; 97; 114; 97; 98; 108; 101].  (* separable *)
Definition t_any_tag : ustr := [60; 65; 78; 89; 95; 84; 65; 71; 62].  (* <ANY_TAG> *)
Definition t_any_char : ustr := [60; 65; 78; 89; 95; 67; 72; 65; 82; 62].  (* <ANY_CHAR> *)
Definition t_boundary : ustr := [60; 36; 62].  (* <$> *)
Definition t_boundary_s : ustr := [60; 36; 95; 62].  (* <$_> *)
Definition t_boundary_ns : ustr := [60; 36; 45; 62].  (* <$-> *)
Definition t_reading : ustr := [60; 47; 62].  (* </> *)

(** What the reader says about the node it is at: whether it is the end of an element, its
    name, value and attributes, and whether it is an element written <x/>. *)
Record xnode := mkX { x_end : bool; x_name : ustr; x_value : list Z; x_attrs : list (ustr * ustr); x_empty : bool }.

(** xml_parse_util.cc:33-49 [attrib]: an absent attribute is "" *)
Definition attrib (name : ustr) (n : xnode) : ustr := name_get name [] (x_attrs n).
(** xml_parse_util.cc:78-84 [readValue] *)
Definition readValue (n : xnode) : ustr := fold_left append_cp (x_value n) [].

(** The options of lt-comp: direction (left to right also for unified compilation), unified
    compilation, the filters, -v, the characters of the acx file, the largest number of
    entries of a section; ICU's u_isspace; StringUtils::stod, which may throw; and whether the
    reader fails after the last node. *)
Record request := mkReq {
  q_lr : bool;
  q_unified : bool;
  q_opts : options;
  q_verbose : bool;
  q_acx : list (Z * list Z);
  q_max : Z;
  q_isspace : Z -> bool;
  q_stod : ustr -> outcome Z;
  q_fails : bool
}.
(** any_tag, any_char, word_boundary, word_boundary_s, word_boundary_ns, reading_boundary *)
Record lsx := mkLsx { k_any_tag : Z; k_any_char : Z; k_wb : Z; k_wb_s : Z; k_wb_ns : Z; k_reading : Z }.
(** The members of Compiler that reading changes *)
Record reading := mkRead {
  r_comp : compiler;
  r_letters : ustr;
  r_lsx : option lsx;          (* is_separable *)
  r_entries : Z;               (* n_section_entries *)
  r_first : bool               (* first_element *)
}.
Definition named (x : ustr) (n : xnode) : bool := ueq (x_name n) x.
Definition settings_of (q : request) (k : option lsx) : settings :=
  mkSet (q_lr q) (q_acx q) (match k with Some k => Some (k_any_tag k, k_any_char k) | None => None end).

Section Reading.
Context (q : request).

(** xml_parse_util.cc:98-104 [allBlanks] *)
Definition allBlanks (n : xnode) : bool := forallb (q_isspace q) (readValue n).

(** * The text of a side, compiler.cc:322-405 [readString] *)
(** 308-316 [requireEmptyError] *)
Definition requireEmpty (n : xnode) : outcome unit := if x_empty n then Ok tt else Exit.
Definition tag_symbol (name : ustr) : ustr := [60] ++ name ++ [62].
(** The symbols appended *)
Definition readString (k : option lsx) (a : alphabet) (n : xnode) : outcome (list Z) :=
  if named n_text n then Ok (x_value n)
  else if named n_m n then let! _ := requireEmpty n in Ok (if o_keep (q_opts q) then [62] else [])
  else if named n_b n then let! _ := requireEmpty n in Ok [32]
  else if named n_j n then let! _ := requireEmpty n in Ok [43]
  else if named n_a n then let! _ := requireEmpty n in Ok [126]
  else if named n_g n then Ok (if x_end n then [] else [35])
  else if named n_s n then
    let! _ := requireEmpty n in
    let symbol := tag_symbol (attrib a_n n) in
    if isSymbolDefined symbol a then Ok [symbol_code symbol a] else Exit
  else
    match k with
    | None => Exit
    | Some k =>
        if named n_t n then let! _ := requireEmpty n in Ok [k_any_tag k]
        else if named n_w n then let! _ := requireEmpty n in Ok [k_any_char k]
        else if named n_d n then
          let! _ := requireEmpty n in
          let mode := attrib a_space n in
          Ok [if ueq mode yes_val then k_wb_s k else if ueq mode v_no then k_wb_ns k else k_wb k]
        else if named n_f n then let! _ := requireEmpty n in Ok [k_reading k]
        else Exit
    end.

(** 464-472, 502-506 and 521-525: nodes are read up to one of the names [stop].  After the
    last node, [step] (133-141) ends the program or gives the name "", which is not valid. *)
Fixpoint readSide (k : option lsx) (a : alphabet) (stop : list ustr) (ns : list xnode) : outcome (list Z * list xnode) :=
  match ns with
  | [] => Exit
  | n :: r =>
      if existsb (fun x => named x n) stop then Ok ([], r)
      else
        let! s := readString k a n in
        let! (t, r) := readSide k a stop r in
        Ok (s ++ t, r)
  end.
(** 407-422 [skipBlanks] after a [step]; None is the end of the document *)
Fixpoint stepSkip (ns : list xnode) : outcome (option xnode * list xnode) :=
  match ns with
  | [] => if q_fails q then Exit else Ok (None, [])
  | n :: r =>
      if named n_comment n then stepSkip r
      else if named n_text n then if allBlanks n then stepSkip r else Exit
      else Ok (Some n, r)
  end.
(** 424-452 [skip] *)
Definition skip (elem : ustr) (ns : list xnode) : outcome (xnode * list xnode) :=
  let! (n, r) := stepSkip ns in
  match n with
  | Some n => if named elem n then Ok (n, r) else Exit
  | None => Exit
  end.

(** * The elements of an entry *)
(** 475, 509: the first element of an empty vector is looked at *)
Definition front (first : bool) (side : list Z) : outcome unit :=
  if q_verbose q && first then match side with [] => UB | _ => Ok tt end else Ok tt.
(** 454-490 [procIdentity] at node [n] *)
Definition procIdentity (k : option lsx) (a : alphabet) (weight : Z) (ig first : bool) (n : xnode) (ns : list xnode)
  : outcome (entry_token * list xnode) :=
  let! (s, r) := if x_empty n then Ok ([], ns) else readSide k a [n_i; n_ig] ns in
  let! _ := front first s in
  Ok (Single s (if ig then 35 :: s else s) weight, r).
(** 492-534 [procTransduction] *)
Definition procTransduction (k : option lsx) (a : alphabet) (weight : Z) (first : bool) (ns : list xnode)
  : outcome (entry_token * list xnode) :=
  let! (n, r) := skip n_l ns in
  let! (lhs, r) := if x_empty n then Ok ([], r) else readSide k a [n_l] r in
  let! _ := front first lhs in
  let! (n, r) := skip n_r r in
  let! (rhs, r) := if x_empty n then Ok ([], r) else readSide k a [n_r] r in
  let! (_, r) := skip n_p r in
  Ok (Single lhs rhs weight, r).
(** 992-1007 [procRegexp] *)
Definition procRegexp (ns : list xnode) : outcome (entry_token * list xnode) :=
  match ns with
  | n :: n' :: r => if named n_text n && named n_re n' then Ok (Regexp (x_value n), r) else Exit
  | _ => Exit
  end.
(** 542-562 [procPar] *)
Definition procPar (c : compiler) (n : xnode) : outcome ustr :=
  let name := attrib a_n n in
  let! _ := match current_paradigm c with
            | _ :: _ => if ustr_eq_dec name (current_paradigm c) then Exit else Ok tt
            | [] => Ok tt
            end in
  match name_find name (c_pars c) with None => Exit | Some _ => Ok name end.

(** 808-813: nodes are skipped up to one named e; without one the loop does not end *)
Fixpoint skipEntry (ns : list xnode) : outcome (list xnode) :=
  match ns with
  | [] => if q_fails q then Exit else NoFuel
  | n :: r => if named n_e n then Ok r else skipEntry r
  end.
(** 889-893: up to the end of an element e *)
Fixpoint skipEntryEnd (ns : list xnode) : outcome (list xnode) :=
  match ns with
  | [] => if q_fails q then Exit else NoFuel
  | n :: r => if named n_e n && x_end n then Ok r else skipEntryEnd r
  end.

(** 854-916: the elements of an entry; the result is the compiler, first_element and the
    nodes left *)
Fixpoint entryLoop (fuel : nat) (k : option lsx) (c : compiler) (weight : Z) (first : bool) (els : list entry_token) (ns : list xnode)
  : outcome (compiler * bool * list xnode) :=
  match fuel with
  | O => NoFuel
  | S fuel =>
      let! (n, r) := stepSkip ns in
      match n with
      | None => Exit
      | Some n =>
          let first := if uempty (current_paradigm c) && q_verbose q then true else first in
          if named n_p n then
            let! (t, r) := procTransduction k (c_alph c) weight first r in
            entryLoop fuel k c weight false (els ++ [t]) r
          else if named n_i n then
            let! (t, r) := procIdentity k (c_alph c) weight false first n r in
            entryLoop fuel k c weight false (els ++ [t]) r
          else if named n_ig n then
            let! (t, r) := procIdentity k (c_alph c) weight true first n r in
            entryLoop fuel k c weight false (els ++ [t]) r
          else if named n_re n then
            let! (t, r) := procRegexp r in
            entryLoop fuel k c weight first (els ++ [t]) r
          else if named n_par n then
            let! name := procPar c n in
            if isEmpty (name_get name new_transducer (c_pars c)) then
              let! r := skipEntryEnd r in Ok (c, false, r)
            else entryLoop fuel k c weight false (els ++ [Paradigm name]) r
          else if named n_e n && x_end n then
            let! c := insertEntryTokens (settings_of q k) els c in
            Ok (c, first, r)
          else Exit
      end
  end.

(** 728-917 [procEntry] at node [n] *)
Definition attributes_of (n : xnode) : attributes :=
  mkAttr (attrib n_r n) (attrib n_i n) (attrib a_alt n) (attrib a_v n) (attrib a_vl n) (attrib a_vr n).
Definition procEntry (st : reading) (n : xnode) (ns : list xnode) : outcome (reading * list xnode) :=
  let at_ := attributes_of n in
  let c := r_comp st in
  let k := r_lsx st in
  let! kept :=
    if q_unified q && negb (ueq (at_ignore at_) yes_val) then
      let! (els, c) := filter_elements (settings_of q k) at_ c in Ok (Some (els, c))
    else
      let! b := compiled (q_opts q) (q_lr q) at_ in Ok (if b then Some ([], c) else None) in
  match kept with
  | None => let! r := skipEntry ns in Ok (st, r)
  | Some (els, c) =>
      let! weight := match attrib n_w n with [] => Ok 0 | w => q_stod q w end in
      if x_empty n then Ok (mkRead c (r_letters st) k (r_entries st) (r_first st), ns)
      else
        let! (c, first, r) := entryLoop (S (length ns)) k c weight (r_first st) els ns in
        Ok (mkRead c (r_letters st) k (r_entries st) first, r)
  end.

(** * The nodes outside entries *)
(** 143-173 [procAlphabet] *)
Definition procAlphabet (st : reading) (n : xnode) (ns : list xnode) : outcome (reading * list xnode) :=
  if x_end n then Ok (st, ns)
  else
    match ns with
    | [] => Exit
    | v :: r =>
        let letters := if allBlanks v then [] else readValue v in
        Ok (mkRead (r_comp st) letters (r_lsx st) (r_entries st) (r_first st), r)
    end.
Definition with_comp (c : compiler) (st : reading) : reading :=
  mkRead c (r_letters st) (r_lsx st) (r_entries st) (r_first st).
Definition add_symbol (s : ustr) (st : reading) : reading :=
  with_comp (with_alph (includeSymbol s (c_alph (r_comp st))) (r_comp st)) st.
(** 931-947 *)
Definition procDictionary (st : reading) (n : xnode) : reading :=
  let type := attrib a_type n in
  if ueq type v_separable || ueq type v_sequential then
    let st := fold_left (fun st s => add_symbol s st)
                [t_any_tag; t_any_char; t_boundary; t_boundary_s; t_boundary_ns; t_reading] st in
    let code s := symbol_code s (c_alph (r_comp st)) in
    mkRead (r_comp st) (r_letters st)
      (Some (mkLsx (code t_any_tag) (code t_any_char) (code t_boundary) (code t_boundary_s) (code t_boundary_ns) (code t_reading)))
      (r_entries st) (r_first st)
  else st.
(** 670-695 [procSection] *)
Definition procSection (st : reading) (n : xnode) : outcome reading :=
  let s := settings_of q (r_lsx st) in
  if x_end n then let! c := proc s SectionEnd (r_comp st) in Ok (with_comp c st)
  else
    match attrib a_id n, attrib a_type n with
    | _ :: _, _ :: _ =>
        let! c := proc s (SectionStart (attrib a_id n ++ [64] ++ attrib a_type n)) (r_comp st) in
        Ok (with_comp c st)
    | _, _ => Exit
    end.
(** 964-972: before an entry of a section *)
Definition countEntry (st : reading) : reading :=
  if uempty (current_paradigm (r_comp st)) then
    let m := r_entries st + 1 in
    let c := r_comp st in
    let c := if (0 <? q_max q) && (m mod q_max q =? 0)
             then mkComp (c_alph c) (c_pars c) (c_secs c) (c_caches c) (current_paradigm c) (43 :: current_section c)
             else c in
    mkRead c (r_letters st) (r_lsx st) m (r_first st)
  else st.
(** 919-990 [procNode] at node [n]; 175-179 [procSDef], 181-199 [procParDef] *)
Definition procNode (st : reading) (n : xnode) (ns : list xnode) : outcome (reading * list xnode) :=
  if named n_text n then Ok (st, ns)
  else if named n_dictionary n then Ok (procDictionary st n, ns)
  else if named n_alphabet n then procAlphabet st n ns
  else if named n_sdefs n then Ok (st, ns)
  else if named n_sdef n then Ok (add_symbol (tag_symbol (attrib a_n n)) st, ns)
  else if named n_pardefs n then Ok (st, ns)
  else if named n_pardef n then
    let! c := proc (settings_of q (r_lsx st)) (if x_end n then PardefEnd else PardefStart (attrib a_n n)) (r_comp st) in
    Ok (with_comp c st, ns)
  else if named n_e n then procEntry (countEntry st) n ns
  else if named n_section n then
    let! st := procSection (mkRead (r_comp st) (r_letters st) (r_lsx st) 0 (r_first st)) n in
    Ok (st, ns)
  else if named n_comment n then Ok (st, ns)
  else Exit.

(** 55-65: the main loop of [parse]; an error of the reader is reported and nothing else *)
Fixpoint nodesLoop (fuel : nat) (st : reading) (ns : list xnode) : outcome reading :=
  match ns with
  | [] => Ok st
  | n :: r =>
      match fuel with
      | O => NoFuel
      | S fuel => let! (st, r) := procNode st n r in nodesLoop fuel st r
      end
  end.
Definition readNodes (ns : list xnode) : outcome reading :=
  nodesLoop (length ns) (mkRead (new_compiler new_alphabet) [] None 0 false) ns.

(** 90-102: separable dictionaries end in <$> *)
Fixpoint closeFinals (fs : list (nat * Z)) (end_ : Z) (t : transducer) : outcome transducer :=
  match fs with
  | [] => Ok t
  | (s, _) :: r =>
      match insertSingleTransduction end_ s 0 t with
      | (None, _) => UB
      | (Some e, t) => closeFinals r end_ (setFinal e 0 true t)
      end
  end.
Fixpoint closeSections (m : list (ustr * transducer)) (end_ : Z) : outcome (list (ustr * transducer)) :=
  match m with
  | [] => Ok []
  | (name, t) :: m =>
      let! t := closeFinals (finals t) end_ t in
      let! m := closeSections m end_ in
      Ok ((name, t) :: m)
  end.
(** 44-107 [parse] and what [write] (1009-1013) writes: letters, alphabet and sections *)
Definition lt_comp (ns : list xnode) : outcome (ustr * alphabet * list (ustr * transducer)) :=
  let! st := readNodes ns in
  let a := c_alph (r_comp st) in
  let! m := minimize_all (c_secs (r_comp st)) in
  let! (a, m) :=
    match r_lsx st with
    | None => Ok (a, m)
    | Some k =>
        let '(end_, a) := pair_code (k_wb k, k_wb k) a in
        let! m := closeSections m end_ in
        Ok (a, m)
    end in
  let! ok := valid a m in
  if ok then Ok (r_letters st, a, m) else Exit.
End Reading.
