(** Expander: lt-expand (lttoolbox/expander.cc).  Definitions only.
    The XML is read in ListingModel.v: here a dictionary is the list of nodes procNode meets and an
    entry the list of its elements; comments and blank text between them are left out.
    Texts are UTF-16 units.  u_fprintf's "%S" prints a text as it is (XML has no NUL). *)
From Verif Require Import Base AlphabetModel.

(** * The input *)
(** What can stand in <i>, <ig>, <l> and <r>: readString's cases *)
Inductive piece :=
| PText (s : ustr)                     (* #text *)
| PBlank                               (* <b/> *)
| PMorph                               (* <m/> *)
| PJoin                                (* <j/> *)
| PPost                                (* <a/> *)
| PGroup                               (* <g> *)
| PGroupEnd                            (* </g> *)
| PSym (n : ustr)                      (* <s n=""/> *)
| PWord                                (* <d/>: word boundary *)
| PAnyChar                             (* <w/> *)
| PAnyTag                              (* <t/> *)
| PInvalid.
Inductive element :=
| EId (s : list piece)                 (* <i> *)
| EGroup (s : list piece)              (* <ig> *)
| EPair (l r : list piece)             (* <p> *)
| ERe (s : ustr)                       (* <re> *)
| EPar (name : ustr)                   (* <par> *)
| EInvalid.
Record attributes := mkAttr { at_r : ustr; at_ignore : ustr; at_alt : ustr; at_v : ustr; at_vl : ustr; at_vr : ustr }.
Inductive node :=
| NPardef (name : ustr)                (* <pardef n=""> *)
| NPardefEnd
| NEntry (a : attributes) (els : list element)   (* <e> ... </e> *)
| NOther                               (* dictionary, alphabet, sdefs, sdef, pardefs, section, text, comment *)
| NInvalid.
(** The options of lt-expand *)
Record options := mkOpt { o_alt : ustr; o_v : ustr; o_vl : ustr; o_vr : ustr; o_keep : bool }.

Definition LR_val : ustr := [76; 82].
Definition RL_val : ustr := [82; 76].
Definition yes_val : ustr := [121; 101; 115].
Definition ueq (a b : ustr) : bool := if ustr_eq_dec a b then true else false.
Definition uempty (a : ustr) : bool := match a with [] => true | _ => false end.

(** * readString, expander.cc:88-157 *)
(** 94: "^$/<>{}\*@#+~:" *)
Definition text_escaped (c : Z) : bool :=
  existsb (Z.eqb c) [94; 36; 47; 60; 62; 123; 125; 92; 42; 64; 35; 43; 126; 58].
(** 92-102: the index goes down to 1; for an empty value it starts at the largest size_t *)
Definition escape_text (s : ustr) : outcome ustr :=
  match s with
  | [] => UB
  | c :: r => Ok (c :: flat_map (fun c => if text_escaped c then [92; c] else [c]) r)
  end.
Definition readString (keep : bool) (p : piece) : outcome ustr :=
  match p with
  | PText s => escape_text s
  | PBlank => Ok [32]
  | PMorph => Ok (if keep then [62] else [])
  | PJoin => Ok [43]
  | PPost => Ok [126]
  | PGroup => Ok [35]
  | PGroupEnd => Ok []
  | PSym n => Ok (60 :: n ++ [62])
  | PWord => Ok [60; 36; 62]
  | PAnyChar => Ok [60; 65; 78; 89; 95; 67; 72; 65; 82; 62]
  | PAnyTag => Ok [60; 65; 78; 89; 95; 84; 65; 71; 62]
  | PInvalid => Exit
  end.
(** the loops of procIdentity 205-227, procIdentityGroup 229-256, procTransduction 258-302 *)
Fixpoint readStrings (keep : bool) (l : list piece) : outcome ustr :=
  match l with
  | [] => Ok []
  | p :: r =>
      let! s := readString keep p in
      let! t := readStrings keep r in
      Ok (s ++ t)
  end.
(** * procRegexp, expander.cc:572-595; [re_escaped] is "^$/<>{}*@#+~:" *)
Definition re_escaped (c : Z) : bool :=
  existsb (Z.eqb c) [94; 36; 47; 60; 62; 123; 125; 42; 64; 35; 43; 126; 58].
Fixpoint procRegexp (esc : bool) (val : ustr) : ustr :=
  match val with
  | [] => []
  | c :: r =>
      if esc then c :: procRegexp false r
      else if re_escaped c then 92 :: c :: procRegexp false r
      else c :: procRegexp (c =? 92) r
  end.
Definition regexp_mark : ustr := [95; 95; 82; 69; 71; 69; 88; 80; 95; 95].

(** * append, expander.cc:597-634 *)
Definition entlist : Type := list (ustr * ustr).
Definition append_pair (result : entlist) (p : ustr * ustr) : entlist :=
  map (fun it => (fst it ++ fst p, snd it ++ snd p)) result.
Definition append_list (result endings : entlist) : entlist :=
  flat_map (fun it => map (fun it2 => (fst it ++ fst it2, snd it ++ snd it2)) endings) result.

(** The three lists of an entry or a paradigm.  The maps paradigm, paradigm_lr and
    paradigm_rl have the same keys: the end of an entry (486-493) makes the key in all
    three, and operator[] elsewhere is used only for a name found in one of them. *)
Record lists := mkL { both : entlist; only_lr : entlist; only_rl : entlist }.
Definition no_lists : lists := mkL [] [] [].
Definition paradigms : Type := list (ustr * lists).
Fixpoint par_find (n : ustr) (ps : paradigms) : option lists :=
  match ps with
  | [] => None
  | (m, l) :: r => if ustr_eq_dec n m then Some l else par_find n r
  end.
Fixpoint par_add (n : ustr) (x : lists) (ps : paradigms) : paradigms :=
  match ps with
  | [] => [(n, x)]
  | (m, l) :: r =>
      if ustr_eq_dec n m
      then (m, mkL (both l ++ both x) (only_lr l ++ only_lr x) (only_rl l ++ only_rl x)) :: r
      else (m, l) :: par_add n x r
  end.

Section Expander.
  Context (o : options).

  (** * procEntry, expander.cc:326-515 *)
  (** 337-344: the entry is skipped *)
  Definition skipped (a : attributes) : bool :=
    ueq (at_ignore a) yes_val
    || (negb (uempty (at_alt a)) && negb (ueq (at_alt a) (o_alt o)))
    || (negb (uempty (at_v a)) && negb (ueq (at_v a) (o_v o)) && ueq (at_r a) RL_val)
    || ((negb (uempty (at_vl a)) && negb (ueq (at_vl a) (o_vl o)))
        && (negb (uempty (at_vr a)) && negb (ueq (at_vr a) (o_vr o))))
    || (negb (uempty (at_vl a)) && negb (ueq (at_vl a) (o_vl o)) && ueq (at_r a) RL_val)
    || (negb (uempty (at_vr a)) && negb (ueq (at_vr a) (o_vr o)) && ueq (at_r a) LR_val).
  (** 361-377 *)
  Definition start_lists (a : attributes) : lists :=
    if ueq (at_r a) LR_val
       || (negb (uempty (at_v a)) && negb (ueq (at_v a) (o_v o)) && negb (ueq (at_r a) RL_val))
       || (negb (uempty (at_vl a)) && negb (ueq (at_vl a) (o_vl o)))
    then mkL [] [([], [])] []
    else if ueq (at_r a) RL_val || (negb (uempty (at_vr a)) && negb (ueq (at_vr a) (o_vr o)))
    then mkL [] [] [([], [])]
    else mkL [([], [])] [] [].
  Definition append_all (x : lists) (p : ustr * ustr) : lists :=
    mkL (append_pair (both x) p) (append_pair (only_lr x) p) (append_pair (only_rl x) p).
  (** 419-477: a paradigm; [None] is the end of the entry without a result *)
  Definition append_par (a : attributes) (p : lists) (x : lists) : option lists :=
    if ueq (at_r a) LR_val then
      match both p, only_lr p with
      | [], [] => None
      | _, _ => Some (mkL (both x)
                          (append_list (only_lr x) (only_lr p) ++ append_list (only_lr x) (both p))
                          (only_rl x))
      end
    else if ueq (at_r a) RL_val then
      match both p, only_rl p with
      | [], [] => None
      | _, _ => Some (mkL (both x) (only_lr x)
                          (append_list (only_rl x) (only_rl p) ++ append_list (only_rl x) (both p)))
      end
    else
      let lr := match only_lr p with [] => only_lr x | _ => only_lr x ++ both x end in
      let rl := match only_rl p with [] => only_rl x | _ => only_rl x ++ both x end in
      Some (mkL (append_list (both x) (both p)) (append_list lr (only_lr p)) (append_list rl (only_rl p))).
  (** 379-514: the elements.  skip (162-187) ends the program unless </e> comes next. *)
  Fixpoint proc_elements (ps : paradigms) (a : attributes) (els : list element) (x : lists)
    : outcome (option lists) :=
    match els with
    | [] => Ok (Some x)
    | EPair l r :: more =>
        let! l := readStrings (o_keep o) l in
        let! r := readStrings (o_keep o) r in
        proc_elements ps a more (append_all x (l, r))
    | EId s :: more =>
        let! s := readStrings (o_keep o) s in
        proc_elements ps a more (append_all x (s, s))
    | EGroup s :: more =>
        let! s := readStrings (o_keep o) s in
        proc_elements ps a more (append_all x (s, 35 :: s))
    | ERe s :: more =>
        let val := regexp_mark ++ procRegexp false s in
        proc_elements ps a more (append_all x (val, val))
    | EPar n :: more =>
        match par_find n ps with
        | None => Exit
        | Some p =>
            match append_par a p x with
            | Some x => proc_elements ps a more x
            | None => match more with [] => Ok None | _ => Exit end
            end
        end
    | EInvalid :: _ => Exit
    end.
  (** 468-484: the lines printed *)
  Definition line (sep : ustr) (p : ustr * ustr) : ustr := fst p ++ sep ++ snd p ++ [10].
  Definition print_lists (x : lists) : ustr :=
    concat (map (line [58]) (both x)) ++ concat (map (line [58; 62; 58]) (only_lr x))
    ++ concat (map (line [58; 60; 58]) (only_rl x)).

  (** * procNode 517-570, expand 35-55 *)
  Record expander := mkE { e_current : ustr; e_pars : paradigms }.
  Definition procEntry (a : attributes) (els : list element) (e : expander) : outcome (ustr * expander) :=
    if skipped a then Ok ([], e)
    else
      let! r := proc_elements (e_pars e) a els (start_lists a) in
      match r with
      | None => Ok ([], e)
      | Some x =>
          match e_current e with
          | [] => Ok (print_lists x, e)
          | n => Ok ([], mkE n (par_add n x (e_pars e)))
          end
      end.
  Definition procNode (n : node) (e : expander) : outcome (ustr * expander) :=
    match n with
    | NPardef name => Ok ([], mkE name (e_pars e))
    | NPardefEnd => Ok ([], mkE [] (e_pars e))
    | NEntry a els => procEntry a els e
    | NOther => Ok ([], e)
    | NInvalid => Exit
    end.
  Fixpoint expand_nodes (l : list node) (e : expander) : outcome (ustr * expander) :=
    match l with
    | [] => Ok ([], e)
    | n :: r =>
        let! (out, e) := procNode n e in
        let! (more, e) := expand_nodes r e in
        Ok (out ++ more, e)
    end.
  Definition expand (l : list node) : outcome ustr :=
    let! (out, _) := expand_nodes l (mkE [] []) in Ok out.
End Expander.
