(** AT&T text transducers: AttCompiler (lttoolbox/att_compiler.cc:33-536, att_compiler.h:51-190)
    and lt-print (lttoolbox/lt_print.cc:52-66, transducer.cc:728-777).  Definitions only.

    A text is its list of UTF-16 units (the conversion from and to UTF-8 by ICU is not
    modelled; C43 and C44 are about it).  Weights are integers counted in millionths, as
    printed by "%f"; decimals after the sixth are dropped, rounding of doubles is not
    modelled, and a weight written as "inf" is outside the model ([NoFuel]).  The columns of a
    transition are kept as codes only (att_compiler.h:117-118 also keeps the strings, which
    nothing reads).  One file per AttCompiler object, as in lt_comp.cc. *)
From Verif Require Import Base CompressionModel AlphabetModel TransducerModel.

(** transducer.h:90-94 *)
Definition hfst_eps_short : ustr := [64; 48; 64].
Definition hfst_eps_long : ustr := [64; 95; 69; 80; 83; 73; 76; 79; 78; 95; 83; 89; 77; 66; 79; 76; 95; 64].
Definition lttb_eps : ustr := [949].
Definition hfst_space : ustr := [64; 95; 83; 80; 65; 67; 69; 95; 64].
Definition hfst_tab : ustr := [64; 95; 84; 65; 66; 95; 64].

(** * Reading the text *)
(** att_compiler.cc:210-221: the columns of the line at the front and the rest of the text.
    U+000A and U+FFFF (U_EOF) end a line, U+0009 a column. *)
Fixpoint read_line (s : ustr) : list ustr * ustr :=
  match s with
  | [] => ([[]], [])
  | c :: r =>
      if (c =? 10) || (c =? 65535) then ([[]], r)
      else
        let '(cols, rest) := read_line r in
        if c =? 9 then ([] :: cols, rest)
        else match cols with
             | col :: cols => ((c :: col) :: cols, rest)
             | [] => ([[c]], rest)
             end
  end.
(** att_compiler.cc:207-221: all lines; each takes at least one unit *)
Fixpoint read_lines (fuel : nat) (s : ustr) : list (list ustr) :=
  match fuel, s with
  | _, [] => []
  | O, _ => []
  | S fuel, _ => let '(cols, rest) := read_line s in cols :: read_lines fuel rest
  end.

(** att_compiler.cc:152-160 [fast_stoi]; [None] is the exception, overflow of int is [UB] *)
Fixpoint fast_stoi (s : ustr) (ret : Z) : outcome (option Z) :=
  match s with
  | [] => Ok (Some ret)
  | c :: r =>
      if (c <? 48) || (57 <? c) then Ok None
      else
        let ret := ret * 10 + (c - 48) in
        if ret <? 2 ^ 31 then fast_stoi r ret else UB
  end.
(** att_compiler.cc:174-180: the digits before the point, and what follows it *)
Fixpoint stod_int (s : ustr) (ret : Z) : option (Z * ustr) :=
  match s with
  | [] => Some (ret, [])
  | c :: r =>
      if c =? 46 then Some (ret, r)
      else if (c <? 48) || (57 <? c) then None
      else stod_int r (ret * 10 + (c - 48))
  end.
(** att_compiler.cc:181-187: the digits after the point; [mul] in millionths *)
Fixpoint stod_frac (s : ustr) (mul ret : Z) : option Z :=
  match s with
  | [] => Some ret
  | c :: r => if (c <? 48) || (57 <? c) then None else stod_frac r (mul / 10) (ret + (c - 48) * mul)
  end.
(** att_compiler.cc:162-189 [fast_stod]; [None] is the exception *)
Definition fast_stod (s : ustr) : outcome (option Z) :=
  match s with
  | [] => Ok None
  | c :: r =>
      let '(sign, s) := if c =? 45 then (-1, r) else (1, s) in
      match s with
      | [] => Ok None
      | _ =>
          if ustr_eq_dec s [105; 110; 102] then NoFuel
          else
            match stod_int s 0 with
            | None => Ok None
            | Some (ret, frac) =>
                match stod_frac frac 100000 (ret * 1000000) with
                | None => Ok None
                | Some ret => Ok (Some (sign * ret))
                end
            end
      end
  end.
(** a number column; the exceptions end the process (257-262, 282-287, 297-302, 318-323) *)
Definition number_col {A} (x : outcome (option A)) : outcome A :=
  let! x := x in match x with Some n => Ok n | None => Exit end.

(** att_compiler.cc:55-67 [convert_hfst] *)
Definition convert_hfst (hfst : bool) (s : ustr) : ustr :=
  if ustr_eq_dec s hfst_eps_short then []
  else if ustr_eq_dec s hfst_eps_long then []
  else if negb hfst && (if ustr_eq_dec s lttb_eps then true else false) then []
  else if ustr_eq_dec s hfst_space then [32]
  else if ustr_eq_dec s hfst_tab then [9]
  else s.

(** * The graph *)
(** att_compiler.h:114-136; types: 1 word, 2 punctuation, 3 both *)
Record transduction := mkTr { tr_to : Z; tr_tag : Z; tr_wt : Z; tr_type : Z }.
Definition graph : Type := list (Z * list transduction).
(** att_compiler.h:148-162 [get_node]: a node created on demand has no transductions *)
Fixpoint node (g : graph) (id : Z) : list transduction :=
  match g with
  | [] => []
  | (i, l) :: r => if id =? i then l else node r id
  end.
Fixpoint set_node (id : Z) (l : list transduction) (g : graph) : graph :=
  match g with
  | [] => [(id, l)]
  | (i, l') :: r => if id =? i then (i, l) :: r else (i, l') :: set_node id l r
  end.

(** the members, att_compiler.h:91-112; [finals] is searched by key only, so its order is left
    open; letters are UTF-16 units *)
Record att := mkAtt {
  x_graph : graph; x_finals : list (Z * Z); x_alph : alphabet; x_letters : list Z; x_phantom : Z
}.
Definition with_graph (g : graph) (x : att) : att := mkAtt g (x_finals x) (x_alph x) (x_letters x) (x_phantom x).
Fixpoint zfind (k : Z) (l : list (Z * Z)) : option Z :=
  match l with
  | [] => None
  | (k', v) :: r => if k =? k' then Some v else zfind k r
  end.

Section Characters.
  (** ICU's character properties. *)
  Context (u_ispunct u_isspace u_islower u_isupper : Z -> bool) (u_toupper u_tolower : Z -> Z).

  (** att_compiler.cc:69-85 [is_word_punct] *)
  Definition is_word_punct (c : Z) : bool :=
    ((0x0300 <=? c) && (c <=? 0x036F)) || ((0x1AB0 <=? c) && (c <=? 0x1AFF))
    || ((0x1DC0 <=? c) && (c <=? 0x1DFF)) || ((0x20D0 <=? c) && (c <=? 0x20FF))
    || ((0xFE20 <=? c) && (c <=? 0xFE2F)).
  (** std::set<UChar>::insert of a code point: the conversion is modulo 2^16 *)
  Definition add_letter (c : Z) (l : list Z) : list Z :=
    if existsb (Z.eqb (c mod 65536)) l then l else c mod 65536 :: l.
  (** att_compiler.cc:87-98 [update_alphabet] *)
  Definition update_alphabet (c : Z) (l : list Z) : list Z :=
    if is_word_punct c || negb (u_ispunct c || u_isspace c) then
      let l := add_letter c l in
      if u_islower c then add_letter (u_toupper c) l
      else if u_isupper c then add_letter (u_tolower c) l
      else l
    else l.
  (** att_compiler.cc:100-118 [symbol_code]: the codes pushed *)
  Definition att_symbol_code (s : ustr) (x : att) : list Z * att :=
    match s with
    | [] => ([0], x)
    | c :: _ =>
        if (2 <=? length s)%nat && (c =? 60) && (last s 0 =? 62) then
          let a := includeSymbol s (x_alph x) in
          ([symbol_code s a], mkAtt (x_graph x) (x_finals x) a (x_letters x) (x_phantom x))
        else
          let cps := ustring_to_vec32 s in
          (cps, mkAtt (x_graph x) (x_finals x) (x_alph x)
                  (fold_left (fun l c => update_alphabet c l) cps (x_letters x)) (x_phantom x))
    end.
  (** att_compiler.cc:445-457 [classify_single_transition]: the type *)
  Definition single_type (tag : Z) (x : att) : outcome Z :=
    let! p := decode tag (x_alph x) in
    let sym := fst p in
    if 0 <? sym then
      Ok (Z.lor (if existsb (Z.eqb (sym mod 65536)) (x_letters x) then 1 else 0)
            (if u_ispunct sym then 2 else 0))
    else Ok 0.
  (** src->transductions.push_back *)
  Definition push_arc (src : Z) (t : transduction) (x : att) : att :=
    with_graph (set_node src (node (x_graph x) src ++ [t]) (x_graph x)) x.
  (** att_compiler.cc:129-143: [n] rounds are left *)
  Fixpoint add_arcs (n : nat) (src to w : Z) (ls rs : list Z) (x : att) : outcome att :=
    match n with
    | O => Ok x
    | S n =>
        let '(tag, a) := pair_code (hd 0 ls, hd 0 rs) (x_alph x) in
        let last_ := match n with O => true | S _ => false end in
        let phantom := if last_ then x_phantom x else x_phantom x + 1 in
        let dest := if last_ then to else - phantom in
        let x := mkAtt (x_graph x) (x_finals x) a (x_letters x) phantom in
        let! ty := single_type tag x in
        let x := push_arc src (mkTr dest tag (if last_ then w else 0) ty) x in
        add_arcs n dest to w (tl ls) (tl rs) x
    end.
  (** att_compiler.cc:120-144 [add_transition] *)
  Definition add_transition (from to : Z) (upper lower : ustr) (w : Z) (x : att) : outcome att :=
    let '(ls, x) := att_symbol_code upper x in
    let '(rs, x) := att_symbol_code lower x in
    add_arcs (Nat.max (length ls) (length rs)) from to w ls rs x.

  (** the local variables of parse (200-205) *)
  Record progress := mkProg { g_first : bool; g_multiple : bool; g_offset : Z; g_largest : Z }.
  Definition state_col (s : ustr) (g : progress) : outcome Z :=
    let! n := number_col (fast_stoi s 0) in
    if n + g_offset g <? 2 ^ 31 then Ok (n + g_offset g) else UB.
  Definition seen (s : Z) (g : progress) : progress :=
    mkProg (g_first g) (g_multiple g) (g_offset g) (Z.max (g_largest g) s).
  (** att_compiler.cc:266-275: the first line leads from state 0 to its source *)
  Definition start_arc (from : Z) (xg : att * progress) : att * progress :=
    let '(x, g) := xg in
    if g_first g then
      (push_arc 0 (mkTr from 0 0 0) x, mkProg false (g_multiple g) (g_offset g) (g_largest g))
    else (x, g).
  (** att_compiler.cc:280-292, 316-328: a weight column that may be missing *)
  Definition weight_col (cols : list ustr) : outcome Z :=
    match cols with [] => Ok 0 | c :: _ => number_col (fast_stod c) end.
  (** att_compiler.cc:227-330: one line *)
  Definition parse_line (hfst rl : bool) (cols : list ustr) (xg : att * progress) : outcome (att * progress) :=
    let '(x, g) := xg in
    match cols with
    | [] => Ok xg
    | [[]] => Ok xg
    | c0 :: rest =>
        if g_first g && match rest with [] => true | _ => false end then Exit
        else if match c0 with u :: _ => u =? 45 | [] => false end then
          Ok (x, mkProg true (g_multiple g || (g_offset g =? 1)) (g_largest g + 1) (g_largest g))
        else
          match rest with
          | [_; _] => Exit
          | _ :: _ :: _ :: _ :: _ :: _ => Exit
          | _ =>
              let! from := state_col c0 g in
              let '(x, g) := start_arc from (x, seen from g) in
              match rest with
              | c1 :: c2 :: c3 :: wt =>
                  let! to := state_col c1 g in
                  let g := seen to g in
                  let upper := if rl then c3 else c2 in
                  let lower := if rl then c2 else c3 in
                  let! w := weight_col wt in
                  let! x := add_transition from to (convert_hfst hfst upper) (convert_hfst hfst lower) w x in
                  Ok (x, g)
              | _ =>
                  let! w := weight_col rest in
                  Ok (match zfind from (x_finals x) with
                      | Some _ => x
                      | None => mkAtt (x_graph x) (x_finals x ++ [(from, w)]) (x_alph x) (x_letters x) (x_phantom x)
                      end, g)
              end
          end
    end.
  Fixpoint parse_lines (hfst rl : bool) (ls : list (list ustr)) (xg : att * progress) : outcome (att * progress) :=
    match ls with
    | [] => Ok xg
    | cols :: ls => let! xg := parse_line hfst rl cols xg in parse_lines hfst rl ls xg
    end.
  (** att_compiler.cc:33-49, 200-205 *)
  Definition new_att : att := mkAtt [] [] new_alphabet [] 0.
  Definition new_progress : progress := mkProg true false 1 0.

  (** * Words and punctuation *)
  (** t.type |= type for all transductions of a node *)
  Definition or_types (id type : Z) (g : graph) : graph :=
    set_node id (map (fun t => mkTr (tr_to t) (tr_tag t) (tr_wt t) (Z.lor (tr_type t) type)) (node g id)) g.
  (** att_compiler.cc:473-481: the transductions of [s] from [i] on *)
  Fixpoint fwd_arcs (n i : nat) (s : Z) (done todo : list Z) (g : graph) : list Z * graph :=
    match n with
    | O => (todo, g)
    | S n =>
        match nth_error (node g s) i with
        | None => (todo, g)
        | Some t1 =>
            let g := or_types (tr_to t1) (tr_type t1) g in
            let todo := if existsb (Z.eqb (tr_to t1)) done then todo else tr_to t1 :: todo in
            fwd_arcs n (S i) s done todo g
        end
    end.
  (** att_compiler.cc:459-485 [classify_forwards]; the stack as a list, top first *)
  Fixpoint fwd_loop (fuel : nat) (done todo : list Z) (g : graph) : outcome graph :=
    match todo with
    | [] => Ok g
    | next :: todo =>
        match fuel with
        | O => NoFuel
        | S fuel =>
            if existsb (Z.eqb next) done then fwd_loop fuel done todo g
            else
              let '(todo, g) := fwd_arcs (length (node g next)) 0 next done todo g in
              fwd_loop fuel (next :: done) todo g
        end
    end.
  Definition narcs (g : graph) : nat := length (flat_map snd g).
  Definition classify_forwards (start : Z) (g : graph) : outcome graph :=
    fwd_loop (S (narcs g)) [] [start] g.

  Definition set_type (id : Z) (i : nat) (type : Z) (g : graph) : graph :=
    set_node id (upd i (fun t => mkTr (tr_to t) (tr_tag t) (tr_wt t) type) (node g id)) g.
  (** att_compiler.cc:501-513: the transductions from [i] on, with the recursive call *)
  Fixpoint bwd_arcs (rec : Z -> list Z -> graph -> outcome (Z * graph)) (n i : nat) (s : Z) (path : list Z) (type : Z) (g : graph)
    : outcome (Z * graph) :=
    match n with
    | O => Ok (type, g)
    | S n =>
        match nth_error (node g s) i with
        | None => Ok (type, g)
        | Some t1 =>
            if negb (tr_type t1 =? 0) then bwd_arcs rec n (S i) s path (Z.lor type (tr_type t1)) g
            else if existsb (Z.eqb (tr_to t1)) path then Exit
            else
              let! (ty, g) := rec (tr_to t1) (tr_to t1 :: path) g in
              bwd_arcs rec n (S i) s path (Z.lor type ty) (set_type s i ty g)
        end
    end.
  (** att_compiler.cc:487-518 [classify_backwards] *)
  Fixpoint classify_backwards (fuel : nat) (fins : list (Z * Z)) (s : Z) (path : list Z) (g : graph) : outcome (Z * graph) :=
    match fuel with
    | O => NoFuel
    | S fuel =>
        match zfind s fins with
        | Some _ => Exit
        | None => bwd_arcs (classify_backwards fuel fins) (length (node g s)) 0 s path 0 g
        end
    end.

  (** att_compiler.cc:191-348 [parse]: the members and the starting state *)
  Definition att_parse (hfst rl splitting : bool) (text : ustr) : outcome (att * Z) :=
    let! (x, g) := parse_lines hfst rl (read_lines (length text) text) (new_att, new_progress) in
    let start := if g_multiple g then 0 else 1 in
    if splitting then
      let! gr := classify_forwards start (x_graph x) in
      let! (_, gr) := classify_backwards (S (S (narcs gr))) (x_finals x) start [] gr in
      Ok (with_graph gr x, start)
    else Ok (x, start).
End Characters.

(** * The result *)
(** transducer, corr and visited of _extract_transducer *)
Record xstate := mkX { e_t : transducer; e_corr : list (Z * nat); e_visited : list Z }.
Fixpoint corr_find (k : Z) (l : list (Z * nat)) : option nat :=
  match l with
  | [] => None
  | (k', v) :: r => if k =? k' then Some v else corr_find k r
  end.
Definition corr_set (k : Z) (v : nat) (l : list (Z * nat)) : list (Z * nat) := (k, v) :: l.
(** att_compiler.cc:414-441, the loop, with the recursive call *)
Fixpoint ext_arcs (rec : Z -> xstate -> outcome xstate) (type from : Z) (new_from : bool) (arcs : list transduction) (st : xstate)
  : outcome xstate :=
  match arcs with
  | [] => Ok st
  | it :: arcs =>
      if negb (Z.land (tr_type it) type =? type) then ext_arcs rec type from new_from arcs st
      else
        let new_to := match corr_find (tr_to it) (e_corr st) with Some _ => false | None => true end in
        let corr := if new_from then corr_set from (nstates (e_t st) + (if new_to then 1 else 0))%nat (e_corr st) else e_corr st in
        let from_t := match corr_find from corr with Some s => s | None => 0%nat end in
        let! st :=
          match corr_find (tr_to it) corr with
          | Some to_t =>
              let! t := linkStates from_t to_t (tr_tag it) (tr_wt it) (e_t st) in
              Ok (mkX t corr (e_visited st))
          | None =>
              let '(to_t, t) := insertNewSingleTransduction (tr_tag it) from_t (tr_wt it) (e_t st) in
              Ok (mkX t (corr_set (tr_to it) to_t corr) (e_visited st))
          end in
        let! st := rec (tr_to it) st in
        ext_arcs rec type from new_from arcs st
  end.
(** att_compiler.cc:389-442 [_extract_transducer] *)
Fixpoint extract (fuel : nat) (g : graph) (type from : Z) (st : xstate) : outcome xstate :=
  match fuel with
  | O => NoFuel
  | S fuel =>
      if existsb (Z.eqb from) (e_visited st) then Ok st
      else
        let new_from := match corr_find from (e_corr st) with Some _ => false | None => true end in
        ext_arcs (extract fuel g type) type from new_from (node g from)
          (mkX (e_t st) (e_corr st) (from :: e_visited st))
  end.
(** att_compiler.cc:362-371: the final states *)
Fixpoint ext_finals (fins : list (Z * Z)) (corr : list (Z * nat)) (t : transducer) : transducer :=
  match fins with
  | [] => t
  | (s, w) :: r =>
      ext_finals r corr (match corr_find s corr with Some i => setFinal i w true t | None => t end)
  end.
(** att_compiler.cc:350-387 [extract_transducer] *)
Definition extract_transducer (x : att) (start type : Z) : outcome transducer :=
  let! st := extract (S (S (narcs (x_graph x)))) (x_graph x) type start (mkX new_transducer [(start, 0%nat)] []) in
  Ok (ext_finals (x_finals x) (e_corr st) (e_t st)).
(** "main@standard" and "final@inconditional" *)
Definition main_name : ustr := [109; 97; 105; 110; 64; 115; 116; 97; 110; 100; 97; 114; 100].
Definition final_name : ustr := [102; 105; 110; 97; 108; 64; 105; 110; 99; 111; 110; 100; 105; 116; 105; 111; 110; 97; 108].
(** att_compiler.cc:520-536 [write]: the sections in the order of their names *)
Definition att_sections (splitting : bool) (x : att) (start : Z) : outcome (list (ustr * transducer)) :=
  if splitting then
    let! w := extract_transducer x start 1 in
    let! p := extract_transducer x start 2 in
    Ok ((if (0 <? length (concat (trans p)))%nat then [(final_name, p)] else []) ++ [(main_name, w)])
  else
    let! t := extract_transducer x start 0 in
    Ok [(main_name, t)].
(** lt_comp.cc:133-176 on an AT&T file: letters, alphabet and sections *)
Definition att_compile (u_ispunct u_isspace u_islower u_isupper : Z -> bool) (u_toupper u_tolower : Z -> Z)
  (hfst rl splitting : bool) (text : ustr) : outcome (list Z * alphabet * list (ustr * transducer)) :=
  let! (x, start) := att_parse u_ispunct u_isspace u_islower u_isupper u_toupper u_tolower hfst rl splitting text in
  let! secs := att_sections splitting x start in
  Ok (x_letters x, x_alph x, secs).

(** * lt-print *)
(** transducer.cc:728-750 [escapeSymbol] *)
Definition escapeSymbol (s : ustr) (hfst : bool) : ustr :=
  match s with
  | [] => if hfst then hfst_eps_short else lttb_eps
  | _ =>
      if hfst && (if ustr_eq_dec s [32] then true else false) then hfst_space
      else if hfst && (if ustr_eq_dec s [9] then true else false) then hfst_tab
      else s
  end.
(** "%S" of a C string *)
Fixpoint c_string (s : ustr) : ustr :=
  match s with [] => [] | c :: r => if c =? 0 then [] else c :: c_string r end.
(** "%d" of a non-negative number and "%f" of a number of millionths *)
Fixpoint digits (fuel : nat) (n : Z) : ustr :=
  match fuel with
  | O => []
  | S fuel => if n <? 10 then [48 + n] else digits fuel (n / 10) ++ [48 + n mod 10]
  end.
Definition fmt_int (n : Z) : ustr := digits (S (Z.to_nat (Z.log2 n))) n.
Definition fmt_frac (n : Z) : ustr :=
  [48 + n / 100000 mod 10; 48 + n / 10000 mod 10; 48 + n / 1000 mod 10; 48 + n / 100 mod 10; 48 + n / 10 mod 10; 48 + n mod 10].
Definition fmt_weight (w : Z) : ustr :=
  (if w <? 0 then [45] else []) ++ fmt_int (Z.abs w / 1000000) ++ [46] ++ fmt_frac (Z.abs w mod 1000000).
(** transducer.cc:759-769 *)
Definition show_arc (a : alphabet) (hfst : bool) (s : nat) (x : arc) : outcome ustr :=
  let! p := decode (a_tag x) a in
  let! l := getSymbol (fst p) a in
  let! r := getSymbol (snd p) a in
  Ok (fmt_int (Z.of_nat s) ++ [9] ++ fmt_int (Z.of_nat (a_dst x)) ++ [9] ++ c_string (escapeSymbol l hfst) ++ [9]
      ++ c_string (escapeSymbol r hfst) ++ [9] ++ fmt_weight (a_wt x) ++ [10]).
Fixpoint show_arcs (a : alphabet) (hfst : bool) (s : nat) (l : list arc) : outcome ustr :=
  match l with
  | [] => Ok []
  | x :: r => let! u := show_arc a hfst s x in let! v := show_arcs a hfst s r in Ok (u ++ v)
  end.
Fixpoint show_states (a : alphabet) (hfst : bool) (s : nat) (l : list (list arc)) : outcome ustr :=
  match l with
  | [] => Ok []
  | x :: r => let! u := show_arcs a hfst s x in let! v := show_states a hfst (S s) r in Ok (u ++ v)
  end.
(** transducer.cc:752-777 [show] *)
Definition show (a : alphabet) (hfst : bool) (t : transducer) : outcome ustr :=
  let! u := show_states a hfst 0 (trans t) in
  Ok (u ++ flat_map (fun f => fmt_int (Z.of_nat (fst f)) ++ [9] ++ fmt_weight (snd f) ++ [10]) (finals t)).
(** lt_print.cc:57-66 *)
Fixpoint lt_print (a : alphabet) (hfst : bool) (first : bool) (m : list (ustr * transducer)) : outcome ustr :=
  match m with
  | [] => Ok []
  | (_, t) :: r =>
      let! t := joinFinals 0 t in
      let! u := show a hfst t in
      let! v := lt_print a hfst false r in
      Ok ((if first then [] else [45; 45; 10]) ++ u ++ v)
  end.
