(** Model of the operations of lttoolbox/transducer.cc that rewrite tags: updateAlphabet,
    invert, deleteSymbols, epsilonizeSymbols, applyACX; and of recognise.  Definitions
    only.  Representation as in TransducerModel.v and AlphabetModel.v. *)
From Verif Require Import Base CompressionModel SerialiserModel SortedVectorModel
  AlphabetModel TransducerModel.

(** * invert, transducer.cc:1312-1326 *)

(** transducer.cc:1317-1321: the arcs of one state. *)
Fixpoint invert_arcs (arcs : list arc) (alpha : alphabet) (acc : list arc)
  : outcome (list arc * alphabet) :=
  match arcs with
  | [] => Ok (acc, alpha)
  | (tag, x) :: r =>
      let! pr := decode tag alpha in
      let '(new_sym, alpha) := pair_code (snd pr, fst pr) alpha in
      invert_arcs r alpha (mm_insert (new_sym, x) acc)
  end.
(** transducer.cc:1315-1323. *)
Fixpoint invert_states (ts : list (list arc)) (alpha : alphabet)
  : outcome (list (list arc) * alphabet) :=
  match ts with
  | [] => Ok ([], alpha)
  | l :: r =>
      let! (l', alpha) := invert_arcs l alpha [] in
      let! (r', alpha) := invert_states r alpha in
      Ok (l' :: r', alpha)
  end.
Definition invert (t : transducer) (alpha : alphabet) : outcome (transducer * alphabet) :=
  let! (ts, alpha) := invert_states (trans t) alpha in
  Ok (mkT (initial t) (finals t) ts, alpha).

(** * updateAlphabet, transducer.cc:1257-1310 *)

(** std::set<int32_t>::insert. *)
Definition iset_insert (x : Z) (l : list Z) : list Z := sv_insert Z.ltb x l.

(** transducer.cc:1263-1277: the symbols and pairs of one arc. *)
Definition ua_arc (old_alpha : alphabet) (has_pairs : bool) (st : list Z * list Z) (tag : Z)
  : outcome (list Z * list Z) :=
  let '(symbol_pairs, symbols) := st in
  if negb has_pairs && (tag <? 0) then Ok (symbol_pairs, iset_insert tag symbols)
  else
    let! (l, r) := decode tag old_alpha in
    let symbols := if l <? 0 then iset_insert l symbols else symbols in
    let symbols := if r <? 0 then iset_insert r symbols else symbols in
    Ok (iset_insert tag symbol_pairs, symbols).
Fixpoint ua_collect (old_alpha : alphabet) (has_pairs : bool) (tags : list Z)
    (st : list Z * list Z) : outcome (list Z * list Z) :=
  match tags with
  | [] => Ok st
  | tag :: r => let! st := ua_arc old_alpha has_pairs st tag in ua_collect old_alpha has_pairs r st
  end.

(** transducer.cc:1280-1285; [update] is the map symbol_update. *)
Fixpoint ua_symbols (old_alpha : alphabet) (symbols : list Z) (new_alpha : alphabet)
    (update : list (Z * Z)) : outcome (alphabet * list (Z * Z)) :=
  match symbols with
  | [] => Ok (new_alpha, update)
  | it :: r =>
      let! s := getSymbol it old_alpha in
      let new_alpha := includeSymbol s new_alpha in
      ua_symbols old_alpha r new_alpha (map_set Z.eq_dec it (symbol_code s new_alpha) update)
  end.

(** symbol_update[l]: a missing key reads as 0. *)
Definition ua_side (update : list (Z * Z)) (l : Z) : Z :=
  if l <? 0 then match map_find Z.eq_dec l update with Some v => v | None => 0 end else l.

(** transducer.cc:1288-1294; [pupdate] is the map pair_update. *)
Fixpoint ua_pairs (old_alpha : alphabet) (update : list (Z * Z)) (pairs : list Z)
    (new_alpha : alphabet) (pupdate : list (Z * Z)) : outcome (alphabet * list (Z * Z)) :=
  match pairs with
  | [] => Ok (new_alpha, pupdate)
  | it :: r =>
      let! (l1, r1) := decode it old_alpha in
      let '(c, new_alpha) := pair_code (ua_side update l1, ua_side update r1) new_alpha in
      ua_pairs old_alpha update r new_alpha (map_set Z.eq_dec it c pupdate)
  end.

(** transducer.cc:1300-1306: the arcs of one state. *)
Definition ua_arcs (update : list (Z * Z)) (arcs : list arc) : list arc :=
  fold_left (fun acc a =>
    mm_insert (match map_find Z.eq_dec (a_tag a) update with Some v => v | None => a_tag a end, snd a)
      acc) arcs [].

Definition updateAlphabet (old_alpha new_alpha : alphabet) (has_pairs : bool) (t : transducer)
  : outcome (transducer * alphabet) :=
  let! (pairs, symbols) := ua_collect old_alpha has_pairs (map a_tag (concat (trans t))) ([], []) in
  let! (new_alpha, update) := ua_symbols old_alpha symbols new_alpha [] in
  let! (new_alpha, update) :=
    if has_pairs then ua_pairs old_alpha update pairs new_alpha [] else Ok (new_alpha, update) in
  Ok (mkT (initial t) (finals t) (map (ua_arcs update) (trans t)), new_alpha).

(** * deleteSymbols, transducer.cc:1328-1336; multimap::erase(key) *)
Definition mm_erase (tag : Z) (l : list arc) : list arc :=
  filter (fun a => negb (a_tag a =? tag)) l.
Definition deleteSymbols (syms : list Z) (t : transducer) : transducer :=
  mkT (initial t) (finals t)
    (map (fun l => fold_left (fun l sym => mm_erase sym l) syms l) (trans t)).

(** * epsilonizeSymbols, transducer.cc:1338-1350 *)

(** The loop at 1343-1345.  [rem] are the elements from [it] to [pr.second]: inserting a
    pair with tag 0 puts it behind the elements of tag 0, that is before [pr.second] when
    [sym] is 0. *)
Fixpoint eps_loop (fuel : nat) (sym : Z) (rem : list arc) (l : list arc) : outcome (list arc) :=
  match rem with
  | [] => Ok l
  | it :: rem =>
      match fuel with
      | O => NoFuel
      | S f =>
          let b := (0, snd it) in
          eps_loop f sym (if sym =? 0 then rem ++ [b] else rem) (mm_insert b l)
      end
  end.
Fixpoint eps_state (fuel : nat) (syms : list Z) (l : list arc) : outcome (list arc) :=
  match syms with
  | [] => Ok l
  | sym :: r =>
      let! l := eps_loop fuel sym (equal_range sym l) l in
      eps_state fuel r (mm_erase sym l)
  end.
Fixpoint eps_states (fuel : nat) (syms : list Z) (ts : list (list arc))
  : outcome (list (list arc)) :=
  match ts with
  | [] => Ok []
  | l :: r =>
      let! l' := eps_state fuel syms l in
      let! r' := eps_states fuel syms r in
      Ok (l' :: r')
  end.
Definition epsilonizeSymbols (fuel : nat) (syms : list Z) (t : transducer) : outcome transducer :=
  let! ts := eps_states fuel syms (trans t) in
  Ok (mkT (initial t) (finals t) ts).

(** * applyACX, transducer.cc:1352-1371 *)

(** The map from a symbol to its equivalents; find gives the first entry. *)
Definition acx_table : Type := list (Z * list Z).
Fixpoint acx_find (i : Z) (acx : acx_table) : option (list Z) :=
  match acx with
  | [] => None
  | (j, l) :: r => if i =? j then Some l else acx_find i r
  end.
(** transducer.cc:1361-1363. *)
Fixpoint acx_syms (syms : list Z) (o : Z) (x : nat * Z) (alpha : alphabet) : list arc * alphabet :=
  match syms with
  | [] => ([], alpha)
  | sym :: r =>
      let '(c, alpha) := pair_code (sym, o) alpha in
      let '(l, alpha) := acx_syms r o x alpha in
      ((c, x) :: l, alpha)
  end.
(** transducer.cc:1357-1366: the vector to_insert of one state. *)
Fixpoint acx_arcs (acx : acx_table) (arcs : list arc) (alpha : alphabet)
  : outcome (list arc * alphabet) :=
  match arcs with
  | [] => Ok ([], alpha)
  | (tag, x) :: r =>
      let! (i, o) := decode tag alpha in
      let '(l, alpha) :=
        match acx_find i acx with Some syms => acx_syms syms o x alpha | None => ([], alpha) end in
      let! (m, alpha) := acx_arcs acx r alpha in
      Ok (l ++ m, alpha)
  end.
Fixpoint acx_states (acx : acx_table) (ts : list (list arc)) (alpha : alphabet)
  : outcome (list (list arc) * alphabet) :=
  match ts with
  | [] => Ok ([], alpha)
  | l :: r =>
      let! (ins, alpha) := acx_arcs acx l alpha in
      let! (r', alpha) := acx_states acx r alpha in
      Ok (fold_left (fun l a => mm_insert a l) ins l :: r', alpha)
  end.
Definition applyACX (acx : acx_table) (t : transducer) (alpha : alphabet)
  : outcome (transducer * alphabet) :=
  let! (ts, alpha) := acx_states acx (trans t) alpha in
  Ok (mkT (initial t) (finals t) ts, alpha).

(** * recognise, transducer.cc:795-845 *)

(** set::insert(first, last). *)
Definition set_insert_all (range l : list nat) : list nat := fold_left (fun l x => set_insert x l) range l.

(** transducer.cc:814-835: the arcs of one live state for one unit [u] of the pattern. *)
Fixpoint rec_arcs (t : transducer) (alpha : alphabet) (u : Z) (arcs : list arc) (acc : list nat)
  : outcome (list nat) :=
  match arcs with
  | [] => Ok acc
  | a :: r =>
      let! (i, _) := decode (a_tag a) alpha in
      let! l := getSymbol i alpha in
      if existsb (Z.eqb u) l then
        let! c := closure t (a_dst a) [0] in
        rec_arcs t alpha u r (set_insert_all c acc)
      else rec_arcs t alpha u r acc
  end.
Fixpoint rec_states (t : transducer) (alpha : alphabet) (u : Z) (states acc : list nat)
  : outcome (list nat) :=
  match states with
  | [] => Ok acc
  | s :: r =>
      let! acc := rec_arcs t alpha u (arcs_of t s) acc in
      rec_states t alpha u r acc
  end.
Fixpoint rec_pattern (t : transducer) (alpha : alphabet) (pattern : list Z) (states : list nat)
  : outcome (list nat) :=
  match pattern with
  | [] => Ok states
  | u :: r =>
      let! states := rec_states t alpha u states [] in
      rec_pattern t alpha r states
  end.
Definition recognise (pattern : list Z) (alpha : alphabet) (t : transducer) : outcome bool :=
  let! c := closure t (initial t) [0] in
  let! states := rec_pattern t alpha pattern (set_insert_all c []) in
  Ok (existsb (isFinal t) states).
