(** PatternList (lttoolbox/pattern_list.cc:43-226, 298-358): collecting patterns and building
    the automaton.  tagCount and tagAt are in MatchModel.v, MatchExe and MatchState too.
    Definitions only.

    Not modelled: copying, files.  default_weight is 0.  The result -1 of
    insertSingleTransduction is [UB] here; it would go on to be used as a state (in linkStates,
    which exits, or as index -1 of node_list in match_exe.cc:53). *)
From Verif Require Import Base CompressionModel AlphabetModel TransducerModel MatchModel.

(** pattern_list.h:51-61 *)
Definition ANY_CHAR : ustr := [60; 65; 78; 89; 95; 67; 72; 65; 82; 62].
Definition ANY_TAG : ustr := [60; 65; 78; 89; 95; 84; 65; 71; 62].
Definition QUEUE : ustr := [60; 81; 85; 69; 85; 69; 62].

(** sequence_id is used only when a sequence ends. *)
Record plist := mkPL {
  pl_alpha : alphabet;
  pl_patterns : list (Z * list Z);     (* the multimap, in order *)
  pl_sequence : bool; pl_data : list (list Z); pl_id : Z }.

(** 43-51 *)
Definition new_plist : plist :=
  mkPL (includeSymbol QUEUE (includeSymbol ANY_CHAR (includeSymbol ANY_TAG new_alphabet))) [] false [] 0.

(** std::multimap::insert *)
Fixpoint pm_insert (k : Z) (v : list Z) (l : list (Z * list Z)) : list (Z * list Z) :=
  match l with
  | [] => [(k, v)]
  | (k', v') :: r => if k <? k' then (k, v) :: l else (k', v') :: pm_insert k v r
  end.
(** equal_range *)
Definition pm_range (k : Z) (l : list (Z * list Z)) : list (list Z) :=
  map snd (filter (fun x => fst x =? k) l).

(** 74-84 *)
Definition beginSequence (p : plist) : outcome plist :=
  if pl_sequence p then Exit else Ok (mkPL (pl_alpha p) (pl_patterns p) true [] (pl_id p)).
(** 86-104 *)
Definition endSequence (p : plist) : outcome plist :=
  if pl_sequence p then
    let q := symbol_code QUEUE (pl_alpha p) in
    Ok (mkPL (pl_alpha p)
          (fold_left (fun l v => pm_insert (pl_id p) v l) (map (fun v => v ++ [q]) (pl_data p)) (pl_patterns p))
          false (map (fun v => v ++ [q]) (pl_data p)) (pl_id p))
  else Exit.

(** 130-144: the tags from number [i] on *)
Fixpoint tag_symbols (n : nat) (i : Z) (tags : ustr) (a : alphabet) : outcome (list Z * alphabet) :=
  match n with
  | O => Ok ([], a)
  | S n =>
      let! t := tagAt tags i in
      let tag := [60] ++ t ++ [62] in
      let '(c, a) := if ustr_eq_dec tag [60; 42; 62] then (symbol_code ANY_TAG a, a)
                     else let a := includeSymbol tag a in (symbol_code tag a, a) in
      let! (l, a) := tag_symbols n (i + 1) tags a in
      Ok (c :: l, a)
  end.
(** 106-146 [insertOutOfSequence]: what is appended *)
Definition insertOutOfSequence (lemma tags : ustr) (a : alphabet) : outcome (list Z * alphabet) :=
  let l := match lemma with
           | [] => [symbol_code ANY_CHAR a]
           | _ => map (fun c => if c =? 42 then symbol_code ANY_CHAR a else c) lemma
           end in
  let! (t, a) := match tags with
                 | [] => Ok ([symbol_code ANY_TAG a], a)
                 | _ => tag_symbols (Z.to_nat (tagCount tags)) 0 tags a
                 end in
  Ok (l ++ t, a).
(** 148-168 [insertIntoSequence]: the loop *)
Fixpoint into_each (lemma tags : ustr) (l : list (list Z)) (a : alphabet) : outcome (list (list Z) * alphabet) :=
  match l with
  | [] => Ok ([], a)
  | v :: r =>
      let! (x, a) := insertOutOfSequence lemma tags a in
      let! (r, a) := into_each lemma tags r a in
      Ok ((v ++ [43] ++ x) :: r, a)
  end.
Definition insertIntoSequence (id : Z) (lemma tags : ustr) (p : plist) : outcome plist :=
  match pl_data p with
  | [] =>
      let! (x, a) := insertOutOfSequence lemma tags (pl_alpha p) in
      Ok (mkPL a (pl_patterns p) (pl_sequence p) [x] id)
  | l =>
      let! (l, a) := into_each lemma tags l (pl_alpha p) in
      Ok (mkPL a (pl_patterns p) (pl_sequence p) l id)
  end.
(** 170-184 [insert] *)
Definition insert (id : Z) (lemma tags : ustr) (p : plist) : outcome plist :=
  if pl_sequence p then insertIntoSequence id lemma tags p
  else
    let! (x, a) := insertOutOfSequence lemma tags (pl_alpha p) in
    Ok (mkPL a (pm_insert id (x ++ [symbol_code QUEUE a]) (pl_patterns p)) false (pl_data p) (pl_id p)).
(** 186-228 [insert] of a label *)
Definition insert_label (id other : Z) (p : plist) : outcome plist :=
  if pl_sequence p then
    let range := pm_range other (pl_patterns p) in
    let data := match pl_data p with
                | [] => range
                | l => flat_map (fun v => map (fun x => v ++ [43] ++ x) range) l
                end in
    Ok (mkPL (pl_alpha p) (pl_patterns p) true data id)
  else Exit.

(** * buildTransducer, 298-358 *)
Section Build.
  Context (a : alphabet).
  Notation anyc := (symbol_code ANY_CHAR a).
  Notation anyt := (symbol_code ANY_TAG a).
  Notation queue := (symbol_code QUEUE a).

  Definition insert_or_ub (val : Z) (state : nat) (t : transducer) : outcome (nat * transducer) :=
    match insertSingleTransduction val state 0 t with (Some s, t) => Ok (s, t) | (None, _) => UB end.
  Definition link_prev (prev : option nat) (state : nat) (val : Z) (t : transducer) : outcome transducer :=
    match prev with Some p => linkStates p state val 0 t | None => Ok t end.
  (** 306-343: one symbol of a pattern; [prev] is prevstate *)
  Definition build_symbol (val : Z) (x : transducer * nat * option nat) : outcome (transducer * nat * option nat) :=
    let '(t, state, prev) := x in
    if (anyc =? val) || (anyt =? val) then
      let! (state, t) := insert_or_ub val state t in
      let! t := link_prev prev state val t in
      let! t := linkStates state state val 0 t in
      Ok (t, state, None)
    else if queue =? val then
      match prev with
      | Some _ => Ok (t, state, prev)
      | None =>
          let! (s, t) := insert_or_ub 95 state t in
          let! t := linkStates state s 32 0 t in
          let! t := linkStates state s 35 0 t in
          let! t := linkStates s s anyc 0 t in
          Ok (t, s, Some state)
      end
    else
      let! (state, t) := insert_or_ub val state t in
      let! t := link_prev prev state val t in
      Ok (t, state, None).
  Fixpoint build_symbols (l : list Z) (x : transducer * nat * option nat) : outcome (transducer * nat * option nat) :=
    match l with
    | [] => Ok x
    | v :: r => let! x := build_symbol v x in build_symbols r x
    end.
  (** final_type[state] = type *)
  Fixpoint type_set (s : nat) (c : Z) (l : list (nat * Z)) : list (nat * Z) :=
    match l with
    | [] => [(s, c)]
    | (s', c') :: r => if (s =? s')%nat then (s, c) :: r
                       else if (s <? s')%nat then (s, c) :: l else (s', c') :: type_set s c r
    end.
  (** 344-356 *)
  Definition mark_final (s : nat) (id : Z) (x : transducer * list (nat * Z)) : transducer * list (nat * Z) :=
    let '(t, ft) := x in
    if isFinal t s then x else (setFinal s 0 true t, type_set s id ft).
  Definition build_pattern (id : Z) (l : list Z) (x : transducer * list (nat * Z)) : outcome (transducer * list (nat * Z)) :=
    let '(t, ft) := x in
    let! (t, state, prev) := build_symbols l (t, initial t, None) in
    let x := match prev with Some p => mark_final p id (t, ft) | None => (t, ft) end in
    Ok (mark_final state id x).
  Fixpoint build_patterns (l : list (Z * list Z)) (x : transducer * list (nat * Z)) : outcome (transducer * list (nat * Z)) :=
    match l with
    | [] => Ok x
    | (id, v) :: r => let! x := build_pattern id v x in build_patterns r x
    end.
End Build.
Definition buildTransducer (p : plist) : outcome (transducer * list (nat * Z)) :=
  build_patterns (pl_alpha p) (pl_patterns p) (new_transducer, []).
