(** Model of lttoolbox/compiler.cc from the entries on: what [procNode], [procParDef],
    [procSection] and [procEntry] do with a parsed dictionary.  Definitions only.

    Not modelled here: reading XML and the letters of the alphabet element (in DixModel.v;
    the elements arrive as events and tokens), unified compilation (lines 741-803, in UnifiedModel.v), entry debugging (lines
    828-850), and the splitting of large sections (lines 965-970, off by default).
    [default_weight] is 0.  [alphabet(0, 0)] is 0 and changes nothing (C08_epsilon_pair);
    it is written 0.  A state number -1 is not represented: the model stops with UB where
    insertSingleTransduction returns it. *)
From Verif Require Import Base AlphabetModel TransducerModel RegexpModel StringModel.

(** std::map with names as keys *)
Section NameMap.
  Context {V : Type}.
  Fixpoint name_find (k : ustr) (m : list (ustr * V)) : option V :=
    match m with
    | [] => None
    | (k', v) :: r => if ustr_eq_dec k k' then Some v else name_find k r
    end.
  Fixpoint name_set (k : ustr) (v : V) (m : list (ustr * V)) : list (ustr * V) :=
    match m with
    | [] => [(k, v)]
    | (k', v') :: r => if ustr_eq_dec k k' then (k, v) :: r else (k', v') :: name_set k v r
    end.
  (** operator[] *)
  Definition name_get (k : ustr) (d : V) (m : list (ustr * V)) : V :=
    match name_find k m with Some v => v | None => d end.
End NameMap.

(** entry_token.cc: a part of an entry.  The weight of a paradigm token is 0
    (entry_token.h:47). *)
Inductive entry_token :=
| Single (pi pd : list Z) (weight : Z)
| Paradigm (name : ustr)
| Regexp (er : list Z).

(** The settings: direction LR or RL, the characters of parseACX, and for separable
    dictionaries the codes of <ANY_TAG> and <ANY_CHAR>. *)
Record settings := mkSet { lr : bool; acx : list (Z * list Z); sep : option (Z * Z) }.

(** * matchTransduction, compiler.cc:201-305 *)
(** The rounds of the loop: the left symbol if there is one, and the right one or 0
    (lines 228-262). *)
Fixpoint rounds (ls rs : list Z) : list (option Z * Z) :=
  match ls, rs with
  | [], _ => map (fun y => (None, y)) rs
  | x :: ls, [] => (Some x, 0) :: rounds ls []
  | x :: ls, y :: rs => (Some x, y) :: rounds ls rs
  end.
(** A chain of [tag == alphabet(x, y) || ...]; every call made registers its pair. *)
Fixpoint tag_is (ps : list (Z * Z)) (tag : Z) (a : alphabet) : bool * alphabet :=
  match ps with
  | [] => (false, a)
  | p :: ps => let '(c, a) := pair_code p a in if tag =? c then (true, a) else tag_is ps tag a
  end.
(** Lines 276-290 *)
Definition loop_back (s : settings) (tag : Z) (new_state : nat) (a : alphabet) (t : transducer)
  : outcome (alphabet * transducer) :=
  match sep s with
  | None => Ok (a, t)
  | Some (any_tag, any_char) =>
      let '(b, a) := tag_is [(0, any_tag); (0, any_char)] tag a in
      if b then Ok (a, t)
      else
        let '(b, a) := tag_is [(any_tag, any_tag); (any_char, any_char); (any_tag, 0); (any_char, 0)] tag a in
        if b then let! t := linkStates new_state new_state tag 0 t in Ok (a, t) else Ok (a, t)
  end.
(** Lines 292-298 *)
Fixpoint link_acx (cs : list Z) (rsymbol : Z) (state new_state : nat) (weight : Z) (a : alphabet) (t : transducer)
  : outcome (alphabet * transducer) :=
  match cs with
  | [] => Ok (a, t)
  | c :: cs =>
      let '(tag, a) := pair_code (c, rsymbol) a in
      let! t := linkStates state new_state tag weight t in
      link_acx cs rsymbol state new_state weight a t
  end.
Fixpoint acx_find (c : Z) (m : list (Z * list Z)) : list Z :=
  match m with
  | [] => []
  | (c', cs) :: r => if c =? c' then cs else acx_find c r
  end.
Fixpoint match_rounds (s : settings) (rs : list (option Z * Z)) (weight : Z) (a : alphabet) (state : nat) (t : transducer)
  : outcome (alphabet * nat * transducer) :=
  match rs with
  | [] => Ok (a, state, t)
  | (ol, r) :: rest =>
      let '(tag, a) := pair_code (match ol with Some l => l | None => 0 end, r) a in
      let weight_value := match rest with [] => weight | _ => 0 end in
      match insertSingleTransduction tag state weight_value t with
      | (None, _) => UB
      | (Some new_state, t) =>
          let! (a, t) := loop_back s tag new_state a t in
          let! (a, t) := link_acx (match ol with Some l => acx_find l (acx s) | None => [] end) r state new_state
                           weight_value a t in
          match_rounds s rest weight a new_state t
      end
  end.
Definition matchTransduction (s : settings) (pi pd : list Z) (weight : Z) (a : alphabet) (state : nat) (t : transducer)
  : outcome (alphabet * nat * transducer) :=
  let '(ls, rs) := if lr s then (pi, pd) else (pd, pi) in
  match pi, pd with
  | [], [] => let '(state, t) := insertNewSingleTransduction 0 state 0 t in Ok (a, state, t)
  | _, _ => match_rounds s (rounds ls rs) weight a state t
  end.

(** * The compiler *)
(** suffix_paradigms, prefix_paradigms and postsuffix_paradigms of one section *)
Record caches := mkC { suffix : list (ustr * nat); prefix : list (ustr * nat); postsuffix : list (ustr * nat) }.
Record compiler := mkComp {
  c_alph : alphabet;
  c_pars : list (ustr * transducer);
  c_secs : list (ustr * transducer);
  c_caches : list (ustr * caches);
  current_paradigm : ustr;
  current_section : ustr
}.
Definition new_compiler (a : alphabet) : compiler := mkComp a [] [] [] [] [].

(** What an entry works on: alphabet, paradigms, the transducer and the state reached. *)
Record work := mkW { w_alph : alphabet; w_pars : list (ustr * transducer); w_t : transducer; w_e : nat }.

(** insertTransducer(e, paradigms[name]); the paradigm's final states are joined in place. *)
Definition insert_paradigm (name : ustr) (w : work) : outcome work :=
  let! (e, t, u) := insertTransducer (w_e w) (name_get name new_transducer (w_pars w)) 0 (w_t w) in
  Ok (mkW (w_alph w) (name_set name u (w_pars w)) t e).
(** The regular expression compiler's transducer *)
Definition insert_regexp (er : list Z) (w : work) : outcome work :=
  let! (a, r) := rx_compile (w_alph w) er in
  let! (e, t, _) := insertTransducer (w_e w) r 0 (w_t w) in
  Ok (mkW a (w_pars w) t e).
Definition insert_single (s : settings) (pi pd : list Z) (weight : Z) (w : work) : outcome work :=
  let! (a, e, t) := matchTransduction s pi pd weight (w_alph w) (w_e w) (w_t w) in
  Ok (mkW a (w_pars w) t e).

(** compiler.cc:568-596: an entry of a paradigm *)
Fixpoint paradigm_tokens (s : settings) (els : list entry_token) (w : work) : outcome work :=
  match els with
  | [] => Ok w
  | Paradigm name :: r => let! w := insert_paradigm name w in paradigm_tokens s r w
  | Single pi pd weight :: r => let! w := insert_single s pi pd weight w in paradigm_tokens s r w
  | Regexp er :: r => let! w := insert_regexp er w in paradigm_tokens s r w
  end.

(** compiler.cc:598-656: an entry of a section; [first] is i == 0. *)
Fixpoint section_tokens (s : settings) (first : bool) (els : list entry_token) (w : work) (c : caches)
  : outcome (work * caches) :=
  match els with
  | [] => Ok (w, c)
  | Paradigm name :: [] =>
      match name_find name (suffix c) with
      | Some q =>
          let! t := linkStates (w_e w) q 0 0 (w_t w) in
          Ok (mkW (w_alph w) (w_pars w) t (name_get name 0%nat (postsuffix c)), c)
      | None =>
          let '(e, t) := insertNewSingleTransduction 0 (w_e w) 0 (w_t w) in
          let! w := insert_paradigm name (mkW (w_alph w) (w_pars w) t e) in
          Ok (w, mkC (name_set name e (suffix c)) (prefix c) (name_set name (w_e w) (postsuffix c)))
      end
  | Paradigm name :: r =>
      if first then
        match name_find name (prefix c) with
        | Some q => section_tokens s false r (mkW (w_alph w) (w_pars w) (w_t w) q) c
        | None =>
            let! w := insert_paradigm name w in
            section_tokens s false r w (mkC (suffix c) (name_set name (w_e w) (prefix c)) (postsuffix c))
        end
      else let! w := insert_paradigm name w in section_tokens s false r w c
  | Regexp er :: r => let! w := insert_regexp er w in section_tokens s false r w c
  | Single pi pd weight :: r => let! w := insert_single s pi pd weight w in section_tokens s false r w c
  end.

(** compiler.cc:564-658 [insertEntryTokens] *)
Definition insertEntryTokens (s : settings) (els : list entry_token) (c : compiler) : outcome compiler :=
  match current_paradigm c with
  | _ :: _ =>
      let t := name_get (current_paradigm c) new_transducer (c_pars c) in
      let! w := paradigm_tokens s els (mkW (c_alph c) (c_pars c) t (initial t)) in
      Ok (mkComp (w_alph w) (name_set (current_paradigm c) (setFinal (w_e w) 0 true (w_t w)) (w_pars w))
            (c_secs c) (c_caches c) (current_paradigm c) (current_section c))
  | [] =>
      let t := name_get (current_section c) new_transducer (c_secs c) in
      let! (w, k) := section_tokens s true els (mkW (c_alph c) (c_pars c) t (initial t))
                       (name_get (current_section c) (mkC [] [] []) (c_caches c)) in
      Ok (mkComp (w_alph w) (w_pars w) (name_set (current_section c) (setFinal (w_e w) 0 true (w_t w)) (c_secs c))
            (name_set (current_section c) k (c_caches c)) (current_paradigm c) (current_section c))
  end.

(** compiler.cc:542-562 [procPar] and 875-899: an entry with an unknown paradigm ends the
    program, as does a paradigm within itself; one with an empty paradigm is dropped. *)
Fixpoint scan_entry (c : compiler) (els : list entry_token) : outcome bool :=
  match els with
  | [] => Ok true
  | Paradigm name :: r =>
      let! _ := match current_paradigm c with
                | _ :: _ => if ustr_eq_dec name (current_paradigm c) then Exit else Ok tt
                | [] => Ok tt
                end in
      match name_find name (c_pars c) with
      | None => Exit
      | Some t => if isEmpty t then Ok false else scan_entry c r
      end
  | _ :: r => scan_entry c r
  end.

(** What the parser meets.  Sections come with the name built at lines 684-688. *)
Inductive event :=
| PardefStart (name : ustr)
| PardefEnd
| SectionStart (name : ustr)
| SectionEnd
| Entry (els : list entry_token).

(** compiler.cc:181-199 [procParDef], 670-695 [procSection], 728-917 [procEntry] *)
Definition proc (s : settings) (ev : event) (c : compiler) : outcome compiler :=
  match ev with
  | PardefStart name => Ok (mkComp (c_alph c) (c_pars c) (c_secs c) (c_caches c) name (current_section c))
  | PardefEnd =>
      let t := name_get (current_paradigm c) new_transducer (c_pars c) in
      if isEmpty t then
        Ok (mkComp (c_alph c) (name_set (current_paradigm c) t (c_pars c)) (c_secs c) (c_caches c)
              (current_paradigm c) (current_section c))
      else
        let! t := minimize 0 t in
        let! t := joinFinals 0 t in
        Ok (mkComp (c_alph c) (name_set (current_paradigm c) t (c_pars c)) (c_secs c) (c_caches c) [] (current_section c))
  | SectionStart name => Ok (mkComp (c_alph c) (c_pars c) (c_secs c) (c_caches c) (current_paradigm c) name)
  | SectionEnd => Ok (mkComp (c_alph c) (c_pars c) (c_secs c) (c_caches c) (current_paradigm c) [])
  | Entry els =>
      let! keep := scan_entry c els in
      if keep then insertEntryTokens s els c else Ok c
  end.
Fixpoint procs (s : settings) (evs : list event) (c : compiler) : outcome compiler :=
  match evs with
  | [] => Ok c
  | ev :: evs => let! c := proc s ev c in procs s evs c
  end.

(** compiler.cc:71-88: every section is minimised. *)
Fixpoint minimize_all (m : list (ustr * transducer)) : outcome (list (ustr * transducer)) :=
  match m with
  | [] => Ok []
  | (k, t) :: m =>
      let! t := minimize 0 t in
      let! m := minimize_all m in
      Ok ((k, t) :: m)
  end.
(** compiler.cc:44-88 [parse] up to the separable part: alphabet and sections *)
Definition compile (s : settings) (a : alphabet) (evs : list event) : outcome (alphabet * list (ustr * transducer)) :=
  let! c := procs s evs (new_compiler a) in
  let! m := minimize_all (c_secs c) in
  Ok (c_alph c, m).

(** * Filters *)
(** compiler.cc:697-707 [filterEntry] *)
Definition filterEntry (value filter : ustr) (keep_on_empty_filter : bool) : outcome bool :=
  match value with
  | [] => Ok true
  | _ =>
      if keep_on_empty_filter && match filter with [] => true | _ => false end then Ok true
      else
        let! ops := split (S (length value)) value [32] in
        Ok (existsb (fun x : ustr => if ustr_eq_dec x filter then true else false) ops)
  end.

(** * valid, compiler.cc:109-131 *)
(** alphabet.cc:254-263 [symbolsWhereLeftIs] *)
Definition symbolsWhereLeftIs (l : Z) (a : alphabet) : list Z :=
  map snd (filter (fun p => fst (fst p) =? l) (spair a)).
Definition valid_section (a : alphabet) (t : transducer) : outcome bool :=
  let! starts := closure t (initial t) (symbolsWhereLeftIs 0 a) in
  fold_left (fun (acc : outcome bool) i =>
    let! ok := acc in
    if ok then
      if isFinal t i then Ok false
      else
        let! spaces := closure t i (symbolsWhereLeftIs 32 a) in
        Ok (length spaces <=? 1)%nat
    else Ok false) starts (Ok true).
Fixpoint valid (a : alphabet) (m : list (ustr * transducer)) : outcome bool :=
  match m with
  | [] => Ok true
  | (_, t) :: r => let! ok := valid_section a t in if ok then valid a r else Ok false
  end.
(** compiler.cc:44-107 [parse], not separable *)
Definition parse (s : settings) (a : alphabet) (evs : list event) : outcome (alphabet * list (ustr * transducer)) :=
  let! (a, m) := compile s a evs in
  let! ok := valid a m in
  if ok then Ok (a, m) else Exit.
