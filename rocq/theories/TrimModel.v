(** lt-trim: Alphabet::createLoopbackSymbols (lttoolbox/alphabet.cc:270-309),
    Transducer::appendDotStar, copyWithTagsFirst, moveLemqsLast and trim
    (lttoolbox/transducer.cc:855-1255) and the function trim of lttoolbox/lt_trim.cc:24-104.
    Definitions only.  Representation as in TransducerModel.v and AlphabetModel.v; maps from
    search states to state numbers are association lists, sets are lists, stacks have their
    top first.  Warnings are not modelled. *)
From Verif Require Import Base CompressionModel SerialiserModel SortedVectorModel
  AlphabetModel TransducerModel ComposeModel.

(** * Searches that number what they find *)
Section Search.
  Context {K : Type} (K_dec : forall a b : K, {a = b} + {a <> b}).
  Record search := mkSearch {
    w_out : transducer;           (* the transducer that is built *)
    w_map : list (K * nat);       (* its states *)
    w_todo : list K;
    w_seen : list K
  }.
  Fixpoint kfind (k : K) (m : list (K * nat)) : option nat :=
    match m with
    | [] => None
    | (k', v) :: r => if K_dec k k' then Some v else kfind k r
    end.
  Definition kmem (k : K) (l : list K) : bool := if in_dec K_dec k l then true else false.
  (** std::map::insert: an existing key keeps its value *)
  Definition kinsert (k : K) (v : nat) (m : list (K * nat)) : list (K * nat) :=
    match kfind k m with Some _ => m | None => (k, v) :: m end.
  (** operator[]: a missing key is entered with the value 0 *)
  Definition kget (k : K) (m : list (K * nat)) : nat * list (K * nat) :=
    match kfind k m with Some v => (v, m) | None => (0%nat, (k, 0%nat) :: m) end.

  (** e.g. transducer.cc:1193-1205: push the next search state unless seen, give it a state
      unless it has one, link *)
  Definition visit (src : nat) (next : K) (label weight : Z) (st : search) : outcome (nat * search) :=
    let todo := if kmem next (w_seen st) then w_todo st else next :: w_todo st in
    let '(trg, out, m) :=
      match kfind next (w_map st) with
      | Some s => (s, w_out st, w_map st)
      | None => let '(s, out) := newState (w_out st) in (s, out, (next, s) :: w_map st)
      end in
    let! out := linkStates src trg label weight out in
    Ok (trg, mkSearch out m todo (w_seen st)).
End Search.
Arguments search : clear implicits.

(** * Tags that may follow *)
(** alphabet.cc:270-309 [createLoopbackSymbols] with s = right and nonTagsToo = false: the pairs
    of the tags that [basis] has on the right side of a pair, in this alphabet.  The set of
    codes is a list without order. *)
Definition loop_tags (basis : alphabet) : list Z := filter isTag (map snd (spairinv basis)).
Fixpoint loopback (tags : list Z) (l : list (ustr * Z)) (a : alphabet) : list Z * alphabet :=
  match l with
  | [] => ([], a)
  | (name, code) :: r =>
      if existsb (Z.eqb code) tags then
        let a := includeSymbol name a in
        let '(p, a) := pair_code (symbol_code name a, symbol_code name a) a in
        let '(ps, a) := loopback tags r a in
        (p :: ps, a)
      else loopback tags r a
  end.
Definition createLoopbackSymbols (basis a : alphabet) : list Z * alphabet :=
  loopback (loop_tags basis) (slexic basis) a.

(** transducer.cc:855-872 [appendDotStar] *)
Fixpoint dot_loops (f : nat) (w : Z) (loops : list Z) (t : transducer) : outcome transducer :=
  match loops with
  | [] => Ok t
  | x :: r => let! t := (if x =? 0 then Ok t else linkStates f f x w t) in dot_loops f w r t
  end.
Fixpoint dot_finals (fs : list (nat * Z)) (loops : list Z) (t : transducer) : outcome transducer :=
  match fs with
  | [] => Ok t
  | (f, w) :: r => let! t := dot_loops f w loops t in dot_finals r loops t
  end.
Definition appendDotStar (loops : list Z) (t : transducer) : outcome transducer := dot_finals (finals t) loops t.

(** * Lemma queues *)
(** transducer.h:95 GROUP_SYMBOL "#" *)
Definition GROUP : Z := 35.

(** transducer.cc:874-985 [copyWithTagsFirst].  [states_this_lemq] starts empty (883 enters the
    start in the other map, where it is already), so the first look-up enters 0. *)
Record tagsfirst := mkTF {
  tf_new : transducer;                  (* new_t *)
  tf_newmap : list (nat * nat);         (* states_this_new *)
  tf_lemq : transducer;
  tf_lemqmap : list (nat * nat);        (* states_this_lemq *)
  tf_todo : list (nat * nat);
  tf_seen : list (nat * nat);
  tf_finally : list (nat * nat)
}.
Definition pair_dec : forall a b : nat * nat, {a = b} + {a <> b} := spair_dec.
Definition nfind := kfind Nat.eq_dec.
(** 912-943 *)
Definition tf_tag (this : transducer) (start src lemqlast : nat) (a : arc) (st : tagsfirst) : outcome tagsfirst :=
  let '(new_src, newmap, new_t, lemq) :=
    if (src =? lemqlast)%nat
    then let '(s, m) := kget Nat.eq_dec start (tf_newmap st) in
         (s, m, tf_new st, mkT (initial (tf_lemq st)) (fin_insert lemqlast 0 (finals (tf_lemq st))) (trans (tf_lemq st)))
    else match nfind src (tf_newmap st) with
         | Some s => (s, tf_newmap st, tf_new st, tf_lemq st)
         | None => let '(s, t) := newState (tf_new st) in (s, (src, s) :: tf_newmap st, t, tf_lemq st)
         end in
  let '(new_trg, newmap, new_t) :=
    match nfind (a_dst a) newmap with
    | Some s => (s, newmap, new_t)
    | None => let '(s, t) := newState new_t in (s, (a_dst a, s) :: newmap, t)
    end in
  let! new_t := linkStates new_src new_trg (a_tag a) (a_wt a) new_t in
  let finally := if isFinal this src && negb (kmem pair_dec (src, lemqlast) (tf_finally st))
                 then tf_finally st ++ [(src, lemqlast)] else tf_finally st in
  let todo := if kmem pair_dec (a_dst a, lemqlast) (tf_seen st) then tf_todo st else (a_dst a, lemqlast) :: tf_todo st in
  Ok (mkTF new_t newmap lemq (tf_lemqmap st) todo (tf_seen st) finally).
(** 944-959 *)
Definition tf_lemma (src : nat) (a : arc) (st : tagsfirst) : outcome tagsfirst :=
  let '(lsrc, m) := kget Nat.eq_dec src (tf_lemqmap st) in
  let '(ltrg, m, lemq) :=
    match nfind (a_dst a) m with
    | Some s => (s, m, tf_lemq st)
    | None => let '(s, t) := newState (tf_lemq st) in (s, (a_dst a, s) :: m, t)
    end in
  let! lemq := linkStates lsrc ltrg (a_tag a) (a_wt a) lemq in
  let todo := if kmem pair_dec (a_dst a, a_dst a) (tf_seen st) then tf_todo st else (a_dst a, a_dst a) :: tf_todo st in
  Ok (mkTF (tf_new st) (tf_newmap st) lemq m todo (tf_seen st) (tf_finally st)).
(** 900-960 *)
Fixpoint tf_arcs (this : transducer) (al : alphabet) (start src lemqlast : nat) (arcs : list arc) (st : tagsfirst)
  : outcome tagsfirst :=
  match arcs with
  | [] => Ok st
  | a :: r =>
      let! (lsym, _) := decode (a_tag a) al in
      let! st := if isTag lsym || negb (src =? lemqlast)%nat then tf_tag this start src lemqlast a st else tf_lemma src a st in
      tf_arcs this al start src lemqlast r st
  end.
(** 894-961 *)
Fixpoint tf_loop (fuel : nat) (this : transducer) (al : alphabet) (start : nat) (st : tagsfirst) : outcome tagsfirst :=
  match tf_todo st with
  | [] => Ok st
  | (src, lemqlast) :: todo =>
      match fuel with
      | O => NoFuel
      | S fuel =>
          let st := mkTF (tf_new st) (tf_newmap st) (tf_lemq st) (tf_lemqmap st) todo ((src, lemqlast) :: tf_seen st) (tf_finally st) in
          let! st := tf_arcs this al start src lemqlast (arcs_of this src) st in
          tf_loop fuel this al start st
      end
  end.
(** 963-980; the set is gone through in order, which only decides the numbers of states *)
Fixpoint tf_finals (group_label : Z) (l : list (nat * nat)) (lemq : transducer) (newmap lemqmap : list (nat * nat)) (t : transducer)
  : outcome transducer :=
  match l with
  | [] => Ok t
  | (last_tag, lemqlast) :: r =>
      let '(f, lemqmap) := kget Nat.eq_dec lemqlast lemqmap in
      let! q := minimize 0 (mkT (initial lemq) [(f, 0)] (trans lemq)) in
      let '(group_start, t) := newState t in
      let '(s, newmap) := kget Nat.eq_dec last_tag newmap in
      let! t := linkStates s group_start group_label 0 t in
      let! (f, t, _) := insertTransducer group_start q 0 t in
      tf_finals group_label r lemq newmap lemqmap (mkT (initial t) (fin_insert f 0 (finals t)) (trans t))
  end.
Definition copyWithTagsFirst (fuel : nat) (start : nat) (group_label : Z) (al : alphabet) (this : transducer) : outcome transducer :=
  let! st := tf_loop fuel this al start (mkTF new_transducer [(start, 0%nat)] new_transducer [] [(start, start)] [] []) in
  tf_finals group_label (tf_finally st) (tf_lemq st) (tf_newmap st) (tf_lemqmap st) (tf_new st).

(** transducer.cc:987-1039 [moveLemqsLast]; the arcs lose their weights (1025) *)
Fixpoint mv_arcs (fuel : nat) (this : transducer) (al : alphabet) (src : nat) (arcs : list arc) (st : search nat)
  : outcome (search nat) :=
  match arcs with
  | [] => Ok st
  | a :: r =>
      let! (lsym, _) := decode (a_tag a) al in
      let! name := getSymbol lsym al in
      let '(new_src, m) := kget Nat.eq_dec src (w_map st) in
      let st := mkSearch (w_out st) m (w_todo st) (w_seen st) in
      let! st :=
        if str_eqb name [GROUP] then
          let! u := copyWithTagsFirst fuel (a_dst a) (a_tag a) al this in
          let! (f, t, _) := insertTransducer new_src u 0 (w_out st) in
          Ok (mkSearch (mkT (initial t) (fin_insert f 0 (finals t)) (trans t)) (w_map st) (w_todo st) (w_seen st))
        else (let! (_, st) := visit Nat.eq_dec new_src (a_dst a) (a_tag a) 0 st in Ok st) in
      mv_arcs fuel this al src r st
  end.
Fixpoint mv_loop (fuel : nat) (this : transducer) (al : alphabet) (st : search nat) : outcome (search nat) :=
  match w_todo st with
  | [] => Ok st
  | src :: todo =>
      match fuel with
      | O => NoFuel
      | S fuel' =>
          let! st := mv_arcs fuel this al src (arcs_of this src) (mkSearch (w_out st) (w_map st) todo (src :: w_seen st)) in
          mv_loop fuel' this al st
      end
  end.
(** 1033-1036 *)
Fixpoint mv_finals (l : list (nat * Z)) (m : list (nat * nat)) (fin : list (nat * Z)) : list (nat * Z) :=
  match l with
  | [] => fin
  | (f, w) :: r => let '(s, m) := kget Nat.eq_dec f m in mv_finals r m (fin_insert s w fin)
  end.
Definition moveLemqsLast (fuel : nat) (al : alphabet) (this : transducer) : outcome transducer :=
  let! st := mv_loop fuel this al (mkSearch new_transducer [(initial this, 0%nat)] [initial this] []) in
  Ok (mkT (initial (w_out st)) (mv_finals (finals this) (w_map st) (finals (w_out st))) (trans (w_out st))).

(** * Trimming *)
(** transducer.h:96-104 *)
Definition JOIN : Z := 43.
Definition LSX : list ustr := [[60; 36; 62]; [60; 36; 95; 62]; [60; 36; 45; 62]].      (* <$> <$_> <$-> *)
Definition COMPOUND_ONLY_L : ustr :=
  [60; 99; 111; 109; 112; 111; 117; 110; 100; 45; 111; 110; 108; 121; 45; 76; 62].     (* <compound-only-L> *)
Definition COMPOUND_R : ustr := [60; 99; 111; 109; 112; 111; 117; 110; 100; 45; 82; 62]. (* <compound-R> *)
(** 1073-1089 *)
Definition codes (names : list ustr) (a : alphabet) : list Z :=
  map (fun s => symbol_code s a) (filter (fun s => isSymbolDefined s a) names).
Definition sym_lsx (a : alphabet) : list Z := codes LSX a.
Definition sym_wb (a : alphabet) : list Z := JOIN :: sym_lsx a.
Definition sym_cmp_or_eps (a : alphabet) : list Z := 0 :: codes [COMPOUND_ONLY_L; COMPOUND_R] a.
Definition count (l : list Z) (x : Z) : bool := existsb (Z.eqb x) l.

Definition tkey : Type := (nat * (nat * nat))%type.
Definition tkey_dec : forall a b : tkey, {a = b} + {a <> b}.
Proof. decide equality; [apply spair_dec|apply Nat.eq_dec]. Defined.

Section Trim.
  Context (this trimmer : transducer) (this_a trimmer_a : alphabet).

  (** 1110-1137: the arcs of the trimmer that read nothing.  A state is made whenever the next
      search state has not been seen, and forgotten if it has one already (1127).
      Returns trimmer_preplus_next. *)
  Fixpoint tr_eps (this_src trimmed_src src pre pnext : nat) (arcs : list arc) (st : search tkey) : outcome (nat * search tkey) :=
    match arcs with
    | [] => Ok (pnext, st)
    | a :: r =>
        let! (lsym, _) := decode (a_tag a) trimmer_a in
        let pnext := if (pre =? src)%nat then a_dst a else pnext in
        let! st :=
          if lsym =? 0 then
            let next := (this_src, (a_dst a, pnext)) in
            let st :=
              if kmem tkey_dec next (w_seen st) then st
              else let '(s, out) := newState (w_out st) in
                   mkSearch out (kinsert tkey_dec next s (w_map st)) (next :: w_todo st) (w_seen st) in
            let '(trg, m) := kget tkey_dec next (w_map st) in
            let! out := linkStates trimmed_src trg 0 (a_wt a) (w_out st) in
            Ok (mkSearch out m (w_todo st) (w_seen st))
          else Ok st in
        tr_eps this_src trimmed_src src pre pnext r st
    end.
  (** 1209-1237: the other arcs of the trimmer against one arc of this *)
  Fixpoint tr_match (trimmed_src this_trg : nat) (label wt rsym : Z) (src pre pnext : nat) (arcs : list arc) (st : search tkey)
    : outcome (nat * search tkey) :=
    match arcs with
    | [] => Ok (pnext, st)
    | a :: r =>
        let! (lsym, _) := decode (a_tag a) trimmer_a in
        let pnext := if (pre =? src)%nat then a_dst a else pnext in
        let! same := if lsym =? 0 then Ok false else sameSymbol this_a rsym trimmer_a lsym in
        let! st :=
          if same then (let! (_, st) := visit tkey_dec trimmed_src (this_trg, (a_dst a, pnext)) label wt st in Ok st)
          else Ok st in
        tr_match trimmed_src this_trg label wt rsym src pre pnext r st
    end.
  (** 1139-1238: the arcs of this.  [src] is set back to [pre] at a '#' and stays there for the
      arcs behind it (1203). *)
  Fixpoint tr_arcs (this_src trimmed_src src pre pnext : nat) (arcs : list arc) (st : search tkey) : outcome (search tkey) :=
    match arcs with
    | [] => Ok st
    | a :: r =>
        let! (_, rsym) := decode (a_tag a) this_a in
        let! (special, pnext, st) :=
          if count (sym_wb this_a) rsym then
            let pnext := if (pre =? src)%nat then src else pnext in
            let! (trg, st) := visit tkey_dec trimmed_src (a_dst a, (initial trimmer, pnext)) (a_tag a) (a_wt a) st in
            let out := if count (sym_lsx this_a) rsym && isFinal this (a_dst a) then setFinal trg 0 true (w_out st) else w_out st in
            Ok (negb (rsym =? JOIN), pnext, mkSearch out (w_map st) (w_todo st) (w_seen st))
          else if count (sym_cmp_or_eps this_a) rsym then
            let pnext := if (pre =? src)%nat then src else pnext in
            let! (_, st) := visit tkey_dec trimmed_src (a_dst a, (src, pnext)) (a_tag a) (a_wt a) st in
            Ok (true, pnext, st)
          else Ok (false, pnext, st) in
        if special then tr_arcs this_src trimmed_src src pre pnext r st
        else
          let back := (rsym =? GROUP) && negb (pre =? src)%nat in
          let st := if back then mkSearch (w_out st) (kinsert tkey_dec (this_src, (pre, pre)) trimmed_src (w_map st)) (w_todo st) (w_seen st) else st in
          let src := if back then pre else src in
          let! (pnext, st) := tr_match trimmed_src (a_dst a) (a_tag a) (a_wt a) rsym src pre pnext (arcs_of trimmer src) st in
          tr_arcs this_src trimmed_src src pre pnext r st
    end.
  (** 1091-1239 *)
  Fixpoint tr_loop (fuel : nat) (st : search tkey) : outcome (search tkey) :=
    match w_todo st with
    | [] => Ok st
    | (this_src, (src, pre)) :: todo =>
        match fuel with
        | O => NoFuel
        | S fuel =>
            match kfind tkey_dec (this_src, (src, pre)) (w_map st) with
            | None => Exit
            | Some trimmed_src =>
                let st := mkSearch (w_out st) (w_map st) todo ((this_src, (src, pre)) :: w_seen st) in
                let! (pnext, st) := tr_eps this_src trimmed_src src pre pre (arcs_of trimmer src) st in
                let! st := tr_arcs this_src trimmed_src src pre pnext (arcs_of this this_src) st in
                tr_loop fuel st
            end
        end
    end.
  (** 1241-1250; all search states of one state have the same first component, so the order of
      the map makes no difference *)
  Definition tr_final (e : tkey * nat) (fin : list (nat * Z)) : list (nat * Z) :=
    let '((s_this, (s_trimmer, _)), s) := e in
    match fin_find s_this (finals this) with
    | Some w => if isFinal trimmer s_trimmer then fin_insert s w fin else fin
    | None => fin
    end.
End Trim.
(** transducer.cc:1042-1255 [trim]; the finals of this are joined first (1048) *)
Definition trim (fuel : nat) (trimmer : transducer) (this_a trimmer_a : alphabet) (this : transducer) : outcome transducer :=
  let! this := joinFinals 0 this in
  let start := (initial this, (initial trimmer, initial trimmer)) in
  let! st := tr_loop this trimmer this_a trimmer_a fuel (mkSearch new_transducer [(start, 0%nat)] [start] []) in
  Ok (mkT (initial (w_out st)) (fold_left (fun fin e => tr_final this trimmer e fin) (w_map st) (finals (w_out st))) (trans (w_out st))).

(** * The tool *)
Definition tsection : Type := (ustr * transducer)%type.
(** lt_trim.cc:36-66: the bilingual sections; those to be matched by name are kept apart *)
Fixpoint moved_bi (fuel : nat) (match_sections : list ustr) (loops : list Z) (alph_prefix : alphabet) (l : list tsection)
    (union_ : transducer) : outcome (list tsection * transducer) :=
  match l with
  | [] => Ok ([], union_)
  | (name, t) :: r =>
      if existsb (str_eqb name) match_sections then
        let! d := appendDotStar loops t in
        let! m := moveLemqsLast fuel alph_prefix d in
        let! (ms, u) := moved_bi fuel match_sections loops alph_prefix r union_ in
        Ok ((name, m) :: ms, u)
      else
        let! union_ := if isEmpty union_ then Ok t else (let! (u, _) := unionWith t 0 union_ in Ok u) in
        moved_bi fuel match_sections loops alph_prefix r union_
  end.
(** 71-97: the monolingual sections *)
Fixpoint trim_sections (fuel : nat) (moved : list tsection) (rest : transducer) (alph_mono alph_prefix : alphabet) (l : list tsection)
  : outcome (list tsection) :=
  match l with
  | [] => Ok []
  | (name, t) :: r =>
      if forallb (fun arcs => match arcs with [] => true | _ => false end) (trans t)     (* numberOfTransitions() == 0 *)
      then trim_sections fuel moved rest alph_mono alph_prefix r
      else
        let m := match find (fun s => str_eqb name (fst s)) moved with Some (_, m) => m | None => rest end in
        let! u := trim fuel m alph_mono alph_prefix t in
        if hasNoFinals u then trim_sections fuel moved rest alph_mono alph_prefix r
        else
          let! u := minimize 0 u in
          let! us := trim_sections fuel moved rest alph_mono alph_prefix r in
          Ok ((name, u) :: us)
  end.
(** 24-104: from the two files' contents to that of the result; letters and alphabet of the
    result are those of the monolingual file.  The key u"" of the union cannot be a section name. *)
Definition lt_trim (fuel : nat) (match_sections : list ustr) (alph_mono : alphabet) (mono : list tsection)
    (alph_bi : alphabet) (bi : list tsection) : outcome (list tsection) :=
  let '(loops, alph_prefix) := createLoopbackSymbols alph_mono alph_bi in
  let! (moved, union_) := moved_bi fuel match_sections loops alph_prefix bi new_transducer in
  let! union_ := minimize 0 union_ in
  let! d := appendDotStar loops union_ in
  let! rest := moveLemqsLast fuel alph_prefix d in
  let! out := trim_sections fuel moved rest alph_mono alph_prefix mono in
  match out with [] => Exit | _ => Ok out end.
