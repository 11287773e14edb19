(** What bilingual look-up should write (C60), in terms of the units of the stream and the
    runs of the dictionary over their symbols.  Nothing here uses the states of the
    processor or its ways of writing. *)
From Verif Require Import Base AlphabetModel StateModel StateSpec FinalsModel FinalsProps
  InputModel InputProps StreamModel StreamProps ProcessorModel GenerationModel GenerationSpec BilingualModel.
From Coq Require Import Sorted.

(** * Runs *)
(** A symbol to be read: as it is, or with the liberties a word is given *)
Inductive wsym := Exact (c : Z) | Free (c : Z).

Section Runs.
  Context (P : processor) (any : Z) (cs : bool).
  Notation find := (p_find P).

  (** <ANY_CHAR> on the other side stands for the symbol read. *)
  Definition filled (c o : Z) : Z := if o =? any then c else o.
  (** [brun p w s d q]: from [p] the dictionary reads [w], writes [s] and comes to [q]; a free
      symbol may be read as its lower-case one unless [cs], and as <ANY_CHAR>; [d] tells
      whether that has happened. *)
  Inductive brun : nat -> list wsym -> list (Z * Z) -> bool -> nat -> Prop :=
  | br_nil p : brun p [] [] false p
  | br_eps p o q w l s d r : In (o, (q, w)) (find p 0) -> brun q l s d r ->
      brun p l ((if o =? 0 then [] else [(o, w)]) ++ s) d r
  | br_exact p c o q w l s d r : c <> 0 -> In (o, (q, w)) (find p c) -> brun q l s d r ->
      brun p (Exact c :: l) ((o, w) :: s) d r
  | br_same p c o q w l s d r : c <> 0 -> In (o, (q, w)) (find p c) -> brun q l s d r ->
      brun p (Free c :: l) ((filled c o, w) :: s) d r
  | br_lower p c o q w l s d r : c <> 0 -> cs = false -> p_tolower P c <> c ->
      In (o, (q, w)) (find p (p_tolower P c)) -> brun q l s d r ->
      brun p (Free c :: l) ((filled c o, w) :: s) true r
  | br_any p c o q w l s d r : c <> 0 -> In (o, (q, w)) (find p any) -> brun q l s d r ->
      brun p (Free c :: l) ((filled c o, w) :: s) true r.

  Definition has_entry (w : list wsym) : Prop :=
    exists s d q, brun (p_root P) w s d q /\ final_weight q (all_finals P) <> None.
  (** [res] are the translations of [w]: distinct, cheapest first, each the text of a run to a
      final node, at least one, and all of them unless the limits cut some off. *)
  Definition entries_of (w : list wsym) (upper firstupper : bool) (res : list ustr) : Prop :=
    exists rep : list (ustr * Z),
      res = map (fun x => fst x ++ if p_weights P then weight_text (snd x) else []) rep
      /\ rep <> [] /\ NoDup (map fst rep) /\ StronglySorted by_weight rep
      /\ (forall t c, In (t, c) rep -> exists s d q, brun (p_root P) w s d q
            /\ reports (p_toupper P) (all_finals P) (p_alpha P) is_escaped upper firstupper 0 (mkV q s d) t c)
      /\ (exists st : list (vns (W:=Z)),
            (forall q s d, In (mkV q s d) st <-> brun (p_root P) w s d q)
            /\ (Z.of_nat (length st) <= p_maxAnalyses P -> Z.of_nat (length st) <= p_maxClasses P ->
                forall x, In x st -> final_weight (v_where x) (all_finals P) <> None ->
                exists t c least,
                  reports (p_toupper P) (all_finals P) (p_alpha P) is_escaped upper firstupper 0 x t c
                  /\ In (t, least) rep /\ least <= c)).
  (** The first [k] of the symbols, at least one, are the longest beginning with an entry. *)
  Definition longest_entry (before : list wsym) (w : list Z) (k : nat) : Prop :=
    (0 < k <= length w)%nat /\ has_entry (before ++ map Free (firstn k w))
    /\ forall j, (k < j <= length w)%nat -> ~ has_entry (before ++ map Free (firstn j w)).
End Runs.

(** * Words *)
(** A word marked '#' must be in the dictionary with the '#'. *)
Definition before_word (mark : option Z) : list wsym :=
  match mark with Some k => if k =? hash then [Exact hash] else [] | None => [] end.
(** What each piece with a symbol looks like; a star at the beginning would be a mark. *)
Definition has_symbol (p : piece) : bool := match p with PChunk _ => false | _ => true end.
Inductive piece_shown : bool -> piece -> list Z -> Prop :=
| ps_char first c : ~ meta c -> ~ (first = true /\ c = star) -> piece_shown first (PChar c) [c]
| ps_char_esc first c : meta c \/ (first = true /\ c = star) -> piece_shown first (PChar c) [92; c]
| ps_esc first c : ~ meta c -> ~ (first = true /\ c = star) -> piece_shown first (PEsc c) [c]
| ps_esc_esc first c : meta c \/ (first = true /\ c = star) -> piece_shown first (PEsc c) [92; c]
| ps_tag first b : piece_shown first (PTag b) (piece_text (PTag b)).
Inductive pieces_shown : bool -> list piece -> list (list Z) -> Prop :=
| pss_nil first : pieces_shown first [] []
| pss_chunk first b l s : pieces_shown first l s -> pieces_shown first (PChunk b :: l) s
| pss_cons first p x l s : piece_shown first p x -> pieces_shown false l s ->
    pieces_shown first (p :: l) (x :: s).

Section Words.
  Context (P : processor) (any : Z) (cs : bool) (m : gmode).
  (** The letter case of a word, from its first two symbols; tags have none. *)
  Definition symbol_casing (w : list Z) (upper firstupper : bool) : Prop :=
    (firstupper = true <-> exists c r, w = c :: r /\ 0 < c /\ p_isupper P c = true)
    /\ (upper = true <-> exists c d r, w = c :: d :: r /\ 0 < c /\ p_isupper P c = true
                                       /\ 0 < d /\ p_isupper P d = true).
  Definition whole_mode : Prop := m = gm_all \/ m = gm_bilgen.
  (** Only whole words count in these modes, and if there are no tags. *)
  Definition whole_word (w : list Z) : Prop := whole_mode \/ Forall (fun c => 0 <= c) w.
  Definition found_first (before : list wsym) (w : list Z) (k : nat) : Prop :=
    longest_entry P any cs before w k /\ (whole_word w -> k = length w).
  (** The symbols in lower case *)
  Definition lowered (c : Z) : Z := if cs then c else if c <? 0 then c else p_tolower P c.
  Inductive translated (before : list wsym) (w : list Z) : nat -> list ustr -> Prop :=
  | td_first k up fu res : found_first before w k -> symbol_casing w up fu ->
      entries_of P any cs (before ++ map Free (firstn k w)) up fu res -> translated before w k res
  | td_retry res : (forall k, ~ found_first before w k) -> whole_mode ->
      entries_of P any true (before ++ map Free (map lowered w)) false false res ->
      translated before w (length w) res.
  Definition untranslated (before : list wsym) (w : list Z) : Prop :=
    (forall k, ~ found_first before w k)
    /\ (whole_mode -> ~ has_entry P any true (before ++ map Free (map lowered w))).

  (** [word_result r out]: what is written for the reading [r] up to the '$' *)
  Inductive word_result (r : rtext) : ustr -> Prop :=
  | wr_unknown : t_mark r = Some star ->
      word_result r (utf16_text (star :: pieces_content (t_pieces r)) ++ 47 ::
        utf16_text ((match m with gm_clean => [] | _ => [star] end) ++ pieces_content (t_pieces r)))
  | wr_empty : t_mark r <> Some star -> piece_symbols (p_alpha P) (t_pieces r) = [] -> word_result r []
  | wr_found shown k res : t_mark r <> Some star ->
      pieces_shown true (t_pieces r) shown -> shown <> [] ->
      translated (before_word (t_mark r)) (piece_symbols (p_alpha P) (t_pieces r)) k res ->
      word_result r (utf16_text ((if match t_mark r with Some c => c =? hash | None => false end then [hash] else [])
                                   ++ concat shown)
        ++ 47 :: slashes (map (fun t => t ++ utf16_text (concat (skipn k shown))) res))
  | wr_not_found shown source : t_mark r <> Some star ->
      pieces_shown true (t_pieces r) shown -> shown <> [] ->
      untranslated (before_word (t_mark r)) (piece_symbols (p_alpha P) (t_pieces r)) ->
      source = utf16_text ((if match t_mark r with Some c => c =? hash | None => false end then [hash] else [])
                             ++ concat shown) ->
      word_result r (source ++ 47 :: (match m with gm_all => hash | _ => at_sign end) :: source).

  (** A unit: normally its first reading counts; with [forms] or [keep] the second does, and
      with [keep] the first is written before. *)
  Inductive unit_result (forms keep : bool) : list rtext -> ustr -> Prop :=
  | ur_first r rs x : forms = false -> keep = false -> word_result r x ->
      unit_result forms keep (r :: rs) (94 :: x ++ [36])
  | ur_second r r' rs x : forms = true -> keep = false -> word_result r' x ->
      unit_result forms keep (r :: r' :: rs) (94 :: x ++ [36])
  | ur_lost r : forms = true -> keep = false -> unit_result forms keep [r] []
  | ur_keep r r' rs x : keep = true -> word_result r' x ->
      unit_result forms keep (r :: r' :: rs)
        (94 :: utf16_text (pieces_content (t_pieces r)) ++ 47 :: x ++ [36])
  | ur_keep_only r : keep = true ->
      unit_result forms keep [r] (94 :: utf16_text (pieces_content (t_pieces r)) ++ [36]).
End Words.

(** * Streams *)
(** The parts of a stream in order; tags not known yet are given a number when they come. *)
Inductive stream_result (P : processor) (cs : bool) (m : gmode) (forms keep : bool)
  : alphabet -> list item -> list ustr -> Prop :=
| sr_nil a : stream_result P cs m forms keep a [] []
| sr_null a b l outs : stream_result P cs m forms keep a l outs ->
    stream_result P cs m forms keep a (Null b :: l) ((utf16_text b ++ [0]) :: outs)
| sr_unit a a' b w rs l x outs : a' = add_tags (tags_of rs) a ->
    unit_result (with_alpha P a') (any_char P) cs m forms keep rs x ->
    stream_result P cs m forms keep a' l outs ->
    stream_result P cs m forms keep a (Unit b w rs :: l) ((utf16_text b ++ utf16_text w ++ x) :: outs).
