(** What generation should write (C59), in terms of the units of the stream and the runs
    of the dictionary over their symbols.  Nothing here uses the states of the processor or
    its ways of writing. *)
From Verif Require Import Base AlphabetModel StateModel StateSpec FinalsModel FinalsProps
  InputModel InputProps StreamModel StreamProps ProcessorModel GenerationModel.
From Coq Require Import Sorted.

(** * Texts *)
(** Every character with a meaning behind a backslash *)
Inductive quote : list Z -> list Z -> Prop :=
| qu_nil : quote [] []
| qu_plain c t u : ~ meta c -> quote t u -> quote (c :: t) (c :: u)
| qu_meta c t u : meta c -> quote t u -> quote (c :: t) (92 :: c :: u).
(** A '<' that ends the lemma: not the first character, and no backslash before it *)
Definition ends_lemma (t : list Z) (i : nat) : Prop :=
  nth_error t i = Some 60 /\ exists j, i = S j /\ nth j t 0 <> 92.
(** [t] is its lemma [a] and the rest [b]. *)
Definition lemma_rest (t a b : list Z) : Prop :=
  t = a ++ b /\ (forall i, (i < length a)%nat -> ~ ends_lemma t i)
  /\ (b <> [] -> ends_lemma t (length a)).
(** The lemma with backslashes, then the tags as they are *)
Definition quote_lemma (t u : list Z) : Prop := exists a b qa, lemma_rest t a b /\ quote a qa /\ u = qa ++ b.

Section Spec.
  Context (P : processor) (cs careful : bool).
  Notation find := (p_find P).

  (** A letter that may be read as its lower-case one; symbols below 0 are tags *)
  Definition folds (c : Z) : Prop := cs = false /\ 0 <= c /\ p_isupper P c = true.
  (** [run p w s d q]: from [p] the dictionary reads [w], writes [s] and comes to [q]; [d] tells
      whether a letter was lowered.  With [careful] a letter is lowered only at nodes
      without an arc for it. *)
  Inductive run : nat -> list Z -> list (Z * Z) -> bool -> nat -> Prop :=
  | run_nil p : run p [] [] false p
  | run_eps p o q w l s d r : In (o, (q, w)) (find p 0) -> run q l s d r ->
      run p l ((if o =? 0 then [] else [(o, w)]) ++ s) d r
  | run_same p c o q w l s d r : c <> 0 -> In (o, (q, w)) (find p c) -> run q l s d r ->
      run p (c :: l) ((o, w) :: s) d r
  | run_lower p c o q w l s d r : c <> 0 -> folds c -> p_tolower P c <> c -> (careful = true -> find p c = []) ->
      In (o, (q, w)) (find p (p_tolower P c)) -> run q l s d r ->
      run p (c :: l) ((o, w) :: s) true r.
  (** The dictionary has the word. *)
  Definition has_word (w : list Z) : Prop :=
    exists s d q, run (p_root P) w s d q /\ final_weight q (all_finals P) <> None.

  (** The letter case of a word, from its first two units *)
  Definition word_casing (content : ustr) (upper firstupper : bool) : Prop :=
    (firstupper = true <-> p_dictionaryCase P = false /\ p_isupper P (nth 0 content 0) = true)
    /\ (upper = true <-> p_dictionaryCase P = false /\ (2 <= length content)%nat
          /\ p_isupper P (nth 1 content 0) = true).
  Fixpoint slashes (l : list ustr) : ustr :=
    match l with [] => [] | [x] => x | x :: r => x ++ 47 :: slashes r end.
  (** [line] is the forms of [w]: distinct, cheapest first, each the text of a run to a final
      node, at least one, and all of them unless the limits cut some off. *)
  Definition forms_of (w : list Z) (content line : ustr) : Prop :=
    exists upper firstupper (rep : list (ustr * Z)),
      word_casing content upper firstupper
      /\ line = slashes (map (fun x => fst x ++ if p_weights P then weight_text (snd x) else []) rep)
      /\ rep <> [] /\ NoDup (map fst rep) /\ StronglySorted by_weight rep
      /\ (forall t c, In (t, c) rep -> exists s d q, run (p_root P) w s d q
            /\ reports (p_toupper P) (all_finals P) (p_alpha P) is_escaped upper firstupper 0 (mkV q s d) t c)
      /\ (exists st : list (vns (W:=Z)),
            (forall q s d, In (mkV q s d) st <-> run (p_root P) w s d q)
            /\ (Z.of_nat (length st) <= p_maxAnalyses P -> Z.of_nat (length st) <= p_maxClasses P ->
                forall x, In x st -> final_weight (v_where x) (all_finals P) <> None ->
                exists t c least,
                  reports (p_toupper P) (all_finals P) (p_alpha P) is_escaped upper firstupper 0 x t c
                  /\ In (t, least) rep /\ least <= c)).
End Spec.

(** * Words *)
Definition star : Z := 42.
Definition percent : Z := 37.
Definition at_sign : Z := 64.
Definition hash : Z := 35.
Definition equals : Z := 61.
(** ^lemma/mark lemma and tags$ *)
Definition pair_of (mark : Z) (t u : list Z) : Prop :=
  exists a b qa qt, lemma_rest t a b /\ quote a qa /\ quote_lemma t qt /\ u = 94 :: qa ++ 47 :: mark :: qt ++ [36].
(** The mark and the whole text, with the tags quoted *)
Definition marked_all (mark t u : list Z) : Prop := exists q, quote t q /\ u = mark ++ q.
(** The mark and the lemma *)
Definition marked_lemma (mark t u : list Z) : Prop :=
  exists a b q, lemma_rest t a b /\ quote a q /\ u = mark ++ q.

(** A word marked as unknown to the analyser, or to the bilingual dictionary, stays as it is,
    with the parts the mode asks for. *)
Definition passed_on (m : gmode) (mark : Z) (t u : list Z) : Prop :=
  match m with
  | gm_tagged_nm => pair_of mark t u
  | gm_clean => if mark =? at_sign then marked_lemma [] t u else marked_all [] t u
  | gm_bilgen => if mark =? at_sign then marked_lemma [] t u else marked_all [mark] t u
  | gm_all => marked_all [mark] t u
  | gm_unknown | gm_tagged => if mark =? at_sign then marked_lemma [mark] t u else marked_all [mark] t u
  | gm_carefulcase => if mark =? at_sign then u = [] else marked_all [mark] t u
  end.
(** A word that is not in the dictionary *)
Definition not_generated (m : gmode) (t u : list Z) : Prop :=
  match m with
  | gm_tagged_nm => pair_of hash t u
  | gm_all => marked_all [hash] t u
  | gm_unknown | gm_tagged | gm_carefulcase => marked_lemma (match t with [] => [] | _ => [hash] end) t u
  | gm_clean | gm_bilgen => marked_lemma [] t u
  end.

Section Words.
  Context (P : processor) (cs : bool) (m : gmode).
  Definition careful_mode : bool := match m with gm_carefulcase => true | _ => false end.
  Definition keeps_tags : Prop := m = gm_tagged \/ m = gm_tagged_nm.
  (** The mark '=' is kept, '#' is not. *)
  Definition kept_mark (r : rtext) : ustr :=
    match t_mark r with Some k => if k =? equals then [equals] else [] | None => [] end.
  Definition to_generate (r : rtext) : Prop := forall k, t_mark r = Some k -> k = hash \/ k = equals.
  (** [word_out r out]: the reading [r] is written as [out]. *)
  Inductive word_out (r : rtext) : ustr -> Prop :=
  | wo_passed k u : t_mark r = Some k -> In k [star; percent; at_sign] ->
      passed_on m k (pieces_content (t_pieces r)) u -> word_out r (utf16_text u)
  | wo_known line : to_generate r -> ~ keeps_tags ->
      forms_of P cs careful_mode (piece_symbols (p_alpha P) (t_pieces r))
        (utf16_text (pieces_content (t_pieces r))) line ->
      word_out r (kept_mark r ++ line)
  | wo_known_tags line u : to_generate r -> keeps_tags ->
      forms_of P cs careful_mode (piece_symbols (p_alpha P) (t_pieces r))
        (utf16_text (pieces_content (t_pieces r))) line ->
      quote_lemma (pieces_content (t_pieces r)) u ->
      word_out r (kept_mark r ++ 94 :: line ++ 47 :: utf16_text u ++ [36])
  | wo_unknown u : to_generate r ->
      ~ has_word P cs careful_mode (piece_symbols (p_alpha P) (t_pieces r)) ->
      not_generated m (pieces_content (t_pieces r)) u ->
      word_out r (kept_mark r ++ utf16_text u).
  (** The parts of a stream: only the first reading of a unit counts. *)
  Definition item_out (i : item) (out : ustr) : Prop :=
    match i with
    | Unit b w (r :: _) => exists x, word_out r x /\ out = utf16_text b ++ utf16_text w ++ x
    | Unit b w [] => False
    | Null b => out = utf16_text b ++ [0]
    end.
End Words.
