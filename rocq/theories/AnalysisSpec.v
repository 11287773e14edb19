(** What morphological analysis of a text should give (C56): the text is cut into tokens
    from left to right.  Nothing here uses the input buffer, the positions in it or the
    queue of blanks. *)
From Coq Require Import Sorted.
From Verif Require Import Base AlphabetModel StateModel StateSpec FinalsModel FinalsProps
  InputModel InputProps StreamModel StreamProps ProcessorModel ProcessorProofs CompoundProps.

(** * Texts *)
(** The items a text consists of: characters, characters behind a backslash, superblanks
    and word-bound blanks. *)
Inductive item :=
| Plain (c : Z) | Escaped (c : Z) | Superblank (body : list Z) | Wordbound (body : list Z).
Definition item_text (i : item) : list Z :=
  match i with
  | Plain c => [c]
  | Escaped c => [92; c]
  | Superblank b => 91 :: b ++ [93]
  | Wordbound b => 91 :: 91 :: b ++ [93; 93]
  end.
Definition items_text (l : list item) : list Z := concat (map item_text l).
(** The character an item stands for: a blank is a space. *)
Definition item_symbol (i : item) : Z :=
  match i with Plain c | Escaped c => c | Superblank _ | Wordbound _ => 32 end.
Notation symbols := (map item_symbol).
(** The blanks among the items. *)
Definition item_blanks (i : item) : list ustr :=
  match i with
  | Plain c => if c =? 32 then [[32]] else []
  | Escaped _ => []
  | Superblank _ | Wordbound _ => [utf16_text (item_text i)]
  end.
Definition blanks (l : list item) : list ustr := flat_map item_blanks l.
Definition item_ok (ignored : Z -> bool) (i : item) : Prop :=
  match i with
  | Plain c => scalar c /\ c <> 0 /\ c <> U_EOF /\ ~ meta c /\ ignored c = false
  | Escaped c => scalar c /\ c <> 0 /\ c <> U_EOF /\ c <> 32
  | Superblank b => Forall scalar b /\ block_body 93 b /\ hd 0 b <> 91
  | Wordbound b => Forall scalar b /\ wblank_body b
  end.

Section Spec.
  Context (P : processor) (cs : bool).
  Notation find := (p_find P).
  Notation root := (p_root P).

  (** The dictionary reads [w], up to letter case unless [cs]; it accepts [w] in the
      sections [fins]. *)
  Definition living (w : list Z) : Prop :=
    exists l d s q, reading (p_isupper P) (p_tolower P) cs w l d /\ rpath find root l s q.
  Definition accepting (fins : list (nat * Z)) (w : list Z) : Prop :=
    exists l d s q, reading (p_isupper P) (p_tolower P) cs w l d /\ rpath find root l s q
      /\ final_weight q fins <> None.
  Definition letter (c : Z) : Prop := p_isalnum P c = true \/ In c (p_letters P).

  (** The analyses of [w] as they are printed, cheapest first, each behind a slash, in the
      letter case of the units [sf]. *)
  Definition analysed_as (w : list Z) (sf lf : ustr) : Prop :=
    exists upper firstupper (rep : list (ustr * Z)),
      casing P sf upper firstupper
      /\ lf = concat (map (fun x => 47 :: fst x ++ if p_weights P then weight_text (snd x) else []) rep)
      /\ NoDup (map fst rep) /\ StronglySorted by_weight rep
      /\ (forall t c, In (t, c) rep -> exists l d s q,
            reading (p_isupper P) (p_tolower P) cs w l d /\ rpath find root l s q
            /\ reports (p_toupper P) (all_finals P) (p_alpha P) is_escaped upper firstupper 0 (mkV q s d) t c)
      /\ (accepting (all_finals P) w -> rep <> [])
      /\ (exists st : list (vns (W:=Z)),
            (forall q s d, In (mkV q s d) st <-> exists l,
               reading (p_isupper P) (p_tolower P) cs w l d /\ rpath find root l s q)
            /\ (Z.of_nat (length st) <= p_maxAnalyses P -> Z.of_nat (length st) <= p_maxClasses P ->
                forall x, In x st -> final_weight (v_where x) (all_finals P) <> None ->
                exists t c least,
                  reports (p_toupper P) (all_finals P) (p_alpha P) is_escaped upper firstupper 0 x t c
                  /\ In (t, least) rep /\ least <= c)).

  (** ** Tokens *)
  (** The first [k] symbols can be a word: they are accepted unconditionally, or accepted
      and no letter follows (0 stands for the end). *)
  Definition matches (s : list Z) (k : nat) : Prop :=
    (0 < k <= length s)%nat
    /\ (accepting (p_incond P) (firstn k s)
        \/ (accepting (all_finals P) (firstn k s) /\ ~ letter (nth k s 0))).
  (** The longest such beginning *)
  Definition longest (s : list Z) (k : nat) : Prop :=
    matches s k /\ forall j, matches s j -> (j <= k)%nat.
  (** The letters [s] starts with are its first [k] symbols. *)
  Definition run (s : list Z) (k : nat) : Prop :=
    (k <= length s)%nat /\ Forall letter (firstn k s) /\ ((k < length s)%nat -> ~ letter (nth k s 0)).

  (** The blanks of a word after the single spaces at its beginning follow the word. *)
  Fixpoint kept (l : list ustr) : list ustr :=
    match l with
    | [] => []
    | b :: r => if ustr_eq_dec b [32] then kept r else l
    end.
  (** What becomes of a single item that starts no word. *)
  Definition alone (i : item) : ustr :=
    match item_blanks i with
    | b :: _ => b
    | [] => writeEscaped (utf16 (item_symbol i))
    end.

  (** [token l out k]: the first [k] items of [l] are the next token, printed as [out]. *)
  Inductive token (l : list item) : ustr -> nat -> Prop :=
  | tok_word k lf : longest (symbols l) k ->
      let sf := utf16_text (firstn k (symbols l)) in
      analysed_as (firstn k (symbols l)) sf lf ->
      token l (printWord sf lf ++ concat (kept (blanks (firstn k l)))) k
  | tok_alone i r : l = i :: r -> (forall k, ~ matches (symbols l) k) -> ~ letter (item_symbol i) ->
      token l (alone i) 1
  | tok_unknown k lf : (forall k, ~ matches (symbols l) k) -> run (symbols l) k -> (0 < k)%nat ->
      let sf := utf16_text (firstn k (symbols l)) in
      analysed_as (p_strlower P sf) (p_strlower P sf) lf ->
      token l (match lf with [] => printUnknownWord sf | _ => printWord sf lf end) k.

  (** The search for the next token comes to the end of the text: the dictionary can read
      all of it, or there is no word, and behind what the dictionary can read there are
      only letters. *)
  Definition exhausted (s : list Z) : Prop :=
    living s
    \/ ((forall k, ~ matches s k) /\
        exists k, (k < length s)%nat /\ living (firstn k s) /\ ~ living (firstn (S k) s)
          /\ Forall letter (skipn k s)).

  (** The whole output.  When a search comes to the end the token found is the last one; of
      the items behind it only the blanks are printed. *)
  Inductive analysed : list item -> ustr -> Prop :=
  | an_end : analysed [] []
  | an_more l out k more : token l out k -> ~ exhausted (symbols l) ->
      analysed (skipn k l) more -> analysed l (out ++ more)
  | an_last l out k : l <> [] -> token l out k -> exhausted (symbols l) ->
      analysed l (out ++ concat (blanks (skipn k l))).
End Spec.

(** * The dictionaries and texts considered *)
Record plain_dix (P : processor) (cs : bool) : Prop := {
  pd_decomp : p_decomp P = false;
  pd_post : p_postblank P = [];
  pd_pre : p_preblank P = [];
  pd_rcx : forall c, p_rcx P c = None;
  pd_eps : eps_acyclic (p_find P);
  pd_tags : tags_known P;
  pd_sort : is_sort (p_sort P);
  pd_toupper : p_toupper P 0 = 0;
  pd_weights : p_weights P = false;
  pd_limits : 0 < p_maxAnalyses P /\ 0 < p_maxClasses P;
  pd_strlower : forall w, w <> [] -> p_strlower P w <> [];
  (* characters *)
  pd_letters : forall c, letter P c -> c <> 0 /\ p_isspace P c = false;
  pd_scalars : forall c, In c (p_letters P) -> scalar c;
  pd_space : p_isspace P 32 = true /\ p_isspace P 0 = false /\ forall c, p_isspace P c = true -> ~ meta c;
  pd_ignored : p_ignored P 91 = false /\ p_ignored P 92 = false /\ p_ignored P 0 = false;
  (* the entries: none is empty or starts with a space, no white space in them but ' ',
     none starts with a character outside the BMP that is no letter *)
  pd_empty : ~ accepting P cs (all_finals P) [];
  pd_first : forall c, p_isspace P c = true -> ~ living P cs [c];
  pd_white : forall w c, p_isspace P c = true -> c <> 32 -> ~ living P cs (w ++ [c]);
  pd_bmp : forall c, ~ letter P c -> living P cs [c] -> c < 65536
}.
(** What the dictionary can read, followed by letters, fits in the input buffer. *)
Definition fits (P : processor) (cs : bool) (s : list Z) : Prop :=
  forall a w v b, s = a ++ w ++ v ++ b -> living P cs w -> Forall (letter P) v ->
  (length (w ++ v) < 2047)%nat.
