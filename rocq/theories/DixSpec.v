(** What an XML dictionary is and which entries it holds, independently of the compiler's
    reader: only the types of nodes, options and tokens are used. *)
From Coq Require String Ascii.
From Verif Require Import Base AlphabetModel ExpanderModel CompilerModel CompilerSpec DixModel.
From Verif Require StreamProps InputProps EntryFilterProps.
Notation txt := StreamProps.txt.
Notation utf16_text := InputProps.utf16_text.
Notation scalar := InputProps.scalar.
Import String.StringSyntax.

(** * A dictionary *)
(** What can stand in a side.  The last four only in separable dictionaries; [Bound None] is
    <d/>, [Bound (Some true)] is <d space="yes"/>. *)
Inductive mark :=
| Letters (t : list Z)
| Space | Joined | Later | Border
| Symbol (n : ustr)
| AnyTag | AnyLetter | Bound (space : option bool) | NewForm.
Inductive part := One (m : mark) | Group (ms : list mark).
Inductive delement :=
| Both (ps : list part)          (* <i> *)
| BothGroup (ps : list part)     (* <ig> *)
| Sides (l r : list part)        (* <p><l><r></p> *)
| Expr (t : list Z)              (* <re> *)
| Use (n : ustr).                (* <par n=""/> *)
Record dentry := mkEntry { e_attrs : attributes; e_weight : ustr; e_elements : list delement }.
Inductive top :=
| Alphabet (t : list Z)
| Symbols (ns : list ustr)
| Pardefs (ds : list (ustr * list dentry))
| Section_ (id type : ustr) (es : list dentry).
(** What comes before the paradigms and sections *)
Definition is_head (t : top) : Prop := match t with Alphabet _ | Symbols _ => True | _ => False end.
Definition is_body (t : top) : Prop := match t with Pardefs _ | Section_ _ _ _ => True | _ => False end.

(** * The nodes of a document *)
(** [v] is the value of the attribute [k], "" if there is none. *)
Definition given (at_ : list (ustr * ustr)) (k v : ustr) : Prop :=
  NoDup (map fst at_) /\ (In (k, v) at_ \/ v = [] /\ ~ In k (map fst at_)).
Definition opening (x : ustr) (at_ : list (ustr * ustr)) : xnode := mkX false x [] at_ false.
Definition closing (x : ustr) (at_ : list (ustr * ustr)) : xnode := mkX true x [] at_ false.
Definition alone (x : ustr) (at_ : list (ustr * ustr)) : xnode := mkX false x [] at_ true.
Definition text (t : list Z) : xnode := mkX false (txt "#text") t [] false.
Definition comment (t : list Z) : xnode := mkX false (txt "#comment") t [] false.

Inductive mark_node : mark -> xnode -> Prop :=
| mn_letters t : mark_node (Letters t) (text t)
| mn_space a : mark_node Space (alone (txt "b") a)
| mn_joined a : mark_node Joined (alone (txt "j") a)
| mn_later a : mark_node Later (alone (txt "a") a)
| mn_border a : mark_node Border (alone (txt "m") a)
| mn_symbol a n : given a (txt "n") n -> mark_node (Symbol n) (alone (txt "s") a)
| mn_any_tag a : mark_node AnyTag (alone (txt "t") a)
| mn_any_letter a : mark_node AnyLetter (alone (txt "w") a)
| mn_bound a v : given a (txt "space") v -> v <> txt "yes" -> v <> txt "no" -> mark_node (Bound None) (alone (txt "d") a)
| mn_bound_yes a : given a (txt "space") (txt "yes") -> mark_node (Bound (Some true)) (alone (txt "d") a)
| mn_bound_no a : given a (txt "space") (txt "no") -> mark_node (Bound (Some false)) (alone (txt "d") a)
| mn_form a : mark_node NewForm (alone (txt "f") a).
Inductive part_nodes : part -> list xnode -> Prop :=
| pn_one m n : mark_node m n -> part_nodes (One m) [n]
| pn_group a b ms ns : Forall2 mark_node ms ns -> part_nodes (Group ms) (opening (txt "g") a :: ns ++ [closing (txt "g") b])
| pn_nothing a : part_nodes (Group []) [alone (txt "g") a].
(** An element [x] with parts in it *)
Inductive side_nodes (x : ustr) : list part -> list xnode -> Prop :=
| sn_alone a : side_nodes x [] [alone x a]
| sn_parts a b ps nss : Forall2 part_nodes ps nss -> side_nodes x ps (opening x a :: concat nss ++ [closing x b]).

(** Things with gaps before, between and after them *)
Inductive spread {A} (gap : list xnode -> Prop) (f : A -> list xnode -> Prop) : list A -> list xnode -> Prop :=
| sp_end g : gap g -> spread gap f [] g
| sp_item g x ns xs r : gap g -> f x ns -> spread gap f xs r -> spread gap f (x :: xs) (g ++ ns ++ r).
(** Text and comments *)
Definition loose (g : list xnode) : Prop := Forall (fun n => exists t, n = text t \/ n = comment t) g.

Section Nodes.
(** White space *)
Context (isspace : Z -> bool).
Definition blank (t : list Z) : Prop := Forall scalar t /\ Forall (fun u => isspace u = true) (utf16_text t).
(** Blank text and comments *)
Definition gap (g : list xnode) : Prop := Forall (fun n => exists t, (n = text t /\ blank t) \/ n = comment t) g.

Inductive element_nodes : delement -> list xnode -> Prop :=
| en_both ps ns : side_nodes (txt "i") ps ns -> element_nodes (Both ps) ns
| en_group ps ns : side_nodes (txt "ig") ps ns -> element_nodes (BothGroup ps) ns
| en_sides a b l r g1 ls g2 rs g3 : gap g1 -> side_nodes (txt "l") l ls -> gap g2 -> side_nodes (txt "r") r rs -> gap g3 ->
    element_nodes (Sides l r) (opening (txt "p") a :: g1 ++ ls ++ g2 ++ rs ++ g3 ++ [closing (txt "p") b])
| en_expr a b t : element_nodes (Expr t) [opening (txt "re") a; text t; closing (txt "re") b]
| en_use a n : given a (txt "n") n -> element_nodes (Use n) [alone (txt "par") a].
Definition entry_attrs (a : list (ustr * ustr)) (e : dentry) : Prop :=
  given a (txt "r") (at_r (e_attrs e)) /\ given a (txt "i") (at_ignore (e_attrs e)) /\ given a (txt "alt") (at_alt (e_attrs e))
  /\ given a (txt "v") (at_v (e_attrs e)) /\ given a (txt "vl") (at_vl (e_attrs e)) /\ given a (txt "vr") (at_vr (e_attrs e))
  /\ given a (txt "w") (e_weight e).
Inductive entry_nodes : dentry -> list xnode -> Prop :=
| dn_entry e a b ns : entry_attrs a e -> spread gap element_nodes (e_elements e) ns ->
    entry_nodes e (opening (txt "e") a :: ns ++ [closing (txt "e") b]).
Inductive pardef_nodes : ustr * list dentry -> list xnode -> Prop :=
| dn_pardef n es a b ns : given a (txt "n") n -> spread loose entry_nodes es ns ->
    pardef_nodes (n, es) (opening (txt "pardef") a :: ns ++ [closing (txt "pardef") b]).
Inductive symbol_nodes : ustr -> list xnode -> Prop :=
| dn_symbol n a : given a (txt "n") n -> symbol_nodes n [alone (txt "sdef") a].
Inductive top_nodes : top -> list xnode -> Prop :=
| tn_alphabet a b t : t <> [] -> Forall scalar t ->
    top_nodes (Alphabet t) [opening (txt "alphabet") a; text t; closing (txt "alphabet") b]
| tn_no_letters a b : top_nodes (Alphabet []) [opening (txt "alphabet") a; closing (txt "alphabet") b]
| tn_symbols a b ns l : spread loose symbol_nodes ns l ->
    top_nodes (Symbols ns) (opening (txt "sdefs") a :: l ++ [closing (txt "sdefs") b])
| tn_pardefs a b ds l : spread loose pardef_nodes ds l ->
    top_nodes (Pardefs ds) (opening (txt "pardefs") a :: l ++ [closing (txt "pardefs") b])
| tn_section a b id ty es l : given a (txt "id") id -> given a (txt "type") ty -> id <> [] -> ty <> [] -> spread loose entry_nodes es l ->
    top_nodes (Section_ id ty es) (opening (txt "section") a :: l ++ [closing (txt "section") b]).
(** A document; [separable] says whether its type is one of the two for lsx dictionaries *)
Definition lsx_type (v : ustr) : Prop := v = txt "separable" \/ v = txt "sequential".
Inductive document (separable : bool) : list top -> list xnode -> Prop :=
| dn_document g1 a v ts l b v' g2 : loose g1 -> loose g2 -> given a (txt "type") v -> (separable = true <-> lsx_type v) ->
    given b (txt "type") v' -> (lsx_type v' -> separable = true) -> spread loose top_nodes ts l ->
    document separable ts (g1 ++ opening (txt "dictionary") a :: l ++ closing (txt "dictionary") b :: g2).

(** * What it says *)
(** The letters: those of the last alphabet element; blank text counts as none. *)
Definition letters_value (t : list Z) (v : ustr) : Prop := (blank t /\ v = []) \/ (~ blank t /\ v = utf16_text t).
Inductive letters_of : list top -> ustr -> Prop :=
| lo_none ts : (forall t, ~ In (Alphabet t) ts) -> letters_of ts []
| lo_last ts t us v : (forall t', ~ In (Alphabet t') us) -> letters_value t v -> letters_of (ts ++ Alphabet t :: us) v.
End Nodes.

(** The names of the symbols, in order *)
Definition bracketed (n : ustr) : ustr := txt "<" ++ n ++ txt ">".
Definition lsx_symbols : list ustr :=
  [txt "<ANY_TAG>"; txt "<ANY_CHAR>"; txt "<$>"; txt "<$_>"; txt "<$->"; txt "</>"].
Definition declared (separable : bool) (ts : list top) : list ustr :=
  (if separable then lsx_symbols else []) ++ flat_map (fun t => match t with Symbols ns => map bracketed ns | _ => [] end) ts.

Section Meaning.
(** Whether <m/> is kept, the codes of the symbols, and the value of a weight *)
Context (keep : bool) (code : ustr -> Z) (weight : ustr -> outcome Z).
Definition mark_symbols (m : mark) : list Z :=
  match m with
  | Letters t => t
  | Space => txt " "
  | Joined => txt "+"
  | Later => txt "~"
  | Border => if keep then txt ">" else []
  | Symbol n => [code (bracketed n)]
  | AnyTag => [code (txt "<ANY_TAG>")]
  | AnyLetter => [code (txt "<ANY_CHAR>")]
  | Bound None => [code (txt "<$>")]
  | Bound (Some true) => [code (txt "<$_>")]
  | Bound (Some false) => [code (txt "<$->")]
  | NewForm => [code (txt "</>")]
  end.
Definition part_symbols (p : part) : list Z :=
  match p with One m => mark_symbols m | Group ms => txt "#" ++ flat_map mark_symbols ms end.
Definition side (ps : list part) : list Z := flat_map part_symbols ps.
Definition element_token (w : Z) (d : delement) : entry_token :=
  match d with
  | Both ps => Single (side ps) (side ps) w
  | BothGroup ps => Single (side ps) (txt "#" ++ side ps) w
  | Sides l r => Single (side l) (side r) w
  | Expr t => Regexp t
  | Use n => Paradigm n
  end.
Definition weight_of (e : dentry) (w : Z) : Prop :=
  (e_weight e = [] /\ w = 0) \/ (e_weight e <> [] /\ weight (e_weight e) = Ok w).
(** The entries compiled: those the options and the direction select. *)
Inductive compiled_entries (o : options) (lr : bool) : list dentry -> list (list entry_token) -> Prop :=
| ce_nil : compiled_entries o lr [] []
| ce_taken e es w tss : EntryFilterProps.selected o lr (e_attrs e) -> weight_of e w -> compiled_entries o lr es tss ->
    compiled_entries o lr (e :: es) (map (element_token w) (e_elements e) :: tss)
| ce_left e es tss : ~ EntryFilterProps.selected o lr (e_attrs e) -> compiled_entries o lr es tss ->
    compiled_entries o lr (e :: es) tss.
Inductive compiled_tops (o : options) (lr : bool) : list top -> list item -> Prop :=
| ct_nil : compiled_tops o lr [] []
| ct_pardefs ds is ts is' : Forall2 (fun d i => exists tss, compiled_entries o lr (snd d) tss /\ i = Pardef (fst d) tss) ds is ->
    compiled_tops o lr ts is' -> compiled_tops o lr (Pardefs ds :: ts) (is ++ is')
| ct_section id ty es tss ts is' : compiled_entries o lr es tss -> compiled_tops o lr ts is' ->
    compiled_tops o lr (Section_ id ty es :: ts) (Sec (id ++ txt "@" ++ ty) tss :: is').
End Meaning.

(** The symbols an entry needs are declared. *)
Definition mark_known (separable : bool) (known : list ustr) (m : mark) : Prop :=
  match m with
  | Symbol n => In (bracketed n) known
  | AnyTag | AnyLetter | Bound _ | NewForm => separable = true
  | _ => True
  end.
Definition part_known (separable : bool) (known : list ustr) (p : part) : Prop :=
  match p with One m => mark_known separable known m | Group ms => Forall (mark_known separable known) ms end.
Definition element_known (separable : bool) (known : list ustr) (d : delement) : Prop :=
  match d with
  | Both ps | BothGroup ps => Forall (part_known separable known) ps
  | Sides l r => Forall (part_known separable known) l /\ Forall (part_known separable known) r
  | _ => True
  end.
Definition entry_known (o : options) (lr : bool) (separable : bool) (known : list ustr) (e : dentry) : Prop :=
  EntryFilterProps.selected o lr (e_attrs e) -> Forall (element_known separable known) (e_elements e).
Definition top_known (o : options) (lr : bool) (separable : bool) (known : list ustr) (t : top) : Prop :=
  match t with
  | Pardefs ds => Forall (fun d => Forall (entry_known o lr separable known) (snd d)) ds
  | Section_ _ _ es => Forall (entry_known o lr separable known) es
  | _ => True
  end.
