(** What files of characters say, and what ignoring characters means (C80-C82). *)
From Coq Require String Ascii.
From Verif Require Import Base AlphabetModel DixModel DixSpec InputModel InputProps StreamProps AnalysisSpec CharFileModel.
Import String.StringSyntax.

(** [thinned ig T T']: [T'] is the text [T] without the ignored characters that stand before a
    character, an escape, a blank or a NUL. *)
Inductive thinned (ig : Z -> bool) : list Z -> list Z -> Prop :=
| th_end : thinned ig [] []
| th_skip c T T' : ig c = true -> InputProps.scalar c -> c <> U_EOF -> T <> [] -> thinned ig T T' -> thinned ig (c :: T) T'
| th_item i T T' : item_ok ig i -> thinned ig T T' -> thinned ig (item_text i ++ T) (item_text i ++ T')
| th_nul T T' : thinned ig T T' -> thinned ig (0 :: T) (0 :: T').

(** * The documents of lt-proc *)
Inductive stray : xnode -> Prop :=
| st_text t : stray (DixSpec.text t)
| st_comment t : stray (DixSpec.comment t).
(** An element [x] with attributes [a] and the contents [ns] *)
Inductive element (x : ustr) (a : list (ustr * ustr)) : list xnode -> list xnode -> Prop :=
| el_alone : element x a [] [DixSpec.alone x a]
| el_pair ns : element x a ns (opening x a :: ns ++ [closing x a]).
(** The whole document: its root is [x] *)
Definition document (x : ustr) (body l : list xnode) : Prop :=
  exists before a e after, Forall stray before /\ Forall stray after /\ element x a body e /\ l = before ++ e ++ after.

(** The characters to be ignored *)
Inductive icx_body : list xnode -> list Z -> Prop :=
| ib_nil : icx_body [] []
| ib_stray n ns cs : stray n -> icx_body ns cs -> icx_body (n :: ns) cs
| ib_char a c inner e ns cs : given a (txt "value") (utf16 c) -> Forall stray inner -> element (txt "char") a inner e ->
    icx_body ns cs -> icx_body (e ++ ns) (c :: cs).
Definition icx_says (l : list xnode) (cs : list Z) : Prop := exists body, icx_body body cs /\ document (txt "ignored-chars") body l.

(** The characters to be restored: pairs of a character and one it can stand for *)
Inductive rcx_inner : list xnode -> list Z -> Prop :=
| ri_nil : rcx_inner [] []
| ri_stray n ns xs : stray n -> rcx_inner ns xs -> rcx_inner (n :: ns) xs
| ri_char a x inner e ns xs : given a (txt "value") (utf16 x) -> Forall stray inner -> element (txt "restore-char") a inner e ->
    rcx_inner ns xs -> rcx_inner (e ++ ns) (x :: xs).
Inductive rcx_body : list xnode -> list (Z * Z) -> Prop :=
| rb_nil : rcx_body [] []
| rb_stray n ns l : stray n -> rcx_body ns l -> rcx_body (n :: ns) l
| rb_char a c inner xs e ns l : given a (txt "value") (utf16 c) -> rcx_inner inner xs -> element (txt "char") a inner e ->
    rcx_body ns l -> rcx_body (e ++ ns) (map (pair c) xs ++ l).
Definition rcx_says (l : list xnode) (ps : list (Z * Z)) : Prop := exists body, rcx_body body ps /\ document (txt "restore-chars") body l.

(** * Reading a word with characters restored *)
Section Restored.
  Context (isupper : Z -> bool) (tolower : Z -> Z) (cs : bool) (ps : list (Z * Z)).
  (** [c] in a text may stand for [x]: the file says so, or [x] is its lower-case letter
      (unless [cs]), or the file mentions [c] and says so of its lower-case letter. *)
  Inductive may : Z -> Z -> Prop :=
  | may_listed c x : In (c, x) ps -> may c x
  | may_lower c : cs = false -> isupper c = true -> may c (tolower c)
  | may_lower_listed c y x : cs = false -> isupper c = true -> In (c, y) ps -> In (tolower c, x) ps -> may c x.
  (** [l] is [w] with characters restored; [d] tells whether one differs. *)
  Inductive restored : list Z -> list Z -> bool -> Prop :=
  | rs_nil : restored [] [] false
  | rs_same c w l d : restored w l d -> restored (c :: w) (c :: l) d
  | rs_other c x w l d : may c x -> x <> c -> restored w l d -> restored (c :: w) (x :: l) true.
End Restored.

(** * The documents of readACX: the entries, one for each <char>, with the equivalents *)
Definition valued (n : leaf) (c : Z) : Prop := In (txt "value", utf16 c) (lf_attrs n).
Inductive acx_inner : list leaf -> list Z -> Prop :=
| ai_nil : acx_inner [] []
| ai_other n ns xs : lf_element n = false -> acx_inner ns xs -> acx_inner (n :: ns) xs
| ai_char n x ns xs : lf_element n = true -> lf_name n = txt "equiv-char" -> valued n x -> InputProps.scalar x ->
    acx_inner ns xs -> acx_inner (n :: ns) (x :: xs).
Inductive acx_says : list branch -> list (Z * list Z) -> Prop :=
| as_nil : acx_says [] []
| as_other b bs es : lf_element (br_node b) = false -> acx_says bs es -> acx_says (b :: bs) es
| as_char b c xs bs es : lf_element (br_node b) = true -> lf_name (br_node b) = txt "char" -> valued (br_node b) c -> InputProps.scalar c ->
    acx_inner (br_children b) xs -> acx_says bs es -> acx_says (b :: bs) ((c, xs) :: es).
(** No attribute is given twice, none is empty, the values are units that spell characters. *)
Definition leaf_ok (n : leaf) : Prop :=
  NoDup (map fst (lf_attrs n)) /\ forall k v, In (k, v) (lf_attrs n) -> v <> [] /\ exists cs, Forall InputProps.scalar cs /\ v = flat_map utf16 cs.
Definition branch_ok (b : branch) : Prop := leaf_ok (br_node b) /\ Forall leaf_ok (br_children b).
