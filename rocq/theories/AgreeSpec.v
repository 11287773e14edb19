(** What a side of a line of lt-expand stands for among the symbols of a compiled dictionary, and
    the entries for which both programs can be compared; independent of both. *)
From Coq Require String Ascii.
From Verif Require Import Base AlphabetModel ExpanderModel DixSpec.
From Verif Require ExpanderSpec.
Import String.StringSyntax.

(** Characters stand for themselves, the special ones after a backslash; <b/>, <j/>, <a/>, <g>
    and <m/> are written without one; <x> is the symbol of that name. *)
Inductive stands (symbol : Z -> ustr -> Prop) : ustr -> list Z -> Prop :=
| st_nil : stands symbol [] []
| st_letter c t s : scalar c -> ~ ExpanderSpec.special c -> stands symbol t s -> stands symbol (utf16_text [c] ++ t) (c :: s)
| st_escaped c t s : ExpanderSpec.special c -> stands symbol t s -> stands symbol (txt "\" ++ [c] ++ t) (c :: s)
| st_mark c t s : In c (txt "+~#>") -> stands symbol t s -> stands symbol ([c] ++ t) (c :: s)
| st_tag c n t s : symbol c (bracketed n) -> stands symbol t s -> stands symbol (bracketed n ++ t) (c :: s).

(** The two sides of a word; 0 is the empty symbol. *)
Definition nonzero (c : Z) : bool := negb (c =? 0).
Definition lefts (w : list (Z * Z)) : list Z := filter nonzero (map fst w).
Definition rights (w : list (Z * Z)) : list Z := filter nonzero (map snd w).
(** The word [w], compiled left to right or right to left, is what the expansion says. *)
Definition serves (lr : bool) (d : ExpanderSpec.direction) : Prop := d <> if lr then ExpanderSpec.RL else ExpanderSpec.LR.
Definition same_word (symbol : Z -> ustr -> Prop) (lr : bool) (x : ExpanderSpec.expansion) (w : list (Z * Z)) : Prop :=
  let '(d, l, r) := x in
  serves lr d /\ stands symbol l (if lr then lefts w else rights w) /\ stands symbol r (if lr then rights w else lefts w).

(** Entries both programs select alike (C57), without regular expressions *)
Definition no_expression (d : delement) : Prop := match d with Expr _ => False | _ => True end.
Definition comparable (o : options) (e : dentry) : Prop :=
  let a := e_attrs e in
  (at_r a = [] \/ at_r a = txt "LR" \/ at_r a = txt "RL") /\ ~ In 32 (at_alt a) /\ ~ In 32 (at_vl a) /\ ~ In 32 (at_vr a)
  /\ (at_v a = [] \/ (at_v a = o_v o /\ ~ In 32 (at_v a))) /\ Forall no_expression (e_elements e).
Definition top_comparable (o : options) (t : top) : Prop :=
  match t with
  | Pardefs ds => Forall (fun d => Forall (comparable o) (snd d)) ds
  | Section_ _ _ es => Forall (comparable o) es
  | _ => True
  end.
