(** Which dictionary of ExpanderSpec.v an XML document describes, and documents lt-expand can
    read; independent of its reader. *)
From Coq Require String Ascii.
From Verif Require Import Base AlphabetModel ExpanderModel DixModel DixSpec.
From Verif Require ExpanderSpec.
Import String.StringSyntax.

Definition listed_mark (m : mark) : piece :=
  match m with
  | Letters t => PText (utf16_text t)
  | Space => PBlank
  | Joined => PJoin
  | Later => PPost
  | Border => PMorph
  | Symbol n => PSym n
  | AnyTag => PAnyTag
  | AnyLetter => PAnyChar
  | Bound _ => PWord
  | NewForm => PInvalid
  end.
Definition listed_part (p : part) : list piece :=
  match p with One m => [listed_mark m] | Group ms => PGroup :: map listed_mark ms ++ [PGroupEnd] end.
Definition listed_side (ps : list part) : list piece := flat_map listed_part ps.
Definition listed_element (d : delement) : element :=
  match d with
  | Both ps => EId (listed_side ps)
  | BothGroup ps => EGroup (listed_side ps)
  | Sides l r => EPair (listed_side l) (listed_side r)
  | Expr t => ERe (utf16_text t)
  | Use n => EPar n
  end.
Definition listed_entry (e : dentry) : attributes * list element := (e_attrs e, map listed_element (e_elements e)).
Definition listed (t : top) : list ExpanderSpec.item :=
  match t with
  | Pardefs ds => map (fun d => ExpanderSpec.Pardef (fst d) (map listed_entry (snd d))) ds
  | Section_ _ _ es => [ExpanderSpec.Sec (map listed_entry es)]
  | _ => []
  end.

(** Characters are code points. *)
Definition mark_scalar (m : mark) : Prop := match m with Letters t => Forall scalar t | _ => True end.
Definition part_scalar (p : part) : Prop := match p with One m => mark_scalar m | Group ms => Forall mark_scalar ms end.
Definition element_scalar (d : delement) : Prop :=
  match d with
  | Both ps | BothGroup ps => Forall part_scalar ps
  | Sides l r => Forall part_scalar l /\ Forall part_scalar r
  | Expr t => Forall scalar t
  | Use _ => True
  end.
Definition entry_scalar (e : dentry) : Prop := Forall element_scalar (e_elements e).
Definition top_scalar (t : top) : Prop :=
  match t with
  | Pardefs ds => Forall (fun d => Forall entry_scalar (snd d)) ds
  | Section_ _ _ es => Forall entry_scalar es
  | _ => True
  end.

(** A document without two texts in a row (no reader gives them), without comments between <p>
    and </p>, and without comments between a <par/> and </e>. *)
Definition tidy (ns : list xnode) : Prop :=
  (forall a s t b, ns <> a ++ text s :: text t :: b)
  /\ (forall a at_ b t c, ns = a ++ opening (txt "p") at_ :: b ++ comment t :: c -> exists n, In n b /\ x_name n = txt "p")
  /\ (forall a at_ b at' c, ns = a ++ alone (txt "par") at_ :: b ++ closing (txt "e") at' :: c -> loose b -> forall t, ~ In (comment t) b).
