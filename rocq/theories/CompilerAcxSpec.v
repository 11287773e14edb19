(** What a dictionary means when characters have equivalents: on the left of a pair an
    equivalent may stand for the character. *)
From Verif Require Import Base AlphabetModel RegexpModel RegexpSpec CompilerModel CompilerSpec.

(** [eqv c x]: [x] may stand for [c]. *)
Definition respelt (eqv : Z -> Z -> Prop) (p p' : Z * Z) : Prop :=
  snd p' = snd p /\ (fst p' = fst p \/ eqv (fst p) (fst p')).
(** Only what is written out is respelt; regular expressions are not, and paradigms are in
    their own entries. *)
Definition element_acx (eqv : Z -> Z -> Prop) (left_to_right : bool) (env : ustr -> pset) (el : entry_token) : pset :=
  match el with
  | Single l r _ => fun w => Forall2 (respelt eqv) (if left_to_right then align l r else align r l) w
  | _ => element_set left_to_right env el
  end.
Fixpoint entry_acx (eqv : Z -> Z -> Prop) (left_to_right : bool) (env : ustr -> pset) (els : list entry_token) : pset :=
  match els with
  | [] => fun w => w = []
  | el :: r => cat (element_acx eqv left_to_right env el) (entry_acx eqv left_to_right env r)
  end.
Definition entries_acx (eqv : Z -> Z -> Prop) (left_to_right : bool) (env : ustr -> pset) (es : list (list entry_token)) : pset :=
  fun w => exists els, In els es /\ entry_acx eqv left_to_right env els w.
Fixpoint section_acx (eqv : Z -> Z -> Prop) (left_to_right : bool) (env : ustr -> pset) (items : list item) (name : ustr) : pset :=
  match items with
  | [] => no_words
  | Pardef n es :: r => section_acx eqv left_to_right (define n (entries_acx eqv left_to_right env es) env) r name
  | Sec n es :: r =>
      join_sets (fun w => n = name /\ entries_acx eqv left_to_right env es w) (section_acx eqv left_to_right env r name)
  end.

(** * Dictionaries for which this is what the compiler does *)
(** As [dict_ok]; and the symbols written out on the left are in [U]. *)
Definition element_within (U : Z -> Prop) (left_to_right : bool) (env : ustr -> pset) (defined : list ustr) (last : bool) (el : entry_token) : Prop :=
  match el with
  | Single l r _ => ~ In 0 l /\ ~ In 0 r /\ Forall U (if left_to_right then l else r)
  | _ => element_ok env defined last el
  end.
Fixpoint entry_within (U : Z -> Prop) (left_to_right : bool) (env : ustr -> pset) (defined : list ustr) (els : list entry_token) : Prop :=
  match els with
  | [] => True
  | el :: r => element_within U left_to_right env defined (match r with [] => true | _ => false end) el
      /\ entry_within U left_to_right env defined r
  end.
Fixpoint dict_within (U : Z -> Prop) (eqv : Z -> Z -> Prop) (left_to_right : bool) (env : ustr -> pset) (defined : list ustr) (items : list item) : Prop :=
  match items with
  | [] => True
  | Pardef n es :: r =>
      n <> [] /\ ~ In n defined /\ Forall (entry_within U left_to_right env defined) es
      /\ match r with
         | Sec _ _ :: _ => exists w, entries_acx eqv left_to_right env es w
         | _ => True
         end
      /\ dict_within U eqv left_to_right (define n (entries_acx eqv left_to_right env es) env) (n :: defined) r
  | Sec n es :: r => Forall (entry_within U left_to_right env defined) es /\ dict_within U eqv left_to_right env defined r
  end.
