(** What a list of patterns should match (C69): words of units and tags, patterns of atoms.
    Nothing here uses the automaton. *)
From Verif Require Import Base AlphabetModel.

(** The words matched: UTF-16 units and tags by name *)
Inductive sym := SChar (c : Z) | STag (name : ustr).
Inductive atom := AChar (c : Z) | AAnyChar | ATag (name : ustr) | AAnyTag | AQueue.
(** '*' stands for one or more units or tags; a queue is nothing, or '_', ' ' or '#' and then
    any units. *)
Inductive fits : list atom -> list sym -> Prop :=
| ft_nil : fits [] []
| ft_char c a w : fits a w -> fits (AChar c :: a) (SChar c :: w)
| ft_tag n a w : fits a w -> fits (ATag n :: a) (STag n :: w)
| ft_any_char cs a w : cs <> [] -> fits a w -> fits (AAnyChar :: a) (map SChar cs ++ w)
| ft_any_tag ns a w : ns <> [] -> fits a w -> fits (AAnyTag :: a) (map STag ns ++ w)
| ft_no_queue a w : fits a w -> fits (AQueue :: a) w
| ft_queue c cs a w : In c [95; 32; 35] -> fits a w -> fits (AQueue :: a) (SChar c :: map SChar cs ++ w).

(** * Rules *)
(** A lemma and the names of its tags; no lemma or no tags: any *)
Record part := mkPart { pt_lemma : ustr; pt_tags : list ustr }.
Definition part_atoms (p : part) : list atom :=
  (match pt_lemma p with [] => [AAnyChar] | l => map (fun c => if c =? 42 then AAnyChar else AChar c) l end)
  ++ (match pt_tags p with
      | [] => [AAnyTag]
      | l => map (fun n => if ustr_eq_dec n [42] then AAnyTag else ATag n) l
      end).
(** Tags are given with dots between them. *)
Fixpoint tags_text (l : list ustr) : ustr :=
  match l with [] => [] | [n] => n | n :: r => n ++ 46 :: tags_text r end.

Inductive element := EPart (p : part) | ELabel (id : Z).
(** A rule is one part, or a sequence of parts and of labels, which stand for the patterns
    of an earlier rule. *)
Inductive rule := RPart (id : Z) (p : part) | RSequence (id : Z) (l : list element).
Definition store := list (Z * list atom).
Definition element_atoms (s : store) (e : element) : list (list atom) :=
  match e with
  | EPart p => [part_atoms p]
  | ELabel k => map snd (filter (fun x => fst x =? k) s)
  end.
(** the elements with '+' between them *)
Fixpoint sequences (s : store) (l : list element) : list (list atom) :=
  match l with
  | [] => []
  | [e] => element_atoms s e
  | e :: r => flat_map (fun a => map (fun b => a ++ AChar 43 :: b) (sequences s r)) (element_atoms s e)
  end.
(** A queue may follow, once. *)
Definition with_queue (a : list atom) : list atom :=
  match last a AQueue with AQueue => match a with [] => [AQueue] | _ => a end | _ => a ++ [AQueue] end.
Definition add_rule (s : store) (r : rule) : store :=
  match r with
  | RPart id p => s ++ [(id, with_queue (part_atoms p))]
  | RSequence id l => s ++ map (fun a => (id, with_queue a)) (sequences s l)
  end.
Definition patterns_of (l : list rule) : store := fold_left add_rule l [].

(** * Rules considered *)
(** Names that are not those with a meaning of their own *)
Definition reserved : list ustr := [[65; 78; 89; 95; 67; 72; 65; 82]; [65; 78; 89; 95; 84; 65; 71]; [81; 85; 69; 85; 69]].
Definition no_double (star : ustr) (l : list ustr) : Prop := forall x y, l <> x ++ [star; star] ++ y.
Definition part_ok (p : part) : Prop :=
  Forall (fun c => 0 < c) (pt_lemma p) /\ (forall x y, pt_lemma p <> x ++ [42; 42] ++ y)
  /\ Forall (fun n => ~ In 46 n /\ ~ In n reserved) (pt_tags p) /\ no_double [42] (pt_tags p)
  /\ pt_tags p <> [[]] /\ hd_error (pt_tags p) <> Some [].
(** Labels are known where they are used. *)
Definition element_ok (s : store) (e : element) : Prop :=
  match e with EPart p => part_ok p | ELabel k => element_atoms s (ELabel k) <> [] end.
Definition rule_ok (s : store) (r : rule) : Prop :=
  match r with RPart _ p => part_ok p | RSequence _ l => Forall (element_ok s) l end.
Fixpoint rules_ok (s : store) (l : list rule) : Prop :=
  match l with [] => True | r :: l => rule_ok s r /\ rules_ok (add_rule s r) l end.
(** No word is followed by '+' both directly in one pattern and through a label in another. *)
Definition begins (s : store) (k : list atom) : Prop := exists id r, In (id, k ++ r) s.
Definition compatible (s : store) : Prop :=
  forall k, begins s (k ++ [AQueue; AChar 43]) -> ~ begins s (k ++ [AChar 43]).

(** What follows a '*' cannot be taken by the '*', and a queue is last. *)
Definition simple (al : list atom) : Prop :=
  forall u x y v, al = u ++ x :: y :: v ->
    match x with
    | AAnyChar => y = AAnyTag \/ exists n, y = ATag n
    | AAnyTag => y = AQueue \/ exists c, y = AChar c
    | AQueue => False
    | _ => True
    end.

(** * Answers *)
(** The least number of a rule that fits, or -1 *)
Definition fitting (s : store) (w : list sym) (id : Z) : Prop := exists a, In (id, a) s /\ fits a w.
Definition answer (s : store) (w : list sym) (r : Z) : Prop :=
  (fitting s w r /\ forall id, fitting s w id -> r <= id) \/ (r = -1 /\ forall id, ~ fitting s w id).
