(** Regular expressions: abstract syntax, concrete syntax and meaning.  Independent of the
    compiler. *)
From Verif Require Import Base.

Inductive re :=
| Chr (c : Z)
| Cls (neg : bool) (items : list (Z * Z))
| Cat (r s : re)
| Alt (r s : re)
| Opt (r : re)
| Star (r : re)
| Plus (r : re).

(** ** Meaning: a set of symbol strings *)
Definition str_set : Type := list Z -> Prop.
Inductive star (L : str_set) : str_set :=
| star_nil : star L []
| star_more u v : L u -> star L v -> star L (u ++ v).

Definition in_items (c : Z) (items : list (Z * Z)) : Prop :=
  exists lo hi, In (lo, hi) items /\ lo <= c <= hi.

(** [univ]: the symbols a negated class chooses from. *)
Fixpoint den (univ : Z -> Prop) (r : re) : str_set :=
  match r with
  | Chr c => fun w => w = [c]
  | Cls false items => fun w => exists c, w = [c] /\ in_items c items
  | Cls true items => fun w => exists c, w = [c] /\ univ c /\ ~ in_items c items
  | Cat r s => fun w => exists u v, w = u ++ v /\ den univ r u /\ den univ s v
  | Alt r s => fun w => den univ r w \/ den univ s w
  | Opt r => fun w => w = [] \/ den univ r w
  | Star r => star (den univ r)
  | Plus r => fun w => exists u v, w = u ++ v /\ den univ r u /\ star (den univ r) v
  end.

(** ** Concrete syntax *)
(** ( ) [ ] * ? + - ^ \ | *)
Definition reserved : list Z := [40; 41; 91; 93; 42; 63; 43; 45; 94; 92; 124].

(** A symbol, or a reserved one after a backslash. *)
Inductive g_char : Z -> list Z -> Prop :=
| g_plain_char c : ~ In c reserved -> g_char c [c]
| g_escaped c : In c reserved -> g_char c [92; c].

(** The inside of brackets: symbols and ranges a-z. *)
Inductive g_items : list (Z * Z) -> list Z -> Prop :=
| g_no_items : g_items [] []
| g_item c s items s' : g_char c s -> g_items items s' -> g_items ((c, c) :: items) (s ++ s')
| g_range c s d s1 items s' : g_char c s -> g_char d s1 -> c <= d -> g_items items s' ->
    g_items ((c, d) :: items) (s ++ [45] ++ s1 ++ s').

Inductive g_alt : re -> list Z -> Prop :=
| g_one r s : g_seq r s -> g_alt r s
| g_or r s r' s' : g_seq r s -> g_alt r' s' -> g_alt (Alt r r') (s ++ [124] ++ s')
with g_seq : re -> list Z -> Prop :=
| g_term r s : g_post r s -> g_seq r s
| g_cat r s r' s' : g_post r s -> g_seq r' s' -> g_seq (Cat r r') (s ++ s')
with g_post : re -> list Z -> Prop :=
| g_plain r s : g_atom r s -> g_post r s
| g_star r s : g_atom r s -> g_post (Star r) (s ++ [42])
| g_opt r s : g_atom r s -> g_post (Opt r) (s ++ [63])
| g_plus r s : g_atom r s -> g_post (Plus r) (s ++ [43])
with g_atom : re -> list Z -> Prop :=
| g_chr c s : g_char c s -> g_atom (Chr c) s
| g_paren r s : g_alt r s -> g_atom r ([40] ++ s ++ [41])
| g_cls items s : g_items items s -> items <> [] -> g_atom (Cls false items) ([91] ++ s ++ [93])
| g_neg items s : g_items items s -> g_atom (Cls true items) ([91; 94] ++ s ++ [93]).

Scheme g_alt_min := Minimality for g_alt Sort Prop
  with g_seq_min := Minimality for g_seq Sort Prop
  with g_post_min := Minimality for g_post Sort Prop
  with g_atom_min := Minimality for g_atom Sort Prop.
Combined Scheme g_mut from g_alt_min, g_seq_min, g_post_min, g_atom_min.

(** An expression without negated classes. *)
Fixpoint no_neg (r : re) : Prop :=
  match r with
  | Chr _ => True
  | Cls neg _ => neg = false
  | Cat r s | Alt r s => no_neg r /\ no_neg s
  | Opt r | Star r | Plus r => no_neg r
  end.

(** Every negated class leaves something to choose. *)
Fixpoint choosable (univ : Z -> Prop) (r : re) : Prop :=
  match r with
  | Chr _ => True
  | Cls neg items => neg = true -> exists c, univ c /\ ~ in_items c items
  | Cat r s | Alt r s => choosable univ r /\ choosable univ s
  | Opt r | Star r | Plus r => choosable univ r
  end.
