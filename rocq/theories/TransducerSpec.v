(** What an automaton means.  Independent of the algorithms: only the representation
    (record, arc, nth) is used. *)
From Coq Require Export Sorted.
From Verif Require Import Base TransducerModel.

(** A label: tag and weight of an arc. *)
Definition label : Type := (Z * Z)%type.

(** [has_arc t p a q w]: an arc from p to q with tag a and weight w. *)
Definition has_arc (t : transducer) (p : nat) (a : Z) (q : nat) (w : Z) : Prop :=
  In (a, (q, w)) (arcs_of t p).

(** Paths, with the labels in order. *)
Inductive path (t : transducer) : nat -> list label -> nat -> Prop :=
| path_nil p : path t p [] p
| path_cons p a w q l r :
    has_arc t p a q w -> path t q l r -> path t p ((a, w) :: l) r.

(** [p] is final with weight [f]. *)
Definition final_wt (t : transducer) (p : nat) (f : Z) : Prop := In (p, f) (finals t).
Definition is_final (t : transducer) (p : nat) : Prop := exists f, final_wt t p f.

(** Accepting paths from a state: labels and final weight. *)
Definition accepts_from (t : transducer) (p : nat) (l : list label) (f : Z) : Prop :=
  exists q, path t p l q /\ final_wt t q f.

(** Unweighted epsilon labels are invisible. *)
Definition silent (eps : Z) (x : label) : bool := (fst x =? eps) && (snd x =? 0).
Definition visible (eps : Z) (l : list label) : list label :=
  filter (fun x => negb (silent eps x)) l.

(** The label language: what is accepted when arcs are compared by tag and weight and
    only unweighted epsilons are invisible. *)
Definition label_lang (t : transducer) (eps : Z) (l : list label) : Prop :=
  exists l' f, accepts_from t (initial t) l' f /\ visible eps l' = l.

(** The weighted language: tag sequence without epsilons and total weight, the final
    weight included. *)
Definition word_of (eps : Z) (l : list label) : list Z :=
  map fst (filter (fun x => negb (fst x =? eps)) l).
Definition cost_of (l : list label) : Z := fold_right (fun x c => snd x + c) 0 l.
Definition wlang (t : transducer) (eps : Z) (w : list Z) (c : Z) : Prop :=
  exists l f, accepts_from t (initial t) l f /\ word_of eps l = w /\ cost_of l + f = c.

(** The plain language: tag sequences. *)
Definition lang (t : transducer) (eps : Z) (w : list Z) : Prop := exists c, wlang t eps w c.

(** A transducer as the operations produce them: the initial and final states and all
    arc targets exist, finals are sorted by state, arcs by tag. *)
Definition arcs_sorted (l : list arc) : Prop :=
  StronglySorted (fun a b => a_tag a <= a_tag b) l.
Definition finals_sorted (l : list (nat * Z)) : Prop :=
  StronglySorted (fun p q => (fst p < fst q)%nat) l.
Record wf (t : transducer) : Prop := {
  wf_initial : (initial t < nstates t)%nat;
  wf_finals : forall p f, final_wt t p f -> (p < nstates t)%nat;
  wf_finals_sorted : finals_sorted (finals t);
  wf_arcs : forall p a q w, has_arc t p a q w -> (q < nstates t)%nat;
  wf_sorted : forall p, arcs_sorted (arcs_of t p)
}.

(** Deterministic on labels: no invisible arc, and at most one arc per state and label. *)
Definition deterministic (t : transducer) (eps : Z) : Prop :=
  (forall p a q w, has_arc t p a q w -> silent eps (a, w) = false)
  /\ (forall p a w q q', has_arc t p a q w -> has_arc t p a q' w -> q = q')
  /\ (forall p, NoDup (arcs_of t p)).

(** Every state can be reached from the initial one. *)
Definition accessible (t : transducer) : Prop :=
  forall p, (p < nstates t)%nat -> exists l, path t (initial t) l p.

(** Reachability by invisible arcs. *)
Inductive eps_reach (t : transducer) (eps : Z) : nat -> nat -> Prop :=
| er_refl p : eps_reach t eps p p
| er_step p q r : has_arc t p eps q 0 -> eps_reach t eps q r -> eps_reach t eps p r.

(** Reachability by arcs with one of the given tags, whatever their weight. *)
Inductive tag_reach (t : transducer) (tags : list Z) : nat -> nat -> Prop :=
| tr_refl p : tag_reach t tags p p
| tr_step p q r a w : In a tags -> has_arc t p a q w -> tag_reach t tags q r ->
    tag_reach t tags p r.

(** All final weights are the default. *)
Definition finals_default (t : transducer) : Prop := forall p f, final_wt t p f -> f = 0.
