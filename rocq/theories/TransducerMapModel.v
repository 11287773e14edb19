(** The construction calls of lttoolbox/transducer.cc on the std::map itself.  Definitions
    only.

    TransducerModel.v has the list of the multimaps of the states 0..n-1 in place of the map
    from state numbers to multimaps; here the map and the search for a free number are kept,
    and TransducerMapProps.v proves the two the same.  A std::map is the list of its elements
    in iteration order.  Weights are integers as in TransducerModel.v. *)
From Verif Require Import Base SerialiserModel TransducerModel.

(** * std::map with int keys *)
Section Map.
  Context {A : Type}.
  (** find *)
  Fixpoint z_find (k : Z) (m : list (Z * A)) : option A :=
    match m with
    | [] => None
    | (k', v) :: r => if k =? k' then Some v else z_find k r
    end.
  (** operator[] followed by an assignment *)
  Fixpoint z_set (k : Z) (v : A) (m : list (Z * A)) : list (Z * A) :=
    match m with
    | [] => [(k, v)]
    | (k', v') :: r =>
        if k <? k' then (k, v) :: m
        else if k =? k' then (k, v) :: r
        else (k', v') :: z_set k v r
    end.
  (** insert: an existing key wins *)
  Fixpoint z_insert (k : Z) (v : A) (m : list (Z * A)) : list (Z * A) :=
    match m with
    | [] => [(k, v)]
    | (k', v') :: r =>
        if k <? k' then (k, v) :: m
        else if k =? k' then m
        else (k', v') :: z_insert k v r
    end.
  Definition z_erase (k : Z) (m : list (Z * A)) : list (Z * A) :=
    filter (fun p => negb (fst p =? k)) m.
End Map.

(** tag, target, weight *)
Definition marc : Type := (Z * (Z * Z))%type.
Record mtransducer := mkMT {
  m_initial : Z;
  m_finals : list (Z * Z);
  m_trans : list (Z * list marc)
}.
Definition m_arcs (t : mtransducer) (s : Z) : list marc :=
  match z_find s (m_trans t) with Some l => l | None => [] end.
Definition m_exists (t : mtransducer) (s : Z) : bool :=
  match z_find s (m_trans t) with Some _ => true | None => false end.

(** std::multimap::insert and equal_range *)
Fixpoint marc_insert (a : marc) (l : list marc) : list marc :=
  match l with
  | [] => [a]
  | b :: r => if fst a <? fst b then a :: l else b :: marc_insert a r
  end.
Definition marc_range (tag : Z) (l : list marc) : list marc := filter (fun a => fst a =? tag) l.

(** transitions[s].insert(a): a missing state comes into being *)
Definition m_add_arc (s : Z) (a : marc) (t : mtransducer) : mtransducer :=
  mkMT (m_initial t) (m_finals t) (z_set s (marc_insert a (m_arcs t s)) (m_trans t)).

(** transducer.cc:30-42 [newState]; the loop passes at most one number per element. *)
Fixpoint free_number (fuel : nat) (n : Z) (t : mtransducer) : outcome Z :=
  if m_exists t n then
    match fuel with
    | O => NoFuel
    | S fuel => free_number fuel (n + 1) t
    end
  else Ok n.
Definition m_newState (t : mtransducer) : outcome (Z * mtransducer) :=
  let! n := free_number (length (m_trans t)) (Z.of_nat (length (m_trans t))) t in
  Ok (n, mkMT (m_initial t) (m_finals t) (z_set n [] (m_trans t))).

(** transducer.cc:44-47 constructor *)
Definition m_new : mtransducer := mkMT 0 [] [(0, [])].

(** transducer.cc:70-109 [insertSingleTransduction] *)
Definition m_insertSingle (tag source weight : Z) (t : mtransducer) : outcome (Z * mtransducer) :=
  if m_exists t source then
    match marc_range tag (m_arcs t source) with
    | [a] => Ok (fst (snd a), t)
    | [] =>
        let! (state, t) := m_newState t in
        Ok (state, m_add_arc source (tag, (state, weight)) t)
    | [a; b] =>
        if negb (fst (snd a) =? source) then Ok (fst (snd a), t)
        else if negb (fst (snd b) =? source) then Ok (fst (snd b), t)
        else Ok (-1, t)
    | _ => Ok (-1, t)
    end
  else Ok (-1, t).

(** transducer.cc:111-117 [insertNewSingleTransduction] *)
Definition m_insertNewSingle (tag source weight : Z) (t : mtransducer) : outcome (Z * mtransducer) :=
  let! (state, t) := m_newState t in
  Ok (state, m_add_arc source (tag, (state, weight)) t).

(** transducer.cc:150-176 [linkStates] *)
Definition m_linkStates (source target tag weight : Z) (t : mtransducer) : outcome mtransducer :=
  if m_exists t source && m_exists t target then
    if existsb (fun a => (fst a =? tag) && (fst (snd a) =? target)) (marc_range tag (m_arcs t source))
    then Ok t
    else Ok (m_add_arc source (tag, (target, weight)) t)
  else Exit.

(** transducer.cc:184-202 [setFinal] *)
Definition m_setFinal (s w : Z) (value : bool) (t : mtransducer) : mtransducer :=
  mkMT (m_initial t) (if value then z_insert s w (m_finals t) else z_erase s (m_finals t)) (m_trans t).

(** transducer.cc:281-301 [joinFinals] *)
Fixpoint m_link_finals (l : list (Z * Z)) (state eps : Z) (t : mtransducer) : outcome mtransducer :=
  match l with
  | [] => Ok t
  | (s, w) :: r => let! t := m_linkStates s state eps w t in m_link_finals r state eps t
  end.
Definition m_joinFinals (eps : Z) (t : mtransducer) : outcome mtransducer :=
  match m_finals t with
  | [] => Exit
  | [_] => Ok t
  | _ =>
      let! (state, t') := m_newState t in
      let! t' := m_link_finals (m_finals t) state eps t' in
      Ok (mkMT (m_initial t') [(state, 0)] (m_trans t'))
  end.

(** transducer.cc:129-132: a new state for each of [t]'s *)
Fixpoint make_relation (ts : list (Z * list marc)) (relation : list (Z * Z)) (self : mtransducer)
  : outcome (list (Z * Z) * mtransducer) :=
  match ts with
  | [] => Ok (relation, self)
  | (k, _) :: r =>
      let! (n, self) := m_newState self in
      make_relation r (z_set k n relation) self
  end.
(** relation[k]: 0 for a key that is not there *)
Definition related (relation : list (Z * Z)) (k : Z) : Z :=
  match z_find k relation with Some n => n | None => 0 end.
(** transducer.cc:134-140 *)
Fixpoint m_copy_arcs (ts : list (Z * list marc)) (relation : list (Z * Z)) (self : mtransducer)
  : mtransducer :=
  match ts with
  | [] => self
  | (k, arcs) :: r =>
      m_copy_arcs r relation
        (fold_left (fun self a =>
             m_add_arc (related relation k) (fst a, (related relation (fst (snd a)), snd (snd a))) self)
           arcs self)
  end.
(** transducer.cc:119-148 [insertTransducer] *)
Definition m_insertTransducer (source : Z) (t : mtransducer) (eps : Z) (self : mtransducer)
  : outcome (Z * mtransducer * mtransducer) :=
  match m_trans t with
  | [] => Ok (source, self, t)
  | _ =>
      let! t := m_joinFinals eps t in
      let! (relation, self) := make_relation (m_trans t) [] self in
      let self := m_copy_arcs (m_trans t) relation self in
      let self := m_add_arc source (eps, (related relation (m_initial t), 0)) self in
      match m_finals t with
      | (f, _) :: _ => Ok (related relation f, self, t)
      | [] => UB
      end
  end.

(** * Programs of construction calls *)
Inductive call :=
| CNew
| CSingle (tag source weight : Z)
| CNewSingle (tag source weight : Z)
| CInsert (source : Z) (t : mtransducer) (eps : Z)
| CLink (source target tag weight : Z)
| CFinal (s w : Z) (value : bool)
| CJoin (eps : Z).
(** The returned state, if any, and the transducer afterwards *)
Definition exec (t : mtransducer) (c : call) : outcome (option Z * mtransducer) :=
  match c with
  | CNew => let! (s, t) := m_newState t in Ok (Some s, t)
  | CSingle tag source w => let! (s, t) := m_insertSingle tag source w t in Ok (Some s, t)
  | CNewSingle tag source w => let! (s, t) := m_insertNewSingle tag source w t in Ok (Some s, t)
  | CInsert source u eps => let! (s, t, _) := m_insertTransducer source u eps t in Ok (Some s, t)
  | CLink source target tag w => let! t := m_linkStates source target tag w t in Ok (None, t)
  | CFinal s w value => Ok (None, m_setFinal s w value t)
  | CJoin eps => let! t := m_joinFinals eps t in Ok (None, t)
  end.

(** * serialise, deserialise *)
(** The members as values of the serialiser (SerialiserModel.v); weights are the bit
    patterns of the doubles here. *)
Definition sv_finals (l : list (Z * Z)) : sval := SSeq (map (fun p => SPair (SInt (fst p)) (SInt (snd p))) l).
Definition sv_arcs (l : list marc) : sval :=
  SSeq (map (fun a => SPair (SInt (fst a)) (SPair (SInt (fst (snd a))) (SInt (snd (snd a))))) l).
Definition sv_trans (l : list (Z * list marc)) : sval :=
  SSeq (map (fun p => SPair (SInt (fst p)) (sv_arcs (snd p))) l).
(** ... and back; values of other shapes do not occur *)
Definition vs_int (v : sval) : Z := match v with SInt z => z | _ => 0 end.
Definition vs_list {A} (f : sval -> A) (v : sval) : list A := match v with SSeq l => map f l | _ => [] end.
Definition vs_pair {A B} (f : sval -> A) (g : sval -> B) (v : sval) : A * B :=
  match v with SPair x y => (f x, g y) | _ => (f v, g v) end.
(** transducer.cc:654-660 [serialise] *)
Definition t_serialise (t : mtransducer) : list Z :=
  serialise ty_int (SInt (m_initial t)) ++ serialise ty_finals (sv_finals (m_finals t))
  ++ serialise ty_transitions (sv_trans (m_trans t)).
(** transducer.cc:662-668 [deserialise] *)
Definition t_deserialise (inp : list Z) : outcome (mtransducer * list Z) :=
  let! (i, inp) := deserialise ty_int inp in
  let! (f, inp) := deserialise ty_finals inp in
  let! (tr, inp) := deserialise ty_transitions inp in
  Ok (mkMT (vs_int i) (vs_list (vs_pair vs_int vs_int) f)
        (vs_list (vs_pair vs_int (vs_list (vs_pair vs_int (vs_pair vs_int vs_int)))) tr), inp).
