(** Model of lttoolbox/transducer.cc, the automaton part.  Definitions only.

    Representation.  [transitions] is a std::map from state number to a multimap from
    tag to (target, weight).  The states are always 0..n-1 (proved for the map-level
    model of TransducerMapModel.v in TransducerMapProps.v), so the map is the list of the n multimaps.  A
    multimap is the list of its elements in iteration order.  [finals] is the list of
    (state, weight) by increasing state.  Weights are integers: the code only compares
    them, and adds them at run time; rounding of double addition is not modelled, nor
    are infinities.  default_weight (transducer.h:41) is 0. *)
From Verif Require Import Base SortedVectorModel.

Definition arc : Type := (Z * (nat * Z))%type.
Definition a_tag (a : arc) : Z := fst a.
Definition a_dst (a : arc) : nat := fst (snd a).
Definition a_wt (a : arc) : Z := snd (snd a).

Record transducer := mkT {
  initial : nat;
  finals : list (nat * Z);
  trans : list (list arc)
}.

(** Number of states. *)
Definition nstates (t : transducer) : nat := length (trans t).

(** transitions[s] / transitions.at(s) for an existing state. *)
Definition arcs_of (t : transducer) (s : nat) : list arc := nth s (trans t) [].

(** std::multimap::insert: after the elements with the same key. *)
Fixpoint mm_insert (a : arc) (l : list arc) : list arc :=
  match l with
  | [] => [a]
  | b :: r => if a_tag a <? a_tag b then a :: l else b :: mm_insert a r
  end.

(** std::multimap::equal_range. *)
Definition equal_range (tag : Z) (l : list arc) : list arc :=
  filter (fun a => a_tag a =? tag) l.

(** std::map<int,double>::insert (an existing key wins) and find, erase. *)
Fixpoint fin_insert (s : nat) (w : Z) (l : list (nat * Z)) : list (nat * Z) :=
  match l with
  | [] => [(s, w)]
  | (s', w') :: r =>
      if (s <? s')%nat then (s, w) :: l
      else if (s =? s')%nat then l
      else (s', w') :: fin_insert s w r
  end.
Fixpoint fin_find (s : nat) (l : list (nat * Z)) : option Z :=
  match l with
  | [] => None
  | (s', w') :: r => if (s =? s')%nat then Some w' else fin_find s r
  end.
Definition fin_erase (s : nat) (l : list (nat * Z)) : list (nat * Z) :=
  filter (fun p => negb (fst p =? s)%nat) l.

Fixpoint upd {A} (i : nat) (f : A -> A) (l : list A) : list A :=
  match l, i with
  | [], _ => []
  | x :: r, O => f x :: r
  | x :: r, S k => x :: upd k f r
  end.

(** transitions[s].insert(a) for an existing state [s].  (For a state that does not
    exist the code would create it; not modelled, every theorem assumes existence.) *)
Definition add_arc (s : nat) (a : arc) (t : transducer) : transducer :=
  mkT (initial t) (finals t) (upd s (mm_insert a) (trans t)).

(** transducer.cc:30-42 [newState]; with states 0..n-1 the loop does not iterate. *)
Definition newState (t : transducer) : nat * transducer :=
  (nstates t, mkT (initial t) (finals t) (trans t ++ [[]])).

(** transducer.cc:44-47 constructor. *)
Definition new_transducer : transducer := mkT 0 [] [[]].

(** transducer.cc:70-109 [insertSingleTransduction]; [None] is the result -1. *)
Definition insertSingleTransduction (tag : Z) (source : nat) (weight : Z) (t : transducer)
  : option nat * transducer :=
  if (source <? nstates t)%nat then
    match equal_range tag (arcs_of t source) with
    | [a] => (Some (a_dst a), t)
    | [] =>
        let '(state, t) := newState t in
        (Some state, add_arc source (tag, (state, weight)) t)
    | [a; b] =>
        if negb (a_dst a =? source)%nat then (Some (a_dst a), t)
        else if negb (a_dst b =? source)%nat then (Some (a_dst b), t)
        else (None, t)
    | _ => (None, t)
    end
  else (None, t).

(** transducer.cc:111-117 [insertNewSingleTransduction]. *)
Definition insertNewSingleTransduction (tag : Z) (source : nat) (weight : Z) (t : transducer)
  : nat * transducer :=
  let '(state, t) := newState t in
  (state, add_arc source (tag, (state, weight)) t).

(** transducer.cc:150-176 [linkStates]. *)
Definition linkStates (source target : nat) (tag weight : Z) (t : transducer)
  : outcome transducer :=
  if ((source <? nstates t) && (target <? nstates t))%nat then
    if existsb (fun a => (a_tag a =? tag) && (a_dst a =? target)%nat)
         (equal_range tag (arcs_of t source))
    then Ok t
    else Ok (add_arc source (tag, (target, weight)) t)
  else Exit.

(** transducer.cc:178-182 [isFinal]. *)
Definition isFinal (t : transducer) (s : nat) : bool :=
  match fin_find s (finals t) with Some _ => true | None => false end.

(** transducer.cc:184-202 [setFinal]. *)
Definition setFinal (s : nat) (w : Z) (value : bool) (t : transducer) : transducer :=
  mkT (initial t) (if value then fin_insert s w (finals t) else fin_erase s (finals t)) (trans t).

(** transducer.cc:287-290: the loop of joinFinals. *)
Fixpoint link_finals (l : list (nat * Z)) (state : nat) (eps : Z) (t : transducer)
  : outcome transducer :=
  match l with
  | [] => Ok t
  | (s, w) :: r => let! t := linkStates s state eps w t in link_finals r state eps t
  end.

(** transducer.cc:281-301 [joinFinals]. *)
Definition joinFinals (eps : Z) (t : transducer) : outcome transducer :=
  match finals t with
  | [] => Exit
  | [_] => Ok t
  | _ =>
      let '(state, t') := newState t in
      let! t' := link_finals (finals t) state eps t' in
      Ok (mkT (initial t') [(state, 0)] (trans t'))
  end.

(** transducer.cc:135-141: the copy of [t]'s arcs into the new states; [base] is the
    number of the first one. *)
Fixpoint copy_arcs (base : nat) (i : nat) (ts : list (list arc)) (self : transducer)
  : transducer :=
  match ts with
  | [] => self
  | arcs :: r =>
      let self :=
        fold_left (fun self a =>
            add_arc (base + i) (a_tag a, ((base + a_dst a)%nat, a_wt a)) self)
          arcs self in
      copy_arcs base (S i) r self
  end.

(** transducer.cc:119-148 [insertTransducer]: the returned state, the updated
    transducer and [t] after its joinFinals.  [relation] maps i to base+i because
    newState numbers consecutively. *)
Definition insertTransducer (source : nat) (t : transducer) (eps : Z) (self : transducer)
  : outcome (nat * transducer * transducer) :=
  match trans t with
  | [] => Ok (source, self, t)
  | _ =>
      let! t := joinFinals eps t in
      let base := nstates self in
      let self := mkT (initial self) (finals self) (trans self ++ map (fun _ => []) (trans t)) in
      let self := copy_arcs base 0 (trans t) self in
      let self := add_arc source (eps, ((base + initial t)%nat, 0)) self in
      match finals t with
      | (f, _) :: _ => Ok ((base + f)%nat, self, t)
      | [] => UB
      end
  end.

(** transducer.cc:847-853 [unionWith]; [my_a] is not used by the code. *)
Definition unionWith (t : transducer) (eps : Z) (self : transducer)
  : outcome (transducer * transducer) :=
  let! (f, self, t) := insertTransducer (initial self) t eps self in
  Ok (mkT (initial self) (fin_insert f 0 (finals self)) (trans self), t).

(** transducer.cc:406-419 [optional]. *)
Definition optional (eps : Z) (t : transducer) : outcome transducer :=
  let! t := joinFinals eps t in
  let '(state, t) := newState t in
  let! t := linkStates state (initial t) eps 0 t in
  let t := mkT state (finals t) (trans t) in
  let '(state, t) := newState t in
  match finals t with
  | [] => UB
  | (f, w) :: _ =>
      let! t := linkStates f state eps w t in
      let t := mkT (initial t) [(state, 0)] (trans t) in
      linkStates (initial t) state eps 0 t
  end.

(** transducer.cc:421-434 [oneOrMore]. *)
Definition oneOrMore (eps : Z) (t : transducer) : outcome transducer :=
  let! t := joinFinals eps t in
  let '(state, t) := newState t in
  let! t := linkStates state (initial t) eps 0 t in
  let t := mkT state (finals t) (trans t) in
  let '(state, t) := newState t in
  match finals t with
  | [] => UB
  | (f, w) :: _ =>
      let! t := linkStates f state eps w t in
      let t := mkT (initial t) [(state, 0)] (trans t) in
      linkStates state (initial t) eps 0 t
  end.

(** transducer.cc:436-441 [zeroOrMore]. *)
Definition zeroOrMore (eps : Z) (t : transducer) : outcome transducer :=
  let! t := oneOrMore eps t in
  optional eps t.

(** transducer.cc:443-449 [clear], 451-455 [isEmpty], 457-461 [hasNoFinals]. *)
Definition clear (t : transducer) : transducer := new_transducer.
Definition isEmpty (t : transducer) : bool :=
  (length (finals t) =? 0)%nat && (nstates t =? 1)%nat.
Definition hasNoFinals (t : transducer) : bool := (length (finals t) =? 0)%nat.

(** * Closures *)

(** std::set<int> as a strictly increasing list. *)
Definition set_insert (x : nat) (l : list nat) : list nat := sv_insert Nat.ltb x l.
Definition set_mem (x : nat) (l : list nat) : bool := existsb (Nat.eqb x) l.

(** transducer.cc:225-231: the arcs of one tag. *)
Definition closure_arcs (arcs : list arc) (st : list nat * list nat) : list nat * list nat :=
  fold_left (fun '(nonvisited, result) a =>
    if set_mem (a_dst a) result then (nonvisited, result)
    else (set_insert (a_dst a) nonvisited, set_insert (a_dst a) result)) arcs st.

(** transducer.cc:216-244 [closure(state, tags)]: the while loop, with fuel.
    transitions.at() on a missing state throws and the exception is swallowed: no arcs. *)
Fixpoint closure_loop (fuel : nat) (t : transducer) (tags : list Z)
    (nonvisited result : list nat) : outcome (list nat) :=
  match nonvisited with
  | [] => Ok result
  | auxest :: _ =>
      match fuel with
      | O => NoFuel
      | S f =>
          let '(nonvisited, result) :=
            fold_left (fun st tag => closure_arcs (equal_range tag (arcs_of t auxest)) st)
              tags (nonvisited, result) in
          closure_loop f t tags (fst (sv_erase Nat.ltb auxest nonvisited)) result
      end
  end.
Definition closure (t : transducer) (state : nat) (tags : list Z) : outcome (list nat) :=
  closure_loop (S (nstates t)) t tags [state] [state].

(** Running a step function at most 2^n times. *)
Section Iter.
  Context {S R : Type} (step : S -> S + R).
  Fixpoint iter2 (n : nat) (s : S) : S + R :=
    match n with
    | O => step s
    | Datatypes.S k =>
        match iter2 k s with
        | inl s' => iter2 k s'
        | inr r => inr r
        end
    end.
End Iter.

Definition sv_union (range l : list nat) : list nat := sv_insert_range Nat.ltb Nat.eqb range l.

(** Targets of the unweighted epsilon arcs of a state, transducer.cc:257-262. *)
Definition eps_targets (t : transducer) (eps : Z) (s : nat) : list nat :=
  map a_dst (filter (fun a => a_wt a =? 0) (equal_range eps (arcs_of t s))).

(** transducer.cc:254-265: the initial closures, the reversed lists and the todo set.
    [reversed] is indexed by target. *)
Definition ca_ret0 (t : transducer) (eps : Z) : list (list nat) :=
  map (fun i => fold_left (fun c d => sv_insert Nat.ltb d c) (eps_targets t eps i)
                  (sv_insert Nat.ltb i []))
    (seq 0 (nstates t)).
Definition ca_reversed (t : transducer) (eps : Z) : list (list nat) :=
  fold_left (fun rev i =>
      fold_left (fun rev d => upd d (fun l => l ++ [i]) rev) (eps_targets t eps i) rev)
    (seq 0 (nstates t)) (map (fun _ => []) (trans t)).
Definition ca_todo0 (ret : list (list nat)) : list nat :=
  fold_left (fun todo i => if (1 <? length (nth i ret []))%nat then sv_insert Nat.ltb i todo else todo)
    (seq 0 (length ret)) [].

(** transducer.cc:268-275: one element of the todo set. *)
Definition ca_visit (reversed : list (list nat)) (st : list (list nat) * list nat) (it : nat)
  : list (list nat) * list nat :=
  let '(ret, new_todo) := st in
  let temp := nth it ret [] in
  let ret := fold_left (fun ret it2 => upd it (sv_union (nth it2 ret [])) ret) temp ret in
  let new_todo :=
    if (length temp <? length (nth it ret []))%nat
    then sv_union (nth it reversed []) new_todo else new_todo in
  (ret, new_todo).

(** transducer.cc:266-277: one iteration of the while loop. *)
Definition ca_step (reversed : list (list nat)) (st : list (list nat) * list nat)
  : (list (list nat) * list nat) + list (list nat) :=
  let '(ret, todo) := st in
  match todo with
  | [] => inr ret
  | _ => inl (fold_left (ca_visit reversed) todo (ret, []))
  end.

(** transducer.cc:246-279 [closure_all]. *)
Definition closure_all (t : transducer) (eps : Z) : outcome (list (list nat)) :=
  let ret := ca_ret0 t eps in
  match iter2 (ca_step (ca_reversed t eps)) (2 * nstates t + 2) (ret, ca_todo0 ret) with
  | inr r => Ok r
  | inl _ => NoFuel
  end.

(** * Determinisation *)

(** std::map<std::pair<int,double>, sorted_vector<int>>: by increasing (tag, weight). *)
Definition key_ltb (a b : Z * Z) : bool :=
  (fst a <? fst b) || ((fst a =? fst b) && (snd a <? snd b)).
Definition key_eqb (a b : Z * Z) : bool := (fst a =? fst b) && (snd a =? snd b).

Fixpoint mymap_insert (k : Z * Z) (range : list nat) (m : list ((Z * Z) * list nat))
  : list ((Z * Z) * list nat) :=
  match m with
  | [] => [(k, sv_union range [])]
  | (k', s) :: r =>
      if key_eqb k k' then (k', sv_union range s) :: r
      else if key_ltb k k' then (k, sv_union range []) :: m
      else (k', s) :: mymap_insert k range r
  end.

(** transducer.cc:354-364: the successor sets of a set of states. *)
Definition det_moves (t : transducer) (eps : Z) (closures : list (list nat)) (q : list nat)
  : list ((Z * Z) * list nat) :=
  fold_left (fun m s =>
      fold_left (fun m a =>
          if negb (a_tag a =? eps) || negb (a_wt a =? 0)
          then mymap_insert (a_tag a, a_wt a) (nth (a_dst a) closures []) m
          else m) (arcs_of t s) m) q [].

(** The position of a set in [Q_prime]; stands for the map [Q_prime_inv]. *)
Fixpoint find_set (q : list nat) (qs : list (list nat)) : option nat :=
  match qs with
  | [] => None
  | x :: r =>
      if list_eq_dec Nat.eq_dec q x then Some 0%nat
      else match find_set q r with Some i => Some (S i) | None => None end
  end.

(** What the loops of determinize change: [Q_prime], [transitions_prime],
    [finals_prime] and the next round's R. *)
Record detst := mkDet {
  d_sets : list (list nat);
  d_trans : list (list arc);
  d_finals : list (nat * Z);
  d_next : list nat
}.

(** transducer.cc:368-381: one successor set of state [it]. *)
Definition det_succ (it : nat) (d : detst) (e : (Z * Z) * list nat) : detst :=
  let '(tag_, w, q) := (fst (fst e), snd (fst e), snd e) in
  match find_set q (d_sets d) with
  | None =>
      let n := length (d_sets d) in
      mkDet (d_sets d ++ [q])
        (upd it (mm_insert (tag_, (n, w))) (d_trans d ++ [[]]))
        (d_finals d) (sv_insert Nat.ltb n (d_next d))
  | Some n =>
      mkDet (d_sets d) (upd it (mm_insert (tag_, (n, w))) (d_trans d)) (d_finals d) (d_next d)
  end.

(** transducer.cc:341-382: one state of the current round.  Note that the weight is
    looked up under the number of the new state (line 347). *)
Definition det_visit (t : transducer) (eps : Z) (closures : list (list nat)) (fs : list nat)
    (d : detst) (it : nat) : detst :=
  let q := nth it (d_sets d) [] in
  let fin :=
    if sv_intersects Nat.ltb Nat.eqb q fs
    then fin_insert it (match fin_find it (finals t) with Some w => w | None => 0 end) (d_finals d)
    else d_finals d in
  fold_left (det_succ it) (det_moves t eps closures q)
    (mkDet (d_sets d) (d_trans d) fin (d_next d)).

(** transducer.cc:336-385: one iteration of the while loop; the state carries
    size_Q_prime and the current R. *)
Definition det_round (t : transducer) (eps : Z) (closures : list (list nat)) (fs : list nat)
    (st : nat * detst) : (nat * detst) + detst :=
  let '(size, d) := st in
  if (size =? length (d_sets d))%nat then inr d
  else
    let r := d_next d in
    inl (length (d_sets d),
         fold_left (det_visit t eps closures fs) r
           (mkDet (d_sets d) (d_trans d) (d_finals d) [])).

(** transducer.cc:303-393 [determinize].  The number of rounds is at most the number
    of sets of states plus one; the fuel covers 2^(n+1). *)
Definition determinize (eps : Z) (t : transducer) : outcome transducer :=
  let! closures := closure_all t eps in
  let fs := fold_left (fun l f => sv_insert Nat.ltb (fst f) l) (finals t) [] in
  let fin0 := if isFinal t (initial t) then [(0%nat, 0)] else [] in
  let d0 := mkDet [nth (initial t) closures []] [[]] fin0 [0%nat] in
  match iter2 (det_round t eps closures fs) (nstates t + 1) (0%nat, d0) with
  | inr d => Ok (mkT 0 (d_finals d) (d_trans d))
  | inl _ => NoFuel
  end.

(** * Reversal *)

(** transducer.cc:690-712: one state, from the last to the first.  [tr] is
    [transitions], [tmp] is [tmp_transitions]. *)
Definition rev_visit (st : list (list arc) * list (list arc)) (i : nat)
  : list (list arc) * list (list arc) :=
  let '(tr, tmp) := st in
  let aux := nth i tr [] in
  let tr := upd i (fun _ => []) tr in
  let '(tr, tmp) :=
    fold_left (fun '(tr, tmp) a =>
        let b := (a_tag a, (i, a_wt a)) in
        if (i <=? a_dst a)%nat then (upd (a_dst a) (mm_insert b) tr, tmp)
        else (tr, upd (a_dst a) (mm_insert b) tmp)) aux (tr, tmp) in
  let tr := upd i (fun l => fold_left (fun l b => mm_insert b l) (nth i tmp []) l) tr in
  (tr, upd i (fun _ => []) tmp).

(** transducer.cc:683-726 [reverse].  The loop at 714-721 is for targets that are not
    states and does nothing here. *)
Definition reverse (eps : Z) (t : transducer) : outcome transducer :=
  let! t := joinFinals eps t in
  let '(tr, _) := fold_left rev_visit (rev (seq 0 (nstates t)))
                    (trans t, map (fun _ => []) (trans t)) in
  match finals t with
  | (f, _) :: _ => Ok (mkT f [(initial t, 0)] tr)
  | [] => UB
  end.

(** transducer.cc:396-404 [minimize]. *)
Definition minimize (eps : Z) (t : transducer) : outcome transducer :=
  match finals t with
  | [] => Ok t
  | _ =>
      let! t := reverse eps t in
      let! t := determinize eps t in
      let! t := reverse eps t in
      determinize eps t
  end.
