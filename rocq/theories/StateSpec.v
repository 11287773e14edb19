(** What the State object is expected to do, with analyses as plain values: no cells, no
    pool, no sharing.  Nothing here uses the heap. *)
From Verif Require Import Base StateModel.

Section StateSpec.
  Context {W : Type}.
  Context (find : nat -> Z -> list (Z * (nat * W))).

  (** A live analysis: the node reached, the output so far, whether a case alternative or
      other alternative was used. *)
  Record vns := mkV { v_where : nat; v_seq : list (Z * W); v_dirty : bool }.

  (** Paths through the graph that read exactly [l] (input-epsilon arcs read nothing) and
      write [s]: a consumed symbol always contributes one output entry; an epsilon arc
      contributes one unless its output is epsilon too. *)
  Inductive rpath : nat -> list Z -> list (Z * W) -> nat -> Prop :=
  | rp_nil : forall p, rpath p [] [] p
  | rp_eps : forall p o q w l s r,
      In (o, (q, w)) (find p 0) -> rpath q l s r ->
      rpath p l ((if o =? 0 then [] else [(o, w)]) ++ s) r
  | rp_sym : forall p i o q w l s r,
      i <> 0 -> In (o, (q, w)) (find p i) -> rpath q l s r ->
      rpath p (i :: l) ((o, w) :: s) r.

  (** The same for steps that offer a choice of symbols depending on the node: each step is
      [None] (nothing survives) or a replacement of output symbols together with the
      alternatives at each node; [b] tells whether a dirty alternative was taken. *)
  Definition choice : Type := option ((Z -> Z) * (nat -> list (Z * bool))).
  Inductive cpath : nat -> list choice -> list (Z * W) -> bool -> nat -> Prop :=
  | cp_nil : forall p, cpath p [] [] false p
  | cp_eps : forall p o q w l s b r,
      In (o, (q, w)) (find p 0) -> cpath q l s b r ->
      cpath p l ((if o =? 0 then [] else [(o, w)]) ++ s) b r
  | cp_sym : forall p ov opts i d o q w l s b r,
      In (i, d) (opts p) -> In (o, (q, w)) (find p i) -> cpath q l s b r ->
      cpath p (Some (ov, opts) :: l) ((if i =? 0 then [] else [(ov o, w)]) ++ s) (d || b) r.

  (** The epsilon moves of one analysis, and their reflexive-transitive closure. *)
  Definition eps_move (s s' : vns) : Prop :=
    exists o q w, In (o, (q, w)) (find (v_where s) 0) /\
      s' = mkV q (v_seq s ++ (if o =? 0 then [] else [(o, w)])) (v_dirty s).
  Inductive eps_moves : vns -> vns -> Prop :=
  | em_refl : forall s, eps_moves s s
  | em_step : forall s s' s'', eps_moves s s' -> eps_move s' s'' -> eps_moves s s''.

  (** No cycles of input-epsilon arcs. *)
  Definition eps_acyclic : Prop :=
    exists rank : nat -> nat, forall p o q w, In (o, (q, w)) (find p 0) -> (rank q < rank p)%nat.

  (** The choices a step offers. *)
  Context (u_isupper : Z -> bool) (u_tolower : Z -> Z).
  Definition alternatives (l : list (Z * bool)) : choice :=
    if existsb (fun x => fst x =? 0) l then None else Some (same, fun _ => l).
  Definition overriding (old_sym new_sym : Z) (l : list (Z * bool)) : choice :=
    Some (override old_sym new_sym, fun _ => l).
  Definition one (i : Z) : choice := alternatives [(i, false)].
  Definition two (i a : Z) : choice :=
    alternatives ((i, false) :: if i =? a then [] else [(a, true)]).
  Definition three (i a b : Z) : choice :=
    if (a =? 0) || (b =? 0) then None
    else if i =? a then two i b else if i =? b then two i a
    else alternatives [(i, false); (a, true); (b, true)].
  Definition over3 (i x y : Z) : choice :=
    if (i =? 0) || (x =? 0) then None else overriding x y [(i, false); (x, true)].
  Definition over4 (i a x y : Z) : choice :=
    if i =? a then over3 i x y
    else if (i =? 0) || (x =? 0) then None else overriding x y [(i, false); (a, true); (x, true)].
  Definition choice_of (op : @sop W) : option choice :=
    match op with
    | SStep i => Some (one i)
    | SStep2 i a => Some (two i a)
    | SStep3 i a b => Some (three i a b)
    | SStepSet i l =>
        Some (if existsb (Z.eqb 0) l then None
              else alternatives ((i, false)
                     :: map (fun a => (a, true)) (filter (fun a => negb (a =? i)) l)))
    | SStepCareful i a =>
        Some (if (i =? 0) || (a =? 0) then None
              else Some (same, fun p => match find p i with [] => [(a, true)] | _ => [(i, false)] end))
    | SOverride3 i x y => Some (over3 i x y)
    | SOverride4 i a x y => Some (over4 i a x y)
    | SCase v cs => Some (if u_isupper v && negb cs then two v (u_tolower v) else one v)
    | SCase2 v v2 cs =>
        Some (if u_isupper v && negb cs && negb (v =? u_tolower v) then three v (u_tolower v) v2
              else two v v2)
    | SCaseOverride v cs =>
        Some (if u_isupper v && negb cs then over4 v (u_tolower v) (u_tolower v) v else one v)
    | _ => None
    end.

  (** The same operations on lists of values. *)
  Definition v_into (ov : Z -> Z) (i : Z) (s : vns) (d : bool) : list vns :=
    map (fun x : Z * (nat * W) =>
           mkV (fst (snd x)) (v_seq s ++ if i =? 0 then [] else [(ov (fst x), snd (snd x))])
               (v_dirty s || d))
        (find (v_where s) i).
  Definition v_choose (c : choice) (st : list vns) : list vns :=
    match c with
    | None => []
    | Some (ov, opts) =>
        flat_map (fun s => flat_map (fun x => v_into ov (fst x) s (snd x)) (opts (v_where s))) st
    end.
  Definition v_eps (s : vns) : list vns :=
    map (fun x : Z * (nat * W) =>
           mkV (fst (snd x)) (v_seq s ++ if fst x =? 0 then [] else [(fst x, snd (snd x))])
               (v_dirty s))
        (find (v_where s) 0).
  (** Visit a growing list, appending what [f] gives for each element. *)
  Fixpoint v_grow (fuel : nat) (f : vns -> list vns) (i : nat) (st : list vns)
    : outcome (list vns) :=
    match nth_error st i with
    | None => Ok st
    | Some s => match fuel with O => NoFuel | S fuel => v_grow fuel f (S i) (st ++ f s) end
    end.
  Definition v_closure (fuel : nat) (i : nat) (st : list vns) : outcome (list vns) :=
    v_grow fuel v_eps i st.
  Definition v_restart (required sep : Z) (w0 : W) (final : nat -> bool) (rs : list vns) (s : vns)
    : list vns :=
    if final (v_where s) && lastPartHasRequiredSymbol (v_seq s) required sep
    then map (fun r => mkV (v_where r) (v_seq s ++ [(sep, w0)]) (v_dirty s)) rs else [].
  Definition v_prune_compounds (required sep maxel : Z) (st : list vns) : list vns :=
    filter (fun s => negb (min_elements required sep maxel (map v_seq st)
                             <? compound_elements required sep (v_seq s))) st.
  Definition v_prune_forbidden (forbidden : Z) (st : list vns) : list vns :=
    filter (fun s => negb (existsb (fun x => fst x =? forbidden) (v_seq s))) st.

  Definition v_exec (fuel : nat) (vs : list (list vns)) (k : nat) (op : sop)
    : outcome (list (list vns)) :=
    if negb (k <? length vs)%nat then Ok vs
    else
      let st := nth k vs [] in
      let other j (f : list vns -> outcome (list vns)) :=
        if negb (j <? length vs)%nat || (j =? k)%nat then Ok st else f (nth j vs []) in
      let! st :=
        match op with
        | SInit n => v_closure fuel 0 [mkV n [] false]
        | SOptional v =>
            if v =? 0 then Ok st
            else let! l := v_closure fuel 0 (flat_map (fun s => v_into same v s false) st) in
                 Ok (st ++ l)
        | SPruneCompounds r s m => Ok (v_prune_compounds r s m st)
        | SPruneForbidden f => Ok (v_prune_forbidden f st)
        | SRestart fin r j s w0 => other j (fun rs => v_grow fuel (v_restart r s w0 fin rs) 0 st)
        | SMerge j => other j (fun x => Ok (st ++ x))
        | SAssign j => other j (fun x => Ok x)
        | SDestroy => Ok []
        | op => match choice_of op with
                | Some c => v_closure fuel 0 (v_choose c st)
                | None => Ok st
                end
        end in
      Ok (put_nth k st vs).
  Fixpoint v_exec_all (fuel : nat) (vs : list (list vns)) (ops : list (nat * sop))
    : outcome (list (list vns)) :=
    match ops with
    | [] => Ok vs
    | (k, op) :: r => let! vs := v_exec fuel vs k op in v_exec_all fuel vs r
    end.
End StateSpec.

(** The value seen through a pointer. *)
Definition cell {W} (h : heap (W:=W)) (p : ptr) : list (Z * W) :=
  match nth_error h p with Some (Some v) => v | _ => [] end.
Definition view {W} (h : heap (W:=W)) (st : list tns) : list (vns (W:=W)) :=
  map (fun s => mkV (t_where s) (cell h (t_seq s)) (t_dirty s)) st.
Definition views {W} (w : world (W:=W)) : list (list (vns (W:=W))) :=
  map (fun o => view (w_heap w) (so_state o)) (w_objs w).
