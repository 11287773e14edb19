(** Property C46: sorted_vector is a mathematical set. *)
From Verif Require Import Base SortedVectorModel SortedVectorProofs.

(** The specification: each call as an operation on a predicate. *)
Definition set_op {A} (S : A -> Prop) (o : svop) : A -> Prop :=
  match o with
  | SvInsert t => fun x => x = t \/ S x
  | SvInsertRange r => fun x => S x \/ In x r
  | SvErase t => fun x => S x /\ x <> t
  | SvEraseRange r => fun x => S x /\ ~ In x r
  | SvClear => fun _ => False
  end.

Definition contents {A} (ltb eqb : A -> A -> bool) (ops : list svop) : list A :=
  fold_left (sv_run ltb eqb) ops [].
Definition set_after {A} (ops : list (@svop A)) : A -> Prop :=
  fold_left set_op ops (fun _ => False).

Lemma run_refines : forall {A} (ltb eqb : A -> A -> bool), strict_total ltb eqb ->
  forall ops l (S : A -> Prop), ssorted ltb l -> (forall x, In x l <-> S x) ->
  ssorted ltb (fold_left (sv_run ltb eqb) ops l)
  /\ forall x, In x (fold_left (sv_run ltb eqb) ops l) <-> fold_left set_op ops S x.
Proof.
  intros A ltb eqb ST. induction ops as [|o ops IH]; intros l S Hl HS; [auto|].
  cbn [fold_left]. apply IH.
  - destruct o; cbn [sv_run].
    + now apply (sv_insert_sorted ltb eqb).
    + now apply sv_insert_range_spec.
    + now apply (sv_erase_spec ltb eqb).
    + now apply (sv_erase_range_spec ltb eqb).
    + constructor.
  - intros x. destruct o; cbn [sv_run set_op].
    + rewrite (sv_insert_in ltb eqb) by assumption. now rewrite HS.
    + destruct (sv_insert_range_spec ltb eqb ST range l Hl) as [_ E]. rewrite E. now rewrite HS.
    + destruct (sv_erase_spec ltb eqb ST t l Hl) as (_ & E & _). rewrite E. now rewrite HS.
    + destruct (sv_erase_range_spec ltb eqb ST range l Hl) as (_ & E). rewrite E. now rewrite HS.
    + cbn. tauto.
Qed.

(** Over any history: strictly increasing, and exactly the elements of the set. *)
Theorem C46_contents : forall {A} (ltb eqb : A -> A -> bool), strict_total ltb eqb ->
  forall ops,
  StronglySorted (fun x y => ltb x y = true) (contents ltb eqb ops)
  /\ (forall x, In x (contents ltb eqb ops) <-> set_after ops x)
  /\ NoDup (contents ltb eqb ops).
Proof.
  intros A ltb eqb ST ops.
  destruct (run_refines ltb eqb ST ops [] (fun _ => False)) as [H1 H2]; [constructor|cbn; tauto|].
  split; [exact H1|]. split; [exact H2|]. exact (ssorted_NoDup ltb eqb ST _ H1).
Qed.

(** The queries answer as the set does. *)
Theorem C46_queries : forall {A} (ltb eqb : A -> A -> bool), strict_total ltb eqb ->
  forall ops t,
  let l := contents ltb eqb ops in
  (sv_count ltb t l = true <-> set_after ops t)
  /\ (set_after ops t -> nth_error l (sv_find ltb t l) = Some t)
  /\ (~ set_after ops t -> sv_find ltb t l = length l)
  /\ (snd (sv_erase ltb t l) = true <-> set_after ops t)
  /\ Forall (fun x => ltb x t = true) (firstn (lower_bound ltb t l) l)
  /\ Forall (fun x => ltb x t = false) (skipn (lower_bound ltb t l) l).
Proof.
  intros A ltb eqb ST ops t l. destruct (C46_contents ltb eqb ST ops) as (H1 & H2 & _).
  fold l in H1, H2. rewrite <- H2. destruct (sv_find_spec ltb eqb ST t l H1) as [F1 F2].
  destruct (lower_bound_split ltb eqb ST t l H1) as [L1 L2].
  repeat split; auto; try (apply (sv_count_spec ltb eqb ST t l H1));
    apply (sv_erase_spec ltb eqb ST t l H1).
Qed.

Theorem C46_intersects : forall {A} (ltb eqb : A -> A -> bool), strict_total ltb eqb ->
  forall ops1 ops2,
  sv_intersects ltb eqb (contents ltb eqb ops1) (contents ltb eqb ops2) = true
  <-> exists x, set_after ops1 x /\ set_after ops2 x.
Proof.
  intros A ltb eqb ST ops1 ops2. destruct (C46_contents ltb eqb ST ops1) as (H1 & E1 & _).
  destruct (C46_contents ltb eqb ST ops2) as (H2 & E2 & _).
  rewrite (sv_intersects_spec ltb eqb ST _ _ H1 H2). split; intros (x & G1 & G2); exists x;
    rewrite ?E1, ?E2 in *; auto.
Qed.

(** Equal sets are equal containers, so containers can be compared and used as keys. *)
Theorem C46_canonical : forall {A} (ltb eqb : A -> A -> bool), strict_total ltb eqb ->
  forall ops1 ops2, (forall x, set_after ops1 x <-> set_after ops2 x) ->
  contents ltb eqb ops1 = contents ltb eqb ops2.
Proof.
  intros A ltb eqb ST ops1 ops2 H. destruct (C46_contents ltb eqb ST ops1) as (H1 & E1 & _).
  destruct (C46_contents ltb eqb ST ops2) as (H2 & E2 & _).
  apply (ssorted_ext ltb eqb ST); auto. intros x. now rewrite E1, E2.
Qed.

(** Integers are such an order; duplicates, unsorted ranges and absent erasures. *)
Example C46_example : strict_total Z.ltb Z.eqb
  /\ contents Z.ltb Z.eqb
       [SvInsertRange [5; 1; 5; 3]; SvInsert 4; SvInsert 4; SvErase 9; SvErase 1;
        SvInsertRange [2; 2; 7]] = [2; 3; 4; 5; 7].
Proof. split; [exact Z_strict_total|reflexivity]. Qed.

(** Outside the histories above: assign from const iterators does not sort. *)
Theorem C46_assign_refuted : exists r : list Z, exists t,
  In t (sv_assign r []) /\ sv_count Z.ltb t (sv_assign r []) = false.
Proof. exists [2; 1], 1. cbn. auto. Qed.

Print Assumptions C46_contents.
Print Assumptions C46_queries.
Print Assumptions C46_intersects.
Print Assumptions C46_canonical.
Print Assumptions C46_assign_refuted.
