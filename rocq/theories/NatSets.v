(** Strictly increasing lists of natural numbers as sets. *)
From Coq Require Import Permutation Sorted.
From Verif Require Import Base SortedVectorModel SortedVectorProofs TransducerModel.

Definition nset (l : list nat) : Prop := ssorted Nat.ltb l.

Lemma nset_nil : nset [].
Proof. constructor. Qed.

Lemma nset_insert : forall x l, nset l -> nset (sv_insert Nat.ltb x l).
Proof. intros. now apply (sv_insert_sorted _ _ nat_strict_total). Qed.
Lemma in_nset_insert : forall x l y, nset l -> (In y (sv_insert Nat.ltb x l) <-> y = x \/ In y l).
Proof. intros. now apply (sv_insert_in _ _ nat_strict_total). Qed.
Lemma nset_union : forall r l, nset l -> nset (sv_union r l).
Proof. intros r l H. now apply (sv_insert_range_spec _ _ nat_strict_total). Qed.
Lemma in_nset_union : forall r l x, nset l -> (In x (sv_union r l) <-> In x l \/ In x r).
Proof. intros r l x H. now apply (sv_insert_range_spec _ _ nat_strict_total). Qed.
Lemma nset_ext : forall a b, nset a -> nset b -> (forall x, In x a <-> In x b) -> a = b.
Proof. intros. now apply (ssorted_ext _ _ nat_strict_total). Qed.
Lemma nset_NoDup : forall l, nset l -> NoDup l.
Proof. intros. now apply (ssorted_NoDup _ _ nat_strict_total). Qed.

Lemma nset_insert_length : forall x l, nset l -> ~ In x l ->
  length (sv_insert Nat.ltb x l) = S (length l).
Proof.
  intros x l H Hn. destruct (sv_insert_cases _ _ nat_strict_total x l H) as [[Hi _]|[_ E]];
    [contradiction|]. rewrite E. unfold insert_at. rewrite app_length. cbn [length].
  rewrite firstn_length, skipn_length. pose proof (lower_bound_le Nat.ltb x l). lia.
Qed.

Lemma nset_erase : forall x l, nset l -> nset (fst (sv_erase Nat.ltb x l)).
Proof. intros x l H. now apply (sv_erase_spec _ _ nat_strict_total). Qed.
Lemma in_nset_erase : forall x l y, nset l -> (In y (fst (sv_erase Nat.ltb x l)) <-> In y l /\ y <> x).
Proof. intros x l y H. now apply (sv_erase_spec _ _ nat_strict_total). Qed.

Lemma nset_erase_length : forall x l, nset l -> In x l ->
  S (length (fst (sv_erase Nat.ltb x l))) = length l.
Proof.
  intros x l H Hi. assert (He := nset_erase x l H).
  rewrite <- (nset_insert_length x) by (auto; rewrite in_nset_erase by exact H; tauto).
  f_equal. apply nset_ext; [now apply nset_insert|exact H|]. intros y.
  rewrite in_nset_insert, in_nset_erase by auto. destruct (Nat.eq_dec y x) as [->|]; tauto.
Qed.

Lemma nset_length_le : forall l n, nset l -> (forall x, In x l -> (x < n)%nat) -> (length l <= n)%nat.
Proof.
  intros l n H Hb. rewrite <- (seq_length n 0). apply NoDup_incl_length; [now apply nset_NoDup|].
  intros x Hx. apply in_seq. apply Hb in Hx. lia.
Qed.

Lemma nset_incl_length : forall a b, nset a -> incl a b -> (length a <= length b)%nat.
Proof. intros. apply NoDup_incl_length; [now apply nset_NoDup|assumption]. Qed.

Lemma nset_incl_eq : forall a b, nset a -> nset b -> incl a b -> (length b <= length a)%nat -> a = b.
Proof.
  intros a b Ha Hb Hi Hl. apply nset_ext; auto. intros x. split; [apply Hi|].
  apply NoDup_length_incl; auto. now apply nset_NoDup.
Qed.

Lemma set_mem_spec : forall x l, set_mem x l = true <-> In x l.
Proof.
  intros. unfold set_mem. rewrite existsb_exists. split.
  - intros (y & H & E). apply Nat.eqb_eq in E. now subst.
  - intros H. exists x. split; [exact H|apply Nat.eqb_refl].
Qed.

Lemma fold_insert_spec : forall l acc, nset acc ->
  nset (fold_left (fun c d => sv_insert Nat.ltb d c) l acc)
  /\ forall x, In x (fold_left (fun c d => sv_insert Nat.ltb d c) l acc) <-> In x acc \/ In x l.
Proof.
  induction l as [|d l IH]; intros acc H; cbn [fold_left].
  - split; [exact H|]. intros x. cbn. tauto.
  - destruct (IH (sv_insert Nat.ltb d acc)) as [H1 H2]; [now apply nset_insert|].
    split; [exact H1|]. intros x. rewrite H2, in_nset_insert by exact H. cbn. intuition.
Qed.
