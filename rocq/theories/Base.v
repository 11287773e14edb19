(** Shared definitions: bytes, outcomes, arithmetic helpers.
    Nothing in this file models lttoolbox code. *)
From Coq Require Export ZArith List Bool Lia.
From Coq Require Export ZifyBool ZifyNat ZifyN.
Export ListNotations.
Open Scope Z_scope.

Ltac Zify.zify_post_hook ::= Z.div_mod_to_equations.

(** Outcome of a C++ computation.  [Exit] is [exit(EXIT_FAILURE)], [Throw] an
    exception escaping the modelled function, [UB] undefined behaviour, [NoFuel]
    an exhausted model fuel (never a behaviour of the code; theorems exclude it). *)
Inductive outcome (A : Type) : Type :=
| Ok (a : A)
| Exit
| Throw
| UB
| NoFuel.
Arguments Ok {A} a.
Arguments Exit {A}.
Arguments Throw {A}.
Arguments UB {A}.
Arguments NoFuel {A}.

Definition obind {A B} (x : outcome A) (f : A -> outcome B) : outcome B :=
  match x with
  | Ok a => f a
  | Exit => Exit
  | Throw => Throw
  | UB => UB
  | NoFuel => NoFuel
  end.

Notation "'let!' x ':=' e 'in' k" := (obind e (fun x => k))
  (at level 200, x pattern, e at level 100, k at level 200, right associativity).

(** A byte is an integer between 0 and 255. *)
Definition is_byte (b : Z) : Prop := 0 <= b < 256.
Definition bytes (l : list Z) : Prop := Forall is_byte l.

Lemma lor_add_low : forall k a b, 0 <= k -> 0 <= a < 2 ^ k ->
  Z.lor (b * 2 ^ k) a = b * 2 ^ k + a.
Proof.
  intros k a b Hk Ha.
  symmetry.
  rewrite <- Z.lxor_lor, <- Z.add_nocarry_lxor; auto.
  all: apply Z.bits_inj'; intros n Hn; rewrite Z.land_spec, Z.bits_0.
  all: destruct (Z.lt_ge_cases n k) as [H|H];
    [ rewrite Z.mul_pow2_bits_low by lia; reflexivity
    | replace (Z.testbit a n) with false; [apply andb_false_r|] ].
  all: symmetry; destruct (Z.eq_dec a 0) as [->|Hz]; [apply Z.bits_0|];
    apply Z.bits_above_log2; [lia|]; assert (Z.log2 a < k) by (apply Z.log2_lt_pow2; lia); lia.
Qed.

Lemma land_ones_mod : forall a k, 0 <= k -> Z.land a (2 ^ k - 1) = a mod 2 ^ k.
Proof.
  intros a k Hk. rewrite <- Z.land_ones by lia. f_equal. rewrite Z.ones_equiv. lia.
Qed.
