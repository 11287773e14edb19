(** What looking a text up in the memory of a document should give (C78), in terms of the
    units of the document.  Nothing here uses a transducer, a file, a graph or an alphabet. *)
From Verif Require Import Base CompressionModel AlphabetModel StringModel InputModel InputProps StreamModel StreamProps CompoundProps AnalysisSpec DixSpec TmxSpec TmSpec.

Section Document.
  Context (isspace isdigit isupper : Z -> bool) (tolower : Z -> Z) (lo lm : ustr).
  (* the units: languages and texts of their variants *)
  Context (us : list (list (ustr * list Z))).

  (** The document has a unit with these sides (TmxSpec.v), and they are long enough. *)
  Definition entry (S T : list Z) : Prop :=
    exists u, In u us
      /\ unit_is (fun c => isspace c = true) (fun c => isdigit c = true) (in_language lo u) (in_language lm u) S T
      /\ (5 <= length S)%nat /\ (5 <= length T)%nat.
  (** A text with the symbols [w] is taken for [l]: capital letters can stand for small ones. *)
  Definition taken_for (w l : list Z) : Prop := exists d, reading isupper tolower false w l d.
  Definition begins_source (w : list Z) : Prop := exists S T l r, entry S T /\ S = l ++ r /\ taken_for w l.
  Definition is_source (w : list Z) : Prop := exists S T, entry S T /\ taken_for w S.
  (** A translation, special characters behind a backslash *)
  Inductive printed : list Z -> ustr -> Prop :=
  | pr_nil : printed [] []
  | pr_char c T t : ~ meta c -> printed T t -> printed (c :: T) (utf16 c ++ t)
  | pr_meta c T t : meta c -> printed T t -> printed (c :: T) ([92; c] ++ t).
  (** The translations of [w], one for each unit with a different source or translation *)
  Definition translations (w : list Z) (t : ustr) : Prop :=
    exists ps : list (list Z * list Z), NoDup ps
      /\ (forall S T, In (S, T) ps <-> entry S T /\ taken_for w S)
      /\ exists xs, Forall2 (fun p x => printed (snd p) x) ps xs /\ t = flat_map (fun x => 47 :: x) xs.
End Document.
