(** What biltransWithQueue should answer (C72), in terms of the symbols of the word and the
    words of the dictionary. *)
From Verif Require Import Base AlphabetModel StateModel StateSpec FinalsModel FinalsProps BufferModel InputModel StreamModel ProcessorModel
  CompoundProps AnalysisSpec.
From Coq Require Import Sorted.

Section Spec.
  Context (P : processor) (cs : bool).
  (** [res] are the translations of [w]: distinct, cheapest first, each the text of a path that
      accepts it, and all of them unless the limits on their number cut some off. *)
  Definition translated_as (w : list Z) (upper firstupper : bool) (res : list ustr) : Prop :=
    exists rep : list (ustr * Z),
      res = map (fun x => fst x ++ if p_weights P then weight_text (snd x) else []) rep
      /\ rep <> [] /\ NoDup (map fst rep) /\ StronglySorted by_weight rep
      /\ (forall t c, In (t, c) rep -> exists l d s q,
            reading (p_isupper P) (p_tolower P) cs w l d /\ rpath (p_find P) (p_root P) l s q
            /\ reports (p_toupper P) (all_finals P) (p_alpha P) is_escaped upper firstupper 0 (mkV q s d) t c)
      /\ (exists st : list (vns (W:=Z)),
            (forall q s d, In (mkV q s d) st <-> exists l,
               reading (p_isupper P) (p_tolower P) cs w l d /\ rpath (p_find P) (p_root P) l s q)
            /\ (Z.of_nat (length st) <= p_maxAnalyses P -> Z.of_nat (length st) <= p_maxClasses P ->
                forall x, In x st -> final_weight (v_where x) (all_finals P) <> None ->
                exists t c least,
                  reports (p_toupper P) (all_finals P) (p_alpha P) is_escaped upper firstupper 0 x t c
                  /\ In (t, least) rep /\ least <= c)).

  (** The word: its symbols as text and as codes *)
  Context (text : list ustr) (codes : list Z).
  Definition tagged : Prop := exists p, In p text /\ length p <> 1%nat.
  (** The first [k] symbols are the longest beginning that the dictionary accepts; it can read
      the first [m] and no more. *)
  Definition last_entry (k : nat) : Prop :=
    (0 < k <= length codes)%nat /\ accepting P cs (all_finals P) (firstn k codes)
    /\ forall j, (k < j <= length codes)%nat -> ~ accepting P cs (all_finals P) (firstn j codes).
  Definition last_read (m : nat) : Prop :=
    (m <= length codes)%nat /\ living P cs (firstn m codes) /\ forall j, (m < j <= length codes)%nat -> ~ living P cs (firstn j codes).
  Fixpoint slashed (l : list ustr) : ustr :=
    match l with [] => [] | [x] => x | x :: r => x ++ 47 :: slashed r end.

  (** The answer between [open] with the mark and [close]; [unknown] is the answer for a word
      that is not known.  A word without tags is only translated as a whole. *)
  Context (upper firstupper : bool) (open close unknown : ustr).
  Inductive queue_answer : ustr * Z -> Prop :=
  | qa_found k m res : last_entry k -> last_read m -> tagged \/ k = length codes -> translated_as (firstn k codes) upper firstupper res ->
      queue_answer (open ++ slashed (map (fun t => t ++ concat (skipn m text)) res) ++ close, Z.of_nat (length (concat (skipn m text))))
  | qa_part k : last_entry k -> (k < length codes)%nat -> ~ tagged -> queue_answer (unknown, 0)
  | qa_unknown m : (forall k, ~ last_entry k) -> last_read m -> (m < length codes)%nat \/ ~ tagged -> queue_answer (unknown, 0)
  | qa_nothing : (forall k, ~ last_entry k) -> living P cs codes -> tagged -> queue_answer (open ++ close, 0).
End Spec.
