(** Listing a dictionary: the XML part of lttoolbox/expander.cc (35-324, 379-570), as
    DixModel.v is for compiler.cc.  Definitions only.

    A document is again the list of nodes the reader stops at.  Most reads of the expander do
    not look at the reader's result: what the reader then says about a node after the last one
    is not modelled if it failed, and the outcome is [UB]; at the end of the document the name
    is "".  What is done with the elements of an entry is in ExpanderModel.v. *)
From Verif Require Import Base AlphabetModel StringModel ExpanderModel DixModel.

Section Listing.
(** The options of lt-expand, ICU's u_isspace, and whether the reader fails after the last node *)
Context (o : options) (isspace : Z -> bool) (fails : bool).

(** A read whose result is not looked at *)
Definition after_end {A} : outcome A := if fails then UB else Exit.
(** xml_parse_util.cc:98-104 [allBlanks] *)
Definition xAllBlanks (n : xnode) : bool := forallb isspace (readValue n).
(** expander.cc:72-80 [requireEmptyError] *)
Definition xRequireEmpty (n : xnode) : outcome unit := if x_empty n then Ok tt else Exit.
(** 88-157 [readString]; the cases are those of ExpanderModel.readString *)
Definition xPiece (n : xnode) : outcome piece :=
  if named n_text n then Ok (PText (readValue n))
  else if named n_b n then let! _ := xRequireEmpty n in Ok PBlank
  else if named n_m n then let! _ := xRequireEmpty n in Ok PMorph
  else if named n_j n then let! _ := xRequireEmpty n in Ok PJoin
  else if named n_a n then let! _ := xRequireEmpty n in Ok PPost
  else if named n_g n then Ok (if x_end n then PGroupEnd else PGroup)
  else if named n_s n then let! _ := xRequireEmpty n in Ok (PSym (attrib a_n n))
  else if named n_d n then Ok PWord
  else if named n_w n then Ok PAnyChar
  else if named n_t n then Ok PAnyTag
  else Exit.
(** The loops of procIdentity 205-227, procIdentityGroup 229-256 and procTransduction 258-302:
    nodes are read up to one named [stop] *)
Fixpoint xReadSide (stop : ustr) (ns : list xnode) : outcome (ustr * list xnode) :=
  match ns with
  | [] => after_end
  | n :: r =>
      if named stop n then Ok ([], r)
      else
        let! p := xPiece n in
        let! s := ExpanderModel.readString (o_keep o) p in
        let! (t, r) := xReadSide stop r in
        Ok (s ++ t, r)
  end.
Definition xSide (stop : ustr) (n : xnode) (ns : list xnode) : outcome (ustr * list xnode) :=
  if x_empty n then Ok ([], ns) else xReadSide stop ns.
(** 176-203 [skip]: at most one text is passed over *)
Definition xSkip (elem : ustr) (ns : list xnode) : outcome (xnode * list xnode) :=
  match ns with
  | [] => after_end
  | n :: r =>
      let! (n, r) :=
        if named n_text n then
          if xAllBlanks n then match r with [] => after_end | n :: r => Ok (n, r) end else Exit
        else Ok (n, r) in
      if named elem n then Ok (n, r) else Exit
  end.
(** 258-302 [procTransduction] *)
Definition xTransduction (ns : list xnode) : outcome (ustr * ustr * list xnode) :=
  let! (n, r) := xSkip n_l ns in
  let! (lhs, r) := xSide n_l n r in
  let! (n, r) := xSkip n_r r in
  let! (rhs, r) := xSide n_r n r in
  let! (_, r) := xSkip n_p r in
  Ok (lhs, rhs, r).
(** 572-595 [procRegexp]: the value of the next node, whatever it is; one more is read *)
Definition xRegexp (ns : list xnode) : outcome (ustr * list xnode) :=
  match ns with
  | n :: r => Ok (ExpanderModel.procRegexp false (readValue n), match r with _ :: r => r | [] => [] end)
  | [] => after_end
  end.

(** 379-389, 499-504: the rounds of the loop up to the next node that is no comment and no
    blank text; 159-173 [skipBlanks] *)
Fixpoint xNext (ns : list xnode) : outcome (xnode * list xnode) :=
  match ns with
  | [] => Exit
  | n :: r =>
      if named n_text n then
        if xAllBlanks n then match r with [] => after_end | _ => xNext r end else Exit
      else if named n_comment n then xNext r
      else Ok (n, r)
  end.
(** 379-514; the result is None if a paradigm has nothing for the entry *)
Fixpoint xEntryLoop (fuel : nat) (ps : paradigms) (a : attributes) (x : lists) (ns : list xnode)
  : outcome (option lists * list xnode) :=
  match fuel with
  | O => NoFuel
  | S fuel =>
      let! (n, r) := xNext ns in
      if named n_p n then
        let! (p, r) := xTransduction r in
        xEntryLoop fuel ps a (append_all x p) r
      else if named n_i n then
        let! (val, r) := xSide n_i n r in
        xEntryLoop fuel ps a (append_all x (val, val)) r
      else if named n_ig n then
        let! (val, r) := xSide n_ig n r in
        xEntryLoop fuel ps a (append_all x (val, 35 :: val)) r
      else if named n_re n then
        let! (val, r) := xRegexp r in
        xEntryLoop fuel ps a (append_all x (regexp_mark ++ val, regexp_mark ++ val)) r
      else if named n_par n then
        match par_find (attrib a_n n) ps with
        | None => Exit
        | Some p =>
            match append_par a p x with
            | None => let! (_, r) := xSkip n_e r in Ok (None, r)
            | Some x => xEntryLoop fuel ps a x r
            end
        end
      else if named n_e n && x_end n then Ok (Some x, r)
      else Exit
  end.
(** 345-357: nodes are skipped up to one named e *)
Fixpoint xSkipEntry (ns : list xnode) : outcome (list xnode) :=
  match ns with
  | [] => Exit
  | n :: r => if named n_e n then Ok r else xSkipEntry r
  end.
(** 326-515 [procEntry] at node [n]: what is printed, the paradigms, the nodes left *)
Definition xEntry (e : expander) (n : xnode) (ns : list xnode) : outcome (ustr * expander * list xnode) :=
  let a := attributes_of n in
  if skipped o a then let! r := xSkipEntry ns in Ok ([], e, r)
  else
    let! (x, r) := xEntryLoop (S (length ns)) (e_pars e) a (start_lists o a) ns in
    match x with
    | None => Ok ([], e, r)
    | Some x =>
        match e_current e with
        | [] => Ok (print_lists x, e, r)
        | c => Ok ([], mkE c (par_add c x (e_pars e)), r)
        end
    end.
(** 517-570 [procNode], 57-70 [procParDef] *)
Definition xNode (e : expander) (n : xnode) (ns : list xnode) : outcome (ustr * expander * list xnode) :=
  if named n_pardef n then Ok ([], mkE (if x_end n then [] else attrib a_n n) (e_pars e), ns)
  else if named n_e n then xEntry e n ns
  else if existsb (fun x => named x n) [n_text; n_dictionary; n_alphabet; n_sdefs; n_sdef; n_pardefs; n_section; n_comment]
  then Ok ([], e, ns)
  else Exit.
(** 35-55 [expand]; an error of the reader is reported and nothing else *)
Fixpoint xNodes (fuel : nat) (e : expander) (ns : list xnode) : outcome (ustr * expander) :=
  match ns with
  | [] => Ok ([], e)
  | n :: r =>
      match fuel with
      | O => NoFuel
      | S fuel =>
          let! (out, e, r) := xNode e n r in
          let! (more, e) := xNodes fuel e r in
          Ok (out ++ more, e)
      end
  end.
Definition lt_expand (ns : list xnode) : outcome ustr :=
  let! (out, _) := xNodes (length ns) (mkE [] []) ns in Ok out.
End Listing.
