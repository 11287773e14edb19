(** The case of words (lttoolbox/string_utils.cc:173-265).  Definitions only.

    ICU is given by parameters: u_isupper, and what u_strToLower, u_strToUpper and u_strToTitle
    make of a string when there is room for it. *)
From Verif Require Import Base StringModel.

Section Case.
  Context (u_isupper : Z -> bool) (lower upper title : list Z -> list Z).
  (** 173-213 [tolower], [toupper], [totitle]: there is room for twice the units; if that is not
      enough the error code is U_BUFFER_OVERFLOW_ERROR and the program ends *)
  Definition in_buffer (f : list Z -> list Z) (str : list Z) : outcome (list Z) :=
    if (length (f str) <=? length str * 2)%nat then Ok (f str) else Exit.
  Definition su_tolower : list Z -> outcome (list Z) := in_buffer lower.
  Definition su_toupper : list Z -> outcome (list Z) := in_buffer upper.
  Definition su_totitle : list Z -> outcome (list Z) := in_buffer title.

  (** 215-237 [getcase] *)
  Definition getcase (str : list Z) : outcome (list Z) :=
    match str with
    | [] => Ok [97; 97]
    | _ =>
        let l := length str in
        let! (c, i) := u16_next str 0 l in
        if u_isupper c then
          if (i <? l)%nat then
            let! l := u16_back str i l in
            let! c := u16_get str 0 l (length str) in
            Ok [65; if u_isupper c then 65 else 97]
          else Ok [65; 97]
        else Ok [97; 97]
    end.

  (** 239-265 [copycase] *)
  Definition copycase (source target : list Z) : outcome (list Z) :=
    match source, target with
    | [], _ | _, [] => Ok target
    | _, _ =>
        let l := length source in
        let! (c, i) := u16_next source 0 l in
        let firstupper := u_isupper c in
        let! uppercase :=
          if firstupper then
            if negb (i =? l)%nat then
              let! l := u16_back source i l in
              let! c := u16_get source 0 l (length source) in
              Ok (u_isupper c)
            else Ok false
          else Ok false in
        if firstupper then if uppercase then su_toupper target else su_totitle target
        else su_tolower target
    end.
End Case.
