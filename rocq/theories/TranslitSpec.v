(** What transliteration and post-generation should do (C68), in terms of the words of a
    text and the runs of the dictionary over their symbols.  Nothing here uses the queues or
    the scanning of the processor. *)
From Verif Require Import Base AlphabetModel FinalsModel InputModel InputProps StreamProps ProcessorModel.

(** * What the dictionary does with a piece of text *)
Section Dictionary.
  Context (P : processor) (cs : bool).
  Notation find := (p_find P).

  (** An upper-case letter may be read as the lower-case one; where the dictionary then
      writes this lower-case letter, the letter read is written. *)
  Definition folds (c : Z) : Prop := cs = false /\ p_isupper P c = true.
  Definition writes (c o x : Z) : Prop :=
    (folds c /\ o = p_tolower P c /\ x = c) \/ (~ (folds c /\ o = p_tolower P c) /\ x = o).
  (** [reads p w s d q]: from [p] the dictionary reads [w], writes [s] and comes to [q]; [d]
      tells whether a letter was lowered. *)
  Inductive reads : nat -> list Z -> list (Z * Z) -> bool -> nat -> Prop :=
  | rd_nil p : reads p [] [] false p
  | rd_eps p o q w l s d r : In (o, (q, w)) (find p 0) -> reads q l s d r ->
      reads p l ((if o =? 0 then [] else [(o, w)]) ++ s) d r
  | rd_same p c o x q w l s d r : c <> 0 -> In (o, (q, w)) (find p c) -> writes c o x -> reads q l s d r ->
      reads p (c :: l) ((x, w) :: s) d r
  | rd_lower p c o x q w l s d r : c <> 0 -> folds c -> In (o, (q, w)) (find p (p_tolower P c)) ->
      writes c o x -> reads q l s d r ->
      reads p (c :: l) ((x, w) :: s) true r.
  (** ... to a final node, at a cost *)
  Definition accepts (w : list Z) (s : list (Z * Z)) (d : bool) (cost : Z) : Prop :=
    exists q fw, reads (p_root P) w s d q /\ final_weight q (all_finals P) = Some fw
    /\ cost = fw + fold_right Z.add 0 (map snd s).

  (** Letter case: from the first two letters of the piece *)
  Definition letter (c : Z) : bool := p_isalnum P c || existsb (Z.eqb c) (p_letters P).
  Definition starts_upper (w : list Z) : bool :=
    match filter letter w with c :: _ => p_isupper P c | [] => false end.
  Definition all_upper (w : list Z) : bool :=
    match filter letter w with c :: d :: _ => p_isupper P c && p_isupper P d | _ => false end.
  Definition up (c : Z) : Z := if 0 <? c then p_toupper P c else c.
  (** The first symbol in upper case, or the second if the first is the post-generation mark *)
  Definition capital (l : list Z) : list Z :=
    match l with
    | c :: r => if c =? 126 then c :: match r with d :: r => up d :: r | [] => [] end else up c :: r
    | [] => []
    end.
  Definition recased (upper first : bool) (l : list Z) : list Z :=
    let l := if upper then map up l else l in if first then capital l else l.
  (** [r] is what [w] is replaced by: a cheapest way. *)
  Definition translates (w r : list Z) : Prop :=
    exists s d cost, accepts w s d cost /\ (forall s' d' cost', accepts w s' d' cost' -> cost <= cost')
    /\ r = recased (d && all_upper w) (d && starts_upper w) (filter (fun c => negb (c =? 0)) (map fst s)).
  Definition unknown (w : list Z) : Prop := forall s d cost, ~ accepts w s d cost.
End Dictionary.

(** * Usable dictionaries *)
(** A character of the BMP *)
Definition plain_char (c : Z) : Prop := 0 < c < 65536 /\ ~ 55296 <= c <= 57343.
(** A tag with its name *)
Definition named_tag (P : processor) (c : Z) : Prop :=
  exists b, c < 0 /\ nth_error (slexicinv (p_alpha P)) (Z.to_nat (- c - 1)) = Some (60 :: b ++ [62]) /\ ~ In 62 b
  /\ map_find ustr_eq_dec (60 :: b ++ [62]) (slexic (p_alpha P)) = Some c.
Definition out_symbol (P : processor) (c : Z) : Prop := c = 0 \/ plain_char c \/ named_tag P c.
(** What is asked of the dictionary, the alphabet and the ICU functions *)
Record usable (P : processor) : Prop := {
  us_arcs : forall p i o q w, In (o, (q, w)) (p_find P p i) -> out_symbol P o;
  us_tags : forall s c, map_find ustr_eq_dec s (slexic (p_alpha P)) = Some c ->
              c < 0 /\ nth_error (slexicinv (p_alpha P)) (Z.to_nat (- c - 1)) = Some s;
  us_space : forall c, In c [0; 60; 91; 92; U_EOF] -> p_isspace P c = false;
  us_upper : forall c, p_isupper P c = true -> 0 < c;
  us_lower : forall c, c <> 0 -> p_tolower P c <> 0;
  us_toupper : forall c, plain_char c -> plain_char (p_toupper P c) /\ (meta (p_toupper P c) -> meta c);
  us_fixed : forall c, c = 0 \/ meta c -> p_toupper P c = c;
  us_weights : p_weights P = false;
  us_classes : 0 < p_maxClasses P }.

(** * Words *)
(** A word with the blank before it and its word-bound blank; [u_inner] are the blanks at
    its spaces. *)
Record tunit := mkU { u_blank : ustr; u_bound : option ustr; u_syms : list Z; u_inner : list ustr }.
(** The symbols of words, with a space between them *)
Definition ahead (us : list tunit) : list Z :=
  match us with [] => [] | u :: r => u_syms u ++ concat (map (fun v => 32 :: u_syms v) r) end.
(** Two words as one; "; " between the word-bound blanks *)
Definition bound_both (a b : option ustr) : option ustr :=
  match a, b with Some x, Some y => Some (x ++ [59; 32] ++ y) | None, b => b | a, None => a end.
Definition glue (u v : tunit) : tunit :=
  mkU (u_blank u) (bound_both (u_bound u) (u_bound v)) (u_syms u ++ 32 :: u_syms v)
    (u_inner u ++ u_blank v :: u_inner v).
(** [glues k us u rest]: the first [k+1] words as one *)
Inductive glues : nat -> list tunit -> tunit -> list tunit -> Prop :=
| gl_O u us : glues 0 (u :: us) u us
| gl_S k u v us w ws : glues k (glue u v :: us) w ws -> glues (S k) (u :: v :: us) w ws.
(** [spot us e r u rest e' r']: what lies before position [e] of [us] is to become [r].
    The words concerned are glued to [u], where it is the position [e'].  A match that ends
    with the space before a word and is replaced by something ending in a space leaves this
    space alone. *)
Inductive spot (us : list tunit) (e : nat) : list Z -> tunit -> list tunit -> nat -> list Z -> Prop :=
| sp_in r u rest : glues 0 us u rest -> (e <= length (u_syms u))%nat -> spot us e r u rest e r
| sp_across k v vs r u rest : glues k us v vs -> (length (u_syms v) < e)%nat ->
    glues (S k) us u rest -> (e <= length (u_syms u))%nat ->
    ~ (e = S (length (u_syms v)) /\ last r 0 = 32) -> spot us e r u rest e r
| sp_space k r u v rest : glues k us u (v :: rest) -> e = S (length (u_syms u)) ->
    spot us e (r ++ [32]) u (v :: rest) (length (u_syms u)) r.
(** the longest common ending *)
Definition common_end (a b : list Z) (n : nat) : Prop :=
  exists x y z, a = x ++ z /\ b = y ++ z /\ n = length z
  /\ (forall c x' y', x = x' ++ [c] -> y = y' ++ [c] -> False).

Section Text.
  Context (P : processor) (cs drop : bool).

  (** The text of a symbol: tags by name; [drop]: the mark '~' is left out *)
  Definition shown_symbol (c : Z) : ustr :=
    if drop && (c =? 126) then []
    else if c =? 0 then []
    else if c <? 0 then nth (Z.to_nat (- c - 1)) (slexicinv (p_alpha P)) []
    else (if existsb (Z.eqb c) [91; 93; 123; 125; 94; 36; 47; 92; 64; 60; 62] then [92] else []) ++ utf16 c.
  (** The spaces of a word are the blanks that stood there, as long as there are any; the
      blanks without a place come second. *)
  Fixpoint inner_text (inner : list ustr) (l : list Z) : ustr * list ustr :=
    match l with
    | [] => ([], inner)
    | c :: r =>
        if c =? 32 then
          match inner with
          | b :: inner => let (t, left) := inner_text inner r in (b ++ t, left)
          | [] => let (t, left) := inner_text [] r in (32 :: t, left)
          end
        else let (t, left) := inner_text inner r in (shown_symbol c ++ t, left)
    end.
  (** They are written behind the word and the end of its word-bound blank, unless they are just
      a space. *)
  Definition shown (u : tunit) : ustr :=
    let (t, left) := inner_text (u_inner u) (u_syms u) in
    u_blank u ++ (match u_bound u with Some b => [91; 91] ++ b ++ [93; 93] | None => [] end) ++ t
    ++ (match u_bound u with Some _ => [91; 91; 47; 93; 93] | None => [] end)
    ++ concat (filter (fun b => if ustr_eq_dec b [32] then false else true) left).

  (** [rewrites us start out]: the words [us], the first of which has been treated up to
      [start], are written as [out]. *)
  Inductive rewrites : list tunit -> nat -> ustr -> Prop :=
  | rw_nil : rewrites [] 0 []
  | rw_write u us start out : (length (u_syms u) <= start)%nat -> rewrites us 0 out ->
      rewrites (u :: us) start (shown u ++ out)
  | rw_skip u us start out : (start < length (u_syms u))%nat ->
      (forall n, unknown P cs (firstn n (skipn start (ahead (u :: us))))) ->
      rewrites (u :: us) (S start) out -> rewrites (u :: us) start out
  | rw_match u us start n r v vs e r' i out : (start < length (u_syms u))%nat ->
      (start + n <= length (ahead (u :: us)))%nat ->
      translates P cs (firstn n (skipn start (ahead (u :: us)))) r ->
      (forall m, (n < m)%nat -> (start + m <= length (ahead (u :: us)))%nat ->
         unknown P cs (firstn m (skipn start (ahead (u :: us))))) ->
      spot (u :: us) (start + n) r v vs e r' ->
      common_end r' (skipn start (firstn e (u_syms v))) i ->
      rewrites (mkU (u_blank v) (u_bound v) (firstn start (u_syms v) ++ r' ++ skipn e (u_syms v)) (u_inner v) :: vs)
        (if (e - i =? start)%nat then S start else e - i) out ->
      rewrites (u :: us) start out.
End Text.

(** * The text read *)
(** Spaces and superblanks *)
Inductive tblank (sp : Z -> bool) : list Z -> Prop :=
| tb_nil : tblank sp []
| tb_space c r : sp c = true -> c < 65536 -> tblank sp r -> tblank sp (c :: r)
| tb_block b r : block_body 93 b -> (forall x, hd_error b = Some x -> x <> 91) -> tblank sp r ->
    tblank sp (91 :: b ++ 93 :: r).
Inductive tletter := LChar (c : Z) | LEsc (c : Z) | LTag (b : list Z) | LGap (b : list Z).
Definition letter_text (l : tletter) : list Z :=
  match l with LChar c => [c] | LEsc c => [92; c] | LTag b => 60 :: b ++ [62] | LGap b => b end.
Definition letter_symbol (P : processor) (l : tletter) : Z :=
  match l with
  | LChar c | LEsc c => c
  | LTag b => symbol_code (utf16_text (60 :: b ++ [62])) (p_alpha P)
  | LGap _ => 32
  end.
Definition letter_ok (P : processor) (l : tletter) : Prop :=
  match l with
  | LChar c => p_isspace P c = false /\ ~ In c [0; 32; 60; 91; 92]
  | LEsc c => c <> 0 /\ c <> 32
  | LTag b => block_body 62 b
  | LGap b => tblank (p_isspace P) b /\ b <> []
  end.
Definition is_gap (l : tletter) : Prop := match l with LGap _ => True | _ => False end.
(** Letters beyond the BMP have no case folding here. *)
Definition letter_plain (P : processor) (l : tletter) : Prop :=
  match l with LChar c | LEsc c => p_isupper P c = true -> c < 65536 | _ => True end.

Record titem := mkTI { ti_blank : list Z; ti_bound : option (list Z); ti_letters : list tletter; ti_close : list Z }.
Definition titem_text (i : titem) : list Z :=
  ti_blank i ++ match ti_bound i with
                | None => concat (map letter_text (ti_letters i))
                | Some b => [91; 91] ++ b ++ [93; 93] ++ concat (map letter_text (ti_letters i))
                            ++ [91; 91] ++ ti_close i ++ [93; 93]
                end.
Fixpoint gaps_apart (l : list tletter) : Prop :=
  match l with
  | a :: r => match r with b :: _ => ~ (is_gap a /\ is_gap b) | [] => True end /\ gaps_apart r
  | [] => True
  end.
Definition titem_ok (P : processor) (i : titem) : Prop :=
  tblank (p_isspace P) (ti_blank i) /\ ti_letters i <> [] /\ Forall (letter_ok P) (ti_letters i)
  /\ Forall (letter_plain P) (ti_letters i)
  /\ match ti_bound i with
     | None => Forall (fun l => ~ is_gap l) (ti_letters i)
     | Some b => wblank_body b /\ wblank_body (ti_close i) /\ gaps_apart (ti_letters i)
     end.
Definition gaps (l : list tletter) : list ustr :=
  concat (map (fun x => match x with LGap b => [utf16_text b] | _ => [] end) l).
Definition unit_of_item (P : processor) (i : titem) : tunit :=
  mkU (utf16_text (ti_blank i)) (option_map utf16_text (ti_bound i)) (map (letter_symbol P) (ti_letters i))
    (gaps (ti_letters i)).
(** Words without word-bound blank are apart from what follows. *)
Fixpoint apart (l : list titem) (tail : list Z) (null : bool) : Prop :=
  match l with
  | [] => True
  | i :: r =>
      (ti_bound i = None ->
       match r with
       | [] => tail <> [] \/ null = true
       | j :: _ => ti_blank j <> [] \/ ti_bound j <> None
       end) /\ apart r tail null
  end.
(** A text: sections closed by NUL, and the last one *)
Record tsection := mkSec { sec_items : list titem; sec_tail : list Z }.
Definition section_text (s : tsection) : list Z := concat (map titem_text (sec_items s)) ++ sec_tail s.
Definition section_ok (P : processor) (null : bool) (s : tsection) : Prop :=
  Forall (titem_ok P) (sec_items s) /\ tblank (p_isspace P) (sec_tail s)
  /\ apart (sec_items s) (sec_tail s) null.
Definition source_text (l : list tsection) (last : tsection) : list Z :=
  concat (map (fun s => section_text s ++ [0]) l) ++ section_text last.
Definition section_out (P : processor) (cs drop : bool) (s : tsection) (out : ustr) : Prop :=
  exists t, rewrites P cs drop (map (unit_of_item P) (sec_items s)) 0 t /\ out = t ++ utf16_text (sec_tail s).

(** * Texts written as they are read *)
Definition letter_canonical (P : processor) (drop : bool) (l : tletter) : Prop :=
  match l with
  | LChar c => ~ meta c /\ (drop = true -> c <> 126)
  | LEsc c => meta c
  | LTag b => map_find ustr_eq_dec (utf16_text (60 :: b ++ [62])) (slexic (p_alpha P)) <> None
  | LGap _ => True
  end.
Definition titem_canonical (P : processor) (drop : bool) (i : titem) : Prop :=
  Forall (letter_canonical P drop) (ti_letters i) /\ (ti_bound i <> None -> ti_close i = [47]).
Definition section_canonical (P : processor) (drop : bool) (s : tsection) : Prop :=
  Forall (titem_canonical P drop) (sec_items s).
(** Nothing in the section is in the dictionary. *)
Definition section_unknown (P : processor) (cs : bool) (s : tsection) : Prop :=
  forall start n, unknown P cs (firstn n (skipn start (ahead (map (unit_of_item P) (sec_items s))))).
(** The dictionary has single letters only: [c] becomes [m c]. *)
Definition letterwise (P : processor) (cs : bool) (m : Z -> Z) : Prop :=
  forall w, (unknown P cs w /\ forall c, w = [c] -> m c = c)
            \/ exists c, w = [c] /\ c <> 32 /\ translates P cs w [m c] /\ forall r, translates P cs w r -> r = [m c].
Definition mapped (m : Z -> Z) (u : tunit) : tunit := mkU (u_blank u) (u_bound u) (map m (u_syms u)) (u_inner u).
