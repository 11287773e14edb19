(** C76: a translation memory compiles to its units. *)
From Coq Require String Ascii.
From Verif Require Import Base AlphabetModel AlphabetProofs AlphabetProps TransducerModel TransducerSpec CompilerSpec CompilerProofs DixModel DixSpec TmxModel TmxSpec TmxProofs.
From Verif Require CompilerProps.
Import String.StringSyntax.

(** * The transducer has the words of the units *)
(** Whatever the layout: a word for each unit that has at least five symbols on both sides, and
    nothing else; numbers are the symbol <n> in the source and @(k) in the translation, marks
    are blanks in the source and (#) in the translation. *)
Theorem C76_memory : forall isspace isdigit lo lm ns us, lo <> lm -> memory ns us ->
  let unit_sides u := unit_is (fun c => isspace c = true) (fun c => isdigit c = true) (in_language lo u) (in_language lm u) in
  (forall u, In u us -> Z.of_nat (length (in_language lo u)) < 10 ^ 8 /\ ~ In 0 (in_language lo u) /\ ~ In 0 (in_language lm u) /\ exists S T, unit_sides u S T) ->
  exists a t, lt_tmxcomp isspace isdigit lo lm ns = Ok (Some (a, t))
    /\ getSymbol number_symbol a = Ok (txt "<n>") /\ wf t
    /\ forall v, lang t 0 v <-> exists u S T, In u us /\ unit_sides u S T /\ (5 <= length S)%nat /\ (5 <= length T)%nat
                                 /\ Forall2 (fun tag p => decode tag a = Ok p) v (align S T).
Proof.
  intros isspace isdigit lo lm ns us Hl M sides F.
  destruct (tmxcomp_ok isspace isdigit lo lm ns us Hl M) as (a & t & E & X & I & W & L).
  { apply Forall_forall. intros u Hu. destruct (F u Hu) as (A & B & C & D). split; [exact A|]. split; [exact D|]. split; assumption. }
  exists a, t. split; [exact E|]. split; [|split; [exact W|]].
  - assert (N : getSymbol number_symbol start_alphabet = Ok (txt "<n>")) by (vm_compute; reflexivity).
    revert N. unfold getSymbol, number_symbol. cbn [Z.eqb Z.ltb Z.compare]. destruct (nth_error (slexicinv start_alphabet) _) as [x|] eqn:En; [|discriminate].
    rewrite (proj1 (extends_nth start_alphabet a X) _ _ En). tauto.
  - intros v. rewrite L. split.
    + intros (w & (u & S & T & Hu & Su & (L1 & L2) & ->) & R). exists u, S, T. repeat (split; [assumption|]). exact R.
    + intros (u & S & T & Hu & Su & L1 & L2 & R). exists (align S T). split; [|exact R]. exists u, S, T. repeat (split; [assumption|]). split; [split; assumption|reflexivity].
Qed.

(** * The sides of a unit *)
(** They are determined by its texts; and there are some unless a number of the translation is
    missing in the source and comes before as many characters as it has. *)
Theorem C76_sides : forall isspace isdigit s t, Z.of_nat (length s) < 10 ^ 8 ->
  let blank c := isspace c = true in
  let digit c := isdigit c = true in
  (forall S T S' T', unit_is blank digit s t S T -> unit_is blank digit s t S' T' -> S' = S /\ T' = T)
  /\ ((forall s0 t0 ss ts n ts', trimmed blank s s0 -> trimmed blank t t0 -> cut digit s0 ss -> cut digit t0 (ts ++ Num n :: ts') ->
         In n (numbers ss) \/ (length n <= length (flat_map text_of ts))%nat) -> exists S T, unit_is blank digit s t S T).
Proof.
  intros isspace isdigit s t L blank digit. split.
  - intros S T S' T' H H'. pose proof (sides_ok isspace isdigit s t S T L H) as E. rewrite (sides_ok isspace isdigit s t S' T' L H') in E. injection E as -> ->. now split.
  - intros H. apply (sides_exist isspace isdigit). intros s0 t0 Hs Ht. apply (numbered_exists isdigit). intros ss ts n ts' Cs Ct. exact (H s0 t0 ss ts n ts' Hs Ht Cs Ct).
Qed.

(** * A memory *)
Definition space (c : Z) : bool := (c =? 32) || (c =? 10).
Definition figure (c : Z) : bool := (48 <=? c) && (c <=? 57).
Definition lang_is (l : ustr) : list (ustr * ustr) := [(txt "xml:lang", l)].
Definition variant (l : ustr) (ns : list xnode) : list xnode :=
  opening (txt "tuv") (lang_is l) :: opening (txt "seg") [] :: ns ++ [closing (txt "seg") []; closing (txt "tuv") (lang_is l)].
Definition unit_of (s t : list xnode) : list xnode := opening (txt "tu") [] :: variant (txt "en") s ++ variant (txt "es") t ++ [closing (txt "tu") []].
Definition tmx (ns : list xnode) : list xnode :=
  [opening (txt "tmx") []; alone (txt "header") []; opening (txt "body") []] ++ ns ++ [closing (txt "body") []; closing (txt "tmx") []].
Notation compiled := (lt_tmxcomp space figure (txt "en") (txt "es")).
Definition en_text : list xnode := [text (txt "From 12 to "); alone (txt "ph") []; text (txt " 3.5 cats ")].
Definition es_text : list xnode := [text (txt " De 12 a"); opening (txt "hi") []; text (txt "3.5"); closing (txt "hi") []; text (txt " gatos")].
Definition sample_nodes : list xnode :=
  tmx (comment (txt "c") :: unit_of en_text es_text ++ text (txt " ") :: unit_of [text (txt "Yes")] [text (txt "Claro que si")]).
Definition en_side : list Z := txt "From 12 to " ++ mark_symbol :: txt " 3.5 cats ".
Definition es_side : list Z := txt " De 12 a" ++ mark_symbol :: txt "3.5 gatos".
Definition sample_units : list (list (ustr * list Z)) :=
  [[(txt "en", en_side); (txt "es", es_side)]; [(txt "en", txt "Yes"); (txt "es", txt "Claro que si")]].
Lemma variant_one : forall l ns v ns' vs, content ns v -> l <> [] -> variants ns' vs -> variants (variant l ns ++ ns') ((l, v) :: vs).
Proof.
  intros l ns v ns' vs C N V. unfold variant. replace ((opening (txt "tuv") (lang_is l) :: opening (txt "seg") [] :: ns ++ [closing (txt "seg") []; closing (txt "tuv") (lang_is l)]) ++ ns')
    with (opening (txt "tuv") (lang_is l) :: (opening (txt "seg") [] :: ns ++ [closing (txt "seg") []]) ++ closing (txt "tuv") (lang_is l) :: ns')
    by (cbn [app]; rewrite <- !app_assoc; reflexivity).
  apply va_one; [reflexivity|reflexivity| |  |reflexivity|reflexivity|exact V].
  - left. split; [exact N|]. split; [repeat constructor; intros []|left; now left].
  - apply co_other; [discriminate|intros [K|K]; discriminate K|discriminate|]. clear V. induction C.
    + apply co_other; [discriminate|intros [K|K]; discriminate K|discriminate|constructor].
    + now constructor.
    + now constructor.
    + now apply co_other.
Qed.
Example C76_sample : memory sample_nodes sample_units.
Proof.
  assert (O : forall n ns us, In (x_name n) [txt "#text"; txt "#comment"; txt "tmx"; txt "header"; txt "body"; txt "prop"] -> memory ns us -> memory (n :: ns) us) by exact me_other.
  assert (U : forall s t v w ns us, content s v -> content t w -> memory ns us -> memory (unit_of s t ++ ns) ([(txt "en", v); (txt "es", w)] :: us)).
  { intros s t v w ns us Cs Ct M. unfold unit_of. replace ((opening (txt "tu") [] :: variant (txt "en") s ++ variant (txt "es") t ++ [closing (txt "tu") []]) ++ ns)
      with (opening (txt "tu") [] :: (variant (txt "en") s ++ variant (txt "es") t ++ []) ++ closing (txt "tu") [] :: ns) by (cbn [app]; rewrite app_nil_r, <- !app_assoc; reflexivity).
    apply me_unit; [reflexivity|reflexivity| |reflexivity|reflexivity|exact M]. apply variant_one; [exact Cs|discriminate|]. apply variant_one; [exact Ct|discriminate|constructor]. }
  unfold sample_nodes, tmx. cbn [app]. apply O; [cbn; tauto|]. apply O; [cbn; tauto|]. apply O; [cbn; tauto|]. apply O; [cbn; tauto|]. rewrite <- app_assoc. apply U.
  - apply (co_text (text (txt "From 12 to "))); [reflexivity|]. apply co_mark; [now right|reflexivity|]. apply (co_text (text (txt " 3.5 cats ")) [] []); [reflexivity|constructor].
  - apply (co_text (text (txt " De 12 a"))); [reflexivity|]. apply co_mark; [now left|reflexivity|]. apply (co_text (text (txt "3.5")) _ (txt " gatos")); [reflexivity|].
    apply co_other; [discriminate|reflexivity|discriminate|]. apply (co_text (text (txt " gatos")) [] []); [reflexivity|constructor].
  - apply O; [cbn; tauto|]. apply U.
    + apply (co_text (text (txt "Yes")) [] []); [reflexivity|constructor].
    + apply (co_text (text (txt "Claro que si")) [] []); [reflexivity|constructor].
    + apply O; [cbn; tauto|]. apply O; [cbn; tauto|]. constructor.
Qed.
(** [has ns w]: the memory [ns] is compiled and [w] is a word of it. *)
Definition has (ns : list xnode) (w : list (Z * Z)) : Prop :=
  exists a t v, compiled ns = Ok (Some (a, t)) /\ lang t 0 v /\ Forall2 (fun tag p => decode tag a = Ok p) v w.
Fixpoint walks (t : transducer) (q : nat) (v : list Z) : bool :=
  match v with
  | [] => existsb (fun x => (fst x =? q)%nat && (snd x =? 0)) (finals t)
  | c :: v => existsb (fun x => (a_tag x =? c) && (a_wt x =? 0) && walks t (a_dst x) v) (nth q (trans t) [])
  end.
Lemma walks_ok : forall t v q, walks t q v = true -> accepts_from t q (map (fun c => (c, 0)) v) 0.
Proof.
  intros t. induction v as [|c v IH]; intros q H; cbn [walks map] in *; apply existsb_exists in H as (x & Hx & E).
  - apply andb_prop in E as [E1 E2]. apply Nat.eqb_eq in E1. apply Z.eqb_eq in E2. exists q. split; [constructor|]. unfold final_wt. destruct x as [y f]. cbn in *. now subst.
  - apply andb_prop in E as [E E3]. apply andb_prop in E as [E1 E2]. apply Z.eqb_eq in E1, E2. destruct (IH _ E3) as (r & P & F). exists r. split; [|exact F].
    apply (path_cons t q c 0 (a_dst x)); [|exact P]. unfold has_arc. destruct x as [tag [d w]]. cbn in *. now subst.
Qed.
Fixpoint code_of (a : alphabet) (w : list (Z * Z)) : option (list Z) :=
  match w with
  | [] => Some []
  | p :: w => let '(c, _) := pair_code p a in
      match decode c a, code_of a w with
      | Ok q, Some v => if (fst p =? fst q) && (snd p =? snd q) && negb (c =? 0) then Some (c :: v) else None
      | _, _ => None
      end
  end.
Lemma code_ok : forall a w v, code_of a w = Some v -> Forall2 (fun tag p => decode tag a = Ok p) v w /\ Forall (fun c => c <> 0) v.
Proof.
  intros a. induction w as [|p w IH]; intros v H; cbn [code_of] in H; [injection H as <-; now split|].
  destruct (pair_code p a) as [c b]. destruct (decode c a) as [q| | | |] eqn:D; try discriminate H. destruct (code_of a w) as [u|]; [|discriminate H].
  destruct ((fst p =? fst q) && (snd p =? snd q) && negb (c =? 0)) eqn:E; [|discriminate H]. injection H as <-.
  apply andb_prop in E as [E E3]. apply andb_prop in E as [E1 E2]. apply Z.eqb_eq in E1, E2. apply negb_true_iff, Z.eqb_neq in E3. destruct (IH u eq_refl) as [A B].
  split; constructor; auto. rewrite D. f_equal. destruct p, q. cbn in *. now subst.
Qed.
Lemma has_ok : forall ns w, match compiled ns with Ok (Some (a, t)) => match code_of a w with Some v => walks t (initial t) v | None => false end | _ => false end = true -> has ns w.
Proof.
  intros ns w H. unfold has. destruct (compiled ns) as [[[a t]|]| | | |]; try discriminate H. destruct (code_of a w) as [v|] eqn:E; [|discriminate H].
  apply code_ok in E as [E N]. exists a, t, v. split; [reflexivity|]. split; [|exact E]. apply walks_ok in H. exists 0. eexists _, 0. split; [exact H|].
  split; [|clear; induction v as [|c v IH]; [reflexivity|exact IH]]. clear E H. induction v as [|c v IH]; [reflexivity|]. cbn [map filter fst snd].
  assert (K := Forall_inv N). cbn beta in K. unfold word_of in *. cbn [filter fst]. rewrite (proj2 (Z.eqb_neq _ _) K). cbn [negb map fst]. f_equal. exact (IH (Forall_inv_tail N)).
Qed.
(** From <n> to <n> cats: De @(1) a(#)@(2) gatos *)
Example C76_sample_compiled : has sample_nodes (align (txt "From " ++ number_symbol :: txt " to " ++ number_symbol :: txt " cats") (txt "De @(1) a(#)@(2) gatos")).
Proof. apply has_ok. vm_compute. reflexivity. Qed.
Notation blanks := (fun c => space c = true).
Notation figures := (fun c => figure c = true).
Lemma trimmed_by : forall a w b, Forall blanks a -> Forall blanks b -> (forall c r, w = c :: r -> ~ blanks c) -> (forall c r, w = r ++ [c] -> ~ blanks c) ->
  trimmed blanks (a ++ w ++ b) w.
Proof. intros a w b A B C D. exists a, b. auto. Qed.
Lemma chars : forall l v ts, Forall (fun c => figure c = false) l -> cut figures v ts -> cut figures (l ++ v) (map Char l ++ ts).
Proof. intros l v ts F C. induction F as [|c l Hc F IH]; [exact C|]. cbn [app map]. constructor; [cbn beta; rewrite Hc; discriminate|exact IH]. Qed.
Lemma snoc_last : forall (w : list Z) c r d, w = r ++ [c] -> last w d = c.
Proof. intros w c r d ->. apply last_last. Qed.
Example C76_sample_unit : unit_is blanks figures en_side es_side
  (txt "From " ++ number_symbol :: txt " to " ++ number_symbol :: txt " cats") (txt "De @(1) a(#)@(2) gatos").
Proof.
  assert (T : forall a b v w, v = a ++ w ++ b -> forallb space a = true -> forallb space b = true -> negb (space (hd 0 w)) = true -> negb (space (last w 0)) = true -> trimmed blanks v w).
  { intros a b v w -> A B C D. apply trimmed_by; [now apply Forall_forall, forallb_forall|now apply Forall_forall, forallb_forall| |].
    - intros c r ->. cbn [hd] in C. apply negb_true_iff in C. cbn beta. now rewrite C.
    - intros c r E. rewrite (snoc_last w c r 0 E) in D. apply negb_true_iff in D. cbn beta. now rewrite D. }
  assert (N : forall n c v ts, number figures n -> figure c = false -> c <> 46 -> c <> 44 -> cut figures (c :: v) ts -> cut figures (n ++ c :: v) (Num n :: ts)).
  { intros n c v ts Hn Hc H1 H2 C. apply cut_num; [exact Hn| |exact C]. intros [|x xs] d y [= <- E] F; [cbn beta; rewrite Hc; discriminate|].
    apply Forall_inv in F as [F|[F|F]]; [congruence|contradiction|contradiction]. }
  assert (N12 : number figures (txt "12")).
  { split; [apply Forall_forall; intros x [<- |[<- |[]]]; now left|]. split; [now exists 49, [50]|now exists 50, [49]]. }
  assert (N35 : number figures (txt "3.5")).
  { split; [apply Forall_forall; intros x [<- |[<- |[<- |[]]]]; [now left|right; now left|now left]|]. split; [now exists 51, (txt ".5")|now exists 53, (txt "3.")]. }
  assert (P : forall l, forallb (fun c => negb (figure c)) l = true -> Forall (fun c => figure c = false) l).
  { intros l H. apply Forall_forall. intros c Hc. apply negb_true_iff. exact (proj1 (forallb_forall _ _) H c Hc). }
  exists (txt "From 12 to " ++ mark_symbol :: txt " 3.5 cats"), (txt "De 12 a" ++ mark_symbol :: txt "3.5 gatos").
  exists (txt "From " ++ number_symbol :: txt " to " ++ mark_symbol :: txt " " ++ number_symbol :: txt " cats"), (txt "De @(1) a" ++ mark_symbol :: txt "@(2) gatos").
  exists [txt "From " ++ number_symbol :: txt " to "; txt " " ++ number_symbol :: txt " cats"], [txt "De @(1) a"; txt "@(2) gatos"].
  exists [txt "From " ++ number_symbol :: txt " to"; number_symbol :: txt " cats"], [txt "De @(1) a"; txt "@(2) gatos"].
  split; [apply (T [] (txt " ")); reflexivity|]. split; [apply (T (txt " ") []); reflexivity|]. split.
  - set (ss := map Char (txt "From ") ++ Num (txt "12") :: map Char (txt " to " ++ mark_symbol :: txt " ") ++ Num (txt "3.5") :: map Char (txt " cats") ++ []).
    set (ts := map Char (txt "De ") ++ Num (txt "12") :: map Char (txt " a" ++ [mark_symbol]) ++ Num (txt "3.5") :: map Char (txt " gatos") ++ []).
    apply (nu_matched figures _ _ ss ts).
    + apply (chars (txt "From ")); [now apply P|]. apply (N (txt "12")); [exact N12|reflexivity|discriminate|discriminate|].
      apply (chars (txt " to " ++ mark_symbol :: txt " ")); [now apply P|]. apply (N (txt "3.5")); [exact N35|reflexivity|discriminate|discriminate|].
      apply (chars (txt " cats") []); [now apply P|constructor].
    + apply (chars (txt "De ")); [now apply P|]. apply (N (txt "12")); [exact N12|reflexivity|discriminate|discriminate|].
      apply (chars (txt " a" ++ [mark_symbol])); [now apply P|]. apply (N (txt "3.5")); [exact N35|reflexivity|discriminate|discriminate|].
      apply (chars (txt " gatos") []); [now apply P|constructor].
    + do 3 apply ta_char. apply (ta_num _ (txt "12") 0 (txt "1")); [split; [reflexivity|lia]|apply (de_one 1); lia|].
      do 3 apply ta_char. apply (ta_num _ (txt "3.5") 1 (txt "2")); [split; [reflexivity|]|apply (de_one 2); lia|].
      * intros [|j] Hj; [discriminate|lia].
      * do 6 apply ta_char. constructor.
  - split; [|split; [|split; [|split; [|split; reflexivity]]]].
    + apply (pa_more (txt "From " ++ number_symbol :: txt " to ")); [vm_compute; intuition discriminate|]. apply pa_last; [discriminate|vm_compute; intuition discriminate].
    + apply (pa_more (txt "De @(1) a")); [vm_compute; intuition discriminate|]. apply pa_last; [discriminate|vm_compute; intuition discriminate].
    + constructor; [apply (T [] (txt " ")); reflexivity|]. constructor; [apply (T (txt " ") []); reflexivity|constructor].
    + constructor; [apply (T [] []); reflexivity|]. constructor; [apply (T [] []); reflexivity|constructor].
Qed.

(** * What does not hold *)
(** Units with fewer than five symbols on a side are not in the memory; a number is one. *)
Definition plain_unit (s t : list Z) : list xnode := unit_of [text s] [text t].
Theorem C76_short_refuted : exists a t u, compiled (tmx (plain_unit (txt "Yes") (txt "Claro"))) = Ok (Some (a, t))
  /\ compiled (tmx (plain_unit (txt "1,000,000") (txt "1,000,000 euros"))) = Ok (Some (a, u)) /\ finals t = [] /\ finals u = [].
Proof. eexists _, _, _. split; [vm_compute; reflexivity|]. split; [vm_compute; reflexivity|]. split; reflexivity. Qed.
(** A number of the translation that is not in the source: the numbers of the source stay
    characters; and only part of it may be left: 99 within 1999 becomes a reference. *)
Theorem C76_number_refuted : has (tmx (plain_unit (txt "See 12 cats") (txt "Ver doce (12.0) gatos"))) (align (txt "See 12 cats") (txt "Ver doce (12.0) gatos"))
  /\ has (tmx (plain_unit (txt "In 99 it was") (txt "L'1999 era"))) (align (txt "In " ++ number_symbol :: txt " it was") (txt "L'19@(1) era")).
Proof. split; apply has_ok; vm_compute; reflexivity. Qed.
(** @(1) and (#) of the texts are not told from references and marks; there need not be a
    number to refer to. *)
Theorem C76_literal_refuted :
  compiled (tmx (unit_of [text (txt "Chapter one")] [text (txt "Tema"); alone (txt "ph") []; text (txt "uno")])) = compiled (tmx (plain_unit (txt "Chapter one") (txt "Tema(#)uno")))
  /\ has (tmx (plain_unit (txt "Chapter one") (txt "Tema @(1)"))) (align (txt "Chapter one") (txt "Tema @(1)")).
Proof. split; [|apply has_ok]; vm_compute; reflexivity. Qed.
(** A mark at the end is lost on the way. *)
Theorem C76_last_mark_refuted :
  compiled (tmx (unit_of [text (txt "Chapter one")] [text (txt "Tema uno"); alone (txt "ph") []])) = compiled (tmx (plain_unit (txt "Chapter one") (txt "Tema uno"))).
Proof. vm_compute. reflexivity. Qed.
(** A variant without text is not closed: the unit goes on to the next variant, whose source
    becomes the translation.  A unit without variants at the end is read for ever. *)
Theorem C76_empty_refuted :
  has (tmx (opening (txt "tu") [] :: variant (txt "en") [text (txt "Good night")] ++ [alone (txt "tuv") (lang_is (txt "es")); closing (txt "tu") []]
            ++ plain_unit (txt "Good morning") (txt " (buen dia)"))) (align (txt "Good night") (txt "Good morning (buen dia)"))
  /\ compiled (tmx (plain_unit (txt "Good morning") (txt "Buenos dias") ++ [alone (txt "tu") []])) = Ok None.
Proof. split; [apply has_ok|]; vm_compute; reflexivity. Qed.
(** Notes and user-defined encodings of the header are refused. *)
Theorem C76_header_refuted : forall n, x_name n = txt "note" \/ x_name n = txt "ude" -> forall r,
  compiled (opening (txt "tmx") [] :: opening (txt "header") [] :: n :: r) = Exit.
Proof. intros [e x v at_ m] H r. cbn in H. destruct H as [-> | ->]; reflexivity. Qed.

Print Assumptions C76_memory.
Print Assumptions C76_sides.
Print Assumptions C76_short_refuted.
Print Assumptions C76_number_refuted.
Print Assumptions C76_literal_refuted.
Print Assumptions C76_last_mark_refuted.
Print Assumptions C76_empty_refuted.
Print Assumptions C76_header_refuted.
