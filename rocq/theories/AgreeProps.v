(** C75: lt-expand lists what lt-comp compiles. *)
From Coq Require String Ascii.
From Coq Require Import Permutation.
From Verif Require Import Base AlphabetModel AlphabetProps TransducerModel TransducerSpec AutomataProps StringModel ExpanderModel EntryFilterModel CompilerModel CompilerSpec CompilerProps
  DixModel DixSpec DixProps ListingModel ListingSpec ListingProps AgreeSpec AgreeProofs.
From Verif Require ExpanderSpec ExpanderProps EntryFilterProps.
Import String.StringSyntax.

Lemma heads_unlisted : forall hs, Forall is_head hs -> flat_map listed hs = [].
Proof. intros hs H. induction H as [|t hs Ht H IH]; [reflexivity|]. cbn [flat_map]. rewrite IH. destruct t; [reflexivity|reflexivity|destruct Ht|destruct Ht]. Qed.

(** Of one document, lt-comp compiled the sections [m] with the alphabet [a]: every line of
    lt-expand that is for this direction is a word of a section, and every word of a section is
    a line, both with the same two sides. *)
Theorem C75_agree : forall q fails hs bs ns v Ys, usual q -> q_acx q = [] ->
  document (q_isspace q) false (hs ++ bs) ns -> Forall is_head hs -> letters_of (q_isspace q) hs v ->
  Forall (top_known (q_opts q) (q_lr q) false (declared false hs)) bs ->
  Forall top_scalar bs -> tidy ns -> Forall (top_comparable (q_opts q)) bs ->
  ExpanderSpec.dictionary_fine (q_opts q) (fun _ => []) [] (flat_map listed bs) -> ExpanderSpec.dictionary (q_opts q) (fun _ => []) (flat_map listed bs) Ys ->
  exists code, (forall x, In x (declared false hs) -> code x < 0)
    /\ forall items, compiled_tops (o_keep (q_opts q)) code (q_stod q) (q_opts q) (q_lr q) bs items ->
       dict_ok (q_lr q) (fun _ => no_words) [] items ->
       forall v' a m, lt_comp q ns = Ok (v', a, m) ->
       exists Z, lt_expand (q_opts q) (q_isspace q) fails ns = Ok (concat (map ExpanderSpec.show Z))
         /\ let symbol c x := getSymbol c a = Ok x in
            (forall x, In x Z -> serves (q_lr q) (fst (fst x)) ->
               exists name t u w, In (name, t) m /\ lang t 0 u /\ Forall2 (fun tag p => decode tag a = Ok p) u w /\ same_word symbol (q_lr q) x w)
         /\ (forall name t u, In (name, t) m -> lang t 0 u ->
               exists w x, Forall2 (fun tag p => decode tag a = Ok p) u w /\ In x Z /\ same_word symbol (q_lr q) x w).
Proof.
  intros q fails hs bs ns v Ys U Hx D Hh L K S T Cb F DY.
  assert (Et : flat_map listed (hs ++ bs) = flat_map listed bs) by (rewrite flat_map_app, (heads_unlisted hs Hh); reflexivity).
  assert (Sc : Forall top_scalar (hs ++ bs)).
  { apply Forall_app. split; [|exact S]. eapply Forall_impl; [|exact Hh]. intros [|s|ds|id ty es] I; exact I || destruct I. }
  destruct (C74_document (q_opts q) (q_isspace q) fails false (hs ++ bs) ns Ys D Sc T) as (Zs & P & E).
  { now rewrite Et. } { now rewrite Et. }
  destruct (C73_document q hs bs ns v U Hx D Hh L K) as (code & N & _ & R). exists code. split; [exact N|].
  intros items C Ok_ v' a m Em. exists (concat Zs). split.
  { rewrite E. f_equal. clear. induction Zs as [|z Zs IH]; [reflexivity|]. cbn [map concat]. now rewrite map_app, concat_app, IH. }
  cbv zeta. destruct (R items C Ok_) as [(a' & m' & E' & G & _ & H1 & H2)|[E' _]]; [|congruence].
  assert (a' = a /\ m' = m) as [-> ->] by (split; congruence). clear E'.
  assert (I : forall x, In x (concat Zs) <-> In x (concat Ys)).
  { intros x. clear - P. induction P as [|z y Zs Ys Hp P IH]; [tauto|]. cbn [concat]. rewrite !in_app_iff, IH.
    split; intros [Hz|Hz]; auto; left; [exact (Permutation_in _ Hp Hz)|exact (Permutation_in _ (Permutation_sym Hp) Hz)]. }
  set (symbol := fun c x => getSymbol c a = Ok x).
  destruct (matches_tops symbol (q_lr q) (q_opts q) code (q_stod q) (declared false hs) G bs items C Cb K S (ok_nonzero (q_lr q) items _ _ Ok_)
              (fun _ => no_words) (fun _ => []) Ys) as [M1 M2].
  { intros n. exact (matches_none symbol (q_lr q)). }
  { exact DY. }
  split.
  - intros x Ix Sx. apply I in Ix. destruct (M2 x Ix Sx) as (w & (name & Hw) & W). destruct (H2 name w Hw) as (t & u & It & Lu & Du). now exists name, t, u, w.
  - intros name t u It Lu. apply (H1 name t It) in Lu as (w & Hw & Du). destruct (M1 w (ex_intro _ name Hw)) as (x & Ix & W).
    exists w, x. split; [exact Du|]. split; [now apply I|exact W].
Qed.

(** What a side stands for is determined, so a line stands for one pair of sides. *)
Lemma utf16_shape : forall c, scalar c -> utf16_text [c] = [c]
  \/ exists h l, utf16_text [c] = [h; l] /\ 55296 <= h <= 56319 /\ c = 65536 + 1024 * (h - 55296) + (l - 56320).
Proof.
  intros c [Hc _]. unfold utf16_text. cbn [map concat]. rewrite app_nil_r. unfold InputProps.utf16. destruct (Z.ltb_spec c 65536) as [B|B]; [now left|]. right.
  assert (X1 := Z.div_mod (c - 65536) 1024 ltac:(lia)).
  assert (X2 : 0 <= (c - 65536) / 1024) by (apply Z.div_pos; lia). assert (X3 : (c - 65536) / 1024 < 1024) by (apply Z.div_lt_upper_bound; lia).
  revert X1 X2 X3. generalize ((c - 65536) / 1024), ((c - 65536) mod 1024). intros h l X1 X2 X3.
  exists (55296 + h), (56320 + l). split; [reflexivity|]. lia.
Qed.
Lemma cons_eq : forall (x y : Z) a b, x :: a = y :: b -> x = y /\ a = b.
Proof. intros x y a b [= -> ->]. auto. Qed.
Lemma utf16_first : forall c t, scalar c -> exists u t', utf16_text [c] ++ t = u :: t' /\ (u = c \/ 55296 <= u).
Proof.
  intros c t Sc. destruct (utf16_shape c Sc) as [-> |(h & l & -> & H & _)]; cbn [app]; eexists _, _; (split; [reflexivity|]); [now left|right; lia].
Qed.
Lemma utf16_same : forall c d t u, scalar c -> scalar d -> utf16_text [c] ++ t = utf16_text [d] ++ u -> c = d /\ t = u.
Proof.
  intros c d t u Sc Sd E. destruct (utf16_shape c Sc) as [Ec|(h & l & Ec & H & Hc)]; destruct (utf16_shape d Sd) as [Ed|(h' & l' & Ed & H' & Hd)];
    rewrite Ec, Ed in E; cbn [app] in E; apply cons_eq in E as [E1 E].
  - auto.
  - exfalso. destruct Sc as [_ Sc]. apply Sc. lia.
  - exfalso. destruct Sd as [_ Sd]. apply Sd. lia.
  - apply cons_eq in E as [E2 E]. split; [lia|exact E].
Qed.
Theorem C75_side_unique : forall symbol : Z -> ustr -> Prop, (forall c d x, symbol c x -> symbol d x -> c = d) -> (forall c n, symbol c (bracketed n) -> ~ In 62 n) ->
  forall t s s', stands symbol t s -> stands symbol t s' -> s = s'.
Proof.
  intros symbol Hi Hn t s s' H. revert s'.
  assert (Sp : forall c, In c (92 :: 60 :: txt "+~#>") -> ExpanderSpec.special c).
  { intros c Hc. unfold ExpanderSpec.special. cbn in Hc |- *. intuition. }
  assert (Lx : forall c t u r, scalar c -> ~ ExpanderSpec.special c -> utf16_text [c] ++ t = u :: r -> ~ In u (92 :: 60 :: txt "+~#>")).
  { intros c t0 u r Sc Nc E Hu. destruct (utf16_first c t0 Sc) as (u' & t' & E' & [Hu'|Hu']); rewrite E' in E; injection E as -> ->.
    - subst u. apply Nc, Sp, Hu.
    - cbn in Hu. intuition lia. }
  assert (Tg : forall n m t u, ~ In 62 n -> ~ In 62 m -> bracketed n ++ t = bracketed m ++ u -> n = m /\ t = u).
  { intros n m t0 u. unfold bracketed. cbn [app txt]. change (txt "<") with [60]. change (txt ">") with [62]. cbn [app]. intros H1 H2 E. injection E as E.
    rewrite <- !app_assoc in E. cbn [app] in E. revert m H2 E. induction n as [|x n IH]; intros [|y m] H2 E; cbn [app] in E.
    - injection E as ->. auto.
    - injection E as E _. exfalso. apply H2. now left.
    - injection E as E _. exfalso. apply H1. now left.
    - injection E as -> E. destruct (IH ltac:(intros K; apply H1; now right) m ltac:(intros K; apply H2; now right) E) as [-> ->]. auto. }
  induction H as [|c t s Sc Nc H IH|c t s Sc H IH|c t s Mc H IH|c n t s Yc H IH]; intros s' H'.
  - inversion H' as [|d ? ? Sd Nd Hd E Es|d ? ? Sd Hd E Es|d ? ? Md Hd E Es|d m ? ? Yd Hd E Es]; try reflexivity; subst; try discriminate E.
    destruct (utf16_first d t Sd) as (u & t' & E' & _). congruence.
  - remember (utf16_text [c] ++ t) as z eqn:Ez. destruct H' as [|d t' s' Sd Nd Hd|d t' s' Sd Hd|d t' s' Md Hd|d m t' s' Yd Hd].
    + destruct (utf16_first c t Sc) as (u & t' & E' & _). congruence.
    + apply utf16_same in Ez as [-> ->]; auto. f_equal. now apply IH.
    + exfalso. symmetry in Ez. apply Lx in Ez; auto. apply Ez. now left.
    + exfalso. symmetry in Ez. apply Lx in Ez; auto. apply Ez. right. now right.
    + exfalso. symmetry in Ez. apply Lx in Ez; auto. apply Ez. right. now left.
  - remember (txt "\" ++ [c] ++ t) as z eqn:Ez. destruct H' as [|d t' s' Sd Nd Hd|d t' s' Sd Hd|d t' s' Md Hd|d m t' s' Yd Hd].
    + discriminate Ez.
    + exfalso. apply Lx in Ez; auto. apply Ez. now left.
    + injection Ez as -> ->. f_equal. now apply IH.
    + injection Ez as -> _. exfalso. vm_compute in Md. intuition discriminate.
    + discriminate Ez.
  - remember ([c] ++ t) as z eqn:Ez. destruct H' as [|d t' s' Sd Nd Hd|d t' s' Sd Hd|d t' s' Md Hd|d m t' s' Yd Hd].
    + discriminate Ez.
    + exfalso. apply Lx in Ez; auto. apply Ez. right. now right.
    + injection Ez as <- _. exfalso. vm_compute in Mc. intuition discriminate.
    + injection Ez as -> ->. f_equal. now apply IH.
    + injection Ez as <- _. exfalso. vm_compute in Mc. intuition discriminate.
  - remember (bracketed n ++ t) as z eqn:Ez. destruct H' as [|d t' s' Sd Nd Hd|d t' s' Sd Hd|d t' s' Md Hd|d m t' s' Yd Hd].
    + discriminate Ez.
    + exfalso. apply Lx in Ez; auto. apply Ez. right. now left.
    + discriminate Ez.
    + injection Ez as -> _. exfalso. vm_compute in Md. intuition discriminate.
    + apply Tg in Ez as [-> ->]; eauto. rewrite (Hi _ _ _ Yc Yd). f_equal. now apply IH.
Qed.

(** * A document *)
(** The theorem applies to the document of C73. *)
Example C75_sample : tidy sample_nodes /\ Forall top_scalar sample_body /\ Forall (top_comparable no_filters) sample_body.
Proof.
  split; [apply C74_sample|]. split; [apply (Forall_app top_scalar sample_head sample_body), C74_sample|].
  unfold sample_body. repeat (first [exact I | apply Forall_cons | apply Forall_nil | apply conj]; cbn [top_comparable fst snd]; unfold comparable; cbn [e_attrs e_elements at_r at_alt at_vl at_vr at_v no_filters o_v]);
    try (intros []); cbn [no_expression]; auto.
Qed.
Definition sample_pairs : list (list ExpanderSpec.expansion) :=
  [[(ExpanderSpec.LR, txt "x ys", txt "x y<n><pl>"); (ExpanderSpec.RL, txt "x y", txt "x y<n>")]; []].
Example C75_sample_dictionary : ExpanderSpec.dictionary no_filters (fun _ => []) (flat_map listed sample_body) sample_pairs
  /\ ExpanderSpec.dictionary_fine no_filters (fun _ => []) [] (flat_map listed sample_body).
Proof.
  set (o := no_filters).
  assert (M : forall v w, v = [] -> ~ ExpanderSpec.mismatch v w) by (unfold ExpanderSpec.mismatch; tauto).
  assert (D1 : ExpanderSpec.direction_of o no_attrs ExpanderSpec.Both) by (repeat split; try discriminate; now apply M).
  assert (D2 : ExpanderSpec.direction_of o (mkAttr (txt "LR") [] [] [] [] []) ExpanderSpec.LR) by (split; [split; [discriminate|now apply M]|intros [K _]; now apply K]).
  assert (D3 : ExpanderSpec.direction_of o (mkAttr (txt "RL") [] [] [] [] []) ExpanderSpec.RL) by (split; [repeat split; try discriminate; now apply M|intros [K _]; now apply K]).
  assert (U1 : ExpanderSpec.used o no_attrs) by (split; [discriminate|]; split; [now apply M|left; apply D1]).
  assert (U2 : ExpanderSpec.used o (mkAttr (txt "LR") [] [] [] [] [])) by (split; [discriminate|]; split; [now apply M|left; apply D2]).
  assert (U3 : ExpanderSpec.used o (mkAttr (txt "RL") [] [] [] [] [])) by (split; [discriminate|]; split; [now apply M|right; apply D3]).
  assert (U4 : ~ ExpanderSpec.used o (mkAttr [] (txt "yes") [] [] [] [])) by (intros [K _]; now apply K).
  set (lr_attr := mkAttr (txt "LR") [] [] [] [] []) in *. set (rl_attr := mkAttr (txt "RL") [] [] [] [] []) in *. set (off := mkAttr [] (txt "yes") [] [] [] []) in *.
  change (flat_map listed sample_body) with
    [ExpanderSpec.Pardef (txt "s") [(lr_attr, [EPair [PText (txt "s")] [PSym (txt "n"); PSym (txt "pl")]]); (rl_attr, [EPair [] [PSym (txt "n")]])];
     ExpanderSpec.Sec [(no_attrs, [EId [PText (txt "x"); PBlank; PText (txt "y")]; EPar (txt "s")]); (off, [EId [PText (txt "z")]])]].
  set (X := [[(ExpanderSpec.LR, txt "s", txt "<n><pl>")]; [(ExpanderSpec.RL, [], txt "<n>")]] : list (list ExpanderSpec.expansion)).
  assert (P : Forall2 (fun e Y => ExpanderSpec.entry_expansions o (fun _ => []) (fst e) (snd e) Y)
    [(lr_attr, [EPair [PText (txt "s")] [PSym (txt "n"); PSym (txt "pl")]]); (rl_attr, [EPair [] [PSym (txt "n")]])] X).
  { apply Forall2_cons; [|apply Forall2_cons; [|apply Forall2_nil]]; cbn [fst snd].
    - apply (ExpanderSpec.ee_used o (fun _ => []) _ _ ExpanderSpec.LR [(ExpanderSpec.Both, txt "s", txt "<n><pl>")] U2 D2).
      apply (ExpanderSpec.ch_literal o (fun _ => []) _ (txt "s") (txt "<n><pl>") [] [(ExpanderSpec.Both, [], [])]); [|constructor].
      split; [exists [txt "s"]|exists [txt "<n>"; txt "<pl>"]]; (split; [|reflexivity]); repeat (apply Forall2_cons || apply Forall2_nil); ExpanderProps.piece.
    - apply (ExpanderSpec.ee_used o (fun _ => []) _ _ ExpanderSpec.RL [(ExpanderSpec.Both, [], txt "<n>")] U3 D3).
      apply (ExpanderSpec.ch_literal o (fun _ => []) _ [] (txt "<n>") [] [(ExpanderSpec.Both, [], [])]); [|constructor].
      split; [exists []|exists [txt "<n>"]]; (split; [|reflexivity]); repeat (apply Forall2_cons || apply Forall2_nil); ExpanderProps.piece. }
  set (E := ExpanderSpec.define (txt "s") (concat X) (fun _ => [])).
  split.
  - apply (ExpanderSpec.di_pardef o (fun _ => []) (txt "s") _ X _ _ P). fold E. rewrite <- (app_nil_r sample_pairs). apply ExpanderSpec.di_section; [|constructor].
    apply Forall2_cons; [|apply Forall2_cons; [|apply Forall2_nil]]; cbn [fst snd]; [|now constructor].
    apply (ExpanderSpec.ee_used o E _ _ ExpanderSpec.Both [(ExpanderSpec.LR, txt "x ys", txt "x y<n><pl>"); (ExpanderSpec.RL, txt "x y", txt "x y<n>")] U1 D1).
    apply (ExpanderSpec.ch_literal o E _ (txt "x y") (txt "x y") _ (concat X)).
    + split; [|reflexivity]. exists [txt "x"; txt " "; txt "y"]. split; [|reflexivity]. repeat (apply Forall2_cons || apply Forall2_nil); ExpanderProps.piece.
    + apply (ExpanderSpec.ch_par o E (txt "s") [] [(ExpanderSpec.Both, [], [])]). constructor.
  - assert (NP : forall a els, Forall ExpanderSpec.plain_starts els -> (forall n, ~ In (EPar n) els) -> at_v a = [] -> ExpanderSpec.entry_fine o (fun _ => []) (a, els)).
    { intros a els Pl Hn Hv. split; [intros [K _]; now apply (M _ _ Hv) in K|]. intros _. split; [exact Pl|].
      assert (Hp : forall pre n post, els <> pre ++ EPar n :: post) by (intros pre n post ->; apply (Hn n), in_or_app; right; now left).
      split; [intros n K; destruct (Hn n K)|]. split; [intros _ pre n post K; destruct (Hp _ _ _ K)|].
      split; [intros _ pre n post K; destruct (Hp _ _ _ K)|]. split; [intros _ pre n mid m post K; destruct (Hp _ _ _ K)|auto]. }
    assert (One : forall c pre n post, [EId c; EPar (txt "s")] = pre ++ EPar n :: post -> post = []).
    { intros c [|x [|y pre]] n post K; cbn [app] in K; try discriminate K; [congruence|]. destruct pre; discriminate K. }
    apply (ExpanderSpec.df_pardef o (fun _ => []) [] (txt "s") _ X); [discriminate|intros []| |exact P|].
    + apply Forall_cons; [|apply Forall_cons; [|apply Forall_nil]]; (apply NP; [ExpanderProps.plain|intros n [K|[]]; discriminate|reflexivity]).
    + apply ExpanderSpec.df_section; [|constructor]. apply Forall_cons; [|apply Forall_cons; [|apply Forall_nil]].
      * split; [intros [K _]; now apply M in K|]. intros _. split; [apply Forall_cons; [ExpanderProps.plain|apply Forall_cons; [exact I|apply Forall_nil]]|].
        split; [intros n [K|[K|[]]]; [discriminate K|injection K as <-; discriminate]|].
        split; [intros K; discriminate K|]. split; [intros K; discriminate K|].
        split; [intros _ pre n mid m post K; apply One in K; destruct mid; discriminate K|]. intros _ _ K. contradiction.
      * split; [intros [K _]; now apply M in K|]. intros K. contradiction.
Qed.
Example C75_sample_items : forall code, (forall x, In x (declared false sample_head) -> code x < 0) ->
  exists items, compiled_tops false code five no_filters true sample_body items /\ dict_ok true (fun _ => no_words) [] items.
Proof.
  intros code Hc.
  assert (N : code (bracketed (txt "n")) < 0) by (apply Hc; left; vm_compute; reflexivity).
  assert (P : code (bracketed (txt "pl")) < 0) by (apply Hc; right; left; vm_compute; reflexivity).
  assert (A : forall v f b, v = [] -> EntryFilterProps.admits v f b) by (intros v f b ->; now left).
  exists [Pardef (txt "s") [[Single (txt "s") [code (bracketed (txt "n")); code (bracketed (txt "pl"))] 0]];
          Sec (txt "main@standard") [[Single (txt "x y") (txt "x y") 5; Paradigm (txt "s")]]].
  split.
  - unfold sample_body. apply (ct_pardefs false code five no_filters true _ [_] _ [_]).
    + constructor; [|constructor]. eexists. split; [|reflexivity]. cbn [snd].
      apply (ce_taken false code five no_filters true (mkEntry (mkAttr (txt "LR") [] [] [] [] []) [] [Sides [One (Letters (txt "s"))] [One (Symbol (txt "n")); One (Symbol (txt "pl"))]]) _ 0 []).
      * split; [right; reflexivity|]. split; [discriminate|]. repeat split; now apply A.
      * left. auto.
      * apply ce_left; [|constructor]. intros [[K|K] _]; discriminate K.
    + apply (ct_section false code five no_filters true (txt "main") (txt "standard") _ _ [] []); [|constructor].
      apply (ce_taken false code five no_filters true (mkEntry no_attrs (txt "5") [Both [One (Letters (txt "x")); One Space; One (Letters (txt "y"))]; Use (txt "s")]) _ 5 []).
      * split; [left; reflexivity|]. split; [discriminate|]. repeat split; now apply A.
      * right. split; [discriminate|reflexivity].
      * apply ce_left; [|constructor]. intros (_ & K & _). now apply K.
  - cbn [dict_ok entry_ok element_ok]. split; [discriminate|]. split; [intros []|]. split; [|split].
    + constructor; [|constructor]. split; [|exact I]. split; [vm_compute; intuition discriminate|]. cbn [In]. lia.
    + set (n := code (bracketed (txt "n"))). set (pl := code (bracketed (txt "pl"))). exists (align (txt "s") [n; pl] ++ []), [Single (txt "s") [n; pl] 0]. split; [now left|].
      exists (align (txt "s") [n; pl]), []. split; [reflexivity|]. split; reflexivity.
    + split; [|exact I]. constructor; [|constructor]. split; [split; vm_compute; intuition discriminate|]. split; [|exact I]. split; [now left|discriminate].
Qed.
(** A side: a letter beyond the first 65536, an escaped colon, <j/>, <g> and a symbol *)
Example C75_side : stands (fun c x => c = -1 /\ x = txt "<n>") ([55357; 56832] ++ txt "\:+#a<n>") [128512; 58; 43; 35; 97; -1].
Proof.
  assert (K : forall c, scalar c -> ~ In c (txt "^$/<>{}\*@#+~:") -> ~ ExpanderSpec.special c) by (intros c _ H S; apply H; exact S).
  apply (st_letter _ 128512); [unfold scalar; lia|intros S; apply special_small in S; lia|]. apply (st_escaped _ 58); [cbn; tauto|].
  apply (st_mark _ 43); [cbn; tauto|]. apply (st_mark _ 35); [cbn; tauto|]. apply (st_letter _ 97); [unfold scalar; lia|intros S; vm_compute in S; intuition discriminate|].
  apply (st_tag _ (-1) (txt "n") [] []); [auto|constructor].
Qed.

(** * What does not hold *)
Definition with_pardefs (ds : list (ustr * list xnode)) (es : list xnode) : list xnode :=
  doc (opening (txt "pardefs") [] :: flat_map (fun d => opening (txt "pardef") (n_is (fst d)) :: snd d ++ [closing (txt "pardef") []]) ds ++ closing (txt "pardefs") [] :: sect es).
Notation list_of := (lt_expand no_filters white false).
(** Two paradigms, the first with a word for one direction: bc is compiled but not listed. *)
Theorem C75_two_paradigms_refuted :
  let ns := with_pardefs [(txt "p", simple (txt "a") ++ entry [(txt "r", txt "LR")] (identity (txt "b"))); (txt "q", simple (txt "c"))]
              (entry [] [alone (txt "par") (n_is (txt "p")); alone (txt "par") (n_is (txt "q"))]) in
  list_of ns = Ok (ExpanderProps.nl [txt "ac:ac"])
  /\ exists a t, lt_comp (comp true false) ns = Ok ([], a, [(txt "main@standard", t)])
       /\ decode 2 a = Ok (98, 98) /\ decode 3 a = Ok (99, 99) /\ lang t 0 [2; 3].
Proof.
  cbv zeta. split; [vm_compute; reflexivity|]. eexists _, _. split; [vm_compute; reflexivity|]. split; [reflexivity|]. split; [reflexivity|].
  accepted [(2, 0); (3, 0)] 2%nat.
Qed.
(** alt="x y" is compiled for x, and not listed for x; v="x" is compiled right to left if no
    variant is asked for, and listed left to right only. *)
Definition for_x : options := mkOpt (txt "x") [] [] [] false.
Theorem C75_variants_refuted :
  let alt := doc (sect (entry [(txt "alt", txt "x y")] (identity (txt "a")))) in
  let v := doc (sect (entry [(txt "v", txt "x")] (identity (txt "a")))) in
  lt_expand for_x white false alt = Ok []
  /\ (exists a t, lt_comp (mkReq true false for_x false [] 0 white five false) alt = Ok ([], a, [(txt "main@standard", t)]) /\ decode 1 a = Ok (97, 97) /\ lang t 0 [1])
  /\ list_of v = Ok (ExpanderProps.nl [txt "a:>:a"])
  /\ exists a t, lt_comp (comp false false) v = Ok ([], a, [(txt "main@standard", t)]) /\ decode 1 a = Ok (97, 97) /\ lang t 0 [1].
Proof.
  cbv zeta. split; [vm_compute; reflexivity|]. split; [eexists _, _; split; [vm_compute; reflexivity|]; split; [reflexivity|]; accepted [(1, 0)] 1%nat|].
  split; [vm_compute; reflexivity|]. eexists _, _. split; [vm_compute; reflexivity|]. split; [reflexivity|]. accepted [(1, 0)] 1%nat.
Qed.
(** Two lines for one word: + as a character and <j/> *)
Theorem C75_one_line_refuted :
  let ns := doc (sect (entry [] [opening (txt "i") []; text (txt "a+"); closing (txt "i") []] ++ entry [] [opening (txt "i") []; text (txt "a"); alone (txt "j") []; closing (txt "i") []])) in
  list_of ns = Ok (ExpanderProps.nl [txt "a\+:a\+"; txt "a+:a+"])
  /\ lt_comp (comp true false) ns = lt_comp (comp true false) (doc (sect (simple (txt "a+")))).
Proof. cbv zeta. split; vm_compute; reflexivity. Qed.

Print Assumptions C75_agree.
Print Assumptions C75_side_unique.
Print Assumptions C75_two_paradigms_refuted.
Print Assumptions C75_variants_refuted.
Print Assumptions C75_one_line_refuted.
