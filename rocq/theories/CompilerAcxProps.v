(** C83: a dictionary compiled with a file of equivalent characters accepts its words in every
    spelling the file allows. *)
From Coq Require String Ascii.
From Verif Require Import Base AlphabetModel AlphabetProofs AlphabetProps TransducerModel TransducerSpec TransducerProofs AutomataProps
  RegexpModel RegexpSpec RegexpProofs RegexpProps TrieProofs CompilerModel CompilerSpec CompilerProofs CompilerProps
  CharFileModel CharFileSpec RelabelSpec AcxProps CompilerAcxSpec AcxTrieProofs AcxCompilerProofs.
Import String.StringSyntax.

(** What an item is made of *)
Definition item_entries (it : item) : list (list entry_token) := match it with Pardef _ es => es | Sec _ es => es end.
Definition written (items : list item) (el : entry_token) : Prop := exists it els, In it items /\ In els (item_entries it) /\ In el els.
(** [c] is written out on the left somewhere in the dictionary. *)
Definition on_the_left (left_to_right : bool) (items : list item) (c : Z) : Prop :=
  exists l r wt, written items (Single l r wt) /\ In c (if left_to_right then l else r).
(** The dictionary does not itself write the equivalents of what it writes. *)
Definition apart (left_to_right : bool) (items : list item) (acx : list (Z * list Z)) : Prop :=
  forall c x, on_the_left left_to_right items c -> equivalent acx c x -> ~ on_the_left left_to_right items x.
(** 0 is the empty symbol, not a character. *)
Definition no_zero (acx : list (Z * list Z)) : Prop := forall c x, equivalent acx c x -> c <> 0 /\ x <> 0.

Lemma acx_find_in : forall acx c x, NoDup (map fst acx) -> (In x (CompilerModel.acx_find c acx) <-> equivalent acx c x).
Proof.
  intros acx c x. induction acx as [|[k v] acx IH]; intros N; cbn [CompilerModel.acx_find].
  - split; [intros []|intros (syms & [] & _)].
  - cbn [map fst] in N. apply NoDup_cons_iff in N as [N1 N2]. destruct (c =? k) eqn:E.
    + apply Z.eqb_eq in E. subst k. split; [intros H; exists v; split; [now left|exact H]|].
      intros (syms & [H|H] & Hx); [congruence|]. exfalso. apply N1. apply in_map_iff. exists (c, syms). auto.
    + apply Z.eqb_neq in E. rewrite (IH N2). split; intros (syms & H & Hx); exists syms; (split; [|exact Hx]); [now right|].
      destruct H as [H|H]; [congruence|exact H].
Qed.
Lemma Forall2_iff : forall {A B} (P Q : A -> B -> Prop), (forall a b, P a b <-> Q a b) -> forall l m, Forall2 P l m <-> Forall2 Q l m.
Proof. intros A B P Q H l m. split; intros F; induction F; constructor; auto; now apply H. Qed.

(** ** The meaning only depends on which characters are equivalent *)
Section Same.
  Context (e1 e2 : Z -> Z -> Prop) (He : forall c x, e1 c x <-> e2 c x).
  Lemma element_same : forall lr env1 env2 el, (forall n w, env1 n w <-> env2 n w) -> forall w, element_acx e1 lr env1 el w <-> element_acx e2 lr env2 el w.
  Proof.
    intros lr env1 env2 [l r wt|n|er] En w; cbn [element_acx element_set]; [|apply En|reflexivity].
    apply Forall2_iff. intros p p'. unfold respelt. now rewrite He.
  Qed.
  Lemma entries_same : forall lr env1 env2 es, (forall n w, env1 n w <-> env2 n w) -> forall w, entries_acx e1 lr env1 es w <-> entries_acx e2 lr env2 es w.
  Proof.
    intros lr env1 env2 es En.
    assert (K : forall els w, entry_acx e1 lr env1 els w <-> entry_acx e2 lr env2 els w).
    { induction els as [|el els IH]; intros w; cbn [entry_acx]; [reflexivity|]. apply cat_iff; [|exact IH]. now apply element_same. }
    intros w. split; intros (els & H & Hw); exists els; (split; [exact H|now apply K]).
  Qed.
  Lemma section_same : forall lr items env1 env2 name, (forall n w, env1 n w <-> env2 n w) ->
    forall w, section_acx e1 lr env1 items name w <-> section_acx e2 lr env2 items name w.
  Proof.
    intros lr. induction items as [|[n es|n es] items IH]; intros env1 env2 name En w; cbn [section_acx]; [reflexivity| |].
    - apply IH. intros m v. unfold define. destruct (ustr_eq_dec m n); [now apply entries_same|apply En].
    - unfold join_sets. now rewrite (IH env1 env2 name En w), (entries_same lr env1 env2 es En w).
  Qed.
End Same.

(** ** Dictionaries of what is written out and paradigms *)
Definition no_regexps (items : list item) : Prop := forall er, ~ written items (Regexp er).
Lemma Forall2_respelt_refl : forall eqv l, Forall2 (respelt eqv) l l.
Proof. intros eqv l. induction l; constructor; [split; auto|assumption]. Qed.
Lemma Forall2_same_length : forall {A B} (R : A -> B -> Prop) l m, Forall2 R l m -> length l = length m.
Proof. intros A B R l m F. induction F; cbn; congruence. Qed.
Definition spellings (eqv : Z -> Z -> Prop) (X : pset) : pset := fun w => exists v, X v /\ Forall2 (respelt eqv) v w.
Section Spellings.
  Context (eqv : Z -> Z -> Prop) (lr : bool).
  Lemma cat_spellings : forall X Y w, cat (spellings eqv X) (spellings eqv Y) w <-> spellings eqv (cat X Y) w.
  Proof.
    intros X Y w. split.
    - intros (u & v & -> & (u0 & Hu & Fu) & (v0 & Hv & Fv)). exists (u0 ++ v0). split; [exists u0, v0; auto|now apply Forall2_app].
    - intros (z & (u0 & v0 & -> & Hu & Hv) & F). apply Forall2_app_inv_l in F as (u & v & Fu & Fv & ->). exists u, v. split; [reflexivity|].
      split; [exists u0; auto|exists v0; auto].
  Qed.
  Lemma entry_spellings : forall env env' els, (forall n w, env' n w <-> spellings eqv (env n) w) -> (forall er, ~ In (Regexp er) els) ->
    forall w, entry_acx eqv lr env' els w <-> spellings eqv (entry_set lr env els) w.
  Proof.
    intros env env' els En. induction els as [|el els IH]; intros Nr w; cbn [entry_acx entry_set].
    - split; [intros ->; exists []; split; [reflexivity|constructor]|]. intros (v & -> & F). now inversion F.
    - rewrite <- cat_spellings. apply cat_iff; [|apply IH; intros er H; apply (Nr er); now right]. intros v.
      destruct el as [l r wt|n|er]; cbn [element_acx element_set].
      + split; [intros F; eexists; split; [reflexivity|exact F]|]. intros (z & -> & F). exact F.
      + apply En.
      + destruct (Nr er). now left.
  Qed.
  Lemma entries_spellings : forall env env' es, (forall n w, env' n w <-> spellings eqv (env n) w) ->
    (forall els er, In els es -> ~ In (Regexp er) els) -> forall w, entries_acx eqv lr env' es w <-> spellings eqv (entries_set lr env es) w.
  Proof.
    intros env env' es En Nr w. split.
    - intros (els & H & Hw). apply (entry_spellings env env' els En) in Hw as (v & Hv & F); [|intros er; now apply Nr].
      exists v. split; [exists els; auto|exact F].
    - intros (v & (els & H & Hv) & F). exists els. split; [exact H|]. apply (entry_spellings env env' els En); [intros er; now apply Nr|]. exists v. auto.
  Qed.
  Lemma written_tail : forall it items el, written items el -> written (it :: items) el.
  Proof. intros it items el (i & els & H1 & H2). exists i, els. split; [now right|exact H2]. Qed.
  Lemma no_regexps_head : forall it items els er, no_regexps (it :: items) -> In els (item_entries it) -> ~ In (Regexp er) els.
  Proof. intros it items els er H Hi Hr. apply (H er). exists it, els. split; [now left|auto]. Qed.
  Lemma no_regexps_tail : forall it items, no_regexps (it :: items) -> no_regexps items.
  Proof. intros it items H er W. exact (H er (written_tail it items _ W)). Qed.
  Lemma section_spellings : forall items env env' name, (forall n w, env' n w <-> spellings eqv (env n) w) -> no_regexps items ->
    forall w, section_acx eqv lr env' items name w <-> spellings eqv (section_set lr env items name) w.
  Proof.
    induction items as [|it items IH]; intros env env' name En Nr w.
    - split; [intros []|intros (v & [] & _)].
    - assert (Nr1 := no_regexps_tail _ _ Nr). assert (Nr0 := fun els er => no_regexps_head it items els er Nr).
      destruct it as [n es|n es]; cbn [section_acx section_set item_entries] in *.
      + apply IH; [|exact Nr1]. intros m v. unfold define. destruct (ustr_eq_dec m n); [now apply entries_spellings|apply En].
      + unfold join_sets. rewrite (IH env env' name En Nr1 w), (entries_spellings env env' es En Nr0 w). split.
        * intros [[H (v & Hv & F)]|(v & Hv & F)]; exists v; (split; [|exact F]); [left|right]; auto.
        * intros (v & [[H Hv]|Hv] & F); [left; split; [exact H|]|right]; exists v; auto.
  Qed.

  (** The conditions of [dict_ok] are those of [dict_within]. *)
  Context (U : Z -> Prop).
  Lemma dict_spellings : forall items env env' D, (forall n w, env' n w <-> spellings eqv (env n) w) -> no_regexps items ->
    (forall c, on_the_left lr items c -> U c) -> dict_ok lr env D items -> dict_within U eqv lr env' D items.
  Proof.
    assert (Ent : forall env env' D els, (forall n w, env' n w <-> spellings eqv (env n) w) -> (forall er, ~ In (Regexp er) els) ->
      (forall l r wt c, In (Single l r wt) els -> In c (if lr then l else r) -> U c) -> entry_ok env D els -> entry_within U lr env' D els).
    { intros env env' D els En. induction els as [|el els IH]; intros Nr Hu Ho; [exact I|]. destruct Ho as [Ho1 Ho2]. split.
      - destruct el as [l r wt|n|er]; cbn [element_within element_ok] in *.
        + destruct Ho1 as [H1 H2]. split; [exact H1|]. split; [exact H2|]. apply Forall_forall. intros c Hc. apply (Hu l r wt c); [now left|exact Hc].
        + destruct Ho1 as [H1 H2]. split; [exact H1|]. intros El. destruct (H2 El) as (N & HN). exists N. intros w Hw. apply En in Hw as (v & Hv & F).
          rewrite <- (Forall2_same_length _ _ _ F). auto.
        + destruct (Nr er). now left.
      - apply IH; [intros er H; apply (Nr er); now right| |exact Ho2]. intros l r wt c H. apply (Hu l r wt c). now right. }
    assert (Ents : forall it items env env' D, (forall n w, env' n w <-> spellings eqv (env n) w) -> no_regexps (it :: items) ->
      (forall c, on_the_left lr (it :: items) c -> U c) -> Forall (entry_ok env D) (item_entries it) -> Forall (entry_within U lr env' D) (item_entries it)).
    { intros it items env env' D En Nr Hu Ho. rewrite Forall_forall in *. intros els Hi. apply (Ent env env' D els En); [| |now apply Ho].
      - intros er. exact (no_regexps_head it items els er Nr Hi).
      - intros l r wt c Hs Hc. apply Hu. exists l, r, wt. split; [|exact Hc]. exists it, els. split; [now left|auto]. }
    induction items as [|it items IH]; intros env env' D En Nr Hu Ho; [exact I|].
    assert (Nr1 := no_regexps_tail _ _ Nr). assert (Nr0 := fun els er => no_regexps_head it items els er Nr).
    assert (Hu1 : forall c, on_the_left lr items c -> U c).
    { intros c (l & r & wt & W & Hc). apply Hu. exists l, r, wt. split; [now apply written_tail|exact Hc]. }
    assert (E0 := Ents it items env env' D En Nr Hu).
    destruct it as [n es|n es]; cbn [dict_within dict_ok item_entries] in *.
    - destruct Ho as (H1 & H2 & H3 & H4 & H5). split; [exact H1|]. split; [exact H2|]. split; [exact (E0 H3)|]. split.
      + destruct items as [|[]]; auto. destruct H4 as (w & Hw). exists w. apply (entries_spellings env env' es En Nr0). exists w. split; [exact Hw|apply Forall2_respelt_refl].
      + apply (IH (define n (entries_set lr env es) env)); auto. intros m v. unfold define. destruct (ustr_eq_dec m n); [now apply entries_spellings|apply En].
    - destruct Ho as [H1 H2]. split; [exact (E0 H1)|]. now apply (IH env).
  Qed.
End Spellings.

(** * The theorems *)
(** For a dictionary whose left sides do not write the equivalents of characters they write:
    compilation succeeds, and the stored section [name] accepts the tag strings of the words of
    that section, where what entries write out may be respelt on the left. *)
Theorem C83_sections : forall ops s items, sep s = None -> NoDup (map fst (acx s)) -> no_zero (acx s) -> apart (lr s) items (acx s) ->
  dict_within (fun c => c = 0 \/ on_the_left (lr s) items c) (equivalent (acx s)) (lr s) (fun _ => no_words) [] items ->
  exists a m, compile s (after ops) (dict_events items) = Ok (a, m)
    /\ NoDup (map fst m)
    /\ (forall tag p, decode tag (after ops) = Ok p -> decode tag a = Ok p)
    /\ (forall name t, In (name, t) m -> wf t
          /\ forall u, lang t 0 u <->
               exists w, section_acx (equivalent (acx s)) (lr s) (fun _ => no_words) items name w /\ Forall2 (fun tag p => decode tag a = Ok p) u w)
    /\ (forall name w, section_acx (equivalent (acx s)) (lr s) (fun _ => no_words) items name w ->
          exists t u, In (name, t) m /\ lang t 0 u /\ Forall2 (fun tag p => decode tag a = Ok p) u w).
Proof.
  intros ops s items Hs Nd Nz Ap Ho. set (U := fun c => c = 0 \/ on_the_left (lr s) items c) in *.
  set (comp := fun l => CompilerModel.acx_find l (acx s)).
  assert (Eq : forall c x, In x (comp c) <-> equivalent (acx s) c x) by (intros c x; now apply acx_find_in).
  assert (Hc : forall l x, U l -> In x (comp l) -> ~ U x /\ x <> 0).
  { intros l x Hl Hx. apply Eq in Hx. destruct (Nz l x Hx) as [L X]. split; [|exact X]. intros [Hu|Hu]; [contradiction|].
    destruct Hl as [Hl|Hl]; [contradiction|]. exact (Ap l x Hl Hx Hu). }
  assert (C0 : comp 0 = []).
  { destruct (comp 0) as [|x r] eqn:E; [reflexivity|]. exfalso. destruct (Nz 0 x); [apply Eq; rewrite E; now left|contradiction]. }
  assert (Es : forall env n w, section_acx (fun c x => In x (comp c)) (lr s) env items n w <-> section_acx (equivalent (acx s)) (lr s) env items n w).
  { intros env n w. apply section_same; [exact Eq|reflexivity]. }
  assert (Ho' : dict_within U (fun c x => In x (comp c)) (lr s) (fun _ => no_words) [] items).
  { assert (W : forall its env1 env2 D, (forall n w, env1 n w <-> env2 n w) -> dict_within U (equivalent (acx s)) (lr s) env1 D its ->
      dict_within U (fun c x => In x (comp c)) (lr s) env2 D its).
    { assert (Ent : forall env1 env2 D, (forall n w, env1 n w <-> env2 n w) -> forall els, entry_within U (lr s) env1 D els -> entry_within U (lr s) env2 D els).
      { intros env1 env2 D En. induction els as [|el els IH]; [auto|]. intros [H1 H2]. split; [|auto]. destruct el as [l r wt|n|er]; cbn [element_within element_ok] in *; auto.
        destruct H1 as [H1 H3]. split; [exact H1|]. intros El. destruct (H3 El) as (N & HN). exists N. intros w Hw. apply HN. now apply En. }
      induction its as [|[n es|n es] its IH]; intros env1 env2 D En; cbn [dict_within]; [auto| |].
      - intros (H1 & H2 & H3 & H4 & H5). split; [exact H1|]. split; [exact H2|]. split; [revert H3; apply Forall_impl; now apply Ent|].
        assert (Ee : forall w, entries_acx (equivalent (acx s)) (lr s) env1 es w <-> entries_acx (fun c x => In x (comp c)) (lr s) env2 es w).
        { apply entries_same; [intros c x; symmetry; apply Eq|exact En]. }
        split; [destruct its as [|[]]; auto; destruct H4 as (w & Hw); exists w; now apply Ee|].
        apply (IH (define n (entries_acx (equivalent (acx s)) (lr s) env1 es) env1)); [|exact H5]. intros m v. unfold define. destruct (ustr_eq_dec m n); [apply Ee|apply En].
      - intros [H1 H2]. split; [revert H1; apply Forall_impl; now apply Ent|]. now apply (IH env1). }
    apply (W items (fun _ => no_words)); [reflexivity|exact Ho]. }
  destruct (AcxCompilerProofs.compile_ok U comp Hc (or_introl eq_refl) s (after ops) items (conj C0 (fun l => eq_refl)) Hs (after_inv ops) Ho') as (a & m & E & Ha & X & N & H).
  exists a, m. split; [exact E|]. split; [exact N|]. split; [intros tag p Hp; exact (extends_decode _ _ _ _ X Hp)|]. split.
  - intros name t Hin. apply (name_in_find _ _ _ N) in Hin. destruct (H name) as [_ Hn]. rewrite Hin in Hn.
    destruct Hn as (W & _ & L & _). split; [exact W|]. intros u. rewrite L. apply Tg_iff. intros w. apply Es.
  - intros name w Hw. apply Es in Hw. destruct (H name) as [Cv Hn]. destruct (name_find name m) as [t|] eqn:Ef; [|now apply Hn in Hw].
    destruct Hn as (W & _ & L & _). destruct (Tg_some a _ w Cv Hw) as (u & Hu & R). exists t, u.
    split; [exact (name_find_in _ _ _ Ef)|]. split; [now apply L|exact R].
Qed.

(** Without regular expressions: the words accepted are exactly the spellings of the words
    accepted without equivalents, under the conditions of C32. *)
Theorem C83_spellings : forall ops s items, sep s = None -> NoDup (map fst (acx s)) -> no_zero (acx s) -> apart (lr s) items (acx s) ->
  no_regexps items -> dict_ok (lr s) (fun _ => no_words) [] items ->
  exists a m, compile s (after ops) (dict_events items) = Ok (a, m)
    /\ NoDup (map fst m)
    /\ forall name w,
         (exists t u, In (name, t) m /\ lang t 0 u /\ Forall2 (fun tag p => decode tag a = Ok p) u w)
         <-> exists v, section_set (lr s) (fun _ => no_words) items name v /\ Forall2 (respelt (equivalent (acx s))) v w.
Proof.
  intros ops s items Hs Nd Nz Ap Nr Ho.
  assert (E0 : forall (n : ustr) w, no_words w <-> spellings (equivalent (acx s)) no_words w) by (intros _ w; split; [intros []|intros (v & [] & _)]).
  destruct (C83_sections ops s items Hs Nd Nz Ap) as (a & m & E & N & _ & H1 & H2).
  { apply (dict_spellings _ _ _ items (fun _ => no_words) _ []); [exact E0|exact Nr|intros c Hc; now right|exact Ho]. }
  exists a, m. split; [exact E|]. split; [exact N|]. intros name w.
  rewrite <- (section_spellings (equivalent (acx s)) (lr s) items (fun _ => no_words) (fun _ => no_words) name E0 Nr w). split.
  - intros (t & u & Hin & Hu & R). destruct (H1 name t Hin) as [_ L]. apply L in Hu as (w' & Hw' & R').
    assert (w' = w) as <-; [|exact Hw']. clear - R R'. revert w R. induction R' as [|tag p u w' Hp _ IH]; intros w R; inversion R; subst; [reflexivity|]. f_equal; [congruence|auto].
  - apply H2.
Qed.

(** With the file: lt-comp lr with a document of equivalents. *)
Theorem C83_file : forall doc es ops items, acx_says doc es -> Forall branch_ok doc -> NoDup (map fst es) ->
  no_zero es -> apart true items es -> no_regexps items -> dict_ok true (fun _ => no_words) [] items ->
  exists t a m, comp_acx true (Some (Some doc)) = Ok t /\ compile (mkSet true t None) (after ops) (dict_events items) = Ok (a, m)
    /\ NoDup (map fst m)
    /\ forall name w,
         (exists t u, In (name, t) m /\ lang t 0 u /\ Forall2 (fun tag p => decode tag a = Ok p) u w)
         <-> exists v, section_set true (fun _ => no_words) items name v /\ Forall2 (respelt (equivalent es)) v w.
Proof.
  intros doc es ops items Hd Hb Hn Nz Ap Nr Ho. destruct (C82_file doc es Hd Hb) as (t & E & Nt & _ & K). specialize (K Hn).
  destruct (C83_spellings ops (mkSet true t None) items eq_refl Nt) as (a & m & E' & N & H); cbn [acx lr].
  - intros c x Hx. apply K in Hx. exact (Nz c x Hx).
  - intros c x Hc Hx. apply K in Hx. exact (Ap c x Hc Hx).
  - exact Nr.
  - exact Ho.
  - exists t, a, m. split; [exact E|]. split; [exact E'|]. split; [exact N|]. intros name w. rewrite H. cbn [acx lr].
    split; intros (v & Hv & F); exists v; (split; [exact Hv|]); revert F; apply Forall2_iff; intros p p'; unfold respelt; now rewrite K.
Qed.
(** lt-comp rl: whatever the file, even if it cannot be read, the words are those of the
    dictionary, exactly as without a file. *)
Theorem C83_direction : forall file ops items, dict_ok false (fun _ => no_words) [] items ->
  exists t a m, comp_acx false file = Ok t /\ compile (mkSet false t None) (after ops) (dict_events items) = Ok (a, m)
    /\ compile (mkSet false [] None) (after ops) (dict_events items) = Ok (a, m)
    /\ forall name w,
         (exists t u, In (name, t) m /\ lang t 0 u /\ Forall2 (fun tag p => decode tag a = Ok p) u w)
         <-> section_set false (fun _ => no_words) items name w.
Proof.
  intros file ops items Ho. destruct (C32_sections ops (mkSet false [] None) items eq_refl eq_refl Ho) as (a & m & E & N & _ & H1 & H2).
  exists [], a, m. split; [reflexivity|]. split; [exact E|]. split; [exact E|]. intros name w. split; [|apply H2].
  intros (t & u & Hin & Hu & R). destruct (H1 name t Hin) as [_ L]. apply L in Hu as (w' & Hw' & R').
  assert (w' = w) as <-; [|exact Hw']. clear - R R'. revert w R. induction R' as [|tag p u w' Hp _ IH]; intros w R; inversion R; subst; [reflexivity|]. f_equal; [congruence|auto].
Qed.

(** * Concrete cases *)
(** e may be é (233) or ê (234); the entry "be" with the endings s and nothing *)
Definition french : list (Z * list Z) := [(101, [233; 234]); (115, [383])].
Definition bee : list item :=
  [ Pardef [110] [[Single [115] [60] 0]; [Single [] [62] 0]];
    Sec [109] [ [Single [98; 101] [98; 101] 0; Paradigm [110]]; [Single [98; 101; 100] [98; 101; 100] 0] ] ].
Definition bee_doc : list branch :=
  [entry [101] [equiv [234]; blank_leaf; equiv [233]]; mkBranch blank_leaf []; entry [115] [equiv [383]]].
Lemma bee_left : forall c, on_the_left true bee c -> In c [115; 98; 101; 100].
Proof.
  intros c (l & r & wt & (it & els & [<-|[<-|[]]] & He & Hs) & Hc); cbn [item_entries bee] in He.
  - destruct He as [<-|[<-|[]]]; destruct Hs as [Hs|[]]; injection Hs; intros; subst; cbn in Hc |- *; tauto.
  - destruct He as [<-|[<-|[]]].
    + destruct Hs as [Hs|[Hs|[]]]; [|discriminate Hs]. injection Hs; intros; subst; cbn in Hc |- *; tauto.
    + destruct Hs as [Hs|[]]. injection Hs; intros; subst; cbn in Hc |- *; tauto.
Qed.
Lemma french_in : forall c x, equivalent french c x -> In (c, x) [(101, 233); (101, 234); (115, 383)].
Proof. intros c x (syms & [H|[H|[]]] & Hx); injection H; intros; subst; cbn in Hx |- *; intuition; subst; auto. Qed.
Lemma bee_apart : no_zero french /\ apart true bee french.
Proof.
  split.
  - intros c x H. apply french_in in H as [H|[H|[H|[]]]]; injection H; intros; subst; lia.
  - intros c x _ H L. apply bee_left in L. apply french_in in H as [H|[H|[H|[]]]]; injection H; intros; subst; cbn in L; lia.
Qed.
Lemma bee_regexps : no_regexps bee.
Proof.
  intros er (it & els & [<-|[<-|[]]] & He & Hs); cbn [item_entries bee] in He; destruct He as [<-|[<-|[]]]; cbn in Hs; intuition discriminate.
Qed.
Lemma bee_ok : dict_ok true (fun _ => no_words) [] bee.
Proof.
  unfold bee. cbn [dict_ok]. split; [discriminate|]. split; [intros []|]. split; [repeat constructor; cbn; lia|].
  split; [exists [(115, 60)], [Single [115] [60] 0]; split; [now left|]; exists [(115, 60)], []; repeat split|].
  split; [|exact I]. apply Forall_cons; [|apply Forall_cons; [|apply Forall_nil]]; cbn [entry_ok element_ok].
  - split; [cbn; lia|]. split; [|exact I]. split; [cbn; auto|]. discriminate.
  - split; [cbn; lia|exact I].
Qed.
(** From the document: bês with a long s is accepted as bes is, and béd as bed is. *)
Example C83_example : exists a t, readACX (Some bee_doc) = Ok french
  /\ compile (mkSet true french None) new_alphabet (dict_events bee) = Ok (a, [([109], t)])
  /\ (exists u, lang t 0 u /\ Forall2 (fun tag p => decode tag a = Ok p) u [(98, 98); (234, 101); (383, 60)])
  /\ (exists u, lang t 0 u /\ Forall2 (fun tag p => decode tag a = Ok p) u [(98, 98); (233, 101); (100, 100)])
  /\ ~ (exists u, lang t 0 u /\ Forall2 (fun tag p => decode tag a = Ok p) u [(98, 98); (101, 233); (100, 100)]).
Proof.
  destruct (C83_spellings [] (mkSet true french None) bee eq_refl) as (a & m & E & N & H); cbn [acx lr].
  - repeat constructor; cbn; intuition discriminate.
  - apply bee_apart.
  - apply bee_apart.
  - exact bee_regexps.
  - exact bee_ok.
  - cbn [after fold_left] in E. assert (Em : exists t, m = [([109], t)]).
    { vm_compute in E. eexists. injection E. intros Em _. symmetry. exact Em. }
    destruct Em as (t & ->). exists a, t. split; [vm_compute; reflexivity|]. split; [exact E|].
    assert (K : forall w, (exists u, lang t 0 u /\ Forall2 (fun tag p => decode tag a = Ok p) u w) <->
      exists v, section_set true (fun _ => no_words) bee [109] v /\ Forall2 (respelt (equivalent french)) v w).
    { intros w. rewrite <- (H [109] w). split; [intros (u & Hu); exists t, u; split; [now left|exact Hu]|].
      intros (t' & u & [Ht|[]] & Hu). assert (t' = t) as -> by congruence. exists u. exact Hu. }
    assert (Eq : forall c x, In (c, x) [(101, 233); (101, 234); (115, 383)] -> equivalent french c x).
    { intros c x [X|[X|[X|[]]]]; injection X; intros; subst; [exists [233; 234]|exists [233; 234]|exists [383]]; cbn; auto. }
    split; [|split].
    + apply K. exists [(98, 98); (101, 101); (115, 60)]. split.
      * left. split; [reflexivity|]. eexists. split; [now left|]. exists [(98, 98); (101, 101)], [(115, 60)]. split; [reflexivity|]. split; [reflexivity|].
        exists [(115, 60)], []. split; [reflexivity|]. split; [|reflexivity]. cbn. exists [Single [115] [60] 0]. split; [now left|]. exists [(115, 60)], []. repeat split.
      * constructor; [split; auto|]. constructor; [split; [reflexivity|]; right; apply Eq; cbn; auto|].
        constructor; [split; [reflexivity|]; right; apply Eq; cbn; auto|constructor].
    + apply K. exists [(98, 98); (101, 101); (100, 100)]. split.
      * left. split; [reflexivity|]. eexists. split; [right; now left|]. exists [(98, 98); (101, 101); (100, 100)], []. repeat split.
      * constructor; [split; auto|]. constructor; [split; [reflexivity|]; right; apply Eq; cbn; auto|]. constructor; [split; auto|constructor].
    + intros X. apply K in X as (v & Hv & F). inversion F as [|p0 ? v1 ? _ F1]; subst. inversion F1 as [|[l r] ? v2 ? [E1 _] F2]; subst. cbn in E1. subst r.
      clear - Hv. destruct Hv as [[_ (els & [<-|[<-|[]]] & u & v' & E & Hu & Hv)]|[]]; cbn in Hu; subst u; cbn in E; injection E; intros; subst; discriminate.
Qed.

(** In the other direction a file that cannot be read does no harm. *)
Example C83_direction_example : comp_acx true (Some None) = Exit /\ comp_acx false (Some None) = Ok []
  /\ comp_acx true (Some (Some bee_doc)) = Ok french /\ comp_acx true None = Ok [].
Proof. repeat split. Qed.

(** * What the conditions exclude *)
(** A dictionary that writes an equivalent itself: with ea and then é:e b the second entry goes on
    from the state after e, so that eb is accepted, which is a spelling of no word. *)
Theorem C83_shared_refuted : let s := mkSet true [(101, [233])] None in
  dict_ok true (fun _ => no_words) [] accented /\ no_regexps accented /\ no_zero (acx s)
  /\ exists a t u, compile s new_alphabet (dict_events accented) = Ok (a, [([109], t)])
    /\ lang t 0 u /\ Forall2 (fun tag p => decode tag a = Ok p) u [(101, 101); (98, 98)]
    /\ ~ exists v, section_set true (fun _ => no_words) accented [109] v /\ Forall2 (respelt (equivalent (acx s))) v [(101, 101); (98, 98)].
Proof.
  split; [|split; [|split]].
  - cbn. split; [|exact I]. apply Forall_cons; [|apply Forall_cons; [|apply Forall_nil]]; (split; [cbn; lia|exact I]).
  - intros er (it & els & [<-|[]] & He & Hs); cbn [item_entries accented] in He; destruct He as [<-|[<-|[]]]; cbn in Hs; intuition discriminate.
  - intros c x (syms & [H|[]] & Hx). injection H; intros; subst. cbn in Hx. lia.
  - destruct C32_alternatives_refuted as (a & t & E & L & R & No). exists a, t, [1; 4]. split; [exact E|]. split; [exact L|]. split; [exact R|].
    intros (v & Hv & F). apply No. exists v. split; [exact Hv|]. clear - F. induction F as [|[l r] [l' r'] v w [E1 E2] _ IH]; [constructor|].
    cbn [fst snd] in E1, E2. subst r'. destruct E2 as [-> |(syms & [H|[]] & Hx)]; [now constructor|]. injection H; intros; subst. destruct Hx as [<-|[]]. apply var_alt; auto.
Qed.
(** Three characters with a common equivalent, and the dictionary writes all four with the same
    right side: no state is found for the fourth, and the compiler goes on with none. *)
Definition stuck : list item := [Sec [109] [[Single [97] [122] 0]; [Single [98] [122] 0]; [Single [99] [122] 0]; [Single [120] [122] 0]]].
Theorem C83_stuck_refuted : let s := mkSet true [(97, [120]); (98, [120]); (99, [120])] None in
  dict_ok true (fun _ => no_words) [] stuck /\ compile s new_alphabet (dict_events stuck) = UB
  /\ exists a t, compile (mkSet true [] None) new_alphabet (dict_events stuck) = Ok (a, [([109], t)]).
Proof.
  split; [|split; [vm_compute; reflexivity|eexists _, _; vm_compute; reflexivity]].
  cbn. split; [|exact I]. do 4 (apply Forall_cons; [split; [cbn; lia|exact I]|]); apply Forall_nil.
Qed.
(** Regular expressions are not respelt: of é+ and the entry é only the entry is read as e. *)
Definition pattern : list item := [Sec [109] [[Regexp [101; 43]]]].
Theorem C83_regexp_refuted : let s := mkSet true [(101, [233])] None in
  exists a m, compile s new_alphabet (dict_events pattern) = Ok (a, m)
    /\ (exists t u, In ([109], t) m /\ lang t 0 u /\ Forall2 (fun tag p => decode tag a = Ok p) u [(101, 101)])
    /\ Forall2 (respelt (equivalent (acx s))) [(101, 101)] [(233, 101)]
    /\ ~ exists t u, In ([109], t) m /\ lang t 0 u /\ Forall2 (fun tag p => decode tag a = Ok p) u [(233, 101)].
Proof.
  intros s.
  assert (Rx : exists r, g_alt r [101; 43] /\ Forall (fun c => c <> FIN_FICHERO) [101; 43] /\ choosable latin1 r).
  { exists (Plus (Chr 101)). split; [|split; [repeat constructor; discriminate|exact I]].
    apply g_one, g_term. change [101; 43] with ([101] ++ [43]). apply g_plus, g_chr, g_plain_char. cbn. lia. }
  assert (Nl : forall c, ~ on_the_left true pattern c).
  { intros c (l & r & wt & (it & els & [<-|[]] & [<-|[]] & [Hs|[]]) & _). discriminate Hs. }
  destruct (C83_sections [] s pattern eq_refl) as (a & m & E & N & _ & H1 & H2).
  - repeat constructor; intros [].
  - intros c x (syms & [H|[]] & Hx). injection H; intros; subst. cbn in Hx. lia.
  - intros c x H. destruct (Nl c H).
  - cbn [dict_within pattern]. split; [|exact I]. apply Forall_cons; [|apply Forall_nil]. cbn [entry_within element_within element_ok]. auto.
  - cbn [after fold_left lr s] in *. exists a, m. split; [exact E|]. split; [|split].
    + apply H2. left. split; [reflexivity|]. eexists. split; [now left|]. exists [(101, 101)], []. split; [reflexivity|]. split; [|reflexivity].
      exists (Plus (Chr 101)), [101]. destruct Rx as (r & _). split; [|split; [exact I|split; [|reflexivity]]].
      * apply g_one, g_term. change [101; 43] with ([101] ++ [43]). apply g_plus, g_chr, g_plain_char. cbn. lia.
      * exists [101], []. split; [reflexivity|]. split; [reflexivity|constructor].
    + constructor; [|constructor]. split; [reflexivity|]. right. exists [233]. cbn. auto.
    + intros (t & u & Hin & Hu & R). destruct (H1 _ _ Hin) as [_ L]. apply L in Hu as (w & Hw & R').
      assert (w = [(233, 101)]) as ->.
      { clear - R R'. revert R. generalize ([(233, 101)]) as v. induction R' as [|tag p u w' Hp _ IH]; intros v R; inversion R; subst; [reflexivity|]. f_equal; [congruence|auto]. }
      destruct Hw as [[_ (els & [<-|[]] & u1 & v1 & Ew & (r & cs & _ & _ & _ & Hu1) & Hv1)]|[]]. cbn in Hv1. subst v1. rewrite app_nil_r in Ew. subst u1.
      unfold same_pairs in Hu1. destruct (filter _ cs) as [|c l]; [discriminate Hu1|]. cbn in Hu1. injection Hu1. intros. lia.
Qed.

Print Assumptions C83_sections.
Print Assumptions C83_spellings.
Print Assumptions C83_file.
Print Assumptions C83_direction.
Print Assumptions C83_shared_refuted.
Print Assumptions C83_stuck_refuted.
Print Assumptions C83_regexp_refuted.
