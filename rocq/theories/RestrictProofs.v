(** Proofs about unified compilation and lt-restrict. *)
From Verif Require Import Base SortedVectorModel SortedVectorProofs AlphabetModel AlphabetProofs StringModel StringProps ExpanderModel EntryFilterProps.
From Verif Require Import AlphabetProps TransducerModel TransducerSpec TransducerProofs ReverseProofs DeterminizeProofs MinimizeProofs RationalProofs
  RelabelModel RelabelProofs RegexpModel RegexpSpec RegexpProofs RegexpProps TrieProofs
  CompilerModel CompilerSpec CompilerProofs UnifiedModel RestrictSpec.

(** * Words with flags *)
Definition vwords (v : ustr) : list ustr :=
  match v with
  | [] => []
  | _ => match split (S (length v)) v [32] with Ok ws => ws | _ => [] end
  end.
Lemma vwords_spec : forall v f, In f (vwords v) <-> has_word v f.
Proof.
  intros [|c v] f.
  - cbn. split; [intros []|]. intros (H & _ & pre & post & E & _). apply H. destruct pre; [|discriminate]. now destruct f.
  - cbn [vwords]. destruct (C51_split (c :: v) [32] ltac:(discriminate)) as (ps & Es & L & B). rewrite Es. rewrite filter_In. split.
    + intros [Hx Hn]. assert (f <> []) by (intros ->; discriminate). rewrite <- B. now apply (pieces_words f).
    + intros H. assert (f <> []) by apply H. rewrite <- B in H. apply pieces_words in H; auto.
      split; [exact H|]. now destruct f.
Qed.
Definition attr_list (at_ : attributes) : list (ustr * ustr) :=
  [(p_r, at_r at_); (p_alt, at_alt at_); (p_v, at_v at_); (p_vl, at_vl at_); (p_vr, at_vr at_)].
Definition group (code : ustr -> Z) (pv : ustr * ustr) : list Z := map (fun w => code (filter_tag (fst pv) w)) (vwords (snd pv)).
Definition some_z (l : list Z) : bool := match l with [] => false | _ => true end.
Definition groups (code : ustr -> Z) (at_ : attributes) : list (list Z) := filter some_z (map (group code) (attr_list at_)).
Definition twins (cs : list Z) : list (Z * Z) := map (fun c => (c, c)) cs.
Definition flagset (code : ustr -> Z) (at_ : attributes) : pset :=
  fun w => exists cs, Forall2 (@In Z) cs (groups code at_) /\ w = twins cs.
Definition uchosen (code : ustr -> Z) (env : ustr -> pset) (es : list rentry) : pset :=
  fun w => exists at_ els, In (at_, els) es /\ at_ignore at_ <> yes_val /\ cat (flagset code at_) (entry_set true env els) w.
Fixpoint usection (code : ustr -> Z) (env : ustr -> pset) (items : list ritem) (name : ustr) : pset :=
  match items with
  | [] => no_words
  | RPardef n es :: r => usection code (define n (uchosen code env es) env) r name
  | RSec n es :: r => join_sets (fun w => n = name /\ uchosen code env es w) (usection code env r name)
  end.

(** ** Taking the flags off *)
Lemma den_nonneg : forall r er, g_alt r er -> Forall (fun c => 0 <= c) er -> forall cs, den latin1 r cs -> Forall (fun c => 0 <= c) cs.
Proof.
  assert (Gc : forall c s, g_char c s -> Forall (fun c => 0 <= c) s -> 0 <= c).
  { intros c s [c' _|c' _] F; [exact (Forall_inv F)|exact (Forall_inv (Forall_inv_tail F))]. }
  assert (Gi : forall items s, g_items items s -> Forall (fun c => 0 <= c) s -> forall lo hi, In (lo, hi) items -> 0 <= lo).
  { induction 1 as [|c s items s' Hc _ IH|c s d s1 items s' Hc Hd Hle _ IH]; intros F lo hi [].
    - apply Forall_app in F as [F1 F2]. injection H as <- <-. eauto.
    - apply Forall_app in F as [F1 F2]. eauto.
    - apply Forall_app in F as [F1 F2]. injection H as <- <-. eauto.
    - apply Forall_app in F as [F1 F2]. apply Forall_app in F2 as [_ F2]. apply Forall_app in F2 as [_ F2]. eauto. }
  assert (St : forall L : str_set, (forall u, L u -> Forall (fun c => 0 <= c) u) -> forall u, star L u -> Forall (fun c => 0 <= c) u).
  { intros L HL u. induction 1 as [|u v Hu _ IH]; [constructor|]. apply Forall_app. auto. }
  assert (G : (forall r s, g_alt r s -> Forall (fun c => 0 <= c) s -> forall cs, den latin1 r cs -> Forall (fun c => 0 <= c) cs)
    /\ (forall r s, g_seq r s -> Forall (fun c => 0 <= c) s -> forall cs, den latin1 r cs -> Forall (fun c => 0 <= c) cs)
    /\ (forall r s, g_post r s -> Forall (fun c => 0 <= c) s -> forall cs, den latin1 r cs -> Forall (fun c => 0 <= c) cs)
    /\ (forall r s, g_atom r s -> Forall (fun c => 0 <= c) s -> forall cs, den latin1 r cs -> Forall (fun c => 0 <= c) cs)); [|apply G].
  apply g_mut.
  - auto.
  - intros r s r' s' _ IH1 _ IH2 F cs [H|H]; apply Forall_app in F as [F1 F2]; [auto|]. apply Forall_app in F2 as [_ F2]. auto.
  - auto.
  - intros r s r' s' _ IH1 _ IH2 F cs (u & v & -> & Hu & Hv). apply Forall_app in F as [F1 F2]. apply Forall_app. auto.
  - auto.
  - intros r s _ IH F cs H. apply Forall_app in F as [F1 _]. cbn in H. apply (St _ (IH F1) _ H).
  - intros r s _ IH F cs [->|H]; [constructor|]. apply Forall_app in F as [F1 _]. auto.
  - intros r s _ IH F cs (u & v & -> & Hu & Hv). apply Forall_app in F as [F1 _]. apply Forall_app. split; [auto|]. apply (St _ (IH F1) _ Hv).
  - intros c s Hc F cs ->. constructor; [eauto|constructor].
  - intros r s _ IH F. apply Forall_app in F as [_ F]. apply Forall_app in F as [F _]. auto.
  - intros items s Hi _ F cs (c & -> & lo & hi & Hin & Hc). apply Forall_app in F as [_ F]. apply Forall_app in F as [F _].
    constructor; [|constructor]. assert (0 <= lo) by eauto. lia.
  - intros items s Hi F cs (c & -> & Hu & _). unfold latin1 in Hu. constructor; [lia|constructor].
Qed.

Section Image.
  Variables (N : Z) (good : Z -> Prop).
  Definition passes (w : list (Z * Z)) : Prop := forall p, In p w -> fst p < - N -> good (fst p).
  Definition erase (w : list (Z * Z)) : list (Z * Z) := filter (fun p => - N <=? fst p) w.
  Definition image (X : pset) : pset := fun w => exists u, X u /\ passes u /\ erase u = w.
  Definition low (w : list (Z * Z)) : Prop := forall p, In p w -> - N <= fst p.

  Lemma image_cat : forall X Y w, image (cat X Y) w <-> cat (image X) (image Y) w.
  Proof.
    intros X Y w. split.
    - intros (u & (x & y & -> & Hx & Hy) & P & <-). exists (erase x), (erase y). split; [apply filter_app|]. split.
      + exists x. split; [exact Hx|]. split; [|reflexivity]. intros p Hp. apply P, in_or_app. auto.
      + exists y. split; [exact Hy|]. split; [|reflexivity]. intros p Hp. apply P, in_or_app. auto.
    - intros (x' & y' & -> & (x & Hx & Px & <-) & (y & Hy & Py & <-)). exists (x ++ y). split; [exists x, y; auto|]. split; [|apply filter_app].
      intros p Hp. apply in_app_or in Hp as [Hp|Hp]; auto.
  Qed.
  Lemma erase_low : forall w, low w -> erase w = w.
  Proof.
    induction w as [|p w IH]; intros H; [reflexivity|]. cbn [erase filter]. replace (- N <=? fst p) with true.
    - f_equal. apply IH. intros q Hq. apply H. now right.
    - symmetry. apply Z.leb_le. apply H. now left.
  Qed.
  Lemma image_low : forall (X : pset), (forall w, X w -> low w) -> forall w, image X w <-> X w.
  Proof.
    intros X H w. split.
    - intros (u & Hu & _ & <-). now rewrite erase_low by auto.
    - intros Hw. exists w. split; [exact Hw|]. split; [|apply erase_low; auto]. intros p Hp Lp. apply (H w Hw) in Hp. lia.
  Qed.
  Lemma image_iff : forall X Y w, (forall u, X u <-> Y u) -> (image X w <-> image Y w).
  Proof. intros X Y w H. split; intros (u & Hu & R); exists u; (split; [now apply H|exact R]). Qed.

  Lemma align_in : forall ls rs p, In p (align ls rs) -> (In (fst p) ls \/ fst p = 0) /\ (In (snd p) rs \/ snd p = 0).
  Proof using.
    induction ls as [|x ls IH]; intros rs p H.
    - cbn in H. apply in_map_iff in H as (y & <- & Hy). cbn. auto.
    - destruct rs as [|y rs]; cbn [align] in H.
      + destruct H as [<-|H]; [cbn; auto|]. destruct (IH [] p H) as [[H1|H1] [[]|H2]]; cbn; auto.
      + destruct H as [<-|H]; [cbn; auto|]. destruct (IH rs p H) as [[H1|H1] [H2|H2]]; cbn; auto.
  Qed.
  Variable n0 : nat.
  Hypothesis HN : N = Z.of_nat n0.
  Lemma element_low : forall env el w, written n0 el -> (forall n, el <> Paradigm n) -> element_set true env el w -> low w.
  Proof using HN.
    clear good. intros env [l r wt|n|er] w W Np H; cbn [element_set written] in *.
    - subst w. intros p Hp. rewrite Forall_app in W. destruct W as [W1 _]. rewrite Forall_forall in W1.
      destruct (align_in _ _ _ Hp) as [[H1|H1] _]; [apply W1 in H1; lia|lia].
    - now contradiction (Np n).
    - destruct H as (r & cs & G & _ & Hd & ->). assert (F := den_nonneg r er G W cs Hd). rewrite Forall_forall in F.
      intros p Hp. unfold same_pairs in Hp. apply in_map_iff in Hp as (c & <- & Hc). apply filter_In in Hc as [Hc _]. apply F in Hc. cbn. lia.
  Qed.
  Definition uses (D : list ustr) (els : list entry_token) : Prop := forall n, In (Paradigm n) els -> In n D.
  Lemma entry_image : forall env envp D, (forall n, In n D -> forall w, image (env n) w <-> envp n w) ->
    forall els, Forall (written n0) els -> uses D els -> forall w, image (entry_set true env els) w <-> entry_set true envp els w.
  Proof.
    intros env envp D HE. induction els as [|el els IH]; intros W U w; cbn [entry_set].
    - apply (image_low (fun v => v = [])). intros u ->. intros p [].
    - rewrite image_cat. apply cat_iff; [|intros v; apply IH; [exact (Forall_inv_tail W)|intros n Hn; apply U; now right]].
      intros v. destruct el as [l r wt|n|er].
      + apply (image_low (element_set true env (Single l r wt))). intros u Hu. apply (element_low env _ u (Forall_inv W)); [congruence|exact Hu].
      + apply HE. apply U. now left.
      + apply (image_low (element_set true env (Regexp er))). intros u Hu. apply (element_low env _ u (Forall_inv W)); [congruence|exact Hu].
  Qed.

  Variables (code : ustr -> Z) (sel : attributes -> Prop).
  (** The flags of the entries, and what becomes of them. *)
  Definition flags_at (at_ : attributes) : Prop :=
    (forall g c, In g (groups code at_) -> In c g -> c < - N)
    /\ (sel at_ <-> at_ignore at_ <> yes_val /\ exists cs, Forall2 (@In Z) cs (groups code at_) /\ Forall good cs).
  Lemma twins_erased : forall cs, Forall (fun c => c < - N) cs -> erase (twins cs) = [].
  Proof.
    induction 1 as [|c cs Hc _ IH]; [reflexivity|]. cbn [twins map erase filter fst]. replace (- N <=? c) with false; [exact IH|].
    symmetry. apply Z.leb_gt. exact Hc.
  Qed.
  Lemma flagset_image : forall at_, flags_at at_ -> at_ignore at_ <> yes_val -> forall w, image (flagset code at_) w <-> sel at_ /\ w = [].
  Proof.
    intros at_ [Hl Hs] Hi w.
    assert (Lw : forall cs, Forall2 (@In Z) cs (groups code at_) -> Forall (fun c => c < - N) cs).
    { intros cs F. rewrite Forall_forall. intros c Hc. clear Hs. revert Hl. induction F as [|x g cs gs Hx F IH]; [destruct Hc|].
      intros Hl. destruct Hc as [<-|Hc]; [apply (Hl g); [now left|exact Hx]|]. apply IH; [exact Hc|]. intros g' c' Hg. apply Hl. now right. }
    split.
    - intros (u & (cs & F & ->) & P & <-). split; [|now apply twins_erased, Lw]. apply Hs. split; [exact Hi|]. exists cs. split; [exact F|].
      rewrite Forall_forall. intros c Hc. apply (P (c, c)); [apply (in_map (fun c => (c, c)) cs c Hc)|]. specialize (Lw cs F). rewrite Forall_forall in Lw. now apply Lw.
    - intros [H ->]. apply Hs in H as (_ & cs & F & G). exists (twins cs). split; [exists cs; auto|]. split; [|now apply twins_erased, Lw].
      intros p Hp _. apply in_map_iff in Hp as (c & <- & Hc). rewrite Forall_forall in G. now apply G.
  Qed.
  Lemma uchosen_image : forall env envp D es, (forall n, In n D -> forall w, image (env n) w <-> envp n w) ->
    (forall at_ els, In (at_, els) es -> at_ignore at_ <> yes_val -> flags_at at_ /\ Forall (written n0) els /\ uses D els) ->
    (forall at_, sel at_ -> at_ignore at_ <> yes_val) ->
    forall w, image (uchosen code env es) w <-> chosen_set sel true envp es w.
  Proof.
    intros env envp D es HE HO Hsel w. split.
    - intros (u & (at_ & els & Hin & Hi & Hu) & R). destruct (HO at_ els Hin Hi) as (Hf & Hw & Hd).
      assert (Im : image (cat (flagset code at_) (entry_set true env els)) w) by (exists u; auto).
      apply image_cat in Im as (x & y & -> & Hx & Hy). apply (flagset_image at_ Hf Hi) in Hx as [Hs ->].
      exists at_, els. split; [exact Hin|]. split; [exact Hs|]. now apply (entry_image env envp D).
    - intros (at_ & els & Hin & Hs & Hw). assert (Hi := Hsel at_ Hs). destruct (HO at_ els Hin Hi) as (Hf & Hwr & Hd).
      assert (Im : image (cat (flagset code at_) (entry_set true env els)) w).
      { apply image_cat. exists [], w. split; [reflexivity|]. split; [now apply (flagset_image at_ Hf Hi)|]. now apply (entry_image env envp D). }
      destruct Im as (u & Hu & R). exists u. split; [|exact R]. exists at_, els. auto.
  Qed.
  (** Paradigms are defined before they are used. *)
  Fixpoint uses_ok (D : list ustr) (items : list ritem) : Prop :=
    match items with
    | [] => True
    | RPardef n es :: r => (forall at_ els, In (at_, els) es -> at_ignore at_ <> yes_val -> uses D els) /\ uses_ok (n :: D) r
    | RSec n es :: r => (forall at_ els, In (at_, els) es -> at_ignore at_ <> yes_val -> uses D els) /\ uses_ok D r
    end.
  Lemma define_image : forall env envp D n X Y, (forall n, In n D -> forall w, image (env n) w <-> envp n w) ->
    (forall w, image X w <-> Y w) -> forall m, In m (n :: D) -> forall w, image (define n X env m) w <-> define n Y envp m w.
  Proof.
    intros env envp D n X Y HE HX m Hm w. unfold define. destruct (ustr_eq_dec m n) as [->|Ne]; [apply HX|]. apply HE.
    destruct Hm; [congruence|assumption].
  Qed.
  Lemma usection_image : forall items env envp D, (forall n, In n D -> forall w, image (env n) w <-> envp n w) ->
    (forall at_ els, In (at_, els) (all_entries items) -> at_ignore at_ <> yes_val -> flags_at at_ /\ Forall (written n0) els) ->
    (forall at_, sel at_ -> at_ignore at_ <> yes_val) -> uses_ok D items ->
    forall name w, image (usection code env items name) w <-> chosen_section sel true envp items name w.
  Proof.
    induction items as [|[n es|n es] items IH]; intros env envp D HE HO Hsel U name w; cbn [usection chosen_section].
    - split; [intros (u & [] & _)|intros []].
    - destruct U as [U1 U2]. apply (IH _ _ (n :: D)).
      + apply define_image; [exact HE|]. intros v. apply (uchosen_image env envp D es HE); [|exact Hsel].
        intros at_ els Hin Hi. destruct (HO at_ els) as [H1 H2]; [apply in_or_app; auto|exact Hi|]. eauto.
      + intros at_ els Hin. apply HO. apply in_or_app. auto.
      + exact Hsel.
      + exact U2.
    - destruct U as [U1 U2].
      assert (E1 : forall v, image (uchosen code env es) v <-> chosen_set sel true envp es v).
      { apply (uchosen_image env envp D es HE); [|exact Hsel].
        intros at_ els Hin Hi. destruct (HO at_ els) as [H1 H2]; [apply in_or_app; auto|exact Hi|]. eauto. }
      assert (E2 := IH env envp D HE (fun at_ els Hin => HO at_ els (in_or_app _ _ _ (or_intror Hin))) Hsel U2 name w).
      unfold join_sets. split.
      + intros (u & [[Hn Hu]|Hu] & R); [left; split; [exact Hn|]; apply E1; exists u; auto|right; apply E2; exists u; auto].
      + intros [[Hn Hw]|Hw].
        * apply E1 in Hw as (u & Hu & R). exists u. split; [left; auto|exact R].
        * apply E2 in Hw as (u & Hu & R). exists u. split; [right; auto|exact R].
  Qed.
End Image.

(** ** How much longer the flags make a word *)
Section Slack.
  Variable n0 : nat.
  Notation ers := (erase (Z.of_nat n0)).
  Definition slack (X : pset) : Prop := exists K, forall u, X u -> (length u <= length (ers u) + K)%nat.
  Lemma slack_cat : forall X Y, slack X -> slack Y -> slack (cat X Y).
  Proof.
    intros X Y (K & HK) (K' & HK'). exists (K + K')%nat. intros u (x & y & -> & Hx & Hy). unfold erase. rewrite filter_app, !app_length.
    specialize (HK x Hx). specialize (HK' y Hy). unfold erase in *. lia.
  Qed.
  Lemma slack_low : forall X : pset, (forall w, X w -> low (Z.of_nat n0) w) -> slack X.
  Proof. intros X H. exists 0%nat. intros u Hu. rewrite erase_low by auto. lia. Qed.
  Lemma flagset_length : forall code at_ u, flagset code at_ u -> (length u <= 5)%nat.
  Proof.
    intros code at_ u (cs & F & ->). unfold twins. rewrite map_length. assert (E : length cs = length (groups code at_)).
    { induction F; cbn; auto. }
    rewrite E. unfold groups. assert (G : forall l : list (list Z), (length (filter some_z l) <= length l)%nat).
    { induction l as [|x l IH]; [cbn; lia|]. cbn [filter]. destruct (some_z x); cbn [length]; lia. }
    specialize (G (map (group code) (attr_list at_))). cbn in G. exact G.
  Qed.
  Lemma slack_entry : forall env D, (forall n, In n D -> slack (env n)) -> forall els, Forall (written n0) els -> uses D els ->
    slack (entry_set true env els).
  Proof.
    intros env D HE. induction els as [|el els IH]; intros W U; cbn [entry_set].
    - apply slack_low. intros w -> p [].
    - apply slack_cat; [|apply IH; [exact (Forall_inv_tail W)|intros n Hn; apply U; now right]].
      destruct el as [l r wt|n|er].
      + apply slack_low. intros u Hu. apply (element_low _ n0 eq_refl env _ u (Forall_inv W)); [congruence|exact Hu].
      + apply HE. apply U. now left.
      + apply slack_low. intros u Hu. apply (element_low _ n0 eq_refl env _ u (Forall_inv W)); [congruence|exact Hu].
  Qed.
  Lemma slack_chosen : forall code env D es, (forall n, In n D -> slack (env n)) ->
    (forall at_ els, In (at_, els) es -> at_ignore at_ <> yes_val -> Forall (written n0) els /\ uses D els) -> slack (uchosen code env es).
  Proof.
    intros code env D es HE. induction es as [|[at_ els] es IH]; intros H.
    - exists 0%nat. intros u (x & y & [] & _).
    - destruct IH as (K & HK); [intros a e Hin; apply H; now right|].
      destruct (ustr_eq_dec (at_ignore at_) yes_val) as [Ei|Ni].
      + exists K. intros u (a & e & [E|Hin] & Hi & Hu); [injection E as <- <-; contradiction|]. apply HK. exists a, e. auto.
      + destruct (H at_ els (or_introl eq_refl) Ni) as [W U].
        destruct (slack_cat (flagset code at_) (entry_set true env els)) as (K' & HK').
        * exists 5%nat. intros u Hu. apply flagset_length in Hu. lia.
        * now apply (slack_entry env D).
        * exists (K + K')%nat. intros u (a & e & [E|Hin] & Hi & Hu).
          -- injection E as <- <-. specialize (HK' u Hu). lia.
          -- assert (Hc : uchosen code env es u) by (exists a, e; auto). specialize (HK u Hc). lia.
  Qed.
End Slack.

(** * The symbols for the restrictions *)
Definition agrees (code : ustr -> Z) (a : alphabet) : Prop := forall i t, nth_error (slexicinv a) i = Some t -> code t = tag_of i.
Lemma agrees_extends : forall code a b, extends a b -> agrees code b -> agrees code a.
Proof.
  intros code a b ((l & E) & _) H i t Hi. apply H. rewrite E. rewrite nth_error_app1; [exact Hi|]. apply nth_error_Some. congruence.
Qed.
Lemma agrees_own : forall a, alph_inv a -> agrees (fun t => symbol_code t a) a.
Proof. intros a Ha i t Hi. now destruct (symbol_code_nth a t i Ha Hi). Qed.
Lemma agrees_code : forall code a t, alph_inv a -> agrees code a -> In t (slexicinv a) -> symbol_code t a = code t.
Proof. intros code a t Ha H Hin. apply In_nth_error in Hin as (i & Hi). rewrite (H i t Hi). now destruct (symbol_code_nth a t i Ha Hi). Qed.
Lemma names_extends : forall a b t, extends a b -> In t (slexicinv a) -> In t (slexicinv b).
Proof. intros a b t ((l & ->) & _) H. apply in_or_app. auto. Qed.
Lemma include_inv0 : forall s a, alph_inv0 a -> alph_inv0 (includeSymbol s a).
Proof.
  intros s a [Ha H0]. split; [now apply include_inv|]. destruct (include_extends s a Ha) as (_ & l & E). rewrite E.
  destruct (spairinv a); [discriminate|exact H0].
Qed.

Lemma filter_symbols_ok : forall prefix words a cs a', alph_inv0 a -> ~ In [] words -> filter_symbols prefix words a = (cs, a') ->
  alph_inv0 a' /\ extends a a' /\ (forall w, In w words -> In (filter_tag prefix w) (slexicinv a'))
  /\ forall code, agrees code a' -> cs = map (fun w => code (filter_tag prefix w)) words.
Proof.
  intros prefix. induction words as [|w words IH]; intros a cs a' Ha Hn E.
  - cbn in E. injection E as <- <-. split; [exact Ha|]. split; [apply extends_refl|]. split; [intros w []|reflexivity].
  - destruct w as [|x w]; [exfalso; apply Hn; now left|]. cbn [filter_symbols] in E. set (tag := filter_tag prefix (x :: w)) in *.
    destruct (filter_symbols prefix words (includeSymbol tag a)) as [cs1 a1] eqn:E1. injection E as <- <-.
    destruct (IH _ _ _ (include_inv0 tag a Ha) (fun H => Hn (or_intror H)) E1) as (Ha1 & X1 & D1 & C1).
    assert (X0 := include_extends tag a (proj1 Ha)).
    assert (Dt : In tag (slexicinv a1)) by (apply (names_extends _ _ _ X1); apply include_in; apply Ha).
    split; [exact Ha1|]. split; [exact (extends_trans _ _ _ X0 X1)|]. split.
    + intros v [<-|Hv]; [exact Dt|auto].
    + intros code Hc. cbn [map]. f_equal; [|auto]. fold tag. apply agrees_code; [apply (include_inv0 tag a Ha)| |apply include_in; apply Ha].
      exact (agrees_extends _ _ _ X1 Hc).
Qed.
Lemma symbolFilters_ok : forall value prefix a, alph_inv0 a -> exists gs a', symbolFilters value prefix a = Ok (gs, a')
  /\ alph_inv0 a' /\ extends a a' /\ (forall w, In w (vwords value) -> In (filter_tag prefix w) (slexicinv a'))
  /\ forall code, agrees code a' -> gs = filter some_z [group code (prefix, value)].
Proof.
  intros value prefix a Ha. unfold symbolFilters. destruct value as [|x v] eqn:Ev.
  - exists [], a. split; [reflexivity|]. split; [exact Ha|]. split; [apply extends_refl|]. split; [intros w []|reflexivity].
  - rewrite <- Ev in *. assert (Ew : exists ws, split (S (length value)) value [32] = Ok ws /\ vwords value = ws /\ ~ In [] ws).
    { destruct (C51_split value [32] ltac:(discriminate)) as (ps & Es & _). eexists. split; [exact Es|]. split.
      - unfold vwords. rewrite Ev. rewrite Ev in Es. rewrite Es. reflexivity.
      - intros H. apply filter_In in H as [_ H]. discriminate. }
    destruct Ew as (ws & Es & Evw & Hn). rewrite Es. cbn [obind]. destruct (filter_symbols prefix ws a) as [syms a'] eqn:E.
    destruct (filter_symbols_ok prefix ws a syms a' Ha Hn E) as (Ha' & X & Dn & C).
    eexists _, a'. split; [reflexivity|]. split; [exact Ha'|]. split; [exact X|]. split; [now rewrite Evw|].
    intros code Hc. rewrite (C code Hc). unfold group. cbn [fst snd filter]. rewrite Evw.
    destruct (map (fun w => code (filter_tag prefix w)) ws); reflexivity.
Qed.
Lemma entry_filters_ok : forall at_ a, alph_inv0 a -> exists gs a', entry_filters at_ a = Ok (gs, a')
  /\ alph_inv0 a' /\ extends a a' /\ (forall p v w, In (p, v) (attr_list at_) -> In w (vwords v) -> In (filter_tag p w) (slexicinv a'))
  /\ forall code, agrees code a' -> gs = groups code at_.
Proof.
  intros at_ a Ha. unfold entry_filters.
  destruct (symbolFilters_ok (at_r at_) p_r a Ha) as (g1 & a1 & -> & H1 & X1 & D1 & C1). cbn [obind].
  destruct (symbolFilters_ok (at_alt at_) p_alt a1 H1) as (g2 & a2 & -> & H2 & X2 & D2 & C2). cbn [obind].
  destruct (symbolFilters_ok (at_v at_) p_v a2 H2) as (g3 & a3 & -> & H3 & X3 & D3 & C3). cbn [obind].
  destruct (symbolFilters_ok (at_vl at_) p_vl a3 H3) as (g4 & a4 & -> & H4 & X4 & D4 & C4). cbn [obind].
  destruct (symbolFilters_ok (at_vr at_) p_vr a4 H4) as (g5 & a5 & -> & H5 & X5 & D5 & C5). cbn [obind].
  assert (Y4 := X5). assert (Y3 := extends_trans _ _ _ X4 Y4). assert (Y2 := extends_trans _ _ _ X3 Y3). assert (Y1 := extends_trans _ _ _ X2 Y2).
  eexists _, a5. split; [reflexivity|]. split; [exact H5|]. split; [exact (extends_trans _ _ _ X1 Y1)|]. split.
  - intros p v w [E|[E|[E|[E|[E|[]]]]]] Hw; injection E as <- <-.
    + exact (names_extends _ _ _ Y1 (D1 w Hw)).
    + exact (names_extends _ _ _ Y2 (D2 w Hw)).
    + exact (names_extends _ _ _ Y3 (D3 w Hw)).
    + exact (names_extends _ _ _ Y4 (D4 w Hw)).
    + exact (D5 w Hw).
  - intros code Hc. rewrite (C1 code (agrees_extends _ _ _ Y1 Hc)), (C2 code (agrees_extends _ _ _ Y2 Hc)), (C3 code (agrees_extends _ _ _ Y3 Hc)),
      (C4 code (agrees_extends _ _ _ Y4 Hc)), (C5 code Hc). unfold groups, attr_list. cbn [map].
    rewrite <- !filter_app. reflexivity.
Qed.

(** * The paradigms of restrictions *)
Lemma not_reserved : forall c, c < 0 -> ~ In c reserved.
Proof. intros c H Hin. cbn in Hin. lia. Qed.
Lemma class_items : forall it, Forall (fun c => c < 0) it -> g_items (map (fun c => (c, c)) it) it.
Proof.
  induction 1 as [|c it Hc _ IH]; [constructor|]. cbn [map]. change (c :: it) with ([c] ++ it). constructor; [|exact IH].
  constructor. now apply not_reserved.
Qed.
Lemma in_class : forall c it, in_items c (map (fun c => (c, c)) it) <-> In c it.
Proof.
  intros c it. unfold in_items. split.
  - intros (lo & hi & Hin & H). apply in_map_iff in Hin as (x & E & Hx). injection E as <- <-. replace c with x by lia. exact Hx.
  - intros H. exists c, c. split; [|lia]. apply in_map_iff. eauto.
Qed.
Definition item_regexp (it : list Z) : list Z := match it with [c] => [c] | _ => [91] ++ it ++ [93] end.
Lemma item_re : forall it, it <> [] -> Forall (fun c => c < 0) it ->
  exists r, g_post r (item_regexp it) /\ choosable latin1 r /\ forall cs, den latin1 r cs <-> exists c, cs = [c] /\ In c it.
Proof.
  intros it Hn F. destruct it as [|c [|d it2]] eqn:E; [contradiction| |].
  - exists (Chr c). split; [|split; [exact I|]].
    + apply g_plain, g_chr, g_plain_char, not_reserved. exact (Forall_inv F).
    + intros cs. cbn. split; [intros ->; eauto|]. now intros (x & -> & [->|[]]).
  - rewrite <- E in *. exists (Cls false (map (fun c => (c, c)) it)). split; [|split; [discriminate|]].
    + replace (item_regexp it) with ([91] ++ it ++ [93]) by now rewrite E.
      apply g_plain, g_cls; [now apply class_items|]. rewrite E. discriminate.
    + intros cs. cbn [den]. split; intros (x & -> & H); exists x; (split; [reflexivity|]); now apply in_class.
Qed.
Lemma groups_re : forall gs, gs <> [] -> Forall (fun it => it <> [] /\ Forall (fun c => c < 0) it) gs ->
  exists r, g_seq r (filter_regexp gs) /\ choosable latin1 r /\ forall cs, den latin1 r cs <-> Forall2 (@In Z) cs gs.
Proof.
  induction gs as [|it gs IH]; [contradiction|]. intros _ F. destruct (Forall_inv F) as [Hn Hi]. destruct (item_re it Hn Hi) as (r & G & C & Dn).
  destruct gs as [|it2 gs].
  - exists r. split; [|split; [exact C|]].
    + unfold filter_regexp. cbn [flat_map]. rewrite app_nil_r. now apply g_term.
    + intros cs. rewrite Dn. split.
      * intros (c & -> & Hc). constructor; [exact Hc|constructor].
      * intros H. inversion H as [|c it' cs' l Hc Hl]; subst. inversion Hl; subst. eauto.
  - destruct IH as (r2 & G2 & C2 & D2); [discriminate|exact (Forall_inv_tail F)|].
    exists (Cat r r2). split; [|split; [split; [exact C|exact C2]|]].
    + change (filter_regexp (it :: it2 :: gs)) with (item_regexp it ++ filter_regexp (it2 :: gs)). now apply g_cat.
    + intros cs. cbn [den]. split.
      * intros (u & v & -> & Hu & Hv). apply Dn in Hu as (c & -> & Hc). apply D2 in Hv. constructor; assumption.
      * intros H. inversion H as [|c it' cs' l Hc Hl]; subst. exists [c], cs'. split; [reflexivity|]. split; [apply Dn; eauto|now apply D2].
Qed.
Lemma regexp_set : forall er r b env, g_alt r er -> Forall (fun c => c <> FIN_FICHERO) er -> choosable latin1 r ->
  forall w, element_set b env (Regexp er) w <-> exists cs, den latin1 r cs /\ w = same_pairs cs.
Proof.
  intros er r b env G N C w. split; [|intros (cs & Hd & ->); exists r, cs; auto].
  intros Hw.
  assert (St : alt_stop []) by (apply alt_stop_iff; [constructor|now left]).
  destruct (compile_alt new_alphabet r er [] new_inv G N C St) as (a' & t & E & Wt & Ha' & X & Hf & Q & Cv & Lt). rewrite app_nil_r in E.
  destruct (regexp_compiled new_alphabet er r new_inv G N C) as (a2 & t2 & f & E2 & _ & _ & _ & _ & _ & S).
  assert (a2 = a') as -> by congruence. assert (t2 = t) as -> by congruence. destruct (S b env) as [Cv2 L2].
  destruct (Tg_some a' _ w Cv2 Hw) as (u & Hu & R). apply L2 in Hu as (c & Hc). apply Lt in Hc as (_ & cs & Hd & Ht).
  exists cs. split; [exact Hd|]. apply reads_same_pairs in Ht. clear - R Ht. unfold reads in *. revert R Ht. generalize (same_pairs cs) as v. intros v. revert w v.
  induction u as [|x u IH]; intros w v H1 H2; inversion H1; subst; inversion H2; subst; [reflexivity|]. f_equal; [congruence|auto].
Qed.
Lemma twins_pairs : forall cs, Forall (fun c => c < 0) cs -> same_pairs cs = twins cs.
Proof.
  induction 1 as [|c cs Hc _ IH]; [reflexivity|]. unfold same_pairs, twins in *. cbn [filter]. replace (c =? 0) with false by lia.
  cbn [negb map]. now f_equal.
Qed.
Lemma twins_align : forall cs, align cs cs = twins cs.
Proof. induction cs as [|c cs IH]; [reflexivity|]. cbn [align twins map]. now f_equal. Qed.

Lemma base_alph : forall env D L c b, base env D L c -> alph_inv0 b -> extends (c_alph c) b -> base env D L (with_alph b c).
Proof.
  intros env D L c b B Hb X. constructor; cbn [with_alph c_alph c_pars c_secs c_caches]; try apply B.
  - exact Hb.
  - exact (pars_ok_extends _ _ _ _ _ (proj1 Hb) X (bs_pars _ _ _ _ B)).
  - intros n. destruct (bs_secs _ _ _ _ B n) as (A & M). exists A. exact (mid_extends _ _ _ _ _ _ _ _ (proj1 Hb) X M).
Qed.
Lemma base_env : forall env env' D L c, (forall n, In n D -> env' n = env n) -> base env D L c -> base env' D L c.
Proof.
  intros env env' D L c H B. constructor; try apply B.
  - intros n Hn. rewrite H by exact Hn. now apply B.
  - intros n. destruct (bs_secs _ _ _ _ B n) as (A & M). exists A. apply (mid_env env D); [|exact M]. auto.
Qed.
Lemma reading_alph : forall env D L n Lp c b, reading env D L n Lp c -> alph_inv0 b -> extends (c_alph c) b -> reading env D L n Lp (with_alph b c).
Proof.
  intros env D L n Lp c b [B Hc U (A & M) Rn Rs] Hb X. constructor; cbn [with_alph c_alph c_pars c_secs c_caches current_paradigm]; auto.
  - now apply base_alph.
  - exists A. exact (mid_extends _ _ _ _ _ _ _ _ (proj1 Hb) X M).
Qed.

(** A paradigm made of one regular expression. *)
Lemma make_paradigm : forall s n er r X c, alph_inv0 (c_alph c) -> n <> [] -> name_find n (c_pars c) = None ->
  g_alt r er -> Forall (fun c => c <> FIN_FICHERO) er -> choosable latin1 r ->
  (forall w, (exists cs, den latin1 r cs /\ w = same_pairs cs) <-> X w) -> (exists w, X w) ->
  exists c' t, insertEntryTokens s [Regexp er] (with_paradigm n c) = Ok c' /\ alph_inv0 (c_alph c') /\ extends (c_alph c) (c_alph c')
    /\ c' = mkComp (c_alph c') (name_set n t (c_pars c)) (c_secs c) (c_caches c) n (current_section c)
    /\ isEmpty t = false /\ par_ok (c_alph c') t X.
Proof.
  intros s n er r X c Ha Nn Hf G Nf C HX Sx. unfold insertEntryTokens. cbn [with_paradigm current_paradigm c_pars c_alph].
  destruct n as [|n1 n2] eqn:En; [contradiction|]. rewrite <- En in *. cbv iota. unfold name_get. rewrite Hf. cbn [paradigm_tokens].
  destruct (regexp_compiled (c_alph c) er r Ha G Nf C) as (a' & t & f & E & Wt & Ha' & X' & Hft & Q & S).
  destruct (S true (fun _ => no_words)) as [Cv Lt]. unfold insert_regexp. cbn [w_alph w_e w_t w_pars]. rewrite E. cbn [obind].
  assert (M0 : mid (fun _ => no_words) [] a' new_transducer (fun q => q = 0%nat) no_words (mkC [] [] [])) by apply mid_new.
  assert (P0 := pos_root _ _ _ _ _ _ _ M0). assert (Tr := md_trie _ _ _ _ _ _ _ M0).
  destruct (insert_copy new_transducer _ t f 0 (initial new_transducer) Tr (ps_at _ _ _ _ _ P0) Wt Hft) as (T' & E' & I & Rk).
  destruct (insert_quiet _ _ a' _ _ _ _ _ _ t f 0 _ M0 P0 Wt Hft Q Cv Lt) as (T2 & A2 & E2 & M2 & P2).
  assert (T2 = T') as -> by congruence. rewrite E'. cbn [obind w_alph w_e w_t w_pars].
  set (e := (nstates new_transducer + f)%nat) in *.
  assert (F2 := finish_entry _ _ _ _ _ _ _ _ _ M2 P2).
  assert (HL : forall w, join_sets no_words (cat (fun w => w = []) (element_set true (fun _ => no_words) (Regexp er))) w <-> X w).
  { intros w. unfold join_sets, no_words. rewrite cat_nil_l by reflexivity. rewrite (regexp_set er r true (fun _ => no_words) G Nf C), HX. intuition. }
  apply (mid_iff _ _ _ _ _ _ _ _ HL) in F2.
  assert (Ef : finals (setFinal e 0 true T') = [(e, 0)]).
  { unfold setFinal. cbn [finals]. rewrite (in_finals _ _ _ _ _ I). reflexivity. }
  eexists _, (setFinal e 0 true T'). split; [reflexivity|]. cbn [c_alph current_paradigm c_secs c_caches current_section]. split; [exact Ha'|]. split; [exact X'|].
  split; [reflexivity|]. split; [apply finals_not_empty; rewrite Ef; discriminate|]. constructor.
  - exact (tr_wf _ _ (md_trie _ _ _ _ _ _ _ F2)).
  - exists e, 0. exact Ef.
  - apply F2.
  - apply F2.
  - exact Sx.
  - intros _ p g Hp. unfold final_wt in Hp. rewrite Ef in Hp. destruct Hp as [Hp|[]]. assert (p = e) as -> by congruence.
    intros x q w Hx. assert (Hx' : has_arc T' e x q w) by exact Hx. clear Hx.
    apply (in_arcs _ _ _ _ _ I) in Hx' as [H|[(p' & q' & Ep & _ & H)|(Ep & -> & _)]].
    + apply has_arc_lt in H. unfold e in H. lia.
    + assert (p' = f) as -> by (unfold e in Ep; lia). apply (Q f 0) in H; [exact H|]. unfold final_wt. rewrite Hft. now left.
    + reflexivity.
Qed.

(** ** The first elements of an entry *)
Definition multi (gs : list (list Z)) : bool := existsb (fun it : list Z => (1 <? length it)%nat) gs.
Definition low_groups (gs : list (list Z)) : Prop := Forall (fun it : list Z => it <> [] /\ Forall (fun c => c < 0) it) gs.
Lemma filter_regexp_fin : forall gs, low_groups gs -> Forall (fun c => c <> FIN_FICHERO) (filter_regexp gs).
Proof.
  induction 1 as [|it gs [_ Hi] _ IH]; [constructor|]. change (filter_regexp (it :: gs)) with (item_regexp it ++ filter_regexp gs).
  apply Forall_app. split; [|exact IH]. unfold item_regexp, FIN_FICHERO.
  assert (F : Forall (fun c => c <> 2147483647) it) by (eapply Forall_impl; [|exact Hi]; cbn beta; intros c; lia).
  assert (F2 : Forall (fun c => c <> 2147483647) ([91] ++ it ++ [93])).
  { constructor; [lia|]. apply Forall_app. split; [exact F|]. constructor; [lia|constructor]. }
  destruct it as [|c [|d it2]]; [exact F2|exact F|exact F2].
Qed.
Lemma low_negative : forall gs cs, low_groups gs -> Forall2 (@In Z) cs gs -> Forall (fun c => c < 0) cs.
Proof.
  intros gs cs H F. induction F as [|c it cs gs Hc F IH]; [constructor|]. destruct (Forall_inv H) as [_ Hi]. rewrite Forall_forall in Hi.
  constructor; [apply Hi in Hc; lia|]. apply IH. exact (Forall_inv_tail H).
Qed.
Lemma low_some : forall gs, low_groups gs -> exists cs, Forall2 (@In Z) cs gs.
Proof.
  induction 1 as [|it gs [Hn _] _ (cs & IH)]; [exists []; constructor|]. destruct it as [|c it]; [contradiction|].
  exists (c :: cs). constructor; [now left|exact IH].
Qed.
Lemma singles : forall gs, low_groups gs -> multi gs = false -> gs = map (fun c => [c]) (map (fun it => hd 0 it) gs).
Proof.
  induction 1 as [|it gs [Hn _] _ IH]; [reflexivity|]. cbn [multi existsb map]. intros E. apply orb_false_elim in E as [E1 E2].
  destruct it as [|c [|d it]]; [contradiction| |discriminate]. cbn [hd]. f_equal. now apply IH.
Qed.
Lemma singles_in : forall cs cs', Forall2 (@In Z) cs' (map (fun c => [c]) cs) <-> cs' = cs.
Proof.
  induction cs as [|c cs IH]; intros cs'; cbn [map].
  - split; [intros H; now inversion H|intros ->; constructor].
  - split.
    + intros H. inversion H as [|x it y l Hx Hl]; subst. apply IH in Hl as ->. destruct Hx as [->|[]]. reflexivity.
    + intros ->. constructor; [now left|]. now apply IH.
Qed.

Lemma filter_elements_ok : forall s code at_ c gs a1, entry_filters at_ (c_alph c) = Ok (gs, a1) -> alph_inv0 a1 ->
  gs = groups code at_ -> low_groups gs ->
  let n := filter_paradigm at_ in
  let c1 := with_alph a1 c in
  (multi gs = false /\ exists pre, filter_elements s at_ c = Ok (pre, c1)
     /\ (pre = [] \/ exists syms, pre = [Single syms syms 0] /\ ~ In 0 syms) /\ forall env w, entry_set true env pre w <-> flagset code at_ w)
  \/ (multi gs = true /\ (exists t, name_find n (c_pars c) = Some t) /\ filter_elements s at_ c = Ok ([Paradigm n], c1))
  \/ (multi gs = true /\ name_find n (c_pars c) = None /\ exists a2 t,
      filter_elements s at_ c = Ok ([Paradigm n], mkComp a2 (name_set n t (c_pars c)) (c_secs c) (c_caches c) (current_paradigm c) (current_section c))
      /\ alph_inv0 a2 /\ extends a1 a2 /\ isEmpty t = false /\ par_ok a2 t (flagset code at_)).
Proof.
  intros s code at_ c gs a1 E Ha1 Eg Lg n c1. unfold filter_elements. rewrite E. cbn [obind]. fold c1. fold (multi gs).
  destruct (multi gs) eqn:Em.
  - destruct gs as [|g0 gs0] eqn:Egs; [discriminate|]. rewrite <- Egs in *. right. change (c_pars c1) with (c_pars c). fold n.
    destruct (name_find n (c_pars c)) as [t|] eqn:Ef; [left|right]; (split; [reflexivity|]).
    + split; [eauto|]. reflexivity.
    + split; [reflexivity|]. destruct (groups_re gs) as (r & G & Cr & Dr); [rewrite Egs; discriminate|exact Lg|].
      destruct (make_paradigm s n (filter_regexp gs) r (flagset code at_) c1) as (c' & t & E' & Ha' & X' & Ec & Em' & P).
      * exact Ha1.
      * unfold n, filter_paradigm. discriminate.
      * exact Ef.
      * now apply g_one.
      * now apply filter_regexp_fin.
      * exact Cr.
      * intros w. unfold flagset. rewrite <- Eg. split.
        -- intros (cs & Hd & ->). apply Dr in Hd. exists cs. split; [exact Hd|]. apply twins_pairs. exact (low_negative gs cs Lg Hd).
        -- intros (cs & Hd & ->). exists cs. split; [now apply Dr|]. symmetry. apply twins_pairs. exact (low_negative gs cs Lg Hd).
      * destruct (low_some gs Lg) as (cs & Hc). exists (twins cs), cs. rewrite <- Eg. auto.
      * exists (c_alph c'), t. rewrite E'. cbn [obind]. split; [|auto]. f_equal. f_equal. rewrite Ec. reflexivity.
  - left. split; [reflexivity|]. set (syms := map (fun it => hd 0 it) gs).
    assert (Es := singles gs Lg Em). fold syms in Es.
    assert (Hset : forall w, w = twins syms <-> flagset code at_ w).
    { intros w. unfold flagset. rewrite <- Eg. rewrite Es. split.
      - intros ->. exists syms. split; [now apply singles_in|reflexivity].
      - intros (cs & Hc & ->). apply singles_in in Hc as ->. reflexivity. }
    destruct gs as [|g0 gs0] eqn:Egs.
    + exists []. split; [reflexivity|]. split; [now left|]. intros env w. cbn [entry_set]. exact (Hset w).
    + rewrite <- Egs in *. exists [Single syms syms 0]. split; [reflexivity|]. split.
      * right. exists syms. split; [reflexivity|]. intros H0.
        assert (F : Forall2 (@In Z) syms gs) by (rewrite Es; now apply singles_in).
        assert (Ng := low_negative gs syms Lg F). rewrite Forall_forall in Ng. apply Ng in H0. lia.
      * intros env w. cbn [entry_set element_set]. rewrite twins_align. rewrite <- Hset. split.
        -- intros (u & v & -> & -> & ->). now rewrite app_nil_r.
        -- intros ->. exists (twins syms), []. now rewrite app_nil_r.
Qed.

(** ** One entry *)
Definition nextD (gs : list (list Z)) (at_ : attributes) (D : list ustr) : list ustr :=
  if multi gs then (if in_dec ustr_eq_dec (filter_paradigm at_) D then D else filter_paradigm at_ :: D) else D.
Lemma nextD_incl : forall gs at_ D n, In n D -> In n (nextD gs at_ D).
Proof. intros gs at_ D n H. unfold nextD. destruct (multi gs); [|exact H]. destruct (in_dec ustr_eq_dec (filter_paradigm at_) D); [exact H|now right]. Qed.
Lemma nextD_in : forall gs at_ D n, In n (nextD gs at_ D) -> In n D \/ n = filter_paradigm at_.
Proof.
  intros gs at_ D n. unfold nextD. destruct (multi gs); [|auto]. destruct (in_dec ustr_eq_dec (filter_paradigm at_) D); [auto|]. intros [H|H]; auto.
Qed.
Lemma entry_ok_incl : forall env D D' els, (forall n, In n D -> In n D') -> entry_ok env D els -> entry_ok env D' els.
Proof.
  intros env D D' els H. induction els as [|el els IH]; [auto|]. cbn [entry_ok]. intros [H1 H2]. split; [|auto].
  destruct el; cbn [element_ok] in *; auto. destruct H1. auto.
Qed.
Lemma entry_set_app : forall b env x y w, entry_set b env (x ++ y) w <-> cat (entry_set b env x) (entry_set b env y) w.
Proof.
  intros b env x y. induction x as [|el x IH]; intros w; cbn [app entry_set].
  - symmetry. apply cat_nil_l. reflexivity.
  - rewrite cat_assoc. apply cat_iff; [reflexivity|exact IH].
Qed.
Definition unified : settings := mkSet true [] None.

(** What the first elements leave behind, between items and within a paradigm. *)
Record prefixed_by (code : ustr -> Z) (env : ustr -> pset) (D1 : list ustr) (at_ : attributes) (pre : list entry_token) : Prop := {
  pb_ok : forall els, entry_ok env D1 els -> entry_ok env D1 (pre ++ els);
  pb_set : forall w, entry_set true env pre w <-> flagset code at_ w
}.
Lemma flags_bounded : forall code at_ (X : pset), (forall w, X w <-> flagset code at_ w) -> bounded X.
Proof. intros code at_ X H. exists 5%nat. intros w Hw. apply (flagset_length code at_). now apply H. Qed.
Lemma scan_skip : forall c n els t, name_find n (c_pars c) = Some t -> isEmpty t = false -> current_paradigm c <> n ->
  scan_entry c (Paradigm n :: els) = scan_entry c els.
Proof.
  intros c n els t E1 E2 N. cbn [scan_entry]. rewrite E1, E2. destruct (current_paradigm c) as [|x y] eqn:Ec; [reflexivity|].
  destruct (ustr_eq_dec n (x :: y)); [congruence|reflexivity].
Qed.
Lemma pars_alive : forall env D a pars n, pars_ok env D a pars -> In n D -> (exists w, env n w) ->
  exists t, name_find n pars = Some t /\ isEmpty t = false.
Proof.
  intros env D a pars n P Hn (w & Hw). destruct (P n Hn) as (t & E & [[_ H]|[H _]]); [now apply H in Hw|]. eauto.
Qed.

Section OneEntry.
  Variables (code : ustr -> Z) (env : ustr -> pset) (at_ : attributes) (gs : list (list Z)) (a1 : alphabet).
  Hypothesis (Ha1 : alph_inv0 a1) (Eg : gs = groups code at_) (Lg : low_groups gs).
  Hypothesis Henv : forall w, env (filter_paradigm at_) w <-> flagset code at_ w.
  Notation n := (filter_paradigm at_).
  Lemma flags_some : exists w, env n w.
  Proof. destruct (low_some gs Lg) as (cs & Hc). exists (twins cs). apply Henv. exists cs. rewrite <- Eg. auto. Qed.
  Lemma par_prefix : forall D1, In n D1 -> prefixed_by code env D1 at_ [Paradigm n].
  Proof.
    intros D1 H. constructor.
    - intros els He. cbn [app entry_ok element_ok]. split; [|exact He]. split; [exact H|]. intros _. exact (flags_bounded code at_ _ Henv).
    - intros w. cbn [entry_set element_set]. rewrite cat_nil_r. apply Henv.
  Qed.
  Lemma single_prefix : forall D1 pre, (pre = [] \/ exists syms, pre = [Single syms syms 0] /\ ~ In 0 syms) ->
    (forall w, entry_set true env pre w <-> flagset code at_ w) -> prefixed_by code env D1 at_ pre.
  Proof.
    intros D1 pre H Hs. constructor; [|exact Hs]. intros els He. destruct H as [->|(syms & -> & H0)]; [exact He|].
    cbn [app entry_ok element_ok]. auto.
  Qed.
  Lemma par_ok_iff : forall a t X Y, (forall w, X w <-> Y w) -> par_ok a t X -> par_ok a t Y.
  Proof.
    intros a t X Y H [H1 H2 H3 H4 (w & H5) H6]. constructor; auto.
    - exact (cov_iff a X Y H H3).
    - intros u. rewrite H4. now apply Tg_iff.
    - exists w. now apply H.
    - intros (K & HK). apply H6. exists K. intros v Hv. apply HK. now apply H.
  Qed.
  Lemma base_auto : forall D L c b t cur, base env D L c -> alph_inv0 b -> extends (c_alph c) b -> ~ In n D ->
    isEmpty t = false -> par_ok b t (flagset code at_) ->
    base env (n :: D) L (mkComp b (name_set n t (c_pars c)) (c_secs c) (c_caches c) cur (current_section c)).
  Proof.
    intros D L c b t cur B Hb X Hn Et P. assert (B1 := base_alph env D L c b B Hb X).
    assert (B2 := base_define env D L (with_alph b c) n (env n) t cur B1 Hn).
    apply (base_env (define n (env n) env)).
    - intros m _. unfold define. destruct (ustr_eq_dec m n) as [->|]; reflexivity.
    - apply B2. right. split; [exact Et|]. cbn [with_alph c_alph]. apply (par_ok_iff b t (flagset code at_)); [|exact P]. intros w. now rewrite Henv.
  Qed.
  Variable c : compiler.
  Hypothesis (Ef : entry_filters at_ (c_alph c) = Ok (gs, a1)) (Xc : extends (c_alph c) a1).

  Lemma section_prefix : forall D L, base env D L c -> unknown D c -> current_paradigm c = [] ->
    exists pre c1, filter_elements unified at_ c = Ok (pre, c1) /\ base env (nextD gs at_ D) L c1 /\ unknown (nextD gs at_ D) c1
      /\ extends a1 (c_alph c1) /\ current_paradigm c1 = [] /\ current_section c1 = current_section c
      /\ prefixed_by code env (nextD gs at_ D) at_ pre /\ forall els, scan_entry c1 (pre ++ els) = scan_entry c1 els.
  Proof.
    intros D L B U Hc. unfold nextD.
    destruct (filter_elements_ok unified code at_ c gs a1 Ef Ha1 Eg Lg) as [(Em & pre & E & Hp & Hs)|[(Em & (t & Et) & E)|(Em & Et & a2 & t & E & Ha2 & X2 & Ee & P)]]; rewrite Em.
    - exists pre, (with_alph a1 c). split; [exact E|]. split; [now apply base_alph|]. split; [exact U|]. split; [apply extends_refl|]. split; [exact Hc|].
      split; [reflexivity|]. split; [now apply single_prefix|]. intros els. destruct Hp as [->|(syms & -> & _)]; reflexivity.
    - assert (Hn : In n D). { destruct (in_dec ustr_eq_dec n D) as [|Hn]; [assumption|]. apply U in Hn. congruence. }
      destruct (in_dec ustr_eq_dec n D) as [_|]; [|contradiction].
      exists [Paradigm n], (with_alph a1 c). split; [exact E|]. split; [now apply base_alph|]. split; [exact U|]. split; [apply extends_refl|]. split; [exact Hc|].
      split; [reflexivity|]. split; [now apply par_prefix|]. intros els.
      destruct (pars_alive env D (c_alph c) (c_pars c) n (bs_pars _ _ _ _ B) Hn flags_some) as (t0 & E1 & E2).
      apply (scan_skip _ n els t0); [exact E1|exact E2|]. cbn [with_alph current_paradigm]. rewrite Hc. unfold filter_paradigm. discriminate.
    - assert (Hn : ~ In n D). { intros Hn. destruct (bs_pars _ _ _ _ B n Hn) as (t0 & E0 & _). congruence. }
      destruct (in_dec ustr_eq_dec n D) as [|_]; [contradiction|].
      eexists [Paradigm n], _. split; [exact E|]. cbn [c_alph current_paradigm current_section].
      split; [apply base_auto; auto; exact (extends_trans _ _ _ Xc X2)|]. split.
      + intros m Hm. cbn [c_pars]. rewrite name_find_set. destruct (ustr_eq_dec m n) as [->|]; [exfalso; apply Hm; now left|].
        apply U. intros H. apply Hm. now right.
      + split; [exact X2|]. split; [exact Hc|]. split; [reflexivity|]. split; [apply par_prefix; now left|]. intros els.
        apply (scan_skip _ n els t); [|exact Ee|].
        * cbn [c_pars]. rewrite name_find_set. destruct (ustr_eq_dec n n); [reflexivity|contradiction].
        * cbn [current_paradigm]. rewrite Hc. unfold filter_paradigm. discriminate.
  Qed.
  Lemma paradigm_prefix : forall D L m Lp, reading env D L m Lp c -> m <> n ->
    exists pre c1, filter_elements unified at_ c = Ok (pre, c1) /\ reading env (nextD gs at_ D) L m Lp c1
      /\ extends a1 (c_alph c1)
      /\ prefixed_by code env (nextD gs at_ D) at_ pre /\ forall els, scan_entry c1 (pre ++ els) = scan_entry c1 els.
  Proof.
    intros D L m Lp R Nm. unfold nextD.
    destruct (filter_elements_ok unified code at_ c gs a1 Ef Ha1 Eg Lg) as [(Em & pre & E & Hp & Hs)|[(Em & (t & Et) & E)|(Em & Et & a2 & t & E & Ha2 & X2 & Ee & P)]]; rewrite Em.
    - exists pre, (with_alph a1 c). split; [exact E|]. split; [now apply reading_alph|]. split; [apply extends_refl|].
      split; [now apply single_prefix|]. intros els. destruct Hp as [->|(syms & -> & _)]; reflexivity.
    - assert (Hn : In n D).
      { destruct (in_dec ustr_eq_dec n D) as [|Hn]; [assumption|]. apply (rd_unknown _ _ _ _ _ _ R) in Hn; [congruence|]. auto. }
      destruct (in_dec ustr_eq_dec n D) as [_|]; [|contradiction].
      exists [Paradigm n], (with_alph a1 c). split; [exact E|]. split; [now apply reading_alph|]. split; [apply extends_refl|].
      split; [now apply par_prefix|]. intros els.
      destruct (pars_alive env D (c_alph c) (c_pars c) n (bs_pars _ _ _ _ (rd_base _ _ _ _ _ _ R)) Hn flags_some) as (t0 & E1 & E2).
      apply (scan_skip _ n els t0); [exact E1|exact E2|]. cbn [with_alph current_paradigm]. rewrite (rd_cur _ _ _ _ _ _ R). exact Nm.
    - assert (Hn : ~ In n D). { intros Hn. destruct (bs_pars _ _ _ _ (rd_base _ _ _ _ _ _ R) n Hn) as (t0 & E0 & _). congruence. }
      destruct (in_dec ustr_eq_dec n D) as [|_]; [contradiction|].
      assert (X3 := extends_trans _ _ _ Xc X2).
      eexists [Paradigm n], _. split; [exact E|]. cbn [c_alph current_paradigm current_section]. split; [|split; [exact X2|split; [apply par_prefix; now left|]]].
      + destruct R as [B Hc U (A & M) Rn Rs].
        assert (Em2 : forall x, name_find m (name_set n x (c_pars c)) = name_find m (c_pars c)).
        { intros x. rewrite name_find_set. destruct (ustr_eq_dec m n); [contradiction|reflexivity]. }
        constructor; cbn [c_alph c_pars current_paradigm].
        * now apply base_auto.
        * exact Hc.
        * intros k Hk Nk. rewrite name_find_set. destruct (ustr_eq_dec k n) as [->|]; [exfalso; apply Hk; now left|].
          apply U; [|exact Nk]. intros H. apply Hk. now right.
        * exists A. unfold name_get in *. rewrite Em2. apply (mid_env env D); [intros k Hk; split; [now right|reflexivity]|].
          exact (mid_extends _ _ _ _ _ _ _ _ (proj1 Ha2) X3 M).
        * rewrite Em2. exact Rn.
        * rewrite Em2. exact Rs.
      + intros els. apply (scan_skip _ n els t); [|exact Ee|].
        * cbn [c_pars]. rewrite name_find_set. destruct (ustr_eq_dec n n); [reflexivity|contradiction].
        * cbn [current_paradigm]. rewrite (rd_cur _ _ _ _ _ _ R). exact Nm.
  Qed.

  Hypothesis Hi : at_ignore at_ <> yes_val.
  Lemma uproc_entry : forall pre c1 els, filter_elements unified at_ c = Ok (pre, c1) ->
    (forall els, scan_entry c1 (pre ++ els) = scan_entry c1 els) -> uproc unified (UEntry at_ els) c = proc unified (Entry (pre ++ els)) c1.
  Proof.
    intros pre c1 els E Hs. unfold uproc. destruct (ustr_eq_dec (at_ignore at_) yes_val); [contradiction|]. rewrite E. cbn [obind proc].
    rewrite Hs. reflexivity.
  Qed.
  Lemma section_uentry : forall D L els, base env D L c -> unknown D c -> current_paradigm c = [] -> entry_ok env D els ->
    exists c', uproc unified (UEntry at_ els) c = Ok c'
      /\ base env (nextD gs at_ D) (also L (current_section c) (cat (flagset code at_) (entry_set true env els))) c'
      /\ unknown (nextD gs at_ D) c' /\ extends a1 (c_alph c') /\ current_paradigm c' = [] /\ current_section c' = current_section c.
  Proof.
    intros D L els B U Hc Ho. destruct (section_prefix D L B U Hc) as (pre & c1 & E & B1 & U1 & X1 & Hc1 & Hs1 & Pb & Sc).
    rewrite (uproc_entry pre c1 els E Sc).
    destruct (section_entry unified eq_refl eq_refl env _ L c1 (pre ++ els) B1 U1 Hc1) as (c2 & E2 & B2 & U2 & X2 & Hc2 & Hs2).
    { apply Pb. apply (entry_ok_incl env D); [intros m; apply nextD_incl|exact Ho]. }
    exists c2. split; [exact E2|]. split; [|split; [exact U2|split; [exact (extends_trans _ _ _ X1 X2)|split; [exact Hc2|congruence]]]].
    rewrite Hs1 in B2. apply (base_iff _ _ _ _ _) with (2 := B2). intros m w. unfold also. apply join_iff. intros v.
    cbn [lr unified]. rewrite entry_set_app. rewrite (cat_iff _ (flagset code at_) _ (entry_set true env els)); [reflexivity|apply Pb|reflexivity].
  Qed.
  Lemma paradigm_uentry : forall D L m Lp els, reading env D L m Lp c -> m <> n -> m <> [] -> ~ In m D -> entry_ok env D els ->
    exists c', uproc unified (UEntry at_ els) c = Ok c'
      /\ reading env (nextD gs at_ D) L m (join_sets Lp (cat (flagset code at_) (entry_set true env els))) c' /\ extends a1 (c_alph c').
  Proof.
    intros D L m Lp els R Nm Ne Hm Ho. destruct (paradigm_prefix D L m Lp R Nm) as (pre & c1 & E & R1 & X1 & Pb & Sc).
    rewrite (uproc_entry pre c1 els E Sc).
    destruct (paradigm_entry unified eq_refl eq_refl env (nextD gs at_ D) L m Lp c1 (pre ++ els) R1 Ne) as (c2 & E2 & R2 & X2).
    { intros H. apply nextD_in in H as [H|H]; contradiction. }
    { apply Pb. apply (entry_ok_incl env D); [intros k; apply nextD_incl|exact Ho]. }
    exists c2. split; [exact E2|]. split; [|exact (extends_trans _ _ _ X1 X2)].
    apply (reading_iff _ _ _ _ _ _ _) with (2 := R2). intros w. apply join_iff. intros v.
    cbn [lr unified]. rewrite entry_set_app. apply cat_iff; [apply Pb|reflexivity].
  Qed.
End OneEntry.

(** * Whole dictionaries *)
(** The code of a restriction is known only at the end; what holds at a point in between holds
    for every code that agrees with the alphabet at that point. *)
Lemma uprocs_app : forall s e1 e2 c, uprocs s (e1 ++ e2) c = let! c := uprocs s e1 c in uprocs s e2 c.
Proof.
  intros s e1 e2. induction e1 as [|e e1 IH]; intros c; [reflexivity|]. cbn [app uprocs]. destruct (uproc s e c); cbn [obind]; auto.
Qed.
Definition flags_in (at_ : attributes) (a : alphabet) : Prop :=
  forall p v w, In (p, v) (attr_list at_) -> In w (vwords v) -> In (filter_tag p w) (slexicinv a).
Lemma flags_in_extends : forall at_ a b, extends a b -> flags_in at_ a -> flags_in at_ b.
Proof. intros at_ a b X H p v w H1 H2. exact (names_extends _ _ _ X (H p v w H1 H2)). Qed.
Lemma groups_in : forall code at_ g c, In g (groups code at_) -> In c g ->
  exists p v w, In (p, v) (attr_list at_) /\ In w (vwords v) /\ c = code (filter_tag p w).
Proof.
  intros code at_ g c Hg Hc. unfold groups in Hg. apply filter_In in Hg as [Hg _]. apply in_map_iff in Hg as ([p v] & <- & Hp).
  unfold group in Hc. apply in_map_iff in Hc as (w & <- & Hw). exists p, v, w. auto.
Qed.
Lemma flags_low : forall code at_ a, flags_in at_ a -> agrees code a -> low_groups (groups code at_).
Proof.
  intros code at_ a H Hc. unfold low_groups. rewrite Forall_forall. intros g Hg. split.
  - unfold groups in Hg. apply filter_In in Hg as [_ Hs]. intros ->. discriminate.
  - rewrite Forall_forall. intros c Hcg. destruct (groups_in code at_ g c Hg Hcg) as (p & v & w & Hp & Hw & ->).
    specialize (H p v w Hp Hw). apply In_nth_error in H as (i & Hi). rewrite (Hc i _ Hi). unfold tag_of. lia.
Qed.
Definition family (E : (ustr -> Z) -> ustr -> pset) (at_ : attributes) : Prop :=
  forall code w, E code (filter_paradigm at_) w <-> flagset code at_ w.
Definition uevents (es : list rentry) : list uevent := map (fun e => UEntry (fst e) (snd e)) es.
Definition autos (es : list rentry) (n : ustr) : Prop := exists at_ els, In (at_, els) es /\ n = filter_paradigm at_.
Lemma uchosen_cons : forall code env at_ els es w, at_ignore at_ <> yes_val ->
  (uchosen code env ((at_, els) :: es) w <-> cat (flagset code at_) (entry_set true env els) w \/ uchosen code env es w).
Proof.
  intros code env at_ els es w Hi. unfold uchosen. split.
  - intros (x & y & [E|Hin] & H1 & H2); [injection E as <- <-; now left|]. right. exists x, y. auto.
  - intros [H|(x & y & Hin & H)]; [exists at_, els|exists x, y]; (split; [|auto]); [now left|now right].
Qed.
Lemma uchosen_skip : forall code env at_ els es w, at_ignore at_ = yes_val -> (uchosen code env ((at_, els) :: es) w <-> uchosen code env es w).
Proof.
  intros code env at_ els es w Hi. unfold uchosen. split.
  - intros (x & y & [E|Hin] & H1 & H2); [injection E as <- <-; contradiction|]. exists x, y. auto.
  - intros (x & y & Hin & H). exists x, y. split; [now right|exact H].
Qed.
Lemma uproc_ignored : forall s at_ els c, at_ignore at_ = yes_val -> uproc s (UEntry at_ els) c = Ok c.
Proof. intros s at_ els c H. unfold uproc. destruct (ustr_eq_dec (at_ignore at_) yes_val); [reflexivity|contradiction]. Qed.

Lemma section_uentries : forall es E D L c, alph_inv0 (c_alph c) ->
  (forall code, agrees code (c_alph c) -> base (E code) D (L code) c) -> unknown D c -> current_paradigm c = [] ->
  (forall at_ els, In (at_, els) es -> family E at_) ->
  (forall at_ els, In (at_, els) es -> at_ignore at_ <> yes_val -> forall code, agrees code (c_alph c) -> entry_ok (E code) D els) ->
  exists c' D', uprocs unified (uevents es) c = Ok c' /\ alph_inv0 (c_alph c')
    /\ (forall code, agrees code (c_alph c') -> base (E code) D' (also (L code) (current_section c) (uchosen code (E code) es)) c')
    /\ unknown D' c' /\ extends (c_alph c) (c_alph c') /\ current_paradigm c' = []
    /\ (forall n, In n D -> In n D') /\ (forall n, In n D' -> In n D \/ autos es n)
    /\ forall at_ els, In (at_, els) es -> at_ignore at_ <> yes_val -> flags_in at_ (c_alph c').
Proof.
  induction es as [|[at_ els] es IH]; intros E D L c Ha B U Hc Hf Ho.
  - exists c, D. split; [reflexivity|]. split; [exact Ha|]. split; [|split; [exact U|split; [apply extends_refl|]]].
    + intros code Hcode. apply (base_iff _ _ _ _ _) with (2 := B code Hcode). intros n w. unfold also, join_sets. split; [auto|].
      intros [H|[_ (x & y & [] & _)]]. exact H.
    + split; [exact Hc|]. split; [auto|]. split; [auto|]. intros a e [].
  - cbn [uevents map uprocs fst snd]. fold (uevents es). destruct (ustr_eq_dec (at_ignore at_) yes_val) as [Ei|Ni].
    + rewrite (uproc_ignored _ _ _ _ Ei). cbn [obind].
      destruct (IH E D L c Ha B U Hc (fun a e H => Hf a e (or_intror H)) (fun a e H => Ho a e (or_intror H)))
        as (c' & D' & E' & Ha' & B' & U' & X' & Hc' & D1 & D2 & F').
      exists c', D'. split; [exact E'|]. split; [exact Ha'|]. split; [|split; [exact U'|split; [exact X'|split; [exact Hc'|split; [exact D1|split]]]]].
      * intros code Hcode. apply (base_iff _ _ _ _ _) with (2 := B' code Hcode). intros n w. unfold also. apply join_iff. intros v.
        now rewrite uchosen_skip.
      * intros n Hn. destruct (D2 n Hn) as [H|(a & e & H1 & H2)]; [now left|]. right. exists a, e. split; [now right|exact H2].
      * intros a e [H|H] Hn; [injection H as <- <-; contradiction|]. now apply (F' a e).
    + destruct (entry_filters_ok at_ (c_alph c) Ha) as (gs & a1 & Ef & Ha1 & X1 & Fl & Cg).
      assert (Each : forall code, agrees code a1 -> exists c', uproc unified (UEntry at_ els) c = Ok c'
        /\ base (E code) (nextD gs at_ D) (also (L code) (current_section c) (cat (flagset code at_) (entry_set true (E code) els))) c'
        /\ unknown (nextD gs at_ D) c' /\ extends a1 (c_alph c') /\ current_paradigm c' = [] /\ current_section c' = current_section c).
      { intros code Hcode. assert (Hc0 := agrees_extends _ _ _ X1 Hcode).
        apply (section_uentry code (E code) at_ gs a1 Ha1 (Cg code Hcode)); auto.
        - rewrite (Cg code Hcode). exact (flags_low code at_ a1 Fl Hcode).
        - apply (Hf at_ els). now left.
        - apply (Ho at_ els); auto. now left. }
      destruct (Each _ (agrees_own a1 (proj1 Ha1))) as (c1 & E1 & B1 & U1 & X2 & Hc1 & Hs1). rewrite E1. cbn [obind].
      assert (X12 := extends_trans _ _ _ X1 X2).
      destruct (IH E (nextD gs at_ D) (fun code => also (L code) (current_section c) (cat (flagset code at_) (entry_set true (E code) els))) c1)
        as (c' & D' & E' & Ha' & B' & U' & X' & Hc' & D1 & D2 & F').
      * apply B1.
      * intros code Hcode. destruct (Each code (agrees_extends _ _ _ X2 Hcode)) as (c2 & E2 & B2 & _). assert (c2 = c1) as -> by congruence. exact B2.
      * exact U1.
      * exact Hc1.
      * intros a e H. apply (Hf a e). now right.
      * intros a e H Hn code Hcode. apply (entry_ok_incl (E code) D); [intros n; apply nextD_incl|]. apply (Ho a e); [now right|exact Hn|].
        exact (agrees_extends _ _ _ X12 Hcode).
      * exists c', D'. split; [exact E'|]. split; [exact Ha'|]. split; [|split; [exact U'|split; [exact (extends_trans _ _ _ X12 X')|split; [exact Hc'|split; [|split]]]]].
        -- intros code Hcode. apply (base_iff _ _ _ _ _) with (2 := B' code Hcode). rewrite Hs1. intros n w. unfold also, join_sets.
           rewrite uchosen_cons by exact Ni. intuition.
        -- intros n Hn. apply D1. now apply nextD_incl.
        -- intros n Hn. destruct (D2 n Hn) as [H|(a & e & H1 & H2)].
           ++ apply nextD_in in H as [H|H]; [now left|]. right. exists at_, els. split; [now left|exact H].
           ++ right. exists a, e. split; [now right|exact H2].
        -- intros a e [H|H] Hn; [|now apply (F' a e)]. injection H as <- <-. apply (flags_in_extends at_ a1); [|exact Fl]. exact (extends_trans _ _ _ X2 X').
Qed.
Lemma paradigm_uentries : forall es E D L m Lp c, alph_inv0 (c_alph c) ->
  (forall code, agrees code (c_alph c) -> reading (E code) D (L code) m (Lp code) c) -> m <> [] -> ~ In m D -> ~ autos es m ->
  (forall at_ els, In (at_, els) es -> family E at_) ->
  (forall at_ els, In (at_, els) es -> at_ignore at_ <> yes_val -> forall code, agrees code (c_alph c) -> entry_ok (E code) D els) ->
  exists c' D', uprocs unified (uevents es) c = Ok c' /\ alph_inv0 (c_alph c')
    /\ (forall code, agrees code (c_alph c') -> reading (E code) D' (L code) m (join_sets (Lp code) (uchosen code (E code) es)) c')
    /\ extends (c_alph c) (c_alph c')
    /\ (forall n, In n D -> In n D') /\ (forall n, In n D' -> In n D \/ autos es n)
    /\ forall at_ els, In (at_, els) es -> at_ignore at_ <> yes_val -> flags_in at_ (c_alph c').
Proof.
  induction es as [|[at_ els] es IH]; intros E D L m Lp c Ha R Nm Hm Am Hf Ho.
  - exists c, D. split; [reflexivity|]. split; [exact Ha|]. split; [|split; [apply extends_refl|]].
    + intros code Hcode. apply (reading_iff _ _ _ _ _ _ _) with (2 := R code Hcode). intros w. unfold join_sets. split; [auto|].
      intros [H|(x & y & [] & _)]. exact H.
    + split; [auto|]. split; [auto|]. intros a e [].
  - cbn [uevents map uprocs fst snd]. fold (uevents es).
    assert (Am2 : ~ autos es m). { intros (a & e & H1 & H2). apply Am. exists a, e. split; [now right|exact H2]. }
    destruct (ustr_eq_dec (at_ignore at_) yes_val) as [Ei|Ni].
    + rewrite (uproc_ignored _ _ _ _ Ei). cbn [obind].
      destruct (IH E D L m Lp c Ha R Nm Hm Am2 (fun a e H => Hf a e (or_intror H)) (fun a e H => Ho a e (or_intror H)))
        as (c' & D' & E' & Ha' & B' & X' & D1 & D2 & F').
      exists c', D'. split; [exact E'|]. split; [exact Ha'|]. split; [|split; [exact X'|split; [exact D1|split]]].
      * intros code Hcode. apply (reading_iff _ _ _ _ _ _ _) with (2 := B' code Hcode). intros w. apply join_iff. intros v.
        now rewrite uchosen_skip.
      * intros n Hn. destruct (D2 n Hn) as [H|(a & e & H1 & H2)]; [now left|]. right. exists a, e. split; [now right|exact H2].
      * intros a e [H|H] Hn; [injection H as <- <-; contradiction|]. now apply (F' a e).
    + destruct (entry_filters_ok at_ (c_alph c) Ha) as (gs & a1 & Ef & Ha1 & X1 & Fl & Cg).
      assert (Nn : m <> filter_paradigm at_). { intros ->. apply Am. exists at_, els. split; [now left|reflexivity]. }
      assert (Each : forall code, agrees code a1 -> exists c', uproc unified (UEntry at_ els) c = Ok c'
        /\ reading (E code) (nextD gs at_ D) (L code) m (join_sets (Lp code) (cat (flagset code at_) (entry_set true (E code) els))) c'
        /\ extends a1 (c_alph c')).
      { intros code Hcode. assert (Hc0 := agrees_extends _ _ _ X1 Hcode).
        apply (paradigm_uentry code (E code) at_ gs a1 Ha1 (Cg code Hcode)); auto.
        - rewrite (Cg code Hcode). exact (flags_low code at_ a1 Fl Hcode).
        - apply (Hf at_ els). now left.
        - apply (Ho at_ els); auto. now left. }
      destruct (Each _ (agrees_own a1 (proj1 Ha1))) as (c1 & E1 & R1 & X2). rewrite E1. cbn [obind].
      assert (X12 := extends_trans _ _ _ X1 X2).
      destruct (IH E (nextD gs at_ D) L m (fun code => join_sets (Lp code) (cat (flagset code at_) (entry_set true (E code) els))) c1)
        as (c' & D' & E' & Ha' & B' & X' & D1 & D2 & F').
      * apply (rd_base _ _ _ _ _ _ R1).
      * intros code Hcode. destruct (Each code (agrees_extends _ _ _ X2 Hcode)) as (c2 & E2 & B2 & _). assert (c2 = c1) as -> by congruence. exact B2.
      * exact Nm.
      * intros H. apply nextD_in in H as [H|H]; contradiction.
      * exact Am2.
      * intros a e H. apply (Hf a e). now right.
      * intros a e H Hn code Hcode. apply (entry_ok_incl (E code) D); [intros n; apply nextD_incl|]. apply (Ho a e); [now right|exact Hn|].
        exact (agrees_extends _ _ _ X12 Hcode).
      * exists c', D'. split; [exact E'|]. split; [exact Ha'|]. split; [|split; [exact (extends_trans _ _ _ X12 X')|split; [|split]]].
        -- intros code Hcode. apply (reading_iff _ _ _ _ _ _ _) with (2 := B' code Hcode). intros w. unfold join_sets.
           rewrite uchosen_cons by exact Ni. intuition.
        -- intros n Hn. apply D1. now apply nextD_incl.
        -- intros n Hn. destruct (D2 n Hn) as [H|(a & e & H1 & H2)].
           ++ apply nextD_in in H as [H|H]; [now left|]. right. exists at_, els. split; [now left|exact H].
           ++ right. exists a, e. split; [now right|exact H2].
        -- intros a e [H|H] Hn; [|now apply (F' a e)]. injection H as <- <-. apply (flags_in_extends at_ a1); [|exact Fl]. exact (extends_trans _ _ _ X2 X').
Qed.
Lemma pardef_end : forall s env D L n Lp c, reading env D L n Lp c -> ~ In n D ->
  exists c', proc s PardefEnd c = Ok c' /\ base (define n Lp env) (n :: D) L c' /\ unknown (n :: D) c' /\ c_alph c' = c_alph c
    /\ ((exists w, Lp w) -> current_paradigm c' = []).
Proof.
  intros s env D L n Lp c1 [B1 Hc U1 (A & M) Rn Rs] Hn. cbn [proc]. rewrite Hc.
  assert (Un : forall t cur, unknown (n :: D) (mkComp (c_alph c1) (name_set n t (c_pars c1)) (c_secs c1) (c_caches c1) cur (current_section c1))).
  { intros t cur m Hm. cbn [c_pars]. rewrite name_find_set. destruct (ustr_eq_dec m n) as [->|]; [exfalso; apply Hm; now left|]. apply U1; [|assumption].
    intros H. apply Hm. now right. }
  destruct (name_find n (c_pars c1)) as [t|] eqn:Ef.
  - specialize (Rs t eq_refl). destruct (paradigm_closed _ _ _ _ _ _ M Rs) as (E0 & m & j & Em & Ej & Eej & Pj).
    rewrite E0, Em. cbn [obind]. rewrite Ej. cbn [obind].
    eexists. split; [reflexivity|]. split; [apply base_define; auto|]. split; [apply Un|]. split; reflexivity.
  - specialize (Rn eq_refl). unfold name_get. rewrite Ef. change (isEmpty new_transducer) with true. cbv iota.
    eexists. split; [reflexivity|]. split; [apply base_define; auto|]. split; [apply Un|]. split; [reflexivity|].
    intros (w & Hw). now apply Rn in Hw.
Qed.

(** ** The items *)
Lemma attr_prefix : forall at_ p v, In (p, v) (attr_list at_) -> In p [p_r; p_alt; p_v; p_vl; p_vr].
Proof. intros at_ p v H. cbn in H. destruct H as [H|[H|[H|[H|[H|[]]]]]]; injection H as <- <-; cbn; auto 10. Qed.
Lemma filter_tag_restricting : forall p w, In p [p_r; p_alt; p_v; p_vl; p_vr] -> restricting (filter_tag p w).
Proof. intros p w H. exists p, (w ++ [62]). split; [exact H|]. reflexivity. Qed.
Section Items.
  Variables (full : list ritem) (a0 : alphabet).
  Notation n0 := (length (slexicinv a0)).
  Hypothesis Hnames : forall t, In t (slexicinv a0) -> ~ restricting t.
  Hypothesis Hwritten : forall at_ els, In (at_, els) (all_entries full) -> Forall (written n0) els.

  Lemma flag_below : forall code at_ a, extends a0 a -> flags_in at_ a -> agrees code a ->
    forall g c, In g (groups code at_) -> In c g -> c < - Z.of_nat n0.
  Proof.
    intros code at_ a ((l & X) & _) F Hc g c Hg Hcg. destruct (groups_in code at_ g c Hg Hcg) as (p & v & w & Hp & Hw & ->).
    specialize (F p v w Hp Hw). apply In_nth_error in F as (i & Hi). rewrite (Hc i _ Hi). unfold tag_of.
    destruct (Nat.lt_ge_cases i n0) as [Lt|Ge]; [|lia]. exfalso. rewrite X in Hi. rewrite nth_error_app1 in Hi by exact Lt.
    apply nth_error_In in Hi. apply Hnames in Hi. apply Hi. apply filter_tag_restricting. exact (attr_prefix at_ p v Hp).
  Qed.
  Definition related (env envp : ustr -> pset) (Dp : list ustr) : Prop :=
    forall n, In n Dp -> (forall w, image (Z.of_nat n0) (fun _ => True) (env n) w <-> envp n w) /\ slack n0 (env n).
  Lemma entry_ok_related : forall env envp Dp D els, related env envp Dp -> (forall n, In n Dp -> In n D) -> entry_ok envp Dp els -> entry_ok env D els.
  Proof.
    intros env envp Dp D els HR HD. induction els as [|el els IH]; [auto|]. cbn [entry_ok]. intros [H1 H2]. split; [|auto].
    destruct el as [l r wt|n|er]; cbn [element_ok] in *; auto. destruct H1 as [H3 H4]. split; [auto|]. intros Hl. destruct (H4 Hl) as (K & HK).
    destruct (HR n H3) as [Hi (K2 & HK2)]. exists (K + K2)%nat. intros w Hw. specialize (HK2 w Hw).
    assert (HI : envp n (erase (Z.of_nat n0) w)).
    { apply Hi. exists w. split; [exact Hw|]. split; [|reflexivity]. intros p _ _. exact I. }
    specialize (HK _ HI). lia.
  Qed.
  Lemma bare_in : forall at_ els es, In (at_, els) es -> at_ignore at_ <> yes_val -> In els (map snd (filter not_ignored es)).
  Proof.
    intros at_ els es H Hi. apply in_map_iff. exists (at_, els). split; [reflexivity|]. apply filter_In. split; [exact H|].
    unfold not_ignored. cbn [fst]. destruct (ustr_eq_dec (at_ignore at_) yes_val); [contradiction|reflexivity].
  Qed.
  Lemma bare_chosen : forall envp es w, chosen_set (fun at_ => at_ignore at_ <> yes_val) true envp es w
    <-> entries_set true envp (map snd (filter not_ignored es)) w.
  Proof.
    intros envp es w. split.
    - intros (at_ & els & H & Hi & Hw). exists els. split; [now apply (bare_in at_)|exact Hw].
    - intros (els & H & Hw). apply in_map_iff in H as ([at_ els'] & E & H). cbn [snd] in E. subst els'. apply filter_In in H as [H Hi].
      exists at_, els. split; [exact H|]. split; [|exact Hw]. unfold not_ignored in Hi. cbn [fst] in Hi.
      destruct (ustr_eq_dec (at_ignore at_) yes_val); [discriminate|assumption].
  Qed.
  Lemma ok_uses : forall env D els, entry_ok env D els -> uses D els.
  Proof.
    intros env D els. induction els as [|el els IH]; [intros _ n []|]. cbn [entry_ok]. intros [H1 H2] n [->|H]; [exact (proj1 H1)|now apply IH].
  Qed.
  Lemma chosen_related : forall code env envp Dp es a, extends a0 a -> agrees code a -> related env envp Dp ->
    (forall at_ els, In (at_, els) es -> at_ignore at_ <> yes_val -> flags_in at_ a /\ Forall (written n0) els /\ uses Dp els) ->
    (forall w, image (Z.of_nat n0) (fun _ => True) (uchosen code env es) w <-> entries_set true envp (map snd (filter not_ignored es)) w)
    /\ slack n0 (uchosen code env es).
  Proof.
    intros code env envp Dp es a X Hc HR HO. split.
    - intros w. rewrite <- bare_chosen. apply (uchosen_image (Z.of_nat n0) _ n0 eq_refl code (fun at_ => at_ignore at_ <> yes_val) env envp Dp es).
      + intros n Hn. apply (HR n Hn).
      + intros at_ els Hin Hi. destruct (HO at_ els Hin Hi) as (H1 & H2 & H3). split; [|auto]. split.
        * exact (flag_below code at_ a X H1 Hc).
        * split; [|tauto]. intros _. split; [exact Hi|]. destruct (low_some _ (flags_low code at_ a H1 Hc)) as (cs & Hcs). exists cs. split; [exact Hcs|].
          rewrite Forall_forall. auto.
      + auto.
    - apply (slack_chosen n0 code env Dp es); [intros n Hn; apply (HR n Hn)|]. intros at_ els Hin Hi. apply (HO at_ els Hin Hi).
  Qed.

  Definition uready (items : list ritem) (c : compiler) : Prop :=
    match items with RSec _ _ :: _ => current_paradigm c = [] | _ => True end.
  Lemma uitems_ok : forall items E envp Dp D L c,
    alph_inv0 (c_alph c) -> extends a0 (c_alph c) -> (forall code, agrees code (c_alph c) -> base (E code) D (L code) c) ->
    unknown D c -> uready items c -> (forall code, agrees code (c_alph c) -> related (E code) envp Dp) ->
    (forall n, In n Dp -> In n D) -> (forall n, In n D -> In n Dp \/ autos (all_entries full) n) ->
    (forall e, In e (all_entries items) -> In e (all_entries full)) ->
    (forall at_ els, In (at_, els) (all_entries full) -> family E at_) ->
    (forall n, In n (pardef_names (bare items)) -> ~ autos (all_entries full) n) ->
    dict_ok true envp Dp (bare items) ->
    exists c' D', uprocs unified (ritem_events items) c = Ok c' /\ alph_inv0 (c_alph c') /\ extends (c_alph c) (c_alph c')
      /\ (forall code, agrees code (c_alph c') -> exists env', base env' D' (fun n => join_sets (L code n) (usection code (E code) items n)) c')
      /\ forall at_ els, In (at_, els) (all_entries items) -> at_ignore at_ <> yes_val -> flags_in at_ (c_alph c').
  Proof.
    induction items as [|it items IH]; intros E envp Dp D L c Ha X0 B U Rd HR D1 D2 Hin Hf Hp Ok1.
    - exists c, D. split; [reflexivity|]. split; [exact Ha|]. split; [apply extends_refl|]. split; [|intros a e []]. intros code Hc. exists (E code).
      apply (base_iff _ _ _ _ _) with (2 := B code Hc). intros n w. cbn [usection]. unfold join_sets, no_words. intuition.
    - unfold ritem_events. cbn [flat_map]. rewrite uprocs_app. fold (ritem_events items).
      assert (Hin2 : forall e, In e (all_entries items) -> In e (all_entries full)) by (intros e He; apply Hin, in_or_app; auto).
      assert (Hin1 : forall e, In e (item_entries it) -> In e (all_entries full)) by (intros e He; apply Hin, in_or_app; auto).
      destruct it as [n es|n es]; cbn [bare map bare_item dict_ok item_entries item_event] in *.
      + destruct Ok1 as (Nn & Hn & Ho & Nx & Ok2). fold (bare items) in Ok2. rewrite Forall_forall in Ho.
        assert (An : ~ autos (all_entries full) n) by (apply Hp; now left).
        assert (Aes : forall m, autos es m -> autos (all_entries full) m). { intros m (a & e & H1 & H2). exists a, e. auto. }
        assert (HnD : ~ In n D). { intros H. apply D2 in H as [H|H]; contradiction. }
        cbn [uprocs uproc proc obind]. set (c0 := mkComp (c_alph c) (c_pars c) (c_secs c) (c_caches c) n (current_section c)).
        destruct (paradigm_uentries es E D L n (fun _ => no_words) c0) as (c1 & D' & E1 & Ha1 & R1 & X1 & I1 & I2 & F1).
        * exact Ha.
        * intros code Hc. specialize (B code Hc). assert (E0 := U n HnD). constructor; cbn [c0 c_alph c_pars c_secs c_caches current_paradigm current_section].
          -- constructor; apply B.
          -- reflexivity.
          -- intros m Hm _. now apply U.
          -- eexists. unfold name_get. rewrite E0. apply mid_new.
          -- intros _ w [].
          -- intros t Et. rewrite E0 in Et. discriminate.
        * exact Nn.
        * exact HnD.
        * intros H. apply Aes in H. contradiction.
        * intros a e H. apply (Hf a e). auto.
        * intros a e H Hi code Hc. apply (entry_ok_related (E code) envp Dp D e (HR code Hc) D1). apply Ho. now apply (bare_in a).
        * cbn [c0 c_alph] in X1. assert (HnD' : ~ In n D'). { intros H. apply I2 in H as [H|H]; [contradiction|]. apply Aes in H. contradiction. }
          fold (uevents es). rewrite uprocs_app, E1. cbn [obind uprocs uproc].
          assert (Each : forall code, agrees code (c_alph c1) -> exists c', proc unified PardefEnd c1 = Ok c'
            /\ base (define n (uchosen code (E code) es) (E code)) (n :: D') (L code) c' /\ unknown (n :: D') c' /\ c_alph c' = c_alph c1
            /\ ((exists w, uchosen code (E code) es w) -> current_paradigm c' = [])).
          { intros code Hc. apply pardef_end; [|exact HnD']. apply (reading_iff _ _ _ _ _ _ _) with (2 := R1 code Hc).
            intros w. unfold join_sets, no_words. intuition. }
          destruct (Each _ (agrees_own _ (proj1 Ha1))) as (c2 & E2 & B2 & U2 & Ea2 & Hc2). rewrite E2. cbn [obind].
          assert (X01 : extends a0 (c_alph c1)) by exact (extends_trans _ _ _ X0 X1).
          assert (Rel : forall code, agrees code (c_alph c1) ->
            (forall w, image (Z.of_nat n0) (fun _ => True) (uchosen code (E code) es) w <-> entries_set true envp (map snd (filter not_ignored es)) w)
            /\ slack n0 (uchosen code (E code) es)).
          { intros code Hc. apply (chosen_related code (E code) envp Dp es (c_alph c1) X01 Hc (HR code (agrees_extends _ _ _ X1 Hc))).
            intros a e H Hi. split; [now apply (F1 a e)|]. split; [apply (Hwritten a e); auto|]. apply (ok_uses envp). apply Ho. now apply (bare_in a). }
          destruct (IH (fun code => define n (uchosen code (E code) es) (E code)) (define n (entries_set true envp (map snd (filter not_ignored es))) envp)
            (n :: Dp) (n :: D') L c2) as (c' & D3 & E3 & Ha3 & X3 & B3 & F3).
          -- now rewrite Ea2.
          -- now rewrite Ea2.
          -- rewrite Ea2. intros code Hc. destruct (Each code Hc) as (c2' & E2' & B2' & _). assert (c2' = c2) as -> by congruence. exact B2'.
          -- exact U2.
          -- destruct items as [|[m es2|m es2] items2]; cbn [uready]; auto. apply Hc2. cbn [bare map bare_item] in Nx. destruct Nx as (w & Hw).
             destruct (Rel _ (agrees_own _ (proj1 Ha1))) as [Hr _]. apply Hr in Hw as (u & Hu & _). exists u. exact Hu.
          -- rewrite Ea2. intros code Hc m Hm. unfold define. destruct (ustr_eq_dec m n) as [->|Ne]; [exact (Rel code Hc)|].
             apply (HR code (agrees_extends _ _ _ X1 Hc)). destruct Hm; [congruence|assumption].
          -- intros m [->|Hm]; [now left|right; auto].
          -- intros m [->|Hm]; [left; now left|]. destruct (I2 m Hm) as [H|H]; [|right; auto]. destruct (D2 m H); [left; now right|auto].
          -- exact Hin2.
          -- intros a e H code w. rewrite define_other; [now apply (Hf a e)|]. intros Eq. apply An. exists a, e. auto.
          -- intros m Hm. apply Hp. cbn [pardef_names In]. now right.
          -- exact Ok2.
          -- rewrite Ea2 in X3. exists c', D3. split; [exact E3|]. split; [exact Ha3|]. split; [exact (extends_trans _ _ _ X1 X3)|]. split.
             ++ intros code Hc. exact (B3 code Hc).
             ++ intros a e H Hi. apply in_app_or in H as [H|H]; [|now apply (F3 a e)]. apply (flags_in_extends a (c_alph c1)); [exact X3|now apply (F1 a e)].
      + destruct Ok1 as [Ho Ok2]. fold (bare items) in Ok2. rewrite Forall_forall in Ho.
        assert (Aes : forall m, autos es m -> autos (all_entries full) m). { intros m (a & e & H1 & H2). exists a, e. auto. }
        cbn [uprocs uproc proc obind]. set (c0 := mkComp (c_alph c) (c_pars c) (c_secs c) (c_caches c) (current_paradigm c) n).
        destruct (section_uentries es E D L c0) as (c1 & D' & E1 & Ha1 & B1 & U1 & X1 & Hc1 & I1 & I2 & F1).
        * exact Ha.
        * intros code Hc. specialize (B code Hc). constructor; apply B.
        * exact U.
        * exact Rd.
        * intros a e H. apply (Hf a e). auto.
        * intros a e H Hi code Hc. apply (entry_ok_related (E code) envp Dp D e (HR code Hc) D1). apply Ho. now apply (bare_in a).
        * cbn [c0 c_alph current_section] in *. fold (uevents es). rewrite uprocs_app, E1. cbn [obind uprocs uproc proc].
          set (c2 := mkComp (c_alph c1) (c_pars c1) (c_secs c1) (c_caches c1) (current_paradigm c1) []).
          destruct (IH E envp Dp D' (fun code => also (L code) n (uchosen code (E code) es)) c2) as (c' & D3 & E3 & Ha3 & X3 & B3 & F3).
          -- exact Ha1.
          -- exact (extends_trans _ _ _ X0 X1).
          -- intros code Hc. specialize (B1 code Hc). constructor; apply B1.
          -- exact U1.
          -- destruct items as [|[m es2|m es2] items2]; cbn [uready]; auto.
          -- intros code Hc. apply HR. exact (agrees_extends _ _ _ X1 Hc).
          -- auto.
          -- intros m Hm. destruct (I2 m Hm) as [H|H]; [|right; auto]. auto.
          -- exact Hin2.
          -- exact Hf.
          -- exact Hp.
          -- exact Ok2.
          -- exists c', D3. split; [exact E3|]. split; [exact Ha3|]. split; [exact (extends_trans _ _ _ X1 X3)|]. split.
             ++ intros code Hc. destruct (B3 code Hc) as (env' & Be). exists env'. apply (base_iff _ _ _ _ _) with (2 := Be). intros m w.
                cbn [usection]. unfold also, join_sets. intuition.
             ++ intros a e H Hi. apply in_app_or in H as [H|H]; [|now apply (F3 a e)]. apply (flags_in_extends a (c_alph c1)); [exact X3|now apply (F1 a e)].
  Qed.
End Items.

Definition auto_env (items : list ritem) (code : ustr -> Z) : ustr -> pset :=
  fun n w => exists at_ els, In (at_, els) (all_entries items) /\ n = filter_paradigm at_ /\ flagset code at_ w.
Lemma values_groups : forall code at1 at2, values at1 = values at2 -> groups code at1 = groups code at2.
Proof.
  intros code at1 at2 E. unfold values in E. injection E as E1 E2 E3 E4 E5. unfold groups, attr_list. now rewrite E1, E2, E3, E4, E5.
Qed.
Lemma auto_family : forall names items, restrictable names items -> forall at_ els, In (at_, els) (all_entries items) -> family (auto_env items) at_.
Proof.
  intros names items R at_ els Hin code w. unfold auto_env. split.
  - intros (at2 & els2 & H2 & E & Hw). assert (E2 : hyphened at_ = hyphened at2). { unfold filter_paradigm in E. injection E as E. exact E. }
    unfold flagset in *. rewrite (values_groups code at_ at2); [exact Hw|]. exact (rs_apart _ _ R at_ els at2 els2 Hin H2 E2).
  - intros Hw. exists at_, els. auto.
Qed.
Lemma unified_ok : forall a items, alph_inv0 a -> restrictable (slexicinv a) items ->
  exists a' m, compile_unified a (ritem_events items) = Ok (a', m) /\ alph_inv0 a' /\ extends a a' /\ NoDup (map fst m)
    /\ (forall at_ els, In (at_, els) (all_entries items) -> at_ignore at_ <> yes_val -> flags_in at_ a')
    /\ forall code, agrees code a' -> forall n, cov a' (usection code (auto_env items code) items n) /\
      match name_find n m with
      | None => forall w, ~ usection code (auto_env items code) items n w
      | Some t => wf t /\ (exists t0, minimized 0 t0 t) /\ (exists w, usection code (auto_env items code) items n w)
          /\ forall u, lang t 0 u <-> Tg a' (usection code (auto_env items code) items n) u
      end.
Proof.
  intros a items Ha R.
  destruct (uitems_ok items a (rs_names _ _ R) (rs_entries _ _ R) items (auto_env items) (fun _ => no_words) [] [] (fun _ _ => no_words) (new_compiler a))
    as (c & D & E & Hc & X & B & F).
  - exact Ha.
  - apply extends_refl.
  - intros code _. constructor; cbn.
    + exact Ha.
    + intros n [].
    + constructor.
    + intros n. eexists. apply mid_new.
    + intros n _ w [].
    + discriminate.
  - intros n _. reflexivity.
  - destruct items as [|[]]; exact I || reflexivity.
  - intros code _ n [].
  - intros n [].
  - intros n [].
  - auto.
  - exact (auto_family _ _ R).
  - intros n Hn (at_ & els & Hin & ->). exact (rs_pardefs _ _ R at_ els Hin Hn).
  - exact (rs_dict _ _ R).
  - unfold compile_unified. change (mkSet true [] None) with unified. rewrite E. cbn [obind]. cbn [c_alph new_compiler] in X.
    assert (B' : forall code, agrees code (c_alph c) -> exists env', base env' D (fun n => usection code (auto_env items code) items n) c).
    { intros code Hcode. destruct (B code Hcode) as (env' & Be). exists env'. apply (base_iff _ _ _ _ _) with (2 := Be).
      intros n w. unfold join_sets, no_words. intuition. }
    clear B. destruct (B' _ (agrees_own _ (proj1 Hc))) as (env0 & B0).
    destruct (minimize_all_spec (c_secs c)) as (m & Em & Km & Hm).
    { intros k t Hk. apply (name_in_find _ _ _ (bs_keys _ _ _ _ B0)) in Hk. destruct (bs_secs _ _ _ _ B0 k) as (A & M). unfold name_get in M. rewrite Hk in M.
      split; [exact (tr_wf _ _ (md_trie _ _ _ _ _ _ _ M))|]. destruct (bs_some _ _ _ _ B0 k t Hk) as (w & Hw).
      destruct (Tg_some _ _ w (md_cov _ _ _ _ _ _ _ M) Hw) as (u & Hu & _). exists u. now apply (md_lang _ _ _ _ _ _ _ M). }
    rewrite Em. cbn [obind]. exists (c_alph c), m. split; [reflexivity|]. split; [exact Hc|]. split; [exact X|].
    split; [rewrite Km; apply B0|]. split; [exact F|]. intros code Hcode n. destruct (B' code Hcode) as (env & B).
    destruct (bs_secs _ _ _ _ B n) as (A & M). split; [apply M|]. specialize (Hm n). unfold name_get in M.
    destruct (name_find n (c_secs c)) as [t|] eqn:Ef.
    + destruct Hm as (t' & -> & W' & M' & L'). split; [exact W'|]. split; [exists t; exact M'|]. split; [exact (bs_some _ _ _ _ B n t Ef)|].
      intros u. rewrite L'. apply M.
    + rewrite Hm. exact (bs_none _ _ _ _ B n Ef).
Qed.
