(** Lemmas for AgreeProps.v *)
From Coq Require String Ascii.
From Verif Require Import Base AlphabetModel ExpanderModel EntryFilterModel CompilerModel CompilerSpec DixModel DixSpec ListingSpec AgreeSpec.
From Verif Require ExpanderSpec StreamProps InputProps EntryFilterProps.
Import String.StringSyntax.

Section A.
  Context (sym : Z -> ustr -> Prop) (lr : bool) (o : options) (code : ustr -> Z) (stod : ustr -> outcome Z) (known : list ustr).
  Context (Hknown : forall x, In x known -> sym (code x) x).
  Notation stands := (stands sym).
  Notation keep := (o_keep o).
  Notation E := ExpanderSpec.expansion.

  Lemma stands_app : forall t s, stands t s -> forall t' s', stands t' s' -> stands (t ++ t') (s ++ s').
  Proof.
    intros t s H. induction H; intros t' s' H'; cbn [app]; auto.
    - rewrite <- app_assoc. constructor; auto.
    - exact (st_escaped sym c (t ++ t') (s ++ s') H (IHstands _ _ H')).
    - exact (st_mark sym c (t ++ t') (s ++ s') H (IHstands _ _ H')).
    - rewrite <- app_assoc. constructor; auto.
  Qed.
  (** * Sides *)
  Lemma special_small : forall c, ExpanderSpec.special c -> c < 127.
  Proof. intros c H. unfold ExpanderSpec.special in H. cbn [In] in H. repeat (destruct H as [<-|H]; [lia|]). destruct H. Qed.
  Lemma spells_cons : forall c s t, ExpanderSpec.spells t (c :: s) -> exists t', ExpanderSpec.spells t' s
    /\ ((~ ExpanderSpec.special c /\ t = c :: t') \/ (ExpanderSpec.special c /\ t = 92 :: c :: t')).
  Proof. intros c s t H. inversion H; subst; eauto. Qed.
  Lemma spells_stands : forall s t, Forall scalar s -> ExpanderSpec.spells t (utf16_text s) -> stands t s.
  Proof.
    induction s as [|c s IH]; intros t K H.
    - change (utf16_text []) with (@nil Z) in H. inversion H. constructor.
    - inversion K as [|? ? Kc Ks]; subst. rewrite InputProps.utf16_text_cons in H. unfold InputProps.utf16 in H.
      destruct (c <? 65536) eqn:B.
      + cbn [app] in H. apply spells_cons in H as (t' & H & [[N ->]|[S ->]]).
        * replace (c :: t') with (utf16_text [c] ++ t'); [constructor; auto|]. unfold utf16_text. cbn [map concat]. unfold InputProps.utf16. now rewrite B.
        * apply (st_escaped sym c t' s S). auto.
      + assert (P1 : 127 <= 55296 + (c - 65536) / 1024) by (assert (0 <= (c - 65536) / 1024) by (apply Z.div_pos; lia); lia).
        assert (P2 : 127 <= 56320 + (c - 65536) mod 1024) by (assert (0 <= (c - 65536) mod 1024) by (apply Z.mod_pos_bound; lia); lia).
        cbn [app] in H. apply spells_cons in H as (t' & H & [[N ->]|[S _]]); [|apply special_small, Z.lt_nge in S; contradiction].
        apply spells_cons in H as (t2 & H & [[N2 ->]|[S _]]); [|apply special_small, Z.lt_nge in S; contradiction].
        replace (55296 + (c - 65536) / 1024 :: 56320 + (c - 65536) mod 1024 :: t2) with (utf16_text [c] ++ t2).
        * constructor; auto. intros S. apply special_small in S. lia.
        * unfold utf16_text. cbn [map concat]. unfold InputProps.utf16. now rewrite B.
  Qed.
  Lemma mark_stands : forall m t, mark_known false known m -> mark_scalar m -> ExpanderSpec.shown keep (listed_mark m) t ->
    stands t (mark_symbols keep code m).
  Proof.
    intros m t K S H.
    assert (M : forall c, In c (txt "+~#>") -> stands [c] [c]) by (intros c Hc; exact (st_mark sym c [] [] Hc (st_nil sym))).
    destruct m as [s| | | | |n| | |b|]; cbn [listed_mark mark_known mark_scalar] in *; try discriminate K; inversion H; subst; cbn [mark_symbols].
    - now apply spells_stands.
    - apply (st_letter sym 32 [] [] ltac:(unfold scalar; split; cbv; intuition discriminate)); [intros S'; cbn in S'; lia|constructor].
    - apply M. cbn. tauto.
    - apply M. cbn. tauto.
    - rewrite H0. apply M. cbn. tauto.
    - rewrite H0. constructor.
    - assert (Q := st_tag sym (code (bracketed n)) n [] [] (Hknown _ K) (st_nil sym)). rewrite app_nil_r in Q. exact Q.
  Qed.
  Lemma written_app : forall a b t, ExpanderSpec.written keep (a ++ b) t -> exists t1 t2, t = t1 ++ t2 /\ ExpanderSpec.written keep a t1 /\ ExpanderSpec.written keep b t2.
  Proof.
    intros a b t (ts & H & ->). apply Forall2_app_inv_l in H as (l1 & l2 & H1 & H2 & ->). rewrite concat_app. exists (concat l1), (concat l2).
    split; [reflexivity|]. split; [now exists l1|now exists l2].
  Qed.
  Lemma marks_stand : forall ms t, Forall (mark_known false known) ms -> Forall mark_scalar ms -> ExpanderSpec.written keep (map listed_mark ms) t ->
    stands t (flat_map (mark_symbols keep code) ms).
  Proof.
    induction ms as [|m ms IH]; intros t K S (ts & H & ->); cbn [map] in H; inversion H as [|? t1 ? ts' H1 H2]; subst; [constructor|].
    inversion K; subst. inversion S; subst. cbn [concat flat_map]. apply stands_app; [now apply mark_stands|]. apply IH; auto. now exists ts'.
  Qed.
  Lemma side_stands : forall ps t, Forall (part_known false known) ps -> Forall part_scalar ps -> ExpanderSpec.written keep (listed_side ps) t ->
    stands t (side keep code ps).
  Proof.
    induction ps as [|p ps IH]; intros t K S H.
    - destruct H as (ts & H & ->). inversion H. constructor.
    - unfold listed_side in H. cbn [flat_map] in H. fold (listed_side ps) in H. apply written_app in H as (t1 & t2 & -> & H1 & H2).
      inversion K as [|? ? K1 K2]; subst. inversion S as [|? ? S1 S2]; subst. unfold side. cbn [flat_map]. apply stands_app; [|now apply IH].
      destruct p as [m|ms]; cbn [listed_part part_known part_scalar part_symbols] in *.
      + destruct H1 as (ts & H1 & ->). inversion H1 as [|? u ? us Hu Hn]; subst. inversion Hn; subst. cbn [concat]. rewrite app_nil_r. now apply mark_stands.
      + change (PGroup :: map listed_mark ms ++ [PGroupEnd]) with ([PGroup] ++ map listed_mark ms ++ [PGroupEnd]) in H1.
        apply written_app in H1 as (u1 & u2 & -> & Hu1 & Hu2). apply written_app in Hu2 as (u3 & u4 & -> & Hu3 & Hu4).
        destruct Hu1 as (l1 & Hl1 & ->). inversion Hl1 as [|? ? ? ? A1 A2]; subst. inversion A1; subst. inversion A2; subst.
        destruct Hu4 as (l4 & Hl4 & ->). inversion Hl4 as [|? ? ? ? B1 B2]; subst. inversion B1; subst. inversion B2; subst.
        cbn [concat app]. rewrite app_nil_r. apply (st_mark sym 35 u3); [cbn; tauto|]. now apply marks_stand.
  Qed.
  Lemma filter_zeros : forall l, filter nonzero (map fst (map (fun y : Z => (0, y)) l)) = [].
  Proof. induction l as [|x l IH]; [reflexivity|]. exact IH. Qed.
  Lemma filter_self : forall l, ~ In 0 l -> filter nonzero l = l.
  Proof.
    induction l as [|x l IH]; intros H; [reflexivity|]. cbn [filter]. unfold nonzero at 1. destruct (Z.eqb_spec x 0) as [->|N]; [exfalso; apply H; now left|].
    cbn [negb]. f_equal. apply IH. intros K. apply H. now right.
  Qed.
  Lemma nonzero_true : forall x, x <> 0 -> nonzero x = true.
  Proof. intros x H. unfold nonzero. destruct (Z.eqb_spec x 0); [contradiction|reflexivity]. Qed.
  Lemma align_sides : forall l r, ~ In 0 l -> ~ In 0 r -> lefts (align l r) = l /\ rights (align l r) = r.
  Proof.
    induction l as [|x l IH]; intros r Hl Hr.
    - cbn [align]. unfold lefts, rights. split; [apply filter_zeros|]. rewrite map_map. cbn [snd]. rewrite map_id. now apply filter_self.
    - assert (Nx : x <> 0) by (intros ->; apply Hl; now left). assert (Hl' : ~ In 0 l) by (intros K; apply Hl; now right).
      destruct r as [|y r]; cbn [align].
      + destruct (IH [] Hl' Hr) as [A B]. unfold lefts, rights in *. cbn [map fst snd filter]. rewrite (nonzero_true x Nx), A. split; [reflexivity|exact B].
      + assert (Ny : y <> 0) by (intros ->; apply Hr; now left). assert (Hr' : ~ In 0 r) by (intros K; apply Hr; now right).
        destruct (IH r Hl' Hr') as [A B]. unfold lefts, rights in *. cbn [map fst snd filter]. now rewrite (nonzero_true x Nx), (nonzero_true y Ny), A, B.
  Qed.

  (** * Sets of words and expansions *)
  Notation same_word := (same_word sym lr).
  Definition matches (S : pset) (X : list E) : Prop :=
    (forall w, S w -> exists x, In x X /\ same_word x w) /\ (forall x, In x X -> serves lr (fst (fst x)) -> exists w, S w /\ same_word x w).
  Lemma sides_app : forall u v, lefts (u ++ v) = lefts u ++ lefts v /\ rights (u ++ v) = rights u ++ rights v.
  Proof. intros u v. unfold lefts, rights. rewrite !map_app, !filter_app. auto. Qed.
  Lemma follow_in : forall x y z, In z (ExpanderSpec.follow x y) -> exists f, ExpanderSpec.meet (fst (fst x)) (fst (fst y)) = Some f
    /\ z = (f, snd (fst x) ++ snd (fst y), snd x ++ snd y).
  Proof.
    intros [[d l] r] [[e l'] r'] z H. cbn [fst snd ExpanderSpec.follow] in *. destruct (ExpanderSpec.meet d e) as [f|]; [|destruct H].
    destruct H as [<-|[]]. now exists f.
  Qed.
  Lemma meet_serves : forall d e f, ExpanderSpec.meet d e = Some f -> (serves lr f <-> serves lr d /\ serves lr e).
  Proof.
    intros d e f H. unfold serves. destruct lr, d, e; cbn in H; try discriminate H; injection H as <-; (split; [intros K; split; congruence|intros [K1 K2]; congruence]).
  Qed.
  Lemma serves_meet : forall d e, serves lr d -> serves lr e -> exists f, ExpanderSpec.meet d e = Some f.
  Proof. intros d e. unfold serves. destruct lr, d, e; cbn; try (eexists; reflexivity); congruence. Qed.
  Lemma product_in : forall X Y z, In z (ExpanderSpec.product X Y) <-> exists x y, In x X /\ In y Y /\ In z (ExpanderSpec.follow x y).
  Proof.
    intros X Y z. unfold ExpanderSpec.product. rewrite in_flat_map. split.
    - intros (x & Hx & H). apply in_flat_map in H as (y & Hy & H). eauto.
    - intros (x & y & Hx & Hy & H). exists x. split; [exact Hx|]. apply in_flat_map. eauto.
  Qed.
  Lemma word_app : forall d l r e l' r' f u v, ExpanderSpec.meet d e = Some f -> same_word (d, l, r) u -> same_word (e, l', r') v ->
    same_word (f, l ++ l', r ++ r') (u ++ v).
  Proof.
    intros d l r e l' r' f u v M (A1 & A2 & A3) (B1 & B2 & B3). cbn [AgreeSpec.same_word]. split; [now apply (meet_serves d e)|].
    destruct (sides_app u v) as [-> ->]. destruct lr; split; now apply stands_app.
  Qed.
  Lemma matches_cat : forall S T X Y, matches S X -> matches T Y -> matches (cat S T) (ExpanderSpec.product X Y).
  Proof.
    intros S T X Y [S1 S2] [T1 T2]. split.
    - intros w (u & v & -> & Hu & Hv). destruct (S1 u Hu) as ([[d l] r] & Ix & Wx). destruct (T1 v Hv) as ([[e l'] r'] & Iy & Wy).
      destruct (serves_meet d e (proj1 Wx) (proj1 Wy)) as (f & M). exists (f, l ++ l', r ++ r'). split; [|exact (word_app _ _ _ _ _ _ _ _ _ M Wx Wy)].
      apply product_in. exists (d, l, r), (e, l', r'). split; [exact Ix|]. split; [exact Iy|]. cbn [ExpanderSpec.follow]. rewrite M. now left.
    - intros z Iz Sz. apply product_in in Iz as ([[d l] r] & [[e l'] r'] & Ix & Iy & Hf). apply follow_in in Hf as (f & M & ->). cbn [fst snd] in *.
      apply (meet_serves d e f M) in Sz as [Sd Se]. destruct (S2 _ Ix Sd) as (u & Hu & Wu). destruct (T2 _ Iy Se) as (v & Hv & Wv).
      exists (u ++ v). split; [exists u, v; auto|exact (word_app _ _ _ _ _ _ _ _ _ M Wu Wv)].
  Qed.
  Lemma matches_app : forall (S T : pset) X Y, matches S X -> matches T Y -> matches (join_sets S T) (X ++ Y).
  Proof.
    intros S T X Y [S1 S2] [T1 T2]. split.
    - intros w [H|H]; [destruct (S1 w H) as (x & I & W)|destruct (T1 w H) as (x & I & W)]; exists x; (split; [apply in_or_app; auto|exact W]).
    - intros x I Sx. apply in_app_or in I as [I|I]; [destruct (S2 x I Sx) as (w & H & W)|destruct (T2 x I Sx) as (w & H & W)]; exists w; (split; [|exact W]); [now left|now right].
  Qed.
  Lemma matches_none : matches no_words [].
  Proof. split; [intros w []|intros x []]. Qed.
  Lemma matches_ext : forall (S T : pset) X, (forall w, S w <-> T w) -> matches S X -> matches T X.
  Proof.
    intros S T X H [A B]. split; [intros w K; apply A, H, K|]. intros x I K. destruct (B x I K) as (w & Hw & W). exists w. split; [now apply H|exact W].
  Qed.
  Lemma serves_both : serves lr ExpanderSpec.Both.
  Proof. unfold serves. destruct lr; discriminate. Qed.
  Lemma matches_literal : forall l r t u w, ~ In 0 l -> ~ In 0 r -> stands t l -> stands u r ->
    matches (element_set lr w (Single l r 0)) [(ExpanderSpec.Both, t, u)].
  Proof.
    intros l r t u w Hl Hr Ht Hu. cbn [element_set].
    assert (W : same_word (ExpanderSpec.Both, t, u) (if lr then align l r else align r l)).
    { split; [exact serves_both|]. destruct lr; [destruct (align_sides l r Hl Hr) as [-> ->]|destruct (align_sides r l Hr Hl) as [-> ->]]; auto. }
    split.
    - intros w' ->. eexists. split; [now left|exact W].
    - intros x [<-|[]] _. eexists. split; [reflexivity|exact W].
  Qed.

  (** * Entries *)
  Definition no_zero (t : entry_token) : Prop := match t with Single l r _ => ~ In 0 l /\ ~ In 0 r | _ => True end.
  Definition env_matches (Ec : ustr -> pset) (Ee : ExpanderSpec.env) : Prop := forall n, matches (Ec n) (Ee n).
  Lemma matches_elements : forall Ec Ee w, env_matches Ec Ee -> forall ds X, ExpanderSpec.choices o Ee (map listed_element ds) X ->
    Forall no_expression ds -> Forall (element_known false known) ds -> Forall element_scalar ds -> Forall no_zero (map (element_token keep code w) ds) ->
    matches (entry_set lr Ec (map (element_token keep code w) ds)) X.
  Proof.
    intros Ec Ee w HE. induction ds as [|d ds IH]; intros X H K1 K2 K3 K4; cbn [map] in *.
    - inversion H; subst. cbn [entry_set]. split.
      + intros w' ->. eexists. split; [now left|]. split; [exact serves_both|]. destruct lr; split; constructor.
      + intros x [<-|[]] _. exists []. split; [reflexivity|]. split; [exact serves_both|]. destruct lr; split; constructor.
    - pose proof (Forall_inv K1) as D1. apply Forall_inv_tail in K1. pose proof (Forall_inv K2) as D2. apply Forall_inv_tail in K2.
      pose proof (Forall_inv K3) as D3. apply Forall_inv_tail in K3. pose proof (Forall_inv K4) as D4. apply Forall_inv_tail in K4.
      cbn [entry_set]. inversion H as [|el l r els X' HL HC|n els X' HC EqN]; subst.
      + apply matches_cat; [|now apply IH]. destruct d as [ps|ps|pl pr|t|n]; cbn [listed_element ExpanderSpec.literal no_expression element_known element_scalar element_token no_zero] in *.
        * destruct HL as [HL ->]. destruct D4 as [Z _]. assert (S := side_stands ps l D2 D3 HL). exact (matches_literal _ _ _ _ Ec Z Z S S).
        * destruct HL as [HL ->]. destruct D4 as [Z1 Z2]. assert (S := side_stands ps l D2 D3 HL).
          apply (matches_literal _ _ _ _ Ec Z1 Z2 S). apply (st_mark sym 35 l); [cbn; tauto|exact S].
        * destruct HL as [HL HR]. destruct D4 as [Z1 Z2]. destruct D2 as [D2 D2']. destruct D3 as [D3 D3'].
          exact (matches_literal _ _ _ _ Ec Z1 Z2 (side_stands pl l D2 D3 HL) (side_stands pr r D2' D3' HR)).
        * destruct D1.
        * destruct HL.
      + destruct d as [ps|ps|pl pr|t|m]; cbn [listed_element] in EqN; try discriminate EqN. injection EqN as ->.
        cbn [element_token]. apply matches_cat; [exact (HE _)|now apply IH].
  Qed.
  Lemma selected_used : forall e, comparable o e ->
    (EntryFilterProps.selected o lr (e_attrs e) <-> ExpanderSpec.used o (e_attrs e) /\ if lr then ExpanderSpec.for_lr o (e_attrs e) else ExpanderSpec.for_rl o (e_attrs e)).
  Proof.
    intros e (H1 & H2 & H3 & H4 & H5 & _). rewrite <- (EntryFilterProps.C57_same o (e_attrs e) lr); auto.
    - destruct (EntryFilterProps.C57_compiled o lr (e_attrs e)) as (b & Eb & Hb). rewrite Eb, <- Hb. destruct b; split; congruence.
    - cbn [In]. destruct H1 as [-> |[-> | ->]]; auto.
  Qed.
  Lemma direction_serves : forall a d, ExpanderSpec.direction_of o a d -> (serves lr d <-> if lr then ExpanderSpec.for_lr o a else ExpanderSpec.for_rl o a).
  Proof. intros a d H. unfold serves. destruct lr, d; cbn in H; destruct H; split; intros; try assumption; try contradiction; congruence. Qed.
  Lemma matches_entries : forall Ec Ee, env_matches Ec Ee -> forall es tss, compiled_entries keep code stod o lr es tss ->
    forall Xs, Forall2 (fun e X => ExpanderSpec.entry_expansions o Ee (fst e) (snd e) X) (map listed_entry es) Xs ->
    Forall (comparable o) es -> Forall (entry_known o lr false known) es -> Forall entry_scalar es -> Forall (Forall no_zero) tss ->
    matches (entries_set lr Ec tss) (concat Xs).
  Proof.
    intros Ec Ee HE es tss C. induction C as [|e es w tss Hs Hw C IH|e es tss Hs C IH]; intros Xs F K1 K2 K3 K4.
    - inversion F; subst. split; [intros w (els & [] & _)|intros x []].
    - cbn [map] in F. inversion F as [|? X ? Xs' HX F']; subst. pose proof (Forall_inv K1) as D1. apply Forall_inv_tail in K1. pose proof (Forall_inv K2) as D2. apply Forall_inv_tail in K2.
      pose proof (Forall_inv K3) as D3. apply Forall_inv_tail in K3. pose proof (Forall_inv K4) as D4. apply Forall_inv_tail in K4.
      cbn [concat]. cbn [listed_entry fst snd] in HX. pose proof Hs as Hu. apply (selected_used e D1) in Hu as [Hu Hf].
      apply (matches_ext (join_sets (entry_set lr Ec (map (element_token keep code w) (e_elements e))) (entries_set lr Ec tss))).
      + intros w'. unfold join_sets, entries_set. split.
        * intros [H|(els & I & H)]; [eexists; split; [now left|exact H]|exists els; split; [now right|exact H]].
        * intros (els & [<-|I] & H); [now left|right; eauto].
      + apply matches_app; [|now apply IH]. destruct HX as [N|d X _ Hd HC]; [contradiction|].
        assert (M : matches (entry_set lr Ec (map (element_token keep code w) (e_elements e))) X).
        { apply (matches_elements Ec Ee w HE); auto. apply D1. }
        apply (matches_ext (cat (fun w => w = []) (entry_set lr Ec (map (element_token keep code w) (e_elements e))))).
        * intros w'. split; [intros (u & v & -> & -> & H); exact H|intros H; exists [], w'; auto].
        * apply matches_cat; [|exact M]. assert (Sd : serves lr d) by (apply (direction_serves _ _ Hd); exact Hf). split.
          -- intros w' ->. eexists. split; [now left|]. split; [exact Sd|]. destruct lr; split; constructor.
          -- intros x [<-|[]] _. exists []. split; [reflexivity|]. split; [exact Sd|]. destruct lr; split; constructor.
    - cbn [map] in F. inversion F as [|? X ? Xs' HX F']; subst. pose proof (Forall_inv K1) as D1. apply Forall_inv_tail in K1. apply Forall_inv_tail in K2. apply Forall_inv_tail in K3.
      cbn [concat]. cbn [listed_entry fst snd] in HX.
      apply (matches_ext (join_sets no_words (entries_set lr Ec tss))); [intros w'; unfold join_sets, no_words; tauto|].
      apply matches_app; [|now apply IH]. destruct HX as [N|d X Hu Hd HC]; [exact matches_none|].
      split; [intros w' []|]. intros x I Sx. exfalso. apply Hs, (selected_used e D1). split; [exact Hu|]. apply (direction_serves _ _ Hd).
      apply product_in in I as (y & z & [<-|[]] & _ & Hf). apply follow_in in Hf as (f & M & ->). cbn [fst] in *. now apply (meet_serves _ _ _ M) in Sx.
  Qed.
  (** * Dictionaries *)
  Definition item_nonzero (i : item) : Prop := match i with Pardef _ tss | Sec _ tss => Forall (Forall no_zero) tss end.
  Definition sections_set (Ec : ustr -> pset) (items : list item) : pset := fun w => exists name, section_set lr Ec items name w.
  Lemma env_define : forall Ec Ee n S X, env_matches Ec Ee -> matches S X -> env_matches (define n S Ec) (ExpanderSpec.define n X Ee).
  Proof. intros Ec Ee n S X H M m. unfold define, ExpanderSpec.define. destruct (ustr_eq_dec m n); auto. Qed.
  Lemma matches_pardefs : forall ds is_, Forall2 (fun d i => exists tss, compiled_entries keep code stod o lr (snd d) tss /\ i = Pardef (fst d) tss) ds is_ ->
    Forall (fun d => Forall (comparable o) (snd d)) ds -> Forall (fun d => Forall (entry_known o lr false known) (snd d)) ds -> Forall (fun d => Forall entry_scalar (snd d)) ds ->
    Forall item_nonzero is_ ->
    forall its items, (forall Ec Ee Ys, env_matches Ec Ee -> ExpanderSpec.dictionary o Ee its Ys -> matches (sections_set Ec items) (concat Ys)) ->
    forall Ec Ee Ys, env_matches Ec Ee ->
    ExpanderSpec.dictionary o Ee (map (fun d => ExpanderSpec.Pardef (fst d) (map listed_entry (snd d))) ds ++ its) Ys -> matches (sections_set Ec (is_ ++ items)) (concat Ys).
  Proof.
    intros ds is_ F. induction F as [|d i ds is_ (tss & C & ->) F IH]; intros K1 K2 K3 K4 its items HI Ec Ee Ys HE D; cbn [map app] in *; [now apply (HI Ec Ee)|].
    inversion D as [|? n es Xs ? Ys' FX D'|]; subst.
    pose proof (Forall_inv K1) as D1. apply Forall_inv_tail in K1. pose proof (Forall_inv K2) as D2. apply Forall_inv_tail in K2.
    pose proof (Forall_inv K3) as D3. apply Forall_inv_tail in K3. pose proof (Forall_inv K4) as D4. apply Forall_inv_tail in K4.
    apply (IH K1 K2 K3 K4 its items HI (define (fst d) (entries_set lr Ec tss) Ec) (ExpanderSpec.define (fst d) (concat Xs) Ee) Ys); [|exact D'].
    apply env_define; [exact HE|]. apply (matches_entries Ec Ee HE (snd d)); auto.
  Qed.
  Lemma matches_tops : forall ts items, compiled_tops keep code stod o lr ts items ->
    Forall (top_comparable o) ts -> Forall (top_known o lr false known) ts -> Forall top_scalar ts -> Forall item_nonzero items ->
    forall Ec Ee Ys, env_matches Ec Ee -> ExpanderSpec.dictionary o Ee (flat_map listed ts) Ys -> matches (sections_set Ec items) (concat Ys).
  Proof.
    intros ts items C. induction C as [|ds is_ ts is' F C IH|id ty es tss ts is' F C IH]; intros K1 K2 K3 K4 Ec Ee Ys HE D.
    - inversion D; subst. split; [intros w (name & [])|intros x []].
    - pose proof (Forall_inv K1) as D1. apply Forall_inv_tail in K1. pose proof (Forall_inv K2) as D2. apply Forall_inv_tail in K2.
      pose proof (Forall_inv K3) as D3. apply Forall_inv_tail in K3. apply Forall_app in K4 as [K4 K5].
      cbn [flat_map listed] in D. exact (matches_pardefs ds is_ F D1 D2 D3 K4 (flat_map listed ts) is' (IH K1 K2 K3 K5) Ec Ee Ys HE D).
    - pose proof (Forall_inv K1) as D1. apply Forall_inv_tail in K1. pose proof (Forall_inv K2) as D2. apply Forall_inv_tail in K2.
      pose proof (Forall_inv K3) as D3. apply Forall_inv_tail in K3. pose proof (Forall_inv K4) as D4. apply Forall_inv_tail in K4.
      cbn [flat_map listed app] in D. inversion D as [| |? es' Xs ? Ys' FX D']; subst. rewrite concat_app.
      apply (matches_ext (join_sets (entries_set lr Ec tss) (sections_set Ec is'))).
      + intros w. unfold sections_set, join_sets. cbn [section_set]. unfold join_sets. split.
        * intros [H|(name & H)]; [eexists; left; split; [reflexivity|exact H]|exists name; now right].
        * intros (name & [[_ H]|H]); [now left|right; eauto].
      + apply matches_app; [|now apply (IH K1 K2 K3 K4 Ec Ee)]. apply (matches_entries Ec Ee HE es); auto.
  Qed.
  Lemma ok_nonzero : forall items Ec names, dict_ok lr Ec names items -> Forall item_nonzero items.
  Proof.
    assert (T : forall Ec names els, entry_ok Ec names els -> Forall no_zero els).
    { intros Ec names. induction els as [|el els IH]; intros H; constructor; [|apply IH, H]. destruct H as [H _]. destruct el; cbn in *; auto. }
    induction items as [|i items IH]; intros Ec names H; constructor.
    - destruct i as [n tss|n tss]; cbn [dict_ok item_nonzero] in *.
      + destruct H as (_ & _ & H & _). eapply Forall_impl; [|exact H]. intros els. apply T.
      + destruct H as (H & _). eapply Forall_impl; [|exact H]. intros els. apply T.
    - destruct i as [n tss|n tss]; cbn [dict_ok] in H; [apply (IH _ _ (proj2 (proj2 (proj2 (proj2 H)))))|apply (IH _ _ (proj2 H))].
  Qed.
End A.
