(** Lemmas for ListingProps.v *)
From Coq Require String Ascii.
From Verif Require Import Base CompressionModel AlphabetModel StringModel ExpanderModel DixModel DixSpec DixProofs ListingModel ListingSpec.
From Verif Require ExpanderSpec ExpanderProofs StreamProps InputProps.
Import String.StringSyntax.

Section L.
  Context (o : options) (isspace : Z -> bool) (fails : bool).
  Notation keep := (o_keep o).
  Notation pieces := (ExpanderModel.readStrings keep).
  Lemma readStrings_app : forall l m, pieces (l ++ m) = let! s := pieces l in let! t := pieces m in Ok (s ++ t).
  Proof.
    induction l as [|p l IH]; intros m; cbn [app ExpanderModel.readStrings obind]; [destruct (pieces m); reflexivity|].
    destruct (ExpanderModel.readString keep p); try reflexivity. cbn [obind]. rewrite IH.
    destruct (pieces l); try reflexivity. cbn [obind]. destruct (pieces m); try reflexivity. cbn [obind]. now rewrite app_assoc.
  Qed.
  (** * Sides *)
  Lemma mark_piece : forall m n, mark_node m n -> mark_scalar m ->
    (let! p := xPiece n in ExpanderModel.readString keep p) = ExpanderModel.readString keep (listed_mark m).
  Proof.
    intros m n H K. destruct H; try reflexivity; cbn [mark_scalar] in K.
    - change (xPiece (text t)) with (Ok (PText (fold_left append_cp t []))). cbn [obind listed_mark]. rewrite value_text by assumption. reflexivity.
    - change (xPiece (alone (txt "s") a)) with (Ok (PSym (attrib a_n (alone (txt "s") a)))). cbn [obind listed_mark].
      unfold alone. now rewrite (given_attrib a a_n n _ _ _ _ H).
  Qed.
  Lemma mark_not_named : forall x m n, In x [n_i; n_ig; n_l; n_r] -> mark_node m n -> named x n = false.
  Proof. intros x m n Hx H. cbn [In] in Hx. destruct Hx as [<-|[<-|[<-|[<-|[]]]]]; destruct H; reflexivity. Qed.
  Notation side_then l r := (let! s := pieces l in let! (t, r') := r in Ok (s ++ t, r')).
  Lemma then_nil : forall r : outcome (ustr * list xnode), side_then [] r = r.
  Proof. intros [[t r]| | | |]; reflexivity. Qed.
  Lemma xside_marks : forall x ms ns r, In x [n_i; n_ig; n_l; n_r] -> Forall2 mark_node ms ns -> Forall mark_scalar ms ->
    xReadSide o fails x (ns ++ r) = side_then (map listed_mark ms) (xReadSide o fails x r).
  Proof.
    intros x ms ns r Hx H. induction H as [|m n ms ns Hm H IH]; intros K; cbn [app map]; [now rewrite then_nil|].
    inversion K as [|? ? K1 K2]; subst. cbn [xReadSide ExpanderModel.readStrings]. rewrite (mark_not_named x m n Hx Hm). pose proof (mark_piece m n Hm K1) as E.
    rewrite <- E. destruct (xPiece n) as [p| | | |]; try reflexivity. cbn [obind]. destruct (ExpanderModel.readString keep p); try reflexivity. cbn [obind].
    rewrite IH by assumption. destruct (pieces (map listed_mark ms)); try reflexivity. cbn [obind].
    destruct (xReadSide o fails x r) as [[t r']| | | |]; try reflexivity. cbn [obind]. now rewrite app_assoc.
  Qed.
  Lemma then_app : forall l m (r : outcome (ustr * list xnode)), side_then (l ++ m) r = side_then l (side_then m r).
  Proof.
    intros l m r. rewrite readStrings_app. destruct (pieces l); try reflexivity. cbn [obind]. destruct (pieces m); try reflexivity. cbn [obind].
    destruct r as [[t r]| | | |]; try reflexivity. cbn [obind]. now rewrite app_assoc.
  Qed.
  Lemma g_not_named : forall x n, In x [n_i; n_ig; n_l; n_r] -> x_name n = n_g -> named x n = false.
  Proof. intros x n Hx E. unfold named. rewrite E. cbn [In] in Hx. destruct Hx as [<-|[<-|[<-|[<-|[]]]]]; reflexivity. Qed.
  Lemma xside_part : forall x p ns r, In x [n_i; n_ig; n_l; n_r] -> part_nodes p ns -> part_scalar p ->
    xReadSide o fails x (ns ++ r) = side_then (listed_part p) (xReadSide o fails x r).
  Proof.
    intros x p ns r Hx H K. destruct H.
    - exact (xside_marks x [m] [n] r Hx ltac:(constructor; [exact H|constructor]) ltac:(constructor; [exact K|constructor])).
    - cbn [app xReadSide listed_part]. rewrite g_not_named by (exact Hx || reflexivity). change (xPiece (opening (txt "g") a)) with (Ok PGroup). cbn [obind ExpanderModel.readString].
      rewrite <- app_assoc, (xside_marks x ms ns _ Hx H K). cbn [app xReadSide]. rewrite g_not_named by (exact Hx || reflexivity).
      change (xPiece (closing (txt "g") b)) with (Ok PGroupEnd). cbn [obind ExpanderModel.readString].
      change (PGroup :: map listed_mark ms ++ [PGroupEnd]) with ([PGroup] ++ map listed_mark ms ++ [PGroupEnd]). rewrite !then_app.
      cbn [ExpanderModel.readStrings ExpanderModel.readString obind app].
      destruct (pieces (map listed_mark ms)), (xReadSide o fails x r) as [[t r']| | | |]; reflexivity.
    - cbn [app xReadSide listed_part map]. rewrite g_not_named by (exact Hx || reflexivity). change (xPiece (alone (txt "g") a)) with (Ok PGroup). cbn [obind ExpanderModel.readString ExpanderModel.readStrings].
      cbn [app ExpanderModel.readStrings ExpanderModel.readString obind]. destruct (xReadSide o fails x r) as [[t r']| | | |]; reflexivity.
  Qed.
  Lemma xside_parts : forall x ps nss n r, In x [n_i; n_ig; n_l; n_r] -> Forall2 part_nodes ps nss -> Forall part_scalar ps -> named x n = true ->
    xReadSide o fails x (concat nss ++ n :: r) = let! s := pieces (listed_side ps) in Ok (s, r).
  Proof.
    intros x ps nss n r Hx H. induction H as [|p ns ps nss Hp H IH]; intros K N; cbn [concat app].
    { cbn [xReadSide]. rewrite N. reflexivity. }
    inversion K; subst. rewrite <- app_assoc, (xside_part x p ns _ Hx Hp) by assumption. rewrite IH by assumption. cbn [listed_side flat_map].
    rewrite readStrings_app. fold (listed_side ps). destruct (pieces (listed_part p)); try reflexivity. cbn [obind]. destruct (pieces (listed_side ps)); reflexivity.
  Qed.
  Lemma xside_read : forall x ps ns r, In x [n_i; n_ig; n_l; n_r] -> side_nodes x ps ns -> Forall part_scalar ps ->
    exists n r', ns ++ r = n :: r' /\ x_name n = x /\ xSide o fails x n r' = let! s := pieces (listed_side ps) in Ok (s, r).
  Proof.
    intros x ps ns r Hx H K. destruct H.
    - exists (alone x a), r. auto.
    - exists (opening x a), ((concat nss ++ [closing x b]) ++ r). split; [reflexivity|]. split; [reflexivity|]. unfold xSide. cbn [x_empty opening].
      rewrite <- app_assoc. cbn [app]. apply xside_parts; auto. unfold named, ueq. cbn [x_name closing]. destruct (ustr_eq_dec x x); congruence.
  Qed.

  (** * Gaps *)
  Notation gap := (gap isspace).
  Notation element_nodes := (element_nodes isspace).
  Notation entry_nodes := (entry_nodes isspace).
  Lemma blank_ok : forall t, blank isspace t -> xAllBlanks isspace (text t) = true.
  Proof.
    intros t [H B]. unfold xAllBlanks, readValue. cbn [x_value text]. rewrite value_text by assumption. cbn [app]. rewrite forallb_forall.
    rewrite Forall_forall in B. exact B.
  Qed.
  Definition solid (n : xnode) : Prop := named n_comment n = false /\ named n_text n = false.
  Lemma next_gap : forall g n r, gap g -> solid n -> xNext isspace fails (g ++ n :: r) = Ok (n, r).
  Proof.
    intros g n r H [N1 N2]. induction H as [|m g (t & [[-> B]| ->]) H IH]; cbn [app].
    - cbn [xNext]. now rewrite N2, N1.
    - change (xNext isspace fails (text t :: g ++ n :: r)) with
        (if xAllBlanks isspace (text t) then match g ++ n :: r with [] => @after_end fails (xnode * list xnode) | _ => xNext isspace fails (g ++ n :: r) end else Exit).
      rewrite (blank_ok t B), IH. destruct g; reflexivity.
    - exact IH.
  Qed.
  Lemma solid_named : forall x n, x_name n = x -> ueq x n_comment = false -> ueq x n_text = false -> solid n.
  Proof. intros x n <- H1 H2. split; assumption. Qed.
  Definition thin (g : list xnode) : Prop := g = [] \/ exists t, g = [text t] /\ blank isspace t.
  Lemma skip_thin : forall x g n r, thin g -> x_name n = x -> ueq x n_text = false -> xSkip isspace fails x (g ++ n :: r) = Ok (n, r).
  Proof.
    intros x g n r Hg <- Ht.
    assert (E : named (x_name n) n = true) by (unfold named, ueq; destruct (ustr_eq_dec (x_name n) (x_name n)); congruence).
    destruct Hg as [-> |(t & -> & B)]; cbn [app].
    - unfold xSkip. unfold named at 1. rewrite Ht. cbn [obind]. now rewrite E.
    - unfold xSkip. change (named n_text (text t)) with true. cbn iota. rewrite (blank_ok t B). cbn [obind]. now rewrite E.
  Qed.
  Lemma gap_thin : forall g, gap g -> (forall a s t b, g <> a ++ text s :: text t :: b) -> (forall t, ~ In (comment t) g) -> thin g.
  Proof.
    intros g H T C. destruct H as [|m g (t & [[-> B]| ->]) H]; [now left| |exfalso; apply (C t); now left].
    destruct H as [|m' g' (t' & [[-> B']| ->]) H]; [right; eauto|exfalso; exact (T [] _ _ _ eq_refl)|exfalso; apply (C t'); right; now left].
  Qed.
  Lemma tidy_part : forall a ns b, tidy (a ++ ns ++ b) -> tidy ns.
  Proof.
    intros a ns b (T1 & T2 & T3). split; [|split].
    - intros x s t y ->. apply (T1 (a ++ x) s t (y ++ b)). rewrite <- !app_assoc. reflexivity.
    - intros x at_ y t z ->. apply (T2 (a ++ x) at_ y t (z ++ b)). rewrite <- !app_assoc. cbn [app]. rewrite <- !app_assoc. reflexivity.
    - intros x at_ y at' z ->. apply (T3 (a ++ x) at_ y at' (z ++ b)). rewrite <- !app_assoc. cbn [app]. rewrite <- !app_assoc. reflexivity.
  Qed.
  (** No node is named x. *)
  Definition free (x : ustr) (ns : list xnode) : Prop := Forall (fun n => named x n = false) ns.
  Lemma free_gap : forall x g, ueq n_text x = false -> ueq n_comment x = false -> gap g -> free x g.
  Proof. intros x g H1 H2 H. induction H as [|m g (t & [[-> B]| ->]) H IH]; constructor; auto. Qed.
  Definition plain_name (x : ustr) : Prop := In x [n_p; n_e; n_par].
  Lemma free_marks : forall x ms ns, plain_name x -> Forall2 mark_node ms ns -> free x ns.
  Proof. intros x ms ns Hx H. induction H as [|m n ms ns Hm H IH]; constructor; auto. unfold plain_name in Hx. cbn [In] in Hx. destruct Hx as [<-|[<-|[<-|[]]]]; now destruct Hm. Qed.
  Lemma free_side : forall x y ps ns, plain_name y -> ueq x y = false -> side_nodes x ps ns -> free y ns.
  Proof.
    intros x y ps ns Hy Hx H.
    assert (G : forall n, x_name n = n_g -> named y n = false).
    { intros n E. unfold named. rewrite E. unfold plain_name in Hy. cbn [In] in Hy. destruct Hy as [<-|[<-|[<-|[]]]]; reflexivity. }
    destruct H; [constructor; [exact Hx|constructor]|]. constructor; [exact Hx|]. apply Forall_app. split; [|constructor; [exact Hx|constructor]].
    induction H as [|p ns ps nss Hp H IH]; [constructor|]. cbn [concat]. apply Forall_app. split; [|exact IH]. destruct Hp.
    - exact (free_marks y [m] [n] Hy ltac:(constructor; [assumption|constructor])).
    - constructor; [now apply G|]. apply Forall_app. split; [now apply (free_marks y ms)|]. constructor; [now apply G|constructor].
    - constructor; [now apply G|constructor].
  Qed.
  Lemma free_not_in : forall x n ns, named x n = true -> free x ns -> ~ In n ns.
  Proof. intros x n ns E H I. rewrite (proj1 (Forall_forall _ _) H n I) in E. discriminate. Qed.
  (** The gaps of a pair *)
  Lemma pair_gaps : forall a l r g1 ls g2 rs g3 b, gap g1 -> side_nodes (txt "l") l ls -> gap g2 -> side_nodes (txt "r") r rs -> gap g3 ->
    tidy (opening (txt "p") a :: g1 ++ ls ++ g2 ++ rs ++ g3 ++ [closing (txt "p") b]) -> thin g1 /\ thin g2 /\ thin g3.
  Proof.
    intros a l r g1 ls g2 rs g3 b G1 L G2 R G3 T.
    assert (F : forall g, gap g -> free n_p g) by (intros g; apply free_gap; reflexivity).
    assert (Fl : free n_p ls) by (apply (free_side (txt "l") n_p l); [now left|reflexivity|exact L]).
    assert (Fr : free n_p rs) by (apply (free_side (txt "r") n_p r); [now left|reflexivity|exact R]).
    assert (W : forall pre g post, opening (txt "p") a :: g1 ++ ls ++ g2 ++ rs ++ g3 ++ [closing (txt "p") b] = opening (txt "p") a :: pre ++ g ++ post ->
      free n_p pre -> gap g -> thin g).
    { intros pre g post E Fp G. rewrite E in T. apply gap_thin; [exact G| |].
      - apply (tidy_part (opening (txt "p") a :: pre) g post) in T. apply T.
      - intros t I. apply in_split in I as (u & v & ->). destruct T as (_ & T & _).
        destruct (T [] a (pre ++ u) t (v ++ post)) as (n' & I' & En).
        + cbn [app]. rewrite <- !app_assoc. reflexivity.
        + apply (free_not_in n_p) in I'; [exact I'|unfold named; rewrite En; reflexivity|]. apply Forall_app. split; [exact Fp|].
          apply F in G. apply Forall_app in G as [G _]. exact G. }
    split; [|split].
    - exact (W [] g1 (ls ++ g2 ++ rs ++ g3 ++ [closing (txt "p") b]) eq_refl ltac:(constructor) G1).
    - apply (W (g1 ++ ls) g2 (rs ++ g3 ++ [closing (txt "p") b])); [now rewrite <- app_assoc| |exact G2]. apply Forall_app. split; [now apply F|exact Fl].
    - apply (W (g1 ++ ls ++ g2 ++ rs) g3 [closing (txt "p") b]); [now rewrite <- !app_assoc| |exact G3].
      apply Forall_app. split; [now apply F|]. apply Forall_app. split; [exact Fl|]. apply Forall_app. split; [now apply F|exact Fr].
  Qed.

  (** * Entries *)
  Notation loop := (xEntryLoop o isspace fails).
  Notation proc_elements := (proc_elements o).
  Lemma element_first : forall d ns, element_nodes d ns -> exists n ns', ns = n :: ns' /\ solid n.
  Proof.
    intros d ns H. destruct H; try (destruct H); do 2 eexists; (split; [reflexivity|split; reflexivity]).
  Qed.
  Lemma skip_more : forall g n r, gap g -> solid n -> quiet (g ++ [n]) -> xSkip isspace fails n_e (g ++ n :: r) = Exit.
  Proof.
    intros g n r G [S1 S2] Q. destruct G as [|m g Hm G]; cbn [app] in *.
    - unfold xSkip. rewrite S2. cbn [obind]. now rewrite (Forall_inv Q).
    - destruct Hm as (t & [[-> B]| ->]).
      + unfold xSkip. change (named n_text (text t)) with true. cbn iota. rewrite (blank_ok t B). apply Forall_inv_tail in Q.
        destruct g as [|m g]; cbn [app obind] in *; now rewrite (Forall_inv Q).
      + reflexivity.
  Qed.
  (** One element *)
  Definition after_par (ps : paradigms) (a : attributes) (n : ustr) (x : lists) (r : list xnode) (more : lists -> outcome (option lists * list xnode)) :=
    match par_find n ps with
    | None => Exit
    | Some p => match append_par a p x with None => let! (_, r) := xSkip isspace fails n_e r in Ok (None, r) | Some x => more x end
    end.
  Definition literal_of (d : delement) : outcome (ustr * ustr) :=
    match d with
    | Both ps => let! s := pieces (listed_side ps) in Ok (s, s)
    | BothGroup ps => let! s := pieces (listed_side ps) in Ok (s, 35 :: s)
    | Sides l r => let! s := pieces (listed_side l) in let! t := pieces (listed_side r) in Ok (s, t)
    | Expr t => let val := regexp_mark ++ ExpanderModel.procRegexp false (utf16_text t) in Ok (val, val)
    | Use _ => Exit
    end.
  Lemma xelement_read : forall fuel ps a x g d ns r, gap g -> element_nodes d ns -> element_scalar d -> tidy ns ->
    loop (S fuel) ps a x (g ++ ns ++ r) =
      match d with
      | Use n => after_par ps a n x r (fun x => loop fuel ps a x r)
      | _ => let! p := literal_of d in loop fuel ps a (append_all x p) r
      end.
  Proof.
    intros fuel ps a x g d ns r G H K T. cbn [xEntryLoop]. destruct H as [pl ns H|pl ns H|a1 b1 l r1 g1 ls g2 rs g3 G1 L G2 R G3|a1 b1 t|a1 n H]; cbn [element_scalar literal_of] in *.
    - destruct (xside_read n_i pl ns r) as (n & r' & -> & En & E); [now left|exact H|exact K|]. rewrite next_gap by (exact G || now apply (solid_named n_i)).
      cbn [obind]. unfold named. rewrite En. change (ueq n_i n_p) with false. change (ueq n_i n_i) with true. cbn iota. rewrite E.
      destruct (pieces (listed_side pl)); reflexivity.
    - destruct (xside_read n_ig pl ns r) as (n & r' & -> & En & E); [cbn; tauto|exact H|exact K|]. rewrite next_gap by (exact G || now apply (solid_named n_ig)).
      cbn [obind]. unfold named. rewrite En. change (ueq n_ig n_p) with false. change (ueq n_ig n_i) with false. change (ueq n_ig n_ig) with true. cbn iota. rewrite E.
      destruct (pieces (listed_side pl)); reflexivity.
    - destruct (pair_gaps a1 l r1 g1 ls g2 rs g3 b1 G1 L G2 R G3 T) as (T1 & T2 & T3). destruct K as [K1 K2]. cbn [app].
      rewrite next_gap by (exact G || split; reflexivity). cbn [obind]. change (named n_p (opening (txt "p") a1)) with true. cbn iota. unfold xTransduction.
      repeat rewrite <- app_assoc. cbn [app].
      destruct (xside_read n_l l ls (g2 ++ rs ++ g3 ++ closing (txt "p") b1 :: r)) as (n & r' & -> & En & E); [cbn; tauto|exact L|exact K1|].
      rewrite (skip_thin n_l g1 n r') by (auto || reflexivity). cbn [obind]. rewrite E.
      destruct (pieces (listed_side l)) as [s1| | | |]; try reflexivity. cbn [obind].
      destruct (xside_read n_r r1 rs (g3 ++ closing (txt "p") b1 :: r)) as (n2 & r2 & -> & En2 & E2); [cbn; tauto|exact R|exact K2|].
      rewrite (skip_thin n_r g2 n2 r2) by (auto || reflexivity). cbn [obind]. rewrite E2.
      destruct (pieces (listed_side r1)) as [s2| | | |]; try reflexivity. cbn [obind].
      rewrite (skip_thin n_p g3 (closing (txt "p") b1) r) by (auto || reflexivity). reflexivity.
    - cbn [app]. rewrite next_gap by (exact G || split; reflexivity). cbn [obind]. unfold named. cbn [x_name opening].
      change (ueq (txt "re") n_p) with false. change (ueq (txt "re") n_i) with false. change (ueq (txt "re") n_ig) with false. change (ueq (txt "re") n_re) with true. cbn iota.
      unfold xRegexp. unfold readValue. cbn [x_value text]. rewrite value_text by exact K. reflexivity.
    - cbn [app]. rewrite next_gap by (exact G || split; reflexivity). cbn [obind]. unfold named. cbn [x_name alone].
      change (ueq (txt "par") n_p) with false. change (ueq (txt "par") n_i) with false. change (ueq (txt "par") n_ig) with false. change (ueq (txt "par") n_re) with false.
      change (ueq (txt "par") n_par) with true. cbn iota. unfold alone. rewrite (given_attrib a1 a_n n _ _ _ _ H). reflexivity.
  Qed.
  Lemma loose_gap : forall g, gap g -> loose g.
  Proof. intros g H. induction H as [|m g (t & [[-> B]| ->]) H IH]; constructor; eauto. Qed.
  Let rq : request := mkReq true false o false [] 0 isspace (fun _ => Exit) false.
  Lemma xelements_read : forall ps a ds ns, spread gap element_nodes ds ns -> Forall element_scalar ds ->
    forall b, tidy (ns ++ [closing (txt "e") b]) -> forall fuel x r, (length ds < fuel)%nat ->
    loop fuel ps a x (ns ++ closing (txt "e") b :: r) = let! y := proc_elements ps a (map listed_element ds) x in Ok (y, r).
  Proof.
    intros ps a ds ns H. induction H as [g Hg|g d ns ds r Hg Hd H IH]; intros K b T fuel x r' L; (destruct fuel as [|fuel]; [cbn [length] in L; lia|]).
    - cbn [xEntryLoop map ExpanderModel.proc_elements obind]. rewrite next_gap by (exact Hg || split; reflexivity). reflexivity.
    - inversion K as [|? ? K1 K2]; subst. cbn [length] in L.
      assert (Td : tidy ns) by (apply (tidy_part g ns (r ++ [closing (txt "e") b])); rewrite <- !app_assoc in T; exact T).
      assert (Tr : tidy (r ++ [closing (txt "e") b])).
      { apply (tidy_part (g ++ ns) _ []). rewrite app_nil_r. rewrite <- !app_assoc in *. exact T. }
      rewrite <- !app_assoc. rewrite (xelement_read fuel ps a x g d ns _ Hg Hd K1 Td).
      assert (G : forall p, loop fuel ps a (append_all x p) (r ++ closing (txt "e") b :: r') = let! y := proc_elements ps a (map listed_element ds) (append_all x p) in Ok (y, r'))
        by (intros p; apply IH; [exact K2|exact Tr|lia]).
      destruct d as [pl|pl|pl pr|t|n]; cbn [map listed_element ExpanderModel.proc_elements literal_of].
      + destruct (pieces (listed_side pl)); try reflexivity. cbn [obind]. apply G.
      + destruct (pieces (listed_side pl)); try reflexivity. cbn [obind]. apply G.
      + destruct (pieces (listed_side pl)); try reflexivity. cbn [obind]. destruct (pieces (listed_side pr)); try reflexivity. cbn [obind]. apply G.
      + cbn [obind]. apply G.
      + unfold after_par. destruct (par_find n ps) as [p|]; [|reflexivity]. destruct (append_par a p x) as [y|].
        * apply IH; [exact K2|exact Tr|lia].
        * inversion Hd as [| | | |a1 ? Hn]; subst. inversion H as [g' Hg'|g' d' ns' ds' r2 Hg' Hd' H']; subst.
          { cbn [map obind]. rewrite (skip_thin n_e r (closing (txt "e") b) r'); [reflexivity| |reflexivity|reflexivity].
            apply gap_thin; [exact Hg'|apply (tidy_part [] r [closing (txt "e") b] Tr)|].
            destruct T as (_ & _ & T). apply (T g a1 r b []); [rewrite <- !app_assoc; reflexivity|now apply loose_gap]. }
          { cbn [map obind]. destruct (element_first d' ns' Hd') as (m & ns2 & -> & Sm). pose proof (quiet_elements rq _ _ H) as Qt.
            rewrite <- !app_assoc. cbn [app]. rewrite skip_more; [reflexivity|exact Hg'|exact Sm|].
            apply Forall_app in Qt as [Q1 Q2]. cbn [app] in Q2. apply Forall_app. split; [exact Q1|]. constructor; [exact (Forall_inv Q2)|constructor]. }
  Qed.

  (** * The main loop *)
  Definition advances (e : expander) (ns : list xnode) (u : outcome (ustr * expander)) : Prop :=
    forall fuel r, (length (ns ++ r) <= fuel)%nat -> exists fuel', (length r <= fuel')%nat
      /\ xNodes o isspace fails fuel e (ns ++ r)
         = let! (out, e) := u in let! (more, e) := xNodes o isspace fails fuel' e r in Ok (out ++ more, e).
  Definition and_then (u : outcome (ustr * expander)) (f : expander -> outcome (ustr * expander)) : outcome (ustr * expander) :=
    let! (out, e) := u in let! (more, e) := f e in Ok (out ++ more, e).
  Lemma advances_none : forall e, advances e [] (Ok ([], e)).
  Proof.
    intros e fuel r H. exists fuel. split; [exact H|]. cbn [app obind]. destruct (xNodes o isspace fails fuel e r) as [[m e']| | | |]; reflexivity.
  Qed.
  Lemma advances_app : forall e ns ns' u f, advances e ns u -> (forall e', advances e' ns' (f e')) -> advances e (ns ++ ns') (and_then u f).
  Proof.
    intros e ns ns' u f H1 H2 fuel r Hf. rewrite <- app_assoc in *. destruct (H1 fuel (ns' ++ r) Hf) as (f1 & L1 & E1). rewrite E1. unfold and_then.
    destruct u as [[out e1]| | | |]; cbn [obind]; try (exists (length r); split; [lia|reflexivity]).
    destruct (H2 e1 f1 r L1) as (f2 & L2 & E2). exists f2. split; [exact L2|]. rewrite E2.
    destruct (f e1) as [[more e2]| | | |]; try reflexivity. cbn [obind]. destruct (xNodes o isspace fails f2 e2 r) as [[m e3]| | | |]; try reflexivity. cbn [obind]. now rewrite app_assoc.
  Qed.
  Lemma advances_node : forall e x ns u, (forall r, xNode o isspace fails e x (ns ++ r) = let! (out, e) := u in Ok (out, e, r)) -> advances e (x :: ns) u.
  Proof.
    intros e x ns u H fuel r Hf. cbn [app length] in Hf. destruct fuel as [|fuel]; [lia|]. rewrite app_length in Hf. exists fuel. split; [lia|].
    cbn [app xNodes]. rewrite H. destruct u as [[out e1]| | | |]; reflexivity.
  Qed.
  Lemma then_none : forall f e, and_then (Ok ([], e)) f = f e.
  Proof. intros f e. unfold and_then. cbn [obind app]. destruct (f e) as [[m e']| | | |]; reflexivity. Qed.
  Lemma none_then : forall u, and_then u (fun e => Ok ([], e)) = u.
  Proof. intros [[out e]| | | |]; try reflexivity. unfold and_then. cbn [obind]. now rewrite app_nil_r. Qed.
  Definition ignored (n : xnode) : Prop := forall e r, xNode o isspace fails e n r = Ok ([], e, r).
  Lemma advances_ignored : forall ns, Forall ignored ns -> forall e, advances e ns (Ok ([], e)).
  Proof.
    intros ns H. induction H as [|n ns Hn H IH]; intros e; [apply advances_none|]. change (n :: ns) with ([n] ++ ns).
    rewrite <- (then_none (fun e => Ok ([], e)) e). apply advances_app; [|exact IH].
    apply advances_node. intros r. cbn [app obind]. apply Hn.
  Qed.
  Lemma loose_ignored : forall g, loose g -> Forall ignored g.
  Proof. intros g H. induction H as [|n g (t & [-> | ->]) H IH]; constructor; try exact IH; intros e r; reflexivity. Qed.
  Lemma advances_after : forall e ns b u, Forall ignored b -> advances e ns u -> advances e (ns ++ b) u.
  Proof. intros e ns b u Hb H. rewrite <- (none_then u). apply advances_app; [exact H|]. intros e'. now apply advances_ignored. Qed.
  Lemma advances_before : forall e a ns f, Forall ignored a -> (forall e, advances e ns (f e)) -> advances e (a ++ ns) (f e).
  Proof. intros e a ns f Ha H. rewrite <- (then_none f e). apply advances_app; [now apply advances_ignored|exact H]. Qed.
  Lemma expand_app : forall l m e, expand_nodes o (l ++ m) e = and_then (expand_nodes o l e) (expand_nodes o m).
  Proof.
    induction l as [|n l IH]; intros m e; cbn [app expand_nodes]; [now rewrite then_none|].
    destruct (ExpanderModel.procNode o n e) as [[out e1]| | | |]; try reflexivity. cbn [obind]. rewrite IH. unfold and_then.
    destruct (expand_nodes o l e1) as [[more e2]| | | |]; try reflexivity. cbn [obind]. destruct (expand_nodes o m e2) as [[x e3]| | | |]; try reflexivity. cbn [obind]. now rewrite app_assoc.
  Qed.
  Lemma expand_one : forall n e, expand_nodes o [n] e = ExpanderModel.procNode o n e.
  Proof. intros n e. cbn [expand_nodes]. destruct (ExpanderModel.procNode o n e) as [[out e1]| | | |]; try reflexivity. cbn [obind]. now rewrite app_nil_r. Qed.
  Lemma skip_quiet : forall ns n r, quiet ns -> named n_e n = true -> xSkipEntry (ns ++ n :: r) = Ok r.
  Proof. intros ns n r H E. induction H as [|m ns Hm H IH]; cbn [app xSkipEntry]; [now rewrite E|]. now rewrite Hm. Qed.
  Lemma advances_entry : forall d ns, entry_nodes d ns -> entry_scalar d -> tidy ns -> forall e,
    advances e ns (expand_nodes o [ExpanderSpec.entry_node (listed_entry d)] e).
  Proof.
    intros d ns H K T e. rewrite expand_one. destruct H as [d a b ns (A1 & A2 & A3 & A4 & A5 & A6 & A7) H]. apply advances_node. intros r.
    change (xNode o isspace fails e (opening (txt "e") a) ((ns ++ [closing (txt "e") b]) ++ r))
      with (xEntry o isspace fails e (opening (txt "e") a) ((ns ++ [closing (txt "e") b]) ++ r)).
    unfold xEntry, attributes_of, opening.
    rewrite (given_attrib a n_r _ _ _ _ _ A1), (given_attrib a n_i _ _ _ _ _ A2), (given_attrib a a_alt _ _ _ _ _ A3), (given_attrib a a_v _ _ _ _ _ A4),
      (given_attrib a a_vl _ _ _ _ _ A5), (given_attrib a a_vr _ _ _ _ _ A6).
    cbn [ExpanderSpec.entry_node listed_entry fst snd ExpanderModel.procNode]. unfold ExpanderModel.procEntry.
    destruct d as [[v1 v2 v3 v4 v5 v6] w ds]. unfold entry_scalar in K. cbn [e_attrs e_elements at_r at_ignore at_alt at_v at_vl at_vr] in *.
    destruct (skipped o (mkAttr v1 v2 v3 v4 v5 v6)).
    - rewrite <- app_assoc. cbn [app]. rewrite (skip_quiet ns) by (reflexivity || exact (quiet_elements rq _ _ H)). reflexivity.
    - rewrite <- app_assoc. cbn [app]. rewrite (xelements_read (e_pars e) _ ds ns H K b).
      + destruct (proc_elements (e_pars e) _ (map listed_element ds) _) as [[x|]| | | |]; try reflexivity. cbn [obind]. destruct (e_current e); reflexivity.
      + apply (tidy_part [opening (txt "e") a] _ []). rewrite app_nil_r. exact T.
      + pose proof (spread_length rq _ _ _ _ (element_nonempty rq) H) as L. rewrite app_length. cbn [length]. lia.
  Qed.
  (** Things spread over ignored nodes *)
  Lemma advances_spread : forall {A} (f : A -> list xnode -> Prop) (h : A -> list ExpanderModel.node) (ok : A -> Prop),
    (forall x ns, f x ns -> ok x -> tidy ns -> forall e, advances e ns (expand_nodes o (h x) e)) ->
    forall xs ns, spread loose f xs ns -> Forall ok xs -> tidy ns -> forall e, advances e ns (expand_nodes o (flat_map h xs) e).
  Proof.
    intros A f h ok F xs ns H. induction H as [g Hg|g x ns xs r Hg Hx H IH]; intros K T e.
    - apply advances_ignored, loose_ignored, Hg.
    - inversion K; subst. apply advances_before; [now apply loose_ignored|]. intros e'. cbn [flat_map]. rewrite expand_app.
      apply advances_app; [|intros e2; apply IH]; auto.
      + apply F; auto. exact (tidy_part g ns r T).
      + apply (tidy_part (g ++ ns) r []). rewrite app_nil_r, <- app_assoc. exact T.
  Qed.
  Lemma tidy_inner : forall x ns y, tidy (x :: ns ++ [y]) -> tidy ns.
  Proof. intros x ns y. exact (tidy_part [x] ns [y]). Qed.
  Lemma flat_map_one : forall {A B} (f : A -> B) l, flat_map (fun x => [f x]) l = map f l.
  Proof. induction l as [|x l IH]; [reflexivity|]. cbn [flat_map map app]. now rewrite IH. Qed.
  Lemma advances_entries : forall es ns, spread loose entry_nodes es ns -> Forall entry_scalar es -> tidy ns ->
    forall e, advances e ns (expand_nodes o (map ExpanderSpec.entry_node (map listed_entry es)) e).
  Proof.
    intros es ns H K T e. rewrite map_map, <- flat_map_one. exact (advances_spread entry_nodes _ entry_scalar advances_entry es ns H K T e).
  Qed.
  Definition listed_pardef (d : ustr * list dentry) : ExpanderSpec.item := ExpanderSpec.Pardef (fst d) (map listed_entry (snd d)).
  Lemma advances_pardef : forall d ns, pardef_nodes isspace d ns -> Forall entry_scalar (snd d) -> tidy ns ->
    forall e, advances e ns (expand_nodes o (ExpanderSpec.item_nodes (listed_pardef d)) e).
  Proof.
    intros d ns H K T e. destruct H as [n es a b ns Hn H]. cbn [fst snd] in *. cbn [listed_pardef ExpanderSpec.item_nodes fst snd].
    change (opening (txt "pardef") a :: ns ++ [closing (txt "pardef") b]) with ([opening (txt "pardef") a] ++ ns ++ [closing (txt "pardef") b]).
    change (NPardef n :: ?l) with ([NPardef n] ++ l). rewrite expand_app. apply advances_app.
    - apply advances_node. intros r. rewrite expand_one. cbn [app ExpanderModel.procNode obind].
      change (Ok ([] : ustr, mkE (attrib a_n (opening (txt "pardef") a)) (e_pars e), r) = Ok ([] : ustr, mkE n (e_pars e), r)).
      unfold opening. now rewrite (given_attrib a a_n n _ _ _ _ Hn).
    - intros e1. rewrite expand_app. apply advances_app.
      + apply advances_entries; auto. exact (tidy_inner _ _ _ T).
      + intros e2. apply advances_node. intros r. rewrite expand_one. reflexivity.
  Qed.
  Lemma symbols_ignored : forall ns l, spread loose symbol_nodes ns l -> Forall ignored l.
  Proof.
    intros ns l H. induction H as [g Hg|g x ns xs r Hg Hx H IH]; [now apply loose_ignored|]. apply Forall_app. split; [now apply loose_ignored|].
    apply Forall_app. split; [|exact IH]. destruct Hx. constructor; [intros e q; reflexivity|constructor].
  Qed.
  Lemma advances_top : forall t ns, top_nodes isspace t ns -> top_scalar t -> tidy ns ->
    forall e, advances e ns (expand_nodes o (flat_map ExpanderSpec.item_nodes (listed t)) e).
  Proof.
    intros t ns H K T e. destruct H as [a b t N S|a b|a b ns l H|a b ds l H|a b id ty es l G1 G2 N1 N2 H]; cbn [listed flat_map top_scalar] in *.
    - apply advances_ignored. repeat (constructor; [intros e' r'; reflexivity|]). constructor.
    - apply advances_ignored. repeat (constructor; [intros e' r'; reflexivity|]). constructor.
    - apply advances_ignored. constructor; [intros e' r'; reflexivity|]. apply Forall_app. split; [exact (symbols_ignored ns l H)|].
      constructor; [intros e' r'; reflexivity|constructor].
    - change (opening (txt "pardefs") a :: l ++ [closing (txt "pardefs") b]) with ([opening (txt "pardefs") a] ++ l ++ [closing (txt "pardefs") b]).
      apply advances_before; [constructor; [intros e' r'; reflexivity|constructor]|]. intros e1. apply advances_after; [constructor; [intros e' r'; reflexivity|constructor]|].
      rewrite flat_map_concat_map, map_map, <- flat_map_concat_map.
      apply (advances_spread (pardef_nodes isspace) (fun d => ExpanderSpec.item_nodes (listed_pardef d)) (fun d => Forall entry_scalar (snd d)) advances_pardef ds l H K).
      exact (tidy_inner _ _ _ T).
    - cbn [ExpanderSpec.item_nodes]. rewrite app_nil_r.
      change (opening (txt "section") a :: l ++ [closing (txt "section") b]) with ([opening (txt "section") a] ++ l ++ [closing (txt "section") b]).
      change (NOther :: ?l) with ([NOther] ++ l). rewrite expand_app. apply advances_app; [apply advances_node; intros r; rewrite expand_one; reflexivity|].
      intros e1. rewrite expand_app. apply advances_app; [|intros e2; apply advances_node; intros r; rewrite expand_one; reflexivity].
      apply advances_entries; auto. exact (tidy_inner _ _ _ T).
  Qed.
  Lemma listing : forall sep ts ns, document isspace sep ts ns -> Forall top_scalar ts -> tidy ns ->
    lt_expand o isspace fails ns = expand o (flat_map ExpanderSpec.item_nodes (flat_map listed ts)).
  Proof.
    intros sep ts ns H K T. destruct H as [g1 a v ts l b v' g2 G1 G2 _ _ _ _ H].
    assert (A : advances (mkE [] []) (g1 ++ opening (txt "dictionary") a :: l ++ closing (txt "dictionary") b :: g2)
                  (expand_nodes o (flat_map (fun t => flat_map ExpanderSpec.item_nodes (listed t)) ts) (mkE [] []))).
    { change (opening (txt "dictionary") a :: l ++ closing (txt "dictionary") b :: g2) with ([opening (txt "dictionary") a] ++ l ++ closing (txt "dictionary") b :: g2).
      rewrite app_assoc. apply (advances_before (mkE [] []) (g1 ++ [opening (txt "dictionary") a])).
      - apply Forall_app. split; [now apply loose_ignored|]. constructor; [intros e r; reflexivity|constructor].
      - intros e. apply advances_after; [constructor; [intros e' r; reflexivity|now apply loose_ignored]|].
        apply (advances_spread (top_nodes isspace) _ top_scalar advances_top ts l H K).
        apply (tidy_part (g1 ++ [opening (txt "dictionary") a]) l (closing (txt "dictionary") b :: g2)). rewrite <- app_assoc. exact T. }
    assert (E : flat_map (fun t => flat_map ExpanderSpec.item_nodes (listed t)) ts = flat_map ExpanderSpec.item_nodes (flat_map listed ts)).
    { clear. induction ts as [|t ts IH]; [reflexivity|]. cbn [flat_map]. now rewrite flat_map_app, IH. }
    rewrite E in A. unfold lt_expand, expand.
    destruct (A _ [] (le_n _)) as (f & _ & Q). rewrite app_nil_r in Q. rewrite Q.
    destruct (expand_nodes o (flat_map ExpanderSpec.item_nodes (flat_map listed ts)) (mkE [] [])) as [[out e]| | | |]; try reflexivity. cbn [obind].
    destruct f; cbn [xNodes obind]; now rewrite app_nil_r.
  Qed.
End L.
