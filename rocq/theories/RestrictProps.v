(** C65: compiling for all restrictions at once and restricting afterwards. *)
From Coq Require String Ascii.
From Verif Require Import StreamProps.
From Verif Require Import Base AlphabetModel AlphabetProofs AlphabetProps RegexpProps TransducerModel TransducerSpec
  TransducerProofs ExpanderModel EntryFilterModel EntryFilterProps RegexpModel RegexpSpec CompilerModel CompilerSpec CompilerProofs CompilerProps
  UnifiedModel RestrictSpec RestrictProofs RestrictToolProofs.
Notation after ops := (aruns ops new_alphabet).

(** For every dictionary whose paradigms are defined once and before use, without symbols that
    look like restrictions and with attributes that stay different when hyphens join them,
    unified compilation succeeds; and if no section that is to be minimised is left without
    words, lt-restrict succeeds, keeps the names of the sections and the codes of the
    alphabet, and leaves in each section exactly the words of the entries kept, turned round
    for the direction from right to left. *)
Theorem C65_restrict : forall ops items lr r, restrictable (slexicinv (after ops)) items -> direction lr r ->
  exists a1 m1, compile_unified (after ops) (ritem_events items) = Ok (a1, m1)
    /\ NoDup (map fst m1)
    /\ (forall name, In name (map fst m1)
          <-> exists w, chosen_section (fun at_ => at_ignore at_ <> yes_val) true (fun _ => no_words) items name w)
    /\ forall fuel, (forall name t, In (name, t) m1 -> forall p, (length (arcs_of t p) <= fuel)%nat) ->
       (r_min r = true -> forall name, In name (map fst m1) ->
          exists w, chosen_section (kept lr r) true (fun _ => no_words) items name w) ->
       exists a2 m2, lt_restrict fuel r a1 m1 = Ok (a2, m2)
         /\ map fst m2 = map fst m1
         /\ (forall tag p, decode tag (after ops) = Ok p -> decode tag a2 = Ok p)
         /\ (forall s, isSymbolDefined s (after ops) = true -> symbol_code s a2 = symbol_code s (after ops))
         /\ (forall name t, In (name, t) m2 -> wf t
               /\ forall u, lang t 0 u <-> exists w, chosen_section (kept lr r) lr (fun _ => no_words) items name w
                                              /\ Forall2 (fun tag p => decode tag a2 = Ok p) u w)
         /\ (forall name w, chosen_section (kept lr r) lr (fun _ => no_words) items name w ->
               exists t u, In (name, t) m2 /\ lang t 0 u /\ Forall2 (fun tag p => decode tag a2 = Ok p) u w).
Proof.
  intros ops items lr r Rs Hd. assert (Ha : alph_inv0 (after ops)) by apply after_inv.
  destruct (lt_restrict_ok (after ops) items lr r Ha Rs Hd) as (a1 & m1 & Ec & X1 & Nd & Nm & H). exists a1, m1.
  split; [exact Ec|]. split; [exact Nd|]. split; [exact Nm|]. intros fuel Hf Hm.
  destruct (H fuel Hf Hm) as (a2 & m2 & Er & Ha2 & X2 & Ek & Hs). exists a2, m2. assert (X := extends_trans _ _ _ X1 X2).
  split; [exact Er|]. split; [exact Ek|]. split; [|split; [|split]].
  - intros tag p. now apply extends_decode.
  - intros s Hs'. apply defined_iff in Hs'; [|apply Ha]. apply In_nth_error in Hs' as (i & Hi).
    rewrite (proj1 (symbol_code_nth _ s i (proj1 Ha) Hi)). apply (symbol_code_nth a2 s i (proj1 Ha2)).
    destruct X as ((l & ->) & _). rewrite nth_error_app1; [exact Hi|]. apply nth_error_Some. congruence.
  - intros name t Hin. destruct (Hs name t Hin) as (W & _ & L). split; [exact W|exact L].
  - intros name w Hw.
    assert (Hin : In name (map fst m2)).
    { rewrite Ek. apply Nm. assert (G : exists v, chosen_section (kept lr r) true (fun _ => no_words) items name v).
      { destruct lr; [eauto|]. exists (swap_word w).
        apply (swap_section (kept false r) items (fun _ => no_words) (fun _ => no_words) name w); [reflexivity|exact Hw]. }
      destruct G as (v & Hv). exists v. revert Hv. apply chosen_section_more; [intros at_ K; apply K|auto]. }
    apply in_map_iff in Hin as ([n t] & E & Hin). cbn [fst] in E. subst n. destruct (Hs name t Hin) as (_ & C & L).
    destruct (Tg_some a2 _ w C Hw) as (u & Hu & R). exists t, u. split; [exact Hin|]. split; [now apply L|exact R].
Qed.

(** * Against compiling for one direction and choice at once *)
(** The dictionary as lt-comp reads it with options [o]. *)
Definition taken (o : options) (lr : bool) (e : rentry) : bool := match compiled o lr (fst e) with Ok true => true | _ => false end.
Definition direct (o : options) (lr : bool) (items : list ritem) : list CompilerSpec.item :=
  map (fun it => match it with
                 | RPardef n es => Pardef n (map snd (filter (taken o lr) es))
                 | RSec n es => Sec n (map snd (filter (taken o lr) es))
                 end) items.
Definition option_words (f : ustr) : list ustr := match f with [] => [] | _ => [f] end.
Definition same_options (o : options) (r : restriction) : Prop :=
  r_alt r = option_words (o_alt o) /\ r_var r = option_words (o_v o) /\ r_vl r = option_words (o_vl o) /\ r_vr r = option_words (o_vr o).
(** The direction is one or none; no attribute consists of spaces; and the attribute of the
    side not looked at when compiling for one direction admits what is asked for. *)
Definition plain_values (lr : bool) (r : restriction) (at_ : attributes) : Prop :=
  In (at_r at_) [[]; LR_val; RL_val]
  /\ (forall v, In v [at_alt at_; at_v at_; at_vl at_; at_vr at_] -> v = [] \/ exists f, has_word v f)
  /\ if lr then admitted (at_vl at_) (r_vl r) else admitted (at_vr at_) (r_vr r).

Lemma no_word : forall f, ~ has_word [] f.
Proof. intros f (Hf & _ & pre & post & E & _). apply Hf. destruct pre; [|discriminate]. now destruct f. Qed.
Lemma admitted_option : forall v f, (v = [] \/ exists g, has_word v g) -> (admitted v (option_words f) <-> admits v f false).
Proof.
  intros v f Hv. unfold admitted, admits. split.
  - intros [H|(g & Hin & Hg)].
    + destruct Hv as [->|(g & Hg)]; [now left|]. contradiction (H g Hg).
    + destruct f as [|c f]; [destruct Hin|]. destruct Hin as [<-|[]]. right. right. exact Hg.
  - intros [->|[[K _]|H]]; [left; apply no_word|discriminate|]. right. exists f. split; [|exact H]. destruct f; [now destruct H|now left].
Qed.
Lemma dir_word : forall f, (has_word LR_val f -> f = LR_val) /\ (has_word RL_val f -> f = RL_val).
Proof.
  intros f.
  assert (G : forall x y, x <> 32 -> y <> 32 -> has_word [x; y] f -> f = [x; y]).
  { intros x y Hx Hy (Hf & Hs & pre & post & E & Hpre & Hpost).
    assert (pre = []). { destruct Hpre as [->|(p & ->)]; [reflexivity|]. exfalso. assert (Hin : In 32 [x; y]) by (rewrite E; apply in_or_app; left; apply in_or_app; right; now left).
      destruct Hin as [K|[K|[]]]; congruence. }
    assert (post = []). { destruct Hpost as [->|(q & ->)]; [reflexivity|]. exfalso. assert (Hin : In 32 [x; y]) by (rewrite E; apply in_or_app; right; apply in_or_app; right; now left).
      destruct Hin as [K|[K|[]]]; congruence. }
    subst. cbn in E. rewrite app_nil_r in E. now symmetry. }
  split; intros H; apply G in H; auto; discriminate.
Qed.
Lemma dir_has : has_word LR_val LR_val /\ has_word RL_val RL_val.
Proof.
  split; (split; [discriminate|]); (split; [cbn; intuition discriminate|]); exists [], []; auto.
Qed.
Lemma kept_selected : forall o lr r at_, same_options o r -> plain_values lr r at_ -> (kept lr r at_ <-> selected o lr at_).
Proof.
  intros o lr r at_ (Ea & Ev & El & Er) (Pr & Pv & Ps). unfold kept, selected.
  rewrite Ea, El, Er in *. rewrite Ev.
  assert (A := admitted_option (at_alt at_) (o_alt o) (Pv (at_alt at_) ltac:(cbn; auto))).
  assert (L := admitted_option (at_vl at_) (o_vl o) (Pv (at_vl at_) ltac:(cbn; auto))).
  assert (R := admitted_option (at_vr at_) (o_vr o) (Pv (at_vr at_) ltac:(cbn; auto 6))).
  assert (V : (option_words (o_v o) = [] \/ admitted (at_v at_) (option_words (o_v o))) <-> admits (at_v at_) (o_v o) true).
  { rewrite (admitted_option (at_v at_) (o_v o) (Pv (at_v at_) ltac:(cbn; auto))). unfold admits. destruct (o_v o) as [|c v]; cbn [option_words].
    - intuition discriminate.
    - intuition discriminate. }
  assert (D : admitted (at_r at_) [if lr then LR_val else RL_val] <-> at_r at_ = [] \/ at_r at_ = if lr then LR_val else RL_val).
  { unfold admitted. split.
    - intros [H|(f & [<-|[]] & H)].
      + destruct Pr as [<-|[E|[E|[]]]]; [now left| |]; exfalso; rewrite <- E in H; [apply (H LR_val)|apply (H RL_val)]; apply dir_has.
      + destruct Pr as [E|[E|[E|[]]]]; rewrite <- E in *; [now left| |]; right; destruct lr; auto; exfalso.
        * apply (proj1 (dir_word _)) in H. discriminate.
        * apply (proj2 (dir_word _)) in H. discriminate.
    - intros [->| ->]; [left; apply no_word|]. right. eexists. split; [now left|]. destruct lr; apply dir_has. }
  rewrite A, V, D, L, R. destruct lr; [rewrite L in Ps|rewrite R in Ps]; tauto.
Qed.
Lemma taken_spec : forall o lr e, taken o lr e = true <-> selected o lr (fst e).
Proof.
  intros o lr e. unfold taken. destruct (C57_compiled o lr (fst e)) as (b & -> & H). rewrite <- H. destruct b; tauto.
Qed.
Lemma direct_set : forall o lr env env' es w, (forall n w, env n w <-> env' n w) ->
  (entries_set lr env (map snd (filter (taken o lr) es)) w <-> chosen_set (selected o lr) lr env' es w).
Proof.
  intros o lr env env' es w HE.
  assert (G : forall els v, entry_set lr env els v <-> entry_set lr env' els v).
  { induction els as [|el els IH]; intros v; cbn [entry_set]; [reflexivity|]. apply cat_iff; [|exact IH]. intros x. destruct el; cbn [element_set]; [reflexivity|apply HE|reflexivity]. }
  split.
  - intros (els & Hin & Hw). apply in_map_iff in Hin as ([at_ els'] & <- & Hin). apply filter_In in Hin as [Hin Ht]. apply taken_spec in Ht.
    exists at_, els'. split; [exact Hin|]. split; [exact Ht|now apply G].
  - intros (at_ & els & Hin & Hs & Hw). exists els. split; [|now apply G]. apply in_map_iff. exists (at_, els). split; [reflexivity|].
    apply filter_In. split; [exact Hin|now apply taken_spec].
Qed.
Lemma direct_section : forall o lr items env env' name w, (forall n w, env n w <-> env' n w) ->
  (section_set lr env (direct o lr items) name w <-> chosen_section (selected o lr) lr env' items name w).
Proof.
  intros o lr. induction items as [|[n es|n es] items IH]; intros env env' name w HE; cbn [direct map section_set chosen_section].
  - reflexivity.
  - apply IH. intros m v. unfold define. destruct (ustr_eq_dec m n); [|apply HE]. now apply direct_set.
  - unfold join_sets. fold (direct o lr items). rewrite (IH env env' name w HE), (direct_set o lr env env' es w HE). reflexivity.
Qed.
Lemma chosen_same : forall (sel sel' : attributes -> Prop) lr items, (forall at_ els, In (at_, els) (all_entries items) -> (sel at_ <-> sel' at_)) ->
  forall env env' name w, (forall n w, env n w <-> env' n w) ->
  (chosen_section sel lr env items name w <-> chosen_section sel' lr env' items name w).
Proof.
  intros sel sel' lr. induction items as [|it items IH]; intros Hs env env' name w HE; [reflexivity|].
  assert (Hs2 : forall at_ els, In (at_, els) (all_entries items) -> (sel at_ <-> sel' at_)).
  { intros at_ els Hin. apply (Hs at_ els). apply in_or_app. auto. }
  assert (G : forall els v, entry_set lr env els v <-> entry_set lr env' els v).
  { induction els as [|el els IHe]; intros v; cbn [entry_set]; [reflexivity|]. apply cat_iff; [|exact IHe]. intros x. destruct el; cbn [element_set]; [reflexivity|apply HE|reflexivity]. }
  assert (C : forall v, chosen_set sel lr env (item_entries it) v <-> chosen_set sel' lr env' (item_entries it) v).
  { intros v. unfold chosen_set. split; intros (at_ & els & Hin & H1 & H2); exists at_, els; (split; [exact Hin|]);
      (split; [apply (Hs at_ els); [apply in_or_app; now left|exact H1]|now apply G]). }
  destruct it as [n es|n es]; cbn [chosen_section item_entries] in *.
  - apply IH; [exact Hs2|]. intros m v. unfold define. destruct (ustr_eq_dec m n); [apply C|apply HE].
  - unfold join_sets. rewrite (IH Hs2 env env' name w HE), C. reflexivity.
Qed.

Lemma some_word : forall ops s items a m name, acx s = [] -> sep s = None -> dict_ok (lr s) (fun _ => no_words) [] items ->
  compile s (after ops) (dict_events items) = Ok (a, m) -> In name (map fst m) -> exists w, section_set (lr s) (fun _ => no_words) items name w.
Proof.
  intros ops s items a m name Hx Hs Ho E Hin. destruct (compile_ok s (after ops) items Hx Hs (after_inv ops) Ho) as (a' & m' & E' & _ & _ & N & H).
  rewrite E' in E. injection E as -> ->. apply in_map_iff in Hin as ([n t] & En & Hin). cbn [fst] in En. subst n.
  apply (name_in_find _ _ _ N) in Hin. destruct (H name) as [_ Hn]. rewrite Hin in Hn. apply Hn.
Qed.

(** Restricting what was compiled for all gives the same words, section by section, as
    compiling with the same options for one direction. *)
Theorem C65_direct : forall ops o items r s, acx s = [] -> sep s = None ->
  restrictable (slexicinv (after ops)) items -> dict_ok (lr s) (fun _ => no_words) [] (direct o (lr s) items) ->
  direction (lr s) r -> same_options o r ->
  (forall at_ els, In (at_, els) (all_entries items) -> plain_values (lr s) r at_) ->
  exists a m a1 m1, compile s (after ops) (dict_events (direct o (lr s) items)) = Ok (a, m)
    /\ compile_unified (after ops) (ritem_events items) = Ok (a1, m1)
    /\ forall fuel, (forall name t, In (name, t) m1 -> forall p, (length (arcs_of t p) <= fuel)%nat) ->
       (r_min r = true -> forall name, In name (map fst m1) -> In name (map fst m)) ->
       exists a2 m2, lt_restrict fuel r a1 m1 = Ok (a2, m2)
         /\ forall name w,
              (exists t u, In (name, t) m /\ lang t 0 u /\ Forall2 (fun tag p => decode tag a = Ok p) u w)
              <-> (exists t u, In (name, t) m2 /\ lang t 0 u /\ Forall2 (fun tag p => decode tag a2 = Ok p) u w).
Proof.
  intros ops o items r s Hacx Hsep Rs Dk Hd So Pv.
  destruct (C32_sections ops s _ Hacx Hsep Dk) as (a & m & Ec & Nd & _ & Hm & Hw). exists a, m.
  destruct (C65_restrict ops items (lr s) r Rs Hd) as (a1 & m1 & Eu & Nd1 & Nm & H). exists a1, m1. split; [exact Ec|]. split; [exact Eu|].
  intros fuel Hf Hmin.
  assert (Same : forall name w, section_set (lr s) (fun _ => no_words) (direct o (lr s) items) name w
    <-> chosen_section (kept (lr s) r) (lr s) (fun _ => no_words) items name w).
  { intros name w. rewrite (direct_section o (lr s) items (fun _ => no_words) (fun _ => no_words) name w ltac:(reflexivity)).
    apply chosen_same; [|reflexivity]. intros at_ els Hin. symmetry. apply kept_selected; [exact So|exact (Pv at_ els Hin)]. }
  destruct (H fuel Hf) as (a2 & m2 & Er & Ek & _ & _ & L & C).
  { intros Hr name Hin. destruct (some_word ops s (direct o (lr s) items) a m name Hacx Hsep Dk Ec (Hmin Hr name Hin)) as (w & Hw').
    apply Same in Hw'. destruct (lr s) eqn:El; [eauto|]. exists (swap_word w).
    apply (swap_section (kept false r) items (fun _ => no_words) (fun _ => no_words) name w); [reflexivity|exact Hw']. }
  exists a2, m2. split; [exact Er|]. intros name w. split.
  - intros (t & u & Hin & Hu & R). destruct (Hm name t Hin) as [_ L1]. apply L1 in Hu as (v & Hv & R').
    assert (v = w) by exact (reads_fun a u v w R' R). subst v. apply C. now apply Same.
  - intros (t & u & Hin & Hu & R). destruct (L name t Hin) as [_ L1]. apply L1 in Hu as (v & Hv & R').
    assert (v = w) by exact (reads_fun a2 u v w R' R). subst v. apply Hw. now apply Same.
Qed.

(** * Examples *)
Import String.StringSyntax.
Definition bare_at : attributes := mkAttr [] [] [] [] [] [].
Definition restrict_as (ops : list aop) (items : list ritem) (r : restriction) : outcome (alphabet * list (ustr * transducer)) :=
  let! (a, m) := compile_unified (after ops) (ritem_events items) in lt_restrict 50 r a m.
(** A paradigm with a variant; entries for one direction, for alternatives, ignored, and for all. *)
Definition rich : list ritem :=
  [RPardef (txt "P") [(bare_at, [Single (txt "s") (txt "t") 0]); (mkAttr [] [] [] (txt "oc ca") [] [], [Single (txt "z") (txt "y") 0])];
   RSec (txt "main") [(mkAttr LR_val [] [] [] [] [], [Single (txt "a") (txt "b") 0; Paradigm (txt "P")]);
                      (mkAttr [] [] (txt "x y") [] [] [], [Single (txt "c") (txt "d") 0; Paradigm (txt "P")]);
                      (mkAttr [] yes_val [] [] [] [], [Single (txt "e") (txt "e") 0]);
                      (bare_at, [Single (txt "fg") (txt "h") 0])]].
Definition rich_P : pset := entries_set true (fun _ => no_words) [[Single (txt "s") (txt "t") 0]; [Single (txt "z") (txt "y") 0]].
Lemma rich_restrictable : restrictable (slexicinv (after [])) rich.
Proof.
  constructor.
  - change (bare rich) with
      [Pardef (txt "P") [[Single (txt "s") (txt "t") 0]; [Single (txt "z") (txt "y") 0]];
       Sec (txt "main") [[Single (txt "a") (txt "b") 0; Paradigm (txt "P")]; [Single (txt "c") (txt "d") 0; Paradigm (txt "P")]; [Single (txt "fg") (txt "h") 0]]].
    cbn [dict_ok]. split; [discriminate|]. split; [intros []|]. split; [|split; [|split; [|exact I]]].
    + vm_compute txt. repeat (apply Forall_cons; [cbn; intuition lia|]). apply Forall_nil.
    + exists [(115, 116)]. exists [Single (txt "s") (txt "t") 0]. split; [now left|]. exists [(115, 116)], []. repeat split; reflexivity.
    + assert (Pin : In (txt "P") [txt "P"]) by now left.
      vm_compute txt in *. repeat (apply Forall_cons; [cbn [entry_ok element_ok]; repeat split; try exact Pin; try discriminate; cbn; lia|]). apply Forall_nil.
  - intros t [].
  - intros at_ els H. vm_compute in H. repeat (destruct H as [H|H]; [injection H as <- <-; repeat (apply Forall_cons; [cbn; try exact I; repeat (apply Forall_cons; [lia|]); apply Forall_nil|]); apply Forall_nil|]). destruct H.
  - intros at1 els1 at2 els2 H1 H2. cbn in H1, H2.
    repeat (destruct H1 as [H1|H1]; [injection H1 as <- <-; repeat (destruct H2 as [H2|H2]; [injection H2 as <- <-; solve [reflexivity|discriminate]|]); destruct H2|]). destruct H1.
  - intros at_ els H [E|[]]. cbn in H. repeat (destruct H as [H|H]; [injection H as <- <-; discriminate|]). destruct H.
Qed.
Example C65_example :
  restrictable (slexicinv (after [])) rich
  /\ (exists a, restrict_as [] rich (mkRestr (txt "lr") [txt "ca"] [txt "y"] [] [] true)
        = Ok (a, [(txt "main", mkT 0 [(3%nat, 0)] [[(6, (1%nat, 0)); (9, (1%nat, 0)); (10, (2%nat, 0))]; [(1, (3%nat, 0)); (4, (3%nat, 0))]; [(11, (3%nat, 0))]; []])])
       /\ spairinv a = [(0, 0); (115, 116); (-2, -2); (-1, -1); (122, 121); (-3, -3); (97, 98); (-5, -5); (-4, -4); (99, 100); (102, 104); (103, 0)])
  /\ (exists a, restrict_as [] rich (mkRestr (txt "rl") [txt "va"] [] [] [] true)
        = Ok (a, [(txt "main", mkT 0 [(2%nat, 0)] [[(12, (1%nat, 0))]; [(15, (2%nat, 0))]; []])])
       /\ decode 12 a = Ok (104, 102) /\ decode 15 a = Ok (0, 103)).
Proof.
  split; [exact rich_restrictable|]. split; eexists; (split; [vm_compute; reflexivity|]); [reflexivity|]. split; reflexivity.
Qed.
Example C65_direct_example :
  let o := mkOpt (txt "y") (txt "ca") [] [] false in let r := mkRestr (txt "lr") [txt "ca"] [txt "y"] [] [] true in
  same_options o r /\ (forall at_ els, In (at_, els) (all_entries rich) -> plain_values true r at_)
  /\ direct o true rich = [Pardef (txt "P") [[Single (txt "s") (txt "t") 0]; [Single (txt "z") (txt "y") 0]];
       Sec (txt "main") [[Single (txt "a") (txt "b") 0; Paradigm (txt "P")]; [Single (txt "c") (txt "d") 0; Paradigm (txt "P")]; [Single (txt "fg") (txt "h") 0]]].
Proof.
  cbn zeta. split; [repeat split; reflexivity|]. split; [|vm_compute; reflexivity]. intros at_ els H.
  assert (Or : at_ = bare_at \/ at_ = mkAttr [] [] [] (txt "oc ca") [] [] \/ at_ = mkAttr LR_val [] [] [] [] [] \/ at_ = mkAttr [] [] (txt "x y") [] [] [] \/ at_ = mkAttr [] yes_val [] [] [] []).
  { cbn in H. repeat (destruct H as [H|H]; [injection H as <- <-; auto 10|]). destruct H. }
  assert (Ad : admitted [] []) by (left; apply no_word).
  assert (V1 : has_word (txt "oc ca") (txt "oc")).
  { split; [discriminate|]. split; [vm_compute; intuition discriminate|]. exists [], (txt " ca"). split; [reflexivity|]. split; [now left|]. right. now exists (txt "ca"). }
  assert (V2 : has_word (txt "x y") (txt "x")).
  { split; [discriminate|]. split; [vm_compute; intuition discriminate|]. exists [], (txt " y"). split; [reflexivity|]. split; [now left|]. right. now exists (txt "y"). }
  destruct Or as [->|[->|[->|[->| ->]]]]; (split; [cbn; auto|]); (split; [|exact Ad]); intros v [<-|[<-|[<-|[<-|[]]]]]; cbn [at_alt at_v at_vl at_vr bare_at]; eauto.
Qed.

(** * Where this fails *)
(** Section [name] of the result accepts the word [w]. *)
Definition accepts (res : outcome (alphabet * list (ustr * transducer))) (name : ustr) (w : list (Z * Z)) : Prop :=
  exists a m t u, res = Ok (a, m) /\ In (name, t) m /\ lang t 0 u /\ Forall2 (fun tag p => decode tag a = Ok p) u w.
Lemma lang_one : forall t tag q f, has_arc t (initial t) tag q 0 -> tag <> 0 -> final_wt t q f -> lang t 0 [tag].
Proof.
  intros t tag q f Ha Nz Hf. exists (0 + 0 + f), [(tag, 0)], f. split; [|split; [|reflexivity]].
  - exists q. split; [econstructor; [exact Ha|constructor]|exact Hf].
  - unfold word_of, visible. cbn [filter fst]. destruct (Z.eqb_spec tag 0); [contradiction|reflexivity].
Qed.
Lemma lang_tag : forall t u x, lang t 0 u -> In x u -> existsb (fun l => existsb (fun a => fst a =? x) l) (trans t) = true.
Proof.
  intros t u x (c & l & f & (q & P & _) & <- & _) Hin. apply word_of_in in Hin as (_ & [y w] & Hy & <-). cbn [fst]. clear f c. 
  induction P as [p|p z w' q' l r Hz P IH]; [destruct Hy|]. destruct Hy as [E|Hy]; [|auto]. injection E as -> ->.
  apply existsb_exists. unfold has_arc, arcs_of in Hz. destruct (Nat.lt_ge_cases p (length (trans t))) as [L|G]; [|rewrite nth_overflow in Hz by exact G; destruct Hz].
  exists (nth p (trans t) []). split; [now apply nth_In|]. apply existsb_exists. eexists. split; [exact Hz|]. apply Z.eqb_refl.
Qed.
Definition lone (c : Z) : list entry_token := [Single [c] [c] 0].
Definition main : ustr := txt "main".
Definition for_lr (minimise : bool) : restriction := mkRestr (txt "lr") [] [] [] [] minimise.
Definition lr_settings : settings := mkSet true [] None.

(** From left to right, lt-comp looks at vr only; lt-restrict leaves out entries with vl as
    well. *)
Definition sided : list ritem := [RSec main [(mkAttr [] [] [] [] (txt "x") [], lone 97); (bare_at, lone 98)]].
Theorem C65_side_refuted : accepts (compile lr_settings (after []) (dict_events (direct (mkOpt [] [] [] [] false) true sided))) main [(97, 97)]
  /\ accepts (restrict_as [] sided (for_lr true)) main [(98, 98)]
  /\ ~ accepts (restrict_as [] sided (for_lr true)) main [(97, 97)].
Proof.
  split; [|split].
  - eexists _, _, _, [1]. split; [vm_compute; reflexivity|]. split; [now left|]. split; [|repeat constructor].
    apply (lang_one _ _ 1%nat 0); [now left|lia|now left].
  - eexists _, _, _, [3]. split; [vm_compute; reflexivity|]. split; [now left|]. split; [|repeat constructor].
    apply (lang_one _ _ 1%nat 0); [now left|lia|now left].
  - intros (a & m & t & u & E & Hin & Hl & R). vm_compute in E. injection E as <- <-. destruct Hin as [Hin|[]]. injection Hin as <-.
    inversion R as [|x p u' w' Hx R']; subst. apply (lang_tag _ _ x) in Hl; [|now left]. cbn [trans existsb fst] in Hl. rewrite !orb_false_r in Hl.
    apply Z.eqb_eq in Hl. subst x. discriminate.
Qed.
(** The flags of an entry are kept under a name made of its attributes with hyphens between
    them; entries whose attributes give the same name share the flags of the first. *)
Definition hyphens : list ritem :=
  [RSec main [(mkAttr [] [] (txt "x y-z") (txt "w") [] [], lone 97); (mkAttr [] [] (txt "x y") (txt "z-w") [] [], lone 98); (bare_at, lone 99)]].
Definition for_x : restriction := mkRestr (txt "lr") [txt "z-w"] [txt "x"] [] [] true.
Theorem C65_hyphens_refuted : chosen_section (kept true for_x) true (fun _ => no_words) hyphens main [(98, 98)]
  /\ accepts (restrict_as [] hyphens for_x) main [(99, 99)]
  /\ ~ accepts (restrict_as [] hyphens for_x) main [(98, 98)].
Proof.
  split; [|split].
  - left. split; [reflexivity|]. exists (mkAttr [] [] (txt "x y") (txt "z-w") [] []), (lone 98). split; [right; now left|]. split.
    + assert (Ad : admitted [] []) by (left; apply no_word).
      split; [discriminate|]. split; [left; apply no_word|]. split; [|split; [|split; exact Ad]].
      * right. exists (txt "x"). split; [now left|]. split; [discriminate|]. split; [vm_compute; intuition discriminate|].
        exists [], (txt " y"). split; [reflexivity|]. split; [now left|]. right. now exists (txt "y").
      * right. right. exists (txt "z-w"). split; [now left|]. split; [discriminate|]. split; [vm_compute; intuition discriminate|].
        exists [], []. auto.
    + exists [(98, 98)], []. repeat split; reflexivity.
  - eexists _, _, _, [6]. split; [vm_compute; reflexivity|]. split; [now left|]. split; [|repeat constructor].
    apply (lang_one _ _ 1%nat 0); [now left|lia|now left].
  - intros (a & m & t & u & E & Hin & Hl & R). vm_compute in E. injection E as <- <-. destruct Hin as [Hin|[]]. injection Hin as <-.
    inversion R as [|x p u' w' Hx R']; subst. apply (lang_tag _ _ x) in Hl; [|now left]. cbn [trans existsb fst] in Hl. rewrite !orb_false_r in Hl.
    apply Z.eqb_eq in Hl. subst x. discriminate.
Qed.
(** With -m, a section without a word left ends the program: minimising the empty transducer
    is an error. *)
Definition right_only : list ritem := [RSec main [(mkAttr RL_val [] [] [] [] [], lone 97)]; RSec (txt "extra") [(bare_at, lone 98)]].
Theorem C65_minimise_refuted : restrictable (slexicinv (after [])) right_only
  /\ restrict_as [] right_only (for_lr true) = Exit
  /\ accepts (restrict_as [] right_only (for_lr false)) (txt "extra") [(98, 98)].
Proof.
  split; [|split; [vm_compute; reflexivity|]].
  - constructor.
    + change (bare right_only) with [Sec main [lone 97]; Sec (txt "extra") [lone 98]].
      cbn. repeat split; repeat (apply Forall_cons; [cbn; intuition lia|]); apply Forall_nil.
    + intros t [].
    + intros at_ els H. cbn in H. repeat (destruct H as [H|H]; [injection H as <- <-; repeat (apply Forall_cons; [cbn; repeat (apply Forall_cons; [lia|]); apply Forall_nil|]); apply Forall_nil|]). destruct H.
    + intros at1 els1 at2 els2 H1 H2. cbn in H1, H2.
      repeat (destruct H1 as [H1|H1]; [injection H1 as <- <-; repeat (destruct H2 as [H2|H2]; [injection H2 as <- <-; solve [reflexivity|discriminate]|]); destruct H2|]). destruct H1.
    + intros at_ els _ [].
  - eexists _, _, _, [3]. split; [vm_compute; reflexivity|]. split; [right; now left|]. split; [|repeat constructor].
    apply (lang_one _ _ 1%nat 0); [now left|lia|now left].
Qed.
(** A symbol of the dictionary that looks like a variant is taken for one and erased. *)
Definition named_like : list ritem := [RSec main [(bare_at, [Single [97; -1] [97; -1] 0])]].
Theorem C65_symbol_refuted :
  let ops := [OpInclude (txt "<v:x>")] in
  accepts (restrict_as ops named_like (for_lr true)) main [(97, 97)]
  /\ ~ accepts (restrict_as ops named_like (for_lr true)) main [(97, 97); (-1, -1)].
Proof.
  cbn zeta. split.
  - eexists _, _, _, [1]. split; [vm_compute; reflexivity|]. split; [now left|]. split; [|repeat constructor].
    apply (lang_one _ _ 1%nat 0); [now left|lia|now left].
  - intros (a & m & t & u & E & Hin & Hl & R). vm_compute in E. injection E as <- <-. destruct Hin as [Hin|[]]. injection Hin as <-.
    inversion R as [|x p u' w' Hx R']; subst. inversion R' as [|y q u2 w2 Hy R2]; subst.
    apply (lang_tag _ _ y) in Hl; [|right; now left]. cbn [trans existsb fst] in Hl. rewrite !orb_false_r in Hl. apply Z.eqb_eq in Hl. subst y. discriminate.
Qed.
(** An attribute of spaces only admits nothing to lt-comp and everything to lt-restrict. *)
Definition blank_alt : list ritem := [RSec main [(mkAttr [] [] (txt " ") [] [] [], lone 97)]].
Theorem C65_blank_refuted : direct (mkOpt [] [] [] [] false) true blank_alt = [Sec main []]
  /\ accepts (restrict_as [] blank_alt (for_lr true)) main [(97, 97)].
Proof.
  split; [vm_compute; reflexivity|]. eexists _, _, _, [1]. split; [vm_compute; reflexivity|]. split; [now left|]. split; [|repeat constructor].
  apply (lang_one _ _ 1%nat 0); [now left|lia|now left].
Qed.

Print Assumptions C65_restrict.
Print Assumptions C65_direct.
Print Assumptions C65_side_refuted.
Print Assumptions C65_hyphens_refuted.
Print Assumptions C65_minimise_refuted.
Print Assumptions C65_symbol_refuted.
Print Assumptions C65_blank_refuted.
