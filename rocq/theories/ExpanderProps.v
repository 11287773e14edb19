(** C52: expanding a dictionary. *)
From Coq Require String Ascii.
From Coq Require Import Permutation.
From Verif Require Import Base AlphabetModel StreamProps ExpanderModel ExpanderSpec ExpanderProofs.

(** Every section entry of a dictionary is listed with exactly its expansions, each as often
    as there are choices that give it. *)
Theorem C52_dictionary : forall o items Ys,
  dictionary_fine o (fun _ => []) [] items -> dictionary o (fun _ => []) items Ys ->
  exists Zs, Forall2 (@Permutation expansion) Zs Ys
    /\ expand o (flat_map item_nodes items) = Ok (concat (map (fun Z => concat (map show Z)) Zs)).
Proof.
  intros o items Ys Hf Hd. destruct (dictionary_spec o _ _ _ Hf Ys Hd []) as (Zs & ps & PZ & EZ).
  - intros n H. congruence.
  - auto.
  - exists Zs. split; auto. unfold expand. rewrite EZ. reflexivity.
Qed.

(** Whatever the paradigms are, nothing else is listed. *)
Definition env_of (ps : paradigms) : env := fun n => match par_find n ps with Some p => tagged p | None => [] end.
Definition one_sided (a : attributes) (x : lists) : Prop :=
  (at_r a = LR_val -> both x = [] /\ only_rl x = []) /\ (at_r a = RL_val -> both x = [] /\ only_lr x = []).
Lemma append_par_sound : forall a p x z, one_sided a x -> append_par a p x = Some z ->
  incl (tagged z) (product (tagged x) (tagged p)) /\ one_sided a z.
Proof.
  intros a p x z [O1 O2] H. assert (N : LR_val <> RL_val) by discriminate.
  destruct (ueq_spec (at_r a) LR_val) as [El|El].
  { destruct (O1 El) as [Hb Hr]. pose proof (par_lr a p x El Hb Hr) as K. rewrite H in K. destruct K as (K1 & K2 & K3). split.
    - intros y Hy. eapply Permutation_in; eauto.
    - split; [auto|congruence]. }
  destruct (ueq_spec (at_r a) RL_val) as [Er|Er].
  { destruct (O2 Er) as [Hb Hr]. pose proof (par_rl a p x Er Hb Hr) as K. rewrite H in K. destruct K as (K1 & K2 & K3). split.
    - intros y Hy. eapply Permutation_in; eauto.
    - split; [congruence|auto]. }
  split; [|split; congruence].
  assert (Sub : forall d e f A B, meet d e = Some f -> incl (marked d A) (tagged x) -> incl (marked e B) (tagged p) ->
    incl (marked f (append_list A B)) (product (tagged x) (tagged p))).
  { intros d e f A B M I J y Hy. rewrite <- (product_marked d e f A B M) in Hy. unfold product in *.
    apply in_flat_map in Hy as (u & Hu & Hy). apply in_flat_map in Hy as (v & Hv & Hy). apply in_flat_map. exists u. split; auto.
    apply in_flat_map. exists v. auto. }
  assert (In1 : forall t, incl (marked Both (both t)) (tagged t)) by (intros t y Hy; unfold tagged; apply in_or_app; auto).
  assert (In2 : forall t, incl (marked LR (only_lr t)) (tagged t)) by (intros t y Hy; unfold tagged; apply in_or_app; right; apply in_or_app; auto).
  assert (In3 : forall t, incl (marked RL (only_rl t)) (tagged t)) by (intros t y Hy; unfold tagged; apply in_or_app; right; apply in_or_app; auto).
  assert (App : forall A B C, append_list (A ++ B) C = append_list A C ++ append_list B C) by (intros; apply flat_map_app).
  unfold append_par in H. destruct (ueq_spec (at_r a) LR_val); [congruence|]. destruct (ueq_spec (at_r a) RL_val); [congruence|].
  injection H as <-. unfold tagged at 1. cbn [both only_lr only_rl]. apply incl_app; [|apply incl_app].
  - apply (Sub Both Both Both); auto.
  - destruct (only_lr p) as [|q qs] eqn:Eq.
    + apply (Sub LR LR LR); auto. intros y [].
    + rewrite App, marked_app. apply incl_app; [apply (Sub LR LR LR)|apply (Sub Both LR LR)]; auto; rewrite <- Eq; auto.
  - destruct (only_rl p) as [|q qs] eqn:Eq.
    + apply (Sub RL RL RL); auto. intros y [].
    + rewrite App, marked_app. apply incl_app; [apply (Sub RL RL RL)|apply (Sub Both RL RL)]; auto; rewrite <- Eq; auto.
Qed.
Lemma product_incl : forall X X' A, incl X X' -> incl (product X A) (product X' A).
Proof.
  intros X X' A H y Hy. unfold product in *. apply in_flat_map in Hy as (u & Hu & Hy). apply in_flat_map. exists u. auto.
Qed.
Lemma elements_sound : forall o ps a els X, choices o (env_of ps) els X -> Forall plain_starts els -> forall x z, one_sided a x ->
  proc_elements o ps a els x = Ok (Some z) -> incl (tagged z) (product (tagged x) X).
Proof.
  intros o ps a els X Hc. induction Hc as [|el l r els X Hl Hc IH|n els X Hc IH]; intros Pl x z Ho H;
    [|inversion Pl as [|? ? Pe Pes]; subst; specialize (IH Pes)..].
  - assert (x = z) by (cbn in H; congruence). subst z. rewrite product_unit. apply incl_refl.
  - rewrite (literal_step o ps a el l r els x Pe Hl) in H. rewrite <- product_assoc, <- append_all_tagged. apply IH; auto.
    destruct Ho as [O1 O2]. split; intros E; [destruct (O1 E) as [K K']|destruct (O2 E) as [K K']]; cbn [append_all both only_lr only_rl]; now rewrite K, K'.
  - cbn [proc_elements] in H. unfold env_of. destruct (par_find n ps) as [p|]; [|discriminate].
    destruct (append_par a p x) as [x'|] eqn:E; [|destruct els; discriminate].
    destruct (append_par_sound a p x x' Ho E) as [S1 S2]. rewrite <- product_assoc. eapply incl_tran; [eapply IH; eauto|].
    now apply product_incl.
Qed.
Theorem C52_sound : forall o ps a els X out e',
  ~ (mismatch (at_v a) (o_v o) /\ mismatch (at_vr a) (o_vr o)) -> Forall plain_starts els ->
  entry_expansions o (env_of ps) a els X -> procEntry o a els (mkE [] ps) = Ok (out, e') ->
  exists Z, out = concat (map show Z) /\ incl Z X.
Proof.
  intros o ps a els X out e' Hx Pl Hs H. unfold procEntry in H. cbn [e_pars e_current] in H.
  destruct (direction_cases o a Hx) as [[Es Hu]|(Es & Hu & d & Hd & Est & B1 & B2 & B3)]; rewrite Es in H.
  - exists []. split; [cbn; congruence|intros y []].
  - destruct (proc_elements o ps a els (start_lists o a)) as [[z|]| | | |] eqn:E; cbn [obind] in H; try discriminate.
    2:{ exists []. split; [cbn; congruence|intros y []]. }
    assert (out = print_lists z) by congruence. subst out. clear H. exists (tagged z). split.
    { unfold print_lists, tagged. rewrite !map_app, !concat_app. unfold marked. rewrite !map_map. reflexivity. }
    destruct Hs as [H|d' X _ Hd' Hc]; [contradiction|]. assert (d' = d) by (eapply direction_unique; eauto). subst d'.
    rewrite Est in E. assert (Tg : tagged (start_of d) = [(d, [], [])]) by (destruct d; reflexivity). rewrite <- Tg.
    eapply elements_sound; eauto. split; intros Ha; destruct d; cbn; auto; exfalso; tauto.
Qed.

(** The directions of an entry. *)
Theorem C52_directions : forall o a, ~ (mismatch (at_v a) (o_v o) /\ mismatch (at_vr a) (o_vr o)) ->
  (used o a <-> skipped o a = false)
  /\ forall d, used o a -> direction_of o a d -> tagged (start_lists o a) = [(d, [], [])].
Proof.
  intros o a Hx. destruct (direction_cases o a Hx) as [[Es Hu]|(Es & Hu & d & Hd & Est & _)].
  - split; [split; congruence|]. intros d K. contradiction.
  - split; [tauto|]. intros d' _ Hd'. rewrite (direction_unique _ _ _ _ Hd' Hd), Est. destruct d; reflexivity.
Qed.

(** * Texts *)
(** The parts of an element are written as the specification says, and its text determines
    what it was. *)
Theorem C52_text : forall keep l t, Forall plain_start l -> written keep l t -> readStrings keep l = Ok t.
Proof. exact written_readStrings. Qed.
Theorem C52_text_unique : forall t s s', spells t s -> spells t s' -> s = s'.
Proof.
  assert (B : special 92) by (unfold special; cbn; tauto).
  intros t s s' H. revert s'. induction H as [|c t s E H IH|c t s E H IH]; intros s' H'.
  - now inversion H'.
  - inversion H'; subst; [f_equal; auto|]. contradiction.
  - inversion H' as [|? ? ? E' |]; subst; [contradiction|f_equal; auto].
Qed.
(** In a regular expression characters that a backslash protects are left alone. *)
Theorem C52_regexp : forall s t, re_spells t s -> procRegexp false s = t.
Proof. intros s t H. now apply re_spells_procRegexp. Qed.
Theorem C52_regexp_total : forall s, exists t, re_spells t s.
Proof.
  assert (G : forall n s, (length s <= n)%nat -> exists t, re_spells t s).
  { induction n as [|n IH]; intros s L; [destruct s; [|cbn in L; lia]; exists []; constructor|].
    destruct s as [|c s]; [exists []; constructor|]. cbn [length] in L. destruct (Z.eq_dec c 92) as [->|N].
    - destruct s as [|d s]; [exists [92]; constructor|]. cbn [length] in L. destruct (IH s) as [t Ht]; [lia|]. eexists. apply re_protected. exact Ht.
    - destruct (IH s) as [t Ht]; [lia|]. pose proof (special_dec c) as D. destruct (text_escaped c); eexists.
      + apply re_special; eauto.
      + apply re_char; eauto. }
  intros s. apply (G (length s)). lia.
Qed.

(** * What does not hold *)
Import String.StringSyntax.
Definition no_opt : options := mkOpt [] [] [] [] false.
Definition no_attr : attributes := mkAttr [] [] [] [] [] [].
Definition lr_attr : attributes := mkAttr LR_val [] [] [] [] [].
Definition rl_attr : attributes := mkAttr RL_val [] [] [] [] [].
Definition id_of (s : ustr) : element := EId [PText s].
Definition nl (l : list ustr) : ustr := flat_map (fun s => s ++ [10]) l.
Ltac spell := match goal with |- spells ?t ?s => let s' := eval vm_compute in s in change (spells t s') end;
  repeat first [apply sp_nil | apply sp_char; [intros K; vm_compute in K; intuition discriminate|]
               | apply sp_escaped; [vm_compute; tauto|]].
Ltac piece := first [apply sh_text; spell | apply sh_sym | apply sh_join | apply sh_blank].
Ltac write_out := eexists; split; [repeat (first [apply Forall2_nil | apply Forall2_cons; [piece|]])|reflexivity].
Ltac literals := cbn [literal id_of o_keep no_opt]; split; [write_out|first [reflexivity|write_out]].
Ltac choice_list := repeat first [apply ch_nil | apply ch_par | apply ch_literal; [literals|]].
Ltac plain := cbn [plain_starts id_of plain_start]; repeat first [apply conj | apply Forall_nil | apply Forall_cons];
  first [exact I | discriminate | (intros K; vm_compute in K; intuition discriminate)].
Ltac unrestricted := split; [discriminate|]; unfold mismatch; cbn; try tauto.
(** Two paradigms in an entry, the first with an expansion for one direction: its
    combinations with the second are lost. *)
Definition two_pars : list item :=
  [Pardef (txt "p") [(no_attr, [id_of (txt "a")]); (lr_attr, [id_of (txt "b")])];
   Pardef (txt "q") [(no_attr, [id_of (txt "c")])];
   Sec [(no_attr, [EPar (txt "p"); EPar (txt "q")])]].
Lemma two_pars_listed : expand no_opt (flat_map item_nodes two_pars) = Ok (nl [txt "ac:ac"]).
Proof. vm_compute. reflexivity. Qed.
Lemma two_pars_spec : dictionary no_opt (fun _ => []) two_pars [[(Both, txt "ac", txt "ac"); (LR, txt "bc", txt "bc")]].
Proof.
  assert (U : used no_opt no_attr) by (split; [discriminate|]; split; [unfold mismatch; cbn; tauto|]; left; unrestricted).
  assert (D : direction_of no_opt no_attr Both) by (split; unrestricted; split; tauto).
  assert (U' : used no_opt lr_attr) by (split; [discriminate|]; split; [unfold mismatch; cbn; tauto|]; left; unrestricted).
  assert (D' : direction_of no_opt lr_attr LR) by (split; [unrestricted|]; intros [K _]; now apply K).
  eapply di_pardef.
  { constructor; [|constructor; [|constructor]]; cbn [fst snd]; [apply (ee_used _ _ _ _ Both); auto|apply (ee_used _ _ _ _ LR); auto]; choice_list. }
  eapply di_pardef.
  { constructor; [|constructor]; cbn [fst snd]. apply (ee_used _ _ _ _ Both); auto; choice_list. }
  eapply (di_section no_opt _ _ [_] [] []); [|constructor]. constructor; [|constructor]. cbn [fst snd].
  match goal with |- entry_expansions _ ?E _ _ _ =>
    change [(Both, txt "ac", txt "ac"); (LR, txt "bc", txt "bc")] with (product [(Both, [], [])] (product (E (txt "p")) (product (E (txt "q")) [(Both, [], [])]))) end.
  apply (ee_used _ _ _ _ Both); auto. choice_list.
Qed.
Theorem C52_two_paradigms_refuted : ~ forall o items Ys, dictionary o (fun _ => []) items Ys ->
  exists Zs, Forall2 (@Permutation expansion) Zs Ys
    /\ expand o (flat_map item_nodes items) = Ok (concat (map (fun Z => concat (map show Z)) Zs)).
Proof.
  intros H. destruct (H _ _ _ two_pars_spec) as (Zs & P & E). rewrite two_pars_listed in E. injection E as E.
  inversion P as [|zs Y Zs' Ys' P1 P2]; subst. inversion P2; subst. cbn [map concat] in E. rewrite app_nil_r in E.
  apply (f_equal (@length Z)) in E. symmetry in P1. assert (K : In (LR, txt "bc", txt "bc") zs /\ In (Both, txt "ac", txt "ac") zs).
  { split; eapply Permutation_in; try exact P1; cbn; auto. }
  destruct K as [K _]. assert (L : (length (show (LR, txt "bc", txt "bc")) <= length (concat (map show zs)))%nat).
  { clear - K. induction zs as [|z zs IH]; [destruct K|]. cbn [map concat]. rewrite app_length. destruct K as [->|K]; [lia|]. specialize (IH K). lia. }
  rewrite <- E in L. vm_compute in L. lia.
Qed.
(** An entry for one direction because of its variant has no expansions with a paradigm for
    both directions. *)
Theorem C52_variant_refuted :
  let a := mkAttr [] [] [] [] (txt "x") [] in
  let p := Pardef (txt "p") [(no_attr, [id_of (txt "b")])] in
  used no_opt a /\ direction_of no_opt a LR
  /\ expand no_opt (flat_map item_nodes [p; Sec [(a, [id_of (txt "a")])]]) = Ok (nl [txt "a:>:a"])
  /\ expand no_opt (flat_map item_nodes [p; Sec [(a, [id_of (txt "a"); EPar (txt "p")])]]) = Ok [].
Proof.
  cbv zeta. split; [|split; [|split; vm_compute; reflexivity]].
  - split; [discriminate|]. split; [unfold mismatch; cbn; tauto|]. left. unrestricted.
  - split; [unrestricted|]. intros (_ & _ & K). apply K. split; discriminate.
Qed.
(** An entry which has no expansions ends the program if something follows the paradigm. *)
Theorem C52_no_expansions_refuted :
  let p := Pardef (txt "p") [(rl_attr, [id_of (txt "b")])] in
  expand no_opt (flat_map item_nodes [p; Sec [(lr_attr, [EPar (txt "p")])]]) = Ok []
  /\ expand no_opt (flat_map item_nodes [p; Sec [(lr_attr, [EPar (txt "p"); id_of (txt "a")])]]) = Exit.
Proof. split; vm_compute; reflexivity. Qed.
(** A paradigm whose entries are all left out is taken to be undefined. *)
Theorem C52_empty_paradigm_refuted :
  let a := mkAttr [] [] (txt "x") [] [] [] in
  let items := [Pardef (txt "p") [(a, [id_of (txt "b")])]; Sec [(no_attr, [EPar (txt "p")])]] in
  expand (mkOpt (txt "x") [] [] [] false) (flat_map item_nodes items) = Ok (nl [txt "b:b"])
  /\ expand no_opt (flat_map item_nodes items) = Exit.
Proof. split; vm_compute; reflexivity. Qed.
(** After an empty paradigm written as <pardef n="p"/>, which has no end tag, the sections
    are taken to be part of the paradigm. *)
Theorem C52_self_closing_refuted :
  let s := item_nodes (Sec [(no_attr, [id_of (txt "a")])]) in
  expand no_opt (item_nodes (Pardef (txt "p") []) ++ s) = Ok (nl [txt "a:a"])
  /\ expand no_opt (NPardef (txt "p") :: s) = Ok [].
Proof. split; vm_compute; reflexivity. Qed.
(** The first character of a text is not escaped, so two entries can have the same line. *)
Theorem C52_first_character_refuted :
  let e1 := [EPair [PText (txt ":")] [PText (txt "b")]] in
  let e2 := [EPair [] [PText (txt ":b")]] in
  e1 <> e2 /\ expand no_opt (item_nodes (Sec [(no_attr, e1)])) = Ok (nl [txt "::b"])
  /\ expand no_opt (item_nodes (Sec [(no_attr, e2)])) = Ok (nl [txt "::b"]).
Proof. split; [discriminate|]. split; vm_compute; reflexivity. Qed.
(** Both v and vr exclude the entry: it is listed all the same. *)
Theorem C52_unused_refuted :
  let a := mkAttr [] [] [] (txt "x") [] (txt "y") in
  ~ used no_opt a /\ expand no_opt (item_nodes (Sec [(a, [id_of (txt "a")])])) = Ok (nl [txt "a:>:a"]).
Proof.
  split; [|vm_compute; reflexivity]. intros (_ & _ & [[_ K]|(_ & K & _)]); apply K; split; discriminate.
Qed.

(** * Examples *)
(** A paradigm with expansions for both directions and for one. *)
Definition small_dix : list item :=
  [Pardef (txt "n") [(no_attr, [EPair [] [PSym (txt "sg")]]); (lr_attr, [EPair [PText (txt "es")] [PSym (txt "pl")]]);
                     (rl_attr, [EPair [PText (txt "s")] [PSym (txt "pl")]])];
   Sec [(no_attr, [id_of (txt "b/x"); EPar (txt "n")]); (lr_attr, [id_of (txt "c"); EPar (txt "n")]);
        (mkAttr [] yes_val [] [] [] [], [EInvalid])]].
Example C52_dictionary_example :
  expand no_opt (flat_map item_nodes small_dix)
  = Ok (nl [txt "b\/x:b\/x<sg>"; txt "b\/xes:>:b\/x<pl>"; txt "b\/xs:<:b\/x<pl>"; txt "ces:>:c<pl>"; txt "c:>:c<sg>"]).
Proof. vm_compute. reflexivity. Qed.
Example C52_dictionary_fine_example : dictionary_fine no_opt (fun _ => []) [] small_dix.
Proof.
  assert (U : used no_opt no_attr) by (split; [discriminate|]; split; [unfold mismatch; cbn; tauto|]; left; unrestricted).
  assert (D : direction_of no_opt no_attr Both) by (split; unrestricted; split; tauto).
  assert (U' : used no_opt lr_attr) by (split; [discriminate|]; split; [unfold mismatch; cbn; tauto|]; left; unrestricted).
  assert (D' : direction_of no_opt lr_attr LR) by (split; [unrestricted|]; intros [K _]; now apply K).
  assert (U2 : used no_opt rl_attr) by (split; [discriminate|]; split; [unfold mismatch; cbn; tauto|]; right; unrestricted; split; tauto).
  assert (D2 : direction_of no_opt rl_attr RL) by (split; [unrestricted; split; tauto|]; intros [K _]; now apply K).
  assert (M : forall v w, v = [] -> ~ mismatch v w) by (unfold mismatch; tauto).
  assert (NP : forall a els, Forall plain_starts els -> (forall n, ~ In (EPar n) els) -> ~ mismatch (at_v a) (o_v no_opt) -> entry_fine no_opt (fun _ => []) (a, els)).
  { intros a els Pl Hn Hv. split; [tauto|]. intros _. split; [exact Pl|].
    assert (Hp : forall pre n post, els <> pre ++ EPar n :: post) by (intros pre n post ->; apply (Hn n), in_or_app; right; now left).
    split; [intros n K; destruct (Hn n K)|]. split; [intros _ pre n post K; destruct (Hp _ _ _ K)|].
    split; [intros _ pre n post K; destruct (Hp _ _ _ K)|]. split; [intros _ pre n mid m post K; destruct (Hp _ _ _ K)|auto]. }
  assert (One : forall c pre n post, [id_of c; EPar (txt "n")] = pre ++ EPar n :: post -> post = []).
  { intros c [|x [|y pre]] n post K; cbn in K; try discriminate; [congruence|]. destruct pre; discriminate. }
  assert (WP : forall a c E, plain_starts (id_of c) -> E (txt "n") <> [] -> ~ mismatch (at_v a) (o_v no_opt) ->
    (at_r a = LR_val \/ at_r a = RL_val \/ direction_of no_opt a Both) -> entry_fine no_opt E (a, [id_of c; EPar (txt "n")])).
  { intros a c E Pl Hn Hv Hd. split; [tauto|]. intros _. split; [apply Forall_cons; [exact Pl|apply Forall_cons; [exact I|apply Forall_nil]]|].
    split; [intros n [K|[K|[]]]; [discriminate|injection K as <-; exact Hn]|].
    split; [intros _ pre n post K Hp; destruct (Hp (One _ _ _ _ K))|]. split; [intros _ pre n post K Hp; destruct (Hp (One _ _ _ _ K))|].
    split; [|tauto]. intros _ pre n mid m post K. apply One in K. destruct mid; discriminate. }
  eapply df_pardef; [discriminate|auto| | |].
  - repeat apply Forall_cons; auto; (apply NP; [plain|intros n [K|[]]; discriminate|apply M; reflexivity]).
  - apply Forall2_cons; [|apply Forall2_cons; [|apply Forall2_cons; [|apply Forall2_nil]]]; cbn [fst snd];
      [apply (ee_used _ _ _ _ Both); auto|apply (ee_used _ _ _ _ LR); auto|apply (ee_used _ _ _ _ RL); auto]; choice_list.
  - apply df_section; [|constructor]. apply Forall_cons; [|apply Forall_cons; [|apply Forall_cons; [|apply Forall_nil]]].
    + apply WP; [plain|discriminate|apply M; reflexivity|auto].
    + apply WP; [plain|discriminate|apply M; reflexivity|auto].
    + split; [unfold mismatch; cbn; tauto|]. intros (K & _). now destruct K.
Qed.
Example C52_sound_example :
  procEntry no_opt no_attr [id_of (txt "a"); EPar (txt "p")] (mkE [] [(txt "p", mkL [([], txt "x")] [(txt "y", txt "z")] [])])
  = Ok (nl [txt "a:ax"; txt "ay:>:az"], mkE [] [(txt "p", mkL [([], txt "x")] [(txt "y", txt "z")] [])]).
Proof. vm_compute. reflexivity. Qed.
Example C52_directions_example :
  let o := mkOpt [] [] (txt "b") [] false in
  let a := mkAttr [] [] [] [] (txt "a") [] in
  used o a /\ direction_of o a LR /\ tagged (start_lists o a) = [(LR, [], [])]
  /\ skipped o (mkAttr RL_val [] [] [] (txt "a") []) = true.
Proof.
  cbv zeta. split; [|split; [|split; vm_compute; reflexivity]].
  - split; [discriminate|]. split; [unfold mismatch; cbn; tauto|]. left. unrestricted.
  - split; [unrestricted|]. intros (_ & _ & K). apply K. split; discriminate.
Qed.
Example C52_text_example :
  let l := [PText (txt "a/b\c"); PGroup; PText (txt "d"); PGroupEnd; PSym (txt "n"); PJoin; PMorph; PText (txt "e"); PSym (txt "vb")] in
  Forall plain_start l /\ written true l (txt "a\/b\\c#d<n>+>e<vb>") /\ readStrings true l = Ok (txt "a\/b\\c#d<n>+>e<vb>").
Proof.
  cbv zeta. split; [|split; [|vm_compute; reflexivity]].
  - repeat (apply Forall_cons || apply Forall_nil); cbn [plain_start]; try exact I; (split; [discriminate|]; intros K; vm_compute in K; intuition discriminate).
  - exists [txt "a\/b\\c"; txt "#"; txt "d"; []; txt "<n>"; txt "+"; txt ">"; txt "e"; txt "<vb>"]. split; [|reflexivity].
    repeat (first [apply Forall2_nil | apply Forall2_cons]); first [piece | constructor; reflexivity | apply sh_group | apply sh_group_end].
Qed.
Example C52_regexp_example : procRegexp false (txt "a+\+b") = txt "a\+\+b" /\ re_spells (txt "a\+\+b") (txt "a+\+b").
Proof.
  split; [vm_compute; reflexivity|]. apply re_char; [intros K; vm_compute in K; intuition discriminate|].
  apply re_special; [vm_compute; tauto|discriminate|]. apply re_protected. apply re_char; [intros K; vm_compute in K; intuition discriminate|]. constructor.
Qed.

Print Assumptions C52_dictionary.
Print Assumptions C52_sound.
Print Assumptions C52_directions.
Print Assumptions C52_text.
Print Assumptions C52_text_unique.
Print Assumptions C52_regexp.
Print Assumptions C52_regexp_total.
Print Assumptions C52_two_paradigms_refuted.
Print Assumptions C52_variant_refuted.
Print Assumptions C52_no_expansions_refuted.
Print Assumptions C52_empty_paradigm_refuted.
Print Assumptions C52_self_closing_refuted.
Print Assumptions C52_first_character_refuted.
Print Assumptions C52_unused_refuted.
