(** The dictionary compiler with equivalents of characters, step by step: as CompilerProofs.v,
    on the transducers of AcxTrieProofs.v. *)
From Verif Require Import Base AlphabetModel AlphabetProofs AlphabetProps TransducerModel TransducerSpec
  TransducerProofs ReverseProofs DeterminizeProofs MinimizeProofs RationalProofs RegexpModel RegexpSpec
  RegexpProofs RegexpProps TrieProofs CompilerModel CompilerSpec CompilerProofs CompilerAcxSpec AcxTrieProofs.

Section Compiler.
Context (U : Z -> Prop) (comp : Z -> list Z) (Hcomp : forall l x, U l -> In x (comp l) -> ~ U x /\ x <> 0) (U0 : U 0).
Let eqv : Z -> Z -> Prop := fun l x => In x (comp l).
(** The equivalents are those of the settings. *)
Definition suits (s : settings) : Prop := comp 0 = [] /\ forall l, comp l = acx_find l (acx s).

(** * The transducer in the middle of its construction *)
(** [L]: the words accepted; the caches lead to states at which the words of the paradigm
    have been read, and to endings that accept them. *)
Record mid (env : ustr -> pset) (D : list ustr) (a : alphabet) (T : transducer) (A : nat -> Prop) (L : pset) (c : caches) : Prop := {
  md_alph : alph_inv0 a;
  md_trie : atrie U comp a T A;
  md_lang : forall u, lang T 0 u <-> Tg a L u;
  md_cov : cov a L;
  md_pre : forall n q, name_find n (prefix c) = Some q ->
    In n D /\ A q /\ cov a (env n) /\ forall u, reach T (initial T) u q <-> Tg a (env n) u;
  md_suf : forall n S, name_find n (suffix c) = Some S -> In n D /\ cov a (env n) /\
    exists F, name_find n (postsuffix c) = Some F /\ ending T A S F (Tg a (env n))
}.
(** [e] is a sharing state at which the words of [X] have been read. *)
Lemma mid_extends : forall env D a b T A L c, alph_inv0 b -> extends a b -> mid env D a T A L c -> mid env D b T A L c.
Proof.
  intros env D a b T A L c Hb0 E [M0 M1 M2 M3 M4 M5]. assert (Hb := proj1 Hb0). constructor; auto.
  - exact (atrie_extends U comp Hcomp a b T A Hb0 E M1).
  - intros u. rewrite M2. symmetry. now apply Tg_extends.
  - exact (cov_extends a b L E M3).
  - intros n q H. destruct (M4 n q H) as (H1 & H2 & H3 & H4). split; [exact H1|]. split; [exact H2|]. split; [exact (cov_extends a b _ E H3)|].
    intros u. rewrite H4. symmetry. now apply Tg_extends.
  - intros n S H. destruct (M5 n S H) as (H1 & H2 & F & H3 & H4). split; [exact H1|]. split; [exact (cov_extends a b _ E H2)|]. exists F. split; [exact H3|].
    apply (ending_iff _ _ _ _ (Tg a (env n))); [|exact H4]. intros u. symmetry. now apply Tg_extends.
Qed.
Lemma mid_iff : forall env D a T A L L' c, (forall w, L w <-> L' w) -> mid env D a T A L c -> mid env D a T A L' c.
Proof.
  intros env D a T A L L' c E [M0 M1 M2 M3 M4 M5]. constructor; auto.
  - intros u. rewrite M2. now apply Tg_iff.
  - exact (cov_iff a L L' E M3).
Qed.
Lemma mid_env : forall env D env' D' a T A L c, (forall n, In n D -> In n D' /\ env' n = env n) ->
  mid env D a T A L c -> mid env' D' a T A L c.
Proof.
  intros env D env' D' a T A L c H [M0 M1 M2 M3 M4 M5]. constructor; auto.
  - intros n q Hq. destruct (M4 n q Hq) as (H1 & H2). destruct (H n H1) as [H3 ->]. auto.
  - intros n S Hq. destruct (M5 n S Hq) as (H1 & H2). destruct (H n H1) as [H3 ->]. auto.
Qed.
Lemma mid_enlarged : forall env D a T A L c T' (A' : nat -> Prop), mid env D a T A L c -> enlarged T A T' -> atrie U comp a T' A' ->
  (forall q, A q -> A' q) -> (forall q, (q < nstates T)%nat -> A' q -> A q) -> mid env D a T' A' L c.
Proof.
  intros env D a T A L c T' A' [M0 M1 M2 M3 M4 M5] En Tr Up Dn. constructor; auto.
  - intros u. rewrite (enlarged_lang T A T' u (at_wf _ _ _ _ _ M1) En). apply M2.
  - intros n q H. destruct (M4 n q H) as (H1 & H2 & H3 & H4). split; [exact H1|]. split; [auto|]. split; [exact H3|].
    intros u. rewrite (el_initial _ _ _ En), (enlarged_reach T A T' _ _ _ En (at_lt _ _ _ _ _ M1 q H2)). apply H4.
  - intros n S H. destruct (M5 n S H) as (H1 & H2 & F & H3 & H4). do 2 (split; [assumption|]). exists F. split; [exact H3|].
    exact (ending_enlarged T A S F _ T' A' H4 En Dn).
Qed.
Lemma pos_root : forall env D a T A L c, mid env D a T A L c -> pos a T A (initial T) (fun w => w = []).
Proof.
  intros env D a T A L c M. constructor.
  - apply (at_init _ _ _ _ _ (md_trie _ _ _ _ _ _ _ M)).
  - intros w p -> [].
  - intros u. rewrite (atrie_root U comp a T A u (md_trie _ _ _ _ _ _ _ M)). split.
    + intros ->. exists []. split; [reflexivity|constructor].
    + intros (w & -> & R). inversion R. reflexivity.
Qed.
Lemma mid_new : forall env D a, alph_inv0 a -> mid env D a new_transducer (fun q => q = 0%nat) no_words (mkC [] [] []).
Proof.
  intros env D a Ha. assert (N : forall p b q w, ~ has_arc new_transducer p b q w).
  { intros p b q w H. unfold has_arc, arcs_of in H. cbn in H. destruct p as [|[|]]; destruct H. }
  constructor.
  - exact Ha.
  - constructor.
    + apply new_transducer_wf.
    + intros p ->. cbn. lia.
    + reflexivity.
    + intros p b w H. exact (N _ _ _ _ H).
    + intros s b q w _ H. exfalso. exact (N _ _ _ _ H).
    + intros s b q w p _ H. exfalso. exact (N _ _ _ _ H).
    + intros s b p -> _ _. cbn. lia.
  - intros u. split.
    + intros H. apply lang_reach in H as (q & _ & (f & [])).
    + intros (w & [] & _).
  - intros w p [].
  - intros n q H. discriminate.
  - intros n S H. discriminate.
Qed.

(** ** One pair of symbols *)
Lemma kin_cat : forall a X p u, alph_inv0 a -> own U p -> (forall p', kin comp p p' -> exists b, decode b a = Ok p') ->
  (Tg a (cat X (fun w => exists p', kin comp p p' /\ w = [p'])) u
   <-> exists v b p', kin comp p p' /\ decode b a = Ok p' /\ Tg a X v /\ u = v ++ sym b).
Proof.
  intros a X p u Ha Ho Hd. rewrite Tg_cat. split.
  - intros (u1 & u2 & H1 & (w & (p' & Hk & ->) & R) & ->). inversion R as [|b q u' w' Hb R']. subst. inversion R'. subst.
    exists u1, b, p'. split; [exact Hk|]. split; [exact Hb|]. split; [exact H1|]. f_equal. symmetry. apply sym_nonzero.
    exact (kin_code U comp Hcomp a b p p' Ha Ho Hk Hb).
  - intros (v & b & p' & Hk & Hb & Hv & ->). exists v, [b]. split; [exact Hv|]. split.
    + exists [p']. split; [eauto|]. now repeat constructor.
    + f_equal. apply sym_nonzero. exact (kin_code U comp Hcomp a b p p' Ha Ho Hk Hb).
Qed.
Lemma kin_nonzero : forall p p', own U p -> kin comp p p' -> p' <> (0, 0).
Proof.
  intros [l r] [l' r'] [Hu Hp] [E [E'|E']]; cbn [fst snd] in *; [congruence|]. destruct (Hcomp _ _ Hu E') as [_ X]. congruence.
Qed.
Lemma kin_snoc : forall X p q w, cat (cat X (fun w => exists p', kin comp p p' /\ w = [p'])) (fun w => Forall2 (kin comp) q w) w
  <-> cat X (fun w => Forall2 (kin comp) (p :: q) w) w.
Proof.
  intros X p q w. split.
  - intros (u & v & -> & (u1 & u2 & -> & H1 & p' & Hk & ->) & H2). exists u1, (p' :: v). rewrite <- app_assoc. split; [reflexivity|]. split; [exact H1|].
    now constructor.
  - intros (u & v & -> & H1 & H2). inversion H2 as [|? p' ? v' Hk Hv]. subst. exists (u ++ [p']), v'. rewrite <- app_assoc. split; [reflexivity|].
    split; [|exact Hv]. exists u, [p']. split; [reflexivity|]. split; [exact H1|]. eauto.
Qed.
Lemma match_rounds_ok : forall s rs env D a T A L c e X w, suits s -> sep s = None -> alph_inv0 a ->
  mid env D a T A L c -> pos a T A e X -> Forall (own U) (map round_pair rs) ->
  exists a' e' T' A', match_rounds s rs w a e T = Ok (a', e', T') /\ alph_inv0 a' /\ extends a a'
    /\ mid env D a' T' A' L c /\ pos a' T' A' e' (cat X (fun w => Forall2 (kin comp) (map round_pair rs) w)).
Proof.
  intros s rs. induction rs as [|[ol r] rs IH]; intros env D a T A L c e X w Hx Hs Ha M P Nz; cbn [match_rounds].
  - exists a, e, T, A. split; [reflexivity|]. split; [exact Ha|]. split; [apply extends_refl|]. split; [exact M|].
    apply (pos_iff a T A e X); [|exact P]. intros u. rewrite <- (cat_nil_r X u). apply cat_iff; [reflexivity|]. intros v. cbn [map].
    split; [intros ->; constructor|intros F; now inversion F].
  - set (p := (match ol with Some l => l | None => 0 end, r)).
    assert (PC := pair_code_ok p a Ha). destruct (pair_code p a) as [tag a1]. destruct PC as (Ha1 & X1 & Dt & _).
    assert (Op : own U p) by exact (Forall_inv Nz).
    assert (M1 := mid_extends env D a a1 T A L c Ha1 X1 M). assert (P1 := pos_extends a a1 T A e X (proj1 Ha1) X1 P).
    destruct (atrie_step U comp Hcomp a1 T A e tag p (match rs with [] => w | _ => 0 end) Ha1 (md_trie _ _ _ _ _ _ _ M1) (ps_at _ _ _ _ _ P1) Op Dt)
      as (e1 & T1 & a2 & T2 & A2 & E1 & E2 & Ha2 & X2 & En & Tr2 & Ae & Up & Dn & Kd & R2).
    rewrite E1. unfold loop_back. rewrite Hs. cbn [obind].
    replace (match ol with Some l => acx_find l (acx s) | None => [] end) with (comp (fst p)).
    2:{ destruct Hx as [Hx0 Hx]. unfold p. destruct ol as [l|]; cbn [fst]; [apply Hx|exact Hx0]. }
    change r with (snd p) at 1. rewrite E2. cbn [obind].
    assert (M1' := mid_extends env D a1 a2 T A L c Ha2 X2 M1). assert (P1' := pos_extends a1 a2 T A e X (proj1 Ha2) X2 P1).
    assert (M2 := mid_enlarged env D a2 T A L c T2 A2 M1' En Tr2 Up Dn).
    assert (P2 : pos a2 T2 A2 e1 (cat X (fun w => exists p', kin comp p p' /\ w = [p']))).
    { constructor; [exact Ae| |].
      - apply cov_cat; [apply P1'|]. intros w' q (p' & Hk & ->) [<-|[]]. split; [exact (kin_nonzero p p' Op Hk)|].
        destruct (Kd p' Hk) as (b & Hb). apply decode_nth in Hb as [_ Hb]. exact (nth_error_In _ _ Hb).
      - intros u. rewrite R2, (kin_cat a2 X p u Ha2 Op Kd).
        split; intros (v & b & p' & Hk & Hb & Hv & ->); exists v, b, p'; do 2 (split; [assumption|]); (split; [now apply P1'|reflexivity]). }
    destruct (IH env D a2 T2 A2 L c e1 _ w Hx Hs Ha2 M2 P2 (Forall_inv_tail Nz)) as (a3 & e3 & T3 & A3 & E3 & Ha3 & X3 & M3 & P3).
    exists a3, e3, T3, A3. split; [exact E3|]. split; [exact Ha3|]. split; [exact (extends_trans _ _ _ X1 (extends_trans _ _ _ X2 X3))|]. split; [exact M3|].
    apply (pos_iff a3 T3 A3 e3 _ _ (fun w => kin_snoc X p (map round_pair rs) w)). exact P3.
Qed.
(** ** A pair of sides *)
Lemma eps_step : forall env D a T A L c e X, mid env D a T A L c -> pos a T A e X ->
  let T' := snd (insertNewSingleTransduction 0 e 0 T) in
  insertNewSingleTransduction 0 e 0 T = (nstates T, T') /\ exists A', mid env D a T' A' L c /\ pos a T' A' (nstates T) X.
Proof.
  intros env D a T A L c e X M P T'. assert (Tr := md_trie _ _ _ _ _ _ _ M).
  destruct (insertNew_empty U comp Hcomp a T A e 0 (md_alph _ _ _ _ _ _ _ M) Tr (ps_at _ _ _ _ _ P)) as (_ & N' & En & Tr' & _ & R').
  split; [reflexivity|]. exists (plus_state A (nstates T)). split.
  - apply (mid_enlarged env D a T A L c T' _ M En Tr'); [intros q Hq; now left|]. intros q Lq [Hq| ->]; [exact Hq|lia].
  - constructor; [now right|apply P|]. intros u. fold T' in R'. rewrite R'. apply P.
Qed.
Lemma align_own : forall ls rs, ~ In 0 ls -> ~ In 0 rs -> Forall U ls -> U 0 -> Forall (own U) (align ls rs).
Proof.
  intros ls rs Hl Hr Hu H0. apply Forall_forall. intros p Hp. split; [|exact (align_nonzero ls rs p Hl Hr Hp)].
  clear Hl Hr. rewrite Forall_forall in Hu. revert rs Hp. induction ls as [|x ls IH]; intros rs Hp; cbn [align] in Hp.
  - apply in_map_iff in Hp as (y & <- & _). exact H0.
  - assert (Hx : U x) by (apply Hu; now left). assert (Hu' : forall x, In x ls -> U x) by (intros y Hy; apply Hu; now right).
    destruct rs as [|y rs]; destruct Hp as [<-|Hp]; cbn [fst]; eauto.
Qed.
Lemma insert_single_ok : forall s l r wt env D w A L c X last, suits s -> sep s = None -> alph_inv0 (w_alph w) ->
  mid env D (w_alph w) (w_t w) A L c -> pos (w_alph w) (w_t w) A (w_e w) X -> element_within U (lr s) env D last (Single l r wt) ->
  exists w' A', insert_single s l r wt w = Ok w' /\ alph_inv0 (w_alph w') /\ extends (w_alph w) (w_alph w') /\ w_pars w' = w_pars w
    /\ mid env D (w_alph w') (w_t w') A' L c
    /\ pos (w_alph w') (w_t w') A' (w_e w') (cat X (element_acx eqv (lr s) env (Single l r wt))).
Proof.
  intros s l r wt env D [a pars T e] A L c X last Hx Hs Ha M P (Hl & Hr & Hu). cbn [w_alph w_pars w_t w_e] in *.
  unfold insert_single, matchTransduction. cbn [w_alph w_pars w_t w_e].
  assert (B : (l = [] /\ r = []) \/ ~ (l = [] /\ r = [])) by (destruct l, r; [left|right|right|right]; intuition congruence).
  destruct B as [[-> ->]|B].
  - replace (if lr s then ([], []) else (@nil Z, @nil Z)) with (@nil Z, @nil Z) by (destruct (lr s); reflexivity).
    destruct (eps_step env D a T A L c e X M P) as (E & A' & M' & P'). rewrite E. cbn [obind].
    eexists _, A'. split; [reflexivity|]. cbn [w_alph w_pars w_t w_e]. split; [exact Ha|]. split; [apply extends_refl|]. split; [reflexivity|].
    split; [exact M'|]. apply (pos_iff _ _ _ _ X); [|exact P']. intros u. cbn [element_acx].
    replace (if lr s then align [] [] else align [] []) with (@nil (Z * Z)) by (destruct (lr s); reflexivity).
    rewrite <- (cat_nil_r X u). apply cat_iff; [reflexivity|]. intros v. split; [intros ->; constructor|intros F; now inversion F].
  - set (q := if lr s then (l, r) else (r, l)).
    assert (Eq : element_acx eqv (lr s) env (Single l r wt) = fun w => Forall2 (kin comp) (align (fst q) (snd q)) w) by (unfold q; cbn; destruct (lr s); reflexivity).
    assert (Nq : ~ In 0 (fst q) /\ ~ In 0 (snd q) /\ Forall U (fst q)) by (unfold q; destruct (lr s); auto).
    rewrite Eq. clear Eq. destruct q as [ls rs]. cbn [fst snd] in Nq |- *.
    replace (match l with
      | [] => match r with
              | [] => let '(state, t) := insertNewSingleTransduction 0 e 0 T in Ok (a, state, t)
              | _ :: _ => match_rounds s (rounds ls rs) wt a e T
              end
      | _ :: _ => match_rounds s (rounds ls rs) wt a e T
      end) with (match_rounds s (rounds ls rs) wt a e T) by (destruct l, r; try reflexivity; exfalso; apply B; auto).
    destruct (match_rounds_ok s (rounds ls rs) env D a T A L c e X wt Hx Hs Ha M P) as (a' & e' & T' & A' & E & Ha' & X' & M' & P').
    { rewrite rounds_align. destruct Nq as (N1 & N2 & N3). now apply align_own. }
    rewrite E. cbn [obind]. eexists _, A'. split; [reflexivity|]. cbn [w_alph w_pars w_t w_e]. do 2 (split; [assumption|]). split; [reflexivity|].
    split; [exact M'|]. rewrite rounds_align in P'. exact P'.
Qed.
(** ** Copies *)
Lemma insert_copy : forall a T A t f fw e, atrie U comp a T A -> A e -> wf t -> finals t = [(f, fw)] ->
  exists T', insertTransducer e t 0 T = Ok ((nstates T + f)%nat, T', t) /\ inserted 0 e T t T' /\ ranges_kept T T'.
Proof.
  intros a T A t f fw e Tr He Wt Hf. assert (Le := at_lt _ _ _ _ _ Tr e He).
  destruct (insertTransducer_spec 0 e t T Wt ltac:(rewrite Hf; discriminate) (at_wf _ _ _ _ _ Tr) Le) as (u & T' & f' & fw' & E & Wu & J & Hf' & I).
  assert (u = t) as ->. { inversion J as [p g Hg Eu|j Hl _ _ _ _ _ Eu]; [congruence|]. rewrite Hf in Hl. cbn in Hl. lia. }
  assert (f' = f) as -> by congruence. exists T'. split; [exact E|]. split; [exact I|].
  intros s b Ls Na. exact (insertTransducer_ranges e t T _ T' _ s b E Le Ls Na).
Qed.
Lemma insert_quiet : forall env D a T A L c e X t f fw Y, mid env D a T A L c -> pos a T A e X ->
  wf t -> finals t = [(f, fw)] -> quiet t -> cov a Y -> (forall u, lang t 0 u <-> Tg a Y u) ->
  exists T' A', insertTransducer e t 0 T = Ok ((nstates T + f)%nat, T', t) /\ mid env D a T' A' L c
    /\ pos a T' A' (nstates T + f) (cat X Y).
Proof.
  intros env D a T A L c e X t f fw Y M P Wt Hf Q CY LY. assert (Tr := md_trie _ _ _ _ _ _ _ M).
  destruct (insert_copy a T A t f fw e Tr (ps_at _ _ _ _ _ P) Wt Hf) as (T' & E & I & Rk).
  destruct (ainserted_enlarged U comp Hcomp a T A e t T' (md_alph _ _ _ _ _ _ _ M) Tr (ps_at _ _ _ _ _ P) Wt I Rk) as (En & Tr' & R & Qt).
  assert (Lf : (f < nstates t)%nat) by (apply (wf_finals t Wt f fw); unfold final_wt; rewrite Hf; now left).
  assert (Tr2 : atrie U comp a T' (plus_state A (nstates T + f))).
  { apply (atrie_add U comp Hcomp); [exact (md_alph _ _ _ _ _ _ _ M)|exact Tr'|rewrite (in_size _ _ _ _ _ I); lia|]. apply Qt. apply (Q f fw). unfold final_wt. rewrite Hf. now left. }
  exists T', (plus_state A (nstates T + f)). split; [exact E|]. split.
  - apply (mid_enlarged env D a T A L c T' _ M En Tr2); [intros q Hq; now left|]. intros q Lq [Hq| ->]; [exact Hq|lia].
  - constructor; [now right|apply cov_cat; [apply P|exact CY]|]. intros u. rewrite R, Tg_cat.
    split; intros (v & y & H1 & H2 & ->); exists v, y.
    + split; [now apply P|]. split; [|reflexivity]. apply LY. now apply (single_final_lang t f fw Hf).
    + split; [now apply P|]. split; [|reflexivity]. apply (single_final_lang t f fw Hf). now apply LY.
Qed.
Lemma insert_last : forall env D a T A L c e X t f fw Y, mid env D a T A L c -> pos a T A e X ->
  wf t -> finals t = [(f, fw)] -> cov a Y -> (forall u, lang t 0 u <-> Tg a Y u) ->
  exists T', insertTransducer e t 0 T = Ok ((nstates T + f)%nat, T', t)
    /\ mid env D a (setFinal (nstates T + f) 0 true T') A (join_sets L (cat X Y)) c.
Proof.
  intros env D a T A L c e X t f fw Y M P Wt Hf CY LY. assert (Tr := md_trie _ _ _ _ _ _ _ M).
  destruct (insert_copy a T A t f fw e Tr (ps_at _ _ _ _ _ P) Wt Hf) as (T' & E & I & Rk). exists T'. split; [exact E|].
  destruct (ainserted_final U comp Hcomp a T A e t T' f fw (md_alph _ _ _ _ _ _ _ M) Tr (ps_at _ _ _ _ _ P) Wt I Rk Hf) as (Tr2 & L2 & R2 & E2).
  constructor.
  - exact (md_alph _ _ _ _ _ _ _ M).
  - exact Tr2.
  - intros u. rewrite L2, Tg_join, (md_lang _ _ _ _ _ _ _ M), Tg_cat.
    split; (intros [H|(v & y & H1 & H2 & ->)]; [auto|]; right; exists v, y); (split; [now apply P|split; [now apply LY|reflexivity]]).
  - apply cov_join; [apply M|]. apply cov_cat; [apply P|exact CY].
  - intros n q H. destruct (md_pre _ _ _ _ _ _ _ M n q H) as (H1 & H2 & H3 & H4). do 3 (split; [assumption|]). intros u.
    change (initial (setFinal (nstates T + f) 0 true T')) with (initial T'). rewrite (in_initial _ _ _ _ _ I).
    rewrite R2 by exact (at_lt _ _ _ _ _ Tr q H2). apply H4.
  - intros n S H. destruct (md_suf _ _ _ _ _ _ _ M n S H) as (H1 & H2 & F & H3 & H4). do 2 (split; [assumption|]). exists F. auto.
Qed.
Lemma finish_entry : forall env D a T A L c e X, mid env D a T A L c -> pos a T A e X ->
  mid env D a (setFinal e 0 true T) A (join_sets L X) c.
Proof.
  intros env D a T A L c e X M P. assert (Tr := md_trie _ _ _ _ _ _ _ M). assert (W := at_wf _ _ _ _ _ Tr).
  assert (Le := at_lt _ _ _ _ _ Tr e (ps_at _ _ _ _ _ P)). constructor.
  - exact (md_alph _ _ _ _ _ _ _ M).
  - now apply setFinal_atrie.
  - intros u. rewrite setFinal_lang by exact W. rewrite Tg_join, (md_lang _ _ _ _ _ _ _ M), (ps_words _ _ _ _ _ P). reflexivity.
  - apply cov_join; [apply M|apply P].
  - intros n q H. destruct (md_pre _ _ _ _ _ _ _ M n q H) as (H1 & H2 & H3 & H4). do 3 (split; [assumption|]). intros u.
    rewrite setFinal_reach. apply H4.
  - intros n S H. destruct (md_suf _ _ _ _ _ _ _ M n S H) as (H1 & H2 & F & H3 & H4). do 2 (split; [assumption|]). exists F. split; [exact H3|].
    apply ending_setFinal; auto. left. apply P.
Qed.

(** ** Regular expressions *)
Lemma insert_regexp_ok : forall b er env D w A L c X, alph_inv0 (w_alph w) ->
  mid env D (w_alph w) (w_t w) A L c -> pos (w_alph w) (w_t w) A (w_e w) X ->
  (exists r, g_alt r er /\ Forall (fun c => c <> FIN_FICHERO) er /\ choosable latin1 r) ->
  exists w' A', insert_regexp er w = Ok w' /\ alph_inv0 (w_alph w') /\ extends (w_alph w) (w_alph w') /\ w_pars w' = w_pars w
    /\ mid env D (w_alph w') (w_t w') A' L c
    /\ pos (w_alph w') (w_t w') A' (w_e w') (cat X (element_acx eqv b env (Regexp er))).
Proof.
  intros b er env D [a pars T e] A L c X Ha M P (r & G & N & C). cbn [w_alph w_pars w_t w_e] in *.
  destruct (regexp_compiled a er r Ha G N C) as (a' & t & f & E & Wt & Ha' & X' & Hf & Q & S). destruct (S b env) as [Cv Lt].
  destruct (insert_quiet env D a' T A L c e X t f 0 _ (mid_extends env D a a' T A L c Ha' X' M)
    (pos_extends a a' T A e X (proj1 Ha') X' P) Wt Hf Q Cv Lt) as (T' & A' & E' & M' & P').
  unfold insert_regexp. cbn [w_alph w_pars w_t w_e]. rewrite E. cbn [obind]. rewrite E'. cbn [obind].
  eexists _, A'. split; [reflexivity|]. cbn [w_alph w_pars w_t w_e]. auto.
Qed.

(** ** Paradigms *)
(** The paradigms of the entry are not empty. *)
Lemma insert_paradigm_ok : forall n env D w A L c X, pars_ok env D (w_alph w) (w_pars w) -> In n D -> live (w_pars w) (Paradigm n) ->
  bounded (env n) -> mid env D (w_alph w) (w_t w) A L c -> pos (w_alph w) (w_t w) A (w_e w) X ->
  exists w' A', insert_paradigm n w = Ok w' /\ w_alph w' = w_alph w /\ same_names (w_pars w) (w_pars w')
    /\ mid env D (w_alph w') (w_t w') A' L c /\ pos (w_alph w') (w_t w') A' (w_e w') (cat X (env n)).
Proof.
  intros n env D [a pars T e] A L c X Hp Hn Hl B M P. cbn [w_alph w_pars w_t w_e] in *.
  destruct (live_par env D a pars n Hp Hn Hl) as (t & E & [Wt (f & fw & Hf) Cv Lt _ Q]).
  destruct (insert_quiet env D a T A L c e X t f fw _ M P Wt Hf (Q B) Cv Lt) as (T' & A' & E' & M' & P').
  unfold insert_paradigm, name_get. cbn [w_alph w_pars w_t w_e]. rewrite E, E'. cbn [obind].
  eexists _, A'. split; [reflexivity|]. cbn [w_alph w_pars w_t w_e]. split; [reflexivity|]. split; [|auto].
  intros m. now apply name_set_same.
Qed.
Lemma insert_paradigm_last : forall n env D w A L c X, pars_ok env D (w_alph w) (w_pars w) -> In n D -> live (w_pars w) (Paradigm n) ->
  mid env D (w_alph w) (w_t w) A L c -> pos (w_alph w) (w_t w) A (w_e w) X ->
  exists w', insert_paradigm n w = Ok w' /\ w_alph w' = w_alph w /\ same_names (w_pars w) (w_pars w')
    /\ mid env D (w_alph w') (setFinal (w_e w') 0 true (w_t w')) A (join_sets L (cat X (env n))) c.
Proof.
  intros n env D [a pars T e] A L c X Hp Hn Hl M P. cbn [w_alph w_pars w_t w_e] in *.
  destruct (live_par env D a pars n Hp Hn Hl) as (t & E & [Wt (f & fw & Hf) Cv Lt _ Q]).
  destruct (insert_last env D a T A L c e X t f fw _ M P Wt Hf Cv Lt) as (T' & E' & M').
  unfold insert_paradigm, name_get. cbn [w_alph w_pars w_t w_e]. rewrite E, E'. cbn [obind].
  eexists. split; [reflexivity|]. cbn [w_alph w_pars w_t w_e]. split; [reflexivity|]. split; [|auto].
  intros m. now apply name_set_same.
Qed.

(** ** A last paradigm in a section *)
Lemma reuse_suffix : forall env D a T A L c e X n S, mid env D a T A L c -> pos a T A e X -> name_find n (suffix c) = Some S ->
  exists T', linkStates e S 0 0 T = Ok T'
    /\ mid env D a (setFinal (name_get n 0%nat (postsuffix c)) 0 true T') A (join_sets L (cat X (env n))) c.
Proof.
  intros env D a T A L c e X n S M P H. assert (Tr := md_trie _ _ _ _ _ _ _ M).
  destruct (md_suf _ _ _ _ _ _ _ M n S H) as (_ & Cv & F & HF & En).
  destruct (alink_ending U comp Hcomp a T A S F _ e (md_alph _ _ _ _ _ _ _ M) Tr (ps_at _ _ _ _ _ P) En) as (T' & E & Tr' & N' & I' & F' & L' & R' & E').
  exists T'. split; [exact E|]. unfold name_get. rewrite HF. rewrite (setFinal_there T' F 0 (at_wf _ _ _ _ _ Tr') F'). constructor.
  - exact (md_alph _ _ _ _ _ _ _ M).
  - exact Tr'.
  - intros u. rewrite L', Tg_join, (md_lang _ _ _ _ _ _ _ M), Tg_cat.
    split; (intros [X1|(v & y & X1 & X2 & ->)]; [auto|]; right; exists v, y); (split; [now apply P|auto]).
  - apply cov_join; [apply M|]. apply cov_cat; [apply P|exact Cv].
  - intros m q Hq. destruct (md_pre _ _ _ _ _ _ _ M m q Hq) as (H1 & H2 & H3 & H4). do 3 (split; [assumption|]). intros u.
    rewrite I', R' by exact H2. apply H4.
  - intros m S2 Hq. destruct (md_suf _ _ _ _ _ _ _ M m S2 Hq) as (H1 & H2 & F2 & H3 & H4). do 2 (split; [assumption|]). exists F2. auto.
Qed.
Lemma new_suffix : forall env D w A L c X n, pars_ok env D (w_alph w) (w_pars w) -> In n D -> live (w_pars w) (Paradigm n) ->
  mid env D (w_alph w) (w_t w) A L c -> pos (w_alph w) (w_t w) A (w_e w) X -> name_find n (suffix c) = None ->
  let T1 := snd (insertNewSingleTransduction 0 (w_e w) 0 (w_t w)) in
  exists w', insert_paradigm n (mkW (w_alph w) (w_pars w) T1 (nstates (w_t w))) = Ok w' /\ w_alph w' = w_alph w
    /\ same_names (w_pars w) (w_pars w')
    /\ mid env D (w_alph w') (setFinal (w_e w') 0 true (w_t w')) A (join_sets L (cat X (env n)))
         (mkC (name_set n (nstates (w_t w)) (suffix c)) (prefix c) (name_set n (w_e w') (postsuffix c))).
Proof.
  intros env D [a pars T e] A L c X n Hp Hn Hl M P H. cbn [w_alph w_pars w_t w_e] in *. cbv zeta.
  set (T1 := snd (insertNewSingleTransduction 0 e 0 T)).
  destruct (live_par env D a pars n Hp Hn Hl) as (t & E & [Wt (f & fw & Hf) Cv Lt _ Q]).
  assert (Tr := md_trie _ _ _ _ _ _ _ M).
  destruct (insertNew_empty U comp Hcomp a T A e 0 (md_alph _ _ _ _ _ _ _ M) Tr (ps_at _ _ _ _ _ P)) as (_ & N1 & En1 & Tr1 & _ & _).
  fold T1 in N1, En1, Tr1.
  destruct (insert_copy a T1 _ t f fw (nstates T) Tr1 (or_intror eq_refl) Wt Hf) as (T' & E' & I & Rk).
  destruct (anew_ending U comp Hcomp a T A e t T' f fw (md_alph _ _ _ _ _ _ _ M) Tr (ps_at _ _ _ _ _ P) Wt Hf I Rk) as (Tr2 & L2 & R2 & En & E2). fold T1 in Tr2, L2, R2, En, E2.
  unfold insert_paradigm, name_get. cbn [w_alph w_pars w_t w_e]. rewrite E, E'. cbn [obind].
  eexists. split; [reflexivity|]. cbn [w_alph w_pars w_t w_e]. split; [reflexivity|].
  split; [intros m; now apply name_set_same|].
  assert (I2 : initial T' = initial T) by (rewrite (in_initial _ _ _ _ _ I); apply En1).
  constructor.
  - exact (md_alph _ _ _ _ _ _ _ M).
  - exact Tr2.
  - intros u. rewrite L2, Tg_join, (md_lang _ _ _ _ _ _ _ M), Tg_cat.
    split; (intros [X1|(v & y & X1 & X2 & ->)]; [auto|]; right; exists v, y); (split; [now apply P|split; [now apply Lt|reflexivity]]).
  - apply cov_join; [apply M|]. apply cov_cat; [apply P|exact Cv].
  - cbn [prefix]. intros m q Hq. destruct (md_pre _ _ _ _ _ _ _ M m q Hq) as (H1 & H2 & H3 & H4). do 3 (split; [assumption|]). intros u.
    change (initial (setFinal (nstates T1 + f) 0 true T')) with (initial T'). rewrite I2.
    rewrite R2 by exact (at_lt _ _ _ _ _ Tr q H2). apply H4.
  - cbn [suffix postsuffix]. intros m S2 Hq. rewrite name_find_set in Hq |- *. destruct (ustr_eq_dec m n) as [->|Ne].
    + assert (S2 = nstates T) as -> by congruence. split; [exact Hn|]. split; [exact Cv|].
      exists (nstates T1 + f)%nat. split; [reflexivity|].
      exact (ending_iff _ _ _ _ _ _ (fun u => Lt u) En).
    + destruct (md_suf _ _ _ _ _ _ _ M m S2 Hq) as (H1 & H2 & F2 & H3 & H4). do 2 (split; [assumption|]). exists F2. auto.
Qed.

(** ** All elements of an entry *)
Lemma mid_cache : forall env D a T A L c n q, mid env D a T A L c -> In n D -> A q -> cov a (env n) ->
  (forall u, reach T (initial T) u q <-> Tg a (env n) u) ->
  mid env D a T A L (mkC (suffix c) (name_set n q (prefix c)) (postsuffix c)).
Proof.
  intros env D a T A L c n q [M0 M1 M2 M3 M4 M5] Hn Hq Cv R. constructor; auto. cbn [prefix]. intros m r Hr.
  rewrite name_find_set in Hr. destruct (ustr_eq_dec m n) as [->|Ne]; [|auto]. assert (r = q) as -> by congruence. auto.
Qed.
Lemma section_tokens_ok : forall s, suits s -> sep s = None -> forall els first env D w c A L X,
  alph_inv0 (w_alph w) -> pars_ok env D (w_alph w) (w_pars w) -> entry_within U (lr s) env D els -> Forall (live (w_pars w)) els ->
  mid env D (w_alph w) (w_t w) A L c -> pos (w_alph w) (w_t w) A (w_e w) X ->
  (first = true -> forall u, X u <-> u = []) ->
  exists w' c' A', section_tokens s first els w c = Ok (w', c') /\ alph_inv0 (w_alph w') /\ extends (w_alph w) (w_alph w')
    /\ same_names (w_pars w) (w_pars w')
    /\ mid env D (w_alph w') (setFinal (w_e w') 0 true (w_t w')) A' (join_sets L (cat X (entry_acx eqv (lr s) env els))) c'.
Proof.
  intros s Hx Hs. induction els as [|el els IH]; intros first env D w c A L X Ha Hp Ok1 Lv M P Hf.
  - cbn [section_tokens]. exists w, c, A. split; [reflexivity|]. split; [exact Ha|]. split; [apply extends_refl|]. split; [intros n; reflexivity|].
    apply (mid_iff _ _ _ _ _ (join_sets L X)); [|exact (finish_entry _ _ _ _ _ _ _ _ _ M P)].
    intros u. apply join_iff. intros v. symmetry. apply cat_nil_r.
  - destruct Ok1 as [Ok1 Ok2]. assert (Lv1 := Forall_inv Lv). assert (Lv2 := Forall_inv_tail Lv).
    assert (Assoc : forall u, join_sets L (cat (cat X (element_acx eqv (lr s) env el)) (entry_acx eqv (lr s) env els)) u
      <-> join_sets L (cat X (entry_acx eqv (lr s) env (el :: els))) u).
    { intros u. apply join_iff. intros v. cbn [entry_acx]. apply cat_assoc. }
    (** what remains after an element that leads to a sharing state *)
    assert (Go : forall w1 c1 A1, alph_inv0 (w_alph w1) -> extends (w_alph w) (w_alph w1) -> same_names (w_pars w) (w_pars w1) ->
      mid env D (w_alph w1) (w_t w1) A1 L c1 -> pos (w_alph w1) (w_t w1) A1 (w_e w1) (cat X (element_acx eqv (lr s) env el)) ->
      exists w' c' A', section_tokens s false els w1 c1 = Ok (w', c') /\ alph_inv0 (w_alph w') /\ extends (w_alph w) (w_alph w')
        /\ same_names (w_pars w) (w_pars w')
        /\ mid env D (w_alph w') (setFinal (w_e w') 0 true (w_t w')) A' (join_sets L (cat X (entry_acx eqv (lr s) env (el :: els)))) c').
    { intros w1 c1 A1 Ha1 X1 S1 M1 P1.
      destruct (IH false env D w1 c1 A1 L (cat X (element_acx eqv (lr s) env el))) as (w' & c' & A' & E' & Ha' & X' & S' & M').
      - exact Ha1.
      - apply (pars_ok_names _ _ _ (w_pars w)); [exact S1|]. exact (pars_ok_extends _ _ _ _ _ (proj1 Ha1) X1 Hp).
      - exact Ok2.
      - revert Lv2. apply Forall_impl. intros [l r v|n|er]; cbn [live]; auto. intros (t & H1 & H2). exists t. now rewrite S1.
      - exact M1.
      - exact P1.
      - discriminate.
      - exists w', c', A'. split; [exact E'|]. split; [exact Ha'|]. split; [exact (extends_trans _ _ _ X1 X')|].
        split; [intros n; now rewrite S', S1|]. exact (mid_iff _ _ _ _ _ _ _ _ Assoc M'). }
    destruct el as [l r wt|n|er].
    + destruct (insert_single_ok s l r wt env D w A L c X _ Hx Hs Ha M P Ok1) as (w1 & A1 & E1 & Ha1 & X1 & S1 & M1 & P1).
      cbn [section_tokens]. rewrite E1. cbn [obind]. apply (Go w1 c A1 Ha1 X1); [intros m; now rewrite S1|exact M1|exact P1].
    + destruct Ok1 as [Hn B]. destruct els as [|el2 els].
      * (* last element *)
        cbn [section_tokens].
        assert (Last : forall u, join_sets L (cat X (env n)) u <-> join_sets L (cat X (entry_acx eqv (lr s) env [Paradigm n])) u).
        { intros u. apply join_iff. intros v. cbn [entry_acx element_acx element_set]. apply cat_iff; [reflexivity|]. intros v'. symmetry. apply cat_nil_r. }
        destruct (name_find n (suffix c)) as [S|] eqn:Es.
        -- destruct (reuse_suffix env D (w_alph w) (w_t w) A L c (w_e w) X n S M P Es) as (T' & E' & M'). rewrite E'. cbn [obind].
           eexists _, c, A. split; [reflexivity|]. cbn [w_alph w_pars w_t w_e]. split; [exact Ha|]. split; [apply extends_refl|].
           split; [intros m; reflexivity|]. exact (mid_iff _ _ _ _ _ _ _ _ Last M').
        -- destruct (new_suffix env D w A L c X n Hp Hn Lv1 M P Es) as (w' & E' & Ea & S' & M').
           change (insertNewSingleTransduction 0 (w_e w) 0 (w_t w)) with (nstates (w_t w), snd (insertNewSingleTransduction 0 (w_e w) 0 (w_t w))).
           cbv iota beta. rewrite E'. cbn [obind]. eexists _, _, A. split; [reflexivity|]. rewrite Ea in M' |- *. split; [exact Ha|].
           split; [apply extends_refl|]. split; [exact S'|]. exact (mid_iff _ _ _ _ _ _ _ _ Last M').
      * specialize (B eq_refl). destruct first.
        -- assert (Ec : section_tokens s true (Paradigm n :: el2 :: els) w c =
             match name_find n (prefix c) with
             | Some q => section_tokens s false (el2 :: els) (mkW (w_alph w) (w_pars w) (w_t w) q) c
             | None => let! w := insert_paradigm n w in
                       section_tokens s false (el2 :: els) w (mkC (suffix c) (name_set n (w_e w) (prefix c)) (postsuffix c))
             end) by reflexivity. rewrite Ec. clear Ec.
           specialize (Hf eq_refl).
           assert (Xn : forall u, env n u <-> cat X (env n) u) by (intros u; symmetry; now apply cat_nil_l).
           destruct (name_find n (prefix c)) as [q|] eqn:Ep.
           ++ destruct (md_pre _ _ _ _ _ _ _ M n q Ep) as (_ & Aq & Cq & Rq).
              apply (Go (mkW (w_alph w) (w_pars w) (w_t w) q) c A); cbn [w_alph w_pars w_t w_e]; [exact Ha|apply extends_refl|intros m; reflexivity|exact M|].
              apply (pos_iff _ _ _ _ _ _ Xn). constructor; assumption.
           ++ destruct (insert_paradigm_ok n env D w A L c X Hp Hn Lv1 B M P) as (w1 & A1 & E1 & Ea & S1 & M1 & P1).
              rewrite E1. cbn [obind]. apply (Go w1 _ A1); [now rewrite Ea|rewrite Ea; apply extends_refl|exact S1| |exact P1].
              assert (P2 := pos_iff _ _ _ _ _ _ (fun u => iff_sym (Xn u)) P1).
              apply mid_cache; [exact M1|exact Hn|apply P2|apply P2|apply P2].
        -- assert (Ec : section_tokens s false (Paradigm n :: el2 :: els) w c =
             let! w := insert_paradigm n w in section_tokens s false (el2 :: els) w c) by reflexivity. rewrite Ec. clear Ec.
           destruct (insert_paradigm_ok n env D w A L c X Hp Hn Lv1 B M P) as (w1 & A1 & E1 & Ea & S1 & M1 & P1).
           rewrite E1. cbn [obind]. apply (Go w1 c A1); [now rewrite Ea|rewrite Ea; apply extends_refl|exact S1|exact M1|exact P1].
    + destruct (insert_regexp_ok (lr s) er env D w A L c X Ha M P Ok1) as (w1 & A1 & E1 & Ha1 & X1 & S1 & M1 & P1).
      cbn [section_tokens]. rewrite E1. cbn [obind]. apply (Go w1 c A1 Ha1 X1); [intros m; now rewrite S1|exact M1|exact P1].
Qed.

Lemma paradigm_tokens_ok : forall s, suits s -> sep s = None -> forall els env D w c A L X,
  alph_inv0 (w_alph w) -> pars_ok env D (w_alph w) (w_pars w) -> entry_within U (lr s) env D els -> Forall (live (w_pars w)) els ->
  mid env D (w_alph w) (w_t w) A L c -> pos (w_alph w) (w_t w) A (w_e w) X ->
  exists w' A', paradigm_tokens s els w = Ok w' /\ alph_inv0 (w_alph w') /\ extends (w_alph w) (w_alph w')
    /\ same_names (w_pars w) (w_pars w')
    /\ mid env D (w_alph w') (setFinal (w_e w') 0 true (w_t w')) A' (join_sets L (cat X (entry_acx eqv (lr s) env els))) c.
Proof.
  intros s Hx Hs. induction els as [|el els IH]; intros env D w c A L X Ha Hp Ok1 Lv M P.
  - cbn [paradigm_tokens]. exists w, A. split; [reflexivity|]. split; [exact Ha|]. split; [apply extends_refl|]. split; [intros n; reflexivity|].
    apply (mid_iff _ _ _ _ _ (join_sets L X)); [|exact (finish_entry _ _ _ _ _ _ _ _ _ M P)].
    intros u. apply join_iff. intros v. symmetry. apply cat_nil_r.
  - destruct Ok1 as [Ok1 Ok2]. assert (Lv1 := Forall_inv Lv). assert (Lv2 := Forall_inv_tail Lv).
    assert (Assoc : forall u, join_sets L (cat (cat X (element_acx eqv (lr s) env el)) (entry_acx eqv (lr s) env els)) u
      <-> join_sets L (cat X (entry_acx eqv (lr s) env (el :: els))) u).
    { intros u. apply join_iff. intros v. cbn [entry_acx]. apply cat_assoc. }
    assert (Go : forall w1 A1, alph_inv0 (w_alph w1) -> extends (w_alph w) (w_alph w1) -> same_names (w_pars w) (w_pars w1) ->
      mid env D (w_alph w1) (w_t w1) A1 L c -> pos (w_alph w1) (w_t w1) A1 (w_e w1) (cat X (element_acx eqv (lr s) env el)) ->
      exists w' A', paradigm_tokens s els w1 = Ok w' /\ alph_inv0 (w_alph w') /\ extends (w_alph w) (w_alph w')
        /\ same_names (w_pars w) (w_pars w')
        /\ mid env D (w_alph w') (setFinal (w_e w') 0 true (w_t w')) A' (join_sets L (cat X (entry_acx eqv (lr s) env (el :: els)))) c).
    { intros w1 A1 Ha1 X1 S1 M1 P1.
      destruct (IH env D w1 c A1 L (cat X (element_acx eqv (lr s) env el))) as (w' & A' & E' & Ha' & X' & S' & M').
      - exact Ha1.
      - apply (pars_ok_names _ _ _ (w_pars w)); [exact S1|]. exact (pars_ok_extends _ _ _ _ _ (proj1 Ha1) X1 Hp).
      - exact Ok2.
      - revert Lv2. apply Forall_impl. intros [l r v|n|er]; cbn [live]; auto. intros (t & H1 & H2). exists t. now rewrite S1.
      - exact M1.
      - exact P1.
      - exists w', A'. split; [exact E'|]. split; [exact Ha'|]. split; [exact (extends_trans _ _ _ X1 X')|].
        split; [intros n; now rewrite S', S1|]. exact (mid_iff _ _ _ _ _ _ _ _ Assoc M'). }
    destruct el as [l r wt|n|er]; cbn [paradigm_tokens].
    + destruct (insert_single_ok s l r wt env D w A L c X _ Hx Hs Ha M P Ok1) as (w1 & A1 & E1 & Ha1 & X1 & S1 & M1 & P1).
      rewrite E1. cbn [obind]. apply (Go w1 A1 Ha1 X1); [intros m; now rewrite S1|exact M1|exact P1].
    + destruct Ok1 as [Hn B]. destruct els as [|el2 els].
      * destruct (insert_paradigm_last n env D w A L c X Hp Hn Lv1 M P) as (w' & E' & Ea & S' & M'). rewrite E'. cbn [obind].
        exists w', A. split; [reflexivity|]. rewrite Ea in M' |- *. split; [exact Ha|]. split; [apply extends_refl|]. split; [exact S'|].
        apply (mid_iff _ _ _ _ _ _ _ _ Assoc).
        apply (mid_iff _ _ _ _ _ (join_sets L (cat X (env n)))); [|exact M']. intros u. apply join_iff. intros v. symmetry.
        cbn [entry_acx element_acx element_set]. apply cat_nil_r.
      * specialize (B eq_refl). destruct (insert_paradigm_ok n env D w A L c X Hp Hn Lv1 B M P) as (w1 & A1 & E1 & Ea & S1 & M1 & P1).
        rewrite E1. cbn [obind]. apply (Go w1 A1); [now rewrite Ea|rewrite Ea; apply extends_refl|exact S1|exact M1|exact P1].
    + destruct (insert_regexp_ok (lr s) er env D w A L c X Ha M P Ok1) as (w1 & A1 & E1 & Ha1 & X1 & S1 & M1 & P1).
      rewrite E1. cbn [obind]. apply (Go w1 A1 Ha1 X1); [intros m; now rewrite S1|exact M1|exact P1].
Qed.

(** ** Which entries are kept *)
Lemma entry_some : forall lr env D a pars els, pars_ok env D a pars -> entry_within U lr env D els -> Forall (live pars) els ->
  exists w, entry_acx eqv lr env els w.
Proof.
  intros lr env D a pars els Hp. induction els as [|el els IH]; intros Ho Hl; [exists []; reflexivity|].
  destruct Ho as [Ho1 Ho2]. destruct (IH Ho2 (Forall_inv_tail Hl)) as (v & Hv).
  assert (exists u, element_acx eqv lr env el u) as (u & Hu).
  { destruct el as [l r wt|n|er].
    - exists (if lr then align l r else align r l). cbn [element_acx]. generalize (if lr then align l r else align r l) as z. intros z.
      induction z; constructor; [split; auto|assumption].
    - destruct (live_par env D a pars n Hp (proj1 Ho1) (Forall_inv Hl)) as (t & _ & P). exact (po_some _ _ _ P).
    - destruct Ho1 as (r & G & N & C). destruct (proj1 (den_some latin1) r er G C) as (cs & Hd). exists (same_pairs cs), r, cs. auto. }
  exists (u ++ v), u, v. auto.
Qed.
Lemma scan_kept : forall lr env D a c els, pars_ok env D a (c_pars c) -> entry_within U lr env D els -> ~ In (current_paradigm c) D \/ current_paradigm c = [] ->
  (scan_entry c els = Ok true /\ Forall (live (c_pars c)) els)
  \/ (scan_entry c els = Ok false /\ forall w, ~ entry_acx eqv lr env els w).
Proof.
  intros lr env D a c els Hp Ho Hc. induction els as [|el els IH]; [left; split; [reflexivity|constructor]|].
  destruct Ho as [Ho1 Ho2]. specialize (IH Ho2).
  assert (Next : live (c_pars c) el -> scan_entry c (el :: els) = scan_entry c els ->
    (scan_entry c (el :: els) = Ok true /\ Forall (live (c_pars c)) (el :: els))
    \/ (scan_entry c (el :: els) = Ok false /\ forall w, ~ entry_acx eqv lr env (el :: els) w)).
  { intros Hl Hn. rewrite Hn. destruct IH as [[H1 H2]|[H1 H2]]; [left|right]; (split; [exact H1|]).
    - now constructor.
    - intros w (u & v & _ & _ & Hv). exact (H2 v Hv). }
  destruct el as [l r wt|n|er].
  - apply Next; [exact I|reflexivity].
  - destruct Ho1 as [Hn _].
    assert (Ec : (match current_paradigm c with
                  | _ :: _ => if ustr_eq_dec n (current_paradigm c) then Exit else Ok tt
                  | [] => Ok tt end : outcome unit) = Ok tt).
    { destruct (current_paradigm c) as [|x q] eqn:Eq; [reflexivity|]. destruct (ustr_eq_dec n (x :: q)) as [->|]; [|reflexivity].
      destruct Hc as [Hc|Hc]; [contradiction|discriminate]. }
    destruct (Hp n Hn) as (t & Et & [[H1 H2]|[H1 H2]]).
    + right. split; [cbn [scan_entry]; rewrite Ec; cbn [obind]; now rewrite Et, H1|]. intros w (u & v & _ & Hu & _). exact (H2 u Hu).
    + apply Next; [exists t; auto|]. cbn [scan_entry]. rewrite Ec. cbn [obind]. now rewrite Et, H1.
  - apply Next; [exact I|reflexivity].
Qed.

(** ** The compiler between items *)
(** [L]: the words of the sections so far. *)
Record base (env : ustr -> pset) (D : list ustr) (L : ustr -> pset) (c : compiler) : Prop := {
  bs_alph : alph_inv0 (c_alph c);
  bs_pars : pars_ok env D (c_alph c) (c_pars c);
  bs_keys : NoDup (map fst (c_secs c));
  bs_secs : forall n, exists A, mid env D (c_alph c) (name_get n new_transducer (c_secs c)) A (L n) (name_get n no_caches (c_caches c));
  bs_none : forall n, name_find n (c_secs c) = None -> forall w, ~ L n w;
  bs_some : forall n t, name_find n (c_secs c) = Some t -> exists w, L n w
}.
Lemma base_iff : forall env D L L' c, (forall n w, L n w <-> L' n w) -> base env D L c -> base env D L' c.
Proof.
  intros env D L L' c H [B1 B2 B3 B4 B5 B6]. constructor; auto.
  - intros n. destruct (B4 n) as (A & M). exists A. exact (mid_iff _ _ _ _ _ _ _ _ (H n) M).
  - intros n E w Hw. apply (B5 n E w). now apply H.
  - intros n t E. destruct (B6 n t E) as (w & Hw). exists w. now apply H.
Qed.

Lemma section_entry : forall s, suits s -> sep s = None -> forall env D L c els,
  base env D L c -> unknown D c -> current_paradigm c = [] -> entry_within U (lr s) env D els ->
  exists c', proc s (Entry els) c = Ok c' /\ base env D (also L (current_section c) (entry_acx eqv (lr s) env els)) c'
    /\ unknown D c' /\ extends (c_alph c) (c_alph c')
    /\ current_paradigm c' = [] /\ current_section c' = current_section c.
Proof.
  intros s Hx Hs env D L c els B Un0 Hc Ho. cbn [proc].
  destruct (scan_kept (lr s) env D (c_alph c) c els (bs_pars _ _ _ _ B) Ho (or_intror Hc)) as [[E Hl]|[E He]]; rewrite E; cbn [obind].
  - unfold insertEntryTokens. rewrite Hc. destruct (bs_secs _ _ _ _ B (current_section c)) as (A & M).
    set (t := name_get (current_section c) new_transducer (c_secs c)) in *.
    assert (P := pos_root _ _ _ _ _ _ _ M).
    destruct (section_tokens_ok s Hx Hs els true env D (mkW (c_alph c) (c_pars c) t (initial t))
      (name_get (current_section c) no_caches (c_caches c)) A (L (current_section c)) (fun w => w = []))
      as (w' & k & A' & E' & Ha' & X' & S' & M'); cbn [w_alph w_pars w_t w_e]; try assumption; try apply B; [intros _ u; reflexivity|].
    change (mkC [] [] []) with no_caches. rewrite E'. cbn [obind]. cbn [w_alph w_pars w_t w_e] in *.
    eexists. split; [reflexivity|]. cbn [c_alph c_pars c_secs c_caches current_paradigm current_section]. split; [|split; [|auto]].
    + assert (Ew : forall w, join_sets (L (current_section c)) (cat (fun w => w = []) (entry_acx eqv (lr s) env els)) w
        <-> also L (current_section c) (entry_acx eqv (lr s) env els) (current_section c) w).
      { intros w. unfold also. apply join_iff. intros v. rewrite cat_nil_l by reflexivity. intuition. }
      assert (Other : forall n w, n <> current_section c -> (L n w <-> also L (current_section c) (entry_acx eqv (lr s) env els) n w)).
      { intros n w Ne. unfold also, join_sets. split; [auto|]. intros [H|[H _]]; [exact H|congruence]. }
      constructor; cbn [c_alph c_pars c_secs c_caches current_paradigm current_section].
      * exact Ha'.
      * apply (pars_ok_names _ _ _ _ _ S'). exact (pars_ok_extends _ _ _ _ _ (proj1 Ha') X' (bs_pars _ _ _ _ B)).
      * apply name_set_nodup, B.
      * intros n. rewrite !name_get_set. destruct (ustr_eq_dec n (current_section c)) as [->|Ne].
        -- exists A'. exact (mid_iff _ _ _ _ _ _ _ _ Ew M').
        -- destruct (bs_secs _ _ _ _ B n) as (A0 & M0). exists A0. apply (mid_iff _ _ _ _ _ (L n)); [intros w; auto|].
           exact (mid_extends _ _ _ _ _ _ _ _ Ha' X' M0).
      * intros n. rewrite name_find_set. destruct (ustr_eq_dec n (current_section c)) as [->|Ne]; [discriminate|].
        intros En w Hw. apply (bs_none _ _ _ _ B n En w). now apply Other.
      * intros n t0. rewrite name_find_set. destruct (ustr_eq_dec n (current_section c)) as [->|Ne].
        -- intros _. destruct (entry_some (lr s) env D (c_alph c) (c_pars c) els (bs_pars _ _ _ _ B) Ho Hl) as (w & Hw).
           exists w. right. auto.
        -- intros En. destruct (bs_some _ _ _ _ B n t0 En) as (w & Hw). exists w. now left.
    + intros n Hn. cbn [c_pars]. rewrite S'. now apply Un0.
  - exists c. split; [reflexivity|]. split; [|split; [exact Un0|split; [apply extends_refl|auto]]].
    apply (base_iff env D L); [|exact B]. intros n w. unfold also, join_sets. split; [auto|]. intros [H|[_ H]]; [exact H|]. now apply He in H.
Qed.

(** While the paradigm [n] is read: [Lp] its words so far. *)
Record reading (env : ustr -> pset) (D : list ustr) (L : ustr -> pset) (n : ustr) (Lp : pset) (c : compiler) : Prop := {
  rd_base : base env D L c;
  rd_cur : current_paradigm c = n;
  rd_unknown : forall m, ~ In m D -> m <> n -> name_find m (c_pars c) = None;
  rd_mid : exists A, mid env D (c_alph c) (name_get n new_transducer (c_pars c)) A Lp no_caches;
  rd_none : name_find n (c_pars c) = None -> forall w, ~ Lp w;
  rd_some : forall t, name_find n (c_pars c) = Some t -> exists w, Lp w
}.
Lemma reading_iff : forall env D L n Lp Lp' c, (forall w, Lp w <-> Lp' w) -> reading env D L n Lp c -> reading env D L n Lp' c.
Proof.
  intros env D L n Lp Lp' c H [R1 R2 R3 R4 R5 R6]. constructor; auto.
  - destruct R4 as (A & M). exists A. exact (mid_iff _ _ _ _ _ _ _ _ H M).
  - intros E w Hw. apply (R5 E w). now apply H.
  - intros t E. destruct (R6 t E) as (w & Hw). exists w. now apply H.
Qed.
Lemma paradigm_entry : forall s, suits s -> sep s = None -> forall env D L n Lp c els,
  reading env D L n Lp c -> n <> [] -> ~ In n D -> entry_within U (lr s) env D els ->
  exists c', proc s (Entry els) c = Ok c' /\ reading env D L n (join_sets Lp (entry_acx eqv (lr s) env els)) c' /\ extends (c_alph c) (c_alph c').
Proof.
  intros s Hx Hs env D L n Lp c els [B Hc Un0 (A & M) Rn Rs] Nn Hn Ho. cbn [proc].
  assert (Hc2 : ~ In (current_paradigm c) D) by now rewrite Hc.
  destruct (scan_kept (lr s) env D (c_alph c) c els (bs_pars _ _ _ _ B) Ho (or_introl Hc2)) as [[E Hl]|[E He]]; rewrite E; cbn [obind].
  - unfold insertEntryTokens. rewrite Hc. destruct n as [|n0 n1] eqn:Edn; [contradiction|]. rewrite <- Edn in *. cbv iota.
    set (t := name_get n new_transducer (c_pars c)) in *.
    assert (P := pos_root _ _ _ _ _ _ _ M).
    destruct (paradigm_tokens_ok s Hx Hs els env D (mkW (c_alph c) (c_pars c) t (initial t)) no_caches A Lp (fun w => w = []))
      as (w' & A' & E' & Ha' & X' & S' & M'); cbn [w_alph w_pars w_t w_e]; try assumption; try apply B.
    rewrite E'. cbn [obind]. cbn [w_alph w_pars w_t w_e] in *.
    assert (Hp' : pars_ok env D (w_alph w') (name_set n (setFinal (w_e w') 0 true (w_t w')) (w_pars w'))).
    { intros m Hm. destruct (pars_ok_names _ _ _ _ _ S' (pars_ok_extends _ _ _ _ _ (proj1 Ha') X' (bs_pars _ _ _ _ B)) m Hm) as (t0 & H1 & H2).
      exists t0. rewrite name_find_set. destruct (ustr_eq_dec m n) as [->|]; [contradiction|]. auto. }
    eexists. split; [reflexivity|]. cbn [c_alph]. split; [|exact X'].
    constructor; cbn [c_alph c_pars c_secs c_caches current_paradigm current_section].
    + constructor; cbn [c_alph c_pars c_secs c_caches current_paradigm current_section]; try apply B; [exact Ha'|exact Hp'|].
      intros m. destruct (bs_secs _ _ _ _ B m) as (A0 & M0). exists A0. exact (mid_extends _ _ _ _ _ _ _ _ Ha' X' M0).
    + reflexivity.
    + intros m Hm Ne. rewrite name_find_set. destruct (ustr_eq_dec m n); [contradiction|]. rewrite S'. auto.
    + exists A'. rewrite name_get_set. destruct (ustr_eq_dec n n); [|contradiction].
      apply (mid_iff _ _ _ _ _ (join_sets Lp (cat (fun w => w = []) (entry_acx eqv (lr s) env els)))); [|exact M'].
      intros w. apply join_iff. intros v. now rewrite cat_nil_l.
    + rewrite name_find_set. destruct (ustr_eq_dec n n); [discriminate|contradiction].
    + intros _ _. destruct (entry_some (lr s) env D (c_alph c) (c_pars c) els (bs_pars _ _ _ _ B) Ho Hl) as (w & Hw). exists w. now right.
  - exists c. split; [reflexivity|]. split; [|apply extends_refl].
    apply (reading_iff env D L n Lp); [|constructor; auto; exists A; exact M]. intros w. unfold join_sets. split; [auto|]. intros [H|H]; [exact H|]. now apply He in H.
Qed.

Lemma section_entries : forall s, suits s -> sep s = None -> forall es env D L c,
  base env D L c -> unknown D c -> current_paradigm c = [] -> Forall (entry_within U (lr s) env D) es ->
  exists c', procs s (map Entry es) c = Ok c' /\ base env D (also L (current_section c) (entries_acx eqv (lr s) env es)) c'
    /\ unknown D c' /\ extends (c_alph c) (c_alph c') /\ current_paradigm c' = [].
Proof.
  intros s Hx Hs. induction es as [|els es IH]; intros env D L c B Un0 Hc Ho.
  - exists c. split; [reflexivity|]. split; [|split; [exact Un0|split; [apply extends_refl|exact Hc]]].
    apply (base_iff env D L); [|exact B]. intros n w. unfold also, join_sets. split; [auto|]. intros [H|[_ (els & [] & _)]]. exact H.
  - destruct (section_entry s Hx Hs env D L c els B Un0 Hc (Forall_inv Ho)) as (c1 & E1 & B1 & U1 & X1 & Hc1 & Hs1).
    destruct (IH env D _ c1 B1 U1 Hc1 (Forall_inv_tail Ho)) as (c2 & E2 & B2 & U2 & X2 & Hc2).
    exists c2. cbn [map procs]. rewrite E1. cbn [obind]. split; [exact E2|]. split; [|split; [exact U2|split; [exact (extends_trans _ _ _ X1 X2)|exact Hc2]]].
    apply (base_iff _ _ _ _ _) with (2 := B2). rewrite Hs1. intros n w. unfold also, join_sets, entries_acx. split.
    + intros [[H|[H1 H2]]|[H1 (x & H2 & H3)]]; [now left| |]; right; (split; [exact H1|]); [exists els|exists x]; (split; [|assumption]); [now left|now right].
    + intros [H|[H1 (x & [<-|H2] & H3)]]; [auto|left; right; auto|right]. split; [exact H1|]. exists x. auto.
Qed.
Lemma paradigm_entries : forall s, suits s -> sep s = None -> forall es env D L n Lp c,
  reading env D L n Lp c -> n <> [] -> ~ In n D -> Forall (entry_within U (lr s) env D) es ->
  exists c', procs s (map Entry es) c = Ok c' /\ reading env D L n (join_sets Lp (entries_acx eqv (lr s) env es)) c' /\ extends (c_alph c) (c_alph c').
Proof.
  intros s Hx Hs. induction es as [|els es IH]; intros env D L n Lp c R Nn Hn Ho.
  - exists c. split; [reflexivity|]. split; [|apply extends_refl].
    apply (reading_iff env D L n Lp); [|exact R]. intros w. unfold join_sets. split; [auto|]. intros [H|(els & [] & _)]. exact H.
  - destruct (paradigm_entry s Hx Hs env D L n Lp c els R Nn Hn (Forall_inv Ho)) as (c1 & E1 & R1 & X1).
    destruct (IH env D L n _ c1 R1 Nn Hn (Forall_inv_tail Ho)) as (c2 & E2 & R2 & X2).
    exists c2. cbn [map procs]. rewrite E1. cbn [obind]. split; [exact E2|]. split; [|exact (extends_trans _ _ _ X1 X2)].
    apply (reading_iff _ _ _ _ _ _ _) with (2 := R2). intros w. unfold join_sets, entries_acx. split.
    + intros [[H|H]|(x & H2 & H3)]; [now left| |]; right; [exists els|exists x]; (split; [|assumption]); [now left|now right].
    + intros [H|(x & [<-|H2] & H3)]; [auto|auto|]. right. exists x. auto.
Qed.

(** ** The end of a paradigm *)
Lemma paradigm_closed : forall env D a T A X, mid env D a T A X no_caches -> (exists w, X w) ->
  isEmpty T = false /\ exists m j, minimize 0 T = Ok m /\ joinFinals 0 m = Ok j /\ isEmpty j = false /\ par_ok a j X.
Proof.
  intros env D a T A X M (w & Hw). assert (W := at_wf _ _ _ _ _ (md_trie _ _ _ _ _ _ _ M)).
  destruct (Tg_some a X w (md_cov _ _ _ _ _ _ _ M) Hw) as (u & Hu & _). assert (Lu := proj2 (md_lang _ _ _ _ _ _ _ M u) Hu).
  split; [exact (finals_not_empty T (lang_finals T u Lu))|].
  destruct (minimize_spec T 0 W (lang_label T u Lu)) as (m & Em & Mm).
  assert (Wm : wf m). { destruct Mm as [(j1 & t1 & Q2 & t2 & j3 & t3 & Q4 & _ & _ & _ & _ & _ & _ & S4 & _)]. exact (sa_wf _ _ _ _ S4). }
  assert (Lm : lang m 0 u) by (apply (minimized_lang 0 T m u W Mm); exact Lu).
  destruct (joinFinals_spec 0 m Wm (lang_finals m u Lm)) as (j & Ej & Wj & J).
  exists m, j. split; [exact Em|]. split; [exact Ej|].
  assert (Lj : forall v, lang j 0 v <-> lang T 0 v).
  { intros v. rewrite <- (minimized_lang 0 T m v W Mm). split; intros (c & H); exists c; apply (joined_wlang 0 m j v c Wm J); exact H. }
  split; [exact (finals_not_empty j (lang_finals j u (proj2 (Lj u) Lu)))|]. constructor.
  - exact Wj.
  - destruct (joined_single 0 m j J) as ((f & fw) & Hf). exists f, fw. exact Hf.
  - apply M.
  - intros v. rewrite Lj. apply M.
  - exists w. exact Hw.
  - intros (N & HN). apply (bounded_quiet T m j N W Mm J). intros v Hv. apply (md_lang _ _ _ _ _ _ _ M) in Hv. exact (bounded_words a X v N HN Hv).
Qed.
Lemma base_define : forall env D L c n Lp t cur, base env D L c -> ~ In n D ->
  ((isEmpty t = true /\ forall w, ~ Lp w) \/ (isEmpty t = false /\ par_ok (c_alph c) t Lp)) ->
  base (define n Lp env) (n :: D) L (mkComp (c_alph c) (name_set n t (c_pars c)) (c_secs c) (c_caches c) cur (current_section c)).
Proof.
  intros env D L c n Lp t cur B Hn Ht. constructor; cbn [c_alph c_pars c_secs c_caches]; try apply B.
  - intros m Hm. rewrite name_find_set. destruct (ustr_eq_dec m n) as [->|Ne]; [exists t; rewrite define_same; auto|].
    rewrite define_other by exact Ne. apply B. destruct Hm as [Hm|Hm]; [congruence|exact Hm].
  - intros m. destruct (bs_secs _ _ _ _ B m) as (A0 & M0). exists A0. apply (mid_env env D); [|exact M0].
    intros k Hk. split; [now right|]. apply define_other. intros ->. contradiction.
Qed.
Lemma pardef_item : forall s, suits s -> sep s = None -> forall n es env D L c,
  base env D L c -> unknown D c -> n <> [] -> ~ In n D -> Forall (entry_within U (lr s) env D) es ->
  exists c', procs s (item_events (Pardef n es)) c = Ok c'
    /\ base (define n (entries_acx eqv (lr s) env es) env) (n :: D) L c' /\ unknown (n :: D) c' /\ extends (c_alph c) (c_alph c')
    /\ ((exists w, entries_acx eqv (lr s) env es w) -> current_paradigm c' = []).
Proof.
  intros s Hx Hs n es env D L c B Un0 Nn Hn Ho. cbn [item_events procs proc obind].
  assert (R0 : reading env D L n no_words (mkComp (c_alph c) (c_pars c) (c_secs c) (c_caches c) n (current_section c))).
  { assert (E0 := Un0 n Hn). constructor; cbn [c_alph c_pars c_secs c_caches current_paradigm current_section].
    - constructor; apply B.
    - reflexivity.
    - intros m Hm _. now apply Un0.
    - eexists. unfold name_get. rewrite E0. apply mid_new, B.
    - intros _ w [].
    - intros t E. rewrite E0 in E. discriminate. }
  destruct (paradigm_entries s Hx Hs es env D L n _ _ R0 Nn Hn Ho) as (c1 & E1 & R1 & X1). cbn [c_alph] in X1.
  apply (reading_iff env D L n _ (entries_acx eqv (lr s) env es)) in R1.
  2:{ intros w. unfold join_sets, no_words. intuition. }
  rewrite procs_app, E1. cbn [obind procs proc]. destruct R1 as [B1 Hc U1 (A & M) Rn Rs]. rewrite Hc.
  assert (Un : forall t cur, unknown (n :: D) (mkComp (c_alph c1) (name_set n t (c_pars c1)) (c_secs c1) (c_caches c1) cur (current_section c1))).
  { intros t cur m Hm. cbn [c_pars]. rewrite name_find_set. destruct (ustr_eq_dec m n) as [->|]; [exfalso; apply Hm; now left|]. apply U1; [|assumption].
    intros H. apply Hm. now right. }
  destruct (name_find n (c_pars c1)) as [t|] eqn:Ef.
  - specialize (Rs t eq_refl). destruct (paradigm_closed _ _ _ _ _ _ M Rs) as (E0 & m & j & Em & Ej & Eej & Pj).
    rewrite E0, Em. cbn [obind]. rewrite Ej. cbn [obind].
    eexists. split; [reflexivity|]. split; [apply base_define; auto|]. split; [apply Un|]. split; [exact X1|]. reflexivity.
  - specialize (Rn eq_refl). unfold name_get. rewrite Ef. change (isEmpty new_transducer) with true. cbv iota.
    eexists. split; [reflexivity|]. split; [apply base_define; auto|]. split; [apply Un|]. split; [exact X1|].
    intros (w & Hw). now apply Rn in Hw.
Qed.
Lemma section_item : forall s, suits s -> sep s = None -> forall n es env D L c,
  base env D L c -> unknown D c -> current_paradigm c = [] -> Forall (entry_within U (lr s) env D) es ->
  exists c', procs s (item_events (Sec n es)) c = Ok c' /\ base env D (also L n (entries_acx eqv (lr s) env es)) c' /\ unknown D c'
    /\ extends (c_alph c) (c_alph c') /\ current_paradigm c' = [].
Proof.
  intros s Hx Hs n es env D L c B Un0 Hc Ho. cbn [item_events procs proc obind].
  destruct (section_entries s Hx Hs es env D L (mkComp (c_alph c) (c_pars c) (c_secs c) (c_caches c) (current_paradigm c) n))
    as (c1 & E1 & B1 & U1 & X1 & Hc1); [constructor; apply B|exact Un0|exact Hc|exact Ho|].
  cbn [c_alph current_section] in *. rewrite procs_app, E1. cbn [obind procs proc]. eexists. split; [reflexivity|].
  split; [constructor; apply B1|]. split; [exact U1|]. auto.
Qed.

Lemma items_ok : forall s, suits s -> sep s = None -> forall items env D L c,
  base env D L c -> unknown D c -> ready items c -> dict_within U eqv (lr s) env D items ->
  exists c' env' D', procs s (dict_events items) c = Ok c'
    /\ base env' D' (fun n => join_sets (L n) (section_acx eqv (lr s) env items n)) c' /\ extends (c_alph c) (c_alph c')
    /\ unknown D' c' /\ forall n, In n D' -> In n D \/ In n (pardef_names items).
Proof.
  intros s Hx Hs. induction items as [|it items IH]; intros env D L c B Un0 Rd Ok1.
  - exists c, env, D. split; [reflexivity|]. split; [|split; [apply extends_refl|auto]]. apply (base_iff env D L); [|exact B].
    intros n w. unfold join_sets. cbn [section_acx]. unfold no_words. intuition.
  - unfold dict_events. cbn [flat_map]. rewrite procs_app. fold (dict_events items). destruct it as [n es|n es]; cbn [dict_within] in Ok1.
    + destruct Ok1 as (Nn & Hn & Ho & Nx & Ok2).
      destruct (pardef_item s Hx Hs n es env D L c B Un0 Nn Hn Ho) as (c1 & E1 & B1 & U1 & X1 & Hc1). rewrite E1. cbn [obind].
      assert (Rd1 : ready items c1). { destruct items as [|[m es2|m es2] items2]; cbn [ready]; auto. }
      destruct (IH _ _ L c1 B1 U1 Rd1 Ok2) as (c2 & env2 & D2 & E2 & B2 & X2 & U2 & I2). exists c2, env2, D2. split; [exact E2|].
      split; [exact B2|]. split; [exact (extends_trans _ _ _ X1 X2)|]. split; [exact U2|].
      intros k Hk. destruct (I2 k Hk) as [[<-|H]|H]; cbn [pardef_names In]; auto.
    + destruct Ok1 as [Ho Ok2].
      destruct (section_item s Hx Hs n es env D L c B Un0 Rd Ho) as (c1 & E1 & B1 & U1 & X1 & Hc1). rewrite E1. cbn [obind].
      assert (Rd1 : ready items c1). { destruct items as [|[m es2|m es2] items2]; cbn [ready]; auto. }
      destruct (IH _ _ _ c1 B1 U1 Rd1 Ok2) as (c2 & env2 & D2 & E2 & B2 & X2 & U2 & I2). exists c2, env2, D2. split; [exact E2|].
      split; [|split; [exact (extends_trans _ _ _ X1 X2)|auto]]. apply (base_iff _ _ _ _ _) with (2 := B2).
      intros m w. unfold also, join_sets. cbn [section_acx]. unfold join_sets. intuition.
Qed.

(** ** Minimising the sections *)
Lemma compile_ok : forall s a items, suits s -> sep s = None -> alph_inv0 a -> dict_within U eqv (lr s) (fun _ => no_words) [] items ->
  exists a' m, compile s a (dict_events items) = Ok (a', m) /\ alph_inv0 a' /\ extends a a' /\ NoDup (map fst m) /\ forall n,
    cov a' (section_acx eqv (lr s) (fun _ => no_words) items n) /\
    match name_find n m with
    | None => forall w, ~ section_acx eqv (lr s) (fun _ => no_words) items n w
    | Some t => wf t /\ (exists w, section_acx eqv (lr s) (fun _ => no_words) items n w)
        /\ (forall u, lang t 0 u <-> Tg a' (section_acx eqv (lr s) (fun _ => no_words) items n) u)
        /\ exists t0, minimized 0 t0 t
    end.
Proof.
  intros s a items Hx Hs Ha Ho.
  destruct (items_ok s Hx Hs items (fun _ => no_words) [] (fun _ => no_words) (new_compiler a)) as (c & env & D & E & B & X & _ & _).
  - constructor; cbn.
    + exact Ha.
    + intros n [].
    + constructor.
    + intros n. eexists. apply mid_new. exact Ha.
    + intros n _ w [].
    + discriminate.
  - intros n _. reflexivity.
  - destruct items as [|[]]; exact I || reflexivity.
  - exact Ho.
  - unfold compile. rewrite E. cbn [obind]. cbn [c_alph new_compiler] in X.
    apply (base_iff _ _ _ (fun n => section_acx eqv (lr s) (fun _ => no_words) items n)) in B.
    2:{ intros n w. unfold join_sets, no_words. intuition. }
    destruct (minimize_all_spec (c_secs c)) as (m & Em & Km & Hm).
    { intros k t Hk. apply (name_in_find _ _ _ (bs_keys _ _ _ _ B)) in Hk. destruct (bs_secs _ _ _ _ B k) as (A & M). unfold name_get in M. rewrite Hk in M.
      split; [exact (at_wf _ _ _ _ _ (md_trie _ _ _ _ _ _ _ M))|]. destruct (bs_some _ _ _ _ B k t Hk) as (w & Hw).
      destruct (Tg_some _ _ w (md_cov _ _ _ _ _ _ _ M) Hw) as (u & Hu & _). exists u. now apply (md_lang _ _ _ _ _ _ _ M). }
    rewrite Em. cbn [obind]. exists (c_alph c), m. split; [reflexivity|]. split; [apply B|]. split; [exact X|].
    split; [rewrite Km; apply B|]. intros n.
    destruct (bs_secs _ _ _ _ B n) as (A & M). split; [apply M|]. specialize (Hm n). unfold name_get in M.
    destruct (name_find n (c_secs c)) as [t|] eqn:Ef.
    + destruct Hm as (t' & -> & W' & M' & L'). split; [exact W'|]. split; [exact (bs_some _ _ _ _ B n t Ef)|].
      split; [|exists t; exact M']. intros u. rewrite L'. apply M.
    + rewrite Hm. exact (bs_none _ _ _ _ B n Ef).
Qed.
End Compiler.
