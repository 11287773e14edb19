(** lt-paradigm (ParadigmModel.v): the transducer made of a pattern reads what fits it. *)
From Verif Require Import Base CompressionModel SerialiserModel AlphabetModel AlphabetProofs TransducerModel
  TransducerSpec TransducerProofs SortedVectorModel RelabelModel RelabelSpec RelabelProofs ComposeModel ComposeSpec ComposeProofs
  TrimModel TrimSpec TrimProofs CompilerProofs ParadigmModel ParadigmSpec.
From Verif Require Import StringModel StringProps.
From Verif Require ToolsProps RegexpProofs.

(** * Symbols and their codes *)
Definition same_tags (a b : alphabet) : Prop := slexicinv a = slexicinv b.
Lemma same_symbol : forall a b s x, same_tags a b -> as_symbol a s x -> as_symbol b s x.
Proof. intros a b s [n|c] E H; [|exact H]. unfold as_symbol, getSymbol in *. unfold same_tags in E. now rewrite <- E. Qed.
Lemma pair_step : forall c a, alph_inv0 a -> let '(tag, a') := pair_code (c, c) a in
  alph_inv0 a' /\ extends a a' /\ same_tags a a' /\ decode tag a' = Ok (c, c).
Proof.
  intros c a I. assert (P := pair_code_ok (c, c) a I). assert (C := pair_cases (c, c) a (proj1 I)). destruct (pair_code (c, c) a) as [tag a'].
  destruct P as (P1 & P2 & P3 & _). cbn [snd] in C. split; [exact P1|]. split; [exact P2|]. split; [|exact P3].
  destruct C as [[_ ->]|[_ ->]]; reflexivity.
Qed.
Lemma tag_symbol : forall a n, alph_inv a -> tag_known a n -> as_symbol a (symbol_code n a) (STag n).
Proof.
  intros a n I K. assert (S1 := symbol_code_written a n I). unfold as_written, writable in S1.
  now rewrite (proj2 (defined_iff a n I) K) in S1.
Qed.
Lemma symbol_tag : forall a s n, alph_inv a -> as_symbol a s (STag n) -> tag_known a n /\ symbol_code n a = s.
Proof. intros a s n I H. apply (symbol_code_tag a s n I) in H as [D E]. apply defined_iff in D; auto. Qed.
Lemma unknown_code : forall a n, alph_inv a -> ~ tag_known a n -> symbol_code n a = 0.
Proof.
  intros a n I K. unfold symbol_code. destruct (map_find ustr_eq_dec n (slexic a)) eqn:E; [|reflexivity]. exfalso. apply K.
  apply (defined_iff a n I). unfold isSymbolDefined. now rewrite E.
Qed.
(** Same code on both sides *)
Definition reads_code (a : alphabet) (b c : Z) : Prop := decode b a = Ok (c, c).
Lemma reads_code_symbols : forall a b c s, reads_code a b c -> as_symbol a c s -> as_symbols a b (s, s).
Proof. intros a b c s D S1. exists c, c. auto. Qed.

(** * Arcs for a list of symbols *)
Lemma link_all_spec : forall src trg syms t a, wf t -> alph_inv0 a -> (src < nstates t)%nat -> (trg < nstates t)%nat ->
  (forall b v, has_arc t src b trg v -> v = 0) ->
  exists t' a', link_all src trg syms t a = Ok (t', a') /\ wf t' /\ alph_inv0 a' /\ extends a a' /\ same_tags a a'
    /\ nstates t' = nstates t /\ initial t' = initial t /\ finals t' = finals t
    /\ (forall c, In c syms -> exists b, reads_code a' b c)
    /\ forall p b q v, has_arc t' p b q v <-> has_arc t p b q v \/ (p = src /\ q = trg /\ v = 0 /\ exists c, In c syms /\ reads_code a' b c).
Proof.
  intros src trg. induction syms as [|c syms IH]; intros t a W I Hs Ht Hz; cbn [link_all].
  { exists t, a. split; [reflexivity|]. split; [exact W|]. split; [exact I|]. split; [apply extends_refl|]. split; [reflexivity|]. do 3 (split; [reflexivity|]). split; [intros c []|].
    intros p b q v. split; [auto|]. intros [H|(_ & _ & _ & c & [] & _)]; exact H. }
  assert (P := pair_step c a I). destruct (pair_code (c, c) a) as [tag a1]. destruct P as (I1 & X1 & E1 & D1).
  destruct (linkStates_spec src trg tag 0 t W Hs Ht) as (t1 & -> & W1 & N1 & In1 & F1 & A1). cbn [obind].
  assert (A1' : forall p b q v, has_arc t1 p b q v <-> has_arc t p b q v \/ (p = src /\ b = tag /\ q = trg /\ v = 0)).
  { intros p b q v. destruct A1 as [[-> (w' & Hw)]|[_ A1]]; [|apply A1]. split; [auto|]. intros [H|(-> & -> & -> & ->)]; [exact H|]. now rewrite (Hz _ _ Hw) in Hw. }
  destruct (IH t1 a1 W1 I1 ltac:(lia) ltac:(lia)) as (t' & a' & E & W' & I' & X' & E' & N' & In' & F' & B' & A').
  { intros b v H. apply A1' in H as [H|(_ & _ & _ & ->)]; [eauto|reflexivity]. }
  exists t', a'. split; [exact E|]. split; [exact W'|]. split; [exact I'|]. split; [eapply extends_trans; eauto|]. split; [unfold same_tags in *; congruence|].
  split; [congruence|]. split; [congruence|]. split; [congruence|].
  split; [intros c' [<-|Hc]; [exists tag; exact (decode_extends _ _ _ _ X' D1)|auto]|]. intros p b q v. rewrite A', A1'. split.
  - intros [[H|(-> & -> & -> & ->)]|(-> & -> & -> & c' & H1 & H2)]; [auto| |].
    + right. do 3 (split; [reflexivity|]). exists c. split; [now left|]. exact (decode_extends _ _ _ _ X' D1).
    + right. do 3 (split; [reflexivity|]). exists c'. split; [now right|exact H2].
  - intros [H|(-> & -> & -> & c' & [<-|H1] & H2)]; [auto| |].
    + left. right. split; [reflexivity|]. split; [|auto]. exact (decode_unique a' b tag (c, c) (proj1 I') H2 (decode_extends _ _ _ _ X' D1)).
    + right. do 3 (split; [reflexivity|]). eauto.
Qed.

(** * A new state at the end *)
Definition comes (a : alphabet) (t : transducer) (s : nat) (z : list symbol) : Prop :=
  exists tr, trace (as_symbols a) t 0 tr s /\ sym_in tr = z.
Lemma sym_in_app : forall tr tr', sym_in (tr ++ tr') = sym_in tr ++ sym_in tr'.
Proof. intros tr tr'. unfold sym_in. now rewrite map_app, filter_app. Qed.
Lemma trace_end : forall {X} (D : Z -> X -> Prop) t p tr q, trace D t p tr q -> forall tr' r, trace D t q tr' r -> trace D t p (tr ++ tr') r.
Proof. intros X D t p tr q H. induction H; intros tr' r' H'; [exact H'|]. cbn [app]. econstructor; eauto. Qed.
Lemma comes_new : forall a t t' s n (L M : Z -> Prop), wf t -> n = nstates t -> (s < n)%nat -> (0 < n)%nat ->
  (forall p b q v, has_arc t' p b q v <-> has_arc t p b q v \/ (q = n /\ v = 0 /\ (p = s /\ L b \/ p = n /\ M b))) ->
  forall z, comes a t' n z <-> exists z0 x y u, comes a t s z0 /\ (exists b, L b /\ as_symbols a b (x, y))
    /\ Forall (fun e => exists b y, M b /\ as_symbols a b (e, y)) u /\ z = z0 ++ vis x ++ filter (fun e => negb (is_eps e)) u.
Proof.
  intros a t t' s n L M W En Hs Hn HA z.
  assert (K : forall p tr q, trace (as_symbols a) t' p tr q ->
      ((p < n)%nat /\ (q < n)%nat /\ trace (as_symbols a) t p tr q)
      \/ ((p < n)%nat /\ q = n /\ exists tr1 x y w tr2, tr = tr1 ++ ((x, y), w) :: tr2 /\ trace (as_symbols a) t p tr1 s /\ (exists b, L b /\ as_symbols a b (x, y))
          /\ Forall (fun e => exists b y, M b /\ as_symbols a b (e, y)) (map (fun e => fst (fst e)) tr2))
      \/ (p = n /\ q = n /\ Forall (fun e => exists b y, M b /\ as_symbols a b (e, y)) (map (fun e => fst (fst e)) tr))
      \/ (n < p)%nat).
  { intros p tr q H. induction H as [p|p b [x y] w q tr r Ha Hx _ IH].
    - destruct (Nat.lt_trichotomy p n) as [C|[-> |C]]; [left; split; [exact C|split; [exact C|constructor]]| |auto]. right. right. left. split; [reflexivity|]. split; [reflexivity|constructor].
    - apply HA in Ha as [Ha|(-> & -> & [[-> Hl]|[-> Hm]])].
      + pose proof (has_arc_lt _ _ _ _ _ Ha). pose proof (wf_arcs _ W _ _ _ _ Ha). destruct IH as [(B1 & B2 & B3)|[(B1 & B2 & tr1 & x1 & y1 & w1 & tr2 & -> & B4 & B5)|[(B1 & _)|B1]]]; try lia.
        * left. split; [lia|]. split; [lia|]. econstructor; eauto.
        * right. left. split; [lia|]. split; [exact B2|]. exists (((x, y), w) :: tr1), x1, y1, w1, tr2. split; [reflexivity|]. split; [econstructor; eauto|exact B5].
      + destruct IH as [(B1 & _)|[(B1 & _)|[(_ & -> & B)|B1]]]; try lia. right. left. split; [exact Hs|]. split; [reflexivity|].
        exists [], x, y, 0, tr. split; [reflexivity|]. split; [constructor|]. split; [eauto|exact B].
      + destruct IH as [(B1 & _)|[(B1 & _)|[(_ & -> & B)|B1]]]; try lia. right. right. left. split; [reflexivity|]. split; [reflexivity|]. cbn [map fst]. constructor; [eauto|exact B]. }
  split.
  - intros (tr & H & <-). destruct (K _ _ _ H) as [(_ & B & _)|[(_ & _ & tr1 & x & y & w & tr2 & -> & B1 & B2 & B3)|[(B & _)|B]]]; try lia.
    exists (sym_in tr1), x, y, (map (fun e => fst (fst e)) tr2). split; [exists tr1; auto|]. split; [exact B2|]. split; [exact B3|].
    rewrite sym_in_app, sym_in_cons. reflexivity.
  - intros (z0 & x & y & u & (tr1 & H1 & <-) & (b & Hb & Hx) & Hu & ->).
    assert (U : exists tr2, trace (as_symbols a) t' n tr2 n /\ sym_in tr2 = filter (fun e => negb (is_eps e)) u).
    { induction Hu as [|e u (b' & y' & Hm & He) _ (tr2 & I1 & I2)]; [exists []; split; [constructor|reflexivity]|].
      exists (((e, y'), 0) :: tr2). split; [econstructor; [apply HA; right; split; [reflexivity|split; [reflexivity|right; split; [reflexivity|exact Hm]]]|exact He|exact I1]|].
      rewrite sym_in_cons, I2. unfold vis. cbn [fst filter]. now destruct (is_eps e). }
    destruct U as (tr2 & U1 & U2). exists (tr1 ++ ((x, y), 0) :: tr2). split.
    + apply (trace_end _ _ _ _ s).
      * clear - H1 HA. induction H1; [constructor|]. econstructor; [apply HA; left|..]; eauto.
      * econstructor; [apply HA; right; split; [reflexivity|split; [reflexivity|left; split; [reflexivity|exact Hb]]]|exact Hx|exact U1].
    + rewrite sym_in_app, sym_in_cons, U2. reflexivity.
Qed.

(** * Words that fit *)
Definition known_syms (a : alphabet) (z : list symbol) : Prop := forall n, In (STag n) z -> tag_known a n.
Section Fits.
  Variables (letters : list Z) (exclude : list ustr).
  Lemma fits_app : forall is js z, fits letters exclude (is ++ js) z <-> exists z0 z1, fits letters exclude is z0 /\ fits letters exclude js z1 /\ z = z0 ++ z1.
  Proof.
    intros is js. induction is as [|i is IH]; intros z; cbn [app].
    - split; [intros H; exists [], z; split; [constructor|auto]|]. intros (z0 & z1 & H0 & H1 & ->). inversion H0; subst. exact H1.
    - split.
      + intros H. inversion H; subst; match goal with X : fits _ _ (is ++ js) _ |- _ => apply IH in X as (z0 & z1 & F0 & F1 & ->) end;
          rewrite ?app_assoc, ?app_comm_cons; (eexists; exists z1; split; [|split; [exact F1|reflexivity]]; constructor; assumption).
      + intros (z0 & z1 & H0 & H1 & ->). inversion H0; subst; rewrite <- ?app_assoc; cbn [app]; constructor; try assumption; apply IH; eauto.
  Qed.

  (** One item, by the codes of its symbols: one of the first, then any of the others *)
  Definition said (a : alphabet) (cs ms : list Z) (z : list symbol) : Prop :=
    exists x u, (exists c, In c cs /\ as_symbol a c x) /\ Forall (fun e => exists c, In c ms /\ as_symbol a c e) u /\ z = vis x ++ u.
  Record built (a : alphabet) (items : list pitem) (t : transducer) (s : nat) : Prop := {
    b_wf : wf t; b_inv : alph_inv0 a; b_states : nstates t = S s; b_initial : initial t = 0%nat; b_finals : finals t = [];
    b_arcs : forall p b q v, has_arc t p b q v -> (p <= q)%nat /\ exists c x, reads_code a b c /\ as_symbol a c x /\ (p = q -> x <> eps_sym);
    b_words : forall z, known_syms a z -> (comes a t s z <-> fits letters exclude items z)
  }.
  Lemma built_step : forall a a' items i t t' s cs ms, built a items t s -> alph_inv0 a' -> extends a a' -> same_tags a a' ->
    wf t' -> nstates t' = S (S s) -> initial t' = initial t -> finals t' = finals t ->
    (forall p b q v, has_arc t' p b q v <-> has_arc t p b q v
       \/ (q = S s /\ v = 0 /\ (p = s /\ (exists c, In c cs /\ reads_code a' b c) \/ p = S s /\ exists c, In c ms /\ reads_code a' b c))) ->
    (forall c, In c cs \/ In c ms -> exists b, reads_code a' b c) ->
    (forall c, In c cs \/ In c ms -> exists x, as_symbol a c x) -> ~ In 0 ms ->
    (forall z, known_syms a z -> (said a cs ms z <-> fits letters exclude [i] z)) ->
    built a' (items ++ [i]) t' (S s).
  Proof.
    intros a a' items i t t' s cs ms [W I N In0 F A Wd] I' X E W' N' In' F' A' B V Z L.
    assert (SI : symbols_in t a) by (intros p b q v H; destruct (A _ _ _ _ H) as (_ & c & x & R & S1 & _); exists (x, x); eapply reads_code_symbols; eauto).
    constructor; auto; try congruence.
    - intros p b q v H. apply A' in H as [H|(-> & -> & [[-> (c & Hc & R)]|[-> (c & Hc & R)]])].
      + destruct (A _ _ _ _ H) as (A1 & c & x & R & S1 & Hne). split; [exact A1|]. exists c, x. split; [exact (decode_extends _ _ _ _ X R)|]. split; [exact (same_symbol _ _ _ _ E S1)|exact Hne].
      + split; [lia|]. destruct (V c (or_introl Hc)) as (x & Hx). exists c, x. split; [exact R|]. split; [exact (same_symbol _ _ _ _ E Hx)|lia].
      + split; [lia|]. destruct (V c (or_intror Hc)) as (x & Hx). exists c, x. split; [exact R|]. split; [exact (same_symbol _ _ _ _ E Hx)|].
        intros _ ->. destruct Hx as [_ Hx]. subst c. exact (Z Hc).
    - intros z Kz. assert (Kz' : known_syms a z) by (intros n Hn; unfold tag_known; rewrite E; now apply Kz).
      rewrite (comes_new a' t t' s (S s) _ _ W (eq_sym N) ltac:(lia) ltac:(lia) A'), fits_app.
      assert (C : forall z0, comes a' t s z0 <-> comes a t s z0).
      { intros z0. unfold comes. split; intros (tr & Ht & H0); exists tr; split; auto;
          apply (ToolsProps.trace_larger (as_symbols a) (as_symbols a') (fun b x => as_symbols_extends a a' b x X) (as_symbols_fun a') t SI); exact Ht. }
      assert (D : forall c b x y, reads_code a' b c -> as_symbols a' b (x, y) -> as_symbol a c x).
      { intros c b x y R (l & r & Dl & S1 & _). rewrite R in Dl. injection Dl as <- <-. apply (same_symbol a' a); [now symmetry|exact S1]. }
      split.
      + intros (z0 & x & y & u & H0 & (b & (c & Hc & R) & Hx) & Hu & ->). exists z0, (vis x ++ filter (fun e => negb (is_eps e)) u).
        assert (K0 : known_syms a z0 /\ known_syms a (vis x ++ filter (fun e => negb (is_eps e)) u)) by (split; intros n Hn; apply Kz'; apply in_or_app; auto).
        split; [apply (Wd z0 (proj1 K0)); now apply C|]. split; [|reflexivity]. apply (L _ (proj2 K0)).
        assert (Hu' : Forall (fun e => exists c, In c ms /\ as_symbol a c e) u).
        { eapply Forall_impl; [|exact Hu]. intros e (b' & y' & (c' & H1 & H2) & H3). exists c'. split; [exact H1|]. eapply D; eauto. }
        exists x, u. split; [exists c; split; [exact Hc|eapply D; eauto]|]. split; [exact Hu'|]. f_equal.
        clear - Hu' Z. induction Hu' as [|e u (c & Hc & He) _ IH]; [reflexivity|]. cbn [filter]. rewrite IH.
        assert (is_eps e = false) as ->; [|reflexivity]. destruct e as [n|k]; [reflexivity|]. destruct He as [_ <-]. destruct c; try reflexivity. contradiction.
      + intros (z0 & z1 & H0 & H1 & ->). assert (K0 : known_syms a z0 /\ known_syms a z1) by (split; intros n Hn; apply Kz'; apply in_or_app; auto).
        apply (L _ (proj2 K0)) in H1 as (x & u & (c & Hc & Hx) & Hu & ->). exists z0, x, x, u. split; [apply C; now apply (Wd z0 (proj1 K0))|].
        assert (G : forall c e, In c cs \/ In c ms -> as_symbol a c e -> exists b, reads_code a' b c /\ as_symbols a' b (e, e)).
        { intros c0 e H He. destruct (B _ H) as (b & R). exists b. split; [exact R|]. eapply reads_code_symbols; [exact R|]. exact (same_symbol _ _ _ _ E He). }
        split; [destruct (G c x (or_introl Hc) Hx) as (b & R & Hb); exists b; split; [exists c; auto|exact Hb]|]. split.
        * eapply Forall_impl; [|exact Hu]. intros e (c' & Hc' & He). destruct (G c' e (or_intror Hc') He) as (b & R & Hb). exists b, e. split; [exists c'; auto|exact Hb].
        * do 2 f_equal. clear - Hu Z. induction Hu as [|e u (c & Hc & He) _ IH]; [reflexivity|]. cbn [filter]. rewrite <- IH.
          assert (is_eps e = false) as ->; [|reflexivity]. destruct e as [n|k]; [reflexivity|]. destruct He as [_ <-]. destruct c; try reflexivity. contradiction.
  Qed.

  Lemma new_spec : forall tag s t, wf t -> (s < nstates t)%nat -> exists t', insertNewSingleTransduction tag s 0 t = (nstates t, t') /\ wf t'
    /\ nstates t' = S (nstates t) /\ initial t' = initial t /\ finals t' = finals t
    /\ forall p b q v, has_arc t' p b q v <-> has_arc t p b q v \/ (q = nstates t /\ p = s /\ b = tag /\ v = 0).
  Proof.
    intros tag s t W Hs. destruct (RegexpProofs.insertNew_spec tag s 0 t W Hs) as (t' & E & G & N & A & _). exists t'. split; [exact E|].
    destruct G. auto.
  Qed.
  Lemma built_lt : forall a items t s, built a items t s -> (s < nstates t)%nat.
  Proof. intros a items t s B. rewrite (b_states _ _ _ _ B). lia. Qed.
  Lemma no_arc_new : forall t p b q v, wf t -> (nstates t <= p \/ nstates t <= q)%nat -> ~ has_arc t p b q v.
  Proof. intros t p b q v W H Ha. pose proof (has_arc_lt _ _ _ _ _ Ha). pose proof (wf_arcs _ W _ _ _ _ Ha). lia. Qed.

  Lemma star_built : forall a items i t s syms, built a items t s -> (forall c, In c syms -> exists x, as_symbol a c x) -> ~ In 0 syms ->
    (forall z, known_syms a z -> (said a [0] syms z <-> fits letters exclude [i] z)) ->
    exists t' a', star syms s t a = Ok (S s, (t', a')) /\ built a' (items ++ [i]) t' (S s) /\ extends a a' /\ same_tags a a'.
  Proof.
    intros a items i t s syms B V Z L. pose proof (b_states _ _ _ _ B) as N. pose proof (b_wf _ _ _ _ B) as W. unfold star.
    destruct (new_spec 0 s t W ltac:(lia)) as (t1 & -> & W1 & N1 & In1 & F1 & A1).
    destruct (link_all_spec (nstates t) (nstates t) syms t1 a W1 (b_inv _ _ _ _ B) ltac:(lia) ltac:(lia)) as (t' & a' & -> & W' & I' & X & E & N' & In' & F' & K & A').
    { intros b v H. apply A1 in H as [H|(_ & H & _)]; [exfalso; revert H; apply no_arc_new; [exact W|lia]|lia]. }
    cbn [obind]. rewrite N. exists t', a'. split; [reflexivity|]. split; [|auto].
    assert (D0 : reads_code a' 0 0).
    { unfold reads_code, decode. cbn [Z.ltb Z.compare]. change (Z.to_nat 0) with 0%nat. now rewrite (proj2 I'). }
    apply (built_step a a' items i t t' s [0] syms B I' X E W'); try congruence.
    - intros p b q v. rewrite A', A1, N. split.
      + intros [[H|(-> & -> & -> & ->)]|(-> & -> & -> & H)]; [auto|right|right; auto]. split; [reflexivity|]. split; [reflexivity|]. left. split; [reflexivity|]. exists 0. split; [now left|exact D0].
      + intros [H|(-> & -> & [[-> (c & [<-|[]] & R)]|[-> H]])]; [auto| |auto]. left. right. split; [reflexivity|]. split; [reflexivity|]. split; [|reflexivity].
        exact (decode_unique a' b 0 (0, 0) (proj1 I') R D0).
    - intros c [[<-|[]]|Hc]; [exists 0; exact D0|auto].
    - intros c [[<-|[]]|Hc]; [exists (SChar 0); split; [lia|reflexivity]|auto].
    - exact L.
  Qed.
  Lemma one_of_built : forall a items i t s syms, built a items t s -> (forall c, In c syms -> exists x, as_symbol a c x) -> syms <> [] ->
    (forall z, known_syms a z -> (said a syms [] z <-> fits letters exclude [i] z)) ->
    exists t' a', one_of syms s t a = Ok (S s, (t', a')) /\ built a' (items ++ [i]) t' (S s) /\ extends a a' /\ same_tags a a'.
  Proof.
    intros a items i t s syms B V Z L. pose proof (b_states _ _ _ _ B) as N. pose proof (b_wf _ _ _ _ B) as W. unfold one_of.
    destruct syms as [|c0 syms]; [contradiction|]. assert (P := pair_step c0 a (b_inv _ _ _ _ B)). destruct (pair_code (c0, c0) a) as [tag a1]. destruct P as (I1 & X1 & E1 & D1).
    destruct (new_spec tag s t W ltac:(lia)) as (t1 & -> & W1 & N1 & In1 & F1 & A1).
    destruct (link_all_spec s (nstates t) syms t1 a1 W1 I1 ltac:(lia) ltac:(lia)) as (t' & a' & -> & W' & I' & X & E & N' & In' & F' & K & A').
    { intros b v H. apply A1 in H as [H|(_ & _ & _ & H)]; [exfalso; revert H; apply no_arc_new; [exact W|lia]|exact H]. }
    cbn [obind]. rewrite N. exists t', a'. split; [reflexivity|].
    assert (X2 : extends a a') by (eapply extends_trans; eauto). assert (E2 : same_tags a a') by (unfold same_tags in *; congruence). split; [|auto].
    assert (D0 : reads_code a' tag c0) by exact (decode_extends _ _ _ _ X D1).
    apply (built_step a a' items i t t' s (c0 :: syms) [] B I' X2 E2 W'); try congruence.
    - intros p b q v. rewrite A', A1, N. split.
      + intros [[H|(-> & -> & -> & ->)]|(-> & -> & -> & c & Hc & R)]; [auto|right|right]; (split; [reflexivity|]; split; [reflexivity|]; left; split; [reflexivity|]).
        * exists c0. split; [now left|exact D0].
        * exists c. split; [now right|exact R].
      + intros [H|(-> & -> & [[-> (c & [<-|Hc] & R)]|[-> (c & [] & _)]])]; [auto| |]; [left; right|right].
        * split; [reflexivity|]. split; [reflexivity|]. split; [|reflexivity]. exact (decode_unique a' b tag _ (proj1 I') R D0).
        * do 3 (split; [reflexivity|]). eauto.
    - intros c [[<-|Hc]|[]]; [exists tag; exact D0|auto].
    - intros c [Hc|[]]; auto.
    - intros [].
    - exact L.
  Qed.
End Fits.

(** * Lists of tags *)
Lemma guarded_free : forall sep n, ~ In sep n -> ~ In 92 n -> guarded sep n.
Proof.
  intros sep. induction n as [|c n IH]; intros H1 H2; [constructor|]. apply g_char; [intros ->; apply H2; now left|intros ->; apply H1; now left|].
  apply IH; intros H; [apply H1|apply H2]; now right.
Qed.
Lemma split_pieces : forall sep ps, sep <> 92 -> ps <> [] -> Forall (guarded sep) ps -> split_escaped (between [sep] ps) sep = filter non_empty ps.
Proof.
  intros sep ps Hs Hn G. destruct (C51_split_escaped (between [sep] ps) sep) as (qs & -> & L & B).
  rewrite (cut_escaped_unique sep qs ps Hs L); [reflexivity| |exact B].
  clear - Hn G. induction G as [|p ps Hp G IH]; [contradiction|]. destruct ps as [|q ps]; [now left|]. split; [exact Hp|]. apply IH. discriminate.
Qed.
Lemma names_guarded : forall sep ns, names_ok sep ns -> Forall (guarded sep) ns /\ filter non_empty ns = ns.
Proof.
  intros sep ns [_ H]. induction H as [|n ns (H1 & H2 & _ & H3) _ [IH1 IH2]]; [split; [constructor|reflexivity]|].
  split; [constructor; [now apply guarded_free|exact IH1]|]. cbn [filter]. rewrite IH2. destruct n; [contradiction|reflexivity].
Qed.
Lemma split_led : forall sep ns, sep <> 92 -> names_ok sep ns -> split_escaped (separated sep ns) sep = ns.
Proof.
  intros sep ns Hs N. destruct (names_guarded sep ns N) as [G F]. change (separated sep ns) with ([] ++ concat (map (fun p => [sep] ++ p) ns)).
  rewrite <- between_concat, split_pieces; [exact F|exact Hs|discriminate|]. constructor; [constructor|exact G].
Qed.
Lemma split_unled : forall sep n ns, sep <> 92 -> names_ok sep (n :: ns) -> split_escaped (n ++ separated sep ns) sep = n :: ns.
Proof.
  intros sep n ns Hs N. destruct (names_guarded sep _ N) as [G F]. change (separated sep ns) with (concat (map (fun p => [sep] ++ p) ns)).
  rewrite <- between_concat, split_pieces; [exact F|exact Hs|discriminate|exact G].
Qed.
Lemma sub_middle : forall u v w : list Z, sub (u ++ v ++ w) (length u) (length v) = v.
Proof. intros u v w. unfold sub. rewrite skipn_app, skipn_all, Nat.sub_diag. cbn [skipn app]. now rewrite firstn_app, firstn_all, Nat.sub_diag, firstn_O, app_nil_r. Qed.

Lemma split_tag_in : forall a h u v sep ns, alph_inv a -> split_escaped v sep = ns -> forall c,
  In c (split_tag ((h :: u) ++ v ++ [62]) a (length u) sep) <-> exists n, In n ns /\ as_symbol a c (STag (in_brackets n)).
Proof.
  intros a h u v sep ns I E c. unfold split_tag. replace (length u + 1)%nat with (length (h :: u)) by (cbn [length]; lia).
  replace (length ((h :: u) ++ v ++ [62%Z]) - length u - 2)%nat with (length v) by (rewrite !app_length; cbn [length]; lia).
    rewrite sub_middle, E. clear E.
    assert (G : forall l, iset l -> In c (fold_left (fun ret tg => let tag := 60 :: tg ++ [62] in if isSymbolDefined tag a then iset_insert (symbol_code tag a) ret else ret) ns l)
        <-> In c l \/ exists n, In n ns /\ as_symbol a c (STag (in_brackets n))).
    { induction ns as [|n ns IH]; intros l Hl; cbn [fold_left]; [split; [auto|intros [H|(n & [] & _)]; exact H]|].
      cbn zeta. destruct (isSymbolDefined (60 :: n ++ [62]) a) eqn:D.
      - rewrite IH by now apply iset_insert_iset. rewrite (iset_insert_in _ _ _ Hl). apply (defined_iff a _ I) in D. split.
        + intros [[-> |H]|(m & H1 & H2)]; [right; exists n; split; [now left|now apply tag_symbol]|auto|right; exists m; split; [now right|exact H2]].
        + intros [H|(m & [<-|H1] & H2)]; [auto|left; left; symmetry; now apply symbol_tag|right; eauto].
      - rewrite IH by exact Hl. split; [intros [H|(m & H1 & H2)]; [auto|right; exists m; split; [now right|exact H2]]|].
        intros [H|(m & [<-|H1] & H2)]; [auto| |right; eauto]. apply symbol_tag in H2 as [H2 _]; [|exact I]. apply (defined_iff a _ I) in H2. unfold in_brackets in H2. congruence. }
    rewrite G by constructor. split; [intros [[]|H]; exact H|auto].
Qed.

(** * One symbol of the pattern *)
Lemma said_star : forall a syms z, said a [0] syms z <-> Forall (fun e => exists c, In c syms /\ as_symbol a c e) z.
Proof.
  intros a syms z. split.
  - intros (x & u & (c & [<-|[]] & Hx) & Hu & ->). destruct x as [n|k]; [destruct Hx; lia|]. destruct Hx as [_ <-]. exact Hu.
  - intros H. exists (SChar 0), z. split; [exists 0; split; [now left|split; [lia|reflexivity]]|]. auto.
Qed.
Lemma said_one : forall a syms z, said a syms [] z <-> exists c x, In c syms /\ as_symbol a c x /\ z = vis x.
Proof.
  intros a syms z. split.
  - intros (x & u & (c & Hc & Hx) & Hu & ->). destruct u as [|e u]; [|inversion Hu as [|? ? (k & [] & _)]]. exists c, x. rewrite app_nil_r. auto.
  - intros (c & x & Hc & Hx & ->). exists x, []. rewrite app_nil_r. split; [eauto|]. split; [constructor|reflexivity].
Qed.
Definition tok (i : pitem) : ustr :=
  match i with
  | PLetters => [42]
  | PTags => in_brackets [42]
  | PTagsOf ns => in_brackets (42 :: separated 124 ns)
  | PTagsBut ns => in_brackets (42 :: separated 45 ns)
  | POneOf ns => in_brackets (separated 124 ns)
  | PSymbol (STag m) => m
  | PSymbol (SChar c) => [c]
  end.
Lemma Forall_ext : forall {X} (P Q : X -> Prop) l, (forall x, In x l -> (P x <-> Q x)) -> (Forall P l <-> Forall Q l).
Proof. intros X P Q l H. rewrite !Forall_forall. split; intros G x Hx; apply (H x Hx); auto. Qed.

Lemma tok_code : forall a n, (match in_brackets n with [c] => c | _ => symbol_code (in_brackets n) a end) = symbol_code (in_brackets n) a.
Proof. intros a n. unfold in_brackets. destruct n; reflexivity. Qed.
Lemma starts_spec : forall s p, startswith s p = true <-> exists r, s = p ++ r.
Proof. intros s p. exact (proj1 (C51_affixes s p)). Qed.

Section Items.
  Variables (letters tags : list Z) (exclude : list ustr).
  Hypothesis Hl : forall c, In c letters -> 0 < c.
  Definition tags_listed (a : alphabet) : Prop := forall c, In c tags <-> exists m, as_symbol a c (STag m) /\ ~ In m exclude.

  Lemma fits_star : forall i (P : symbol -> Prop) z,
    (forall u is v, Forall P u -> fits letters exclude is v -> fits letters exclude (i :: is) (u ++ v)) ->
    (forall z, fits letters exclude (i :: []) z -> exists u v, z = u ++ v /\ Forall P u /\ fits letters exclude [] v) ->
    (fits letters exclude [i] z <-> Forall P z).
  Proof.
    intros i P z H1 H2. split.
    - intros H. destruct (H2 _ H) as (u & v & -> & Hu & Hv). inversion Hv; subst. now rewrite app_nil_r.
    - intros H. rewrite <- (app_nil_r z). apply H1; [exact H|constructor].
  Qed.
  Ltac inv_star := let z := fresh in let H := fresh in intros z H; inversion H; subst; eexists; eexists; split; [reflexivity|split; assumption].

  Lemma item_built : forall a items i t s, built letters exclude a items t s -> tags_listed a -> tag_known a s_any_tag -> item_ok a i ->
    exists t' a', pattern_symbol letters tags (tok i) s t a = Ok (S s, (t', a')) /\ built letters exclude a' (items ++ [i]) t' (S s) /\ extends a a' /\ same_tags a a'.
  Proof.
    intros a items i t s B T K O. pose proof (proj1 (b_inv _ _ _ _ _ _ B)) as I.
    assert (Ka := tag_symbol a _ I K). assert (Kn : symbol_code s_any_tag a < 0) by apply Ka.
    unfold pattern_symbol. destruct i as [| |ns|ns|ns|x]; cbn [tok item_ok] in *.
    - replace (42 =? any_char) with true by reflexivity. apply star_built; auto.
      + intros c Hc. exists (SChar c). specialize (Hl c Hc). split; [lia|reflexivity].
      + intros H. specialize (Hl 0 H). lia.
      + intros z _. rewrite said_star. rewrite (fits_star PLetters (fun s => exists c, In c letters /\ s = SChar c)); [|intros; now constructor|inv_star].
        apply Forall_ext. intros e _. split; intros (c & H1 & H2); exists c; split; auto.
        * destruct e as [n|k]; [destruct H2; specialize (Hl c H1); lia|]. now destruct H2 as [_ <-].
        * subst e. specialize (Hl c H1). split; [lia|reflexivity].
    - rewrite (tok_code a [42]). change (in_brackets [42]) with s_any_tag. replace (symbol_code s_any_tag a =? any_char) with false by (symmetry; apply Z.eqb_neq; unfold any_char; lia).
      rewrite Z.eqb_refl. apply star_built; auto.
      + intros c Hc. apply T in Hc as (m & Hm & _). eauto.
      + intros H. apply T in H as (m & [Hm _] & _). lia.
      + intros z Kz. rewrite said_star. rewrite (fits_star PTags (fun s => exists m, ~ In m exclude /\ s = STag m)); [|intros; now constructor|inv_star].
        apply Forall_ext. intros e He. split.
        * intros (c & H1 & H2). apply T in H1 as (m & Hm & Hx). exists m. split; [exact Hx|]. exact (as_symbol_fun _ _ _ _ H2 Hm).
        * intros (m & Hx & ->). exists (symbol_code m a). assert (Hm := tag_symbol a m I (Kz m He)). split; [apply T; eauto|exact Hm].
    - destruct O as [N U]. rewrite tok_code, (unknown_code a _ I U). cbn [any_char]. replace (0 =? any_char) with false by reflexivity.
      replace (0 =? symbol_code s_any_tag a) with false by (symmetry; apply Z.eqb_neq; lia). rewrite Z.eqb_refl. cbn [andb].
      destruct ns as [|n ns]; [destruct N; contradiction|].
      assert (E : in_brackets (42 :: separated 124 (n :: ns)) = s_or_tags ++ (n ++ separated 124 ns) ++ [62]).
      { unfold in_brackets, separated, s_or_tags. cbn [map concat app]. rewrite <- !app_assoc. reflexivity. }
      rewrite E, (proj2 (starts_spec _ _)) by eauto.
      assert (M := split_tag_in a 60 [42; 124] (n ++ separated 124 ns) 124 (n :: ns) I (split_unled 124 n ns ltac:(discriminate) N)). cbn [length] in M.
      apply star_built; auto.
      + intros c Hc. apply M in Hc as (m & _ & Hm). eauto.
      + intros H. apply M in H as (m & _ & Hm & _). lia.
      + intros z Kz. rewrite said_star. rewrite (fits_star (PTagsOf (n :: ns)) (fun s => exists m, In m (n :: ns) /\ s = STag (in_brackets m))); [|intros; now constructor|inv_star].
        apply Forall_ext. intros e He. split.
        * intros (c & H1 & H2). apply M in H1 as (m & Hm & Hx). exists m. split; [exact Hm|]. exact (as_symbol_fun _ _ _ _ H2 Hx).
        * intros (m & Hx & ->). exists (symbol_code (in_brackets m) a). assert (Hm := tag_symbol a _ I (Kz _ He)). split; [apply M; eauto|exact Hm].
    - destruct O as [N U]. rewrite tok_code, (unknown_code a _ I U). replace (0 =? any_char) with false by reflexivity.
      replace (0 =? symbol_code s_any_tag a) with false by (symmetry; apply Z.eqb_neq; lia). rewrite Z.eqb_refl. cbn [andb].
      assert (E : in_brackets (42 :: separated 45 ns) = s_but_tags ++ separated 45 ns ++ [62]) by reflexivity.
      rewrite E, (proj2 (starts_spec _ s_but_tags)) by eauto.
      replace (startswith (s_but_tags ++ separated 45 ns ++ [62]) s_or_tags) with false.
      2:{ symmetry. destruct (startswith _ s_or_tags) eqn:X; [|reflexivity]. apply starts_spec in X as (r & X). destruct ns as [|n ns]; [destruct N; contradiction|]. discriminate X. }
      assert (M := split_tag_in a 60 [42] (separated 45 ns) 45 ns I (split_led 45 ns ltac:(discriminate) N)). cbn [length] in M.
      change ((60 :: [42]) ++ separated 45 ns ++ [62]) with (s_but_tags ++ separated 45 ns ++ [62]) in M.
      set (del := split_tag _ a 1 45) in *.
      assert (G : forall c, In c (filter (fun x => negb (existsb (Z.eqb x) del)) tags) <-> exists m, as_symbol a c (STag m) /\ ~ In m exclude /\ ~ In m (map in_brackets ns)).
      { intros c. unfold tags_listed in T. rewrite filter_In, T. assert (X : negb (existsb (Z.eqb c) del) = true <-> ~ In c del).
        { rewrite negb_true_iff, <- not_true_iff_false, existsb_exists. split; intros H X; apply H; [exists c; split; [exact X|apply Z.eqb_refl]|]. destruct X as (c' & X1 & X2). now replace c with c' by lia. }
        rewrite X, M. split.
        - intros ((m & Hm & Hx) & Hn). exists m. split; [exact Hm|]. split; [exact Hx|]. intros H. apply in_map_iff in H as (n & <- & H). apply Hn. eauto.
        - intros (m & Hm & Hx & Hn). split; [eauto|]. intros (n & H1 & H2). apply Hn. apply in_map_iff. exists n. split; [|exact H1]. assert (X1 := as_symbol_fun _ _ _ _ H2 Hm). now injection X1. }
      apply star_built; auto.
      + intros c Hc. apply G in Hc as (m & Hm & _). eauto.
      + intros H. apply G in H as (m & [Hm _] & _). lia.
      + intros z Kz. rewrite said_star. rewrite (fits_star (PTagsBut ns) (fun s => exists m, ~ In m exclude /\ ~ In m (map in_brackets ns) /\ s = STag m)); [|intros; now constructor|inv_star].
        apply Forall_ext. intros e He. split.
        * intros (c & H1 & H2). apply G in H1 as (m & Hm & Hx & Hn). exists m. split; [exact Hx|]. split; [exact Hn|]. exact (as_symbol_fun _ _ _ _ H2 Hm).
        * intros (m & Hx & Hn & ->). exists (symbol_code m a). assert (Hm := tag_symbol a m I (Kz m He)). split; [apply G; eauto|exact Hm].
    - destruct O as (N & U & k & Hk & Uk). rewrite tok_code, (unknown_code a _ I U). replace (0 =? any_char) with false by reflexivity.
      replace (0 =? symbol_code s_any_tag a) with false by (symmetry; apply Z.eqb_neq; lia). rewrite Z.eqb_refl. cbn [andb].
      destruct ns as [|n ns]; [destruct N; contradiction|].
      assert (E : in_brackets (separated 124 (n :: ns)) = s_one_tag ++ (n ++ separated 124 ns) ++ [62]).
      { unfold in_brackets, separated, s_one_tag. cbn [map concat app]. rewrite <- !app_assoc. reflexivity. }
      rewrite E. replace (startswith _ s_or_tags) with false by (symmetry; destruct (startswith _ s_or_tags) eqn:X; [apply starts_spec in X as (r & X); discriminate X|reflexivity]).
      replace (startswith _ s_but_tags) with false by (symmetry; destruct (startswith _ s_but_tags) eqn:X; [apply starts_spec in X as (r & X); discriminate X|reflexivity]).
      rewrite (proj2 (starts_spec _ s_one_tag)) by eauto.
      assert (M := split_tag_in a 60 [124] (n ++ separated 124 ns) 124 (n :: ns) I (split_unled 124 n ns ltac:(discriminate) N)). cbn [length] in M.
      change ((60 :: [124]) ++ (n ++ separated 124 ns) ++ [62]) with (s_one_tag ++ (n ++ separated 124 ns) ++ [62]) in M.
      apply one_of_built; auto.
      + intros c Hc. apply M in Hc as (m & _ & Hm). eauto.
      + intros X. assert (Y : In (symbol_code (in_brackets k) a) []); [|contradiction Y]. rewrite <- X. apply M. exists k. split; [exact Hk|now apply tag_symbol].
      + intros z Kz. rewrite said_one. split.
        * intros (c & x & H1 & H2 & ->). apply M in H1 as (m & Hm & Hx). rewrite (as_symbol_fun _ _ _ _ H2 Hx). cbn [vis is_eps]. constructor; [exact Hm|constructor].
        * intros H. inversion H as [| | | | |ns' m is v Hm Hv|]; subst. inversion Hv; subst. exists (symbol_code (in_brackets m) a), (STag (in_brackets m)).
          assert (Hx := tag_symbol a _ I (Kz (in_brackets m) (or_introl eq_refl))). split; [apply M; eauto|]. auto.
    - assert (G : forall it, as_symbol a it x -> it <> 0 -> exists t' a', (let '(tag, alpha) := pair_code (it, it) a in let '(state, t) := insertNewSingleTransduction tag s 0 t in Ok (state, (t, alpha))) = Ok (S s, (t', a'))
          /\ built letters exclude a' (items ++ [PSymbol x]) t' (S s) /\ extends a a' /\ same_tags a a').
      { intros it Hi Hz. destruct (one_of_built letters exclude a items (PSymbol x) t s [it] B) as (t' & a' & E & H).
        - intros c [<-|[]]. eauto.
        - discriminate.
        - intros z _. rewrite said_one. split.
          + intros (c & y & [<-|[]] & H2 & ->). rewrite (as_symbol_fun _ _ _ _ H2 Hi). unfold vis. replace (is_eps x) with false; [constructor; constructor|].
            destruct x as [n|k]; [reflexivity|]. destruct Hi as [_ <-]. destruct it; [contradiction|reflexivity|reflexivity].
          + intros H. inversion H as [| | | | | |s' is v Hv]; subst. inversion Hv; subst. exists it, x. split; [now left|]. split; [exact Hi|].
            unfold vis. replace (is_eps x) with false; [reflexivity|]. destruct x as [n|k]; [reflexivity|]. destruct Hi as [_ <-]. destruct it; [contradiction|reflexivity|reflexivity].
        - exists t', a'. split; [|exact H]. rewrite <- E. unfold one_of. destruct (pair_code (it, it) a) as [tag a1]. destruct (insertNewSingleTransduction tag s 0 t) as [trg t1]. reflexivity. }
      destruct x as [m|c].
      + destruct O as (n & -> & _ & Hm & Km). cbn [tok]. rewrite tok_code. assert (Hs := tag_symbol a _ I Km).
        replace (symbol_code (in_brackets n) a =? any_char) with false by (symmetry; apply Z.eqb_neq; unfold any_char; destruct Hs; lia).
        replace (symbol_code (in_brackets n) a =? symbol_code s_any_tag a) with false.
        2:{ symmetry. apply Z.eqb_neq. intros X. rewrite X in Hs. assert (Y := as_symbol_fun _ _ _ _ Hs Ka). apply Hm. change (in_brackets [42]) with s_any_tag. congruence. }
        replace (symbol_code (in_brackets n) a =? 0) with false by (symmetry; apply Z.eqb_neq; destruct Hs; lia). cbn [andb]. apply G; [exact Hs|destruct Hs; lia].
      + destruct O as (Hc & _ & Hn). cbn [tok]. replace (c =? any_char) with false by (symmetry; apply Z.eqb_neq; exact Hn). replace (c =? symbol_code s_any_tag a) with false by (symmetry; apply Z.eqb_neq; lia).
        replace (c =? 0) with false by (symmetry; apply Z.eqb_neq; lia). cbn [andb]. apply G; [split; [lia|reflexivity]|lia].
  Qed.
End Items.

(** * The whole pattern *)
Lemma item_ok_same : forall a b i, same_tags a b -> item_ok a i -> item_ok b i.
Proof. intros a b i E. unfold same_tags in E. destruct i as [| |ns|ns|ns|[m|c]]; cbn [item_ok]; unfold tag_known; rewrite ?E; auto. Qed.
Lemma listed_same : forall tags exclude a b, same_tags a b -> tags_listed tags exclude a -> tags_listed tags exclude b.
Proof.
  intros tags exclude a b E T c. unfold tags_listed in T. rewrite T. split; intros (m & H1 & H2); exists m; split; auto.
  - exact (same_symbol a b _ _ E H1).
  - exact (same_symbol b a _ _ (eq_sym E) H1).
Qed.
Lemma symbols_built : forall letters tags exclude, (forall c, In c letters -> 0 < c) -> forall items' a items t s,
  built letters exclude a items t s -> tags_listed tags exclude a -> tag_known a s_any_tag -> Forall (item_ok a) items' ->
  exists t' a' s', pattern_symbols letters tags (map tok items') s t a = Ok (s', (t', a')) /\ built letters exclude a' (items ++ items') t' s' /\ extends a a' /\ same_tags a a'.
Proof.
  intros letters tags exclude Hl. induction items' as [|i items' IH]; intros a items t s B T K O; cbn [map pattern_symbols].
  { exists t, a, s. rewrite app_nil_r. split; [reflexivity|]. split; [exact B|]. split; [apply extends_refl|reflexivity]. }
  inversion O as [|? ? O1 O2]; subst. destruct (item_built letters tags exclude Hl a items i t s B T K O1) as (t1 & a1 & -> & B1 & X1 & E1). cbn [obind].
  destruct (IH a1 (items ++ [i]) t1 (S s) B1) as (t' & a' & s' & E & B' & X' & E').
  - eapply listed_same; eauto.
  - unfold tag_known. now rewrite <- E1.
  - eapply Forall_impl; [|exact O2]. intros j. now apply item_ok_same.
  - exists t', a', s'. split; [exact E|]. rewrite <- app_assoc in B'. split; [exact B'|]. split; [eapply extends_trans; eauto|]. unfold same_tags in *. congruence.
Qed.
Lemma free_separated : forall sep ns, sep <> 62 -> names_ok sep ns -> ~ In 62 (separated sep ns).
Proof.
  intros sep ns Hs [_ N]. unfold separated. induction N as [|n ns (_ & _ & H & _) _ IH]; [intros []|]. cbn [map concat]. intros X. apply in_app_iff in X as [[X|X]|X]; auto.
Qed.
Lemma text_tokens : forall a items s, pattern_text items s -> Forall (item_ok a) items -> symbols_of s (map tok items).
Proof.
  intros a items s H. induction H as [|i s items r Hw _ IH]; intros O; cbn [map]; [constructor|]. inversion O as [|? ? O1 O2]; subst. specialize (IH O2).
  assert (T : forall n, ~ In 62 n -> symbols_of (in_brackets n ++ r) (in_brackets n :: map tok items)).
  { intros n Hn. unfold in_brackets. cbn [app]. rewrite <- app_assoc. now apply so_tag. }
  assert (F : forall c, 0 < c < 65536 /\ ~ (55296 <= c < 57344) /\ c <> 42 \/ c = 42 -> first_cp [c] r).
  { intros c Hc. left. exists c. split; [reflexivity|]. intros [Hlead _]. unfold is_lead in Hlead. 
    rewrite andb_true_iff in Hlead. lia. }
  destruct Hw; cbn [tok item_ok] in *.
  - apply (so_char [42]); auto; discriminate.
  - apply T. intros [X|[]]; discriminate.
  - apply T. intros [X|X]; [discriminate|]. revert X. apply free_separated; [discriminate|apply O1].
  - apply T. intros [X|X]; [discriminate|]. revert X. apply free_separated; [discriminate|apply O1].
  - apply T. apply free_separated; [discriminate|apply O1].
  - apply T. destruct O1 as (m & E & Hm & _). unfold in_brackets in E. injection E as E. apply app_inj_tail in E as [-> _]. exact Hm.
  - apply (so_char [c]); auto; congruence.
  - apply (so_esc [c]); auto.
Qed.
Lemma built_loops : forall letters exclude a items t s, built letters exclude a items t s -> no_empty_loops t a.
Proof.
  intros letters exclude a items t s B.
  assert (M : forall p tr q, trace (as_symbols a) t p tr q -> (p <= q)%nat /\ (p = q -> sym_in tr = [] -> tr = [])).
  { intros p tr q H. induction H as [p|p b x w q tr r Ha Hx _ [I1 I2]]; [auto|]. destruct (b_arcs _ _ _ _ _ _ B _ _ _ _ Ha) as (L & c & y & R & S1 & Hn).
    split; [lia|]. intros -> E. assert (q = r) by lia. subst q. rewrite sym_in_cons in E. apply app_eq_nil in E as [E _]. exfalso.
    assert (X := as_symbols_fun _ _ _ _ Hx (reads_code_symbols _ _ _ _ R S1)). subst x. cbn [fst] in E. unfold vis in E.
    destruct (is_eps y) eqn:Ey; [|discriminate]. destruct y as [n|[| |]]; try discriminate Ey. now apply Hn. }
  intros p tr H. exact (proj2 (M _ _ _ H) eq_refl).
Qed.
Lemma pattern_spec : forall letters tags exclude a items text, (forall c, In c letters -> 0 < c) -> alph_inv0 a -> tags_listed tags exclude a ->
  tag_known a s_any_tag -> Forall (item_ok a) items -> pattern_text items text ->
  exists other a', pattern_transducer letters tags text a = Ok (other, a') /\ wf other /\ alph_inv0 a' /\ extends a a' /\ same_tags a a' /\ symbols_in other a'
    /\ (~ tag_known a w_any_char -> ~ tag_known a w_any_tag -> plain other a') /\ no_empty_loops other a'
    /\ forall z, known_syms a z -> (known other a' z <-> fits letters exclude items z).
Proof.
  intros letters tags exclude a items text Hl I T K O Ht. unfold pattern_transducer.
  destruct (C50_symbols text 0 []) as (l & -> & Hsy); [discriminate|reflexivity|]. cbn [obind].
  rewrite (C50_unique _ _ _ Hsy (text_tokens a _ _ Ht O)).
  assert (B0 : built letters exclude a [] new_transducer 0).
  { constructor; auto.
    - apply new_transducer_wf.
    - intros p b q v H. exfalso. revert H. unfold has_arc, arcs_of. cbn. destruct p as [|[|p]]; intros [].
    - intros z _. split.
      + intros (tr & H & <-). inversion H; subst; [constructor|]. exfalso. match goal with X : has_arc _ _ _ _ _ |- _ => revert X; unfold has_arc, arcs_of; cbn; intros [] end.
      + intros H. inversion H; subst. exists []. split; [constructor|reflexivity]. }
  destruct (symbols_built letters tags exclude Hl items a [] new_transducer 0 B0 T K O) as (t & a' & s & -> & B & X & E). cbn [obind app] in *.
  exists (setFinal s 0 true t), a'. split; [reflexivity|].
  destruct B as [W I' N In0 F A Wd]. split; [apply RegexpProofs.setFinal_wf; [exact W|lia]|]. split; [exact I'|]. split; [exact X|]. split; [exact E|].
  assert (TR : forall p tr q, trace (as_symbols a') (setFinal s 0 true t) p tr q <-> trace (as_symbols a') t p tr q).
  { intros p tr q. split; intros H; (induction H; [constructor|econstructor; eauto]). }
  split; [|split; [|split]].
  - intros p b q v H. destruct (A _ _ _ _ H) as (_ & c & x & R & S1 & _). exists (x, x). eapply reads_code_symbols; eauto.
  - intros U1 U2 p b q v y H Hy. destruct (A _ _ _ _ H) as (_ & c & x & R & S1 & _). rewrite (as_symbols_fun _ _ _ _ Hy (reads_code_symbols _ _ _ _ R S1)). cbn [fst snd].
    assert (G : ~ wild x); [|auto]. unfold tag_known in *. rewrite E in U1, U2. intros [-> | ->]; apply (symbol_tag a' _ _ (proj1 I')) in S1 as [S1 _]; auto.
  - assert (B : built letters exclude a' items t s) by (constructor; auto). apply built_loops in B. intros p tr H. exact (B _ _ (proj1 (TR _ _ _) H)).
  - intros z Kz. rewrite <- (Wd z); [|intros n Hn; unfold tag_known; rewrite <- E; now apply Kz]. unfold known, srel, accepts_trace, comes. split.
    + intros (y & c & tr & f & (q & H1 & H2) & <- & _). exists tr. split; [|reflexivity]. apply TR in H1. cbn [setFinal initial] in H1. rewrite In0 in H1.
      unfold final_wt, setFinal in H2. cbn [finals] in H2. rewrite F in H2. destruct H2 as [H2|[]]. injection H2 as <- _. exact H1.
    + intros (tr & H & <-). exists (sym_out tr), (weight_of tr + 0), tr, 0. split; [exists s; split|auto].
      * apply TR. cbn [setFinal initial]. now rewrite In0.
      * unfold final_wt, setFinal. cbn [finals]. rewrite F. now left.
Qed.
