(** C70: joining, turning round and extending compiled dictionaries. *)
From Verif Require Import Base CompressionModel AlphabetModel AlphabetProofs TransducerModel TransducerSpec RelabelModel RelabelSpec RelabelProofs RelabelProps
  FileModel FileProofs LoadModel LoadProofs ToolsModel.
Notation "'STag' x" := (RelabelSpec.STag x) (at level 10, x at level 9).
Notation "'SChar' x" := (RelabelSpec.SChar x) (at level 10, x at level 9).

(** The words of a section, as symbols and as codes: pairs with the weights of their arcs, and
    the final weight. *)
Definition named_words (d : dict) (name : ustr) (tr : list ((symbol * symbol) * Z)) (f : Z) : Prop :=
  exists t, In (name, t) (d_sections d) /\ accepts_trace (as_symbols (d_alpha d)) t tr f.
Definition coded_words (d : dict) (name : ustr) (tr : list ((Z * Z) * Z)) (f : Z) : Prop :=
  exists t, In (name, t) (d_sections d) /\ accepts_trace (as_pair (d_alpha d)) t tr f.
Definition names (d : dict) : list ustr := map fst (d_sections d).
(** Sections have different names and use symbols of the alphabet. *)
Definition dict_ok (d : dict) : Prop :=
  alph_inv (d_alpha d) /\ NoDup (names d)
  /\ forall name t, In (name, t) (d_sections d) -> symbols_in t (d_alpha d) /\ wf t.

(** * Proofs *)
Lemma has_section_iff : forall name l, has_section name l = true <-> In name (map fst l).
Proof.
  intros name l. unfold has_section. rewrite existsb_exists, in_map_iff. split.
  - intros ([n t] & H & E). cbn [fst] in E. destruct (ustr_eq_dec name n) as [->|]; [|discriminate]. exists (n, t). auto.
  - intros ([n t] & <- & H). exists (n, t). split; [exact H|]. cbn [fst]. destruct (ustr_eq_dec n n) as [|K]; [reflexivity|now destruct K].
Qed.
Lemma set_names : forall {T} name (t : T) l n, In n (map fst (section_set name t l)) <-> n = name \/ In n (map fst l).
Proof.
  intros T name t l n. induction l as [|[n' u] l IH]; cbn [section_set map fst In]; [intuition|]. destruct (ustr_eq_dec name n') as [->|N]; cbn [map fst In]; [intuition congruence|]. rewrite IH. tauto.
Qed.
Lemma set_nodup : forall {T} name (t : T) l, NoDup (map fst l) -> NoDup (map fst (section_set name t l)).
Proof.
  intros T name t l. induction l as [|[n' u] l IH]; cbn [section_set map fst]; intros H; [constructor; [intros []|constructor]|]. inversion H as [|? ? Hn Hd]; subst. destruct (ustr_eq_dec name n') as [->|N]; cbn [map fst]; [now constructor|].
  constructor; [|now apply IH]. rewrite set_names. intros [E|K]; [congruence|contradiction].
Qed.
Lemma set_in : forall {T} name (t : T) l n u, NoDup (map fst l) -> (In (n, u) (section_set name t l) <-> (n = name /\ u = t) \/ (n <> name /\ In (n, u) l)).
Proof.
  intros T name t l n u. induction l as [|[n' u'] l IH]; cbn [section_set map fst In]; intros H.
  - split; [intros [E|[]]; injection E as -> ->; now left|]. intros [[-> ->]|[_ []]]; now left.
  - inversion H as [|? ? Hn Hd]; subst. destruct (ustr_eq_dec name n') as [->|N]; cbn [In].
    + split.
      * intros [E|K]; [injection E as -> ->; now left|]. right. split; [|now right]. intros ->. apply Hn. apply in_map_iff. exists (n', u). auto.
      * intros [[-> ->]|[K [E|K']]]; [now left|injection E as -> ->; congruence|now right].
    + rewrite (IH Hd). split.
      * intros [E|[K|K]]; [injection E as -> ->; right; split; [congruence|now left]|now left|right; split; [tauto|right; tauto]].
      * intros [K|[K [E|K']]]; [right; now left|left; exact E|right; right; tauto].
Qed.
Lemma fold_zset : forall l acc c, In c (fold_left (fun l c => zset_insert c l) l acc) <-> In c acc \/ In c l.
Proof. induction l as [|x l IH]; intros acc c; cbn [fold_left In]; [tauto|]. rewrite IH, FileProofs.zset_insert_in. intuition congruence. Qed.

(** Reading in a larger alphabet *)
Section Larger.
  Context {X : Type} (D D' : Z -> X -> Prop).
  Hypothesis up : forall c x, D c x -> D' c x.
  Hypothesis fn : forall c x y, D' c x -> D' c y -> x = y.
  Lemma trace_larger : forall t, (forall p c q w, has_arc t p c q w -> exists x, D c x) -> forall p tr q, trace D' t p tr q <-> trace D t p tr q.
  Proof.
    intros t K p tr q. split.
    - intros H. induction H as [p|p c x w q tr r Ha Hx _ IH]; [constructor|]. destruct (K _ _ _ _ Ha) as (y & Hy). rewrite (fn _ _ _ Hx (up _ _ Hy)). econstructor; eauto.
    - intros H. induction H as [p|p c x w q tr r Ha Hx _ IH]; [constructor|]. econstructor; eauto.
  Qed.
  Lemma accepts_larger : forall t, (forall p c q w, has_arc t p c q w -> exists x, D c x) -> forall tr f, accepts_trace D' t tr f <-> accepts_trace D t tr f.
  Proof. intros t K tr f. unfold accepts_trace. split; intros (q & H1 & H2); exists q; split; auto; now apply (trace_larger t K). Qed.
End Larger.
Lemma as_symbols_up : forall a b c x, (forall tag p, decode tag a = Ok p -> decode tag b = Ok p) -> (forall s n, getSymbol s a = Ok n -> getSymbol s b = Ok n) -> as_symbols a c x -> as_symbols b c x.
Proof.
  intros a b c [x y] H1 H2 (l & r & D & L & R). exists l, r. split; [now apply H1|].
  assert (G : forall s z, as_symbol a s z -> as_symbol b s z) by (intros s [n|k]; cbn; [intros [? ?]; split; auto|auto]). auto.
Qed.

Lemma append_ok : forall keep a2 todo m a, alph_inv a -> NoDup (map fst m) -> NoDup (map fst todo) ->
  (forall name t, In (name, t) m -> symbols_in t a /\ wf t) -> (forall name t, In (name, t) todo -> symbols_in t a2 /\ wf t) ->
  exists m' a', append_sections keep true a2 todo m a = Ok (m', a') /\ alph_inv a' /\ NoDup (map fst m')
    /\ (forall tag p, decode tag a = Ok p -> decode tag a' = Ok p) /\ (forall s n, getSymbol s a = Ok n -> getSymbol s a' = Ok n)
    /\ (forall name t, In (name, t) m' -> symbols_in t a' /\ wf t)
    /\ (forall name, In name (map fst m') <-> In name (map fst m) \/ In name (map fst todo))
    /\ forall name tr f, (exists t, In (name, t) m' /\ accepts_trace (as_symbols a') t tr f) <->
         if in_dec ustr_eq_dec name (map fst todo) then
           if keep && has_section name m then exists t, In (name, t) m /\ accepts_trace (as_symbols a) t tr f
           else exists t, In (name, t) todo /\ accepts_trace (as_symbols a2) t tr f
         else exists t, In (name, t) m /\ accepts_trace (as_symbols a) t tr f.
Proof.
  intros keep a2. induction todo as [|[n t] todo IH]; intros m a I Nm Nt Hm Ht; cbn [append_sections].
  - exists m, a. split; [reflexivity|]. do 5 (split; [auto|]). split; [intros name; cbn; tauto|]. intros name tr f. cbn. tauto.
  - cbn [map fst] in Nt. inversion Nt as [|? ? Hn Nt']; subst. destruct (has_section n m && keep) eqn:E.
    + apply andb_prop in E as [E ->]. destruct (IH m a I Nm Nt' Hm) as (m' & a' & E1 & I' & N' & D1 & D2 & S' & K1 & K2); [intros; apply (Ht name); now right|].
      exists m', a'. split; [exact E1|]. do 5 (split; [auto|]). split.
      * intros name. rewrite K1. cbn [map fst In]. apply has_section_iff in E. split; [tauto|]. intros [K|[<-|K]]; auto.
      * intros name tr f. rewrite K2. cbn [map fst]. destruct (ustr_eq_dec name n) as [->|Nn].
        -- destruct (in_dec ustr_eq_dec n (map fst todo)) as [K|_]; [contradiction|]. destruct (in_dec ustr_eq_dec n (n :: map fst todo)) as [_|K]; [|exfalso; apply K; now left]. rewrite E. cbn. tauto.
        -- destruct (in_dec ustr_eq_dec name (map fst todo)) as [K|K]; destruct (in_dec ustr_eq_dec name (n :: map fst todo)) as [K'|K']; try (exfalso; cbn in K'; intuition congruence); [|tauto].
           destruct (true && has_section name m); [tauto|]. split; intros (u & Hu & A); exists u; (split; [|exact A]); [now right|]. destruct Hu as [Hu|Hu]; [congruence|exact Hu].
    + destruct (Ht n t (or_introl eq_refl)) as [St Wt]. destruct (C26_pairs a2 a t I St) as (t' & a1 & Eu & _ & Wt' & I1 & X1 & X2 & _ & S1 & A1). rewrite Eu. cbn [obind].
      assert (L1 : forall u, symbols_in u a -> symbols_in u a1) by (intros u Su p c q w Ha; destruct (Su _ _ _ _ Ha) as (x & Hx); exists x; now apply (as_symbols_up a a1)).
      destruct (IH (section_set n t' m) a1 I1 (set_nodup _ _ _ Nm) Nt') as (m' & a' & E1 & I' & N' & D1 & D2 & S' & K1 & K2).
      { intros name u Hu. apply (set_in n t' m name u Nm) in Hu as [[-> ->]|[_ Hu]]; [split; auto|]. apply Hm in Hu as [Su Wu]. auto. }
      { intros name u Hu. apply (Ht name). now right. }
      exists m', a'. split; [exact E1|]. split; [exact I'|]. split; [exact N'|]. split; [auto|]. split; [auto|]. split; [exact S'|].
      split; [intros name; rewrite K1, set_names; cbn [map fst In]; intuition congruence|].
      intros name tr f. rewrite K2. cbn [map fst].
      assert (Ol : forall name, name <> n -> ((exists u, In (name, u) (section_set n t' m) /\ accepts_trace (as_symbols a1) u tr f) <-> exists u, In (name, u) m /\ accepts_trace (as_symbols a) u tr f)).
      { clear name. intros name Nn. split.
        - intros (u & Hu & A). apply (set_in n t' m name u Nm) in Hu as [[-> _]|[_ Hu]]; [congruence|]. exists u. split; [exact Hu|].
          apply (accepts_larger (as_symbols a) (as_symbols a1) (fun c x => as_symbols_up a a1 c x X1 X2) (as_symbols_fun a1)); [apply (Hm name u Hu)|exact A].
        - intros (u & Hu & A). exists u. split; [apply (set_in n t' m name u Nm); auto|].
          apply (accepts_larger (as_symbols a) (as_symbols a1) (fun c x => as_symbols_up a a1 c x X1 X2) (as_symbols_fun a1)); [apply (Hm name u Hu)|exact A]. }
      destruct (ustr_eq_dec name n) as [->|Nn].
      * destruct (in_dec ustr_eq_dec n (map fst todo)) as [K|_]; [contradiction|]. destruct (in_dec ustr_eq_dec n (n :: map fst todo)) as [_|K]; [|exfalso; apply K; now left].
        rewrite andb_comm in E. rewrite E. split.
        -- intros (u & Hu & A). apply (set_in n t' m n u Nm) in Hu as [[_ ->]|[Hu _]]; [|congruence]. exists t. split; [now left|]. now apply A1.
        -- intros (u & Hu & A). destruct Hu as [Hu|Hu]; [|exfalso; apply Hn; apply in_map_iff; exists (n, u); auto]. injection Hu as <-. exists t'. split; [apply (set_in n t' m n t' Nm); auto|]. now apply A1.
      * assert (Eh : has_section name (section_set n t' m) = has_section name m).
        { apply Bool.eq_true_iff_eq. rewrite !has_section_iff, set_names. intuition congruence. }
        rewrite Eh. destruct (in_dec ustr_eq_dec name (map fst todo)) as [K|K]; destruct (in_dec ustr_eq_dec name (n :: map fst todo)) as [K'|K']; try (exfalso; cbn in K'; intuition congruence); [|now apply Ol].
        destruct (keep && has_section name m); [now apply Ol|]. split; intros (u & Hu & A); exists u; (split; [|exact A]); [now right|]. destruct Hu as [Hu|Hu]; [congruence|exact Hu].
Qed.

(** Every section of the result has the words of one of the files: of the second if it is
    there, unless the first is to be kept and has it too. *)
Theorem C70_append : forall keep d1 d2, dict_ok d1 -> dict_ok d2 ->
  exists d, lt_append keep true d1 d2 = Ok d /\ dict_ok d
    /\ (forall name, In name (names d) <-> In name (names d1) \/ In name (names d2))
    /\ (forall name tr f, In name (names d2) -> (keep = true -> ~ In name (names d1)) -> (named_words d name tr f <-> named_words d2 name tr f))
    /\ (forall name tr f, ~ In name (names d2) \/ keep = true /\ In name (names d1) -> (named_words d name tr f <-> named_words d1 name tr f))
    /\ ((forall c, In c (d_letters d1) \/ In c (d_letters d2) -> 0 <= c < 2 ^ 16) -> forall c, In c (d_letters d) <-> In c (d_letters d1) \/ In c (d_letters d2)).
Proof.
  intros keep d1 d2 (I1 & N1 & S1) (I2 & N2 & S2).
  destruct (append_ok keep (d_alpha d2) (by_name (d_sections d2)) (d_sections d1) (d_alpha d1) I1 N1 (by_name_nodup _ N2) S1) as (m & a & E & I & N & _ & _ & S & K1 & K2).
  { intros name t Ht. apply (proj1 (by_name_in _ _)) in Ht. now apply S2 in Ht. }
  assert (Nm : forall name, In name (map fst (by_name (d_sections d2))) <-> In name (names d2)).
  { intros name. unfold names. rewrite !in_map_iff. split; intros (x & Ex & Hx); exists x; (split; [exact Ex|]); now apply by_name_in. }
  unfold lt_append. rewrite E. cbn [obind]. eexists. split; [reflexivity|]. unfold named_words, dict_ok, names. cbn [d_alpha d_sections d_letters].
  split; [auto|]. split; [intros name; rewrite K1, Nm; reflexivity|]. split; [|split].
  - intros name tr f H2 Hk. rewrite K2. destruct (in_dec ustr_eq_dec name _) as [_|K]; [|exfalso; apply K; now apply Nm].
    destruct (keep && has_section name (d_sections d1)) eqn:Ek; [apply andb_prop in Ek as [-> Ek]; apply has_section_iff in Ek; now destruct (Hk eq_refl)|].
    split; intros (t & Ht & A); exists t; (split; [|exact A]); now apply by_name_in.
  - intros name tr f H. rewrite K2. destruct (in_dec ustr_eq_dec name _) as [K|K]; [|reflexivity]. destruct H as [H|[-> H]]; [exfalso; apply H; now apply Nm|].
    apply has_section_iff in H. rewrite H. reflexivity.
  - intros Hc c. rewrite in_map_iff. split.
    + intros (x & <- & Hx). apply fold_zset in Hx. rewrite Z.mod_small by auto. exact Hx.
    + intros H. exists c. split; [apply Z.mod_small; auto|]. now apply fold_zset.
Qed.

Lemma fold_sections : forall (op : transducer -> alphabet -> outcome (transducer * alphabet)) (R : alphabet -> transducer -> list ((Z * Z) * Z) -> Z -> Prop)
    (run : list (ustr * transducer) -> alphabet -> outcome (list (ustr * transducer) * alphabet)),
  (forall a, run [] a = Ok ([], a)) ->
  (forall name t r a, run ((name, t) :: r) a = let! (t, a) := op t a in let! (r, a) := run r a in Ok ((name, t) :: r, a)) ->
  (forall t a b tr f, tags_in t a -> (forall tag p, decode tag a = Ok p -> decode tag b = Ok p) -> (R b t tr f <-> R a t tr f)) ->
  (forall t a, alph_inv a -> tags_in t a -> exists t' a', op t a = Ok (t', a') /\ alph_inv a' /\ tags_in t' a' /\ (wf t -> wf t')
     /\ extends a a' /\ forall tr f, accepts_trace (as_pair a') t' tr f <-> R a t tr f) ->
  forall m a, alph_inv a -> (forall name t, In (name, t) m -> tags_in t a) ->
  exists m' a', run m a = Ok (m', a') /\ alph_inv a' /\ extends a a'
    /\ Forall2 (fun x y => fst y = fst x /\ tags_in (snd y) a' /\ (wf (snd x) -> wf (snd y)) /\ forall tr f, accepts_trace (as_pair a') (snd y) tr f <-> R a (snd x) tr f) m m'.
Proof.
  intros op R run En Ec HR Hop. induction m as [|[name t] m IH]; intros a I T.
  - exists [], a. rewrite En. split; [reflexivity|]. split; [exact I|]. split; [apply extends_refl|constructor].
  - destruct (Hop t a I (T name t (or_introl eq_refl))) as (t' & a1 & E1 & I1 & T1 & W1 & Z1 & A1).
    assert (X1 := fun tag p => decode_extends a a1 tag p Z1).
    assert (Tm : forall n u, In (n, u) m -> tags_in u a) by (intros n u Hu; apply (T n); now right).
    destruct (IH a1 I1) as (m' & a' & E2 & I2 & Z2 & F).
    { intros n u Hu p c q w Ha. destruct (Tm n u Hu _ _ _ _ Ha) as (x & Hx). exists x. auto. }
    assert (X2 := fun tag p => decode_extends a1 a' tag p Z2).
    exists ((name, t') :: m'), a'. split.
    { rewrite Ec, E1. cbn [obind]. rewrite E2. reflexivity. }
    split; [exact I2|]. split; [eapply extends_trans; eauto|]. constructor.
    + cbn [fst snd]. split; [reflexivity|]. split; [intros p c q w Ha; destruct (T1 _ _ _ _ Ha) as (x & Hx); exists x; auto|]. split; [exact W1|].
      intros tr f. rewrite <- A1. apply (accepts_larger (as_pair a1) (as_pair a')); [intros c x; apply X2|intros c x y; unfold as_pair; congruence|exact T1].
    + assert (Q : forall l l', (forall n u, In (n, u) l -> tags_in u a) ->
        Forall2 (fun x y => fst y = fst x /\ tags_in (snd y) a' /\ (wf (snd x) -> wf (snd y)) /\ forall tr f, accepts_trace (as_pair a') (snd y) tr f <-> R a1 (snd x) tr f) l l' ->
        Forall2 (fun x y : ustr * transducer => fst y = fst x /\ tags_in (snd y) a' /\ (wf (snd x) -> wf (snd y)) /\ forall tr f, accepts_trace (as_pair a') (snd y) tr f <-> R a (snd x) tr f) l l').
      { clear - HR X1. intros l l' Hl F. induction F as [|[n u] y l l' (F1 & F2 & F3 & F4) F IH]; constructor.
        - cbn [fst snd] in *. split; [exact F1|]. split; [exact F2|]. split; [exact F3|]. intros tr f. rewrite F4. apply HR; [apply (Hl n); now left|exact X1].
        - apply IH. intros. apply (Hl n0). now right. }
      now apply Q.
Qed.

(** lt-invert: the two sides of every word are swapped. *)
Definition turned (tr : list ((Z * Z) * Z)) : list ((Z * Z) * Z) := map (fun x => ((snd (fst x), fst (fst x)), snd x)) tr.
Definition coded_ok (d : dict) : Prop :=
  alph_inv (d_alpha d) /\ NoDup (names d) /\ forall name t, In (name, t) (d_sections d) -> tags_in t (d_alpha d) /\ wf t.
Lemma turned_twice : forall tr, turned (turned tr) = tr.
Proof. intros tr. unfold turned. rewrite map_map. induction tr as [|[[x y] w] tr IH]; [reflexivity|]. cbn [map fst snd] in *. now rewrite IH. Qed.
Lemma sections_words : forall (R : alphabet -> transducer -> list ((Z * Z) * Z) -> Z -> Prop) d letters m a,
  coded_ok d -> alph_inv a ->
  Forall2 (fun x y => fst y = fst x /\ tags_in (snd y) a /\ (wf (snd x) -> wf (snd y)) /\ forall tr f, accepts_trace (as_pair a) (snd y) tr f <-> R (d_alpha d) (snd x) tr f) (by_name (d_sections d)) m ->
  let d' := mkD letters a m in
  coded_ok d' /\ (forall name, In name (names d') <-> In name (names d))
  /\ forall name tr f, coded_words d' name tr f <-> exists t, In (name, t) (d_sections d) /\ R (d_alpha d) t tr f.
Proof.
  intros R d letters m a (I & N & T) I' F d'.
  assert (En : map fst m = map fst (by_name (d_sections d))) by (clear - F; induction F as [|x y l l' (E & _) F IH]; cbn [map]; [reflexivity|now rewrite E, IH]).
  assert (Fw : forall name t', In (name, t') m -> exists t, In (name, t) (d_sections d) /\ tags_in t' a /\ (wf t -> wf t') /\ forall tr f, accepts_trace (as_pair a) t' tr f <-> R (d_alpha d) t tr f).
  { intros name t' Ht. assert (G : exists x, In x (by_name (d_sections d)) /\ fst x = name /\ tags_in t' a /\ (wf (snd x) -> wf t') /\ forall tr f, accepts_trace (as_pair a) t' tr f <-> R (d_alpha d) (snd x) tr f).
    { clear - F Ht. induction F as [|x y l l' (E & H) F IH]; [destruct Ht|]. destruct Ht as [->|Ht]; [exists x; cbn [fst snd] in *; split; [now left|auto]|]. destruct (IH Ht) as (z & Hz & K). exists z. split; [now right|exact K]. }
    destruct G as ([n t] & H1 & <- & H2). apply (proj1 (by_name_in _ _)) in H1. exists t. auto. }
  assert (Bw : forall name t, In (name, t) (d_sections d) -> exists t', In (name, t') m /\ forall tr f, accepts_trace (as_pair a) t' tr f <-> R (d_alpha d) t tr f).
  { intros name t Ht. apply (proj2 (by_name_in _ _)) in Ht. clear - F Ht. induction F as [|x [n y] l l' (E & _ & _ & H) F IH]; [destruct Ht|]. destruct Ht as [->|Ht]; [exists y; cbn [fst snd] in *; split; [left; now rewrite E|exact H]|]. destruct (IH Ht) as (z & Hz & K). exists z. split; [now right|exact K]. }
  split; [|split].
  - split; [exact I'|]. unfold names. cbn [d_sections d_alpha d']. split; [rewrite En; now apply by_name_nodup|].
    intros name t' Ht. apply Fw in Ht as (t & Ht & K1 & K2 & _). split; [exact K1|]. apply K2. now apply (T name).
  - intros name. unfold names. cbn [d_sections d']. rewrite En, !in_map_iff. split; intros (x & Ex & Hx); exists x; (split; [exact Ex|]); now apply by_name_in.
  - intros name tr f. unfold coded_words. cbn [d_sections d_alpha d']. split.
    + intros (t' & Ht & A). apply Fw in Ht as (t & Ht & _ & _ & K). exists t. split; [exact Ht|]. now apply K.
    + intros (t & Ht & A). apply Bw in Ht as (t' & Ht & K). exists t'. split; [exact Ht|]. now apply K.
Qed.
Theorem C70_invert : forall d, coded_ok d ->
  exists d', lt_invert d = Ok d' /\ coded_ok d' /\ (forall name, In name (names d') <-> In name (names d))
    /\ (forall name tr f, coded_words d' name (turned tr) f <-> coded_words d name tr f)
    /\ (forall tag p, decode tag (d_alpha d) = Ok p -> decode tag (d_alpha d') = Ok p)
    /\ (forall s n, getSymbol s (d_alpha d) = Ok n -> getSymbol s (d_alpha d') = Ok n)
    /\ ((forall c, In c (d_letters d) -> 0 <= c < 2 ^ 16) -> d_letters d' = d_letters d).
Proof.
  intros d Hd. pose proof Hd as (I & N & T).
  destruct (fold_sections invert (fun a t tr f => accepts_trace (as_pair a) t (turned tr) f) invert_sections) with (m := by_name (d_sections d)) (a := d_alpha d) as (m & a & E & I' & X & F); [reflexivity|reflexivity| | | | |].
  - intros t a b tr f Tt Hab. apply (accepts_larger (as_pair a) (as_pair b)); [intros c x; apply Hab|intros c x y; unfold as_pair; congruence|exact Tt].
  - intros t a Ia Tt. destruct (C25_traces t a Ia Tt) as (t' & a' & E & _ & T' & I' & W & X & A). exists t', a'. split; [exact E|].
    destruct (invert_spec t a Ia Tt) as (t1 & a1 & E1 & _ & X1 & _). rewrite E in E1. injection E1 as <- <-. do 4 (split; [auto|]).
    intros tr f. rewrite <- (turned_twice tr) at 1. apply A.
  - exact I.
  - intros name t Ht. apply (proj1 (by_name_in _ _)) in Ht. now apply (T name).
  - unfold lt_invert. rewrite E. cbn [obind]. eexists. split; [reflexivity|].
    destruct (sections_words (fun a t tr f => accepts_trace (as_pair a) t (turned tr) f) d (map (fun c => c mod 2 ^ 16) (d_letters d)) m a Hd I' F) as (K1 & K2 & K3).
    split; [exact K1|]. split; [exact K2|]. split; [|split; [intros tag p; now apply decode_extends|split; [intros s n; now apply getSymbol_extends|]]].
    + intros name tr f. rewrite K3. unfold coded_words. rewrite turned_twice. reflexivity.
    + intros Hc. cbn [d_letters]. rewrite <- (map_id (d_letters d)) at 2. apply map_ext_in. intros c Hin. apply Z.mod_small. auto.
Qed.
(** lt-apply-acx: characters to be read may be replaced by their equivalents. *)
Definition respelt (acx : list (Z * list Z)) (tr tr' : list ((Z * Z) * Z)) : Prop :=
  Forall2 (fun x x' => snd x' = snd x /\ snd (fst x') = snd (fst x) /\ (fst (fst x') = fst (fst x) \/ equivalent acx (fst (fst x)) (fst (fst x')))) tr tr'.
Theorem C70_acx : forall acx d, NoDup (map fst acx) -> coded_ok d ->
  exists d', lt_apply_acx acx d = Ok d' /\ coded_ok d' /\ (forall name, In name (names d') <-> In name (names d))
    /\ (forall name tr' f, coded_words d' name tr' f <-> exists tr, coded_words d name tr f /\ respelt acx tr tr')
    /\ (forall tag p, decode tag (d_alpha d) = Ok p -> decode tag (d_alpha d') = Ok p)
    /\ (forall s n, getSymbol s (d_alpha d) = Ok n -> getSymbol s (d_alpha d') = Ok n)
    /\ ((forall c, In c (d_letters d) -> 0 <= c < 2 ^ 16) -> d_letters d' = d_letters d).
Proof.
  intros acx d Na Hd. pose proof Hd as (I & N & T).
  destruct (fold_sections (applyACX acx) (fun a t tr' f => exists tr, accepts_trace (as_pair a) t tr f /\ respelt acx tr tr') (acx_sections acx)) with (m := by_name (d_sections d)) (a := d_alpha d) as (m & a & E & I' & X & F); [reflexivity|reflexivity| | | | |].
  - intros t a b tr f Tt Hab. assert (G := accepts_larger (as_pair a) (as_pair b) Hab ltac:(intros c x y; unfold as_pair; congruence) t Tt).
    split; intros (u & H1 & H2); exists u; (split; [|exact H2]); now apply G.
  - intros t a Ia Tt. destruct (C28_applyACX acx t a Na Ia Tt) as (t' & a' & E & _ & I' & W & X & A). exists t', a'. split; [exact E|]. split; [exact I'|].
    destruct (applyACX_spec acx t a Ia Tt) as (t1 & a1 & E1 & _ & X1 & _ & R). rewrite E in E1. injection E1 as <- <-. split; [|auto].
    intros p b q w Ha. destruct (R p) as (ins & Hb & H1 & _). unfold has_arc in Ha. rewrite Hb in Ha. apply mm_all_in in Ha as [Ha|Ha].
    + destruct (H1 _ _ Ha) as (c & i & o & i' & _ & _ & _ & Hd'). eauto.
    + destruct (Tt _ _ _ _ Ha) as (x & Hx). exists x. auto.
  - exact I.
  - intros name t Ht. apply (proj1 (by_name_in _ _)) in Ht. now apply (T name).
  - unfold lt_apply_acx. rewrite E. cbn [obind]. eexists. split; [reflexivity|].
    destruct (sections_words (fun a t tr' f => exists tr, accepts_trace (as_pair a) t tr f /\ respelt acx tr tr') d (map (fun c => c mod 2 ^ 16) (d_letters d)) m a Hd I' F) as (K1 & K2 & K3).
    split; [exact K1|]. split; [exact K2|]. split; [|split; [intros tag p; now apply decode_extends|split; [intros s n; now apply getSymbol_extends|]]].
    + intros name tr f. rewrite K3. unfold coded_words. split; [intros (t & Ht & u & A & B); exists u; eauto|intros (u & (t & Ht & A) & B); exists t; eauto].
    + intros Hc. cbn [d_letters]. rewrite <- (map_id (d_letters d)) at 2. apply map_ext_in. intros c Hin. apply Z.mod_small. auto.
Qed.

(** * Examples *)
Definition main_ : ustr := [109; 64; 115].
Definition extra_ : ustr := [101; 64; 115].
(** x:<v> under one alphabet; sections of [tE] under another *)
Definition tX : transducer := mkT 0 [(1%nat, 0)] [[(1, (1%nat, 0))]; []].
Definition d1 : dict := mkD [97; 98] aE [(main_, tE)].
Definition d2 : dict := mkD [98; 120] aN [(extra_, tX); (main_, tX)].
Lemma d1_ok : dict_ok d1 /\ coded_ok d1.
Proof.
  assert (I := aE_inv). assert (W := tE_wf).
  assert (Sy : symbols_in tE aE).
  { intros p tag q w H. unfold has_arc, arcs_of, tE in H. cbn [trans] in H. destruct p as [|[|[|p]]]; cbn in H; [| | |destruct p; destruct H];
    repeat (destruct H as [H|H]; [injection H as <- <- <-|]); try contradiction.
    - exists (SChar 97, SChar 98). exists 97, 98. vm_compute. intuition congruence.
    - exists (SChar 97, STag [60; 110; 62]). exists 97, (-1). vm_compute. intuition congruence.
    - exists (SChar 0, SChar 0). exists 0, 0. vm_compute. intuition congruence.
    - exists (SChar 98, SChar 98). exists 98, 98. vm_compute. intuition congruence. }
  assert (N : NoDup (names d1)) by (repeat constructor; intros []).
  split; (split; [exact I|split; [exact N|]]); intros name t [E|[]]; injection E as <- <-; (split; [|exact W]).
  - exact Sy.
  - intros p c q w H. destruct (Sy _ _ _ _ H) as (x & l & r & Hd & _). eauto.
Qed.
Example C70_example : exists d, lt_append false true d1 d2 = Ok d /\ d_letters d = [97; 98; 120]
  /\ d_sections d = [(main_, mkT 0 [(1%nat, 0)] [[(4, (1%nat, 0))]; []]); (extra_, mkT 0 [(1%nat, 0)] [[(4, (1%nat, 0))]; []])]
  /\ decode 4 (d_alpha d) = Ok (120, -2) /\ getSymbol (-2) (d_alpha d) = Ok [60; 118; 62].
Proof. eexists. split; [vm_compute; reflexivity|]. vm_compute. auto. Qed.
(** With -k the first dictionary's section stays. *)
Example C70_keep_example : exists d, lt_append true true d1 d2 = Ok d /\ In (main_, tE) (d_sections d)
  /\ named_words d main_ [((SChar 97, STag [60; 110; 62]), 1); ((SChar 98, SChar 98), 4)] 7.
Proof.
  eexists. split; [vm_compute; reflexivity|]. split; [now left|]. exists tE. split; [now left|]. exists 2%nat. split; [|now left].
  apply (trace_cons _ _ 0 2 _ 1 1%nat); [right; now left|exists 97, (-1); vm_compute; intuition congruence|].
  apply (trace_cons _ _ 1 3 _ 4 2%nat); [right; now left|exists 98, 98; vm_compute; intuition congruence|]. constructor.
Qed.
Example C70_invert_example : exists d, lt_invert d1 = Ok d /\ d_letters d = [97; 98] /\ coded_words d main_ [((-1, 97), 1); ((98, 98), 4)] 7.
Proof.
  destruct (C70_invert d1 (proj2 d1_ok)) as (d & E & _ & _ & K & _). exists d. split; [exact E|]. split; [vm_compute in E; injection E as <-; reflexivity|].
  apply (K main_ [((97, -1), 1); ((98, 98), 4)] 7). exists tE. split; [now left|]. exists 2%nat. split; [|now left].
  apply (trace_cons _ _ 0 2 _ 1 1%nat); [right; now left|reflexivity|]. apply (trace_cons _ _ 1 3 _ 4 2%nat); [right; now left|reflexivity|]. constructor.
Qed.
Example C70_acx_example : exists d, lt_apply_acx [(97, [224])] d1 = Ok d /\ coded_words d main_ [((224, -1), 1); ((98, 98), 4)] 7.
Proof.
  destruct (C70_acx [(97, [224])] d1) as (d & E & _ & _ & K & _); [repeat constructor; intros []|apply d1_ok|]. exists d. split; [exact E|].
  apply K. exists [((97, -1), 1); ((98, 98), 4)]. split.
  - exists tE. split; [now left|]. exists 2%nat. split; [|now left].
    apply (trace_cons _ _ 0 2 _ 1 1%nat); [right; now left|reflexivity|]. apply (trace_cons _ _ 1 3 _ 4 2%nat); [right; now left|reflexivity|]. constructor.
  - constructor; [split; [reflexivity|split; [reflexivity|right; exists [224]; split; now left]]|]. constructor; [auto|constructor].
Qed.

(** Letters beyond 16 bits become other letters, whichever program is used. *)
Theorem C70_letters_refuted : exists c d, dict_ok d /\ coded_ok d /\ In c (d_letters d)
  /\ (exists d', lt_append false true d d = Ok d' /\ d_letters d' = [c mod 2 ^ 16])
  /\ (exists d', lt_invert d = Ok d' /\ ~ In c (d_letters d')).
Proof.
  exists 0x10400, (mkD [0x10400] aE [(main_, tE)]). split; [exact (proj1 d1_ok)|]. split; [exact (proj2 d1_ok)|]. split; [now left|]. split; eexists; (split; [vm_compute; reflexivity|]); [reflexivity|].
  cbn. intros [C|[]]. discriminate.
Qed.
(** With -s, a section with a letter is read outside of the table of pairs. *)
Theorem C70_single_refuted : exists d1 d2 t, alph_inv (d_alpha d1) /\ alph_inv (d_alpha d2) /\ d_sections d2 = [(main_, t)] /\ wf t
  /\ accepts_trace (as_symbol (d_alpha d2)) t [(SChar 97, 0)] 0 /\ lt_append false false d1 d2 = UB.
Proof.
  destruct C26_single_refuted as (old & new & t & I1 & I2 & W & A & E). exists (mkD [] new []), (mkD [] old [(main_, t)]), t. do 5 (split; [auto|]).
  unfold lt_append. cbn [d_letters d_sections d_alpha by_name fold_right insert_by_name append_sections has_section existsb andb]. rewrite E. reflexivity.
Qed.

Print Assumptions C70_append.
Print Assumptions C70_invert.
Print Assumptions C70_acx.
Print Assumptions C70_letters_refuted.
Print Assumptions C70_single_refuted.
