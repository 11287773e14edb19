(** Lemmas for C78: if no node has two arcs with the same pair, the states of a word are its
    traces through the graph, each once. *)
From Verif Require Import Base AlphabetModel StateModel StateSpec ProcessorModel CompoundProps ValidProps TmProofs.

Lemma input_app : forall u v, input (u ++ v) = input u ++ input v.
Proof. intros. unfold input. now rewrite map_app, filter_app. Qed.

(** * Growing lists *)
Section Grow.
  Context {B C : Type}.
  Fixpoint grow (fuel : nat) (f : B -> list B) (i : nat) (st : list B) : outcome (list B) :=
    match nth_error st i with
    | None => Ok st
    | Some s => match fuel with O => NoFuel | S fuel => grow fuel f (S i) (st ++ f s) end
    end.
  Lemma grow_extends : forall f fuel i st r, grow fuel f i st = Ok r -> exists x, r = st ++ x.
  Proof.
    intros f. induction fuel as [|fuel IH]; intros i st r H; cbn [grow] in H; destruct (nth_error st i) as [s|]; try discriminate H.
    - exists []. rewrite app_nil_r. congruence.
    - destruct (IH _ _ _ H) as (x & ->). exists (f s ++ x). now rewrite app_assoc.
    - exists []. rewrite app_nil_r. congruence.
  Qed.
  (** All elements from [i] on have been visited. *)
  Lemma grow_closed : forall f fuel i st r, grow fuel f i st = Ok r ->
    (forall j s, (j < i)%nat -> nth_error st j = Some s -> incl (f s) st) ->
    forall j s, nth_error r j = Some s -> incl (f s) r.
  Proof.
    intros f. induction fuel as [|fuel IH]; intros i st r H K j s E; cbn [grow] in H; destruct (nth_error st i) as [x|] eqn:Ei; try discriminate H.
    - assert (r = st) by congruence. subst r. apply (K j s); [|exact E]. apply nth_error_None in Ei. assert (j < length st)%nat by (apply nth_error_Some; congruence). lia.
    - apply (IH _ _ _ H) with (j := j); [|exact E]. clear E s j. intros j s L E. assert (Li : (i < length st)%nat) by (apply nth_error_Some; congruence).
      rewrite nth_error_app1 in E by lia. destruct (Nat.eq_dec j i) as [->|N].
      + assert (s = x) by congruence. subst s. apply incl_appr, incl_refl.
      + apply incl_appl. apply (K j s); [lia|exact E].
    - assert (r = st) by congruence. subst r. apply (K j s); [|exact E]. apply nth_error_None in Ei. assert (j < length st)%nat by (apply nth_error_Some; congruence). lia.
  Qed.
  Lemma grow_all : forall f (Q : B -> Prop) fuel i st r, grow fuel f i st = Ok r -> (forall s, Q s -> Forall Q (f s)) -> Forall Q st -> Forall Q r.
  Proof.
    intros f Q. induction fuel as [|fuel IH]; intros i st r H K F; cbn [grow] in H; destruct (nth_error st i) as [x|] eqn:Ei; try discriminate H.
    - assert (r = st) by congruence. now subst.
    - apply (IH _ _ _ H K). apply Forall_app. split; [exact F|]. apply K. rewrite Forall_forall in F. apply F. eapply nth_error_In; eauto.
    - assert (r = st) by congruence. now subst.
  Qed.
  (** No element comes twice, if keys tell who they come from. *)
  Lemma grow_nodup : forall f (key : B -> C) (from : B -> C -> Prop) fuel i st r, grow fuel f i st = Ok r ->
    (forall s, NoDup (map key (f s))) -> (forall s x, In x (f s) -> from s (key x)) -> (forall s s' k, from s k -> from s' k -> key s = key s') ->
    NoDup (map key st) -> (forall x, In x st -> (forall s, ~ from s (key x)) \/ exists j s, (j < i)%nat /\ nth_error st j = Some s /\ from s (key x)) ->
    NoDup (map key r).
  Proof.
    intros f key from. induction fuel as [|fuel IH]; intros i st r H K1 K2 K3 N O; cbn [grow] in H; destruct (nth_error st i) as [x|] eqn:Ei; try discriminate H.
    - assert (r = st) by congruence. now subst.
    - assert (Li : (i < length st)%nat) by (apply nth_error_Some; congruence). apply (IH _ _ _ H K1 K2 K3).
      + rewrite map_app. assert (D : forall k, In k (map key st) -> In k (map key (f x)) -> False).
        { intros k H1 H2. apply in_map_iff in H1 as (y & <- & Hy). apply in_map_iff in H2 as (z & Ez & Hz). apply K2 in Hz. rewrite Ez in Hz.
          destruct (O y Hy) as [O1|(j & s & Lj & Ej & Fs)]; [exact (O1 x Hz)|]. pose proof (K3 _ _ _ Fs Hz) as Ks.
          assert (j = i); [|lia]. apply (proj1 (NoDup_nth_error (map key st)) N); [rewrite map_length; lia|].
          rewrite !nth_error_map, Ej, Ei. cbn. now f_equal. }
        clear - N K1 D. induction (map key st) as [|k l IH]; [apply K1|]. cbn [app]. inversion N as [|? ? N1 N2]; subst. constructor.
        * intros X. apply in_app_or in X as [X|X]; [contradiction|]. exact (D k (or_introl eq_refl) X).
        * apply IH; [exact N2|]. intros k' Hk. apply D. now right.
      + intros y Hy. apply in_app_or in Hy as [Hy|Hy].
        * destruct (O y Hy) as [O1|(j & s & Lj & Ej & Fs)]; [now left|right]. exists j, s. split; [lia|]. split; [|exact Fs]. rewrite nth_error_app1 by lia. exact Ej.
        * right. exists i, x. split; [lia|]. split; [rewrite nth_error_app1 by lia; exact Ei|]. now apply K2.
    - assert (r = st) by congruence. now subst.
  Qed.
End Grow.
Lemma grow_map : forall {B D} (h : B -> D) f g, (forall s, map h (f s) = g (h s)) -> forall fuel i st,
  grow fuel g i (map h st) = match grow fuel f i st with Ok r => Ok (map h r) | Exit => Exit | Throw => Throw | UB => UB | NoFuel => NoFuel end.
Proof.
  intros B D h f g K. induction fuel as [|fuel IH]; intros i st; cbn [grow]; rewrite nth_error_map; destruct (nth_error st i) as [s|] eqn:E; cbn [option_map]; try reflexivity.
  rewrite <- IH, map_app, K. reflexivity.
Qed.

Section Traces.
  Context (P : processor).
  Notation find := (p_find P).
  Context (U : forall n c, NoDup (map fst (find n c))) (Z0 : forall n c o q w, In (o, (q, w)) (find n c) -> w = 0).
  (** The pairs of the arcs that are taken *)
  Inductive trace : list (Z * Z) -> nat -> Prop :=
  | tr_nil : trace [] (p_root P)
  | tr_snoc v q i o q' : trace v q -> In (o, (q', 0)) (find q i) -> trace (v ++ [(i, o)]) q'.
  Definition out (p : Z * Z) : list (Z * Z) := if (fst p =? 0) && (snd p =? 0) then [] else [(snd p, 0)].
  Definition outs (v : list (Z * Z)) : list (Z * Z) := flat_map out v.
  Lemma outs_app : forall u v, outs (u ++ v) = outs u ++ outs v.
  Proof. intros. unfold outs. apply flat_map_app. Qed.
  Notation marked := (list (Z * Z) * (@vns Z))%type.
  Definition m_eps (a : marked) : list marked :=
    map (fun x : Z * (nat * Z) => (fst a ++ [(0, fst x)], mkV (fst (snd x)) (v_seq (snd a) ++ if fst x =? 0 then [] else [(fst x, snd (snd x))]) (v_dirty (snd a))))
      (find (v_where (snd a)) 0).
  Definition m_into (i : Z) (d : bool) (a : marked) : list marked :=
    map (fun x : Z * (nat * Z) => (fst a ++ [(i, fst x)], mkV (fst (snd x)) (v_seq (snd a) ++ if i =? 0 then [] else [(fst x, snd (snd x))]) (v_dirty (snd a) || d)))
      (find (v_where (snd a)) i).
  Notation noughts l := (existsb (fun x : Z * bool => fst x =? 0) l).
  Definition m_choose (l : list (Z * bool)) (A : list marked) : list marked :=
    if noughts l then [] else flat_map (fun a => flat_map (fun x => m_into (fst x) (snd x) a) l) A.
  Lemma grow_v : forall fuel f i (st : list (@vns Z)), v_grow fuel f i st = grow fuel f i st.
  Proof. induction fuel as [|fuel IH]; intros f i st; cbn [v_grow grow]; destruct (nth_error st i); auto. Qed.
  Lemma eps_marked : forall a, map snd (m_eps a) = v_eps find (snd a).
  Proof. intros a. unfold m_eps, v_eps. now rewrite map_map. Qed.
  Lemma flat_map_map : forall {A B D} (h : B -> D) (f : A -> list B) l, map h (flat_map f l) = flat_map (fun x => map h (f x)) l.
  Proof. intros. induction l as [|x l IH]; [reflexivity|]. cbn [flat_map]. now rewrite map_app, IH. Qed.
  Lemma map_flat : forall {A B D} (h : A -> B) (f : B -> list D) l, flat_map f (map h l) = flat_map (fun x => f (h x)) l.
  Proof. intros. induction l as [|x l IH]; [reflexivity|]. cbn [map flat_map]. now rewrite IH. Qed.
  Lemma choose_marked : forall l A, map snd (m_choose l A) = v_choose find (alternatives l) (map snd A).
  Proof.
    intros l A. unfold m_choose, v_choose, alternatives. destruct (noughts l); [reflexivity|]. rewrite flat_map_map, map_flat. apply flat_map_ext. intros a.
    rewrite flat_map_map. apply flat_map_ext. intros x. unfold m_into, v_into. rewrite map_map. reflexivity.
  Qed.

  (** The word that is read, from its end *)
  Notation isup := (p_isupper P).
  Notation low := (p_tolower P).
  Notation rd := (CompoundProps.reading isup low false).
  Lemma reading_snoc : forall w c l' d, rd (w ++ [c]) l' d <-> exists l i d1 d2, l' = l ++ [i] /\ rd w l d1 /\ rd [c] [i] d2 /\ d = (d1 || d2)%bool.
  Proof.
    intros w c. induction w as [|x w IH]; intros l' d; cbn [app].
    - split.
      + intros H. inversion H as [|c0 w0 l0 d0 A1 A2 A3|c0 w0 l0 d0 A1 A2 A3 A4 A5 A6]; subst;
          match goal with K : rd [] ?l ?d |- _ => inversion K; subst end.
        * exists [], c, false, false. split; [reflexivity|]. split; [constructor|]. split; [exact H|reflexivity].
        * exists [], (low c), false, true. split; [reflexivity|]. split; [constructor|]. split; [exact H|reflexivity].
      + intros (l & i & d1 & d2 & -> & R & K & ->). inversion R; subst. exact K.
    - split.
      + intros H. inversion H as [|c0 w0 l0 d0 A1 A2 A3|c0 w0 l0 d0 A1 A2 A3 A4 A5 A6]; subst.
        * apply IH in A3 as (l & i & d1 & d2 & -> & R & K & ->). exists (x :: l), i, d1, d2. split; [reflexivity|]. split; [constructor; assumption|]. auto.
        * apply IH in A6 as (l & i & d1 & d2 & -> & R & K & ->). exists (low x :: l), i, true, d2. split; [reflexivity|]. split; [econstructor; eassumption|]. auto.
      + intros (l & i & d1 & d2 & -> & R & K & ->). inversion R as [|c0 w0 l0 d0 A1 A2 A3|c0 w0 l0 d0 A1 A2 A3 A4 A5 A6]; subst; cbn [app].
        * constructor; [assumption|assumption|]. apply IH. exists l0, i, d1, d2. auto.
        * cbn [orb]. apply rd_lower with (d := (d0 || d2)%bool); auto. apply IH. exists l0, i, d0, d2. auto.
  Qed.
  Definition opts (c : Z) : list (Z * bool) := (c, false) :: if isup c then (if c =? low c then [] else [(low c, true)]) else [].
  Lemma case_opts : forall c, case_choice P c false = alternatives (opts c).
  Proof. intros c. unfold case_choice, opts, two, one. destruct (isup c); reflexivity. Qed.
  Lemma opts_nodup : forall c, NoDup (map fst (opts c)).
  Proof.
    intros c. unfold opts. destruct (isup c); cbn [map fst]; [|constructor; [intros []|constructor]]. destruct (Z.eqb_spec c (low c)) as [e|N]; cbn [map fst].
    - constructor; [intros []|constructor].
    - constructor; [intros [K|[]]; congruence|]. constructor; [intros []|constructor].
  Qed.
  Lemma reading_one : forall c i d, rd [c] [i] d <-> noughts (opts c) = false /\ In (i, d) (opts c).
  Proof.
    intros c i d. unfold opts. split.
    - intros H. inversion H as [|c0 w0 l0 d0 A1 A2 A3|c0 w0 l0 d0 A1 A2 A3 A4 A5 A6]; subst; match goal with K : rd [] ?l ?d |- _ => inversion K; subst end.
      + cbn [existsb fst]. rewrite (proj2 (Z.eqb_neq _ _) A1). cbn [orb]. split; [|now left]. destruct (isup i) eqn:E; [|reflexivity].
        specialize (A2 eq_refl eq_refl). destruct (i =? low i); [reflexivity|]. cbn [existsb fst]. now rewrite (proj2 (Z.eqb_neq _ _) A2).
      + rewrite A2. cbn [existsb fst]. rewrite (proj2 (Z.eqb_neq _ _) A3). destruct (Z.eqb_spec c (low c)); [congruence|].
        cbn [existsb fst orb]. rewrite (proj2 (Z.eqb_neq _ _) A4). split; [reflexivity|]. right. now left.
    - intros [Z1 Hin]. cbn [existsb fst] in Z1. apply orb_false_elim in Z1 as [Z1 Z2]. apply Z.eqb_neq in Z1. destruct (isup c) eqn:Eu.
      + destruct Hin as [Hin|Hin].
        * injection Hin as <- <-. constructor; [exact Z1| |constructor]. intros _ _. destruct (Z.eqb_spec c (low c)) as [e|_]; [congruence|].
          cbn [existsb fst] in Z2. apply orb_false_elim in Z2 as [Z2 _]. now apply Z.eqb_neq in Z2.
        * destruct (Z.eqb_spec c (low c)) as [e|N]; [destruct Hin|]. destruct Hin as [Hin|[]]. injection Hin as <- <-.
          cbn [existsb fst] in Z2. apply orb_false_elim in Z2 as [Z2 _]. apply Z.eqb_neq in Z2. apply rd_lower with (d := false); auto. constructor.
      + destruct Hin as [Hin|[]]. injection Hin as <- <-. constructor; [exact Z1| |constructor]. congruence.
  Qed.
  Lemma opts_zero : forall c i d, noughts (opts c) = false -> In (i, d) (opts c) -> i <> 0.
  Proof.
    intros c i d N H ->. assert (noughts (opts c) = true) by (apply existsb_exists; exists (0, d); split; [exact H|reflexivity]). congruence.
  Qed.

  (** * The marked states *)
  Definition good (w : list Z) (a : marked) : Prop :=
    trace (fst a) (v_where (snd a)) /\ v_seq (snd a) = outs (fst a) /\ rd w (input (fst a)) (v_dirty (snd a)).
  Definition exact (w : list Z) (A : list marked) : Prop := NoDup (map fst A) /\ forall a, In a A <-> good w a.
  Lemma eps_good : forall w a, good w a -> Forall (good w) (m_eps a).
  Proof.
    intros w [v e] (T & E & R). apply Forall_forall. intros [v' e'] H. apply in_map_iff in H as ([o [q ww]] & H & Hin). cbn [fst snd] in *. injection H as <- <-.
    pose proof (Z0 _ _ _ _ _ Hin) as K. subst ww. split; [|split]; cbn [fst snd v_where v_seq v_dirty].
    - eapply tr_snoc; eauto.
    - rewrite outs_app, E. cbn [outs flat_map]. unfold out. cbn [fst snd]. cbn [Z.eqb andb]. now rewrite app_nil_r.
    - rewrite input_app. cbn. now rewrite app_nil_r.
  Qed.
  Definition from (a : marked) (k : list (Z * Z)) : Prop := exists o, k = fst a ++ [(0, o)].
  Lemma grow_exact : forall fuel w A B, grow fuel m_eps 0 A = Ok B -> Forall (good w) A -> NoDup (map fst A) ->
    (forall a, In a A -> forall s, ~ from s (fst a)) ->
    (forall v q d, trace v q -> rd w (input v) d -> (forall v' o, v <> v' ++ [(0, o)]) -> In (v, mkV q (outs v) d) A) -> exact w B.
  Proof.
    intros fuel w A B E F N L C. split.
    - eapply (grow_nodup m_eps fst from); [exact E| | | |exact N|intros; left; now apply L].
      + intros s. unfold m_eps. rewrite map_map. cbn [fst].
        pose proof (U (v_where (snd s)) 0) as K. clear - K. induction (find (v_where (snd s)) 0) as [|x l IH]; cbn [map] in *; [constructor|].
        inversion K as [|? ? K1 K2]; subst. constructor; [|auto]. intros H. apply K1. apply in_map_iff in H as (y & H & Hy).
        apply app_inj_tail in H as [_ H]. injection H as H. rewrite <- H. now apply in_map.
      + intros s x H. apply in_map_iff in H as (y & <- & _). now exists (fst y).
      + intros s s' k (o & ->) (o' & H). now apply app_inj_tail in H as [-> _].
    - intros [v e]. split.
      + intros H. pose proof (grow_all m_eps (good w) _ _ _ _ E (eps_good w) F) as K. rewrite Forall_forall in K. now apply K.
      + intros (T & Es & R). destruct e as [q s d]. cbn [fst snd v_where v_seq v_dirty] in *. subst s. revert d R.
        induction T as [|v q i o q' T IH Hin]; intros d R.
        * destruct (grow_extends _ _ _ _ _ E) as (x & ->). apply in_or_app. left. apply C; [constructor|exact R|]. intros v' o K. now destruct v'.
        * destruct (Z.eq_dec i 0) as [->|Ni].
          -- rewrite input_app in R. cbn in R. rewrite app_nil_r in R. specialize (IH d R). apply In_nth_error in IH as (j & Ej).
             apply (grow_closed _ _ _ _ _ E) with (j := j) (s := (v, mkV q (outs v) d)); [intros; lia|exact Ej|].
             unfold m_eps. cbn [fst snd v_where v_seq v_dirty]. apply in_map_iff. exists (o, (q', 0)). split; [|exact Hin]. cbn [fst snd]. f_equal.
             rewrite outs_app. cbn [outs flat_map]. unfold out. cbn [fst snd]. cbn [Z.eqb andb]. now rewrite app_nil_r.
          -- destruct (grow_extends _ _ _ _ _ E) as (x & ->). apply in_or_app. left. apply C; [eapply tr_snoc; eauto|exact R|].
             intros v' o' K. apply app_inj_tail in K as [_ K]. congruence.
  Qed.
  Lemma nodup_flat : forall {A K} (f : A -> list K) l, NoDup l -> (forall x, In x l -> NoDup (f x)) ->
    (forall x y k, In x l -> In y l -> In k (f x) -> In k (f y) -> x = y) -> NoDup (flat_map f l).
  Proof.
    intros A K f l N H1 H2. induction l as [|x l IH]; cbn [flat_map]; [constructor|]. inversion N as [|? ? N1 N2]; subst.
    assert (D : forall k, In k (f x) -> In k (flat_map f l) -> False).
    { intros k K1 K2. apply in_flat_map in K2 as (y & Hy & K2). pose proof (H2 x y k (or_introl eq_refl) (or_intror Hy) K1 K2). congruence. }
    assert (NR : NoDup (flat_map f l)) by (apply IH; [exact N2|intros; apply H1; now right|intros y z k Hy Hz; apply H2; now right]).
    pose proof (H1 x (or_introl eq_refl)) as NX. clear - D NR NX. induction (f x) as [|k m IH]; [exact NR|]. cbn [app]. inversion NX as [|? ? N1 N2]; subst. constructor.
    - intros X. apply in_app_or in X as [X|X]; [contradiction|]. exact (D k (or_introl eq_refl) X).
    - apply IH; [intros k' Hk; apply D; now right|exact N2].
  Qed.
  Lemma nodup_of : forall {A K} (f : A -> K) l, NoDup (map f l) -> NoDup l /\ forall x y, In x l -> In y l -> f x = f y -> x = y.
  Proof.
    intros A K f l. induction l as [|x l IH]; intros N; [split; [constructor|intros ? ? []]|]. cbn [map] in N. inversion N as [|? ? N1 N2]; subst.
    destruct (IH N2) as [I1 I2]. split.
    - constructor; [|exact I1]. intros H. apply N1. now apply in_map.
    - intros y z [<-|Hy] [<-|Hz] E; [reflexivity| | |now apply I2].
      + exfalso. apply N1. rewrite E. now apply in_map.
      + exfalso. apply N1. rewrite <- E. now apply in_map.
  Qed.
  Lemma choose_exact : forall w c A fuel B, exact w A -> grow fuel m_eps 0 (m_choose (opts c) A) = Ok B -> exact (w ++ [c]) B.
  Proof.
    intros w c A fuel B [N I] E. destruct (nodup_of fst A N) as [NA NI].
    assert (Spec : forall a, In a (m_choose (opts c) A) -> exists v e i o q d, noughts (opts c) = false /\ In (v, e) A /\ In (i, d) (opts c)
      /\ In (o, (q, 0)) (find (v_where e) i) /\ i <> 0 /\ a = (v ++ [(i, o)], mkV q (v_seq e ++ [(o, 0)]) (v_dirty e || d))).
    { intros a H. unfold m_choose in H. destruct (noughts (opts c)) eqn:Z1; [destruct H|]. apply in_flat_map in H as ([v e] & Ha & H).
      apply in_flat_map in H as ([i d] & Hi & H). apply in_map_iff in H as ([o [q ww]] & <- & Hin). cbn [fst snd] in *.
      pose proof (Z0 _ _ _ _ _ Hin) as K. subst ww. pose proof (opts_zero _ _ _ Z1 Hi) as Ni. exists v, e, i, o, q, d.
      rewrite (proj2 (Z.eqb_neq _ _) Ni). split; [reflexivity|]. do 4 (split; [assumption|]). reflexivity. }
    apply (grow_exact _ _ _ _ E).
    - apply Forall_forall. intros a H. destruct (Spec a H) as (v & e & i & o & q & d & Z1 & Ha & Hi & Hin & Ni & ->). apply I in Ha as (T & Es & R). cbn [fst snd] in *.
      split; [|split]; cbn [fst snd v_where v_seq v_dirty].
      + eapply tr_snoc; eauto.
      + rewrite outs_app, Es. cbn [outs flat_map]. unfold out. cbn [fst snd]. rewrite (proj2 (Z.eqb_neq _ _) Ni). cbn [andb]. now rewrite app_nil_r.
      + rewrite input_app. apply reading_snoc. exists (input v), i, (v_dirty e), d. split; [|split; [exact R|split; [apply reading_one; auto|reflexivity]]].
        f_equal. unfold input. cbn [map fst filter]. now rewrite (proj2 (Z.eqb_neq _ _) Ni).
    - unfold m_choose. destruct (noughts (opts c)) eqn:Z1; [constructor|]. rewrite flat_map_map.
      destruct (nodup_of fst _ (opts_nodup c)) as [NO OI]. apply nodup_flat; [exact NA| |].
      + intros [v e] Ha. rewrite flat_map_map. apply nodup_flat; [exact NO| |].
        * intros [i d] Hi. unfold m_into. rewrite map_map. cbn [fst snd].
          pose proof (U (v_where e) i) as K. clear - K. induction (find (v_where e) i) as [|x l IH]; cbn [map] in *; [constructor|].
          inversion K as [|? ? K1 K2]; subst. constructor; [|auto]. intros H. apply K1. apply in_map_iff in H as (y & H & Hy).
          apply app_inj_tail in H as [_ H]. injection H as H. rewrite <- H. now apply in_map.
        * intros x y k Hx Hy K1 K2. apply OI; [exact Hx|exact Hy|]. apply in_map_iff in K1 as (a1 & <- & K1). apply in_map_iff in K1 as (x1 & <- & K1).
          apply in_map_iff in K2 as (a2 & E2 & K2). apply in_map_iff in K2 as (x2 & <- & K2). cbn [fst] in E2. apply app_inj_tail in E2 as [_ E2]. congruence.
      + intros a b k Ha Hb K1 K2. apply NI; [exact Ha|exact Hb|].
        apply in_map_iff in K1 as (a1 & <- & K1). apply in_flat_map in K1 as (y1 & _ & K1). apply in_map_iff in K1 as (x1 & <- & K1).
        apply in_map_iff in K2 as (a2 & E2 & K2). apply in_flat_map in K2 as (y2 & _ & K2). apply in_map_iff in K2 as (x2 & <- & K2). cbn [fst] in E2.
        now apply app_inj_tail in E2 as [-> _].
    - intros a H s (o' & K). destruct (Spec a H) as (v & e & i & o & q & d & Z1 & Ha & Hi & Hin & Ni & ->). cbn [fst] in K. apply app_inj_tail in K as [_ K]. congruence.
    - intros v q d T R Nz. destruct T as [|v q i o q' T Hin].
      + exfalso. apply reading_snoc in R as (l & i & d1 & d2 & K & _). now destruct l.
      + assert (Ni : i <> 0) by (intros ->; exact (Nz v o eq_refl)). rewrite input_app in R. unfold input in R at 2. cbn [map fst filter] in R.
        rewrite (proj2 (Z.eqb_neq _ _) Ni) in R. cbn [negb] in R. apply reading_snoc in R as (l & i' & d1 & d2 & K & R & R1 & ->). apply app_inj_tail in K as [<- <-].
        apply reading_one in R1 as [Z1 Hi]. unfold m_choose. rewrite Z1. apply in_flat_map. exists (v, mkV q (outs v) d1). split; [apply I; split; [exact T|split; [reflexivity|exact R]]|].
        apply in_flat_map. exists (i, d2). split; [exact Hi|]. unfold m_into. cbn [fst snd v_where v_seq v_dirty]. apply in_map_iff. exists (o, (q', 0)). split; [|exact Hin]. cbn [fst snd].
        f_equal. rewrite outs_app. cbn [outs flat_map]. unfold out. cbn [fst snd]. rewrite (proj2 (Z.eqb_neq _ _) Ni). cbn [andb]. now rewrite app_nil_r.
  Qed.
  Lemma tstate_exact : forall w st, tstate P w = Ok st -> exists A, st = map snd A /\ exact w A.
  Proof.
    intros w. induction w as [|c w IH] using rev_ind; intros st H.
    - unfold tstate in H. destruct (initial_state P) as [i| | | |] eqn:E; try discriminate H. cbn [obind tafter] in H. assert (i = st) by congruence. subst i.
      unfold initial_state, v_closure in E. rewrite grow_v in E. change [mkV (p_root P) [] false] with (map snd [(@nil (Z * Z), mkV (W:=Z) (p_root P) [] false)]) in E.
      rewrite (grow_map snd m_eps (v_eps find) eps_marked) in E. destruct (grow _ m_eps 0 _) as [A| | | |] eqn:EA; try discriminate E.
      assert (map snd A = st) by congruence. exists A. split; [now symmetry|]. apply (grow_exact _ _ _ _ EA).
      + constructor; [|constructor]. split; [constructor|]. split; [reflexivity|constructor].
      + constructor; [intros []|constructor].
      + intros a [<-|[]] s (o & K). cbn [fst] in K. now destruct (fst s).
      + intros v q d T R Nz. destruct T as [|v q i o q' T Hin]; [inversion R; subst; now left|]. exfalso.
        destruct (Z.eq_dec i 0) as [->|Ni]; [exact (Nz v o eq_refl)|]. rewrite input_app in R. unfold input in R at 2. cbn [map fst filter] in R.
        rewrite (proj2 (Z.eqb_neq _ _) Ni) in R. cbn [negb] in R. inversion R as [K| |]. now destruct (input v).
    - rewrite tstate_snoc in H. destruct (tstate P w) as [st0| | | |] eqn:E0; try discriminate H. cbn [obind] in H.
      destruct (IH st0 eq_refl) as (A & -> & X). unfold offer, v_closure in H. rewrite grow_v, case_opts, <- choose_marked in H.
      rewrite (grow_map snd m_eps (v_eps find) eps_marked) in H. destruct (grow _ m_eps 0 _) as [B| | | |] eqn:EB; try discriminate H.
      assert (map snd B = st) by congruence. exists B. split; [now symmetry|]. exact (choose_exact _ _ _ _ _ X EB).
  Qed.
End Traces.
