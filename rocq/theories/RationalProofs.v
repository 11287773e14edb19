(** optional, oneOrMore, zeroOrMore, insertTransducer, unionWith. *)
From Verif Require Import Base SortedVectorModel SortedVectorProofs TransducerModel
  TransducerSpec TransducerProofs NatSets DeterminizeProofs ReverseProofs RationalSpec.

Lemma word_eps : forall eps c l, word_of eps ((eps, c) :: l) = word_of eps l.
Proof. intros. unfold word_of. cbn [filter fst]. now rewrite Z.eqb_refl. Qed.
Lemma cost_cons : forall a w l, cost_of ((a, w) :: l) = w + cost_of l.
Proof. reflexivity. Qed.

(** ** Wrapping a transducer with a single final state between two new states *)
Record wrapped (eps : Z) (j o : transducer) (f : nat) (fw : Z) (extra : nat -> nat -> Prop) : Prop := {
  wr_wf : wf o;
  wr_initial : initial o = nstates j;
  wr_finals : finals o = [(S (nstates j), 0)];
  wr_size : nstates o = S (S (nstates j));
  wr_arcs : forall p a q w, has_arc o p a q w <->
    has_arc j p a q w
    \/ (a = eps /\ w = 0 /\ p = nstates j /\ q = initial j)
    \/ (a = eps /\ w = fw /\ p = f /\ q = S (nstates j))
    \/ (a = eps /\ w = 0 /\ extra p q)
}.

Lemma newState_eta : forall t, newState t = (nstates t, snd (newState t)).
Proof. intros t. reflexivity. Qed.

Lemma wrap_spec : forall eps j f fw, wf j -> finals j = [(f, fw)] ->
  exists o0, (let '(state, t) := newState j in
    let! t := linkStates state (initial t) eps 0 t in
    let t := mkT state (finals t) (trans t) in
    let '(state, t) := newState t in
    match finals t with
    | [] => UB
    | (f, w) :: _ =>
      let! t := linkStates f state eps w t in
      Ok (mkT (initial t) [(state, 0)] (trans t))
    end) = Ok o0 /\ wrapped eps j o0 f fw (fun _ _ => False).
Proof.
  intros eps j f fw W Hf. rewrite newState_eta.
  destruct (newState_spec j) as (_ & S2 & S3 & S4 & S5). assert (W1 := newState_wf j W).
  set (t1 := snd (newState j)) in *.
  destruct (linkStates_new (nstates j) (initial t1) eps 0 t1) as (t2 & H1 & H2 & H3 & H4 & H5 & H6); auto.
  { lia. }
  { rewrite S3. assert (X := wf_initial j W). lia. }
  { intros w' Ha. unfold has_arc in Ha. rewrite S5 in Ha. apply has_arc_lt in Ha. lia. }
  rewrite H1. cbn [obind]. rewrite H5, S4, Hf. cbn [finals].
  set (t3 := mkT (nstates j) [(f, fw)] (trans t2)).
  assert (Hfj : (f < nstates j)%nat) by (apply (wf_finals j W f fw); unfold final_wt; rewrite Hf; now left).
  assert (W3 : wf t3).
  { destruct H2 as [A1 A2 A3 A4 A5]. constructor; auto.
    - change (nstates j < nstates t2)%nat. lia.
    - intros p g [[= <- <-]|[]]. change (f < nstates t2)%nat. lia.
    - repeat constructor. }
  rewrite newState_eta. destruct (newState_spec t3) as (_ & T2 & T3 & T4 & T5). assert (W4 := newState_wf t3 W3).
  change (nstates t3) with (nstates t2) in *.
  set (t4 := snd (newState t3)) in *. rewrite T4. cbn [finals t3].
  assert (Arc4 : forall p a q w, has_arc t4 p a q w <-> has_arc j p a q w
     \/ (a = eps /\ w = 0 /\ p = nstates j /\ q = initial j)).
  { intros p a q w. unfold has_arc at 1. rewrite T5. change (has_arc t2 p a q w <-> has_arc j p a q w
     \/ (a = eps /\ w = 0 /\ p = nstates j /\ q = initial j)).
    rewrite H6. unfold has_arc at 1. rewrite S5, S3. unfold has_arc. intuition. }
  destruct (linkStates_new f (nstates t2) eps fw t4) as (t5 & K1 & K2 & K3 & K4 & K5 & K6); auto.
  { lia. }
  { lia. }
  { intros w' Ha. apply Arc4 in Ha as [Ha|(_ & _ & _ & E)].
    - apply (wf_arcs j W) in Ha. lia.
    - assert (X := wf_initial j W). lia. }
  rewrite K1. cbn [obind]. eexists. split; [reflexivity|].
  assert (N2 : nstates t2 = S (nstates j)) by lia.
  constructor.
  - destruct K2 as [A1 A2 A3 A4 A5]. constructor; auto.
    + intros p g [[= <- <-]|[]]. change (nstates t2 < nstates t5)%nat. lia.
    + repeat constructor.
  - cbn. now rewrite K4, T3.
  - cbn. now rewrite N2.
  - change (nstates t5 = S (S (nstates j))). lia.
  - intros p a q w. change (has_arc t5 p a q w <-> has_arc j p a q w
    \/ (a = eps /\ w = 0 /\ p = nstates j /\ q = initial j)
    \/ (a = eps /\ w = fw /\ p = f /\ q = S (nstates j)) \/ (a = eps /\ w = 0 /\ False)).
    rewrite K6, Arc4, N2. intuition.
Qed.

Lemma wrapped_link : forall eps j o f fw s q, wf j -> wrapped eps j o f fw (fun _ _ => False) ->
  (f < nstates j)%nat -> (s < nstates o)%nat -> (q < nstates o)%nat ->
  (forall w', ~ has_arc o s eps q w') ->
  exists o', linkStates s q eps 0 o = Ok o' /\ wrapped eps j o' f fw (fun a b => a = s /\ b = q).
Proof.
  intros eps j o f fw s q W [R1 R2 R3 R4 R5] Hf Hs Hq Hn.
  destruct (linkStates_new s q eps 0 o) as (o' & H1 & H2 & H3 & H4 & H5 & H6); auto.
  exists o'. split; [exact H1|]. constructor; auto; try congruence.
  intros p a r w. rewrite H6, R5. intuition.
Qed.

Lemma optional_wrapped : forall eps t, wf t -> finals t <> [] ->
  exists j o f fw, optional eps t = Ok o /\ wf j /\ joined eps t j /\ finals j = [(f, fw)]
    /\ wrapped eps j o f fw (fun p q => p = nstates j /\ q = S (nstates j)).
Proof.
  intros eps t W Hne. destruct (joinFinals_spec eps t W Hne) as (j & Hj & Wj & J).
  destruct (joined_single _ _ _ J) as ([f fw] & Hf).
  assert (Hfj : (f < nstates j)%nat) by (apply (wf_finals j Wj f fw); unfold final_wt; rewrite Hf; now left).
  destruct (wrap_spec eps j f fw Wj Hf) as (o0 & E0 & R0).
  destruct (wrapped_link eps j o0 f fw (nstates j) (S (nstates j)) Wj R0 Hfj) as (o & E & Ro).
  { rewrite (wr_size _ _ _ _ _ _ R0). lia. }
  { rewrite (wr_size _ _ _ _ _ _ R0). lia. }
  { intros w' Ha. apply (wr_arcs _ _ _ _ _ _ R0) in Ha as [Ha|[(_ & _ & _ & X)|[(_ & _ & X & _)|(_ & _ & [])]]].
    - apply has_arc_lt in Ha. lia.
    - assert (Y := wf_initial j Wj). lia.
    - lia. }
  exists j, o, f, fw. split; [|auto].
  unfold optional. rewrite Hj. cbn [obind]. rewrite newState_eta in E0 |- *.
  destruct (linkStates _ _ _ _ _) as [t2| | | |] in E0 |- *; cbn [obind] in E0 |- *; try discriminate.
  rewrite newState_eta in E0 |- *.
  destruct (finals (snd (newState (mkT (nstates j) (finals t2) (trans t2))))) as [|[g w] r]; [discriminate|].
  destruct (linkStates g _ _ _ _) as [t3| | | |]; cbn [obind] in E0 |- *; try discriminate.
  injection E0 as <-.
  cbn [initial]. rewrite <- E. assert (X := wr_initial _ _ _ _ _ _ R0). assert (Y := wr_finals _ _ _ _ _ _ R0).
  cbn [initial finals] in X, Y.
  assert (Y' : nstates (mkT (nstates j) (finals t2) (trans t2)) = S (nstates j)) by congruence.
  rewrite X, Y'. reflexivity.
Qed.

Lemma oneOrMore_wrapped : forall eps t, wf t -> finals t <> [] ->
  exists j o f fw, oneOrMore eps t = Ok o /\ wf j /\ joined eps t j /\ finals j = [(f, fw)]
    /\ wrapped eps j o f fw (fun p q => p = S (nstates j) /\ q = nstates j).
Proof.
  intros eps t W Hne. destruct (joinFinals_spec eps t W Hne) as (j & Hj & Wj & J).
  destruct (joined_single _ _ _ J) as ([f fw] & Hf).
  assert (Hfj : (f < nstates j)%nat) by (apply (wf_finals j Wj f fw); unfold final_wt; rewrite Hf; now left).
  destruct (wrap_spec eps j f fw Wj Hf) as (o0 & E0 & R0).
  destruct (wrapped_link eps j o0 f fw (S (nstates j)) (nstates j) Wj R0 Hfj) as (o & E & Ro).
  { rewrite (wr_size _ _ _ _ _ _ R0). lia. }
  { rewrite (wr_size _ _ _ _ _ _ R0). lia. }
  { intros w' Ha. apply (wr_arcs _ _ _ _ _ _ R0) in Ha as [Ha|[(_ & _ & X & _)|[(_ & _ & X & _)|(_ & _ & [])]]].
    - apply has_arc_lt in Ha. lia.
    - lia.
    - lia. }
  exists j, o, f, fw. split; [|auto].
  unfold oneOrMore. rewrite Hj. cbn [obind]. rewrite newState_eta in E0 |- *.
  destruct (linkStates _ _ _ _ _) as [t2| | | |] in E0 |- *; cbn [obind] in E0 |- *; try discriminate.
  rewrite newState_eta in E0 |- *.
  destruct (finals (snd (newState (mkT (nstates j) (finals t2) (trans t2))))) as [|[g w] r]; [discriminate|].
  destruct (linkStates g _ _ _ _) as [t3| | | |]; cbn [obind] in E0 |- *; try discriminate.
  injection E0 as <-.
  cbn [initial]. rewrite <- E. assert (X := wr_initial _ _ _ _ _ _ R0). assert (Y := wr_finals _ _ _ _ _ _ R0).
  cbn [initial finals] in X, Y.
  assert (Y' : nstates (mkT (nstates j) (finals t2) (trans t2)) = S (nstates j)) by congruence.
  rewrite X, Y'. reflexivity.
Qed.

Section Wrapped.
  Context (eps : Z) (j o : transducer) (f : nat) (fw : Z) (extra : nat -> nat -> Prop).
  Hypothesis Wj : wf j.
  Hypothesis Hf : finals j = [(f, fw)].
  Hypothesis R : wrapped eps j o f fw extra.
  Hypothesis Hx : forall p q, extra p q -> (nstates j <= p)%nat.
  Let s1 := nstates j.
  Let s2 := S (nstates j).

  Lemma wrap_old : forall p l q, path j p l q -> path o p l q.
  Proof.
    intros p l q H. induction H; [constructor|]. econstructor; [|eassumption].
    apply (wr_arcs _ _ _ _ _ _ R). now left.
  Qed.

  Lemma f_lt : (f < nstates j)%nat.
  Proof. apply (wf_finals j Wj f fw). unfold final_wt. rewrite Hf. now left. Qed.

  (** From inside, the only way out is through the final state. *)
  Lemma wrap_exit : forall p l q, path o p l q -> (p < s1)%nat -> (s1 <= q)%nat ->
    exists l1 l2, l = l1 ++ (eps, fw) :: l2 /\ path j p l1 f /\ path o s2 l2 q.
  Proof.
    intros p l q H. induction H as [p|p a w q l r Ha Hp IH]; intros Hlt Hq; [lia|].
    apply (wr_arcs _ _ _ _ _ _ R) in Ha as [Ha|[(_ & _ & X & _)|[(-> & -> & -> & ->)|(_ & _ & X)]]].
    - destruct IH as (l1 & l2 & -> & H1 & H2); [exact (wf_arcs j Wj _ _ _ _ Ha)|exact Hq|].
      exists ((a, w) :: l1), l2. split; [reflexivity|]. split; [econstructor; eauto|exact H2].
    - unfold s1 in Hlt. lia.
    - exists [], l. split; [reflexivity|]. split; [constructor|exact Hp].
    - apply Hx in X. unfold s1 in Hlt. lia.
  Qed.

  (** A pass through the inner transducer. *)
  Lemma wrap_pass : forall l, path j (initial j) l f -> path o s1 ((eps, 0) :: l ++ [(eps, fw)]) s2.
  Proof.
    intros l H. econstructor.
    - apply (wr_arcs _ _ _ _ _ _ R). right. left. unfold s1. auto.
    - eapply path_snoc; [apply wrap_old; exact H|]. apply (wr_arcs _ _ _ _ _ _ R). right. right. left. unfold s2. auto.
  Qed.

  Lemma inner_wlang : forall l, path j (initial j) l f -> wlang j eps (word_of eps l) (cost_of l + fw).
  Proof.
    intros l H. exists l, fw. split; [|auto]. exists f. split; [exact H|]. unfold final_wt. rewrite Hf. now left.
  Qed.

  Lemma inner_wlang_inv : forall w c, wlang j eps w c -> exists l, path j (initial j) l f
    /\ word_of eps l = w /\ cost_of l + fw = c.
  Proof.
    intros w c (l & g & (q & Hp & Hg) & Hw & Hc). unfold final_wt in Hg. rewrite Hf in Hg.
    destruct Hg as [[= <- <-]|[]]. exists l. auto.
  Qed.

  Lemma wlang_o : forall w c, wlang o eps w c <-> exists l, path o s1 l s2 /\ word_of eps l = w /\ cost_of l = c.
  Proof.
    intros w c. unfold wlang, accepts_from, final_wt.
    rewrite (wr_initial _ _ _ _ _ _ R), (wr_finals _ _ _ _ _ _ R). split.
    - intros (l & g & (q & Hp & [[= <- <-]|[]]) & Hw & Hc). exists l. rewrite Z.add_0_r in Hc. auto.
    - intros (l & Hp & Hw & Hc). exists l, 0. rewrite Z.add_0_r. split; [|auto]. exists s2. split; [exact Hp|now left].
  Qed.
End Wrapped.

Lemma pass_word : forall eps l fw l2,
  word_of eps ((eps, 0) :: l ++ (eps, fw) :: l2) = word_of eps l ++ word_of eps l2.
Proof. intros. now rewrite word_eps, word_app, word_eps. Qed.
Lemma pass_cost : forall eps l fw l2,
  cost_of ((eps, 0) :: l ++ (eps, fw) :: l2) = (cost_of l + fw) + cost_of l2.
Proof. intros. rewrite cost_cons, cost_app, cost_cons. lia. Qed.

Lemma optional_lang : forall eps t, wf t -> finals t <> [] ->
  exists o, optional eps t = Ok o /\ wf o /\ finals o <> [] /\ forall w c, wlang o eps w c <-> wopt (wlang t eps) w c.
Proof.
  intros eps t W Hne. destruct (optional_wrapped eps t W Hne) as (j & o & f & fw & E & Wj & J & Hf & R).
  exists o. split; [exact E|]. split; [apply (wr_wf _ _ _ _ _ _ R)|].
  split; [rewrite (wr_finals _ _ _ _ _ _ R); discriminate|]. intros w c.
  assert (Fl := f_lt j f fw Wj Hf).
  rewrite (wlang_o eps j o f fw _ R). split.
  - intros (l & Hp & <- & <-). inversion Hp as [|? a v q l' r Ha Hp']; subst; [lia|].
    assert (Hi := wf_initial j Wj).
    apply (wr_arcs _ _ _ _ _ _ R) in Ha as [Ha|[(-> & -> & _ & ->)|[(-> & -> & X & ->)|(-> & -> & _ & ->)]]].
    + apply has_arc_lt in Ha. lia.
    + destruct (wrap_exit eps j o f fw _ Wj R ltac:(cbn; intros ? ? [-> _]; lia) _ _ _ Hp') as (l1 & l2 & -> & H1 & H2); [lia|lia|].
      assert (l2 = []) as ->.
      { inversion H2 as [|? a v q l' r Ha Hp'']; subst; [reflexivity|]. exfalso.
        apply (wr_arcs _ _ _ _ _ _ R) in Ha as [Ha|[(_ & _ & X & _)|[(_ & _ & X & _)|(_ & _ & X & _)]]]; [|lia|lia|lia].
        apply has_arc_lt in Ha. lia. }
      rewrite pass_word, pass_cost. change (word_of eps []) with (@nil Z). rewrite app_nil_r.
      change (cost_of []) with 0. rewrite Z.add_0_r. apply wopt_one.
      apply (joined_wlang eps t j _ _ W J). now apply (inner_wlang eps j f fw Hf).
    + lia.
    + inversion Hp' as [|? a v q l'' r Ha Hp'']; subst.
      * rewrite word_eps. apply wopt_nil.
      * exfalso. apply (wr_arcs _ _ _ _ _ _ R) in Ha as [Ha|[(_ & _ & X & _)|[(_ & _ & X & _)|(_ & _ & X & _)]]]; [|lia|lia|lia].
        apply has_arc_lt in Ha. lia.
  - intros [|w' c' H].
    + exists [(eps, 0)]. split; [|rewrite word_eps; auto]. econstructor; [|constructor].
      apply (wr_arcs _ _ _ _ _ _ R). auto 10.
    + apply (joined_wlang eps t j _ _ W J) in H. apply (inner_wlang_inv eps j f fw Hf) in H as (l & Hl & <- & <-).
      exists ((eps, 0) :: l ++ [(eps, fw)]). split; [now apply (wrap_pass eps j o f fw _ R)|].
      rewrite pass_word, pass_cost. split; [now rewrite app_nil_r|]. change (cost_of []) with 0. lia.
Qed.

Lemma oneOrMore_lang : forall eps t, wf t -> finals t <> [] ->
  exists o, oneOrMore eps t = Ok o /\ wf o /\ finals o <> [] /\ forall w c, wlang o eps w c <-> wplus (wlang t eps) w c.
Proof.
  intros eps t W Hne. destruct (oneOrMore_wrapped eps t W Hne) as (j & o & f & fw & E & Wj & J & Hf & R).
  exists o. split; [exact E|]. split; [apply (wr_wf _ _ _ _ _ _ R)|].
  split; [rewrite (wr_finals _ _ _ _ _ _ R); discriminate|]. intros w c.
  assert (Fl := f_lt j f fw Wj Hf). assert (Hi := wf_initial j Wj).
  rewrite (wlang_o eps j o f fw _ R). split.
  - intros (l & Hp & <- & <-). revert Hp.
    induction l as [l IH] using (induction_ltof1 _ (@length label)). unfold ltof in IH. intros Hp.
    inversion Hp as [|? a v q l' r Ha Hp']; subst; [lia|].
    apply (wr_arcs _ _ _ _ _ _ R) in Ha as [Ha|[(-> & -> & _ & ->)|[(-> & -> & X & ->)|(-> & -> & X & ->)]]];
      [apply has_arc_lt in Ha; lia| |lia|lia].
    destruct (wrap_exit eps j o f fw _ Wj R ltac:(cbn; intros ? ? [-> _]; lia) _ _ _ Hp') as (l1 & l2 & -> & H1 & H2); [lia|lia|].
    rewrite pass_word, pass_cost.
    assert (L1 : wlang t eps (word_of eps l1) (cost_of l1 + fw)).
    { apply (joined_wlang eps t j _ _ W J). now apply (inner_wlang eps j f fw Hf). }
    inversion H2 as [|? a v q l3 r Ha Hp'']; subst.
    + change (word_of eps []) with (@nil Z). rewrite app_nil_r. change (cost_of []) with 0. rewrite Z.add_0_r.
      now apply wplus_one.
    + apply (wr_arcs _ _ _ _ _ _ R) in Ha as [Ha|[(_ & _ & X & _)|[(_ & _ & X & _)|(-> & -> & _ & ->)]]];
        [apply has_arc_lt in Ha; lia|lia|lia|].
      rewrite word_eps, cost_cons, Z.add_0_l. apply wplus_more; [exact L1|]. apply IH; [|exact Hp''].
      cbn [length]. rewrite app_length. cbn [length]. unfold label in *. lia.
  - intros H. induction H as [w c H|w c w' c' H H' (l' & Hl' & <- & <-)].
    + apply (joined_wlang eps t j _ _ W J) in H. apply (inner_wlang_inv eps j f fw Hf) in H as (l & Hl & <- & <-).
      exists ((eps, 0) :: l ++ [(eps, fw)]). split; [now apply (wrap_pass eps j o f fw _ R)|].
      rewrite pass_word, pass_cost. split; [now rewrite app_nil_r|]. change (cost_of []) with 0. lia.
    + apply (joined_wlang eps t j _ _ W J) in H. apply (inner_wlang_inv eps j f fw Hf) in H as (l & Hl & <- & <-).
      exists ((eps, 0) :: l ++ (eps, fw) :: (eps, 0) :: l'). split.
      * assert (P := wrap_pass eps j o f fw _ R l Hl).
        replace ((eps, 0) :: l ++ (eps, fw) :: (eps, 0) :: l')
          with (((eps, 0) :: l ++ [(eps, fw)]) ++ (eps, 0) :: l') by (cbn; now rewrite <- app_assoc).
        eapply path_app; [exact P|]. econstructor; [|exact Hl']. apply (wr_arcs _ _ _ _ _ _ R). auto 10.
      * rewrite pass_word, pass_cost, word_eps, cost_cons. auto.
Qed.

Lemma zeroOrMore_lang : forall eps t, wf t -> finals t <> [] ->
  exists o, zeroOrMore eps t = Ok o /\ wf o /\ finals o <> [] /\ forall w c, wlang o eps w c <-> wstar (wlang t eps) w c.
Proof.
  intros eps t W Hne. destruct (oneOrMore_lang eps t W Hne) as (o1 & E1 & W1 & N1 & L1).
  destruct (optional_lang eps o1 W1 N1) as (o & E & Wo & No & L). exists o.
  split; [unfold zeroOrMore; rewrite E1; exact E|]. split; [exact Wo|]. split; [exact No|].
  intros w c. rewrite L. split.
  - intros [|w' c' H]; [constructor|]. apply L1 in H. clear w c. induction H as [w c H|w c w' c' H H' IH].
    + rewrite <- (app_nil_r w), <- (Z.add_0_r c). now apply wstar_more; [|constructor].
    + now apply wstar_more.
  - intros H. induction H as [|w c w' c' H H' IH]; [constructor|]. apply wopt_one, L1.
    inversion IH as [|? ? IH']; subst.
    + rewrite app_nil_r, Z.add_0_r. now apply wplus_one.
    + apply wplus_more; [exact H|]. now apply L1.
Qed.

(** ** insertTransducer *)
Lemma add_arcs_spec : forall s (g : arc -> arc) arcs t, (s < nstates t)%nat ->
  let t' := fold_left (fun t a => add_arc s (g a) t) arcs t in
  nstates t' = nstates t /\ initial t' = initial t /\ finals t' = finals t
  /\ (forall p a q w, has_arc t' p a q w <-> has_arc t p a q w \/ (p = s /\ exists b, In b arcs /\ g b = (a, (q, w))))
  /\ ((forall p, arcs_sorted (arcs_of t p)) -> forall p, arcs_sorted (arcs_of t' p)).
Proof.
  intros s g. induction arcs as [|b arcs IH]; intros t Hs; cbn [fold_left]; cbv zeta.
  - do 3 (split; [reflexivity|]). split; [|auto]. intros. split; [auto|]. intros [H|(_ & b & [] & _)]. exact H.
  - destruct (IH (add_arc s (g b) t)) as (H1 & H2 & H3 & H4 & H5); [now rewrite nstates_add_arc|].
    rewrite nstates_add_arc in H1. split; [exact H1|]. split; [exact H2|]. split; [exact H3|]. split.
    + intros p a q w. rewrite H4. rewrite has_arc_add by exact Hs. split.
      * intros [[H|[-> H]]|(-> & c & Hc & E)]; [auto| |].
        -- right. split; [reflexivity|]. exists b. split; [now left|exact H].
        -- right. split; [reflexivity|]. exists c. split; [now right|exact E].
      * intros [H|(-> & c & [<-|Hc] & E)]; [auto|auto|]. right. split; [reflexivity|]. exists c. auto.
    + intros S p. apply H5. now apply arcs_sorted_add.
Qed.

Lemma copy_arcs_spec : forall ts base i self, (base + i + length ts <= nstates self)%nat ->
  let r := copy_arcs base i ts self in
  nstates r = nstates self /\ initial r = initial self /\ finals r = finals self
  /\ (forall p a q w, has_arc r p a q w <-> has_arc self p a q w \/
        exists k q', (k < length ts)%nat /\ p = (base + i + k)%nat /\ q = (base + q')%nat
          /\ In (a, (q', w)) (nth k ts []))
  /\ ((forall p, arcs_sorted (arcs_of self p)) -> forall p, arcs_sorted (arcs_of r p)).
Proof.
  induction ts as [|arcs ts IH]; intros base i self H; cbn [copy_arcs]; cbv zeta.
  - do 3 (split; [reflexivity|]). split; [|auto]. intros. split; [auto|]. intros [X|(k & q' & L & _)]; [exact X|cbn in L; lia].
  - cbn [length] in H.
    destruct (add_arcs_spec (base + i) (fun a => (a_tag a, ((base + a_dst a)%nat, a_wt a))) arcs self) as (H1 & H2 & H3 & H4 & H5); [lia|].
    set (self1 := fold_left _ arcs self) in *.
    destruct (IH base (S i) self1) as (K1 & K2 & K3 & K4 & K5); [lia|].
    split; [lia|]. split; [congruence|]. split; [congruence|]. split; [|auto].
    intros p a q w. rewrite K4, H4. split.
    + intros [[X|(-> & [b [q' v]] & Hb & E)]|(k & q' & L & -> & -> & Hin)]; [auto| |].
      * cbn in E. injection E as -> <- ->. right. exists 0%nat, q'. cbn [length nth]. repeat split; [lia|lia|exact Hb].
      * right. exists (S k), q'. cbn [length nth]. repeat split; [lia|lia|exact Hin].
    + intros [X|(k & q' & L & -> & -> & Hin)]; [auto|]. destruct k as [|k]; cbn [length nth] in *.
      * left. right. split; [lia|]. exists (a, (q', w)). split; [exact Hin|reflexivity].
      * right. exists k, q'. repeat split; [lia|lia|exact Hin].
Qed.

(** [self'] is [self] with a copy of [u], entered from [source] by an epsilon. *)
Record inserted (eps : Z) (source : nat) (self u self' : transducer) : Prop := {
  in_wf : wf self';
  in_initial : initial self' = initial self;
  in_finals : finals self' = finals self;
  in_size : nstates self' = (nstates self + nstates u)%nat;
  in_arcs : forall p a q w, has_arc self' p a q w <->
    has_arc self p a q w
    \/ (exists p' q', p = (nstates self + p')%nat /\ q = (nstates self + q')%nat /\ has_arc u p' a q' w)
    \/ (p = source /\ a = eps /\ q = (nstates self + initial u)%nat /\ w = 0)
}.

Lemma insertTransducer_spec : forall eps source t self, wf t -> finals t <> [] -> wf self ->
  (source < nstates self)%nat ->
  exists u self' f fw, insertTransducer source t eps self = Ok ((nstates self + f)%nat, self', u)
    /\ wf u /\ joined eps t u /\ finals u = [(f, fw)] /\ inserted eps source self u self'.
Proof.
  intros eps source t self W Hne Ws Hs. destruct (joinFinals_spec eps t W Hne) as (u & Hj & Wu & J).
  destruct (joined_single _ _ _ J) as ([f fw] & Hf).
  unfold insertTransducer.
  assert (Ht : trans t <> []). { intros E. assert (X := wf_initial t W). unfold nstates in X. rewrite E in X. cbn in X. lia. }
  destruct (trans t) as [|x r] eqn:E; [contradiction|]. clear E Ht.
  rewrite Hj. cbn [obind].
  set (self1 := mkT (initial self) (finals self) (trans self ++ map (fun _ => []) (trans u))).
  assert (N1 : nstates self1 = (nstates self + nstates u)%nat).
  { unfold self1, nstates. cbn. now rewrite app_length, map_length. }
  assert (A1 : forall p, arcs_of self1 p = arcs_of self p).
  { intros p. unfold arcs_of, self1. cbn [trans]. destruct (Nat.lt_ge_cases p (length (trans self))) as [L|L].
    - now rewrite app_nth1.
    - rewrite app_nth2, (nth_overflow (trans self)) by lia.
      destruct (nth_in_or_default (p - length (trans self)) (map (fun _ : list arc => @nil arc) (trans u)) []) as [X|X]; [|exact X].
      apply in_map_iff in X as (? & X & _). now rewrite <- X. }
  destruct (copy_arcs_spec (trans u) (nstates self) 0 self1) as (H1 & H2 & H3 & H4 & H5).
  { rewrite N1. unfold nstates. lia. }
  set (self2 := copy_arcs (nstates self) 0 (trans u) self1) in *.
  rewrite Hf. exists u, (add_arc source (eps, ((nstates self + initial u)%nat, 0)) self2), f, fw.
  split; [reflexivity|]. split; [exact Wu|]. split; [exact J|]. split; [exact Hf|].
  assert (Arcs : forall p a q w, has_arc self2 p a q w <-> has_arc self p a q w
    \/ (exists p' q', p = (nstates self + p')%nat /\ q = (nstates self + q')%nat /\ has_arc u p' a q' w)).
  { intros p a q w. rewrite H4. unfold has_arc at 1. rewrite A1. fold (has_arc self p a q w). split.
    - intros [X|(k & q' & L & -> & -> & Hin)]; [auto|]. right. exists k, q'. repeat split; [lia|exact Hin].
    - intros [X|(p' & q' & -> & -> & Hin)]; [auto|]. right. exists p', q'. assert (L := has_arc_lt _ _ _ _ _ Hin).
      repeat split; [exact L|lia|exact Hin]. }
  assert (W2 : wf self2).
  { constructor.
    - rewrite H1, H2, N1. cbn. assert (X := wf_initial self Ws). lia.
    - intros p g Hg. unfold final_wt in Hg. rewrite H3 in Hg. apply (wf_finals self Ws) in Hg. lia.
    - rewrite H3. apply (wf_finals_sorted self Ws).
    - intros p a q w Ha. apply Arcs in Ha as [Ha|(p' & q' & -> & -> & Ha)].
      + apply (wf_arcs self Ws) in Ha. lia.
      + apply (wf_arcs u Wu) in Ha. lia.
    - apply H5. intros p. rewrite A1. apply (wf_sorted self Ws). }
  constructor.
  - apply add_arc_wf; [exact W2|lia|]. assert (X := wf_initial u Wu). lia.
  - cbn. now rewrite H2.
  - cbn. now rewrite H3.
  - rewrite nstates_add_arc. lia.
  - intros p a q w. rewrite has_arc_add by lia. rewrite Arcs. intuition congruence.
Qed.

Section Inserted.
  Context (eps : Z) (source : nat) (self u self' : transducer).
  Hypothesis Ws : wf self.
  Hypothesis Wu : wf u.
  Hypothesis Hsrc : (source < nstates self)%nat.
  Hypothesis I : inserted eps source self u self'.
  Let n := nstates self.

  Lemma ins_old : forall p l q, path self p l q -> path self' p l q.
  Proof.
    intros p l q H. induction H; [constructor|]. econstructor; [|eassumption].
    apply (in_arcs _ _ _ _ _ I). now left.
  Qed.
  Lemma ins_new : forall p l q, path u p l q -> path self' (n + p) l (n + q).
  Proof.
    intros p l q H. induction H as [p|p a w q l r Ha Hp IH]; [constructor|]. econstructor; [|exact IH].
    apply (in_arcs _ _ _ _ _ I). right. left. exists p, q. auto.
  Qed.
  (** Inside the copy there is no way out. *)
  Lemma ins_inside : forall p l q, path self' p l q -> (n <= p)%nat ->
    exists q', q = (n + q')%nat /\ path u (p - n) l q'.
  Proof.
    intros p l q H. induction H as [p|p a w q l r Ha Hp IH]; intros Hn.
    - exists (p - n)%nat. split; [lia|constructor].
    - apply (in_arcs _ _ _ _ _ I) in Ha as [Ha|[(p' & q' & -> & -> & Ha)|(-> & _)]].
      + apply has_arc_lt in Ha. unfold n in Hn. lia.
      + fold n in IH, Ha |- *. destruct IH as (r' & -> & Hr); [lia|]. exists r'. split; [reflexivity|].
        replace (n + p' - n)%nat with p' by lia. replace (n + q' - n)%nat with q' in Hr by lia.
        econstructor; eauto.
      + unfold n in Hn. lia.
  Qed.
  (** Paths from an old state. *)
  Lemma ins_paths : forall p l q, (p < n)%nat -> (path self' p l q <->
    path self p l q \/ exists l1 l2 q', l = l1 ++ (eps, 0) :: l2 /\ path self p l1 source
      /\ path u (initial u) l2 q' /\ q = (n + q')%nat).
  Proof.
    intros p l q Hp. split.
    - intros H. revert Hp. induction H as [p|p a w q l r Ha Hpath IH]; intros Hp; [left; constructor|].
      apply (in_arcs _ _ _ _ _ I) in Ha as [Ha|[(p' & q' & -> & -> & Ha)|(-> & -> & -> & ->)]].
      + destruct (IH (wf_arcs self Ws _ _ _ _ Ha)) as [H|(l1 & l2 & q' & -> & H1 & H2 & ->)].
        * left. econstructor; eauto.
        * right. exists ((a, w) :: l1), l2, q'. repeat split; auto. econstructor; eauto.
      + unfold n in Hp. lia.
      + right. apply ins_inside in Hpath as (r' & -> & Hr); [|unfold n; lia].
        exists [], l, r'. repeat split; [constructor|].
        replace (nstates self + initial u - n)%nat with (initial u) in Hr by (unfold n; lia). exact Hr.
    - intros [H|(l1 & l2 & q' & -> & H1 & H2 & ->)]; [now apply ins_old|].
      eapply path_app; [apply ins_old; exact H1|]. econstructor; [|apply ins_new; exact H2].
      apply (in_arcs _ _ _ _ _ I). right. right. auto.
  Qed.
End Inserted.

(** Old languages are untouched. *)
Lemma inserted_wlang : forall eps source self u self' w c, wf self -> wf u -> (source < nstates self)%nat ->
  inserted eps source self u self' -> (wlang self' eps w c <-> wlang self eps w c).
Proof.
  intros eps source self u self' w c Ws Wu Hs I. unfold wlang, accepts_from, final_wt.
  rewrite (in_initial _ _ _ _ _ I), (in_finals _ _ _ _ _ I).
  split; intros (l & f & (q & Hp & Hf) & Hw); exists l, f; (split; [|exact Hw]); exists q; (split; [|exact Hf]).
  - apply (ins_paths eps source self u self' Ws Hs I) in Hp as [Hp|(l1 & l2 & q' & _ & _ & _ & ->)];
      [exact Hp| |apply (wf_initial self Ws)].
    apply (wf_finals self Ws) in Hf. lia.
  - apply (ins_paths eps source self u self' Ws Hs I); [apply (wf_initial self Ws)|now left].
Qed.

Lemma unionWith_spec : forall eps t self, wf t -> finals t <> [] -> wf self -> 
  exists u self' f fw, unionWith t eps self = Ok (self', u) /\ wf u /\ joined eps t u /\ finals u = [(f, fw)]
    /\ wf self' /\ forall w c, wlang self' eps w c <->
        wlang self eps w c \/ 
        (wcat (fun w c => exists l, path self (initial self) l (initial self) /\ word_of eps l = w /\ cost_of l = c)
              (fun w c => wlang u eps w (c + fw)) w c).
Proof.
  intros eps t self W Hne Ws. assert (Hi := wf_initial self Ws).
  destruct (insertTransducer_spec eps (initial self) t self W Hne Ws Hi) as (u & s1 & f & fw & E & Wu & J & Hf & I).
  assert (Hfu : (f < nstates u)%nat) by (apply (wf_finals u Wu f fw); unfold final_wt; rewrite Hf; now left).
  unfold unionWith. rewrite E. cbn [obind]. eexists u, _, f, fw. split; [reflexivity|].
  split; [exact Wu|]. split; [exact J|]. split; [exact Hf|].
  assert (S1 := in_wf _ _ _ _ _ I).
  set (s2 := mkT (initial s1) (fin_insert (nstates self + f) 0 (finals s1)) (trans s1)).
  assert (Fin : forall p g, final_wt s2 p g <-> final_wt s1 p g \/ (p = (nstates self + f)%nat /\ g = 0)).
  { intros p g. unfold final_wt, s2. cbn [finals]. rewrite fin_insert_in by apply (wf_finals_sorted s1 S1).
    split; [intros [H|(-> & -> & _)]; auto|]. intros [H|(-> & ->)]; [auto|]. right. split; [auto|]. split; [auto|].
    intros f' Hin. rewrite (in_finals _ _ _ _ _ I) in Hin. apply (wf_finals self Ws) in Hin. lia. }
  split.
  - destruct S1 as [A1 A2 A3 A4 A5]. constructor; auto.
    + intros p g Hg. apply Fin in Hg as [Hg|[-> _]]; [now apply (A2 p g)|].
      change (nstates self + f < nstates s1)%nat. rewrite (in_size _ _ _ _ _ I). lia.
    + now apply fin_insert_sorted.
  - intros w c.
    assert (P : forall p l q, path s2 p l q <-> path s1 p l q).
    { intros p l q. split; intros H; (induction H; [constructor|econstructor; eauto]). }
    split.
    + intros (l & g & (q & Hp & Hg) & Hw & Hc). apply P in Hp. apply Fin in Hg as [Hg|[-> ->]].
      * left. apply (inserted_wlang eps (initial self) self u s1 w c Ws Wu Hi I). exists l, g. split; [exists q; auto|auto].
      * right. cbn [initial s2] in Hp. rewrite (in_initial _ _ _ _ _ I) in Hp.
        apply (ins_paths eps (initial self) self u s1 Ws Hi I) in Hp as [Hp|(l1 & l2 & q' & -> & H1 & H2 & Hq)]; [| |exact Hi].
        -- exfalso. assert (X : forall p l q, path self p l q -> (p < nstates self)%nat -> (q < nstates self)%nat).
           { intros p l0 q H. induction H; intros; auto. apply IHpath. exact (wf_arcs self Ws _ _ _ _ H). }
           apply X in Hp; [|exact Hi]. lia.
        -- assert (q' = f) as -> by lia. subst w c. rewrite word_app, word_eps, cost_app, cost_cons.
           replace (cost_of l1 + (0 + cost_of l2) + 0) with (cost_of l1 + cost_of l2) by lia.
           apply wcat_both; [exists l1; auto|]. exists l2, fw. split; [exists f; split; [exact H2|unfold final_wt; rewrite Hf; now left]|auto].
    + intros [H|H].
      * apply (inserted_wlang eps (initial self) self u s1 w c Ws Wu Hi I) in H as (l & g & (q & Hp & Hg) & H).
        exists l, g. split; [|exact H]. exists q. split; [now apply P|]. apply Fin. now left.
      * destruct H as [w c w' c' (l1 & H1 & <- & <-) (l2 & g & (q & H2 & Hg) & <- & Hc)].
        unfold final_wt in Hg. rewrite Hf in Hg. destruct Hg as [[= <- <-]|[]].
        exists (l1 ++ (eps, 0) :: l2), 0. split.
        -- exists (nstates self + f)%nat. split; [|apply Fin; auto]. apply P. cbn [initial s2].
           rewrite (in_initial _ _ _ _ _ I). apply (ins_paths eps (initial self) self u s1 Ws Hi I); [exact Hi|].
           right. exists l1, l2, f. auto.
        -- rewrite word_app, word_eps, cost_app, cost_cons. split; [reflexivity|lia].
Qed.
