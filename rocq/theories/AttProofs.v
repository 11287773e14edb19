(** AT&T files: the graph, and the transducer taken from it. *)
From Verif Require Import Base AlphabetModel TransducerModel TransducerSpec TransducerProofs AttModel.

Definition garc (g : graph) (n : Z) (t : transduction) : Prop := In t (node g n).
Definition has_type (T : Z) (t : transduction) : Prop := Z.land (tr_type t) T = T.

Lemma mem_in : forall x l, existsb (Z.eqb x) l = true <-> In x l.
Proof.
  intros x l. rewrite existsb_exists. split.
  - intros (y & H & E). apply Z.eqb_eq in E. now subst.
  - intros H. exists x. split; [exact H|apply Z.eqb_refl].
Qed.
Lemma mem_out : forall x l, existsb (Z.eqb x) l = false <-> ~ In x l.
Proof. intros x l. rewrite <- mem_in. destruct (existsb _ _); split; intros; congruence. Qed.

Lemma node_set : forall g id l n, node (set_node id l g) n = if n =? id then l else node g n.
Proof.
  induction g as [|[i l'] g IH]; intros id l n; cbn [set_node node].
  - reflexivity.
  - destruct (id =? i) eqn:E; cbn [node].
    + apply Z.eqb_eq in E as ->. destruct (n =? i); reflexivity.
    + rewrite IH. destruct (n =? i) eqn:F; [|reflexivity]. apply Z.eqb_eq in F as ->.
      rewrite Z.eqb_sym in E. now rewrite E.
Qed.
Lemma garc_all : forall g n t, garc g n t -> In t (flat_map snd g).
Proof.
  unfold garc. induction g as [|[i l] g IH]; intros n t H; cbn [node] in H; [destruct H|].
  cbn [flat_map snd]. apply in_or_app. destruct (n =? i); [now left|right; eauto].
Qed.

(** * Counting the states not visited *)
Definition left_over (U v : list Z) : nat := length (filter (fun u => negb (existsb (Z.eqb u) v)) U).
Lemma left_over_le : forall U v v', incl v v' -> (left_over U v' <= left_over U v)%nat.
Proof.
  unfold left_over. induction U as [|u U IH]; intros v v' H; cbn [filter]; [lia|].
  specialize (IH v v' H). destruct (existsb (Z.eqb u) v) eqn:E.
  - apply mem_in, H, mem_in in E. rewrite E. cbn [negb]. lia.
  - cbn [negb]. destruct (existsb (Z.eqb u) v'); cbn [negb length]; lia.
Qed.
Lemma left_over_lt : forall U v u, In u U -> ~ In u v -> (left_over U (u :: v) < left_over U v)%nat.
Proof.
  unfold left_over. induction U as [|x U IH]; intros v u HU Hv; [destruct HU|]. cbn [filter].
  assert (K := left_over_le U v (u :: v) ltac:(intros y Hy; now right)). unfold left_over in K.
  destruct HU as [-> | HU].
  - assert (E : existsb (Z.eqb u) (u :: v) = true) by (apply mem_in; now left). rewrite E.
    apply mem_out in Hv. rewrite Hv. cbn [negb length]. lia.
  - specialize (IH v u HU Hv). destruct (existsb (Z.eqb x) v) eqn:E.
    + assert (E' : existsb (Z.eqb x) (u :: v) = true) by (apply mem_in; right; now apply mem_in).
      rewrite E'. cbn [negb]. exact IH.
    + destruct (existsb (Z.eqb x) (u :: v)); cbn [negb length]; lia.
Qed.
Lemma left_over_all : forall U v, (left_over U v <= length U)%nat.
Proof.
  unfold left_over. induction U as [|u U IH]; intros v; cbn [filter]; [lia|].
  specialize (IH v). destruct (negb _); cbn [length]; lia.
Qed.

(** * Taking a transducer out of the graph *)
Lemma corr_set_find : forall k v l n, corr_find n (corr_set k v l) = if n =? k then Some v else corr_find n l.
Proof. reflexivity. Qed.

Section Extract.
  Context (g : graph) (T : Z).

  Record einv (st : xstate) : Prop := {
    ei_wf : wf (e_t st);
    ei_finals : finals (e_t st) = [];
    ei_initial : initial (e_t st) = 0%nat;
    ei_inj : forall a b i, corr_find a (e_corr st) = Some i -> corr_find b (e_corr st) = Some i -> a = b;
    ei_range : forall a i, corr_find a (e_corr st) = Some i -> (i < nstates (e_t st))%nat;
    ei_onto : forall i, (i < nstates (e_t st))%nat -> exists a, corr_find a (e_corr st) = Some i;
    ei_arcs : forall i tag j w, has_arc (e_t st) i tag j w ->
      exists a t, corr_find a (e_corr st) = Some i /\ garc g a t /\ has_type T t
        /\ tr_tag t = tag /\ corr_find (tr_to t) (e_corr st) = Some j /\ tr_wt t = w;
    ei_visited : forall a, In a (e_visited st) -> corr_find a (e_corr st) <> None
  }.
  Record ext (st st' : xstate) : Prop := {
    ex_corr : forall a i, corr_find a (e_corr st) = Some i -> corr_find a (e_corr st') = Some i;
    ex_visited : incl (e_visited st) (e_visited st');
    ex_arcs : forall i tag j w, has_arc (e_t st) i tag j w -> has_arc (e_t st') i tag j w
  }.
  Lemma ext_refl : forall st, ext st st.
  Proof. intros st. constructor; auto. apply incl_refl. Qed.
  Lemma ext_trans : forall a b c, ext a b -> ext b c -> ext a c.
  Proof. intros a b c [A1 A2 A3] [B1 B2 B3]. constructor; auto. eapply incl_tran; eassumption. Qed.

  (** The arc [t] of [a] is in the transducer (with some weight), and its target is visited. *)
  Definition represented (st : xstate) (a : Z) (t : transduction) : Prop :=
    In (tr_to t) (e_visited st) /\
    exists i j w, corr_find a (e_corr st) = Some i /\ corr_find (tr_to t) (e_corr st) = Some j
      /\ has_arc (e_t st) i (tr_tag t) j w.
  Lemma represented_ext : forall st st' a t, ext st st' -> represented st a t -> represented st' a t.
  Proof.
    intros st st' a t [E1 E2 E3] (H1 & i & j & w & H2 & H3 & H4). split; [now apply E2|].
    exists i, j, w. auto.
  Qed.

  (** One arc. *)
  Lemma link_step : forall st from it, einv st -> corr_find from (e_corr st) <> None -> garc g from it -> has_type T it ->
    exists st', (let new_to := match corr_find (tr_to it) (e_corr st) with Some _ => false | None => true end in
                 let from_t := match corr_find from (e_corr st) with Some s => s | None => 0%nat end in
                 match corr_find (tr_to it) (e_corr st) with
                 | Some to_t =>
                     let! t := linkStates from_t to_t (tr_tag it) (tr_wt it) (e_t st) in
                     Ok (mkX t (e_corr st) (e_visited st))
                 | None =>
                     let '(to_t, t) := insertNewSingleTransduction (tr_tag it) from_t (tr_wt it) (e_t st) in
                     Ok (mkX t (corr_set (tr_to it) to_t (e_corr st)) (e_visited st))
                 end) = Ok st'
      /\ einv st' /\ ext st st' /\ e_visited st' = e_visited st
      /\ (forall a, corr_find a (e_corr st') <> None -> corr_find a (e_corr st) <> None \/ a = tr_to it)
      /\ exists i j w, corr_find from (e_corr st') = Some i /\ corr_find (tr_to it) (e_corr st') = Some j
         /\ has_arc (e_t st') i (tr_tag it) j w.
  Proof.
    intros st from it I Hf Ha HT. cbn zeta.
    destruct (corr_find from (e_corr st)) as [i|] eqn:Ef; [|congruence]. clear Hf.
    destruct I as [W FN IN INJ RG ON AR VI].
    destruct (corr_find (tr_to it) (e_corr st)) as [j|] eqn:Et.
    - destruct (linkStates_spec i j (tr_tag it) (tr_wt it) (e_t st) W (RG _ _ Ef) (RG _ _ Et))
        as (t' & E & W' & N' & I' & F' & C).
      rewrite E. cbn [obind]. eexists. split; [reflexivity|].
      assert (M : forall p tag q w, has_arc (e_t st) p tag q w -> has_arc t' p tag q w).
      { intros p tag q w H. destruct C as [[-> _]|[_ C]]; [exact H|]. apply C. now left. }
      split; [|split; [|split; [reflexivity|split; [now left|]]]].
      + constructor; cbn [e_t e_corr e_visited]; auto; try congruence.
        * intros a k H. rewrite N'. eauto.
        * intros k H. rewrite N' in H. eauto.
        * intros p tag q w H.
          assert (K : has_arc (e_t st) p tag q w \/ (p = i /\ tag = tr_tag it /\ q = j /\ w = tr_wt it)).
          { destruct C as [[-> _]|[_ C]]; [now left|]. now apply C. }
          destruct K as [K|(-> & -> & -> & ->)]; [now apply AR|]. exists from, it. auto 10.
      + constructor; cbn [e_t e_corr e_visited]; auto. apply incl_refl.
      + cbn [e_t e_corr]. destruct C as [[-> (w & C)]|[_ C]].
        * exists i, j, w. auto.
        * exists i, j, (tr_wt it). split; [exact Ef|]. split; [exact Et|]. apply C. right. auto.
    - unfold insertNewSingleTransduction. destruct (newState_spec (e_t st)) as (S1 & S2 & S3 & S4 & S5).
      assert (W1 := newState_wf _ W). destruct (newState (e_t st)) as [to_t t1]. cbn [fst snd] in S1, S2, S3, S4, S5, W1. subst to_t.
      eexists. split; [reflexivity|].
      assert (Li : (i < nstates (e_t st))%nat) by eauto.
      assert (HA : forall p tag q w, has_arc (add_arc i (tr_tag it, (nstates (e_t st), tr_wt it)) t1) p tag q w <->
        has_arc (e_t st) p tag q w \/ (p = i /\ tag = tr_tag it /\ q = nstates (e_t st) /\ w = tr_wt it)).
      { intros p tag q w. rewrite has_arc_add by lia. unfold has_arc at 1. rewrite S5. unfold has_arc. intuition congruence. }
      split; [|split; [|split; [reflexivity|split]]].
      + constructor; cbn [e_t e_corr e_visited].
        * apply add_arc_wf; [exact W1|lia|lia].
        * cbn. congruence.
        * cbn. congruence.
        * intros a b k. rewrite !corr_set_find. destruct (a =? tr_to it) eqn:A, (b =? tr_to it) eqn:B; intros Ha' Hb'.
          -- lia.
          -- injection Ha' as <-. apply RG in Hb'. lia.
          -- injection Hb' as <-. apply RG in Ha'. lia.
          -- eauto.
        * intros a k. rewrite corr_set_find, nstates_add_arc, S2. destruct (a =? tr_to it); intros Hk.
          -- injection Hk as <-. lia.
          -- apply RG in Hk. lia.
        * intros k. rewrite nstates_add_arc, S2. intros Hk. destruct (Nat.eq_dec k (nstates (e_t st))) as [-> |D].
          -- exists (tr_to it). now rewrite corr_set_find, Z.eqb_refl.
          -- destruct (ON k ltac:(lia)) as (a & Ea). exists a. rewrite corr_set_find.
             destruct (a =? tr_to it) eqn:A; [|exact Ea]. apply Z.eqb_eq in A. subst a. congruence.
        * assert (OLD : forall a k, corr_find a (e_corr st) = Some k -> corr_find a (corr_set (tr_to it) (nstates (e_t st)) (e_corr st)) = Some k).
          { intros a k Hk. rewrite corr_set_find. destruct (a =? tr_to it) eqn:A; [|exact Hk]. apply Z.eqb_eq in A. subst a. congruence. }
          intros p tag q w H. apply HA in H as [H|(-> & -> & -> & ->)].
          -- apply AR in H as (a & t & H1 & H2 & H3 & H4 & H5 & H6). exists a, t. auto 10.
          -- exists from, it. split; [auto|]. split; [exact Ha|]. split; [exact HT|]. split; [reflexivity|].
             rewrite corr_set_find, Z.eqb_refl. auto.
        * intros a Hv. rewrite corr_set_find. destruct (a =? tr_to it); [discriminate|]. now apply VI.
      + constructor; cbn [e_t e_corr e_visited]; [|apply incl_refl|].
        * intros a k Hk. rewrite corr_set_find. destruct (a =? tr_to it) eqn:A; [|exact Hk]. apply Z.eqb_eq in A. subst a. congruence.
        * intros p tag q w H. apply HA. now left.
      + intros a. cbn [e_corr]. rewrite corr_set_find. destruct (a =? tr_to it) eqn:A; [right; lia|now left].
      + cbn [e_t e_corr]. exists i, (nstates (e_t st)), (tr_wt it). rewrite !corr_set_find, Z.eqb_refl.
        split; [destruct (from =? tr_to it) eqn:A; [apply Z.eqb_eq in A; subst from; congruence|exact Ef]|].
        split; [reflexivity|]. apply HA. now right.
  Qed.

  Definition universe (start : Z) : list Z := start :: map tr_to (flat_map snd g).
  Lemma target_universe : forall start a t, garc g a t -> In (tr_to t) (universe start).
  Proof. intros start a t H. right. apply in_map. eapply garc_all; eassumption. Qed.

  Lemma extract_ok : forall start fuel from st, einv st -> corr_find from (e_corr st) <> None -> In from (universe start) ->
    (left_over (universe start) (e_visited st) < fuel)%nat ->
    exists st', extract fuel g T from st = Ok st' /\ einv st' /\ ext st st' /\ In from (e_visited st')
      /\ (forall a, corr_find a (e_corr st') <> None -> corr_find a (e_corr st) <> None \/ In a (e_visited st'))
      /\ forall a t, In a (e_visited st') -> ~ In a (e_visited st) -> garc g a t -> has_type T t -> represented st' a t.
  Proof.
    intros start. induction fuel as [|fuel IH]; intros from st I Hf HU Hm; [lia|].
    cbn [extract]. destruct (existsb (Z.eqb from) (e_visited st)) eqn:Ev.
    - exists st. split; [reflexivity|]. split; [exact I|]. split; [apply ext_refl|]. split; [now apply mem_in|]. split; [now left|].
      intros a t H1 H2. contradiction.
    - apply mem_out in Ev.
      destruct (corr_find from (e_corr st)) as [i0|] eqn:Ef; [|congruence].
      pose (st0 := mkX (e_t st) (e_corr st) (from :: e_visited st)).
      assert (I0 : einv st0).
      { destruct I. constructor; cbn [st0 e_t e_corr e_visited]; auto. intros a [<-|Ha]; [congruence|auto]. }
      assert (E0 : ext st st0) by (constructor; cbn [st0 e_t e_corr e_visited]; auto; intros a Ha; now right).
      assert (Hm0 : (left_over (universe start) (e_visited st0) < fuel)%nat).
      { assert (K := left_over_lt (universe start) (e_visited st) from HU Ev). cbn [st0 e_visited]. lia. }
      fold st0.
      assert (V0 : forall a, In a (e_visited st0) -> a <> from -> In a (e_visited st)).
      { cbn [st0 e_visited]. intros a [<-|Ha] D; [congruence|exact Ha]. }
      assert (C0 : corr_find from (e_corr st0) <> None) by (cbn [st0 e_corr]; congruence).
      assert (B0 : In from (e_visited st0)) by (cbn [st0 e_visited]; now left).
      assert (D0 : e_corr st0 = e_corr st) by reflexivity.
      clearbody st0. clear Hm.
      (* the loop over the arcs *)
      assert (L : forall arcs s, (forall t, In t arcs -> garc g from t) -> einv s -> ext st0 s ->
        exists s', ext_arcs (extract fuel g T) T from false arcs s = Ok s' /\ einv s' /\ ext s s'
          /\ (forall a, corr_find a (e_corr s') <> None -> corr_find a (e_corr s) <> None \/ In a (e_visited s'))
          /\ (forall t, In t arcs -> has_type T t -> represented s' from t)
          /\ (forall a t, In a (e_visited s') -> ~ In a (e_visited s) -> garc g a t -> has_type T t -> represented s' a t)).
      { induction arcs as [|it arcs IHa]; intros s Harcs Is Es.
        - exists s. split; [reflexivity|]. split; [exact Is|]. split; [apply ext_refl|]. split; [now left|]. split; [intros t []|]. intros a t H1 H2. contradiction.
        - cbn [ext_arcs]. destruct (Z.land (tr_type it) T =? T) eqn:HT; cbn [negb].
          + apply Z.eqb_eq in HT. assert (Cs : corr_find from (e_corr s) <> None).
            { destruct (corr_find from (e_corr st0)) as [k|] eqn:K; [|congruence]. apply (ex_corr _ _ Es) in K. congruence. }
            assert (Git : garc g from it) by (apply Harcs; now left).
            destruct (link_step s from it Is Cs Git HT)
              as (s1 & E1 & I1 & X1 & V1 & N1 & i & j & w & R1 & R2 & R3). cbn zeta in E1 |- *. rewrite E1. cbn [obind].
            destruct (IH (tr_to it) s1 I1) as (s2 & E2 & I2 & X2 & V2 & N2 & R).
            { congruence. } { eapply target_universe; eassumption. }
            { rewrite V1. eapply Nat.le_lt_trans; [|exact Hm0]. apply left_over_le, (ex_visited _ _ Es). }
            rewrite E2. cbn [obind].
            assert (X02 : ext st0 s2) by (eapply ext_trans; [exact Es|]; eapply ext_trans; eassumption).
            destruct (IHa s2 (fun t Ht => Harcs t (or_intror Ht)) I2 X02) as (s3 & E3 & I3 & X3 & N3 & R3' & R4).
            exists s3. split; [exact E3|]. split; [exact I3|]. split; [eapply ext_trans; [exact X1|]; eapply ext_trans; eassumption|].
            split.
            { intros a Ha. apply N3 in Ha as [Ha|Ha]; [|now right]. apply N2 in Ha as [Ha|Ha]; [|right; apply (ex_visited _ _ X3); exact Ha].
              apply N1 in Ha as [Ha|Ha]; [now left|]. right. apply (ex_visited _ _ X3). now rewrite Ha. }
            split.
            * intros t [<-|Ht] Ty; [|now apply R3']. apply represented_ext with (st := s2); [exact X3|].
              split; [exact V2|]. exists i, j, w. repeat split; [apply (ex_corr _ _ X2); exact R1|apply (ex_corr _ _ X2); exact R2|apply (ex_arcs _ _ X2); exact R3].
            * intros a t H1 H2 H3 H4. destruct (in_dec Z.eq_dec a (e_visited s2)) as [D|D].
              -- apply represented_ext with (st := s2); [exact X3|]. apply R; auto. rewrite V1. exact H2.
              -- now apply R4.
          + destruct (IHa s (fun t Ht => Harcs t (or_intror Ht)) Is Es) as (s3 & E3 & I3 & X3 & N3 & R3 & R4).
            exists s3. split; [exact E3|]. split; [exact I3|]. split; [exact X3|]. split; [exact N3|]. split; [|exact R4].
            intros t [<-|Ht] Ty; [|now apply R3]. unfold has_type in Ty. apply Z.eqb_eq in Ty. congruence. }
      destruct (L (node g from) st0 (fun t Ht => Ht) I0 (ext_refl _)) as (s' & E & I' & X & N & R1 & R2).
      exists s'. split; [exact E|]. split; [exact I'|]. split; [eapply ext_trans; eassumption|].
      split; [apply (ex_visited _ _ X); exact B0|].
      split; [rewrite D0 in N; exact N|].
      intros a t H1 H2 H3 H4. destruct (Z.eq_dec a from) as [-> |D].
      + now apply R1.
      + apply R2; [exact H1| |exact H3|exact H4]. intros K. apply H2, V0; assumption.
  Qed.
End Extract.

(** ** Final states *)
Lemma zfind_app : forall k l m, zfind k (l ++ m) = match zfind k l with Some v => Some v | None => zfind k m end.
Proof. induction l as [|[k' v] l IH]; intros m; cbn [app zfind]; [reflexivity|]. destruct (k =? k'); auto. Qed.
Lemma zfind_in : forall k l v, zfind k l = Some v -> In (k, v) l.
Proof.
  induction l as [|[k' v'] l IH]; intros v H; cbn [zfind] in H; [discriminate|].
  destruct (k =? k') eqn:E; [apply Z.eqb_eq in E; injection H as <-; subst; now left|right; auto].
Qed.

Lemma ext_finals_spec : forall corr fins t, wf t ->
  (forall a b i, corr_find a corr = Some i -> corr_find b corr = Some i -> a = b) ->
  (forall a i, corr_find a corr = Some i -> (i < nstates t)%nat) ->
  let t' := ext_finals fins corr t in
  wf t' /\ initial t' = initial t /\ trans t' = trans t
  /\ forall i w, final_wt t' i w <->
     final_wt t i w \/ (~ is_final t i /\ exists a, corr_find a corr = Some i /\ zfind a fins = Some w).
Proof.
  induction fins as [|[s w] fins IH]; intros t W INJ RG; cbn [ext_finals zfind].
  - cbn zeta. split; [exact W|]. split; [reflexivity|]. split; [reflexivity|]. intros i v. split; [now left|].
    intros [H|(_ & a & _ & H)]; [exact H|discriminate].
  - destruct (corr_find s corr) as [k|] eqn:E.
    + assert (W' : wf (setFinal k w true t)).
      { destruct W as [W1 W2 W3 W4 W5]. constructor; cbn [setFinal initial finals trans].
        - exact W1.
        - intros p f H. unfold final_wt, setFinal in H. cbn [finals] in H. apply fin_insert_fst in H as [->|H]; [apply RG in E; exact E|].
          now apply W2 in H.
        - now apply fin_insert_sorted.
        - exact W4.
        - exact W5. }
      destruct (IH _ W' INJ RG) as (A1 & A2 & A3 & A4). cbn zeta. split; [exact A1|]. split; [now rewrite A2|]. split; [now rewrite A3|].
      intros i v. rewrite A4. clear A1 A2 A3 A4 IH.
      assert (SF : forall i v, final_wt (setFinal k w true t) i v <-> final_wt t i v \/ (i = k /\ v = w /\ ~ is_final t k)).
      { intros i' v'. unfold final_wt, setFinal. cbn [finals]. rewrite fin_insert_in by (destruct W; assumption).
        unfold is_final, final_wt. split; intros [H|(H1 & H2 & H3)]; auto; right; (split; [exact H1|]); (split; [exact H2|]).
        - intros (f & Hf). now apply H3 in Hf.
        - intros f Hf. apply H3. now exists f. }
      rewrite SF. split.
      * intros [[H|(-> & -> & H)]|(H & a & H1 & H2)]; [now left| |].
        -- right. split; [exact H|]. exists s. rewrite Z.eqb_refl. auto.
        -- right. split; [intros (f & Hf); apply H; exists f; apply SF; now left|].
           exists a. split; [exact H1|]. destruct (a =? s) eqn:D; [|exact H2]. exfalso. apply Z.eqb_eq in D. subst a.
           rewrite E in H1. injection H1 as ->. apply H.
           destruct (fin_find i (finals t)) as [f|] eqn:Ff.
           ++ exists f. apply SF. left. apply fin_find_some; [destruct W; assumption|exact Ff].
           ++ exists w. apply SF. right. split; [reflexivity|]. split; [reflexivity|]. intros (f & Hf).
              now apply (proj1 (fin_find_none i (finals t)) Ff f).
      * intros [H|(H & a & H1 & H2)]; [now left; left|]. destruct (a =? s) eqn:D.
        -- apply Z.eqb_eq in D. subst a. rewrite E in H1. injection H1 as ->. injection H2 as ->. left. right. auto.
        -- right. split; [|exists a; auto]. intros (f & Hf). apply SF in Hf as [Hf|(-> & -> & _)]; [apply H; now exists f|].
           assert (a = s) by (eapply INJ; eassumption). apply Z.eqb_neq in D. contradiction.
    + destruct (IH t W INJ RG) as (A1 & A2 & A3 & A4). cbn zeta. split; [exact A1|]. split; [exact A2|]. split; [exact A3|].
      intros i v. rewrite A4. split; (intros [H|(H & a & H1 & H2)]; [now left|right; split; [exact H|]; exists a; split; [exact H1|]]).
      * destruct (a =? s) eqn:D; [apply Z.eqb_eq in D; subst a; congruence|exact H2].
      * destruct (a =? s) eqn:D; [apply Z.eqb_eq in D; subst a; congruence|exact H2].
Qed.

(** ** The transducer taken out *)
(** [taken x start T t corr]: the states of [t] are the nodes reachable by arcs of type [T]. *)
Record taken (g : graph) (fins : list (Z * Z)) (start T : Z) (t : transducer) (corr : Z -> option nat) : Prop := {
  tk_wf : wf t;
  tk_start : corr start = Some (initial t);
  tk_inj : forall a b i, corr a = Some i -> corr b = Some i -> a = b;
  tk_onto : forall i, (i < nstates t)%nat -> exists a, corr a = Some i;
  tk_arcs : forall i tag j w, has_arc t i tag j w ->
    exists a s, corr a = Some i /\ garc g a s /\ has_type T s /\ tr_tag s = tag /\ corr (tr_to s) = Some j /\ tr_wt s = w;
  tk_all : forall a s i, corr a = Some i -> garc g a s -> has_type T s ->
    exists j w, corr (tr_to s) = Some j /\ has_arc t i (tr_tag s) j w;
  tk_finals : forall a i w, corr a = Some i -> (final_wt t i w <-> zfind a fins = Some w)
}.

Lemma extract_transducer_ok : forall x start T,
  exists t corr, extract_transducer x start T = Ok t /\ taken (x_graph x) (x_finals x) start T t corr.
Proof.
  intros x start T. unfold extract_transducer. set (g := x_graph x).
  assert (I : einv g T (mkX new_transducer [(start, 0%nat)] [])).
  { constructor; cbn [e_t e_corr e_visited corr_find].
    - apply new_transducer_wf.
    - reflexivity.
    - reflexivity.
    - intros a b i Ha Hb. destruct (a =? start) eqn:A; [|discriminate]. destruct (b =? start) eqn:B; [|discriminate]. lia.
    - intros a i Ha. destruct (a =? start); [|discriminate]. injection Ha as <-. cbn. lia.
    - intros i Hi. cbn in Hi. exists start. rewrite Z.eqb_refl. f_equal. lia.
    - intros i tag j w H. unfold has_arc, arcs_of in H. cbn in H. destruct i as [|[|]]; destruct H.
    - intros a []. }
  destruct (extract_ok g T start (S (S (narcs g))) start (mkX new_transducer [(start, 0%nat)] []) I)
    as (st & E & I' & X & V & N & R).
  { cbn [e_corr corr_find]. rewrite Z.eqb_refl. discriminate. }
  { now left. }
  { eapply Nat.le_lt_trans; [apply left_over_all|]. unfold universe, narcs. cbn [length]. rewrite map_length. lia. }
  rewrite E. cbn [obind].
  destruct (ext_finals_spec (e_corr st) (x_finals x) (e_t st) (ei_wf _ _ _ I') (ei_inj _ _ _ I') (ei_range _ _ _ I'))
    as (F1 & F2 & F3 & F4). set (t := ext_finals (x_finals x) (e_corr st) (e_t st)) in *.
  assert (HA : forall i tag j w, has_arc t i tag j w <-> has_arc (e_t st) i tag j w).
  { intros. unfold has_arc, arcs_of. now rewrite F3. }
  assert (NS : nstates t = nstates (e_t st)) by (unfold nstates; now rewrite F3).
  assert (VIS : forall a i, corr_find a (e_corr st) = Some i -> In a (e_visited st)).
  { intros a i Ha. destruct (N a) as [K|K]; [congruence| |exact K]. cbn [e_corr corr_find] in K.
    destruct (a =? start) eqn:A; [|congruence]. apply Z.eqb_eq in A. now subst a. }
  exists t, (fun a => corr_find a (e_corr st)). split; [reflexivity|]. constructor.
  - exact F1.
  - rewrite F2, (ei_initial _ _ _ I'). apply (ex_corr _ _ X). cbn [e_corr corr_find]. now rewrite Z.eqb_refl.
  - apply (ei_inj _ _ _ I').
  - rewrite NS. apply (ei_onto _ _ _ I').
  - intros i tag j w H. apply HA in H. now apply (ei_arcs _ _ _ I') in H.
  - intros a s i Ha Hs HT. destruct (R a s (VIS _ _ Ha) (fun K => K) Hs HT) as (_ & i' & j & w & R1 & R2 & R3).
    assert (i' = i) by congruence. subst i'. exists j, w. split; [exact R2|]. now apply HA.
  - intros a i w Ha. rewrite F4. unfold final_wt at 1, is_final, final_wt. rewrite (ei_finals _ _ _ I'). split.
    + intros [[]|(_ & b & Hb & Hz)]. now rewrite (ei_inj _ _ _ I' a b i Ha Hb).
    + intros H. right. split; [intros (f & [])|]. exists a. auto.
Qed.
