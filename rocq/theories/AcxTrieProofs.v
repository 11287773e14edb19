(** Growing a transducer as the dictionary compiler does when characters have equivalents: as
    TrieProofs.v, but an arc of the beginning shared by entries has companions, which read the
    equivalents. *)
From Verif Require Import Base AlphabetModel AlphabetProofs AlphabetProps TransducerModel TransducerSpec TransducerProofs ReverseProofs
  DeterminizeProofs MinimizeProofs RationalProofs RegexpProofs RegexpProps TrieProofs CompilerModel CompilerSpec CompilerProofs.

Section Tries.
  (** [U]: the symbols the entries read; [comp]: their equivalents, which the entries do not read. *)
  Context (U : Z -> Prop) (comp : Z -> list Z) (Hcomp : forall l x, U l -> In x (comp l) -> ~ U x /\ x <> 0).

  (** [p] is a pair of an entry. *)
  Definition own (p : Z * Z) : Prop := U (fst p) /\ p <> (0, 0).
  (** [p'] is [p] or has an equivalent for its left symbol. *)
  Definition kin (p p' : Z * Z) : Prop := snd p' = snd p /\ (fst p' = fst p \/ In (fst p') (comp (fst p))).

  Record atrie (a : alphabet) (T : transducer) (A : nat -> Prop) : Prop := {
    at_wf : wf T;
    at_lt : forall p, A p -> (p < nstates T)%nat;
    at_init : A (initial T);
    at_root : forall p t w, ~ has_arc T p t (initial T) w;
    at_code : forall s t q w, A s -> has_arc T s t q w -> t = 0 \/ exists p, decode t a = Ok p;
    at_arc : forall s t q w p, A s -> has_arc T s t q w -> decode t a = Ok p -> own p ->
      A q /\ (forall s' b v, has_arc T s' b q v -> s' = s /\ exists p', decode b a = Ok p' /\ kin p p')
      /\ forall p', kin p p' -> exists b v, decode b a = Ok p' /\ has_arc T s b q v;
    at_one : forall s t p, A s -> decode t a = Ok p -> own p -> (length (equal_range t (arcs_of T s)) <= 1)%nat
  }.
  Lemma own_kin : forall p p', own p -> own p' -> kin p p' -> p' = p.
  Proof.
    intros [l r] [l' r'] [Hu _] [Hu' _] [E [E'|E']]; cbn [fst snd] in *; [congruence|]. destruct (Hcomp _ _ Hu E'). contradiction.
  Qed.
  Lemma kin_refl : forall p, kin p p.
  Proof. intros p. split; auto. Qed.
  Lemma own_code : forall a t p, alph_inv0 a -> decode t a = Ok p -> own p -> t <> 0.
  Proof. intros a t p Ha Hd [_ Hp]. exact (decode_nonzero a t p Ha Hd Hp). Qed.
  Lemma kin_code : forall a t p p', alph_inv0 a -> own p -> kin p p' -> decode t a = Ok p' -> t <> 0.
  Proof.
    intros a t [l r] [l' r'] Ha [Hu Hp] [E [E'|E']] Hd; cbn [fst snd] in *; apply (decode_nonzero a t _ Ha Hd); [congruence|].
    destruct (Hcomp _ _ Hu E') as [_ X]. congruence.
  Qed.

  Lemma atrie_extends : forall a b T A, alph_inv0 b -> extends a b -> atrie a T A -> atrie b T A.
  Proof.
    intros a b T A Hb E [H1 H2 H3 H4 H5 H6 H7].
    assert (Back : forall s t q w p, A s -> has_arc T s t q w -> decode t b = Ok p -> own p -> decode t a = Ok p).
    { intros s t q w p Hs Ha Hd Ho. destruct (H5 s t q w Hs Ha) as [-> |(p' & Hp)]; [destruct (own_code b 0 p Hb Hd Ho); reflexivity|].
      pose proof (extends_decode a b t p' E Hp). congruence. }
    constructor; auto.
    - intros s t q w Hs Ha. destruct (H5 s t q w Hs Ha) as [-> |(p & Hp)]; [now left|]. right. exists p. now apply (extends_decode a b).
    - intros s t q w p Hs Ha Hd Ho. destruct (H6 s t q w p Hs Ha (Back _ _ _ _ _ Hs Ha Hd Ho) Ho) as (X & Y & Z0). split; [exact X|]. split.
      + intros s' c v Hc. destruct (Y s' c v Hc) as (-> & p' & Hp & Hk). split; [reflexivity|]. exists p'. split; [now apply (extends_decode a b)|exact Hk].
      + intros p' Hk. destruct (Z0 p' Hk) as (c & v & Hp & Hc). exists c, v. split; [now apply (extends_decode a b)|exact Hc].
    - intros s t p Hs Hd Ho. destruct (equal_range t (arcs_of T s)) as [|[t' [q w]] l] eqn:Er; [cbn; lia|]. rewrite <- Er.
      assert (X : In (t', (q, w)) (equal_range t (arcs_of T s))) by (rewrite Er; now left). apply equal_range_in in X as [X Y]. cbn in Y. subst t'.
      exact (H7 s t p Hs (Back s t q w p Hs X Hd Ho) Ho).
  Qed.
  Lemma atrie_root : forall a T A u, atrie a T A -> (reach T (initial T) u (initial T) <-> u = []).
  Proof.
    intros a T A u H. split.
    - intros R. inversion R as [|u' p t q w R' Ha]; [reflexivity|]. subst. now apply (at_root _ _ _ H) in Ha.
    - intros ->. constructor.
  Qed.
  Lemma atrie_add : forall a T A q, alph_inv0 a -> atrie a T A -> (q < nstates T)%nat -> quiet_at T q -> atrie a T (plus_state A q).
  Proof.
    intros a T A q Ha [H1 H2 H3 H4 H5 H6 H7] Hq Q. constructor; auto.
    - intros p [Hp| ->]; auto.
    - now left.
    - intros s t r w [Hs| ->] Harc; [eauto|]. left. exact (Q _ _ _ Harc).
    - intros s t r w p [Hs| ->] Harc Hd Ho.
      + destruct (H6 s t r w p Hs Harc Hd Ho) as (X & Y). split; [now left|exact Y].
      + apply Q in Harc. subst t. destruct (own_code a 0 p Ha Hd Ho). reflexivity.
    - intros s t p [Hs| ->] Hd Ho; [eauto|]. rewrite (quiet_range T q t Q (own_code a t p Ha Hd Ho)). cbn. lia.
  Qed.
  Lemma atrie_drop : forall a T A q p w, alph_inv0 a -> atrie a T (plus_state A q) -> A (initial T) -> has_arc T p 0 q w -> atrie a T A.
  Proof.
    intros a T A q p w Ha [H1 H2 H3 H4 H5 H6 H7] Hi Hq. constructor; auto.
    - intros r Hr. apply H2. now left.
    - intros s t r v Hs. apply H5. now left.
    - intros s t r v pr Hs Harc Hd Ho. destruct (H6 s t r v pr (or_introl Hs) Harc Hd Ho) as ([X|X] & Y & Y'); [auto|]. subst r.
      destruct (Y _ _ _ Hq) as (_ & p' & Hd' & Hk). destruct (kin_code a 0 pr p' Ha Ho Hk Hd'). reflexivity.
    - intros s t pr Hs. apply H7. now left.
  Qed.
  Lemma setFinal_atrie : forall a T A s w, atrie a T A -> (s < nstates T)%nat -> atrie a (setFinal s w true T) A.
  Proof. intros a T A s w [H1 H2 H3 H4 H5 H6 H7] Hs. constructor; auto. now apply setFinal_wf. Qed.

  (** * An empty step to a new state *)
  Lemma insertNew_empty : forall a T A e w, alph_inv0 a -> atrie a T A -> A e ->
    let T' := snd (insertNewSingleTransduction 0 e w T) in
    fst (insertNewSingleTransduction 0 e w T) = nstates T
    /\ nstates T' = S (nstates T)
    /\ enlarged T A T' /\ atrie a T' (plus_state A (nstates T))
    /\ (forall p t q v, has_arc T' p t q v <-> has_arc T p t q v \/ (p = e /\ t = 0 /\ q = nstates T /\ v = w))
    /\ forall u, reach T' (initial T') u (nstates T) <-> reach T (initial T) u e.
  Proof.
    intros a T A e w Ha H He T'. assert (Le := at_lt _ _ _ H e He). assert (W := at_wf _ _ _ H).
    destruct (newState_spec T) as (N1 & N2 & N3 & N4 & N5).
    assert (WN := newState_wf T W).
    assert (ET : insertNewSingleTransduction 0 e w T = (nstates T, add_arc e (0, (nstates T, w)) (snd (newState T)))) by reflexivity.
    assert (E' : T' = add_arc e (0, (nstates T, w)) (snd (newState T))) by (unfold T'; now rewrite ET).
    clearbody T'. rewrite ET. clear ET. cbn [fst].
    assert (Sz : nstates T' = S (nstates T)) by (rewrite E', nstates_add_arc; exact N2).
    assert (Arc : forall p t q v, has_arc T' p t q v <-> has_arc T p t q v \/ (p = e /\ t = 0 /\ q = nstates T /\ v = w)).
    { intros p t q v. rewrite E', has_arc_add by lia. unfold has_arc at 1. rewrite N5. unfold has_arc. split.
      - intros [X|[-> X]]; [auto|]. right. repeat split; congruence.
      - intros [X|(-> & -> & -> & ->)]; auto. }
    assert (W' : wf T') by (rewrite E'; apply add_arc_wf; [exact WN|lia|lia]).
    assert (I' : initial T' = initial T) by (rewrite E'; exact N3).
    assert (Li := at_lt _ _ _ H _ (at_init _ _ _ H)).
    assert (En : enlarged T A T').
    { constructor; auto.
      - rewrite E'. exact N4.
      - lia.
      - intros p t q v X. apply Arc. now left.
      - intros p t q v X. apply Arc in X as [X|(-> & -> & -> & ->)]; [auto|]. right. split; [lia|auto]. }
    split; [reflexivity|]. split; [exact Sz|]. split; [exact En|]. split; [|split; [exact Arc|]].
    - constructor; auto.
      + intros p [Hp| ->]; [apply (at_lt _ _ _ H) in Hp|]; lia.
      + rewrite I'. left. apply (at_init _ _ _ H).
      + intros p t v X. rewrite I' in X. apply Arc in X as [X|(_ & _ & X & _)]; [now apply (at_root _ _ _ H) in X|]. lia.
      + intros s t q v Hs X. apply Arc in X as [X|(_ & -> & _)]; [|now left]. apply has_arc_lt in X as Ls.
        assert (As : A s) by (destruct Hs as [Hs| ->]; [exact Hs|lia]). exact (at_code _ _ _ H _ _ _ _ As X).
      + intros s t q v p Hs X Hd Ho. apply Arc in X as [X|(_ & -> & _)]; [|destruct (own_code a 0 p Ha Hd Ho); reflexivity].
        assert (Ls := has_arc_lt _ _ _ _ _ X). assert (As : A s) by (destruct Hs as [Hs| ->]; [exact Hs|lia]).
        destruct (at_arc _ _ _ H s t q v p As X Hd Ho) as (Y & Z0 & Z1). split; [now left|]. split.
        * intros s' b y Hp. apply Arc in Hp as [Hp|(-> & -> & -> & ->)]; [exact (Z0 _ _ _ Hp)|]. apply (wf_arcs T W) in X. lia.
        * intros p' Hk. destruct (Z1 p' Hk) as (b & y & Hb & Hy). exists b, y. split; [exact Hb|]. apply Arc. now left.
      + intros s t p Hs Hd Ho. rewrite E'. rewrite range_add_other; [rewrite N5|lia|cbn; intros X; symmetry in X; exact (own_code a t p Ha Hd Ho X)].
        destruct Hs as [Hs| ->]; [now apply (at_one _ _ _ H s t p)|]. unfold arcs_of. rewrite nth_overflow by (unfold nstates; lia). cbn. lia.
    - intros u. rewrite I'. split.
      + intros R. inversion R as [X|u' p t q v R' Har]; [lia|]. subst u q. apply Arc in Har as [Har|(-> & -> & _ & _)]; [apply (wf_arcs T W) in Har; lia|].
        unfold sym. cbn. rewrite app_nil_r. now apply (enlarged_reach T A T' _ _ _ En Le).
      + intros R. rewrite <- (app_nil_r u). apply (reach_arc _ _ _ e 0 _ w); [now apply (enlarged_reach T A T' _ _ _ En Le)|]. apply Arc. auto.
  Qed.

  (** * A pair and its companions *)
  Lemma link_acx_spec : forall cs r e n w a T, alph_inv0 a -> wf T -> (e < nstates T)%nat -> (n < nstates T)%nat ->
    exists a' T', link_acx cs r e n w a T = Ok (a', T') /\ alph_inv0 a' /\ extends a a' /\ wf T' /\ nstates T' = nstates T
      /\ initial T' = initial T /\ finals T' = finals T
      /\ (forall p b q v, has_arc T p b q v -> has_arc T' p b q v)
      /\ (forall p b q v, has_arc T' p b q v -> has_arc T p b q v \/ (p = e /\ q = n /\ exists x, In x cs /\ decode b a' = Ok (x, r)))
      /\ (forall x, In x cs -> exists b v, decode b a' = Ok (x, r) /\ has_arc T' e b n v)
      /\ (forall s t, (forall x, In x cs -> decode t a' <> Ok (x, r)) -> equal_range t (arcs_of T' s) = equal_range t (arcs_of T s))
      /\ ((forall x, In x cs -> exists b v, decode b a = Ok (x, r) /\ has_arc T e b n v) -> a' = a /\ T' = T).
  Proof.
    induction cs as [|c cs IH]; intros r e n w a T Ha W He Hn; cbn [link_acx].
    - exists a, T. do 2 (split; [first [reflexivity|assumption]|]). split; [apply extends_refl|]. split; [exact W|].
      do 3 (split; [reflexivity|]). split; [auto|]. split; [auto|]. split; [intros x []|]. auto.
    - assert (PC := pair_code_ok (c, r) a Ha). destruct (pair_code (c, r) a) as [tag a1] eqn:Epc. destruct PC as (Ha1 & X1 & Dt & _).
      destruct (linkStates_spec e n tag w T W He Hn) as (T1 & E1 & W1 & N1 & I1 & F1 & Arcs). rewrite E1. cbn [obind].
      destruct (IH r e n w a1 T1 Ha1 W1 ltac:(lia) ltac:(lia)) as (a2 & T2 & E2 & Ha2 & X2 & W2 & N2 & I2 & F2 & Old & New & There & Rg & Same).
      exists a2, T2. assert (Dt2 := extends_decode a1 a2 tag _ X2 Dt).
      split; [exact E2|]. split; [exact Ha2|]. split; [exact (extends_trans _ _ _ X1 X2)|]. split; [exact W2|].
      split; [congruence|]. split; [congruence|]. split; [congruence|].
      assert (Arc : forall p b q v, has_arc T1 p b q v -> has_arc T p b q v \/ (p = e /\ b = tag /\ q = n)).
      { destruct Arcs as [[-> _]|[_ Arcs]]; intros p b q v X; [auto|]. apply Arcs in X as [X|(-> & -> & -> & _)]; auto. }
      assert (Arc' : forall p b q v, has_arc T p b q v -> has_arc T1 p b q v).
      { destruct Arcs as [[-> _]|[_ Arcs]]; intros p b q v X; [auto|]. apply Arcs. auto. }
      assert (Link : exists v, has_arc T1 e tag n v).
      { destruct Arcs as [[-> X]|[_ Arcs]]; [exact X|]. exists w. apply Arcs. auto. }
      split; [intros p b q v X; apply Old, Arc', X|]. split; [|split; [|split]].
      + intros p b q v X. apply New in X as [X|(-> & -> & x & Hx & Hd)].
        * apply Arc in X as [X|(-> & -> & ->)]; [now left|]. right. do 2 (split; [reflexivity|]). exists c. split; [now left|exact Dt2].
        * right. do 2 (split; [reflexivity|]). exists x. split; [now right|exact Hd].
      + intros x [<-|Hx]; [|now apply There]. destruct Link as (v & Hv). exists tag, v. split; [exact Dt2|]. now apply Old.
      + intros s t Ht. rewrite Rg by (intros x Hx; apply Ht; now right).
        unfold linkStates in E1. destruct ((e <? nstates T) && (n <? nstates T))%nat; [|discriminate].
        destruct (existsb _ _); [congruence|]. assert (T1 = add_arc e (tag, (n, w)) T) as -> by congruence.
        apply range_add_other; [exact He|cbn]. intros E. subst t. exact (Ht c (or_introl eq_refl) Dt2).
      + intros All. destruct (All c (or_introl eq_refl)) as (b & v & Hb & Hv).
        assert (Hb' := Hb). apply decode_nth in Hb' as [B0 Hi].
        destruct (pair_code_nth a (c, r) (Z.to_nat b) (proj1 Ha) Hi) as [Ep _]. rewrite Z2Nat.id in Ep by exact B0.
        assert (tag = b) as -> by congruence. assert (a1 = a) as -> by congruence.
        assert (T1 = T) as ->.
        { destruct Arcs as [[-> _]|[No _]]; [reflexivity|]. destruct (No v Hv). }
        apply Same. intros x Hx. apply All. now right.
  Qed.

  Lemma atrie_step : forall a T A e tag p w, alph_inv0 a -> atrie a T A -> A e -> own p -> decode tag a = Ok p ->
    exists e' T1 a2 T2 A', insertSingleTransduction tag e w T = (Some e', T1)
      /\ link_acx (comp (fst p)) (snd p) e e' w a T1 = Ok (a2, T2) /\ alph_inv0 a2 /\ extends a a2
      /\ enlarged T A T2 /\ atrie a2 T2 A' /\ A' e' /\ (forall q, A q -> A' q) /\ (forall q, (q < nstates T)%nat -> A' q -> A q)
      /\ (forall p', kin p p' -> exists b, decode b a2 = Ok p')
      /\ forall u, reach T2 (initial T2) u e' <-> exists v b p', kin p p' /\ decode b a2 = Ok p' /\ reach T (initial T) v e /\ u = v ++ sym b.
  Proof.
    intros a T A e tag p w Ha H He Ho Ht. assert (Le := at_lt _ _ _ H e He). assert (W := at_wf _ _ _ H).
    assert (Nt := own_code a tag p Ha Ht Ho). assert (Li := at_lt _ _ _ H _ (at_init _ _ _ H)).
    unfold insertSingleTransduction. replace (e <? nstates T)%nat with true by (symmetry; apply Nat.ltb_lt; exact Le).
    assert (One := at_one _ _ _ H e tag p He Ht Ho).
    destruct (equal_range tag (arcs_of T e)) as [|[b [q v]] [|y l]] eqn:Er; [| |cbn in One; lia].
    - destruct (newState_spec T) as (N1 & N2 & N3 & N4 & N5). assert (WN := newState_wf T W).
      set (n := nstates T).
      exists n, (add_arc e (tag, (n, w)) (snd (newState T))). set (T1 := add_arc e (tag, (n, w)) (snd (newState T))).
      assert (Sz1 : nstates T1 = S n) by (unfold T1; rewrite nstates_add_arc; exact N2).
      assert (Arc1 : forall s t q v, has_arc T1 s t q v <-> has_arc T s t q v \/ (s = e /\ t = tag /\ q = n /\ v = w)).
      { intros s t q v. unfold T1. rewrite has_arc_add by lia. unfold has_arc at 1. rewrite N5. unfold has_arc. split.
        - intros [X|[-> X]]; [auto|]. right. repeat split; congruence.
        - intros [X|(-> & -> & -> & ->)]; auto. }
      assert (W1 : wf T1) by (apply add_arc_wf; [exact WN|fold n; lia|fold n; lia]).
      destruct (link_acx_spec (comp (fst p)) (snd p) e n w a T1 Ha W1 ltac:(fold n in Le; lia) ltac:(lia))
        as (a2 & T2 & E2 & Ha2 & X2 & W2 & Sz2 & I2 & F2 & Old & New & There & Rg & _).
      assert (H2 := atrie_extends a a2 T A Ha2 X2 H).
      assert (Ht2 := extends_decode a a2 tag p X2 Ht).
      assert (I2' : initial T2 = initial T) by (rewrite I2; exact N3).
      assert (Arc : forall s t q v, has_arc T2 s t q v -> has_arc T s t q v \/ (s = e /\ q = n /\ exists p', kin p p' /\ decode t a2 = Ok p')).
      { intros s t q v X. apply New in X as [X|(-> & -> & x & Hx & Hd)].
        - apply Arc1 in X as [X|(-> & -> & -> & _)]; [now left|]. right. do 2 (split; [reflexivity|]). exists p. split; [apply kin_refl|exact Ht2].
        - right. do 2 (split; [reflexivity|]). exists (x, snd p). split; [|exact Hd]. split; [reflexivity|]. right. exact Hx. }
      assert (Arc' : forall s t q v, has_arc T s t q v -> has_arc T2 s t q v) by (intros s t q v X; apply Old, Arc1; now left).
      assert (Mine : forall p', kin p p' -> exists t v, decode t a2 = Ok p' /\ has_arc T2 e t n v).
      { intros [x r'] [E K]. cbn [fst snd] in E, K. subst r'. destruct K as [-> |K].
        - exists tag, w. rewrite <- surjective_pairing. split; [exact Ht2|]. apply Old, Arc1. right. auto.
        - exact (There x K). }
      assert (En : enlarged T A T2).
      { constructor; [exact W2|exact I2'|rewrite F2; exact N4|fold n; lia|exact Arc'|].
        intros s t q v X. apply Arc in X as [X|(-> & -> & _)]; [now left|]. right. unfold n. split; [lia|now left]. }
      exists a2, T2, (plus_state A n). split; [reflexivity|]. split; [exact E2|]. split; [exact Ha2|]. split; [exact X2|]. split; [exact En|].
      split; [|split; [now right|split; [intros s Hs; now left|split; [|split]]]].
      + constructor; auto.
        * intros s [Hs| ->]; [apply (at_lt _ _ _ H) in Hs; fold n in Hs|]; lia.
        * rewrite I2'. left. apply (at_init _ _ _ H).
        * intros s t v X. rewrite I2' in X. apply Arc in X as [X|(_ & X & _)]; [now apply (at_root _ _ _ H) in X|]. unfold n in X. lia.
        * intros s t q v Hs X. apply Arc in X as [X|(_ & _ & p' & _ & Hd)]; [|right; eauto]. assert (Ls := has_arc_lt _ _ _ _ _ X). fold n in Ls.
          assert (As : A s) by (destruct Hs as [Hs| ->]; [exact Hs|lia]). exact (at_code _ _ _ H2 _ _ _ _ As X).
        * intros s t q v p0 Hs X Hd Ho0. apply Arc in X as [X|(-> & -> & p' & Hk & Hd')].
          -- assert (Ls := has_arc_lt _ _ _ _ _ X). fold n in Ls. assert (As : A s) by (destruct Hs as [Hs| ->]; [exact Hs|lia]).
             destruct (at_arc _ _ _ H2 s t q v p0 As X Hd Ho0) as (Y & Z0 & Z1). split; [now left|]. split.
             ++ intros s' b y Hp. apply Arc in Hp as [Hp|(-> & -> & _)]; [exact (Z0 _ _ _ Hp)|]. apply (wf_arcs T W) in X. fold n in X. lia.
             ++ intros p' Hk. destruct (Z1 p' Hk) as (b & y & Hb & Hy). exists b, y. split; [exact Hb|]. now apply Arc'.
          -- assert (p' = p0) as -> by congruence. assert (p0 = p) as -> by exact (own_kin p p0 Ho Ho0 Hk). split; [now right|]. split.
             ++ intros s' b y Hp. apply Arc in Hp as [Hp|(-> & _ & X)]; [apply (wf_arcs T W) in Hp; fold n in Hp; lia|]. split; [reflexivity|].
                destruct X as (p2 & K2 & D2). exists p2. auto.
             ++ intros p2 K2. destruct (Mine p2 K2) as (b & y & Hb & Hy). eauto.
        * intros s t p0 Hs Hd Ho0.
          assert (NotC : forall x, In x (comp (fst p)) -> decode t a2 <> Ok (x, snd p)).
          { intros x Hx E. assert (p0 = (x, snd p)) as -> by congruence. destruct (Hcomp (fst p) x (proj1 Ho) Hx) as [Nx _]. exact (Nx (proj1 Ho0)). }
          rewrite (Rg s t NotC). unfold T1. destruct (Z.eq_dec t tag) as [->|Na].
          -- destruct (Nat.eq_dec s e) as [->|Ne].
             ++ rewrite arcs_add_same by lia. rewrite N5. change tag with (a_tag (tag, (n, w))) at 1.
                rewrite range_insert_same. cbn [a_tag fst]. rewrite Er. cbn. lia.
             ++ rewrite arcs_add_other by exact Ne. rewrite N5. destruct Hs as [Hs| ->]; [now apply (at_one _ _ _ H2 s tag p0)|].
                unfold arcs_of. rewrite nth_overflow by (unfold n, nstates; lia). cbn. lia.
          -- rewrite range_add_other; [rewrite N5|lia|cbn; lia]. destruct Hs as [Hs| ->]; [now apply (at_one _ _ _ H2 s t p0)|].
             unfold arcs_of. rewrite nth_overflow by (unfold n, nstates; lia). cbn. lia.
      + intros s Ls [Hs| ->]; [exact Hs|unfold n in Ls; lia].
      + intros p' Hk. destruct (Mine p' Hk) as (b & _ & Hb & _). eauto.
      + intros u. rewrite I2'. split.
        * intros R. inversion R as [X|u' s t q v R' Har]; [unfold n in X; lia|]. subst u q.
          apply Arc in Har as [Har|(-> & _ & p' & Hk & Hd)]; [apply (wf_arcs T W) in Har; fold n in Har; lia|].
          exists u', t, p'. do 2 (split; [assumption|]). split; [|reflexivity]. now apply (enlarged_reach T A T2 _ _ _ En Le).
        * intros (v & b & p' & Hk & Hd & R & ->). destruct (Mine p' Hk) as (b' & y & Hb & Hy).
          assert (b' = b) as -> by exact (decode_unique a2 _ _ p' (proj1 Ha2) Hb Hd).
          apply (reach_arc _ _ _ e _ _ y); [now apply (enlarged_reach T A T2 _ _ _ En Le)|exact Hy].
    - assert (X : In (b, (q, v)) (equal_range tag (arcs_of T e))) by (rewrite Er; now left).
      apply equal_range_in in X as [X Y]. cbn in Y. subst b.
      destruct (at_arc _ _ _ H e tag q v p He X Ht Ho) as (Aq & In0 & Out0).
      assert (All : forall x, In x (comp (fst p)) -> exists b v, decode b a = Ok (x, snd p) /\ has_arc T e b q v).
      { intros x Hx. apply Out0. split; [reflexivity|]. right. exact Hx. }
      destruct (link_acx_spec (comp (fst p)) (snd p) e q w a T Ha W Le (at_lt _ _ _ H q Aq))
        as (a2 & T2 & E2 & _ & _ & _ & _ & _ & _ & _ & _ & _ & _ & Same). destruct (Same All) as [-> ->].
      exists q, T, a, T, A. split; [reflexivity|]. split; [exact E2|]. split; [exact Ha|]. split; [apply extends_refl|].
      split; [now apply enlarged_refl|]. split; [exact H|]. split; [exact Aq|]. split; [auto|]. split; [auto|]. split; [|intros u; split].
      + intros p' Hk. destruct (Out0 p' Hk) as (b & _ & Hb & _). eauto.
      + intros R. inversion R as [Eq|u' s b r y R' Har].
        * exfalso. subst q. exact (at_root _ _ _ H _ _ _ X).
        * subst. destruct (In0 _ _ _ Har) as (-> & p' & Hd & Hk). exists u', b, p'. auto.
      + intros (u' & b & p' & Hk & Hd & R & ->). destruct (Out0 p' Hk) as (b' & y & Hb & Hy).
        assert (b' = b) as -> by exact (decode_unique a _ _ p' (proj1 Ha) Hb Hd). exact (reach_arc _ _ _ _ _ _ _ R Hy).
  Qed.

  (** * A copy of another transducer *)
  Lemma ainserted_enlarged : forall a T A e u T', alph_inv0 a -> atrie a T A -> A e -> wf u -> inserted 0 e T u T' -> ranges_kept T T' ->
    enlarged T A T' /\ atrie a T' A
    /\ (forall i x, reach T' (initial T') x (nstates T + i) <->
          exists v y, reach T (initial T) v e /\ reach u (initial u) y i /\ x = v ++ y)
    /\ forall i, quiet_at u i -> quiet_at T' (nstates T + i).
  Proof.
    intros a T A e u T' Ha H He Wu I Rk. assert (Le := at_lt _ _ _ H e He). assert (W := at_wf _ _ _ H).
    destruct I as [I1 I2 I3 I4 I5].
    assert (En : enlarged T A T').
    { constructor; auto.
      - lia.
      - intros p b q w X. apply I5. auto.
      - intros p b q w X. apply I5 in X as [X|[(p' & q' & -> & -> & X)|(-> & -> & -> & ->)]]; [auto| |]; right; split; auto; lia. }
    split; [exact En|]. split; [|split].
    - constructor; auto.
      + intros p Hp. apply (at_lt _ _ _ H) in Hp. lia.
      + rewrite I2. apply (at_init _ _ _ H).
      + intros p b w X. rewrite I2 in X. assert (Y := at_lt _ _ _ H _ (at_init _ _ _ H)).
        apply I5 in X as [X|[(p' & q' & _ & X & _)|(_ & _ & X & _)]]; [now apply (at_root _ _ _ H) in X|lia|lia].
      + intros s t q w Hs X. assert (Ls := at_lt _ _ _ H s Hs).
        apply I5 in X as [X|[(p' & q' & -> & _ & _)|(_ & Y & _ & _)]]; [exact (at_code _ _ _ H _ _ _ _ Hs X)|lia|now left].
      + intros s t q w p Hs X Hd Ho. assert (Ls := at_lt _ _ _ H s Hs).
        apply I5 in X as [X|[(p' & q' & -> & _ & _)|(_ & Y & _ & _)]]; [|lia|subst t; destruct (own_code a 0 p Ha Hd Ho); reflexivity].
        destruct (at_arc _ _ _ H s t q w p Hs X Hd Ho) as (Aq & U0 & U1). split; [exact Aq|]. assert (Lq := at_lt _ _ _ H q Aq). split.
        * intros s' b v Y. apply I5 in Y as [Y|[(p' & q' & _ & -> & _)|(_ & _ & -> & _)]]; [exact (U0 _ _ _ Y)|lia|lia].
        * intros p' Hk. destruct (U1 p' Hk) as (b & v & Hb & Hv). exists b, v. split; [exact Hb|]. apply I5. now left.
      + intros s t p Hs Hd Ho. rewrite (Rk s t (at_lt _ _ _ H s Hs) (own_code a t p Ha Hd Ho)). now apply (at_one _ _ _ H s t p).
    - intros i x. rewrite I2. split.
      + intros R. remember (nstates T + i)%nat as q eqn:Eq. revert i Eq.
        induction R as [|x p b q w R IH Har]; intros i Eq.
        * assert (Y := at_lt _ _ _ H _ (at_init _ _ _ H)). lia.
        * apply I5 in Har as [Har|[(p' & q' & -> & -> & Har)|(-> & -> & -> & ->)]].
          -- apply (wf_arcs T W) in Har. lia.
          -- assert (q' = i) as -> by lia. destruct (IH p' eq_refl) as (v & y & R1 & R2 & ->).
             exists v, (y ++ sym b). split; [exact R1|]. split; [exact (reach_arc _ _ _ _ _ _ _ R2 Har)|apply app_assoc_reverse].
          -- assert (i = initial u) as -> by lia. exists x, []. split; [now apply (enlarged_reach T A T' _ _ _ En Le)|].
             split; [constructor|reflexivity].
      + intros (v & y & R1 & R2 & ->). apply (enlarged_reach T A T' _ _ _ En Le) in R1.
        apply (reach_app _ _ _ (nstates T + initial u)%nat).
        * rewrite <- (app_nil_r v). apply (reach_arc _ _ _ e 0 _ 0 R1). apply I5. right. right. auto.
        * clear R1. induction R2 as [|y p b q w R IH Har]; [constructor|]. apply (reach_arc _ _ _ (nstates T + p)%nat b _ w IH).
          apply I5. right. left. eauto.
    - intros i Q b q w X. apply I5 in X as [X|[(p' & q' & Ep & -> & X)|(Ep & -> & _)]]; [apply has_arc_lt in X; lia| |reflexivity].
      assert (p' = i) as -> by lia. exact (Q _ _ _ X).
  Qed.

  (** * Endings *)
  Lemma alink_ending : forall al T A S F P e, alph_inv0 al -> atrie al T A -> A e -> ending T A S F P ->
    exists T', linkStates e S 0 0 T = Ok T' /\ atrie al T' A /\ nstates T' = nstates T /\ initial T' = initial T
      /\ is_final T' F
      /\ (forall u, lang T' 0 u <-> lang T 0 u \/ exists v y, reach T (initial T) v e /\ P y /\ u = v ++ y)
      /\ (forall u q, A q -> reach T' (initial T) u q <-> reach T (initial T) u q)
      /\ (forall S2 F2 P2, ending T A S2 F2 P2 -> ending T' A S2 F2 P2).
  Proof.
    intros al T A S F P e Hal H He En. assert (Le := at_lt _ _ _ H e He). assert (W := at_wf _ _ _ H). assert (LS := en_start _ _ _ _ _ En).
    destruct (linkStates_spec e S 0 0 T W Le LS) as (T' & E & W' & N' & I' & F' & Arcs).
    exists T'. split; [exact E|].
    assert (Fin : forall q, is_final T' q <-> is_final T q) by (intros q; unfold is_final, final_wt; now rewrite F').
    assert (Arc : forall p a q w, has_arc T' p a q w -> has_arc T p a q w \/ (p = e /\ a = 0 /\ q = S)).
    { destruct Arcs as [[-> _]|[_ Arcs]]; intros p a q w X; [auto|]. apply Arcs in X as [X|(-> & -> & -> & _)]; auto. }
    assert (Arc' : forall p a q w, has_arc T p a q w -> has_arc T' p a q w).
    { destruct Arcs as [[-> _]|[_ Arcs]]; intros p a q w X; [auto|]. apply Arcs. auto. }
    assert (Link : exists w, has_arc T' e 0 S w).
    { destruct Arcs as [[-> X]|[_ Arcs]]; [exact X|]. exists 0. apply Arcs. auto. }
    assert (Rg : forall s a, a <> 0 -> equal_range a (arcs_of T' s) = equal_range a (arcs_of T s)).
    { intros s a Ha. unfold linkStates in E. destruct ((e <? nstates T) && (S <? nstates T))%nat; [|discriminate].
      destruct (existsb _ _); [congruence|]. assert (T' = add_arc e (0, (S, 0)) T) as -> by congruence.
      apply range_add_other; [exact Le|cbn; lia]. }
    assert (NS : ~ A S) by exact (proj2 (en_apart _ _ _ _ _ En [] S (reach_here _ _))).
    assert (R' : forall u q, reach T' (initial T) u q <->
      reach T (initial T) u q \/ exists v y, reach T (initial T) v e /\ reach T S y q /\ u = v ++ y).
    { intros u q. split.
      - intros R. induction R as [|u p a q w R IH Ha]; [left; constructor|].
        apply Arc in Ha as [Ha|(-> & -> & ->)].
        + destruct IH as [IH|(v & y & R1 & R2 & ->)]; [left; exact (reach_arc _ _ _ _ _ _ _ IH Ha)|].
          right. exists v, (y ++ sym a). split; [exact R1|]. split; [exact (reach_arc _ _ _ _ _ _ _ R2 Ha)|apply app_assoc_reverse].
        + destruct IH as [IH|(v & y & R1 & R2 & ->)].
          * right. exists u, []. split; [exact IH|]. split; [constructor|reflexivity].
          * exfalso. exact (proj2 (en_apart _ _ _ _ _ En _ _ R2) He).
      - assert (Up : forall s x r, reach T s x r -> reach T' s x r).
        { intros s x r R. induction R as [|x p a r w R IH Ha]; [constructor|exact (reach_arc _ _ _ _ _ _ _ IH (Arc' _ _ _ _ Ha))]. }
        intros [R|(v & y & R1 & R2 & ->)]; [auto|]. destruct Link as (w & Hl).
        apply (reach_app _ _ _ S); [|auto]. rewrite <- (app_nil_r v). exact (reach_arc _ _ _ _ _ _ _ (Up _ _ _ R1) Hl). }
    assert (RA : forall u q, A q -> reach T' (initial T) u q <-> reach T (initial T) u q).
    { intros u q Aq. rewrite R'. split; [|auto]. intros [R|(v & y & _ & R2 & _)]; [exact R|].
      exfalso. exact (proj2 (en_apart _ _ _ _ _ En _ _ R2) Aq). }
    split; [|split; [exact N'|split; [exact I'|split; [apply Fin; apply En|split; [|split; [exact RA|]]]]]].
    - constructor; auto.
      + intros p Hp. rewrite N'. now apply (at_lt _ _ _ H).
      + rewrite I'. apply (at_init _ _ _ H).
      + intros p a w X. rewrite I' in X. apply Arc in X as [X|(_ & _ & X)]; [now apply (at_root _ _ _ H) in X|].
        apply NS. rewrite <- X. apply (at_init _ _ _ H).
      + intros s t q w Hs X. apply Arc in X as [X|(_ & X & _)]; [exact (at_code _ _ _ H _ _ _ _ Hs X)|now left].
      + intros s t q w p Hs X Hd Ho. apply Arc in X as [X|(_ & X & _)]; [|subst t; destruct (own_code al 0 p Hal Hd Ho); reflexivity].
        destruct (at_arc _ _ _ H s t q w p Hs X Hd Ho) as (Aq & U0 & U1). split; [exact Aq|]. split.
        * intros s' b v Y. apply Arc in Y as [Y|(_ & _ & ->)]; [exact (U0 _ _ _ Y)|contradiction].
        * intros p' Hk. destruct (U1 p' Hk) as (b & v & Hb & Hv). exists b, v. auto.
      + intros s t p Hs Hd Ho. rewrite Rg by exact (own_code al t p Hal Hd Ho). now apply (at_one _ _ _ H s t p).
    - intros u. rewrite !lang_reach, I'. split.
      + intros (q & R & Fq). apply Fin in Fq. apply R' in R as [R|(v & y & R1 & R2 & ->)]; [left; eauto|].
        right. exists v, y. split; [exact R1|]. split; [apply En; eauto|reflexivity].
      + intros [(q & R & Fq)|(v & y & R1 & Py & ->)]; [exists q; split; [apply R'; auto|now apply Fin]|].
        apply En in Py as (q & R2 & Fq). exists q. split; [|now apply Fin]. apply R'. right. eauto.
    - intros S2 F2 P2 E2. apply (ending_kept T A S2 F2 P2 T' A E2); auto.
      + lia.
      + intros p a q w _ Np X. apply Arc in X as [X|(-> & _)]; [exact X|contradiction].
      + intros q X. now apply Fin.
      + intros q _ _ X. now apply Fin.
  Qed.

  (** * A copy whose last state is made final, without further growth there *)
  Lemma ainserted_final : forall al T A e u T' f fw, alph_inv0 al -> atrie al T A -> A e -> wf u -> inserted 0 e T u T' -> ranges_kept T T' ->
    finals u = [(f, fw)] ->
    let T2 := setFinal (nstates T + f) 0 true T' in
    atrie al T2 A
    /\ (forall x, lang T2 0 x <-> lang T 0 x \/ exists v y, reach T (initial T) v e /\ lang u 0 y /\ x = v ++ y)
    /\ (forall x q, (q < nstates T)%nat -> reach T2 (initial T) x q <-> reach T (initial T) x q)
    /\ (forall S F P, ending T A S F P -> ending T2 A S F P).
  Proof.
    intros al T A e u T' f fw Hal H He Wu I Rk Hf T2.
    destruct (ainserted_enlarged al T A e u T' Hal H He Wu I Rk) as (En & Tr & R & _).
    assert (Lf : (f < nstates u)%nat) by (apply (wf_finals u Wu f fw); unfold final_wt; rewrite Hf; now left).
    assert (Lu : forall y, lang u 0 y <-> reach u (initial u) y f).
    { intros y. rewrite lang_reach. split.
      - intros (q & Rq & (g & Hq)). unfold final_wt in Hq. rewrite Hf in Hq. destruct Hq as [Hq|[]]. congruence.
      - intros Ry. exists f. split; [exact Ry|]. exists fw. unfold final_wt. rewrite Hf. now left. }
    split; [apply setFinal_atrie; [exact Tr|rewrite (in_size _ _ _ _ _ I); lia]|]. split; [|split].
    - intros x. unfold T2. rewrite setFinal_lang by apply En. rewrite (enlarged_lang T A T' x (at_wf _ _ _ H) En), R.
      split; (intros [X|(v & y & R1 & R2 & ->)]; [auto|]; right; exists v, y; rewrite Lu in *; auto).
    - intros x q Lq. unfold T2. rewrite setFinal_reach. apply (enlarged_reach T A T' _ _ _ En Lq).
    - intros S F P E. apply (ending_setFinal_new T A S F P T'); auto. lia.
  Qed.

  (** ** Making a new ending *)
  Lemma anew_ending : forall al T A e u T' f fw, alph_inv0 al -> atrie al T A -> A e -> wf u -> finals u = [(f, fw)] ->
    let T1 := snd (insertNewSingleTransduction 0 e 0 T) in
    inserted 0 (nstates T) T1 u T' -> ranges_kept T1 T' ->
    let T2 := setFinal (nstates T1 + f) 0 true T' in
    atrie al T2 A
    /\ (forall x, lang T2 0 x <-> lang T 0 x \/ exists v y, reach T (initial T) v e /\ lang u 0 y /\ x = v ++ y)
    /\ (forall x q, (q < nstates T)%nat -> reach T2 (initial T) x q <-> reach T (initial T) x q)
    /\ ending T2 A (nstates T) (nstates T1 + f) (lang u 0)
    /\ (forall S F P, ending T A S F P -> ending T2 A S F P).
  Proof.
    intros al T A e u T' f fw Hal H He Wu Hf T1 I Rk T2. assert (W := at_wf _ _ _ H). assert (Le := at_lt _ _ _ H e He).
    destruct (insertNew_empty al T A e 0 Hal H He) as (_ & N1 & En1 & Tr1 & Arc1 & R1).
    fold T1 in N1, En1, Tr1, Arc1, R1.
    destruct (ainserted_final al T1 (plus_state A (nstates T)) (nstates T) u T' f fw Hal Tr1 (or_intror eq_refl) Wu I Rk Hf)
      as (Tr2 & L2 & R2 & E2). fold T2 in Tr2, L2, R2, E2.
    assert (I1 := el_initial _ _ _ En1).
    destruct (ainserted_enlarged al T1 (plus_state A (nstates T)) (nstates T) u T' Hal Tr1 (or_intror eq_refl) Wu I Rk) as (En2 & _ & _ & _).
    assert (Lf : (f < nstates u)%nat) by (apply (wf_finals u Wu f fw); unfold final_wt; rewrite Hf; now left).
    assert (Lu : forall y, lang u 0 y <-> reach u (initial u) y f).
    { intros y. rewrite lang_reach. split.
      - intros (q & Rq & (g & Hq)). unfold final_wt in Hq. rewrite Hf in Hq. destruct Hq as [Hq|[]]. congruence.
      - intros Ry. exists f. split; [exact Ry|]. exists fw. unfold final_wt. rewrite Hf. now left. }
    assert (ArcS : has_arc T2 e 0 (nstates T) 0).
    { change (has_arc T' e 0 (nstates T) 0). apply (el_old _ _ _ En2). apply Arc1. auto. }
    assert (I2 : initial T2 = initial T) by (change (initial T2) with (initial T'); rewrite (in_initial _ _ _ _ _ I); exact I1).
    split; [|split; [|split; [|split]]].
    - apply (atrie_drop al T2 A (nstates T) e 0 Hal Tr2); [|exact ArcS]. rewrite I2. apply (at_init _ _ _ H).
    - intros x. rewrite L2, (enlarged_lang T A T1 x W En1). split; (intros [X|(v & y & X & Y & ->)]; [auto|]; right; exists v, y; split; [now apply R1|auto]).
    - intros x q Lq. rewrite I1 in R2. rewrite R2 by lia. apply (enlarged_reach T A T1 _ _ _ En1 Lq).
    - assert (RS : forall x q, reach T2 (nstates T) x q <-> (x = [] /\ q = nstates T)
          \/ exists i, q = (nstates T1 + i)%nat /\ reach u (initial u) x i).
      { intros x q. unfold T2. rewrite setFinal_reach. split.
        - intros R. induction R as [|x p a q w R IH Ha]; [left; auto|]. right.
          apply (in_arcs _ _ _ _ _ I) in Ha as [Ha|[(p' & q' & -> & -> & Ha)|(-> & -> & -> & ->)]].
          + exfalso. apply Arc1 in Ha as [Ha|(Ep & _ & Eq & _)].
            * apply has_arc_lt in Ha. destruct IH as [[_ Ep]|(i & Ep & _)]; lia.
            * destruct IH as [[_ Eq']|(i & Eq' & _)]; lia.
          + exists q'. split; [reflexivity|]. destruct IH as [[_ X]|(i & X & Y)]; [lia|]. assert (i = p') as -> by lia.
            exact (reach_arc _ _ _ _ _ _ _ Y Ha).
          + exists (initial u). split; [reflexivity|]. destruct IH as [[-> _]|(i & X & Y)]; [constructor|lia].
        - intros [[-> ->]|(i & -> & R)]; [constructor|]. induction R as [|x p a q w R IH Ha].
          + change (@nil Z) with (@nil Z ++ sym 0). apply (reach_arc _ _ _ (nstates T) 0 _ 0); [constructor|].
            apply (in_arcs _ _ _ _ _ I). right. right. auto.
          + apply (reach_arc _ _ _ (nstates T1 + p)%nat a _ w IH). apply (in_arcs _ _ _ _ _ I). right. left. eauto. }
      assert (N2 : nstates T2 = (nstates T1 + nstates u)%nat) by exact (in_size _ _ _ _ _ I).
      assert (Fin : forall q, is_final T2 q <-> is_final T q \/ q = (nstates T1 + f)%nat).
      { intros q. unfold T2. rewrite setFinal_final by apply En2. rewrite (enlarged_final T1 _ T' q En2), (enlarged_final T A T1 q En1). tauto. }
      constructor.
      + lia.
      + apply Fin. now right.
      + intros x q R. apply RS in R as [[_ Eq]|(i & Eq & R)].
        * split; [lia|]. intros X. apply (at_lt _ _ _ H) in X. lia.
        * apply reach_lt in R; [|exact Wu|apply (wf_initial u Wu)]. split; [lia|]. intros X. apply (at_lt _ _ _ H) in X. lia.
      + intros x. rewrite Lu. split.
        * intros R. exists (nstates T1 + f)%nat. split; [apply RS; right; eauto|apply Fin; now right].
        * intros (q & R & Fq). apply RS in R as [[-> Eq]|(i & Eq & R)]; apply Fin in Fq as [(g & Fq)|Fq];
            try (apply (wf_finals T W) in Fq; lia); try lia. assert (i = f) as -> by lia. exact R.
    - intros S F P E. apply (ending_kept T A S F P T2 A E); auto.
      + change (nstates T2) with (nstates T'). assert (X := el_size _ _ _ En2). lia.
      + intros p a q w X. change (has_arc T' p a q w). apply (el_old _ _ _ En2), (el_old _ _ _ En1), X.
      + intros p a q w L N X. change (has_arc T' p a q w) in X.
        apply (in_arcs _ _ _ _ _ I) in X as [X|[(p' & q' & -> & _ & _)|(-> & _)]]; [|lia|lia].
        apply Arc1 in X as [X|(-> & _)]; [exact X|contradiction].
      + intros q X. unfold T2. apply setFinal_final; [apply En2|]. left. apply (enlarged_final T1 _ T' q En2), (enlarged_final T A T1 q En1), X.
      + intros q L N X. unfold T2 in X. apply setFinal_final in X as [X| ->]; [|lia|apply En2].
        apply (enlarged_final T1 _ T' q En2), (enlarged_final T A T1 q En1) in X. exact X.
  Qed.
End Tries.
