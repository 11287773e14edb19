(** Proofs for C68: the queues and the scanning of the words. *)
From Verif Require Import Base CompressionModel AlphabetModel StateModel StateSpec FinalsModel FinalsProps StringModel
  InputModel InputProps StreamModel StreamProps ProcessorModel ProcessorProofs TranslitModel TranslitSpec TranslitReadProofs TranslitMatchProofs.

(** * Gluing words *)
Definition before (A : list tunit) : list Z := concat (map (fun v => u_syms v ++ [32]) A).
Definition behind (C : list tunit) : list Z := concat (map (fun v => 32 :: u_syms v) C).
Lemma ahead_split : forall A b C, ahead (A ++ b :: C) = before A ++ u_syms b ++ behind C.
Proof.
  induction A as [|a A IH]; intros b C; [reflexivity|]. unfold before. cbn [map concat app]. fold (before A).
  rewrite <- app_assoc, <- IH. cbn [ahead app]. destruct A as [|a' A]; cbn [app]; unfold ahead; cbn [map concat];
    rewrite <- ?app_assoc; reflexivity.
Qed.
Lemma ahead_glue : forall u v us, ahead (glue u v :: us) = ahead (u :: v :: us).
Proof. intros u v us. unfold ahead, glue. cbn [u_syms map concat]. rewrite <- app_assoc. reflexivity. Qed.
Lemma glues_ahead : forall k us v vs, glues k us v vs -> ahead us = ahead (v :: vs).
Proof. intros k us v vs H. induction H as [u us|k u v us w ws H IH]; [reflexivity|]. now rewrite <- ahead_glue. Qed.
Lemma glues_app : forall j us v vs, glues j us v vs -> forall k w ws, glues k (v :: vs) w ws -> glues (j + k) us w ws.
Proof.
  intros j us v vs H. induction H as [u us|j u v us w ws H IH]; intros k w' ws' K; cbn [Nat.add]; [exact K|].
  constructor. now apply IH.
Qed.
Lemma glues_one : forall k us v a vs, glues k us v (a :: vs) -> glues (S k) us (glue v a) vs.
Proof. intros k us v a vs H. replace (S k) with (k + 1)%nat by lia. eapply glues_app; [exact H|]. constructor. constructor. Qed.
Lemma glues_grow : forall k us v vs, glues k us v vs -> forall u r, us = u :: r -> (length (u_syms u) <= length (u_syms v))%nat
  /\ firstn (length (u_syms u)) (u_syms v) = u_syms u.
Proof.
  intros k us v vs H. induction H as [u us|k u v us w ws H IH]; intros x r E; injection E as <- <-.
  - split; [lia|]. apply firstn_all.
  - destruct (IH (glue u v) us eq_refl) as [L F]. cbn [glue u_syms] in L, F. rewrite app_length in L. cbn [length] in L.
    split; [lia|]. apply (f_equal (firstn (length (u_syms u)))) in F. rewrite firstn_firstn, firstn_app, firstn_all, Nat.sub_diag in F.
    cbn [firstn] in F. rewrite app_nil_r, app_length in F. cbn [length] in F. rewrite Nat.min_l in F by lia. exact F.
Qed.
Lemma spot_glues : forall us e r u rest e' r', spot us e r u rest e' r' -> exists k, glues k us u rest.
Proof. intros us e r u rest e' r' [? ? ? H|? ? ? ? ? ? ? ? H|? ? ? ? ? H]; eauto. Qed.

(** * Word ends in common *)
Lemma same_end_spec : forall n a b, (length b <= n)%nat ->
  exists x y z, rev a = x ++ z /\ rev b = y ++ z /\ same_end n a b = length z
  /\ (forall c x' y', x = x' ++ [c] -> y = y' ++ [c] -> False).
Proof.
  induction n as [|n IH]; intros a b L.
  - destruct b; [|cbn in L; lia]. exists (rev a), [], []. rewrite app_nil_r. split; [reflexivity|]. split; [reflexivity|]. split; [reflexivity|]. intros c x' y' _ E. destruct y'; discriminate.
  - destruct a as [|c a].
    { exists [], (rev b), []. split; [reflexivity|]. split; [now rewrite app_nil_r|]. split; [reflexivity|]. intros c x' y' E _. destruct x'; discriminate. }
    destruct b as [|d b].
    { exists (rev (c :: a)), [], []. split; [now rewrite app_nil_r|]. split; [reflexivity|]. split; [reflexivity|]. intros e x' y' _ E. destruct y'; discriminate. }
    cbn [same_end rev]. destruct (c =? d) eqn:E.
    + assert (c = d) by lia. subst d. cbn [length] in L. destruct (IH a b ltac:(lia)) as (x & y & z & Ea & Eb & En & Hm).
      exists x, y, (z ++ [c]). rewrite Ea, Eb, <- !app_assoc, En, app_length. cbn [length]. split; [reflexivity|]. split; [reflexivity|]. split; [lia|exact Hm].
    + exists (rev a ++ [c]), (rev b ++ [d]), []. rewrite !app_nil_r. split; [reflexivity|]. split; [reflexivity|]. split; [reflexivity|].
      intros e x' y' E1 E2. apply app_inj_tail in E1 as [_ ->]. apply app_inj_tail in E2 as [_ ->]. lia.
Qed.
Lemma common_same : forall r syms start e, (start <= e)%nat -> (e <= length syms)%nat ->
  common_end r (skipn start (firstn e syms)) (same_end (e - start) (rev r) (rev (firstn e syms))).
Proof.
  intros r syms start e Hs He.
  assert (K : forall n a b, same_end n a b = same_end n a (firstn n b)).
  { induction n as [|n IH]; intros a b; [reflexivity|]. destruct a, b; cbn [same_end firstn]; try reflexivity. destruct (z =? z0); auto. }
  rewrite K. assert (E : firstn (e - start) (rev (firstn e syms)) = rev (skipn start (firstn e syms))).
  { rewrite firstn_rev, firstn_length, Nat.min_l by lia. f_equal. f_equal. lia. }
  rewrite E. destruct (same_end_spec (e - start) (rev r) (rev (skipn start (firstn e syms)))) as (x & y & z & Ea & Eb & En & Hm).
  { rewrite rev_length, skipn_length, firstn_length. lia. }
  rewrite rev_involutive in Ea, Eb. exists x, y, z. auto.
Qed.
Lemma common_end_unique : forall a b m n, common_end a b m -> common_end a b n -> m = n.
Proof.
  assert (K : forall a b m n, common_end a b m -> common_end a b n -> (m < n)%nat -> False).
  { intros a b m n (x & y & z & -> & -> & -> & Hm) (x' & y' & z' & Ex & Ey & -> & _) L.
    assert (E : forall (p p' q q' : list Z), p ++ q = p' ++ q' -> (length q < length q')%nat -> exists l c, p = p' ++ l ++ [c] /\ q' = (l ++ [c]) ++ q).
    { intros p p' q q' E Lq. apply app_eq_app in E as (l & [[-> ->]|[-> ->]]).
      - rewrite app_length in Lq. destruct l as [|c l] using rev_ind; [cbn in Lq; lia|]. exists l, c. rewrite <- !app_assoc. auto.
      - rewrite app_length in Lq. lia. }
    destruct (E _ _ _ _ Ex L) as (l & c & -> & E1). destruct (E _ _ _ _ Ey L) as (l' & c' & -> & E2).
    rewrite E1 in E2. apply app_inv_tail, app_inj_tail in E2 as [-> ->].
    apply (Hm c' (x' ++ l') (y' ++ l')); now rewrite app_assoc. }
  intros a b m n H1 H2. destruct (Nat.lt_trichotomy m n) as [H|[H|H]]; [exfalso; eauto|exact H|exfalso; eauto].
Qed.
Lemma common_end_le : forall a b n, common_end a b n -> (n <= length b)%nat.
Proof. intros a b n (x & y & z & _ & -> & -> & _). rewrite app_length. lia. Qed.

Lemma spaces_app : forall a b, spaces (a ++ b) = spaces a + spaces b.
Proof. intros a b. unfold spaces. rewrite filter_app, app_length. lia. Qed.
Lemma spaces_space : forall b, spaces (32 :: b) = 1 + spaces b.
Proof. intros b. unfold spaces. cbn [filter Z.eqb Pos.eqb length]. lia. Qed.
Lemma spaces_cons : forall c b, c <> 32 -> spaces (c :: b) = spaces b.
Proof. intros c b H. unfold spaces. cbn [filter]. now replace (32 =? c) with false by lia. Qed.

(** The states the scan can be in, however many rounds the closures are given *)
Inductive reached (P : processor) : list Z -> analyses -> Prop :=
| rc_init n st : initial_state (with_fuel P n) = Ok st -> reached P [] st
| rc_step n w c st st' : reached P w st -> step_override (with_fuel P n) c st = Ok st' -> reached P (w ++ [c]) st'.
Lemma with_own_fuel : forall P, with_fuel P (p_fuel P) = P.
Proof. intros []. reflexivity. Qed.
(** Room for words: one more than the symbols of each *)
Definition room (us : list tunit) : nat := fold_right (fun u n => S (length (u_syms u)) + n)%nat 0%nat us.
Lemma room_glues : forall k us v vs, glues k us v vs -> room us = room (v :: vs).
Proof.
  intros k us v vs H. induction H as [u us|k u v us w ws H IH]; [reflexivity|]. rewrite <- IH. unfold room, glue. cbn [fold_right u_syms].
  rewrite app_length. cbn [length]. lia.
Qed.

Section Scan.
  Context (P : processor) (cs drop : bool) (U : usable P) (Hsort : is_sort (p_sort P)).
  Context (init : analyses) (Hinit : initial_state P = Ok init).
  Context (Hsteady : forall w st, reached P w st -> beCaseSensitive P st = cs).
  Notation alpha := (p_alpha P).

  (** * Words that can be shown *)
  Definition sym_fine (c : Z) : Prop :=
    sym_ok P cs c /\ (c < 0 -> exists s, nth_error (slexicinv alpha) (Z.to_nat (- c - 1)) = Some s) /\ (0 <= c -> scalar c).
  Definition good (u : tunit) : Prop := Forall sym_fine (u_syms u).
  Definition balance (u : tunit) : Z := spaces (u_syms u) - Z.of_nat (length (u_inner u)).
  Definition fresh (u : tunit) : Prop := good u /\ u_syms u <> [] /\ balance u = 0.
  Definition fits (v : tunit) (vs : list tunit) (diff : Z) : Prop := good v /\ balance v = diff /\ Forall fresh vs.
  Lemma fine_space : sym_fine 32.
  Proof. split; [intros _; unfold plain_char; lia|]. split; [lia|]. intros _. unfold scalar. lia. Qed.
  Lemma fine_nonzero : forall c, nonzero P c -> sym_fine c.
  Proof.
    intros c [H|H].
    - split; [intros _; exact H|]. destruct H as [H1 H2]. split; [lia|]. intros _. unfold scalar. lia.
    - destruct H as (b & Hc & Hn & _). split.
      + intros [_ F]. apply (us_upper P U) in F. lia.
      + split; [|lia]. intros _. eauto.
  Qed.
  Lemma glue_fits : forall v a vs diff, fits v (a :: vs) diff -> fits (glue v a) vs diff.
  Proof.
    intros v a vs diff (G & B & F). inversion F as [|? ? (Ga & _ & Ba) F']; subst. split.
    - unfold good, glue. cbn [u_syms]. apply Forall_app. split; [exact G|]. constructor; [apply fine_space|exact Ga].
    - split; [|exact F']. unfold balance, glue in *. cbn [u_syms u_inner]. rewrite spaces_app, spaces_space, app_length. cbn [length]. lia.
  Qed.
  Lemma glues_fits : forall k us v vs, glues k us v vs -> forall u r diff, us = u :: r -> fits u r diff -> fits v vs diff.
  Proof.
    intros k us v vs H. induction H as [u us|k u v us w ws H IH]; intros x r diff E F; injection E as <- <-; [exact F|].
    eapply IH; [reflexivity|]. now apply glue_fits.
  Qed.

  (** ** Writing a word *)
  Lemma shown_spec : forall c, sym_fine c -> drop && (c =? 126) = false ->
    exists x, getSymbol c alpha = Ok x /\ shown_symbol P drop c = (if (0 <? c) && is_escaped c then [92] else []) ++ x.
  Proof.
    intros c (_ & Hn & Hs) Ed. unfold shown_symbol, getSymbol. rewrite Ed. destruct (c =? 0) eqn:E0.
    - exists []. split; [reflexivity|]. now replace (0 <? c) with false by lia.
    - destruct (c <? 0) eqn:E1.
      + destruct Hn as (s & Hn); [lia|]. rewrite Hn. exists s. split; [reflexivity|]. replace (0 <? c) with false by lia.
        cbn [andb app]. now apply nth_error_nth.
      + eexists. split; [reflexivity|]. replace (0 <? c) with true by lia. cbn [andb]. rewrite append_cp_utf16 by (apply Hs; lia). reflexivity.
  Qed.
  Lemma word_text_spec : forall word inner more diff count out, Forall sym_fine word ->
    count - diff - out = Z.of_nat (length inner) \/ (inner = [] /\ count <= out + diff) ->
    exists left, word_text P drop diff count out (inner ++ more) word = Ok (fst (inner_text P drop inner word), left ++ more)
      /\ snd (inner_text P drop inner word) = left
      /\ Z.of_nat (length left) = Z.max 0 (Z.of_nat (length inner) - spaces word).
  Proof.
    induction word as [|c word IH]; intros inner more diff count out Hw Hc.
    - exists inner. cbn [word_text inner_text fst snd]. split; [reflexivity|]. split; [reflexivity|]. unfold spaces. cbn [filter length]. lia.
    - inversion Hw as [|? ? Hf Hw']; subst. cbn [word_text inner_text]. destruct (c =? 32) eqn:E.
      + assert (c = 32) by lia. subst c. rewrite spaces_space. destruct inner as [|b inner].
        * cbn [length] in Hc. replace (count <=? out + diff) with true by lia. cbn [obind].
          destruct (IH [] more diff count (out + 1) Hw') as (left & E1 & E2 & E3). { right. split; [reflexivity|]. lia. }
          rewrite E1. cbn [obind]. destruct (inner_text P drop [] word) as [t l]. cbn [fst snd] in *. subst l.
          exists left. repeat split; auto. cbn [length] in *. unfold spaces in *. lia.
        * destruct Hc as [Hc|[X _]]; [|discriminate]. cbn [length] in Hc. replace (count <=? out + diff) with false by lia. cbn [app obind].
          destruct (IH inner more diff count (out + 1) Hw') as (left & E1 & E2 & E3). { left. lia. }
          rewrite E1. cbn [obind]. destruct (inner_text P drop inner word) as [t l]. cbn [fst snd] in *. subst l.
          exists left. repeat split; auto. cbn [length]. lia.
      + rewrite spaces_cons by lia. destruct (IH inner more diff count out Hw' Hc) as (left & E1 & E2 & E3).
        destruct (drop && (c =? 126)) eqn:Ed.
        * rewrite E1. destruct (inner_text P drop inner word) as [t l]. cbn [fst snd] in *. subst l.
          exists left. split; [|auto]. unfold shown_symbol. now rewrite Ed.
        * pose proof (shown_spec c Hf Ed) as G.
          destruct G as (x & -> & Ex). cbn [obind]. rewrite E1. cbn [obind].
          destruct (inner_text P drop inner word) as [t l]. cbn [fst snd] in *. subst l. exists left. split; [|auto].
          f_equal. f_equal. rewrite Ex, <- app_assoc. reflexivity.
  Qed.
  Lemma left_over_spec : forall left more, left_over (length left) (left ++ more)
    = Ok (concat (filter (fun b => if ustr_eq_dec b [32] then false else true) left), more).
  Proof.
    induction left as [|b left IH]; intros more; [reflexivity|]. cbn [length left_over app]. rewrite IH. cbn [obind filter].
    destruct (ustr_eq_dec b [32]); reflexivity.
  Qed.

  (** * The queues *)
  Definition qof (f : inf) (tb : list ustr) (l : list tunit) : queues :=
    mkQ f (concat (map (fun u => u_blank u :: u_inner u) l) ++ tb) (map (fun u => bound_text (u_bound u)) l) (map u_syms l).

  (** A section: its last blank, and where it ends *)
  Context (tail t : list Z) (E : inf -> Prop) (Htail : tblank (p_isspace P) tail) (Ht : end_text E t).
  Fixpoint stops (l : list titem) : Prop :=
    match l with
    | [] => True
    | i :: r => item_stop P i (concat (map titem_text r) ++ tail ++ t) /\ stops r
    end.
  Inductive feeds (f : inf) : list ustr -> list tunit -> Prop :=
  | fd_items its : Forall (titem_ok P) its -> stops its -> at_text f (concat (map titem_text its) ++ tail ++ t) ->
      feeds f [] (map (unit_of_item P) its)
  | fd_done tb : concat tb = utf16_text tail -> E f -> feeds f tb [].

  Lemma feed_more : forall f tb u l Q, feeds f tb (u :: l) -> exists f',
    readTWord P (qof f tb Q) = Ok (true, qof f' [] (Q ++ [u])) /\ feeds f' [] l.
  Proof.
    intros f tb u l Q H. remember (u :: l) as L eqn:EL. destruct H as [its Hok Hst Ha|]; [|discriminate].
    destruct its as [|i its]; [discriminate|]. cbn [map] in EL. injection EL as <- <-. cbn [stops] in Hst. destruct Hst as [H1 H2].
    inversion Hok as [|? ? Hi Hok']; subst. cbn [map concat] in Ha. rewrite <- app_assoc in Ha.
    destruct (readTWord_item P (us_space P U) i _ f (concat (map (fun u => u_blank u :: u_inner u) Q) ++ [])
                (map (fun u => bound_text (u_bound u)) Q) (map u_syms Q) Hi H1 Ha) as (f' & E1 & A').
    exists f'. split; [|now constructor]. etransitivity; [exact E1|]. unfold qof. rewrite !map_app, concat_app. cbn [map concat]. rewrite !app_nil_r. reflexivity.
  Qed.
  Lemma feed_end : forall f tb Q, feeds f tb [] -> exists f' tb',
    readTWord P (qof f tb Q) = Ok (false, qof f' tb' Q) /\ concat tb' = utf16_text tail /\ E f'.
  Proof.
    intros f tb Q H. remember [] as L eqn:EL in H. destruct H as [its Hok Hst Ha|tb Htb HE].
    - destruct its; [|discriminate]. cbn [map concat app] in Ha. unfold qof. rewrite app_nil_r.
      destruct (readTWord_tail P (us_space P U) tail t E f (concat (map (fun u => u_blank u :: u_inner u) Q))
        (map (fun u => bound_text (u_bound u)) Q) (map u_syms Q) Htail Ht Ha) as (f' & tb & E1 & E2 & E3). rewrite E1. eauto.
    - unfold qof. destruct (readTWord_stopped P t E f (concat (map (fun u => u_blank u :: u_inner u) Q) ++ tb)
        (map (fun u => bound_text (u_bound u)) Q) (map u_syms Q) Ht HE) as (f' & E1 & E2). rewrite E1. eauto.
  Qed.

  (** * Positions *)
  (** [place p q word pos v vs]: the queues [q] hold a part of the words [v :: vs], the rest is
      still to be read; [pos] in the word number [word] is the position [p]. *)
  Definition place (p : nat) (q : queues) (word pos : nat) (v : tunit) (vs : list tunit) : Prop :=
    exists A b C D f tb, v :: vs = (A ++ b :: C) ++ D /\ q = qof f tb (A ++ b :: C) /\ feeds f tb D
    /\ word = length A /\ (pos <= length (u_syms b))%nat /\ p = (length (before A) + pos)%nat.

  Lemma place_le : forall p q word pos v vs, place p q word pos v vs -> (p <= length (ahead (v :: vs)))%nat.
  Proof.
    intros p q word pos v vs (A & b & C & D & f & tb & -> & _ & _ & _ & Hp & ->). rewrite <- app_assoc. cbn [app].
    rewrite ahead_split, !app_length. lia.
  Qed.
  Definition moved (q : queues) (word pos : nat) (s : tstate) : tstate := set_match q word pos (x_match s) (x_last s) s.
  Lemma next_spec : forall p v vs s, place p (x_q s) (x_word s) (x_pos s) v vs ->
    match nth_error (ahead (v :: vs)) p with
    | Some sym => exists q word pos, next_symbol P s = Ok (sym, false, moved q word pos s) /\ place (S p) q word pos v vs
    | None => exists q, next_symbol P s = Ok (0, true, set_q q s) /\ place p q (x_word s) (x_pos s) v vs
        /\ p = length (ahead (v :: vs))
    end.
  Proof.
    intros p v vs s (A & b & C & D & f & tb & Ev & Eq & Hf & Ew & Hp & ->). unfold next_symbol. rewrite Eq, Ew.
    cbn [qof q_words]. rewrite map_app. cbn [map]. rewrite nth_error_app2, map_length, Nat.sub_diag by (rewrite map_length; lia). cbn [nth_error].
    assert (Ea : ahead (v :: vs) = before A ++ u_syms b ++ behind (C ++ D)).
    { rewrite Ev, <- app_assoc. cbn [app]. apply ahead_split. }
    rewrite Ea, nth_error_app2 by lia. replace (length (before A) + x_pos s - length (before A))%nat with (x_pos s) by lia.
    destruct (nth_error (u_syms b) (x_pos s)) as [sym|] eqn:En.
    - pose proof En as L. apply (f_equal (fun o => match o with Some _ => true | None => false end)) in L.
      assert (Lp : (x_pos s < length (u_syms b))%nat) by (apply nth_error_Some; congruence).
      rewrite nth_error_app1 by lia. rewrite En. eexists. eexists. eexists. split; [reflexivity|].
      exists A, b, C, D, f, tb. split; [exact Ev|]. split; [reflexivity|]. split; [exact Hf|]. split; [reflexivity|]. split; [lia|]. lia.
    - apply nth_error_None in En. assert (x_pos s = length (u_syms b)) by lia.
      rewrite nth_error_app2 by lia. replace (x_pos s - length (u_syms b))%nat with 0%nat by lia.
      assert (Lb : length (before (A ++ [b])) = (length (before A) + x_pos s + 1)%nat).
      { unfold before. rewrite map_app, concat_app, app_length. cbn [map concat]. rewrite app_nil_r, app_length. cbn [length]. lia. }
      rewrite app_length. cbn [length]. rewrite !map_length. destruct C as [|c C].
      + cbn [length]. replace (S (length A) =? length A + 1)%nat with true by lia. cbn [app]. destruct D as [|d D].
        * cbn [behind map concat nth_error]. destruct (feed_end f tb (A ++ [b]) Hf) as (f' & tb' & Er & Htb & HE).
          unfold qof in Er at 1. cbn [app] in Er. unfold qof. rewrite map_app in *. cbn [map] in *. rewrite Er. cbn [obind].
          eexists. split; [reflexivity|]. split.
          -- exists A, b, [], [], f', tb'. split; [exact Ev|]. split; [reflexivity|]. split; [now constructor|]. split; [lia|]. split; [lia|]. lia.
          -- rewrite !app_length. cbn [length]. lia.
        * unfold behind. cbn [map concat app nth_error]. destruct (feed_more f tb d D (A ++ [b]) Hf) as (f' & Er & Hf').
          unfold qof in Er at 1. unfold qof at 1. rewrite map_app in *. cbn [map] in *. rewrite Er. cbn [obind].
          eexists. eexists. eexists. split; [reflexivity|]. exists (A ++ [b]), d, [], D, f', []. split.
          { rewrite Ev, <- !app_assoc. reflexivity. }
          split; [reflexivity|]. split; [exact Hf'|]. split; [rewrite app_length; cbn [length]; lia|]. split; [lia|]. lia.
      + cbn [length]. replace (S (length A) =? length A + S (S (length C)))%nat with false by lia. cbn [obind].
        unfold behind. cbn [app map concat nth_error]. eexists. eexists. eexists. split; [reflexivity|].
        exists (A ++ [b]), c, C, D, f, tb. split.
        { rewrite Ev, <- !app_assoc. reflexivity. }
        split; [rewrite <- app_assoc; reflexivity|]. split; [exact Hf|]. split; [rewrite app_length; cbn [length]; lia|]. split; [lia|]. lia.
  Qed.

  (** ** Joining words *)
  Lemma merge_bounds : forall a b, merge_wblanks (bound_text a) (bound_text b) = Ok (bound_text (bound_both a b)).
  Proof.
    intros [x|] [y|]; cbn [bound_text bound_both merge_wblanks app]; try reflexivity.
    replace (Nat.ltb (length (91 :: 91 :: x ++ [93; 93])) 2) with false.
    2: { symmetry. cbn [length]. rewrite app_length. cbn [length]. lia. }
    replace (Nat.ltb (length (91 :: 91 :: y ++ [93; 93])) 2) with false.
    2: { symmetry. cbn [length]. rewrite app_length. cbn [length]. lia. }
    cbn [skipn]. f_equal. cbn [length]. rewrite app_length. cbn [length].
    replace (S (S (length x + 2)) - 2)%nat with (S (S (length x))) by lia. cbn [firstn].
    rewrite firstn_app, firstn_all, Nat.sub_diag. cbn [firstn]. rewrite app_nil_r. cbn [app]. rewrite <- app_assoc. reflexivity.
  Qed.
  Lemma qof_glue : forall f tb u v l, qof f tb (glue u v :: l) =
    mkQ f (q_blanks (qof f tb (u :: v :: l))) (bound_text (bound_both (u_bound u) (u_bound v)) :: map (fun u => bound_text (u_bound u)) l)
      ((u_syms u ++ [32] ++ u_syms v) :: map u_syms l).
  Proof.
    intros f tb u v l. unfold qof. cbn [map concat q_blanks glue u_blank u_inner u_bound u_syms]. f_equal.
    repeat (rewrite <- ?app_assoc; cbn [app]). reflexivity.
  Qed.
  Lemma joins_spec : forall k p q pos m last v vs, place p q (S k) pos v vs ->
    exists q1 v1 vs1, glues k (v :: vs) v1 vs1 /\ place p q1 1 pos v1 vs1 /\ join_loop (S k) q pos m last = join_loop 1 q1 pos m last.
  Proof.
    induction k as [|k IH]; intros p q pos m last v vs H.
    - exists q, v, vs. split; [constructor|]. auto.
    - destruct H as (A & b & C & D & f & tb & Ev & -> & Hf & EA & Hp & ->).
      destruct A as [|a [|a' A]]; try discriminate EA. cbn [app] in Ev. injection Ev as <- ->.
      assert (Pl : place (length (before (v :: a' :: A)) + pos) (qof f tb (glue v a' :: A ++ b :: C)) (S k) pos
                 (glue v a') ((A ++ b :: C) ++ D)).
      { exists (glue v a' :: A), b, C, D, f, tb. split; [reflexivity|]. split; [reflexivity|]. split; [exact Hf|].
        split; [cbn [length] in *; lia|]. split; [exact Hp|]. unfold before, glue. cbn [map concat u_syms].
        repeat (rewrite !app_length; cbn [length]). lia. }
      destruct (IH _ _ pos m last _ _ Pl) as (q1 & v1 & vs1 & G & P1 & J).
      exists q1, v1, vs1. split; [now constructor|]. split; [exact P1|]. rewrite <- J. rewrite qof_glue.
      cbn [app]. remember (S k) as k' eqn:Ek. cbn [join_loop qof q_words q_wblanks q_file q_blanks map].
      rewrite Ek at 1. rewrite merge_bounds. cbn [obind]. rewrite Ek. reflexivity.
  Qed.
  Lemma join_last : forall p q pos m last v vs, place p q 1 pos v vs -> last <> [] ->
    exists a rest q', vs = a :: rest /\ p = (S (length (u_syms v)) + pos)%nat /\ place p q' 0 p (glue v a) rest
    /\ join_loop 1 q pos m last =
       (if (pos =? 0)%nat && (List.last last 0 =? 32) then Ok (q, 1%nat, pos, length (u_syms v), removelast last)
        else Ok (q', 0%nat, p, m, last)).
  Proof.
    intros p q pos m last v vs (A & b & C & D & f & tb & Ev & -> & Hf & EA & Hp & ->) Hl.
    destruct A as [|a [|]]; try discriminate EA. cbn [app] in *. injection Ev as <- ->.
    assert (Ep : length (before [v]) = S (length (u_syms v))).
    { unfold before. cbn [map concat]. rewrite app_nil_r, app_length. cbn [length]. lia. }
    exists b, (C ++ D), (qof f tb (glue v b :: C)). split; [reflexivity|]. split; [lia|]. split.
    - exists [], (glue v b), C, D, f, tb. split; [reflexivity|]. split; [reflexivity|]. split; [exact Hf|]. split; [reflexivity|].
      unfold before at 2. cbn [map concat length Nat.add]. split; [|reflexivity].
      unfold glue. cbn [u_syms]. rewrite app_length. cbn [length]. lia.
    - rewrite qof_glue. cbn [join_loop qof q_words q_wblanks q_file q_blanks map].
      destruct last as [|x last]; [congruence|]. destruct ((pos =? 0)%nat && (List.last (x :: last) 0 =? 32)); [reflexivity|].
      rewrite merge_bounds. cbn [obind]. f_equal. f_equal. f_equal. f_equal. lia.
  Qed.

  (** * The match noted so far *)
  (** [noted us start k v vs last m]: of the pieces shorter than [k] *)
  Inductive noted (us : list tunit) (start k : nat) (v : tunit) (vs : list tunit) : ustr -> nat -> Prop :=
  | nt_none m : v :: vs = us -> (forall n, (n < k)%nat -> unknown P cs (firstn n (skipn start (ahead us)))) ->
      noted us start k v vs [] m
  | nt_some n r e r' : (n < k)%nat -> translates P cs (firstn n (skipn start (ahead us))) r ->
      (forall m, (n < m < k)%nat -> unknown P cs (firstn m (skipn start (ahead us)))) ->
      spot us (start + n) r v vs e r' -> Forall (nonzero P) r' ->
      noted us start k v vs (47 :: text_of P r') e.
  Lemma noted_glues : forall us start k v vs last m, noted us start k v vs last m -> exists j, glues j us v vs.
  Proof.
    intros us start k v vs last m [? <- _|n r e r' _ _ _ H _]; [exists 0%nat; constructor|]. eapply spot_glues; eauto.
  Qed.

  (** Letter case *)
  Definition cased (w : list Z) (s : tstate) : Prop :=
    x_firstupper s = starts_upper P w /\ x_uppercase s = all_upper P w
    /\ x_have1 s = (match filter (letter P) w with [] => false | _ => true end)
    /\ x_have2 s = (match filter (letter P) w with [] => false | [c] => negb (p_isupper P c) | _ => true end).
  Lemma cased_step : forall w c s, cased w s -> cased (w ++ [c]) (note_case P c s).
  Proof.
    intros w c s (H1 & H2 & H3 & H4). unfold note_case, cased, starts_upper, all_upper in *. rewrite !filter_app. cbn [filter].
    change (isAlphabetic P c) with (letter P c). destruct (letter P c).
    2: { rewrite !app_nil_r. auto. }
    destruct (filter (letter P) w) as [|a [|b r]]; cbn [app].
    - rewrite H3. cbn [negb]. destruct (p_isupper P c); cbn [x_firstupper x_uppercase x_have1 x_have2 negb]; auto.
    - rewrite H3, H4. cbn [negb]. destruct (p_isupper P a) eqn:Ea; cbn [negb x_firstupper x_uppercase x_have1 x_have2 andb]; auto.
    - rewrite H3, H4. cbn [negb]. auto.
  Qed.

  (** * A state inside a piece *)
  Record mid (us : list tunit) (start : nat) (w : list Z) (k : nat) (s : tstate) : Prop := {
    md_us : exists u r, us = u :: r /\ (start < length (u_syms u))%nat;
    md_w : w = firstn (length w) (skipn start (ahead us));
    md_start : x_start s = start;
    md_after : after P cs w (x_state s);
    md_reached : reached P w (x_state s);
    md_cased : cased w s;
    md_words : exists v vs, place (start + length w) (x_q s) (x_word s) (x_pos s) v vs /\ fits v vs (x_diff s)
      /\ ahead us = ahead (v :: vs) /\ noted us start k v vs (x_last s) (x_match s) }.

  Lemma ahead_fine : forall v vs diff, fits v vs diff -> Forall sym_fine (ahead (v :: vs)).
  Proof.
    intros v vs diff (G & _ & F). unfold ahead. apply Forall_app. split; [exact G|]. clear G. induction F as [|a vs (Ga & _) F IH]; [constructor|].
    cbn [map concat]. apply Forall_app. split; [constructor; [apply fine_space|exact Ga]|exact IH].
  Qed.
  Lemma mid_ok : forall us start w k s, mid us start w k s -> Forall (sym_ok P cs) w.
  Proof.
    intros us start w k s M. destruct (md_words _ _ _ _ _ M) as (v & vs & _ & F & Ea & _). rewrite (md_w _ _ _ _ _ M), Ea.
    pose proof (ahead_fine v vs _ F) as H. rewrite Forall_forall in *. intros x Hx.
    assert (Hin : In x (ahead (v :: vs))).
    { rewrite <- (firstn_skipn start (ahead (v :: vs))). apply in_or_app. right.
      rewrite <- (firstn_skipn (length w) (skipn start (ahead (v :: vs)))). apply in_or_app. now left. }
    apply (H x Hin).
  Qed.

  Definition same_rest (s s' : tstate) : Prop :=
    x_out s' = x_out s /\ x_start s' = x_start s /\ x_state s' = x_state s /\ x_diff s' = x_diff s
    /\ x_firstupper s' = x_firstupper s /\ x_uppercase s' = x_uppercase s /\ x_have1 s' = x_have1 s /\ x_have2 s' = x_have2 s.
  Lemma same_rest_mid : forall us start w k s s', mid us start w k s -> same_rest s s' ->
    (exists v vs, place (start + length w) (x_q s') (x_word s') (x_pos s') v vs /\ fits v vs (x_diff s)
      /\ ahead us = ahead (v :: vs) /\ noted us start (S (length w)) v vs (x_last s') (x_match s')) ->
    mid us start w (S (length w)) s'.
  Proof.
    intros us start w k s s' M (R1 & R2 & R3 & R4 & R5 & R6 & R7 & R8) H. destruct M as [M1 M2 M3 M4 M7 M5 M6].
    split; [exact M1|exact M2|congruence|rewrite R3; exact M4|rewrite R3; exact M7| |].
    - unfold cased in *. rewrite R5, R6, R7, R8. exact M5.
    - rewrite R4. exact H.
  Qed.
  Lemma note_spec : forall us start w s, mid us start w (length w) s ->
    exists s', note_match P s = Ok s' /\ mid us start w (S (length w)) s' /\ same_rest s s'.
  Proof.
    intros us start w s M. pose proof (mid_ok _ _ _ _ _ M) as Hok. destruct (final_iff P cs w (x_state s) (md_after _ _ _ _ _ M)) as [_ Hfin].
    pose proof (md_w _ _ _ _ _ M) as Ew. pose proof (md_words _ _ _ _ _ M) as (v & vs & Pl & F & Ea & N).
    unfold note_match. destruct (isFinal (all_finals P) (x_state s)) eqn:Ef.
    2: { assert (Hu : unknown P cs w) by now apply Hfin. exists s. split; [reflexivity|].
      assert (R : same_rest s s) by (unfold same_rest; auto 10). split; [|exact R]. eapply same_rest_mid; [exact M|exact R|].
      exists v, vs. split; [exact Pl|]. split; [exact F|]. split; [exact Ea|]. destruct N as [m Hv Hn|n r e r' Hn Htr Hm Hs Hr].
      - apply nt_none; [exact Hv|]. intros n Hk. destruct (Nat.eq_dec n (length w)) as [->|]; [now rewrite <- Ew|]. apply Hn. lia.
      - apply nt_some with (n := n) (r := r); [lia|exact Htr| |exact Hs|exact Hr]. intros j Hj. destruct (Nat.eq_dec j (length w)) as [->|]; [now rewrite <- Ew|]. apply Hm. lia. }
    destruct (best_match P cs U w (x_state s) Hsort (md_after _ _ _ _ _ M) Hok Ef) as (r & Er & Htr & Hr).
    destruct (md_cased _ _ _ _ _ M) as (C1 & C2 & _). rewrite C1, C2, Er. cbn [obind].
    destruct (noted_glues _ _ _ _ _ _ _ N) as (j & Gj). destruct (md_us _ _ _ _ _ M) as (u0 & r0 & Eus & Hst).
    assert (Htr' : translates P cs (firstn (length w) (skipn start (ahead us))) r) by now rewrite <- Ew.
    assert (Hno : forall m, (length w < m < S (length w))%nat -> unknown P cs (firstn m (skipn start (ahead us)))) by (intros m Hm; lia).
    destruct (x_word s) as [|k] eqn:Ek.
    - cbn [join_loop obind]. eexists. split; [reflexivity|].
      match goal with |- mid _ _ _ _ ?s' /\ _ => assert (R : same_rest s s') by (unfold same_rest; auto 10) end.
      split; [|exact R]. eapply same_rest_mid; [exact M|exact R|]. exists v, vs. cbn [set_match x_q x_word x_pos x_last x_match].
      split; [exact Pl|]. split; [exact F|]. split; [exact Ea|].
      assert (Epos : x_pos s = (start + length w)%nat /\ (x_pos s <= length (u_syms v))%nat).
      { destruct Pl as (A & b & C & D & f & tb & Ev & _ & _ & EA & Hp & Ep). destruct A; [|discriminate]. cbn in Ev, Ep. injection Ev as -> _. lia. }
      destruct Epos as [Epos Hle]. rewrite Epos. apply nt_some with (n := length w) (r := r); auto.
      destruct N as [m Hv Hn|n r1 e r1' Hn Htr1 Hm Hs Hr1].
      + rewrite <- Hv. apply sp_in; [constructor|lia].
      + destruct Hs as [r2 u2 rest2 G L|k2 v2 vs2 r2 u2 rest2 G L G' L' X|k2 r2 u2 v2 rest2 G L].
        * apply sp_in; [exact G|lia].
        * eapply sp_across; [exact G|lia|exact G'|lia|intros [Y _]; lia].
        * exfalso. lia.
    - destruct (joins_spec k _ _ _ (x_match s) (47 :: text_of P r) _ _ Pl) as (q1 & v1 & vs1 & G1 & P1 & J1). rewrite J1.
      destruct (join_last _ _ _ (x_match s) (47 :: text_of P r) _ _ P1 ltac:(discriminate)) as (a & rest & q2 & -> & Ep & P2 & J2). rewrite J2.
      pose proof (glues_app _ _ _ _ Gj _ _ _ G1) as G0. pose proof (glues_fits _ _ _ _ G1 v vs _ eq_refl F) as F1.
      pose proof (glues_ahead _ _ _ _ G0) as Ea1. rewrite text_last by exact Hr.
      destruct ((x_pos s =? 0)%nat && (last r 0 =? 32)) eqn:Esp.
      + cbn [obind]. eexists. split; [reflexivity|].
        match goal with |- mid _ _ _ _ ?s' /\ _ => assert (R : same_rest s s') by (unfold same_rest; auto 10) end.
        split; [|exact R]. eapply same_rest_mid; [exact M|exact R|]. exists v1, (a :: rest). cbn [set_match x_q x_word x_pos x_last x_match].
        split; [exact P1|]. split; [exact F1|]. split; [exact Ea1|]. apply andb_true_iff in Esp as [Z1 Z2].
        destruct r as [|c r] using rev_ind; [discriminate Z2|]. clear IHr. rewrite last_last in Z2. assert (c = 32) by lia. subst c.
        rewrite text_init by exact Hr. apply Forall_app in Hr as [Hr _].
        apply nt_some with (n := length w) (r := r ++ [32]); auto. eapply sp_space; [exact G0|lia].
      + cbn [obind]. eexists. split; [reflexivity|].
        match goal with |- mid _ _ _ _ ?s' /\ _ => assert (R : same_rest s s') by (unfold same_rest; auto 10) end.
        split; [|exact R]. eapply same_rest_mid; [exact M|exact R|]. exists (glue v1 a), rest. cbn [set_match x_q x_word x_pos x_last x_match].
        split; [exact P2|]. split; [now apply glue_fits|]. split; [now rewrite ahead_glue|].
        apply nt_some with (n := length w) (r := r); auto. eapply sp_across; [exact G0|lia|now apply glues_one| |].
        * destruct P2 as (A & b & C & D & f & tb & Ev & _ & _ & EA & Hp & Ep'). destruct A; [|discriminate]. cbn in Ev. injection Ev as -> _. exact Hp.
        * intros [X Y]. rewrite Y in Esp. replace (x_pos s =? 0)%nat with true in Esp by lia. discriminate Esp.
  Qed.

  (** * From one piece to the next *)
  Definition idle (us : list tunit) (s : tstate) : Prop :=
    exists f tb, feeds f tb us /\ Forall fresh us
    /\ s = mkTS (qof f tb []) (x_out s) 0 0 0 0 init [] 0 false false false false.
  Definition between (us : list tunit) (start : nat) (s : tstate) : Prop :=
    mid us start [] 0 s \/ (start = 0%nat /\ idle us s).
  Lemma begin_mid : forall u C D f tb start out diff, (start < length (u_syms u))%nat -> feeds f tb D -> fits u (C ++ D) diff ->
    mid (u :: C ++ D) start [] 0 (mkTS (qof f tb (u :: C)) out start 0 start 0 init [] diff false false false false).
  Proof.
    intros u C D f tb start out diff Hst Hf F. split.
    - eauto.
    - reflexivity.
    - reflexivity.
    - now apply after_init.
    - apply rc_init with (n := p_fuel P). now rewrite with_own_fuel.
    - unfold cased, starts_upper, all_upper. cbn. auto.
    - exists u, (C ++ D). cbn [x_q x_word x_pos x_diff x_last x_match]. split.
      + exists [], u, C, D, f, tb. cbn. repeat split; auto; lia.
      + split; [exact F|]. split; [reflexivity|]. apply nt_none; [reflexivity|]. intros n Hn. lia.
  Qed.
  Definition never_longer : Prop := forall w r, translates P cs w r -> (length r <= length w)%nat.

  Lemma finish_write : forall v C D f tb start s, x_q s = qof f tb (v :: C) -> x_start s = start -> x_last s = [] ->
    feeds f tb D -> fits v (C ++ D) (x_diff s) ->
    exists s1 d us' start', write_word P drop s = Ok s1 /\ x_out (restart init s1) = x_out s ++ d
      /\ between us' start' (restart init s1)
      /\ (forall t, rewrites P cs drop us' start' t -> rewrites P cs drop (v :: C ++ D) start (d ++ t))
      /\ ((us' = v :: C ++ D /\ start' = start /\ (start < length (u_syms v))%nat) \/ (us' = C ++ D /\ start' = 0%nat)).
  Proof.
    intros v C D f tb start s Eq Es El Hf F. unfold write_word. rewrite Eq, Es. cbn [qof q_words map].
    destruct (length (u_syms v) <=? start)%nat eqn:E1.
    - cbn [q_blanks q_wblanks q_file qof map concat app]. pose proof F as (G & B & Fr).
      destruct (word_text_spec (u_syms v) (u_inner v) (concat (map (fun u => u_blank u :: u_inner u) C) ++ tb) (x_diff s)
                  (spaces (u_syms v)) 0 G) as (left & Ew & Esn & Ll).
      { left. unfold balance in B. lia. }
      rewrite <- app_assoc. rewrite Ew. cbn [obind].
      replace (Z.to_nat (- x_diff s)) with (length left) by (unfold balance in B; lia).
      rewrite left_over_spec. cbn [obind].
      eexists. exists (shown P drop v), (C ++ D), 0%nat. split; [reflexivity|]. split.
      { cbn [restart x_out]. f_equal. unfold shown. destruct (inner_text P drop (u_inner v) (u_syms v)) as [t0 l0]. cbn [fst snd] in *. subst l0.
        f_equal. unfold bound_text, WBLANK_FINAL. destruct (u_bound v) as [b|]; cbn [app]; rewrite <- ?app_assoc; reflexivity. }
      split.
      { unfold restart. cbn [x_q x_out x_start x_last x_diff]. rewrite El. destruct C as [|c C].
        - right. split; [reflexivity|]. exists f, tb. cbn [app x_out] in *. split; [exact Hf|]. split; [apply F|]. reflexivity.
        - left. cbn [app] in Fr |- *. inversion Fr as [|? ? (Gc & Nc & Bc) Fr']; subst.
          refine (begin_mid c C D f tb 0 _ 0 _ Hf _).
          + destruct (u_syms c); [congruence|cbn [length]; lia].
          + split; [exact Gc|]. split; [exact Bc|exact Fr']. }
      split; [|right; auto]. intros t0 Hr. apply rw_write; [lia|exact Hr].
    - exists s, [], (v :: C ++ D), start. split; [reflexivity|]. split; [now rewrite app_nil_r|]. split.
      + left. unfold restart. rewrite Eq, Es, El. apply begin_mid; auto. lia.
      + split; [auto|]. left. split; [reflexivity|]. split; [reflexivity|]. lia.
  Qed.
  Lemma place_queue : forall p q word pos v vs, place p q word pos v vs ->
    exists C D f tb, q = qof f tb (v :: C) /\ vs = C ++ D /\ feeds f tb D.
  Proof.
    intros p q word pos v vs (A & b & C & D & f & tb & Ev & Eq & Hf & _). destruct A as [|a A]; cbn [app] in *; injection Ev as -> ->.
    - exists C, D, f, tb. auto.
    - exists (A ++ b :: C), D, f, tb. auto.
  Qed.
  Lemma finish_spec : forall us start k s v vs p, (exists u r, us = u :: r /\ (start < length (u_syms u))%nat) ->
    x_start s = start -> place p (x_q s) (x_word s) (x_pos s) v vs -> fits v vs (x_diff s) -> ahead us = ahead (v :: vs) ->
    (start + k <= S (length (ahead us)))%nat ->
    noted us start k v vs (x_last s) (x_match s) ->
    (forall n, (k <= n)%nat -> (start + n <= length (ahead us))%nat -> unknown P cs (firstn n (skipn start (ahead us)))) ->
    exists s' d us' start', (let! s := replace_match P s in let! s := write_word P drop s in Ok (restart init s)) = Ok s'
      /\ x_out s' = x_out s ++ d /\ between us' start' s'
      /\ (forall t, rewrites P cs drop us' start' t -> rewrites P cs drop us start (d ++ t))
      /\ (never_longer -> (room us' - start' < room us - start)%nat).
  Proof.
    intros us start k s v vs p (u & r & Eus & Hst) Es Pl F Ea Hk N Hu. destruct (place_queue _ _ _ _ _ _ Pl) as (C & D & f & tb & Eq & -> & Hf).
    destruct (noted_glues _ _ _ _ _ _ _ N) as (j & Gj). pose proof (room_glues _ _ _ _ Gj) as Er.
    destruct (glues_grow _ _ _ _ Gj u r Eus) as [Lv _]. pose proof Er as Er'. unfold room in Er'. cbn [fold_right] in Er'. fold (room (C ++ D)) in Er'.
    unfold replace_match. destruct (x_last s) as [|y text] eqn:El.
    - remember [] as la eqn:Ela in N. destruct N as [m Hv Hn|]; [|discriminate]. cbn [obind].
      match goal with |- context [write_word P drop ?s0] =>
        destruct (finish_write v C D f tb (S start) s0) as (s1 & d & us' & start' & Ew & Eo & Hb & Hr & Hs) end;
        [exact Eq|cbn; congruence|reflexivity|exact Hf|exact F|].
      rewrite Ew. cbn [obind]. eexists. exists d, us', start'. split; [reflexivity|]. split; [exact Eo|]. split; [exact Hb|]. split.
      + intros t0 Ht0. rewrite Eus in Hv. injection Hv as Hv1 Hv2. subst u r us. apply rw_skip.
        * exact Hst.
        * intros n0. set (l := length (ahead (v :: C ++ D))) in *.
          assert (En : exists n, firstn n0 (skipn start (ahead (v :: C ++ D))) = firstn n (skipn start (ahead (v :: C ++ D))) /\ (start + n <= l)%nat).
          { assert (Hl : (start <= l)%nat) by (unfold l, ahead; rewrite app_length; lia).
            destruct (Nat.le_gt_cases (start + n0) l) as [L|L]; [exists n0; auto|]. exists (l - start)%nat. split; [|lia].
            rewrite !firstn_all2; auto; rewrite skipn_length; fold l; lia. }
          destruct En as (n & -> & Ln). destruct (Nat.lt_ge_cases n k) as [L|L]; [apply Hn; exact L|apply Hu; [exact L|exact Ln]].
        * now apply Hr.
      + intros _. destruct Hs as [(-> & -> & Hs)|[-> ->]]; unfold room in *; cbn [fold_right] in *; lia.
    - remember (y :: text) as la eqn:Ela in N. destruct N as [|n r0 e r' Hn Htr Hm Hsp Hr]; [discriminate|]. injection Ela as <- <-.
      rewrite tokenize_text by exact Hr. cbn [obind]. rewrite Eq. cbn [qof q_words map].
      assert (He : (start <= e)%nat /\ (e <= length (u_syms v))%nat /\ (never_longer -> (length r' <= e - start)%nat)).
      { assert (NL : never_longer -> (length r0 <= n)%nat).
        { intros NL. apply NL in Htr. rewrite firstn_length in Htr. lia. }
        destruct Hsp as [r1 u1 rest1 G L|k1 v1 vs1 r1 u1 rest1 G L G' L' X|k1 r1 u1 v1 rest1 G L].
        - split; [lia|]. split; [exact L|]. intros X. apply NL in X. lia.
        - split; [lia|]. split; [exact L'|]. intros Y. apply NL in Y. lia.
        - split; [lia|]. split; [lia|]. intros X. apply NL in X. rewrite app_length in X. cbn [length] in X. lia. }
      destruct He as (He1 & He2 & He3). rewrite Es. replace ((e <? start)%nat || (length (u_syms v) <? e)%nat) with false.
      2: { symmetry. apply orb_false_iff. split; lia. }
      pose proof (common_same r' (u_syms v) start e He1 He2) as Hc. pose proof (common_end_le _ _ _ Hc) as Hcl.
      rewrite skipn_length, firstn_length, Nat.min_l in Hcl by lia.
      set (i := same_end (e - start) (rev r') (rev (firstn e (u_syms v)))) in *. cbn [obind].
      set (v' := mkU (u_blank v) (u_bound v) (firstn start (u_syms v) ++ r' ++ skipn e (u_syms v)) (u_inner v)).
      set (start1 := if (e - i =? start)%nat then S start else (e - i)%nat).
      assert (F' : fits v' (C ++ D) (x_diff s + (spaces (u_syms v') - spaces (u_syms v)))).
      { destruct F as (G & B & Fr). split; [|split; [|exact Fr]].
        - unfold good, v' in *. cbn [u_syms]. pose proof G as G2. rewrite <- (firstn_skipn start (u_syms v)) in G. apply Forall_app in G as [G _].
          rewrite <- (firstn_skipn e (u_syms v)) in G2. apply Forall_app in G2 as [_ G2].
          apply Forall_app. split; [exact G|]. apply Forall_app. split; [|exact G2].
          eapply Forall_impl; [|exact Hr]. intros c. apply fine_nonzero.
        - unfold balance, v' in *. cbn [u_syms u_inner]. lia. }
      match goal with |- context [write_word P drop ?s0] =>
        destruct (finish_write v' C D f tb start1 s0) as (s1 & d & us' & start' & Ew & Eo & Hb & Hrw & Hs') end;
        [reflexivity|reflexivity|reflexivity|exact Hf|exact F'|].
      rewrite Ew. cbn [obind]. eexists. exists d, us', start'. split; [reflexivity|]. split; [exact Eo|]. split; [exact Hb|]. split.
      + intros t0 Ht0. subst us. eapply rw_match with (n := n); [exact Hst|lia|exact Htr| |exact Hsp|exact Hc|].
        * intros m Hm1 Hm2. destruct (Nat.lt_ge_cases m k) as [L|L]; [apply Hm; lia|apply Hu; [exact L|exact Hm2]].
        * now apply Hrw.
      + intros NL. specialize (He3 NL).
        assert (L' : (length (u_syms v') <= length (u_syms v))%nat).
        { unfold v'. cbn [u_syms]. rewrite !app_length, firstn_length, skipn_length. lia. }
        assert (S1 : (start < start1)%nat).
        { unfold start1. destruct (Nat.eqb_spec (e - i) start); lia. }
        fold (room us) in Er'. destruct Hs' as [(-> & -> & Hs')|[-> ->]]; [unfold room at 1; cbn [fold_right]; fold (room (C ++ D))|]; lia.
  Qed.

  (** * A round *)
  Lemma prefix_next : forall (l : list Z) n c, nth_error l n = Some c -> firstn (S n) l = firstn n l ++ [c].
  Proof.
    induction l as [|x l IH]; intros [|n] c H; try discriminate; cbn [nth_error] in H.
    - injection H as ->. reflexivity.
    - cbn [firstn app]. now rewrite <- (IH n c).
  Qed.
  Lemma round_spec : forall us start w s, mid us start w (length w) s ->
    let sym := nth (start + length w) (ahead us) 0 in
    match step_override P sym (x_state s) with
      | Ok st => exists s', scan_round P drop init s = Ok s'
          /\ ((mid us start (w ++ [sym]) (length (w ++ [sym])) s' /\ x_out s' = x_out s)
              \/ exists d us' start', x_out s' = x_out s ++ d /\ between us' start' s'
                  /\ (forall t, rewrites P cs drop us' start' t -> rewrites P cs drop us start (d ++ t))
                  /\ (never_longer -> (room us' - start' < room us - start)%nat))
      | _ => forall s', scan_round P drop init s <> Ok s'
      end.
  Proof.
    intros us start w s M sym0. destruct (note_spec us start w s M) as (s1 & E1 & M1 & R). pose proof (md_words _ _ _ _ _ M1) as (v & vs & Pl & F & Ea & N).
    pose proof (next_spec _ _ _ _ Pl) as Hnext. pose proof R as (R1 & R2 & R3 & R4 & R5 & R6 & R7 & R8).
    pose proof (md_w _ _ _ _ _ M1) as Ew. pose proof (md_us _ _ _ _ _ M1) as Hus.
    assert (Lw : (start + length w <= length (ahead us))%nat) by (rewrite Ea; eapply place_le; exact Pl).
    destruct (nth_error (ahead (v :: vs)) (start + length w)) as [sym|] eqn:En.
    - destruct Hnext as (q & word & pos & E2 & Pl2).
      assert (Es0 : sym0 = sym) by (unfold sym0; rewrite Ea; apply nth_error_nth; exact En). rewrite Es0. clear sym0 Es0.
      assert (Ew' : w ++ [sym] = firstn (length (w ++ [sym])) (skipn start (ahead us))).
      { rewrite app_length. cbn [length]. replace (length w + 1)%nat with (S (length w)) by lia.
        rewrite (prefix_next _ _ sym); [now rewrite <- Ew|]. rewrite Ea. rewrite <- En. clear.
        generalize (ahead (v :: vs)) as l. induction start as [|n IH]; intros l; [reflexivity|]. destruct l as [|x l].
        - cbn [skipn Nat.add nth_error]. destruct (length w); reflexivity.
        - cbn [skipn Nat.add nth_error]. apply IH. }
      unfold scan_round. rewrite E1. cbn [obind]. rewrite E2. cbn [obind].
      assert (Xn : forall s0, x_state (note_case P sym s0) = x_state s0 /\ x_q (note_case P sym s0) = x_q s0 /\ x_out (note_case P sym s0) = x_out s0
        /\ x_start (note_case P sym s0) = x_start s0 /\ x_word (note_case P sym s0) = x_word s0 /\ x_pos (note_case P sym s0) = x_pos s0
        /\ x_match (note_case P sym s0) = x_match s0 /\ x_last (note_case P sym s0) = x_last s0 /\ x_diff (note_case P sym s0) = x_diff s0).
      { intros s0. unfold note_case. destruct (isAlphabetic P sym); [|auto 10]. destruct (negb (x_have1 s0)).
        - destruct (p_isupper P sym); auto 10.
        - destruct (negb (x_have2 s0)); auto 10. }
      destruct (Xn (moved q word pos s1)) as (X1 & X2 & X3 & X4 & X5 & X6 & X7 & X8 & X9). clear Xn.
      rewrite X1. cbn [moved set_match x_state]. rewrite R3.
      destruct (step_override P sym (x_state s)) as [st| | | |] eqn:Est; cbn [obind]; try (intros s'; discriminate).
      assert (Hbe : beCaseSensitive P (x_state s) = cs) by (eapply Hsteady; apply (md_reached _ _ _ _ _ M)).
      pose proof (after_step P cs U w sym (x_state s) st (md_after _ _ _ _ _ M) Hbe Est) as Ha.
      rewrite orb_false_r. destruct st as [|z st].
      + edestruct finish_spec with (us := us) (start := start) (k := S (length w)) (v := v) (vs := vs)
          as (s' & d & us' & start' & Ef & Eo & Hb & Hr & Hs); cycle 8.
        * rewrite Ef. exists s'. split; [reflexivity|]. right. exists d, us', start'. cbn [x_out] in Eo. rewrite X3 in Eo. cbn [moved set_match x_out] in Eo.
          rewrite R1 in Eo. auto.
        * exact Hus.
        * cbn [x_start]. rewrite X4. cbn [moved set_match x_start]. apply (md_start _ _ _ _ _ M1).
        * cbn [x_q x_word x_pos]. rewrite X2, X5, X6. exact Pl2.
        * cbn [x_diff]. rewrite X9. exact F.
        * exact Ea.
        * lia.
        * cbn [x_last x_match]. rewrite X7, X8. exact N.
        * intros n Hn _.
          assert (Ep : exists l, firstn n (skipn start (ahead us)) = (w ++ [sym]) ++ l).
          { exists (skipn (length (w ++ [sym])) (firstn n (skipn start (ahead us)))).
            rewrite <- (firstn_skipn (length (w ++ [sym])) (firstn n (skipn start (ahead us)))) at 1. f_equal.
            rewrite firstn_firstn, Nat.min_l; [now symmetry|]. rewrite app_length. cbn [length]. lia. }
          destruct Ep as (l & ->). eapply after_nil; [exact Ha|reflexivity].
      + eexists. split; [reflexivity|]. left. cbn [x_out]. rewrite X3. cbn [moved set_match x_out]. split; [|exact R1]. split.
        * exact Hus.
        * exact Ew'.
        * cbn [x_start]. rewrite X4. apply (md_start _ _ _ _ _ M1).
        * exact Ha.
        * cbn [x_state]. apply rc_step with (n := p_fuel P) (st := x_state s); [apply (md_reached _ _ _ _ _ M)|]. now rewrite with_own_fuel.
        * pose proof (md_cased _ _ _ _ _ M1) as Hc. apply (cased_step w sym) in Hc. unfold cased in *. cbn [x_firstupper x_uppercase x_have1 x_have2].
          unfold note_case, moved, set_match in *. cbn [x_have1 x_have2 x_uppercase x_firstupper] in *.
          destruct (isAlphabetic P sym); [|exact Hc]. destruct (negb (x_have1 s1)).
          -- destruct (p_isupper P sym); exact Hc.
          -- destruct (negb (x_have2 s1)); exact Hc.
        * exists v, vs. cbn [x_q x_word x_pos x_diff x_last x_match]. rewrite X2, X5, X6, X7, X8, X9. cbn [moved set_match x_q x_word x_pos x_diff x_last x_match].
          rewrite app_length. cbn [length]. replace (start + (length w + 1))%nat with (S (start + length w)) by lia.
          replace (length w + 1)%nat with (S (length w)) by lia. auto.
    - destruct Hnext as (q & E2 & Pl2 & El).
      assert (Es0 : sym0 = 0) by (unfold sym0; rewrite Ea; apply nth_overflow, nth_error_None; exact En). rewrite Es0. clear sym0 Es0. unfold scan_round. rewrite E1. cbn [obind]. rewrite E2. cbn [obind].
      assert (Xn : forall s0, x_state (note_case P 0 s0) = x_state s0 /\ x_q (note_case P 0 s0) = x_q s0 /\ x_out (note_case P 0 s0) = x_out s0
        /\ x_start (note_case P 0 s0) = x_start s0 /\ x_word (note_case P 0 s0) = x_word s0 /\ x_pos (note_case P 0 s0) = x_pos s0
        /\ x_match (note_case P 0 s0) = x_match s0 /\ x_last (note_case P 0 s0) = x_last s0 /\ x_diff (note_case P 0 s0) = x_diff s0).
      { intros s0. unfold note_case. destruct (isAlphabetic P 0); [|auto 10]. destruct (negb (x_have1 s0)).
        - destruct (p_isupper P 0); auto 10.
        - destruct (negb (x_have2 s0)); auto 10. }
      destruct (Xn (set_q q s1)) as (X1 & X2 & X3 & X4 & X5 & X6 & X7 & X8 & X9). clear Xn.
      rewrite X1. cbn [set_q x_state]. rewrite R3.
      destruct (step_override P 0 (x_state s)) as [st| | | |] eqn:Est; cbn [obind]; try (intros s'; discriminate).
      rewrite orb_true_r.
      edestruct finish_spec with (us := us) (start := start) (k := S (length w)) (v := v) (vs := vs)
          as (s' & d & us' & start' & Ef & Eo & Hb & Hr & Hs); cycle 8.
      * rewrite Ef. exists s'. split; [reflexivity|]. right. exists d, us', start'. cbn [x_out] in Eo. rewrite X3 in Eo. cbn [set_q x_out] in Eo.
        rewrite R1 in Eo. auto.
      * exact Hus.
      * cbn [x_start]. rewrite X4. cbn [set_q x_start]. apply (md_start _ _ _ _ _ M1).
      * cbn [x_q x_word x_pos]. rewrite X2, X5, X6. exact Pl2.
      * cbn [x_diff]. rewrite X9. exact F.
      * exact Ea.
      * lia.
      * cbn [x_last x_match]. rewrite X7, X8. exact N.
      * intros n Hn Hle. exfalso. rewrite Ea in Hle. lia.
  Qed.

  (** The round with the next state given *)
  Definition round_with (st : analyses) (s : tstate) : outcome tstate :=
    let! s := note_match P s in
    let! (sym, is_end, s) := next_symbol P s in
    let s := note_case P sym s in
    let s := mkTS (x_q s) (x_out s) (x_start s) (x_word s) (x_pos s) (x_match s) st (x_last s) (x_diff s)
               (x_firstupper s) (x_uppercase s) (x_have1 s) (x_have2 s) in
    if (match st with [] => true | _ => false end) || is_end then
      let! s := replace_match P s in
      let! s := write_word P drop s in
      Ok (restart init s)
    else Ok s.
  Lemma round_step : forall us start w s, mid us start w (length w) s ->
    scan_round P drop init s
    = (let! st := step_override P (nth (start + length w) (ahead us) 0) (x_state s) in round_with st s).
  Proof.
    intros us start w s M. destruct (note_spec us start w s M) as (s1 & E1 & M1 & R). pose proof (md_words _ _ _ _ _ M1) as (v & vs & Pl & F & Ea & N).
    pose proof (next_spec _ _ _ _ Pl) as Hnext. pose proof R as (_ & _ & R3 & _).
    assert (Xn : forall sym s0, x_state (note_case P sym s0) = x_state s0).
    { intros sym s0. unfold note_case. destruct (isAlphabetic P sym); [|auto]. destruct (negb (x_have1 s0)).
      - destruct (p_isupper P sym); auto.
      - destruct (negb (x_have2 s0)); auto. }
    destruct (nth_error (ahead (v :: vs)) (start + length w)) as [sym|] eqn:En.
    - destruct Hnext as (q & word & pos & E2 & Pl2). rewrite Ea, (nth_error_nth _ _ _ En).
      unfold scan_round, round_with. rewrite E1. cbn [obind]. rewrite E2. cbn [obind]. rewrite Xn. cbn [moved set_match x_state]. rewrite R3. reflexivity.
    - destruct Hnext as (q & E2 & Pl2 & El). rewrite Ea, (nth_overflow _ _ (proj1 (nth_error_None _ _) En)).
      unfold scan_round, round_with. rewrite E1. cbn [obind]. rewrite E2. cbn [obind]. rewrite Xn. cbn [set_q x_state]. rewrite R3. reflexivity.
  Qed.

  (** * A section *)
  Definition fresh_start (f : inf) (out : ustr) : tstate :=
    mkTS (mkQ f [] [] []) out 0 0 0 0 init [] 0 false false false false.
  Lemma refill_mid : forall us start w k s, mid us start w k s -> refill P s = Ok (inr (true, s)).
  Proof.
    intros us start w k s M. destruct (md_words _ _ _ _ _ M) as (v & vs & Pl & _). destruct (place_queue _ _ _ _ _ _ Pl) as (C & D & f & tb & Eq & _).
    unfold refill. rewrite Eq. reflexivity.
  Qed.
  Lemma wake : forall u us s, idle (u :: us) s -> exists s', mid (u :: us) 0 [] 0 s' /\ x_out s' = x_out s
    /\ refill P s = Ok (inr (true, s')).
  Proof.
    intros u us s (f & tb & Hf & F & Es). inversion F as [|? ? (G & N & B) F']; subst.
    assert (tb = []) as ->.
    { remember (u :: us) as L eqn:EL. destruct Hf; [reflexivity|discriminate]. }
    destruct (feed_more f [] u us [] Hf) as (f' & Er & Hf'). rewrite Es. unfold refill. cbn [x_q qof q_words map q_blanks q_file q_wblanks concat app].
    change (mkQ f [] [] []) with (qof f [] []). rewrite Er. cbn [obind app].
    eexists. split; [|split; [|reflexivity]].
    - unfold set_out. cbn [x_start x_word x_pos x_match x_state x_last x_diff x_firstupper x_uppercase x_have1 x_have2].
      refine (begin_mid u [] us f' [] 0 _ 0 _ Hf' _); [destruct (u_syms u); [congruence|cbn [length]; lia]|]. split; [exact G|]. split; [exact B|exact F'].
    - cbn [set_out x_out]. now rewrite app_nil_r.
  Qed.
  Lemma sleep : forall s, idle [] s -> exists f', E f' /\ refill P s =
    (let out := x_out s ++ utf16_text tail in
     if eof f' then Ok (inl out)
     else let! (c, f) := get f' in Ok (inr (false, fresh_start f (append_cp out c)))).
  Proof.
    intros s (f & tb & Hf & _ & Es). rewrite Es. unfold refill. cbn [x_q x_out qof q_words map q_blanks q_file q_wblanks concat app].
    remember [] as L eqn:EL in Hf. destruct Hf as [its Hok Hst Ha|tb Htb HE].
    - destruct its; [|discriminate]. destruct (feed_end f [] [] (fd_items f [] Hok Hst Ha)) as (f' & tb' & Er & Htb & HE).
      change (mkQ f [] [] []) with (qof f [] []). rewrite Er. exists f'. split; [exact HE|]. cbn [obind qof q_blanks q_file q_wblanks q_words map concat app].
      rewrite Htb, app_nil_r. reflexivity.
    - destruct (readTWord_stopped P t E f [] [] [] Ht HE) as (f' & Er & HE'). rewrite Er. exists f'. split; [exact HE'|].
      cbn [obind q_blanks q_file q_wblanks q_words map concat app]. rewrite Htb, app_nil_r. reflexivity.
  Qed.

  (** What follows the section *)
  Definition goes_on (fuel : nat) (out : ustr) (res : ustr) : Prop :=
    (t = [] /\ res = out) \/
    exists rest f fuel', t = 0 :: rest /\ at_text f rest /\ (fuel' < fuel)%nat
      /\ scan_loop P fuel' drop init (fresh_start f (out ++ [0])) = Ok res.
  Lemma section_spec : forall fuel s res, scan_loop P fuel drop init s = Ok res ->
    (forall us start w, mid us start w (length w) s ->
       exists d, rewrites P cs drop us start d /\ goes_on fuel (x_out s ++ d ++ utf16_text tail) res)
    /\ (forall us, idle us s -> exists d, rewrites P cs drop us 0 d /\ goes_on fuel (x_out s ++ d ++ utf16_text tail) res).
  Proof.
    assert (W : forall fuel out res, goes_on fuel out res -> goes_on (S fuel) out res).
    { intros fuel out res [H|(rest & f & fuel' & H1 & H2 & H3 & H4)]; [now left|]. right. exists rest, f, fuel'. split; [exact H1|]. split; [exact H2|]. split; [lia|exact H4]. }
    induction fuel as [|fuel IH]; intros s res H; [discriminate|]. cbn [scan_loop] in H.
    assert (A : forall us start w s1, mid us start w (length w) s1 ->
      (let! s := scan_round P drop init s1 in scan_loop P fuel drop init s) = Ok res ->
      exists d, rewrites P cs drop us start d /\ goes_on (S fuel) (x_out s1 ++ d ++ utf16_text tail) res).
    { intros us start w s1 M H1. pose proof (round_spec us start w s1 M) as Hr. cbn zeta in Hr.
      destruct (scan_round P drop init s1) as [s2| | | |] eqn:Er; cbn [obind] in H1; try discriminate.
      destruct (step_override P (nth (start + length w) (ahead us) 0) (x_state s1)) as [st| | | |]; try (exfalso; exact (Hr s2 eq_refl)).
      destruct Hr as (s' & Es & Hs). injection Es as <-. destruct (IH _ _ H1) as [I1 I2]. destruct Hs as [[M' Eo]|(d & us' & start' & Eo & Hb & Hw & _)].
      - destruct (I1 _ _ _ M') as (d & Hd & Hg). rewrite Eo in Hg. eauto.
      - assert (X : exists d', rewrites P cs drop us' start' d' /\ goes_on fuel (x_out s2 ++ d' ++ utf16_text tail) res).
        { destruct Hb as [M'|[-> Hi]]; [exact (I1 _ _ [] M')|exact (I2 _ Hi)]. }
        destruct X as (d' & Hd & Hg). exists (d ++ d'). split; [now apply Hw|]. rewrite Eo in Hg.
        replace (x_out s1 ++ (d ++ d') ++ utf16_text tail) with ((x_out s1 ++ d) ++ d' ++ utf16_text tail) by (rewrite <- !app_assoc; reflexivity).
        auto. }
    split.
    - intros us start w M. rewrite (refill_mid _ _ _ _ _ M) in H. cbn [obind] in H. eauto.
    - intros [|u us] Hi.
      + exists []. split; [constructor|]. cbn [app]. destruct (sleep s Hi) as (f' & HE & Er). rewrite Er in H. cbn zeta in H.
        unfold goes_on. destruct Ht as [[Et EE]|(rest & Et & EE)]; rewrite EE in HE.
        * pose proof HE as (Ee & _). unfold eof in H. rewrite Ee in H. cbn [obind] in H. injection H as <-. left. auto.
        * rewrite (at_text_eof _ _ HE) in H. destruct (get_at _ _ _ HE) as (f2 & Eg & A2 & _). rewrite Eg in H. cbn [obind] in H.
          right. exists rest, f2, fuel. rewrite append_cp_utf16 in H by (unfold scalar; lia). split; [exact Et|]. split; [exact A2|]. split; [lia|exact H].
      + destruct (wake u us s Hi) as (s' & M & Eo & Er). rewrite Er in H. cbn [obind] in H. destruct (A _ _ [] _ M H) as (d & Hd & Hg).
        rewrite Eo in Hg. eauto.
  Qed.

  (** * The words of a section *)
  Lemma symbol_fine : forall l, letter_ok P l -> letter_plain P l -> Forall scalar (letter_text l) ->
    sym_fine (letter_symbol P l) /\ (~ is_gap l -> letter_symbol P l <> 32).
  Proof.
    assert (C : forall c, scalar c -> (p_isupper P c = true -> c < 65536) -> sym_fine c).
    { intros c Hs Hp. split; [|split; [destruct Hs; lia|auto]]. intros [_ F]. pose proof (us_upper P U c F). specialize (Hp F).
      destruct Hs as [Hs1 Hs2]. split; [lia|exact Hs2]. }
    intros [c|c|b|b] H Hp Hs; cbn [letter_ok letter_plain letter_text letter_symbol is_gap] in *.
    - inversion Hs; subst. split; [now apply C|]. intros _ ->. apply (proj2 H). cbn. auto.
    - inversion Hs as [|? ? _ Hs']; subst. inversion Hs'; subst. split; [now apply C|]. intros _. apply H.
    - unfold symbol_code. destruct (map_find ustr_eq_dec _ (slexic alpha)) as [c|] eqn:Ef.
      + apply (us_tags P U) in Ef as [Hc Hn]. split; [|lia]. split; [|split; [eauto|lia]]. intros [_ F]. apply (us_upper P U) in F. lia.
      + split; [|lia]. split; [|split; [lia|intros _; unfold scalar; lia]]. intros [_ F]. apply (us_upper P U) in F. lia.
    - split; [apply fine_space|]. tauto.
  Qed.
  Lemma item_fresh : forall i, titem_ok P i -> Forall scalar (titem_text i) -> fresh (unit_of_item P i).
  Proof.
    intros i (Hb & Hne & Hl & Hp & _) Hs.
    assert (Hs' : Forall (fun l => Forall scalar (letter_text l)) (ti_letters i)).
    { assert (K : Forall scalar (concat (map letter_text (ti_letters i)))).
      { unfold titem_text in Hs. apply Forall_app in Hs as [_ Hs]. destruct (ti_bound i); [|exact Hs].
        apply Forall_app in Hs as [_ Hs]. apply Forall_app in Hs as [_ Hs]. apply Forall_app in Hs as [_ Hs]. apply Forall_app in Hs as [Hs _]. exact Hs. }
      clear -K. induction (ti_letters i) as [|l ls IH]; [constructor|]. cbn [map concat] in K. apply Forall_app in K as [K1 K2]. constructor; auto. }
    assert (K : Forall sym_fine (map (letter_symbol P) (ti_letters i)) /\ spaces (map (letter_symbol P) (ti_letters i)) = Z.of_nat (length (gaps (ti_letters i)))).
    { clear Hne Hs Hb. induction (ti_letters i) as [|l ls IH]; [split; [constructor|reflexivity]|].
      inversion Hl as [|? ? L1 Hl']; inversion Hp as [|? ? L2 Hp']; inversion Hs' as [|? ? L3 Hs'']; subst. destruct (IH Hl' Hp' Hs'') as [I1 I2].
      destruct (symbol_fine l L1 L2 L3) as [K1 K2]. cbn [map]. split; [now constructor|]. unfold gaps in *. cbn [map concat]. rewrite app_length.
      destruct l as [c|c|b|b]; [| | |cbn [letter_symbol]; rewrite spaces_space, I2; cbn [length Nat.add]; rewrite Nat2Z.inj_succ; apply Z.add_comm];
        (rewrite spaces_cons by (apply K2; cbn [is_gap]; tauto)); rewrite I2; reflexivity. }
    destruct K as [K1 K2]. split; [exact K1|]. split.
    - unfold unit_of_item. cbn [u_syms]. destruct (ti_letters i); [congruence|discriminate].
    - unfold balance, unit_of_item. cbn [u_syms u_inner]. lia.
  Qed.
  Lemma blank_head : forall b rest, tblank (p_isspace P) b -> b <> [] -> exists c r, b ++ rest = c :: r /\ (p_isspace P c = true \/ c = 91 \/ c = 0).
  Proof.
    intros b rest Hb Hn. destruct Hb as [|c r Hc Hlt Hb|b r Hbody Hhd Hb]; [congruence| |]; cbn [app]; eexists; eexists; (split; [reflexivity|]); auto.
  Qed.
  Lemma apart_stops : forall its null, Forall (titem_ok P) its -> apart its tail null -> (null = true -> exists r, t = 0 :: r) -> stops its.
  Proof.
    intros its null Hok Hap Hnull. induction its as [|i its IH]; [exact I|]. cbn [apart] in Hap. destruct Hap as [H1 H2].
    inversion Hok as [|? ? Hi Hok']; subst. split; [|now apply IH]. intros Hb. specialize (H1 Hb). unfold word_stop. destruct its as [|j its].
    - cbn [map concat app]. destruct H1 as [H1|H1].
      + apply blank_head; auto.
      + destruct (Hnull H1) as (r & ->). destruct tail as [|c tl] eqn:Et.
        * eexists. eexists. split; [reflexivity|]. auto.
        * rewrite <- Et. apply blank_head; [rewrite Et; exact Htail|]. rewrite Et. discriminate.
    - inversion Hok' as [|? ? (Hbj & _) _]; subst. cbn [map concat]. unfold titem_text. rewrite <- !app_assoc.
      destruct (ti_blank j) as [|c b] eqn:Eb.
      + destruct H1 as [H1|H1]; [congruence|]. destruct (ti_bound j) as [x|]; [|congruence]. cbn [app]. eexists. eexists. split; [reflexivity|]. auto.
      + rewrite <- Eb. apply blank_head; [rewrite Eb; exact Hbj|]. rewrite Eb. discriminate.
  Qed.
  Lemma section_start : forall its null f out, Forall (titem_ok P) its -> apart its tail null -> (null = true -> exists r, t = 0 :: r) ->
    at_text f (concat (map titem_text its) ++ tail ++ t) -> idle (map (unit_of_item P) its) (fresh_start f out).
  Proof.
    intros its null f out Hok Hap Hnull Ha. exists f, []. split; [|split; [|reflexivity]].
    - apply fd_items; auto. eapply apart_stops; eauto.
    - assert (Hs : Forall scalar (concat (map titem_text its))).
      { destruct Ha as (_ & rest & Hs & E0 & _). rewrite <- E0 in Hs. apply Forall_app in Hs as [Hs _]. exact Hs. }
      clear -Hok Hs U Htail Ht Hsteady Hinit Hsort drop. induction Hok as [|i its Hi Hok IH]; [constructor|]. cbn [map concat] in *.
      apply Forall_app in Hs as [S1 S2]. constructor; [now apply item_fresh|auto].
  Qed.
End Scan.
