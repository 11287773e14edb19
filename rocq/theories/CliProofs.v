(** Proofs about the command line. *)
From Verif Require Import Base GenerationModel CliModel CliSpec.

Lemma arg_eqb_eq : forall a b, arg_eqb a b = true <-> a = b.
Proof.
  intros a b. unfold arg_eqb. destruct (list_eq_dec Z.eq_dec a b); split; intro H; auto; discriminate H.
Qed.
Lemma arg_eqb_refl : forall a, arg_eqb a a = true.
Proof. intro a. now apply arg_eqb_eq. Qed.
Lemma arg_eqb_neq : forall a b, a <> b -> arg_eqb a b = false.
Proof. intros a b N. unfold arg_eqb. destruct (list_eq_dec Z.eq_dec a b); congruence. Qed.

Lemma by_short_in : forall os o, NoDup (map short os) -> In o os -> by_short (short o) os = Some o.
Proof.
  induction os as [|p os IH]; intros o N I; [destruct I|].
  cbn [by_short map] in *. inversion N; subst.
  destruct I as [<-|I]; [now rewrite Z.eqb_refl|].
  destruct (short p =? short o) eqn:E; [|now apply IH].
  apply Z.eqb_eq in E. exfalso. apply H1. rewrite E. now apply in_map.
Qed.
Lemma by_short_out : forall os c, ~ In c (map short os) -> by_short c os = None.
Proof.
  induction os as [|p os IH]; intros c N; [reflexivity|].
  cbn [by_short map] in *. destruct (short p =? c) eqn:E.
  - apply Z.eqb_eq in E. exfalso. apply N. now left.
  - apply IH. intro I. apply N. now right.
Qed.
Lemma by_long_in : forall os o, NoDup (map long os) -> In o os -> by_long (long o) os = Some o.
Proof.
  induction os as [|p os IH]; intros o N I; [destruct I|].
  cbn [by_long map] in *. inversion N; subst.
  destruct I as [<-|I]; [now rewrite arg_eqb_refl|].
  destruct (arg_eqb (long o) (long p)) eqn:E; [|now apply IH].
  apply arg_eqb_eq in E. exfalso. apply H1. rewrite <- E. now apply in_map.
Qed.
Lemma by_long_out : forall os n, ~ In n (map long os) -> by_long n os = None.
Proof.
  induction os as [|p os IH]; intros n N; [reflexivity|].
  cbn [by_long map] in *. rewrite arg_eqb_neq; [apply IH|]; intro I; apply N; [now right|left; congruence].
Qed.
Lemma to_equals_none : forall n, ~ In 61 n -> to_equals n = (n, None).
Proof.
  induction n as [|c n IH]; intro N; [reflexivity|]. cbn [to_equals].
  destruct (c =? 61) eqn:E; [exfalso; apply N; left; lia|].
  rewrite IH; [reflexivity|]. intro I. apply N. now right.
Qed.
Lemma to_equals_some : forall n v, ~ In 61 n -> to_equals (n ++ [61] ++ v) = (n, Some v).
Proof.
  induction n as [|c n IH]; intros v N; [reflexivity|]. cbn [to_equals app].
  destruct (c =? 61) eqn:E; [exfalso; apply N; left; lia|].
  change (n ++ 61 :: v) with (n ++ [61] ++ v). rewrite IH; [reflexivity|]. intro I. apply N. now right.
Qed.

(** one wish, and all *)
Definition do1 (os : list copt) (w : wish) (t : taken) : taken + reply :=
  match w with
  | Flag o => answer os (short o) [] t
  | Value o v => answer os (short o) v t
  | Operand x => inl (operand x t)
  end.
Fixpoint do_all (os : list copt) (ws : list wish) (t : taken) : taken + reply :=
  match ws with
  | [] => inl t
  | w :: r => match do1 os w t with inl t => do_all os r t | inr e => inr e end
  end.
Lemma do_all_app : forall os a b t,
  do_all os (a ++ b) t = match do_all os a t with inl t => do_all os b t | inr e => inr e end.
Proof.
  induction a as [|w a IH]; intros b t; [reflexivity|]. cbn [do_all app].
  destruct (do1 os w t); [apply IH|reflexivity].
Qed.

Lemma operand_scan : forall os x rest t, x = [] \/ x = [45] \/ hd 0 x <> 45 ->
  scan os (x :: rest) t = scan os rest (operand x t).
Proof.
  intros os x rest t H. cbn [scan].
  assert (E : is_operand x = true).
  { destruct H as [->|[->|H]]; try reflexivity. destruct x as [|c x]; [reflexivity|]. cbn [hd] in H.
    cbn [is_operand]. destruct c as [|p|p]; try reflexivity. do 6 (destruct p; try reflexivity). congruence. }
  now rewrite E.
Qed.
Definition next_value os c rest (t : taken) : outcome reply :=
  match rest with
  | [] => Ok (Usage false)
  | v :: rest => match answer os c v t with inl t => scan os rest t | inr e => Ok e end
  end.
Lemma letters_scan : forall os c cs rest t, c <> 45 ->
  scan os (([45] ++ c :: cs) :: rest) t
  = match cluster os (c :: cs) t with
    | inl (t, None) => scan os rest t
    | inl (t, Some c) => next_value os c rest t
    | inr e => Ok e
    end.
Proof.
  intros os c cs rest t H. cbn [scan app is_operand tl].
  destruct c as [|p|p]; try reflexivity. do 6 (destruct p; try reflexivity). congruence.
Qed.
Lemma name_scan : forall os name rest t, name <> [] -> os <> [] ->
  scan os (([45; 45] ++ name) :: rest) t
  = let '(n, v) := to_equals name in
    match by_long n os with
    | None => UB
    | Some o =>
        match is_bool o, v with
        | true, Some _ => Ok (Usage false)
        | true, None => match answer os (short o) [] t with inl t => scan os rest t | inr e => Ok e end
        | false, Some v => match answer os (short o) v t with inl t => scan os rest t | inr e => Ok e end
        | false, None => next_value os (short o) rest t
        end
    end.
Proof.
  intros os name rest t H N. cbn [scan app is_operand].
  destruct name as [|c name]; [congruence|]. destruct os as [|o os]; [congruence|]. reflexivity.
Qed.

Section Table.
  Context (os : list copt).
  Hypothesis K : table_ok os.
  Lemma fine : forall o, In o os -> short o <> 45 /\ long o <> [] /\ ~ In 61 (long o).
  Proof. intros o I. destruct K as [_ [_ F]]. rewrite Forall_forall in F. now apply F. Qed.
  Lemma flags_cluster : forall cs ws, flags os cs ws -> forall r t,
    cluster os (cs ++ r) t = match do_all os ws t with inl t => cluster os r t | inr e => inr e end.
  Proof.
    intros cs ws F. induction F as [|o cs ws [I Bo] F IH]; intros r t; [reflexivity|].
    cbn [cluster app do_all do1]. rewrite (by_short_in os o (proj1 K) I), Bo.
    destruct (answer os (short o) [] t); [apply IH|reflexivity].
  Qed.
  Lemma flags_head : forall cs ws c r, flags os cs ws -> cs <> [] \/ c <> 45 ->
    exists d x, cs ++ c :: r = d :: x /\ d <> 45.
  Proof.
    intros cs ws c r F H. destruct F as [|o cs ws [I _] F]; [exists c, r|exists (short o), (cs ++ c :: r)]; split; auto.
    - destruct H; congruence.
    - now apply fine.
  Qed.
  Lemma inhabited_os : forall o, In o os -> os <> [].
  Proof. intros o I ->. destruct I. Qed.
  Lemma item_scan : forall a ws, item os a ws -> forall rest t,
    scan os (a ++ rest) t = match do_all os ws t with inl t => scan os rest t | inr e => Ok e end.
  Proof.
    intros a ws H rest t. destruct H as [x H|o [I Bo]|o v [I Bo]|o v [I Bo]|cs ws N F|cs ws o v F [I Bo] N|cs ws o v F [I Bo]].
    - now apply operand_scan.
    - destruct (fine o I) as [_ [L E]]. change (([[45; 45] ++ long o] ++ rest)) with (([45; 45] ++ long o) :: rest).
      rewrite (name_scan os _ rest t L (inhabited_os o I)), (to_equals_none _ E).
      rewrite (by_long_in os o (proj1 (proj2 K)) I), Bo. cbn [do_all do1]. now destruct (answer os (short o) [] t).
    - destruct (fine o I) as [_ [L E]]. change (([[45; 45] ++ long o ++ [61] ++ v] ++ rest)) with (([45; 45] ++ (long o ++ [61] ++ v)) :: rest).
      rewrite (name_scan os _ rest t); [|destruct (long o); [congruence|discriminate]|exact (inhabited_os o I)].
      rewrite (to_equals_some _ _ E).
      rewrite (by_long_in os o (proj1 (proj2 K)) I), Bo. cbn [do_all do1]. now destruct (answer os (short o) v t).
    - destruct (fine o I) as [_ [L E]]. change (([[45; 45] ++ long o; v] ++ rest)) with (([45; 45] ++ long o) :: v :: rest).
      rewrite (name_scan os _ (v :: rest) t L (inhabited_os o I)), (to_equals_none _ E).
      rewrite (by_long_in os o (proj1 (proj2 K)) I), Bo. cbn [do_all do1 next_value]. now destruct (answer os (short o) v t).
    - change ([[45] ++ cs] ++ rest) with (([45] ++ cs) :: rest).
      assert (E : cluster os cs t = match do_all os ws t with inl t => inl (t, None) | inr e => inr e end).
      { rewrite <- (app_nil_r cs), (flags_cluster cs ws F). reflexivity. }
      destruct F as [|o cs ws [I Bo] F]; [congruence|].
      rewrite letters_scan; [|now apply fine]. rewrite E. now destruct (do_all os (Flag o :: ws) t).
    - change ([[45] ++ cs ++ [short o] ++ v] ++ rest) with (([45] ++ cs ++ short o :: v) :: rest).
      destruct (flags_head cs ws (short o) v F (or_intror (proj1 (fine o I)))) as [d [x [E D]]].
      rewrite E, letters_scan, <- E by exact D. rewrite (flags_cluster cs ws F), do_all_app.
      destruct (do_all os ws t) as [u|e]; [|reflexivity].
      cbn [cluster do_all do1]. rewrite (by_short_in os o (proj1 K) I), Bo.
      destruct v as [|y v]; [congruence|]. now destruct (answer os (short o) (y :: v) u).
    - change ([[45] ++ cs ++ [short o]; v] ++ rest) with (([45] ++ cs ++ short o :: []) :: v :: rest).
      destruct (flags_head cs ws (short o) [] F (or_intror (proj1 (fine o I)))) as [d [x [E D]]].
      rewrite E, letters_scan, <- E by exact D. rewrite (flags_cluster cs ws F), do_all_app.
      destruct (do_all os ws t) as [u|e]; [|reflexivity].
      cbn [cluster do_all do1]. rewrite (by_short_in os o (proj1 K) I), Bo. cbn [next_value].
      now destruct (answer os (short o) v u).
  Qed.
  Lemma items_scan : forall a ws, items os a ws -> forall rest t,
    scan os (a ++ rest) t = match do_all os ws t with inl t => scan os rest t | inr e => Ok e end.
  Proof.
    intros a ws H. induction H as [|a b ws vs I H IH]; intros rest t; [reflexivity|].
    rewrite <- app_assoc, (item_scan a ws I), do_all_app. destruct (do_all os ws t); [apply IH|reflexivity].
  Qed.

  (** what has been read after wishes *)
  Definition holds (ws : list wish) (t : taken) : Prop :=
    (forall o, In o os -> is_set (long o) t = true <-> In (Flag o) ws)
    /\ (forall o, In o os -> wished_values o ws (find_strs (long o) (strs t)))
    /\ operands t = wished_files ws.
  Lemma calm_answer : forall o v t, In o os -> (forall r, ~ ends o r) ->
    answer os (short o) v t
    = inl (if is_bool o then mkTaken (long o :: bools t) (strs t) (operands t)
           else mkTaken (bools t) (push (long o) v (strs t)) (operands t)).
  Proof.
    intros o v t I C. unfold answer. rewrite (by_short_in os o (proj1 K) I).
    assert (E : (short o =? 118) && arg_eqb (long o) version_name = false).
    { destruct (short o =? 118) eqn:E; [|reflexivity]. cbn [andb]. apply arg_eqb_neq. intro L.
      apply (C Version). apply ends_version; [lia|exact L]. }
    rewrite E. assert (H : short o =? 104 = false).
    { apply Z.eqb_neq. intro L. apply (C (Usage true)). now apply ends_help. }
    now rewrite H.
  Qed.
  Lemma ends_answer : forall o v t r, In o os -> ends o r -> answer os (short o) v t = inr r.
  Proof.
    intros o v t r I E. unfold answer. rewrite (by_short_in os o (proj1 K) I). destruct E as [o S L|o S].
    - rewrite S, L. reflexivity.
    - rewrite S. reflexivity.
  Qed.
  Lemma push_find : forall n v m k,
    find_strs k (push n v m) = if arg_eqb k n then find_strs k m ++ [v] else find_strs k m.
  Proof.
    intros n v m k. induction m as [|[n' l] m IH]; cbn [push find_strs].
    - now destruct (arg_eqb k n).
    - destruct (arg_eqb n n') eqn:E; cbn [find_strs].
      + apply arg_eqb_eq in E. subst n'. now destruct (arg_eqb k n).
      + rewrite IH. destruct (arg_eqb k n') eqn:F; [|reflexivity].
        destruct (arg_eqb k n) eqn:G; [|reflexivity].
        apply arg_eqb_eq in F. apply arg_eqb_eq in G. subst. now rewrite arg_eqb_refl in E.
  Qed.
  Lemma long_same : forall o p, In o os -> In p os -> long o = long p -> o = p.
  Proof.
    intros o p I J E. pose proof (by_long_in os o (proj1 (proj2 K)) I) as A.
    pose proof (by_long_in os p (proj1 (proj2 K)) J) as A'. congruence.
  Qed.
  Lemma values_snoc : forall o ws l w, wished_values o ws l -> (forall v, w <> Value o v) -> wished_values o (ws ++ [w]) l.
  Proof.
    intros o ws l w H N. induction H; cbn [app]; [apply wv_other; [exact N|apply wv_none]|now apply wv_one|now apply wv_other].
  Qed.
  Lemma values_snoc_one : forall o ws l v, wished_values o ws l -> wished_values o (ws ++ [Value o v]) (l ++ [v]).
  Proof.
    intros o ws l v H. induction H; cbn [app]; [apply wv_one, wv_none|now apply wv_one|now apply wv_other].
  Qed.
  Lemma files_app : forall a b, wished_files (a ++ b) = wished_files a ++ wished_files b.
  Proof. induction a as [|[o|o v|x] a IH]; intro b; cbn [wished_files app]; rewrite ?IH; reflexivity. Qed.

  (** the wishes are about the options of the table *)
  Definition proper (w : wish) : Prop :=
    match w with Flag o => flag os o | Value o _ => valued os o | Operand _ => True end.
  Lemma flags_proper : forall cs ws, flags os cs ws -> Forall proper ws.
  Proof. intros cs ws F. induction F; constructor; auto. Qed.
  Lemma items_proper : forall a ws, items os a ws -> Forall proper ws.
  Proof.
    intros a ws H. induction H as [|a b ws vs I H IH]; [constructor|]. apply Forall_app. split; [|exact IH].
    destruct I; repeat (apply Forall_cons || apply Forall_nil); auto; try exact Logic.I.
    - now apply flags_proper with cs.
    - apply Forall_app. split; [now apply flags_proper with cs|]. constructor; [assumption|constructor].
    - apply Forall_app. split; [now apply flags_proper with cs|]. constructor; [assumption|constructor].
  Qed.
  Lemma do_holds : forall w ws t, proper w -> (forall r, ~ wish_ends w r) -> holds ws t ->
    exists u, do1 os w t = inl u /\ holds (ws ++ [w]) u.
  Proof.
    intros w ws t Pw C (HB & HV & HF). destruct w as [o|o v|x]; cbn [do1 proper wish_ends] in *.
    - destruct Pw as [I Bo]. rewrite (calm_answer o [] t I C), Bo. eexists. split; [reflexivity|].
      split; [|split]; cbn [is_set bools strs operands existsb].
      + intros p J. unfold is_set. cbn [bools existsb]. rewrite orb_true_iff, in_app_iff, <- (HB p J).
        unfold is_set. rewrite arg_eqb_eq. cbn [In]. split.
        * intros [E|E]; [right; left; now rewrite (long_same p o J I E)|now left].
        * intros [E|[E|[]]]; [now right|left; congruence].
      + intros p J. apply values_snoc; [now apply HV|]. intros v E. discriminate E.
      + rewrite files_app, HF. cbn [wished_files]. now rewrite app_nil_r.
    - destruct Pw as [I Bo]. rewrite (calm_answer o v t I C), Bo. eexists. split; [reflexivity|].
      split; [|split]; cbn [strs operands].
      + intros p J. unfold is_set. cbn [bools]. rewrite in_app_iff, <- (HB p J). unfold is_set. cbn [In].
        split; [now left|]. intros [E|[E|[]]]; [exact E|discriminate E].
      + intros p J. rewrite push_find. destruct (arg_eqb (long p) (long o)) eqn:E.
        * apply arg_eqb_eq in E. rewrite (long_same p o J I E). apply values_snoc_one. now apply HV.
        * apply values_snoc; [now apply HV|]. intros u Eq. injection Eq as -> _. now rewrite arg_eqb_refl in E.
      + rewrite files_app, HF. cbn [wished_files]. now rewrite app_nil_r.
    - exists (operand x t). split; [reflexivity|]. split; [|split]; cbn [operand strs operands].
      + intros p J. unfold is_set. cbn [bools operand]. rewrite in_app_iff, <- (HB p J). unfold is_set. cbn [In].
        split; [now left|]. intros [E|[E|[]]]; [exact E|discriminate E].
      + intros p J. apply values_snoc; [now apply HV|]. intros v E. discriminate E.
      + now rewrite files_app, HF.
  Qed.
  Lemma do_all_holds : forall vs ws t, Forall proper vs -> calm vs -> holds ws t ->
    exists u, do_all os vs t = inl u /\ holds (ws ++ vs) u.
  Proof.
    induction vs as [|w vs IH]; intros ws t F C H; [exists t; split; [reflexivity|now rewrite app_nil_r]|].
    inversion F; inversion C; subst. destruct (do_holds w ws t) as [u [E U]]; auto.
    cbn [do_all]. rewrite E. destruct (IH (ws ++ [w]) u) as [z [Ez Z']]; auto.
    exists z. split; [exact Ez|]. now rewrite <- app_assoc in Z'.
  Qed.
  Lemma holds_nil : holds [] (mkTaken [] [] []).
  Proof.
    split; [|split]; cbn; [|intros; apply wv_none|reflexivity].
    intros o _. split; [intro E; discriminate E|intros []].
  Qed.
  Lemma line_scan : forall args ws, line os args ws -> calm ws ->
    exists t, scan os args (mkTaken [] [] []) = Ok (Parsed t) /\ holds ws t.
  Proof.
    intros args ws H C. destruct H as [a ws H|a ws l H].
    - destruct (do_all_holds ws [] _ (items_proper a ws H) C holds_nil) as [t [E U]]. exists t. split; [|exact U].
      rewrite <- (app_nil_r a), (items_scan a ws H), E. reflexivity.
    - apply Forall_app in C. destruct C as [C _].
      destruct (do_all_holds ws [] _ (items_proper a ws H) C holds_nil) as [t [E (HB & HV & HF)]].
      exists (mkTaken (bools t) (strs t) (operands t ++ l)). split; [rewrite (items_scan a ws H), E; reflexivity|].
      assert (N : forall w, In w (map Operand l) -> exists x, w = Operand x).
      { intros w I. apply in_map_iff in I. destruct I as [x [<- _]]. now exists x. }
      split; [|split]; cbn [strs operands].
      + intros o I. unfold is_set. cbn [bools]. rewrite in_app_iff, <- (HB o I). unfold is_set.
        split; [now left|]. intros [X|X]; [exact X|]. destruct (N _ X) as [x Y]. discriminate Y.
      + intros o I. clear N. specialize (HV o I). cbn [app] in HV. revert HV. generalize (find_strs (long o) (strs t)).
        intros fl HV. clear - HV. induction HV; cbn [app].
        * induction l as [|x l IH]; cbn [map]; [apply wv_none|]. apply wv_other; [intros v E; discriminate E|exact IH].
        * now apply wv_one.
        * now apply wv_other.
      + rewrite files_app, HF. cbn [app]. f_equal. clear. induction l as [|x l IH]; cbn [map wished_files]; [reflexivity|now rewrite <- IH].
  Qed.
  Lemma wrong_scan : forall args ws, wrong os args ws -> forall t,
    scan os args t = match do_all os ws t with inl _ => Ok (Usage false) | inr e => Ok e end.
  Proof.
    intros args ws W t. destruct W as [cs ws c x rest F N D|cs ws o F [I Bo]|o [I Bo]|o v rest [I Bo]].
    - destruct (flags_head cs ws c x F D) as [d [y [E D']]].
      change ([45] ++ cs ++ [c] ++ x) with ([45] ++ (cs ++ c :: x)). rewrite E, letters_scan, <- E by exact D'.
      rewrite (flags_cluster cs ws F). destruct (do_all os ws t); [|reflexivity].
      cbn [cluster]. now rewrite (by_short_out os c N).
    - destruct (flags_head cs ws (short o) [] F (or_intror (proj1 (fine o I)))) as [d [y [E D']]].
      change ([45] ++ cs ++ [short o]) with ([45] ++ (cs ++ short o :: [])). rewrite E, letters_scan, <- E by exact D'.
      rewrite (flags_cluster cs ws F). destruct (do_all os ws t); [|reflexivity].
      cbn [cluster]. now rewrite (by_short_in os o (proj1 K) I), Bo.
    - destruct (fine o I) as [_ [L E]]. rewrite (name_scan os _ [] t L (inhabited_os o I)), (to_equals_none _ E).
      now rewrite (by_long_in os o (proj1 (proj2 K)) I), Bo.
    - destruct (fine o I) as [_ [L E]].
      rewrite (name_scan os _ rest t); [|destruct (long o); [congruence|discriminate]|exact (inhabited_os o I)].
      rewrite (to_equals_some _ _ E). now rewrite (by_long_in os o (proj1 (proj2 K)) I), Bo.
  Qed.
End Table.
