(** * The regex engine of UserRe.v: what its answers mean *)

From Coq Require Import String List NArith ZArith Bool Arith Lia.
From Verif Require Import PyStr PyNum UserRe.
Import ListNotations.
Local Open Scope list_scope.

(** ** Paths through a regex *)

Section Run.
  Variable f : N.
  Variable t : str.

  Inductive run : rx -> mstate -> mstate -> Prop :=
  | run_eps s : run XEps s s
  | run_chr p c r s : ms_rest s = c :: r -> p c = true -> run (XChr p) s (advance c r s)
  | run_seq a b s s1 s2 : run a s s1 -> run b s1 s2 -> run (XSeq a b) s s2
  | run_alt1 a b s s1 : run a s s1 -> run (XAlt a b) s s1
  | run_alt2 a b s s1 : run b s s1 -> run (XAlt a b) s s1
  | run_rep g lo hi a n s s1 :
      lo <= n -> match hi with Some h => n <= h \/ n = lo | None => True end ->
      runs a n s s1 -> run (XRep g lo hi a) s s1
  | run_grp n a s s1 : run a s s1 -> run (XGrp n a) s (set_cap n (ms_pos s) (ms_pos s1) s1)
  | run_ref n a b s s1 :
      cap n (ms_caps s) = Some (a, b) -> eat (same_char f) (span t a b) s = Some s1 ->
      run (XRef n) s s1
  | run_at p s : p (ms_prev s) (ms_rest s) = true -> run (XAt p) s s
  with runs : rx -> nat -> mstate -> mstate -> Prop :=
  | runs_O a s : runs a 0 s s
  | runs_S a n s s1 s2 : run a s s1 -> runs a n s1 s2 -> runs a (S n) s s2.

  Scheme run_ind2 := Minimality for run Sort Prop
    with runs_ind2 := Minimality for runs Sort Prop.
  Combined Scheme run_runs_ind from run_ind2, runs_ind2.

  (** An answer of the matcher comes from a path. *)
  Lemma xmatch_run {X} r : forall s (k : mstate -> option X) x,
    xmatch f t r s k = Some x -> exists s', run r s s' /\ k s' = Some x.
  Proof.
    induction r as [|p|a IHa b IHb|a IHa b IHb|g lo hi a IHa|n a IHa|n|p]; intros s k x E.
    - exists s. split; [constructor|exact E].
    - cbn [xmatch] in E. destruct (ms_rest s) as [|c r'] eqn:Er; [discriminate|].
      destruct (p c) eqn:Ep; [|discriminate]. eexists. split; [econstructor; eassumption|exact E].
    - cbn [xmatch] in E. destruct (IHa _ _ _ E) as (s1 & R1 & E1).
      destruct (IHb _ _ _ E1) as (s2 & R2 & E2). exists s2. split; [econstructor; eassumption|exact E2].
    - cbn [xmatch] in E. destruct (xmatch f t a s k) as [y|] eqn:Ea.
      + injection E as ->. destruct (IHa _ _ _ Ea) as (s1 & R1 & E1).
        exists s1. split; [apply run_alt1; exact R1|exact E1].
      + destruct (IHb _ _ _ E) as (s1 & R1 & E1). exists s1. split; [apply run_alt2; exact R1|exact E1].
    - cbn [xmatch] in E.
      set (more := fix more (n : nat) (left : option nat) (last : option nat) (s : mstate) : option X :=
          match n with
          | O => k s
          | S n' =>
            if g
            then match (if none_left left || at_pos last s then None
                        else xmatch f t a s (fun s' => more n' (dec left) (Some (ms_pos s)) s')) with
                 | Some x => Some x | None => k s end
            else match k s with Some x => Some x
                 | None => (if none_left left || at_pos last s then None
                        else xmatch f t a s (fun s' => more n' (dec left) (Some (ms_pos s)) s')) end
          end) in E.
      assert (Mo : forall n left last s y, more n left last s = Some y ->
        exists m s', runs a m s s' /\ k s' = Some y
          /\ match left with Some h => m <= h | None => True end).
      { induction n as [|n IH]; intros left last s0 y Ey; cbn [more] in Ey.
        - exists 0, s0. split; [constructor|]. split; [exact Ey|]. destruct left; [lia|exact I].
        - assert (Ag : forall z, (if none_left left || at_pos last s0 then None
                        else xmatch f t a s0 (fun s' => more n (dec left) (Some (ms_pos s0)) s')) = Some z ->
                    exists m s', runs a m s0 s' /\ k s' = Some z
                      /\ match left with Some h => m <= h | None => True end).
          { intros z Ez. destruct (none_left left || at_pos last s0) eqn:Q; [discriminate|].
            apply orb_false_elim in Q. destruct Q as [Q _].
            destruct (IHa _ _ _ Ez) as (s1 & R1 & E1). destruct (IH _ _ _ _ E1) as (m & s2 & R2 & E2 & L).
            exists (S m), s2. split; [econstructor; eassumption|]. split; [exact E2|].
            destruct left as [[|h]|]; cbn [dec option_map pred none_left] in *; try discriminate; [lia|exact I]. }
          assert (St : forall z, k s0 = Some z -> exists m s', runs a m s0 s' /\ k s' = Some z
                      /\ match left with Some h => m <= h | None => True end).
          { intros z Ez. exists 0, s0. split; [constructor|]. split; [exact Ez|]. destruct left; [lia|exact I]. }
          destruct g.
          + match type of Ey with match ?e with _ => _ end = _ => destruct e as [z|] eqn:Ez end.
            * injection Ey as ->. apply Ag. reflexivity.
            * apply St. exact Ey.
          + destruct (k s0) as [z|] eqn:Ez; [|apply Ag; exact Ey].
            injection Ey as ->. apply St. reflexivity. }
      assert (Ne : forall m s0 y,
        (fix need (m : nat) (s : mstate) : option X :=
         match m with
         | O => more (S (S (length (ms_rest s)))) (option_map (fun h => h - lo) hi) None s
         | S m' => xmatch f t a s (fun s' => need m' s')
         end) m s0 = Some y ->
        exists j s', runs a (m + j) s0 s' /\ k s' = Some y
          /\ match hi with Some h => j <= h - lo | None => True end).
      { induction m as [|m IH]; intros s0 y Ey.
        - destruct (Mo _ _ _ _ _ Ey) as (j & s' & R & Ek & L). exists j, s'.
          split; [exact R|]. split; [exact Ek|]. destruct hi; exact L.
        - destruct (IHa _ _ _ Ey) as (s1 & R1 & E1). destruct (IH _ _ E1) as (j & s2 & R2 & E2 & L).
          exists j, s2. split; [cbn [Nat.add]; econstructor; eassumption|]. auto. }
      destruct (Ne _ _ _ E) as (j & s' & R & Ek & L). exists s'. split; [|exact Ek].
      eapply run_rep with (n := lo + j); [lia| |exact R]. destruct hi as [h|]; [|exact I]. lia.
    - cbn [xmatch] in E. destruct (IHa _ _ _ E) as (s1 & R1 & E1). eexists.
      split; [constructor; exact R1|exact E1].
    - cbn [xmatch] in E. destruct (cap n (ms_caps s)) as [[a b]|] eqn:Ec; [|discriminate].
      destruct (eat (same_char f) (span t a b) s) as [s1|] eqn:Ee; [|discriminate].
      exists s1. split; [econstructor; eassumption|exact E].
    - cbn [xmatch] in E. destruct (p (ms_prev s) (ms_rest s)) eqn:Ep; [|discriminate].
      exists s. split; [constructor; exact Ep|exact E].
  Qed.

  (** ** States that belong to the text *)

  Record good (s : mstate) : Prop :=
    { g_pos : ms_pos s <= length t;
      g_rest : ms_rest s = skipn (ms_pos s) t;
      g_prev : ms_prev s = prev_at t (ms_pos s);
      g_caps : Forall (fun c => fst (snd c) <= snd (snd c) /\ snd (snd c) <= ms_pos s) (ms_caps s) }.

  Lemma skipn_cons {A} n (l : list A) x r :
    skipn n l = x :: r -> nth_error l n = Some x /\ skipn (S n) l = r /\ n < length l.
  Proof.
    revert l. induction n as [|n IH]; intros [|y l] E; try discriminate E.
    - injection E as -> ->. split; [reflexivity|]. split; [reflexivity|]. cbn [length]. lia.
    - destruct (IH l E) as (E1 & E2 & E3). split; [exact E1|]. split; [exact E2|]. cbn [length]. lia.
  Qed.

  Lemma good_advance s c r : good s -> ms_rest s = c :: r -> good (advance c r s).
  Proof.
    intros G E. rewrite (g_rest _ G) in E. destruct (skipn_cons _ _ _ _ E) as (E1 & E2 & E3).
    constructor; cbn [advance ms_pos ms_rest ms_prev ms_caps].
    - lia.
    - auto.
    - symmetry. exact E1.
    - eapply Forall_impl; [|apply (g_caps _ G)]. intros [n [a b]] H. cbn [fst snd] in *. lia.
  Qed.
  Lemma eat_good eq u : forall s s', good s -> eat eq u s = Some s' ->
    good s' /\ ms_pos s <= ms_pos s'.
  Proof.
    induction u as [|c u IH]; intros s s' G E; cbn [eat] in E.
    - injection E as <-. split; [exact G|lia].
    - destruct (ms_rest s) as [|d r] eqn:Er; [discriminate|]. destruct (eq c d); [|discriminate].
      destruct (IH _ _ (good_advance _ _ _ G Er) E) as [G' L]. split; [exact G'|].
      cbn [advance ms_pos] in L. lia.
  Qed.
  Lemma run_good_both :
    (forall r s s', run r s s' -> good s -> good s' /\ ms_pos s <= ms_pos s')
    /\ (forall r n s s', runs r n s s' -> good s -> good s' /\ ms_pos s <= ms_pos s').
  Proof.
    apply run_runs_ind; intros.
    - split; [assumption|lia].
    - split; [apply good_advance; assumption|cbn [advance ms_pos]; lia].
    - destruct (H0 H3) as [G1 L1]. destruct (H2 G1) as [G2 L2]. split; [exact G2|lia].
    - auto.
    - auto.
    - auto.
    - destruct (H0 H1) as [G1 L1]. split; [|exact L1].
      constructor; cbn [set_cap ms_pos ms_rest ms_prev ms_caps]; try apply G1.
      constructor; [cbn [fst snd]; lia|apply G1].
    - eapply eat_good; eassumption.
    - split; [assumption|lia].
    - split; [assumption|lia].
    - destruct (H0 H3) as [G1 L1]. destruct (H2 G1) as [G2 L2]. split; [exact G2|lia].
  Qed.
  Lemma run_good r s s' : run r s s' -> good s -> good s' /\ ms_pos s <= ms_pos s'.
  Proof. apply run_good_both. Qed.

  Definition start_at (i : nat) : mstate := mkms (prev_at t i) (skipn i t) i [].
  Lemma good_start i : i <= length t -> good (start_at i).
  Proof. intros L. constructor; cbn; auto. Qed.

  (** ** Searching *)

  Definition in_text (m : found) : Prop :=
    fd_start m <= fd_end m /\ fd_end m <= length t
    /\ Forall (fun c => fst (snd c) <= snd (snd c) /\ snd (snd c) <= fd_end m) (fd_caps m).

  Lemma match_here_in r ok i m : i <= length t ->
    match_here f r t ok (prev_at t i) (skipn i t) i = Some m ->
    in_text m /\ fd_start m = i /\ exists s', run r (start_at i) s' /\ ok s' = true
      /\ fd_end m = ms_pos s' /\ fd_caps m = ms_caps s'.
  Proof.
    intros L E. unfold match_here in E. destruct (xmatch_run _ _ _ _ E) as (s' & R & Ek).
    destruct (ok s') eqn:O; [|discriminate]. injection Ek as <-.
    destruct (run_good _ _ _ R (good_start i L)) as [G Lp]. cbn [start_at ms_pos] in Lp.
    split; [|split; [reflexivity|]].
    - split; [exact Lp|]. split; [apply G|apply G].
    - exists s'. auto.
  Qed.

  Lemma prev_at_S i c : nth_error t i = Some c -> prev_at t (S i) = Some c.
  Proof. intros E. exact E. Qed.

  Lemma search_from_in r ok : forall rest i m, i <= length t -> rest = skipn i t ->
    search_from f r t ok (prev_at t i) rest i = Some m ->
    in_text m /\ i <= fd_start m
    /\ match_here f r t ok (prev_at t (fd_start m)) (skipn (fd_start m) t) (fd_start m) = Some m
    /\ (forall j, i <= j < fd_start m -> match_here f r t ok (prev_at t j) (skipn j t) j = None).
  Proof.
    induction rest as [|c rest IH]; intros i m L Er E; cbn [search_from] in E;
      (destruct (match_here f r t ok (prev_at t i) _ i) as [m0|] eqn:Em;
       [injection E as ->; rewrite Er in Em;
        destruct (match_here_in _ _ _ _ L Em) as (I & S0 & _);
        split; [exact I|]; split; [lia|]; rewrite S0; split; [exact Em|intros j Hj; lia]|]).
    - discriminate.
    - symmetry in Er. destruct (skipn_cons _ _ _ _ Er) as (E1 & E2 & E3).
      rewrite <- (prev_at_S _ _ E1) in E.
      destruct (IH (S i) m ltac:(lia) (eq_sym E2) E) as (I & L' & M & F).
      split; [exact I|]. split; [lia|]. split; [exact M|]. intros j Hj.
      destruct (Nat.eq_dec j i) as [->|Ne]; [rewrite Er; exact Em|apply F; lia].
  Qed.
  Lemma search_from_none r ok : forall rest i, i <= length t -> rest = skipn i t ->
    search_from f r t ok (prev_at t i) rest i = None ->
    forall j, i <= j <= length t -> match_here f r t ok (prev_at t j) (skipn j t) j = None.
  Proof.
    induction rest as [|c rest IH]; intros i L Er E j Hj; cbn [search_from] in E;
      (destruct (match_here f r t ok (prev_at t i) _ i) as [m0|] eqn:Em; [discriminate|]).
    - assert (j = i) as ->.
      { symmetry in Er. apply (f_equal (@length _)) in Er. rewrite skipn_length in Er.
        unfold str, char in *. cbn [length] in Er. lia. }
      rewrite <- Er. exact Em.
    - symmetry in Er. destruct (skipn_cons _ _ _ _ Er) as (E1 & E2 & E3).
      rewrite <- (prev_at_S _ _ E1) in E.
      destruct (Nat.eq_dec j i) as [->|Ne]; [rewrite Er; exact Em|].
      apply (IH (S i)); [lia|auto|exact E|lia].
  Qed.

  (** ** Languages: regexes without references *)

  Inductive lang : rx -> nat -> nat -> Prop :=
  | lang_eps i : i <= length t -> lang XEps i i
  | lang_chr p c i : nth_error t i = Some c -> p c = true -> lang (XChr p) i (S i)
  | lang_seq a b i j k : lang a i j -> lang b j k -> lang (XSeq a b) i k
  | lang_alt1 a b i j : lang a i j -> lang (XAlt a b) i j
  | lang_alt2 a b i j : lang b i j -> lang (XAlt a b) i j
  | lang_rep g lo hi a n i j :
      lo <= n -> match hi with Some h => n <= h \/ n = lo | None => True end ->
      langs a n i j -> lang (XRep g lo hi a) i j
  | lang_grp n a i j : lang a i j -> lang (XGrp n a) i j
  | lang_at p i : i <= length t -> p (prev_at t i) (skipn i t) = true -> lang (XAt p) i i
  with langs : rx -> nat -> nat -> nat -> Prop :=
  | langs_O a i : i <= length t -> langs a 0 i i
  | langs_S a n i j k : lang a i j -> langs a n j k -> langs a (S n) i k.

  Scheme lang_ind2 := Minimality for lang Sort Prop
    with langs_ind2 := Minimality for langs Sort Prop.
  Combined Scheme lang_langs_ind from lang_ind2, langs_ind2.

  Lemma lang_le_both :
    (forall r i j, lang r i j -> i <= j <= length t)
    /\ (forall r n i j, langs r n i j -> i <= j <= length t).
  Proof.
    apply lang_langs_ind; intros; try lia.
    split; [lia|]. assert (nth_error t i <> None) as Q by congruence. apply nth_error_Some in Q. lia.
  Qed.
  Lemma lang_le r i j : lang r i j -> i <= j <= length t.
  Proof. apply lang_le_both. Qed.
  Lemma langs_le r n i j : langs r n i j -> i <= j <= length t.
  Proof. apply lang_le_both. Qed.

  Fixpoint no_ref (r : rx) : bool :=
    match r with
    | XSeq a b | XAlt a b => no_ref a && no_ref b
    | XRep _ _ _ a | XGrp _ a => no_ref a
    | XRef _ => false
    | _ => true
    end.

  Lemma run_lang_both :
    (forall r s s', run r s s' -> no_ref r = true -> good s -> lang r (ms_pos s) (ms_pos s'))
    /\ (forall r n s s', runs r n s s' -> no_ref r = true -> good s ->
          langs r n (ms_pos s) (ms_pos s')).
  Proof.
    apply run_runs_ind; intros; cbn [no_ref] in *.
    - constructor. apply H0.
    - rewrite (g_rest _ H2) in H. destruct (skipn_cons _ _ _ _ H) as (E1 & _ & _).
      cbn [advance ms_pos]. econstructor; eassumption.
    - apply andb_prop in H3. destruct H3 as [N1 N2].
      econstructor; [apply H0; assumption|]. apply H2; [assumption|].
      apply (run_good _ _ _ H); assumption.
    - apply andb_prop in H1. apply lang_alt1. apply H0; tauto.
    - apply andb_prop in H1. apply lang_alt2. apply H0; tauto.
    - econstructor; [eassumption..|]. auto.
    - constructor. auto.
    - discriminate.
    - constructor; [apply H1|]. rewrite <- (g_rest _ H1), <- (g_prev _ H1). exact H.
    - constructor. apply H0.
    - econstructor; [apply H0; assumption|]. apply H2; [assumption|].
      apply (run_good _ _ _ H); assumption.
  Qed.
  Lemma run_lang r s s' :
    run r s s' -> no_ref r = true -> good s -> lang r (ms_pos s) (ms_pos s').
  Proof. intros. apply run_lang_both; assumption. Qed.

  (** Rounds that consume nothing can be left out. *)
  Inductive strides (a : rx) : nat -> nat -> nat -> Prop :=
  | strides_O i : strides a 0 i i
  | strides_S n i j k : lang a i j -> i < j -> strides a n j k -> strides a (S n) i k.
  Lemma langs_strides a n i j : langs a n i j -> exists m, m <= n /\ strides a m i j.
  Proof.
    revert i j. induction n as [|n IH]; intros i j H; inversion H as [|? ? ? j0 ? La Ls]; subst.
    - exists 0. split; [lia|constructor].
    - destruct (IH _ _ Ls) as (m & L & S0). destruct (Nat.eq_dec i j0) as [->|Ne].
      + exists m. split; [lia|exact S0].
      + exists (S m). split; [lia|]. pose proof (lang_le _ _ _ La). econstructor; [eassumption|lia|exact S0].
  Qed.
  Lemma strides_le a n i j : strides a n i j -> n + i <= j.
  Proof. induction 1; lia. Qed.

  Lemma langs_split a n m i k : langs a (n + m) i k -> exists j, langs a n i j /\ langs a m j k.
  Proof.
    revert i. induction n as [|n IH]; intros i H; cbn [Nat.add] in H.
    - exists i. split; [constructor; pose proof (langs_le _ _ _ _ H); lia|exact H].
    - inversion H as [|? ? ? j1 ? La Ls]; subst. destruct (IH _ Ls) as (j0 & A & B). exists j0. split; [econstructor; eassumption|exact B].
  Qed.

  (** The matcher finds an answer if there is one. *)
  Lemma xmatch_complete {X} r : no_ref r = true -> forall s j (k : mstate -> option X),
    good s -> lang r (ms_pos s) j ->
    (forall s', good s' -> ms_pos s' = j -> k s' <> None) ->
    xmatch f t r s k <> None.
  Proof.
    induction r as [|p|a IHa b IHb|a IHa b IHb|g lo hi a IHa|n a IHa|n|p]; intros NR s j k G Ln K;
      cbn [xmatch no_ref] in *.
    - inversion Ln; subst. apply K; auto.
    - inversion Ln as [|? c ? Hc Hp| | | | | |]; subst. rewrite (g_rest _ G).
      destruct (skipn (ms_pos s) t) as [|d r'] eqn:Er.
      { assert (nth_error t (ms_pos s) <> None) as Q by congruence. apply nth_error_Some in Q.
        apply (f_equal (@length _)) in Er. rewrite skipn_length in Er.
        unfold str, char in *. cbn [length] in Er. lia. }
      destruct (skipn_cons _ _ _ _ Er) as (E1 & _ & _). assert (d = c) as -> by congruence.
      rewrite Hp. apply K; [|reflexivity]. apply good_advance; [exact G|].
      rewrite (g_rest _ G). exact Er.
    - apply andb_prop in NR. destruct NR as [Na Nb]. inversion Ln as [| |? ? ? j1 ? La Lb| | | | |]; subst.
      apply (IHa Na _ _ _ G La). intros s' G' E'. apply (IHb Nb _ j _ G'); [|exact K].
      rewrite E'. assumption.
    - apply andb_prop in NR. destruct NR as [Na Nb].
      destruct (xmatch f t a s k) eqn:Ea; [discriminate|].
      inversion Ln as [| | |? ? ? ? La|? ? ? ? Lb| | |]; subst.
      + exfalso. exact (IHa Na _ _ _ G La K Ea).
      + exact (IHb Nb _ _ _ G Lb K).
    - specialize (IHa NR). inversion Ln as [| | | | |? ? ? ? n ? ? Hlo Hhi Lr| |]; subst.
      set (more := fix more (n : nat) (left : option nat) (last : option nat) (s : mstate) : option X :=
          match n with
          | O => k s
          | S n' =>
            if g
            then match (if none_left left || at_pos last s then None
                        else xmatch f t a s (fun s' => more n' (dec left) (Some (ms_pos s)) s')) with
                 | Some x => Some x | None => k s end
            else match k s with Some x => Some x
                 | None => (if none_left left || at_pos last s then None
                        else xmatch f t a s (fun s' => more n' (dec left) (Some (ms_pos s)) s')) end
          end).
      assert (Mo : forall fu left last m s0, good s0 -> strides a m (ms_pos s0) j -> m < fu ->
        match left with Some h => m <= h | None => True end ->
        match last with Some p => p < ms_pos s0 | None => True end ->
        more fu left last s0 <> None).
      { induction fu as [|fu IH]; intros left last m s0 G0 Sm Lm Lh Ll; [lia|]. cbn [more].
        inversion Sm as [|n0 ? j0 ? La Lt Ls]; subst.
        - assert (K0 : k s0 <> None) by (apply K; auto).
          destruct g.
          + match goal with |- match ?e with _ => _ end <> _ => destruct e; [discriminate|exact K0] end.
          + destruct (k s0); [discriminate|contradiction].
        - assert (Ag : (if none_left left || at_pos last s0 then None
                        else xmatch f t a s0 (fun s' => more fu (dec left) (Some (ms_pos s0)) s')) <> None).
          { assert (Q : none_left left || at_pos last s0 = false).
            { apply orb_false_intro.
              - destruct left as [[|h]|]; [lia|reflexivity|reflexivity].
              - destruct last as [p|]; [|reflexivity]. cbn [at_pos]. apply Nat.eqb_neq. lia. }
            rewrite Q. apply (IHa _ _ _ G0 La). intros s1 G1 E1.
            apply (IH _ _ n0); [exact G1|rewrite E1; assumption|lia| |lia].
            destruct left as [[|h]|]; cbn [dec option_map pred]; [lia|lia|exact I]. }
          destruct g.
          + match goal with |- match ?e with _ => _ end <> _ => destruct e; [discriminate|contradiction] end.
          + destruct (k s0); [discriminate|exact Ag]. }
      assert (Ne : forall m s0, good s0 -> forall q, langs a (m + q) (ms_pos s0) j ->
        match hi with Some h => q <= h - lo | None => True end ->
        (fix need (m : nat) (s : mstate) : option X :=
         match m with
         | O => more (S (S (length (ms_rest s)))) (option_map (fun h => h - lo) hi) None s
         | S m' => xmatch f t a s (fun s' => need m' s')
         end) m s0 <> None).
      { induction m as [|m IH]; intros s0 G0 q Lq Hq.
        - destruct (langs_strides _ _ _ _ Lq) as (m & Lm & Sm).
          pose proof (strides_le _ _ _ _ Sm). pose proof (langs_le _ _ _ _ Lq).
          apply (Mo _ _ _ m); [exact G0|exact Sm| | |exact I].
          + rewrite (g_rest _ G0), skipn_length. unfold str, char in *. lia.
          + destruct hi; [cbn [option_map Nat.add] in *; lia|exact I].
        - cbn [Nat.add] in Lq. inversion Lq as [|? ? ? j1 ? La Ls]; subst. apply (IHa _ _ _ G0 La). intros s1 G1 E1.
          apply (IH _ G1 q); [rewrite E1; assumption|exact Hq]. }
      apply (Ne lo s G (n - lo)).
      + replace (lo + (n - lo)) with n by lia. assumption.
      + destruct hi as [h|]; [lia|exact I].
    - inversion Ln as [| | | | | |? ? ? ? La|]; subst. apply (IHa NR _ j _ G); [assumption|]. intros s' G' E'. apply K.
      + constructor; cbn [set_cap ms_pos ms_rest ms_prev ms_caps]; try apply G'.
        constructor; [|apply G']. cbn [fst snd]. pose proof (lang_le _ _ _ La). lia.
      + exact E'.
    - discriminate.
    - inversion Ln as [| | | | | | |? ? Li Hp]; subst. rewrite (g_rest _ G), (g_prev _ G), Hp. apply K; auto.
  Qed.

  Lemma match_here_lang r ok i j : no_ref r = true -> i <= length t ->
    (forall s, good s -> ok s = true <-> exists l, ms_pos s = l /\ j l) ->
    match_here f r t ok (prev_at t i) (skipn i t) i <> None <-> exists l, j l /\ lang r i l.
  Proof.
    intros NR L O. split.
    - intros E. destruct (match_here f r t ok _ _ i) as [m|] eqn:Em; [|contradiction].
      destruct (match_here_in _ _ _ _ L Em) as (I & S0 & s' & R & Ok & En & _).
      destruct (run_good _ _ _ R (good_start i L)) as [G _].
      apply (O _ G) in Ok. destruct Ok as (l & <- & J). exists (ms_pos s'). split; [exact J|].
      exact (run_lang _ _ _ R NR (good_start i L)).
    - intros (l & J & Ln). unfold match_here.
      apply (xmatch_complete r NR (start_at i) l _ (good_start i L)); [exact Ln|].
      intros s' G' E'. assert (ok s' = true) as -> by (apply (O _ G'); eauto). discriminate.
  Qed.
End Run.

(** [re.fullmatch] succeeds exactly on the texts of the language. *)
Lemma fullmatch_lang f t r : no_ref r = true ->
  fullmatch f r t <> None <-> lang t r 0 (length t).
Proof.
  intros NR. unfold fullmatch.
  change (match_here f r t (fun s => match ms_rest s with [] => true | _ => false end) None t 0)
    with (match_here f r t (fun s => match ms_rest s with [] => true | _ => false end)
                     (prev_at t 0) (skipn 0 t) 0).
  rewrite (match_here_lang f t r _ 0 (fun l => l = length t) NR (Nat.le_0_l _)).
  - split; [intros (l & -> & H); exact H|eauto].
  - intros s G. rewrite (g_rest _ _ G). pose proof (g_pos _ _ G) as Lp.
    destruct (skipn (ms_pos s) t) as [|c r'] eqn:E.
    + split; [|reflexivity]. intros _. exists (ms_pos s). split; [reflexivity|].
      apply (f_equal (@length _)) in E. rewrite skipn_length in E.
      unfold str, char in *. cbn [length] in E. lia.
    + split; [discriminate|]. intros (l & <- & El).
      destruct (skipn_cons _ _ _ _ E) as (_ & _ & Q). unfold str, char in *. lia.
Qed.
(** [re.search] succeeds exactly if some part is in the language. *)
Lemma search_lang f t r : no_ref r = true ->
  search f r t <> None <-> exists i j, lang t r i j.
Proof.
  intros NR. unfold search.
  assert (H : forall i, i <= length t ->
    match_here f r t (fun _ => true) (prev_at t i) (skipn i t) i <> None <-> exists j, lang t r i j).
  { intros i L. rewrite (match_here_lang f t r _ i (fun _ => True) NR L).
    - split; [intros (l & _ & H)|intros (l & H)]; eauto.
    - intros s G. split; [eauto|reflexivity]. }
  split.
  - intros E. destruct (search_from f r t _ None t 0) as [m|] eqn:Em; [|contradiction].
    change (search_from f r t (fun _ => true) (prev_at t 0) t 0 = Some m) in Em.
    destruct (search_from_in f t r _ t 0 m (Nat.le_0_l _) eq_refl Em) as (I & _ & M & _).
    destruct I as (I1 & I2 & _). exists (fd_start m). apply H; [lia|]. rewrite M. discriminate.
  - intros (i & j & Ln) E.
    change (search_from f r t (fun _ => true) (prev_at t 0) t 0 = None) in E.
    pose proof (lang_le _ _ _ _ Ln). assert (Li : i <= length t) by lia.
    pose proof (search_from_none f t r _ t 0 (Nat.le_0_l _) eq_refl E i ltac:(lia)) as Q.
    apply (H i Li) in Q; [exact Q|eauto].
Qed.
