(** * Stripping with a Pattern *)

From Coq Require Import String List NArith ZArith Bool Arith Lia.
From Verif Require Import PyStr PyRe PyNum Unparse PTypes Ops UserRe OpsSeq Apply RunOp PFacts StrFacts
                          SpecRegex ReSound ReScan ReParse ReShift ReLit ReAlg RegexProof.
Import ListNotations.
Local Open Scope string_scope.
Local Open Scope list_scope.

(** ** Regexes that can be followed by more *)

Definition glue (w : str) (L : language) (k : nat) : Prop :=
  (w = [] \/ lead w) /\ forall g cl, exists (F : rx -> rx) cl',
    (forall b, no_ref (F b) = no_ref b)
    /\ (forall t b i j, lang t (F b) i j <-> exists m, i <= m <= length t /\ L (span t i m) /\ lang t b m j)
    /\ forall s n0 b st u, plain s -> 1 <= n0 ->
         (forall n, n0 <= n -> parse_seq n 0 (g + k, cl') s = Some (b, st, u)) ->
         forall n, 4 * length w + n0 <= n -> parse_seq n 0 (g, cl) (w ++ s) = Some (F b, st, u).

Lemma glue_iff w (L M : language) k : (forall t, L t <-> M t) -> glue w L k -> glue w M k.
Proof.
  intros E (Hl & H). split; [exact Hl|]. intros g cl. destruct (H g cl) as (F & cl' & N1 & Lg & P).
  exists F, cl'. split; [exact N1|]. split; [|exact P]. intros t b i j. rewrite Lg.
  split; intros (m & A & B & C); exists m; (split; [exact A|split; [apply E; exact B|exact C]]).
Qed.
Lemma glue_nil : glue [] (fun t => t = []) 0.
Proof.
  split; [left; reflexivity|]. intros g cl. exists (fun b => b), cl. split; [reflexivity|]. split.
  - intros t b i j. split.
    + intros Ln. exists i. pose proof (lang_le _ _ _ _ Ln). split; [lia|]. split; [apply span_self|exact Ln].
    + intros (m & Lm & E & Ln). apply (f_equal (@length _)) in E. rewrite span_len in E by lia.
      cbn [length] in E. replace i with m by lia. exact Ln.
  - intros s n0 b st u _ _ P n Ln. cbn [app length] in *. rewrite Nat.add_0_r in P. apply P. lia.
Qed.
Lemma lang_seq_means t a b L i j : means a L ->
  lang t (XSeq a b) i j <-> exists m, i <= m <= length t /\ L (span t i m) /\ lang t b m j.
Proof.
  intros (_ & _ & H). split.
  - intros Ln. inversion Ln as [| |? ? ? m ? La Lb| | | | |]; subst. exists m. apply H in La. tauto.
  - intros (m & Lm & A & Lb). apply lang_seq with m; [apply H; auto|exact Lb].
Qed.
Lemma glue_item w q L K k : atom_like w L k ->
  (forall a, means a L -> exists a', means a' K /\ forall u, plain u ->
     exists x, repetition (q ++ u) = Some (x, u) /\ repeated a x = Some a') ->
  glue (w ++ q) K k.
Proof.
  intros (Hl & _ & Hw) R. split.
  { right. destruct w as [|c w]; [contradiction|]. exact Hl. }
  intros g cl. destruct (Hw g cl) as (a & cl1 & Ma & Pa). destruct (R a Ma) as (a' & Ma' & Ra).
  exists (fun b => XSeq a' b), cl1. split; [|split].
  - intros b. cbn [no_ref]. rewrite (proj1 Ma'). reflexivity.
  - intros t b i j. apply lang_seq_means. exact Ma'.
  - intros s n0 b st u Ps L0 P n Ln. destruct (lead_facts w [] Hl) as (c & w' & Ew & Hc & _).
    rewrite app_length in Ln. pose proof (lead_length w Hl) as Lw. destruct n as [|n]; [lia|].
    rewrite parse_seq_eq, <- app_assoc. rewrite Pa by (unfold str, char in *; lia). destruct (Ra s Ps) as (x & E1 & E2).
    rewrite E1, E2. rewrite P by (unfold str, char in *; lia). subst w. cbn [app]. rewrite Hc. reflexivity.
Qed.
Lemma plain_rep u : plain u -> repetition u = Some (None, u).
Proof.
  rewrite repetition_eq. destruct u as [|c u]; [reflexivity|]. cbn [plain]. intros H.
  change (existsb (N.eqb c) (s_ "*+?{"))
    with (N.eqb c 42 || (N.eqb c 43 || (N.eqb c 63 || (N.eqb c 123 || false)))) in H.
  apply orb_false_iff in H. destruct H as [H1 H]. apply orb_false_iff in H. destruct H as [H2 H].
  apply orb_false_iff in H. destruct H as [H3 H]. apply orb_false_iff in H. destruct H as [H4 _].
  rewrite H1, H2, H3, H4. reflexivity.
Qed.
Lemma glue_atom w L k : atom_like w L k -> glue w L k.
Proof.
  intros H. rewrite <- (app_nil_r w). apply (glue_item w [] L L k H). intros a Ma. exists a. split; [exact Ma|].
  intros u Pu. exists None. split; [apply plain_rep; exact Pu|reflexivity].
Qed.
Lemma glue_rep w q L k lo hi : atom_like w L k ->
  (forall u, plain u -> repetition (q ++ u) = Some (Some (true, lo, hi), u)) ->
  glue (w ++ q)
    (repeated_by (fun n => lo <= n /\ match hi with Some h => n <= h \/ n = lo | None => True end) L) k.
Proof.
  intros H R. eapply glue_item; [exact H|]. intros a Ma. exists (XRep true lo hi a).
  split; [apply means_rep; exact Ma|]. intros u Pu. exists (Some (true, lo, hi)). split; [apply R; exact Pu|].
  destruct Ma as (_ & A & _). destruct a; try reflexivity. discriminate A.
Qed.
Lemma lead_plain v s : lead v -> plain (v ++ s).
Proof.
  intros H. destruct v as [|c v]; [contradiction|]. cbn [lead plain app] in *.
  change (existsb (N.eqb c) (s_ ")|*+?{")) with (N.eqb c 41 || (N.eqb c 124 || existsb (N.eqb c) (s_ "*+?{"))) in H.
  apply orb_false_iff in H. destruct H as [_ H]. apply orb_false_iff in H. apply H.
Qed.
Lemma glue_app w v L M k l : glue w L k -> glue v M l -> glue (w ++ v) (followed L M) (k + l).
Proof.
  intros (Hw & W) (Hv & V). split.
  { destruct Hw as [->|Hw]; [exact Hv|]. right. destruct w; [contradiction|exact Hw]. }
  intros g cl. destruct (W g cl) as (F & cl1 & NF & LF & PF). destruct (V (g + k) cl1) as (G & cl2 & NG & LG & PG).
  exists (fun b => F (G b)), cl2. split; [|split].
  - intros b. rewrite NF. apply NG.
  - intros t b i j. rewrite LF. split.
    + intros (m & Lm & A & Ln). apply LG in Ln. destruct Ln as (m' & Lm' & B & Ln). exists m'.
      split; [lia|]. split; [|exact Ln]. exists (span t i m), (span t m m').
      split; [symmetry; apply span_cut; lia|]. auto.
    + intros (m' & Lm' & (a & b' & E & A & B) & Ln). destruct (span_split t i m' a b' Lm' E) as (Lm & Ea & Eb). rewrite <- Ea in A. rewrite <- Eb in B.
      exists (i + length a). split; [lia|]. split; [exact A|]. apply LG. exists m'. split; [lia|]. auto.
  - intros s n0 b st u Ps L0 P n Ln. rewrite app_length in Ln. rewrite <- app_assoc.
    apply (PF (v ++ s) (4 * length v + n0) (G b) st u); [|lia|intros n' Ln'|lia].
    + destruct Hv as [->|Hv]; [exact Ps|apply lead_plain; exact Hv].
    + apply (PG s n0 b st u Ps L0); [|exact Ln']. rewrite <- Nat.add_assoc. exact P.
Qed.

Lemma wrap_glue raw L : part raw L -> exists k, glue (pat_wrap raw) L k.
Proof.
  intros H. destruct (wrap_part raw L H) as (k & [(_ & E & El)|(_ & A)]).
  - exists 0. rewrite E. apply (glue_iff _ _ _ _ El glue_nil).
  - exists k. apply glue_atom. exact A.
Qed.
Lemma joined_glue fmt p L : joined fmt p L -> exists raw k, p = PPat raw 0 /\ glue raw L k.
Proof.
  destruct 1 as [s p E|ss p Ne E Np|raw P C|p q L M r Dp Dq E
                |p L r D Np E|p L r D Np E|p L s n r D Np En Ln E|p L r D E].
  - rewrite literal_X in E. injection E as <-. destruct (wrap_glue _ _ (escape_part s)) as (k & G).
    exists (literal_regex s), k. auto.
  - rewrite X_texts in E. injection E as <-.
    destruct (wrap_glue _ _ (texts_inner ss Ne ltac:(intros Q; apply Np; rewrite Q; reflexivity))) as (k & G). eauto.
  - exists raw, 0. split; [reflexivity|]. apply glue_atom, char_atom. exact C.
  - destruct (denotes_part _ _ _ Dp) as (a & -> & A). destruct (denotes_part _ _ _ Dq) as (b & -> & B).
    rewrite then_op in E. injection E as <-.
    destruct (wrap_glue _ _ A) as (k & G). destruct (wrap_glue _ _ B) as (k' & G').
    eexists. exists (k + k'). split; [reflexivity|]. apply glue_app; assumption.
  - destruct (denotes_part _ _ _ D) as (a & -> & A). rewrite star_op in E. injection E as <-.
    destruct (wrap_part _ _ A) as (k & [(-> & _)|(_ & At)]); [contradiction|].
    eexists. exists k. split; [reflexivity|]. refine (glue_iff _ _ _ _ _ (glue_rep _ _ _ _ _ _ At rep_star)).
    intros t. apply repeated_iff. intros n. split; [auto|]. intros _. split; [lia|exact I].
  - destruct (denotes_part _ _ _ D) as (a & -> & A). rewrite plus_op in E. injection E as <-.
    destruct (wrap_part _ _ A) as (k & [(-> & _)|(_ & At)]); [contradiction|].
    eexists. exists k. split; [reflexivity|]. refine (glue_iff _ _ _ _ _ (glue_rep _ _ _ _ _ _ At rep_plus)).
    intros t. apply repeated_iff. intros n. split; [intros [Q _]; exact Q|]. intros Q. split; [exact Q|exact I].
  - destruct (denotes_part _ _ _ D) as (a & -> & A). rewrite times_op, En in E. injection E as <-.
    destruct (wrap_part _ _ A) as (k & [(-> & _)|(_ & At)]); [contradiction|].
    eexists. exists k. split; [reflexivity|].
    refine (glue_iff _ _ _ _ _ (glue_rep _ _ _ _ _ _ At (rep_times n))).
    intros t. apply repeated_iff. intros m. split; intros; lia.
  - destruct (denotes_part _ _ _ D) as (a & -> & k & A & _). rewrite group_op in E. injection E as <-.
    eexists. exists (S k). split; [reflexivity|]. apply glue_atom, atom_group. exact A.
Qed.

(** ** The regexes of the strip operators *)

Lemma compile_left raw L k : glue raw L k -> exists r n, compile 0 (s_ "^" ++ raw) = Some (r, n) /\ no_ref r = true
  /\ forall t i j, lang t r i j <-> i = 0 /\ j <= length t /\ L (span t 0 j).
Proof.
  intros (Hl & H). destruct (H 0 []) as (F & cl & NF & LF & PF).
  exists (XSeq (XAt (at_start 0)) (F XEps)), k. split; [|split].
  - unfold compile. set (n := 4 * length (s_ "^" ++ raw) + 4).
    assert (Ln : 4 * length raw + 8 <= n) by (unfold n; rewrite app_length; change (length (s_ "^")) with 1; lia).
    destruct n as [|n]; [lia|]. rewrite parse_alt_eq. destruct n as [|n]; [lia|]. rewrite parse_seq_eq.
    change (s_ "^" ++ raw) with (94%N :: raw). cbv iota. change (N.eqb 94 41 || N.eqb 94 124) with false. cbv iota.
    destruct n as [|n]; [lia|]. rewrite parse_atom_eq. cbv iota.
    change (N.eqb 94 40) with false. change (N.eqb 94 91) with false. change (N.eqb 94 92) with false.
    change (N.eqb 94 46) with false. change (N.eqb 94 94) with true. cbv iota.
    rewrite (plain_rep raw) by (destruct Hl as [->|Hl]; [exact I|rewrite <- (app_nil_r raw); apply lead_plain; exact Hl]).
    cbn [repeated]. rewrite <- (app_nil_r raw) at 1. rewrite (PF [] 1 XEps (k, cl) []); [reflexivity|exact I|lia| |lia].
    intros m Lm. destruct m as [|m]; [lia|]. reflexivity.
  - cbn [no_ref]. rewrite NF. reflexivity.
  - intros t i j. split.
    + intros Ln. inversion Ln as [| |? ? ? m ? La Lb| | | | |]; subst.
      inversion La as [| | | | | | |? ? Li Hp]; subst. apply LF in Lb. destruct Lb as (m' & Lm & A & Le).
      inversion Le; subst. destruct m as [|m].
      * split; [reflexivity|]. split; [lia|exact A].
      * cbn [prev_at] in Hp. destruct (nth_error t m) as [c|] eqn:E; [|apply nth_error_None in E; lia].
        discriminate Hp.
    + intros (-> & Lj & A). apply lang_seq with 0; [constructor; [lia|reflexivity]|].
      apply LF. exists j. split; [lia|]. split; [exact A|constructor; exact Lj].
Qed.
Lemma compile_right raw L k : glue raw L k -> exists r n, compile 0 (raw ++ s_ "$") = Some (r, n) /\ no_ref r = true
  /\ forall t : str, ~ In 10%N t -> forall i j, lang t r i j <-> i <= j /\ j = length t /\ L (skipn i t).
Proof.
  intros (Hl & H). destruct (H 0 []) as (F & cl & NF & LF & PF).
  exists (F (XSeq (XAt (at_end 0)) XEps)), k. split; [|split].
  - unfold compile. rewrite app_length. change (length (s_ "$")) with 1.
    replace (4 * (length raw + 1) + 4) with (S (4 * length raw + 7)) by lia. rewrite parse_alt_eq.
    rewrite (PF (s_ "$") 3 (XSeq (XAt (at_end 0)) XEps) (k, cl) []); [reflexivity|reflexivity|lia| |lia].
    intros m Lm. destruct m as [|[|[|m]]]; [lia..|]. reflexivity.
  - rewrite NF. reflexivity.
  - intros t Nl i j. assert (Sp : forall a, span t a (length t) = skipn a t).
    { intros a. unfold span. apply firstn_all2. rewrite skipn_length. lia. }
    split.
    + intros Ln. apply LF in Ln. destruct Ln as (m & Lm & A & Ln).
      inversion Ln as [| |? ? ? m' ? La Lb| | | | |]; subst. inversion Lb; subst.
      inversion La as [| | | | | | |? ? Li Hp]; subst. assert (j = length t) as ->.
      { unfold at_end in Hp. unfold str, char in *. destruct (skipn j t) as [|c u] eqn:E.
        - apply (f_equal (@length _)) in E. rewrite skipn_length in E. cbn [length] in E. unfold str, char in *. lia.
        - exfalso. apply andb_prop in Hp. destruct Hp as [Hc _]. apply N.eqb_eq in Hc. subst c.
          apply Nl. rewrite <- (firstn_skipn j t). apply in_or_app. right.
          rewrite E. left. reflexivity. }
      rewrite Sp in A. split; [lia|auto].
    + intros (Lj & -> & A). apply LF. exists (length t). rewrite Sp. split; [unfold str, char in *; lia|]. split; [exact A|].
      apply lang_seq with (length t); [|apply lang_eps, le_n]. apply lang_at; [apply le_n|]. rewrite skipn_all. reflexivity.
Qed.

(** ** One round *)

(** The next match of [find_matches]. *)
Lemma next_lang r t e pos : no_ref r = true -> pos <= length t ->
  match search_from 0 r t (fun s => negb (e && Nat.eqb (ms_pos s) pos)) (prev_at t pos) (skipn pos t) pos with
  | Some m => lang t r (fd_start m) (fd_end m) /\ pos <= fd_start m
              /\ (e = true -> fd_end m <> pos)
              /\ forall i j, pos <= i < fd_start m -> ~ lang t r i j \/ (e = true /\ j = pos)
  | None => forall i j, pos <= i -> lang t r i j -> e = true /\ j = pos
  end.
Proof.
  intros NR Lp. set (ok := fun s => negb (e && Nat.eqb (ms_pos s) pos)).
  assert (Hh : forall i, i <= length t ->
    match_here 0 r t ok (prev_at t i) (skipn i t) i <> None <-> exists j, ~ (e = true /\ j = pos) /\ lang t r i j).
  { intros i Li. rewrite (match_here_lang 0 t r ok i (fun l => ~ (e = true /\ l = pos)) NR Li); [reflexivity|].
    intros s _. unfold ok. rewrite negb_true_iff, andb_false_iff, Nat.eqb_neq. split.
    - intros H. exists (ms_pos s). split; [reflexivity|]. intros [E1 E2]. destruct H as [H|H]; congruence.
    - intros (l & <- & H). destruct e; [right|left; reflexivity]. intros E. apply H. auto. }
  destruct (search_from 0 r t ok (prev_at t pos) (skipn pos t) pos) as [m|] eqn:E.
  - destruct (search_from_in 0 t r ok _ pos m Lp eq_refl E) as (I1 & Ls & Mh & Lm).
    pose proof I1 as (I2 & I3 & _).
    destruct (match_here_in 0 t r ok (fd_start m) m ltac:(lia) Mh) as (_ & _ & s' & R & Ok & En & _).
    pose proof (run_lang _ _ _ _ _ R NR (good_start t (fd_start m) ltac:(lia))) as Ln.
    cbn [start_at ms_pos] in Ln. rewrite <- En in Ln.
    split; [exact Ln|]. split; [exact Ls|]. split.
    + intros ->. unfold ok in Ok. cbn [andb] in Ok. apply negb_true_iff, Nat.eqb_neq in Ok. congruence.
    + intros i j Hi. specialize (Lm i Hi). destruct e eqn:Ee.
      * destruct (Nat.eq_dec j pos) as [->|Ne]; [right; auto|]. left. intros Lj.
        apply (proj2 (Hh i ltac:(lia))); [exists j; split; [tauto|exact Lj]|exact Lm].
      * left. intros Lj. apply (proj2 (Hh i ltac:(lia))); [exists j; split; [intros [Q _]; discriminate|exact Lj]|exact Lm].
  - intros i j Li Lj. pose proof (lang_le _ _ _ _ Lj) as Le.
    pose proof (search_from_none 0 t r ok _ pos Lp eq_refl E i ltac:(lia)) as Q.
    destruct e.
    + destruct (Nat.eq_dec j pos) as [->|Ne]; [auto|]. exfalso.
      apply (proj2 (Hh i ltac:(lia))); [exists j; split; [tauto|exact Lj]|exact Q].
    + exfalso. apply (proj2 (Hh i ltac:(lia))); [exists j; split; [intros [Z _]; discriminate|exact Lj]|exact Q].
Qed.

Lemma next_none r t (e : bool) pos n : no_ref r = true -> pos <= length t ->
  (forall i j, pos <= i -> lang t r i j -> e = true /\ j = pos) -> find_matches n 0 r t e pos = [].
Proof.
  intros NR Lp H. destruct n as [|n]; [reflexivity|]. cbn [find_matches].
  pose proof (next_lang r t e pos NR Lp) as Nx.
  match type of Nx with match ?x with _ => _ end => destruct x as [m|] end; [|reflexivity].
  destruct Nx as (Ln & Lp' & Ne & _). destruct (H _ _ Lp' Ln) as [-> E]. exfalso. apply (Ne eq_refl). exact E.
Qed.
Lemma matches_more r t n : 2 * length t + 2 <= n -> matches 0 r t = find_matches n 0 r t false 0.
Proof. intros L. unfold matches. apply find_matches_fuel; lia. Qed.

Lemma sub_left r (L : language) t : no_ref r = true ->
  (forall t i j, lang t r i j <-> i = 0 /\ j <= length t /\ L (span t 0 j)) ->
  exists j, j <= length t /\ sub_from t (fun _ => []) 0 (matches 0 r t) = skipn j t
    /\ (j = 0 -> forall i, i <= length t -> L (firstn i t) -> i = 0)
    /\ (j <> 0 -> L (firstn j t)).
Proof.
  intros NR H. assert (Sp : forall j, span t 0 j = firstn j t).
  { intros j. unfold span. rewrite Nat.sub_0_r. reflexivity. }
  assert (Fin : forall n (e : bool) m, fd_end m <> 0 -> fd_end m <= length t ->
                find_matches n 0 r t e (fd_end m) = []).
  { intros n e m Nz Le. apply next_none; [exact NR|exact Le|]. intros i j Li Ln. apply H in Ln. lia. }
  rewrite (matches_more r t (S (S (2 * length t + 2))) ltac:(lia)). cbn [find_matches].
  pose proof (next_lang r t false 0 NR ltac:(lia)) as N1.
  match type of N1 with match ?x with _ => _ end => destruct x as [m|] end.
  - destruct N1 as (Ln & _ & _ & _). apply H in Ln. destruct Ln as (S0 & Le & A). rewrite S0.
    destruct (Nat.eqb_spec 0 (fd_end m)) as [E0|E0].
    + rewrite <- E0. pose proof (next_lang r t true 0 NR ltac:(lia)) as N2. cbn [andb] in N2. cbn [andb].
      match type of N2 with match ?x with _ => _ end => destruct x as [m2|] end.
      * destruct N2 as (Ln2 & _ & Ne & _). apply H in Ln2. destruct Ln2 as (S2 & Le2 & A2).
        specialize (Ne eq_refl). rewrite (Fin _ _ _ Ne Le2). exists (fd_end m2). split; [exact Le2|].
        cbn [sub_from]. rewrite S0, S2, <- E0. unfold span. cbn [Nat.sub firstn app].
        split; [reflexivity|]. split; [contradiction|]. intros _. rewrite <- Sp. exact A2.
      * exists 0. split; [lia|]. cbn [sub_from]. rewrite S0, <- E0. unfold span. cbn [Nat.sub firstn app skipn].
        split; [reflexivity|]. split; [|contradiction]. intros _ i Li Ai.
        destruct (N2 0 i (le_n 0)) as [_ Q]; [|exact Q]. apply H. rewrite Sp. auto.
    + change (match search_from 0 r t _ _ _ (fd_end m) with Some m1 => _ | None => _ end)
        with (find_matches (S (2 * length t + 2)) 0 r t false (fd_end m)).
      rewrite Fin by (auto; lia). exists (fd_end m). split; [exact Le|].
      cbn [sub_from]. rewrite S0. unfold span. cbn [Nat.sub firstn app].
      split; [reflexivity|]. split; [intros Q; congruence|]. intros _. rewrite <- Sp. exact A.
  - exists 0. split; [lia|]. split; [reflexivity|]. split; [|contradiction]. intros _ i Li Ai.
    destruct (N1 0 i (le_n 0)) as [Q _]; [|discriminate]. apply H. rewrite Sp. auto.
Qed.
Lemma sub_right r (L : language) t : no_ref r = true ->
  (forall i j, lang t r i j <-> i <= j /\ j = length t /\ L (skipn i t)) ->
  exists i, i <= length t /\ sub_from t (fun _ => []) 0 (matches 0 r t) = firstn i t
    /\ (i = length t -> forall j, j <= length t -> L (skipn j t) -> j = length t)
    /\ (i <> length t -> L (skipn i t)).
Proof.
  intros NR H.
  assert (Fin : forall n, find_matches n 0 r t true (length t) = []).
  { intros n. apply next_none; [exact NR|lia|]. intros i j Li Ln. apply H in Ln. split; [reflexivity|apply Ln]. }
  rewrite (matches_more r t (S (S (2 * length t + 2))) ltac:(lia)).
  remember (S (2 * length t + 2)) as n eqn:En. cbn [find_matches].
  pose proof (next_lang r t false 0 NR ltac:(lia)) as N1.
  match type of N1 with match ?x with _ => _ end => destruct x as [m|] end.
  - destruct N1 as (Ln & _ & _ & Lf). apply H in Ln. destruct Ln as (Le & E & A). rewrite E in *.
    exists (fd_start m). split; [exact Le|]. split; [|split].
    + assert (sub_from t (fun _ => []) (length t) (find_matches n 0 r t (Nat.eqb (fd_start m) (length t)) (length t)) = []) as Q.
      { destruct (Nat.eqb_spec (fd_start m) (length t)) as [Es|Es].
        - rewrite Fin. cbn [sub_from]. apply skipn_all.
        - subst n. cbn [find_matches]. pose proof (next_lang r t false (length t) NR ltac:(lia)) as N2.
          match type of N2 with match ?x with _ => _ end => destruct x as [m2|] end; [|apply skipn_all].
          destruct N2 as (Ln2 & Lp & _ & _). apply H in Ln2. destruct Ln2 as (Le2 & E2 & _).
          assert (fd_start m2 = length t) as S2 by lia. rewrite S2, E2, Nat.eqb_refl, Fin. cbn [sub_from].
          rewrite S2, E2, span_self, skipn_all. reflexivity. }
      cbn [sub_from]. rewrite E. unfold str, char in *. rewrite Q. unfold span. cbn [skipn app]. rewrite Nat.sub_0_r, app_nil_r. reflexivity.
    + intros Es j Lj Aj. destruct (Nat.eq_dec j (length t)) as [|Ne]; [assumption|]. exfalso.
      destruct (Lf j (length t) ltac:(lia)) as [Q|[Q _]]; [|discriminate]. apply Q, H. auto.
    + intros _. exact A.
  - exists (length t). split; [lia|]. split; [symmetry; apply firstn_all|]. split; [|contradiction].
    intros _ j Lj Aj. destruct (N1 j (length t) (Nat.le_0_l _)) as [Q _]; [|discriminate]. apply H. auto.
Qed.

(** ** The loops *)

Definition pieces (L : language) (ms : list str) : Prop := Forall (fun m => L m /\ m <> []) ms.

Lemma re_sub_nil regex t r n : compile 0 regex = Some (r, n) ->
  re_sub regex 0 [] t = Some (sub_from t (fun _ => []) 0 (matches 0 r t)).
Proof.
  intros Co. unfold re_sub, with_regex. rewrite Co. cbn [usable fl_ignorecase]. cbn. f_equal.
Qed.
Lemma firstn_length_eq {A} i (l : list A) : i <= length l -> firstn i l = l -> i = length l.
Proof. intros Li E. apply (f_equal (@length _)) in E. rewrite firstn_length in E. lia. Qed.

Lemma strip_left raw L k : glue raw L k -> forall n t, length t < n ->
  exists u ms, strip_loop n (s_ "^" ++ raw) t = ret u /\ t = concat ms ++ u /\ pieces L ms
    /\ forall a b, u = a ++ b -> L a -> a = [].
Proof.
  intros G. destruct (compile_left raw L k G) as (r & c & Co & NR & H).
  induction n as [|n IH]; intros t Lt; [lia|]. cbn [strip_loop]. rewrite (re_sub_nil _ t r c Co).
  cbn [of_re]. rewrite bind_ret.
  destruct (sub_left r L t NR H) as (j & Lj & E & Hz & Hn). rewrite E.
  destruct (str_eqb (skipn j t) t) eqn:Es.
  - apply str_eqb_eq in Es. assert (j = 0) as ->.
    { apply (f_equal (@length _)) in Es. rewrite skipn_length in Es. unfold str, char in *. lia. }
    exists t, []. split; [reflexivity|]. split; [reflexivity|]. split; [constructor|].
    intros a b Et La. specialize (Hz eq_refl (length a)). subst t. rewrite app_length, firstn_app, firstn_all, Nat.sub_diag in Hz.
    cbn [firstn] in Hz. rewrite app_nil_r in Hz. apply length_zero_iff_nil. apply Hz; [lia|exact La].
  - assert (Nj : j <> 0). { intros ->. rewrite str_eqb_refl in Es. discriminate. }
    destruct (IH (skipn j t)) as (u & ms & Eu & Et & Pm & Fu).
    { rewrite skipn_length. unfold str, char in *. lia. }
    exists u, (firstn j t :: ms). split; [exact Eu|]. cbn [concat]. rewrite <- app_assoc, <- Et.
    split; [symmetry; apply firstn_skipn|]. split; [|exact Fu]. constructor; [|exact Pm].
    split; [apply Hn; exact Nj|]. intros Q. apply (f_equal (@length _)) in Q.
    rewrite firstn_length in Q. cbn [length] in Q. unfold str, char in *. lia.
Qed.
Lemma strip_right raw L k : glue raw L k -> forall n (t : str), ~ In 10%N t -> length t < n ->
  exists u ms, strip_loop n (raw ++ s_ "$") t = ret u /\ t = u ++ concat ms /\ pieces L ms
    /\ forall a b, u = a ++ b -> L b -> b = [].
Proof.
  intros G. destruct (compile_right raw L k G) as (r & c & Co & NR & H).
  induction n as [|n IH]; intros t Nl Lt; [lia|]. cbn [strip_loop]. rewrite (re_sub_nil _ t r c Co).
  cbn [of_re]. rewrite bind_ret.
  destruct (sub_right r L t NR (H t Nl)) as (j & Lj & E & Hz & Hn). rewrite E.
  destruct (str_eqb (firstn j t) t) eqn:Es.
  - apply str_eqb_eq in Es. apply firstn_length_eq in Es; [|exact Lj].
    exists t, []. split; [reflexivity|]. split; [symmetry; apply app_nil_r|]. split; [constructor|].
    intros a b Et La. specialize (Hz Es (length a)). subst t. rewrite app_length, skipn_app, skipn_all, Nat.sub_diag in Hz.
    cbn [skipn app] in Hz. specialize (Hz ltac:(lia) La). apply length_zero_iff_nil. lia.
  - assert (Nj : j <> length t). { intros ->. rewrite firstn_all, str_eqb_refl in Es. discriminate. }
    destruct (IH (firstn j t)) as (u & ms & Eu & Et & Pm & Fu).
    { intros Q. apply Nl. rewrite <- (firstn_skipn j t). apply in_or_app. left. exact Q. }
    { rewrite firstn_length. unfold str, char in *. lia. }
    exists u, (ms ++ [skipn j t]). split; [exact Eu|]. rewrite concat_app, app_assoc, <- Et. cbn [concat]. rewrite app_nil_r.
    split; [symmetry; apply firstn_skipn|]. split; [|exact Fu]. apply Forall_app. split; [exact Pm|].
    constructor; [|constructor].
    split; [apply Hn; exact Nj|]. intros Q. apply (f_equal (@length _)) in Q.
    rewrite skipn_length in Q. cbn [length] in Q. unfold str, char in *. lia.
Qed.

Lemma run_LSTRIP fmt raw f t : run_op fmt "|>" [PScal t; PPat raw f]
  = match raw with [] => ret (PScal t) | _ => do u <- strip_pattern LeftEnd raw t; ret (PScal u) end.
Proof. transitivity (op_LSTRIP (PScal t) (Some (PPat raw f))); [run_plain; reflexivity|]. destruct raw; reflexivity. Qed.
Lemma run_RSTRIP fmt raw f t : run_op fmt "<|" [PScal t; PPat raw f]
  = match raw with [] => ret (PScal t) | _ => do u <- strip_pattern RightEnd raw t; ret (PScal u) end.
Proof. transitivity (op_RSTRIP (PScal t) (Some (PPat raw f))); [run_plain; reflexivity|]. destruct raw; reflexivity. Qed.
Lemma run_STRIP fmt raw f t : run_op fmt "||" [PScal t; PPat raw f]
  = match raw with [] => ret (PScal t) | _ => do u <- strip_pattern Both raw t; ret (PScal u) end.
Proof. transitivity (op_STRIP (PScal t) (Some (PPat raw f))); [run_plain; reflexivity|]. destruct raw; reflexivity. Qed.

(** The empty regex is glue of the empty text only. *)
Lemma glue_empty L k : glue [] L k -> forall t, L t -> t = [].
Proof.
  intros G t A. destruct (compile_left [] L k G) as (r & c & Co & NR & H).
  vm_compute in Co. injection Co as <- _. pose proof (proj2 (H t 0 (length t))) as Q.
  rewrite span_all in Q. specialize (Q (conj eq_refl (conj (le_n _) A))).
  inversion Q as [| |? ? ? m ? La Lb| | | | |]; subst. inversion La; subst. inversion Lb; subst.
  apply length_zero_iff_nil. congruence.
Qed.
