(** * One scan of a text by a Pattern *)

From Coq Require Import String List NArith ZArith Bool Arith Lia.
From Verif Require Import PyStr PyRe PyNum Tokens OpFun OpTable Unparse PTypes Ops UserRe OpsSeq Apply RunOp PFacts
                          SpecRegex ReSound ReScan ReParse ReShift ReLit ReAlg RegexProof.
Import ListNotations.
Local Open Scope list_scope.

(** ** Counting groups *)

Lemma count_tail s s' : tail_of s s' -> group_count s' <= group_count s.
Proof.
  intros (p & ->). induction p as [|c p IH]; cbn [app group_count]; [lia|].
  unfold str, char in *. lia.
Qed.
Lemma count_cons c s : group_count s <= group_count (c :: s).
Proof. cbn [group_count]. lia. Qed.
Lemma parse_count f : forall n,
  (forall st s x st' s', parse_alt n f st s = Some (x, st', s') ->
     fst st' + group_count s' <= fst st + group_count s)
  /\ (forall st s x st' s', parse_seq n f st s = Some (x, st', s') ->
     fst st' + group_count s' <= fst st + group_count s)
  /\ (forall st s x st' s', parse_atom n f st s = Some (x, st', s') ->
     fst st' + group_count s' <= fst st + group_count s).
Proof.
  induction n as [|n (IHal & IHsq & IHat)].
  { split; [|split]; intros st s x st' s' E; discriminate. }
  split; [|split]; intros st s x st' s' E.
  - rewrite parse_alt_eq in E.
    destruct (parse_seq n f st s) as [[[a st1] [|c s1]]|] eqn:Es; [| |discriminate].
    + injection E as _ <- <-. apply IHsq in Es. exact Es.
    + apply IHsq in Es. destruct (N.eqb c 124).
      * destruct (parse_alt n f st1 s1) as [[[b st2] s2]|] eqn:Ea; [|discriminate].
        injection E as _ <- <-. apply IHal in Ea. pose proof (count_cons c s1). lia.
      * injection E as _ <- <-. exact Es.
  - rewrite parse_seq_eq in E. destruct s as [|c s]; [injection E as _ <- <-; lia|].
    destruct (N.eqb c 41 || N.eqb c 124); [injection E as _ <- <-; lia|].
    destruct (parse_atom n f st (c :: s)) as [[[a st1] s1]|] eqn:Ea; [|discriminate].
    destruct (repetition s1) as [[q s2]|] eqn:Er; [|discriminate].
    destruct (repeated a q) as [a'|]; [|discriminate].
    destruct (parse_seq n f st1 s2) as [[[b st2] s3]|] eqn:Eb; [|discriminate].
    injection E as _ <- <-. apply IHat in Ea. apply IHsq in Eb.
    apply repetition_tail in Er. apply count_tail in Er. lia.
  - rewrite parse_atom_eq in E. destruct s as [|c s]; [discriminate|].
    assert (Plain : forall w : rx, Some (w, st, s) = Some (x, st', s') ->
      fst st' + group_count s' <= fst st + group_count (c :: s)).
    { intros w Q. injection Q as _ <- <-. pose proof (count_cons c s). lia. }
    destruct (N.eqb c 40) eqn:E40.
    + destruct (startswith (s_ "?:") s) eqn:S1.
      * destruct (parse_alt n f st (skipn 2 s)) as [[[a st1] [|d s1]]|] eqn:Ea; try discriminate.
        apply IHal in Ea. destruct (N.eqb d 41); [|discriminate].
        injection E as _ <- <-. pose proof (count_cons d s1). pose proof (count_cons c s).
        pose proof (count_tail _ _ (tail_skipn 2 s)). lia.
      * cbv zeta in E.
        assert (B0 : forall s1,
          (if startswith group_name s then Some (skipn (length group_name) s)
            else match s with d :: _ => if N.eqb d 63 then None else Some s | [] => Some s end) = Some s1 ->
          tail_of s s1).
        { intros s1 E1. destruct (startswith group_name s); [injection E1 as <-; apply (tail_skipn 7)|].
          destruct s as [|d s]; [injection E1 as <-; apply tail_refl|].
          destruct (N.eqb d 63); [discriminate|]. injection E1 as <-. apply tail_refl. }
        match type of E with match ?e with _ => _ end = _ => destruct e as [s1|] eqn:Eb; [|discriminate] end.
        specialize (B0 s1 eq_refl). apply count_tail in B0.
        destruct (parse_alt n f (S (fst st), snd st) s1) as [[[a [m cl]] [|d s2]]|] eqn:Ea; try discriminate.
        apply IHal in Ea. cbn [fst] in Ea.
        destruct (N.eqb d 41); [|discriminate]. injection E as _ <- <-. cbn [fst].
        cbn [group_count] in *. rewrite E40, S1 in *. cbn [andb negb] in *.
        unfold str, char in *. lia.
    + destruct (N.eqb c 91).
      { destruct (parse_set f s) as [[a s1]|] eqn:Ep; [|discriminate]. apply parse_set_tail, count_tail in Ep.
        injection E as _ <- <-. pose proof (count_cons c s). lia. }
      destruct (N.eqb c 92).
      { destruct (parse_escape f st s) as [[a s1]|] eqn:Ep; [|discriminate].
        apply parse_escape_tail, count_tail in Ep.
        injection E as _ <- <-. pose proof (count_cons c s). lia. }
      destruct (N.eqb c 46); [eapply Plain; exact E|].
      destruct (N.eqb c 94); [eapply Plain; exact E|].
      destruct (N.eqb c 36); [eapply Plain; exact E|].
      destruct (existsb (N.eqb c) (s_ "*+?{")); [discriminate|eapply Plain; exact E].
Qed.
Lemma compile_count f raw r n : compile f raw = Some (r, n) -> n <= group_count raw.
Proof.
  unfold compile. destruct (parse_alt (4 * length raw + 4) f (0, []) raw) as [[[a [m cl]] [|]]|] eqn:P; try discriminate.
  intros E. injection E as _ <-. apply (proj1 (parse_count f _)) in P. cbn [fst] in P. lia.
Qed.

(** ** The scan *)

Lemma defined_AT fmt raw f t v : run_op fmt "@" [PScal t; PPat raw f] = ret v ->
  usable f (as_regex raw) t = true /\ exists r k, compile f (as_regex raw) = Some (r, k).
Proof.
  intros E. assert (Q : run_op fmt "@" [PScal t; PPat raw f] = at_pattern raw f (PScal t)) by (run_plain; reflexivity).
  rewrite Q in E. cbn [at_pattern] in E. unfold re_finditer, with_regex in E.
  destruct (usable f (as_regex raw) t); [|discriminate].
  destruct (compile f (as_regex raw)) as [[r k]|]; [|discriminate]. eauto.
Qed.
Lemma defined_SPLIT fmt raw f t v : raw <> [] -> run_op fmt "^" [PScal t; PPat raw f] = ret v ->
  exists r n, compile f raw = Some (r, n)
    /\ v = PList (map (fun o => PScal (match o with Some x => x | None => s_ "None" end))
                      (split_from t n 0 (matches f r t))).
Proof.
  intros Ne E.
  assert (Q : run_op fmt "^" [PScal t; PPat raw f] = op_SPLIT (PScal t) (Some (PPat raw f))) by (run_plain; reflexivity).
  rewrite Q in E. unfold op_SPLIT in E. destruct raw as [|c raw]; [contradiction|].
  unfold re_split, with_regex in E. destruct (usable f (c :: raw) t); [|discriminate].
  destruct (compile f (c :: raw)) as [[r n]|] eqn:Ec; [|discriminate]. exists r, n. split; [reflexivity|].
  cbn [of_re] in E. rewrite !bind_ret in E. injection E as <-. reflexivity.
Qed.

Lemma starts_cuts t : forall ms pos, in_order t pos ms -> starts pos (cuts t pos ms) = map fd_start ms.
Proof.
  induction ms as [|m ms IH]; intros pos O; cbn [cuts starts map]; [reflexivity|].
  inversion O as [|? ? ? L I O']; subst. destruct I as (I1 & I2 & _).
  unfold match_text. rewrite !span_length by lia.
  replace (pos + (fd_start m - pos)) with (fd_start m) by lia. f_equal.
  replace (fd_start m + (fd_end m - fd_start m)) with (fd_end m) by lia. apply IH. exact O'.
Qed.
Definition text_or_None (o : option str) : str := match o with Some x => x | None => s_ "None" end.
Lemma split_cuts t n : forall ms pos,
  map text_or_None (split_from t n pos ms)
  = concat (map (fun gl => fst (fst gl) :: snd gl)
                (combine (cuts t pos ms) (map (fun m => map (fun i => text_or_None (group_text t m i)) (seq 1 n)) ms)))
    ++ [skipn (last_end pos ms) t].
Proof.
  induction ms as [|m ms IH]; intros pos; cbn [split_from cuts map combine concat last_end app]; [reflexivity|].
  rewrite map_app, IH, map_map. cbn [fst snd text_or_None].
  cbn [app]. rewrite <- app_assoc. reflexivity.
Qed.
Lemma cuts_bracketed t : forall ms pos, cuts t pos (map bracketed ms) = cuts t pos ms.
Proof.
  induction ms as [|m ms IH]; intros pos; cbn [map cuts bracketed fd_start fd_end]; [reflexivity|].
  rewrite IH. reflexivity.
Qed.
Lemma last_end_bracketed : forall ms pos, last_end pos (map bracketed ms) = last_end pos ms.
Proof. induction ms as [|m ms IH]; intros pos; cbn [map last_end bracketed fd_end]; [reflexivity|]. apply IH. Qed.

Lemma okd_all raw : ascii_digits_only raw -> forallb okd raw = true.
Proof.
  intros H. apply forallb_forall. intros c I. unfold okd. specialize (H c I).
  destruct (is_digit c); [|reflexivity]. rewrite H by reflexivity. reflexivity.
Qed.

(** ** Replacement Patterns without backslashes *)

Definition with_match (w m : str) : str := flat_map (fun c => if N.eqb c 38 then m else [c]) w.
Lemma replacement_amps w : ~ In 92%N w ->
  as_replacement w = flat_map (fun c => if N.eqb c 38 then s_ "\g<all>" else [c]) w.
Proof.
  intros Nb. unfold as_replacement.
  assert (Eb : bump_refs false w = w).
  { pose proof (calm_plain w) as C. assert (forallb (fun c => negb (N.eqb c 92)) w = true) as F.
    { apply forallb_forall. intros c I. apply negb_true_iff, N.eqb_neq. intros ->. contradiction. }
    specialize (C F []). rewrite app_nil_r in C. cbn [bump_refs] in C. rewrite app_nil_r in C. exact C. }
  rewrite Eb. clear Eb.
  assert (Ea : amps false w = flat_map (fun c => if N.eqb c 38 then s_ "\g<all>" else [c]) w).
  { induction w as [|c w IH]; [reflexivity|]. cbn [amps flat_map].
    assert (N.eqb c 92 = false) as -> by (apply N.eqb_neq; intros ->; apply Nb; left; reflexivity).
    rewrite IH by (intros I; apply Nb; right; exact I). cbn [negb andb].
    destruct (N.eqb c 38); reflexivity. }
  rewrite Ea. clear Ea.
  assert (U : forall c s, N.eqb c 92 = false -> unescape_amps (c :: s) = c :: unescape_amps s).
  { intros c s E. cbn [unescape_amps]. destruct s; [reflexivity|]. rewrite E. reflexivity. }
  induction w as [|c w IH]; [reflexivity|]. cbn [flat_map].
  assert (Nc : N.eqb c 92 = false) by (apply N.eqb_neq; intros ->; apply Nb; left; reflexivity).
  specialize (IH (fun I => Nb (or_intror I))).
  destruct (N.eqb c 38).
  - change (s_ "\g<all>" ++ ?x) with (92%N :: 103%N :: 60%N :: 97%N :: 108%N :: 108%N :: 62%N :: x).
    change (unescape_amps (92%N :: 103%N :: ?x)) with (92%N :: unescape_amps (103%N :: x)).
    rewrite !U by reflexivity. rewrite IH. reflexivity.
  - cbn [app]. rewrite U by exact Nc. rewrite IH. reflexivity.
Qed.
Definition amp_piece (c : char) : piece := if N.eqb c 38 then PGrp 1 else PLit c.
Lemma template_amps g w : ~ In 92%N w -> forall n,
  length (flat_map (fun c => if N.eqb c 38 then s_ "\g<all>" else [c]) w) < n ->
  template n g (flat_map (fun c => if N.eqb c 38 then s_ "\g<all>" else [c]) w) = Some (map amp_piece w).
Proof.
  intros Nb. induction w as [|c w IH]; intros n L; (destruct n as [|n]; [cbn [length] in L; lia|]); [reflexivity|].
  assert (Nc : N.eqb c 92 = false) by (apply N.eqb_neq; intros ->; apply Nb; left; reflexivity).
  specialize (IH (fun I => Nb (or_intror I))). cbn [flat_map map] in *. unfold amp_piece at 1.
  destruct (N.eqb c 38).
  - rewrite app_length in L. change (length (s_ "\g<all>")) with 7 in L.
    match goal with |- template _ _ (_ ++ ?x) = _ =>
      change (option_map (cons (PGrp 1)) (template n g x) = Some (PGrp 1 :: map amp_piece w)) end.
    rewrite IH by lia. reflexivity.
  - cbn [app length] in *. rewrite template_neq by exact Nc. rewrite IH by (unfold str, char in *; lia). reflexivity.
Qed.
Lemma expand_amps t m w : group_text t m 1 = Some (match_text t m) ->
  expand t (map amp_piece w) m = with_match w (match_text t m).
Proof.
  intros G. unfold expand, with_match. induction w as [|c w IH]; cbn [map concat flat_map]; [reflexivity|].
  rewrite IH. f_equal. unfold amp_piece. destruct (N.eqb c 38); [rewrite G|]; reflexivity.
Qed.
