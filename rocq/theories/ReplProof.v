(** * Sessions of the REPL (C70) *)

From Coq Require Import String List NArith ZArith Bool Arith Lia.
From Verif Require Import PyStr PyNum StrFacts Tokens OpTable Scan Parse PTypes Heap Exec Main ExecRel ExecInv.
From Verif Require Import SpecScan SpecSyntax SpecMain SpecRepl.
From Verif Require Import VarProof.
From Verif Require AliasStart ScanProof ResumeProof MainProof PropSyntax.
Import ListNotations.
Local Open Scope string_scope.
Local Open Scope list_scope.

Local Notation nl := 10%N.

(** ** Lines *)

Lemma joined_app a b : joined_lines (a ++ b) = joined_lines a ++ joined_lines b.
Proof. unfold joined_lines. rewrite map_app, concat_app. reflexivity. Qed.

Lemma kinds code : (exists sts, complete code sts) \/ bad code \/ incomplete code.
Proof.
  destruct (PropSyntax.C35_source hval code) as [E|(ts & ig & E & [(sts & rest & P)|[P|P]])].
  - right. right. left. exact E.
  - left. exists sts, ts, rest, ig. auto.
  - right. left. exists ts, ig. auto.
  - right. right. right. exists ts, ig. auto.
Qed.

Definition open_before (lines : list str) : Prop :=
  forall j, 0 < j < length lines -> incomplete (joined_lines (firstn j lines)).

Lemma open_snoc pre x : open_before pre -> incomplete (joined_lines pre) -> open_before (pre ++ [x]).
Proof.
  intros O I j L. rewrite app_length in L. cbn in L.
  destruct (Nat.eq_dec j (length pre)) as [->|N].
  - rewrite firstn_app, Nat.sub_diag, firstn_all. cbn [firstn]. rewrite app_nil_r. exact I.
  - rewrite firstn_app. replace (j - length pre) with 0 by lia. cbn [firstn]. rewrite app_nil_r. apply O. lia.
Qed.

(** Every input starts with the lines the REPL takes in one round. *)
Lemma first_round : forall more pre, pre <> [] -> open_before pre ->
  exists lines rest, pre ++ more = lines ++ rest /\ lines <> [] /\ open_before lines
    /\ ((exists sts, complete (joined_lines lines) sts) \/ bad (joined_lines lines)
        \/ incomplete (joined_lines lines) /\ rest = []).
Proof.
  induction more as [|x more IH]; intros pre N O.
  - exists pre, []. destruct (kinds (joined_lines pre)) as [K|[K|K]]; auto 8.
  - destruct (kinds (joined_lines pre)) as [K|[K|K]]; [exists pre, (x :: more); auto 8..|].
    replace (pre ++ x :: more) with ((pre ++ [x]) ++ more) by (rewrite <- app_assoc; reflexivity).
    apply IH; [destruct pre; discriminate|]. apply open_snoc; assumption.
Qed.

Lemma read_more_pre : forall more pre rest, pre <> [] ->
  (forall j, length pre <= j < length (pre ++ more) -> incomplete (joined_lines (firstn j (pre ++ more)))) ->
  read_more (more ++ rest) (joined_lines pre)
  = let '(r, rest', k) := read_more rest (joined_lines (pre ++ more)) in (r, rest', length more + k).
Proof.
  induction more as [|x more IH]; intros pre rest N H.
  - rewrite app_nil_r. cbn [Datatypes.app length]. destruct (read_more rest _) as [[r rest'] k]. reflexivity.
  - cbn [Datatypes.app]. rewrite MainProof.read_more_incomplete.
    + rewrite <- MainProof.joined_snoc.
      replace (pre ++ x :: more) with ((pre ++ [x]) ++ more) in * by (rewrite <- app_assoc; reflexivity).
      rewrite (IH (pre ++ [x]) rest); [|destruct pre; discriminate|].
      * destruct (read_more rest _) as [[r rest'] k]. reflexivity.
      * intros j [L1 L2]. apply H. rewrite app_length in L1. split; [lia|exact L2].
    + specialize (H (length pre)). rewrite firstn_app, Nat.sub_diag, firstn_all in H.
      cbn [firstn] in H. rewrite app_nil_r in H. apply H. rewrite app_length. cbn [length]. lia.
Qed.

Lemma read_round s lines rest r : asks s lines rest ->
  read_more rest (joined_lines lines) = (r, rest, 0) -> r <> REnd ->
  read_code s = Ok r (took lines rest s).
Proof.
  intros (N & I & O) R NE. destruct lines as [|l more]; [congruence|].
  unfold read_code. rewrite I. cbn [Datatypes.app].
  assert (Q : read_more (more ++ rest) (l ++ [c_nl]) = (r, rest, length more)).
  { pose proof (read_more_pre more [l] rest ltac:(discriminate)) as Q.
    change (joined_lines [l]) with ((l ++ [nl]) ++ []) in Q. rewrite app_nil_r in Q.
    cbn [Datatypes.app] in Q. rewrite R, Nat.add_0_r in Q. apply Q.
    intros j L. apply O. cbn [length Datatypes.app] in L |- *. lia. }
  rewrite Q. unfold took. cbn [length Nat.sub]. rewrite Nat.sub_0_r.
  destruct r; try (rewrite app_nil_r; reflexivity). congruence.
Qed.
Lemma read_bad code lines : bad code -> read_more lines code = (RBad, lines, 0).
Proof. intros (ts & b & E1 & E2). destruct lines; cbn [read_more]; rewrite E1, E2; reflexivity. Qed.
Lemma read_end code : incomplete code -> read_more [] code = (REnd, [], 0).
Proof. intros [E|(ts & b & E1 & E2)]; cbn [read_more]; [rewrite E|rewrite E1, E2]; reflexivity. Qed.

Lemma read_open s lines : asks s lines [] -> incomplete (joined_lines lines) ->
  read_code s = Ok REnd (printed (s_ ".. ") (took lines [] s)).
Proof.
  intros (N & I & O) C. destruct lines as [|l more]; [congruence|].
  unfold read_code. rewrite I. cbn [Datatypes.app].
  assert (Q : read_more (more ++ []) (l ++ [c_nl]) = (REnd, [], length more)).
  { pose proof (read_more_pre more [l] [] ltac:(discriminate)) as Q.
    change (joined_lines [l]) with ((l ++ [nl]) ++ []) in Q. rewrite (app_nil_r (l ++ [nl])) in Q.
    cbn [Datatypes.app] in Q. rewrite (read_end _ C), Nat.add_0_r in Q. apply Q.
    intros j L. apply O. cbn [length Datatypes.app] in L |- *. lia. }
  rewrite Q. unfold took, printed. cbn [length Nat.sub]. rewrite Nat.sub_0_r.
  cbn. rewrite <- !app_assoc. reflexivity.
Qed.

(** ** Commands *)

Lemma command_complete l : ~ In nl l -> complete (joined_lines [59%N :: l]) [].
Proof.
  intros N. exists (program []), [None], []. split; [|reflexivity].
  apply ScanProof.scan_reads.
  assert (E : framed (joined_lines [59%N :: l]) = ([nl] ++ s_ ";" ++ l) ++ [nl; nl] ++ []).
  { unfold framed, joined_lines. cbn. rewrite <- !app_assoc. reflexivity. }
  rewrite E. change (reads (([nl] ++ s_ ";" ++ l) ++ [nl; nl] ++ []) ([] ++ []) ([] ++ []) []).
  eapply reads_step.
  - apply step_gap, gap_semicolon; [repeat constructor|left; reflexivity|exact N|right; eexists; reflexivity].
  - apply (ResumeProof.blank_left 2); [cbn; lia|repeat constructor|exists [nl]; reflexivity|].
    split; [intros (c & r & Q & _); discriminate Q|intros s' Q; discriminate Q].
Qed.

Lemma command_closed l : ~ In nl l -> ~ incomplete (joined_lines [59%N :: l]).
Proof.
  intros N O. destruct (command_complete l N) as (ts & q & b0 & S1 & S2).
  destruct O as [O|(ts' & b1 & O1 & O2)]; congruence.
Qed.

Lemma lower_space c : is_space (lower_char c) = is_space c.
Proof.
  unfold lower_char. destruct (is_upper c) eqn:U; [|reflexivity].
  unfold is_upper in U. apply andb_prop in U. destruct U as [U1 U2]. apply N.leb_le in U1, U2.
  assert (X : forall n, (n < 26)%nat -> is_space (N.of_nat n + 65 + 32)%N = is_space (N.of_nat n + 65)%N).
  { intros n L. do 26 (destruct n as [|n]; [reflexivity|]). lia. }
  specialize (X (N.to_nat (c - 65))). rewrite N2Nat.id in X. replace (c - 65 + 65)%N with c in X by lia.
  apply X. lia.
Qed.

Lemma words_blank : forall b s, blank b -> words [] (map lower_char (b ++ s)) = words [] (map lower_char s).
Proof.
  induction b as [|c b IH]; intros s B; [reflexivity|]. inversion B as [|? ? C B']; subst.
  cbn [Datatypes.app map words]. rewrite lower_space, C. apply IH, B'.
Qed.
Lemma words_word : forall w cur s, Forall (fun c => is_space c = false) w ->
  words cur (map lower_char (w ++ s)) = words (cur ++ map lower_char w) (map lower_char s).
Proof.
  induction w as [|c w IH]; intros cur s F; [rewrite app_nil_r; reflexivity|]. inversion F as [|? ? C F']; subst.
  cbn [Datatypes.app map words]. rewrite lower_space, C. rewrite IH by exact F'. rewrite <- app_assoc. reflexivity.
Qed.
Lemma words_stop cur s : cur <> [] -> s = [] \/ starts_blank s ->
  words cur (map lower_char s) = cur :: words [] (map lower_char s).
Proof.
  intros N [->|(c & r & -> & C)].
  - destruct cur; [congruence|reflexivity].
  - cbn [map words]. rewrite lower_space, C. destruct cur; [congruence|reflexivity].
Qed.

Lemma words_of l ws : worded l ws -> words [] (map lower_char l) = map (map lower_char) ws.
Proof.
  intros W. induction W as [b B|b w r ws B N F S W IH].
  - rewrite <- (app_nil_r b), words_blank by exact B. reflexivity.
  - rewrite words_blank by exact B. rewrite words_word by exact F. cbn [Datatypes.app].
    rewrite words_stop; [|destruct w; [congruence|discriminate]|exact S]. rewrite IH. reflexivity.
Qed.

Lemma worded_any : forall n l, length l <= n -> exists ws, worded l ws.
Proof.
  induction n as [|n IH]; intros l L.
  - destruct l; [|cbn in L; lia]. exists []. constructor. constructor.
  - assert (SP : forall u : str, exists b r, u = b ++ r /\ blank b /\ (r = [] \/ exists c r', r = c :: r' /\ is_space c = false)).
    { induction u as [|c u (b & r & -> & B & D)]; [exists [], []; repeat split; auto; constructor|].
      destruct (is_space c) eqn:C.
      - exists (c :: b), r. repeat split; auto. constructor; assumption.
      - exists [], (c :: b ++ r). repeat split; [constructor|right; eauto]. }
    assert (WD : forall u : str, exists w r, u = w ++ r /\ Forall (fun c => is_space c = false) w /\ (r = [] \/ starts_blank r)).
    { induction u as [|c u (w & r & -> & B & D)]; [exists [], []; repeat split; auto|].
      destruct (is_space c) eqn:C.
      - exists [], (c :: w ++ r). repeat split; [constructor|right; eexists _, _; eauto].
      - exists (c :: w), r. repeat split; auto. }
    destruct (SP l) as (b & r & -> & B & D). destruct D as [->|(c & r' & -> & C)].
    + exists []. rewrite app_nil_r. constructor. exact B.
    + destruct (WD (c :: r')) as (w & q & E & F & S). rewrite E.
      assert (N : w <> []).
      { intros ->. cbn in E. destruct S as [->|(d & q' & -> & Q)]; [discriminate E|]. injection E as <- _. congruence. }
      destruct (IH q) as (ws & W).
      { rewrite E in L. rewrite !app_length in L. destruct w; [congruence|]. cbn [length] in L. unfold str, char in *. lia. }
      exists (w :: ws). constructor; assumption.
Qed.

Lemma worded_end l ws : worded l ws -> worded (l ++ [nl]) ws.
Proof.
  intros W. induction W as [b B|b w r ws B N F S W IH].
  - constructor. apply Forall_app. split; [exact B|repeat constructor].
  - rewrite <- !app_assoc. constructor; auto. right. destruct S as [->|(c & r' & -> & C)].
    + eexists _, _. split; reflexivity.
    + exists c, (r' ++ [nl]). auto.
Qed.

Lemma spelled_iff w t : spelled w t <-> map lower_char w = t.
Proof.
  split.
  - intros F. induction F as [|c d w t [(-> & U)|(U & ->)] F IH]; [reflexivity|..]; cbn [map]; rewrite IH;
      unfold lower_char; rewrite U; reflexivity.
  - intros <-. induction w as [|c w IH]; constructor; [|exact IH]. unfold lower_char.
    destruct (is_upper c); auto.
Qed.
Lemma abbreviates_iff w full : abbreviates w full <-> startswith (map lower_char w) (s_ full) = true.
Proof.
  rewrite startswith_spec. split.
  - intros (t & more & S & E). apply spelled_iff in S. exists more. rewrite S. exact E.
  - intros (more & E). exists (map lower_char w), more. split; [apply spelled_iff; reflexivity|exact E].
Qed.

Lemma command_eq l ws : worded l ws -> command_of (joined_lines [59%N :: l])
  = match map (map lower_char) ws with
    | [] => CmdNone
    | c :: args =>
      if startswith c (s_ "quit") || startswith c (s_ "exit") || str_eqb c (s_ "x")
      then CmdQuit
      else if startswith c (s_ "help") then CmdHelp
      else if startswith c (s_ "warnings")
      then match args with
           | [] => CmdWarnings None
           | [a] => if str_eqb a (s_ "on") then CmdWarnings (Some true)
                    else if str_eqb a (s_ "off") then CmdWarnings (Some false)
                    else CmdNone
           | _ => CmdNone
           end
      else CmdNone
    end.
Proof.
  intros W. apply worded_end, words_of in W.
  change (joined_lines [59%N :: l]) with (59%N :: (l ++ [nl]) ++ []). rewrite app_nil_r.
  unfold command_of. cbv iota. rewrite W. reflexivity.
Qed.

(** The first letter tells the commands apart. *)
Lemma first_letter w full c r : w <> [] -> s_ full = c :: r -> startswith (map lower_char w) (s_ full) = true ->
  exists w', map lower_char w = c :: w'.
Proof.
  intros N E S. apply startswith_spec in S. destruct S as (m & S). rewrite E in S. destruct w as [|d w]; [congruence|].
  cbn in S |- *. injection S as -> _. eauto.
Qed.

Lemma named_command l c : named l c -> command_of (joined_lines [59%N :: l]) = c.
Proof.
  intros H.
  assert (WN : forall w ws, worded l (w :: ws) -> w <> []) by (intros w ws W; inversion W; assumption).
  destruct H as [l w ws W A|l w ws W A|l w ws W A|l w ws W A|l w W A|l w a W A B|l w a W A B];
    rewrite (command_eq _ _ W); cbn [map]; specialize (WN _ _ W).
  - apply abbreviates_iff in A. rewrite A. reflexivity.
  - apply abbreviates_iff in A. rewrite A, orb_true_r. reflexivity.
  - apply spelled_iff in A. rewrite A. reflexivity.
  - apply abbreviates_iff in A. rewrite A. destruct (first_letter _ "help" 104%N (s_ "elp") WN eq_refl A) as (w' & ->). reflexivity.
  - apply abbreviates_iff in A. rewrite A. destruct (first_letter _ "warnings" 119%N (s_ "arnings") WN eq_refl A) as (w' & ->). reflexivity.
  - apply abbreviates_iff in A. apply spelled_iff in B. rewrite A, B.
    destruct (first_letter _ "warnings" 119%N (s_ "arnings") WN eq_refl A) as (w' & ->). reflexivity.
  - apply abbreviates_iff in A. apply spelled_iff in B. rewrite A, B.
    destruct (first_letter _ "warnings" 119%N (s_ "arnings") WN eq_refl A) as (w' & ->). reflexivity.
Qed.

Lemma command_named l : command_of (joined_lines [59%N :: l]) <> CmdNone ->
  named l (command_of (joined_lines [59%N :: l])).
Proof.
  destruct (worded_any _ l (le_n _)) as (ws & W). rewrite (command_eq l ws W).
  destruct ws as [|w args]; [cbn; congruence|]. cbn [map]. intros H.
  destruct (startswith (map lower_char w) (s_ "quit")) eqn:Q1.
  { eapply nm_quit; [exact W|]. apply abbreviates_iff, Q1. }
  destruct (startswith (map lower_char w) (s_ "exit")) eqn:Q2.
  { eapply nm_exit; [exact W|]. apply abbreviates_iff, Q2. }
  destruct (str_eqb (map lower_char w) (s_ "x")) eqn:Q3.
  { eapply nm_x; [exact W|]. apply spelled_iff, str_eqb_eq, Q3. }
  cbn [orb] in *.
  destruct (startswith (map lower_char w) (s_ "help")) eqn:Q4.
  { eapply nm_help; [exact W|]. apply abbreviates_iff, Q4. }
  destruct (startswith (map lower_char w) (s_ "warnings")) eqn:Q5; [|congruence].
  apply abbreviates_iff in Q5.
  destruct args as [|a [|a2 args]]; cbn [map] in *.
  - eapply nm_toggle; eassumption.
  - destruct (str_eqb (map lower_char a) (s_ "on")) eqn:Q6.
    + eapply nm_on; [exact W|exact Q5|]. apply spelled_iff, str_eqb_eq, Q6.
    + destruct (str_eqb (map lower_char a) (s_ "off")) eqn:Q7; [|congruence].
      eapply nm_off; [exact W|exact Q5|]. apply spelled_iff, str_eqb_eq, Q7.
  - congruence.
Qed.

(** ** Rounds *)

Lemma asks_one s l rest : st_in s = l :: rest -> asks s [l] rest.
Proof. intros E. split; [discriminate|]. split; [exact E|]. intros j L. cbn in L. lia. Qed.

Lemma loop_end n k s : st_in s = [] -> repl_loop n (S k) s = Ok false (printed (s_ ">> ") s).
Proof.
  intros E. cbn [repl_loop]. assert (R : read_code s = Ok REnd (printed (s_ ">> ") s)) by (unfold read_code; rewrite E; reflexivity).
  rewrite (bind_step _ _ _ _ _ R). reflexivity.
Qed.
Lemma loop_open n k s lines : asks s lines [] -> incomplete (joined_lines lines) ->
  repl_loop n (S k) s = Ok false (printed (s_ ".. ") (took lines [] s)).
Proof.
  intros A I. cbn [repl_loop]. rewrite (bind_step _ _ _ _ _ (read_open s lines A I)). reflexivity.
Qed.
Lemma loop_bad n k s lines rest : asks s lines rest -> bad (joined_lines lines) ->
  repl_loop n (S k) s = repl_loop n k (took lines rest s).
Proof.
  intros A B. cbn [repl_loop].
  rewrite (bind_step _ _ _ _ _ (read_round s lines rest RBad A (read_bad _ _ B) ltac:(discriminate))). reflexivity.
Qed.

Definition obey (c : repl_command) (s : state) : bool * state :=
  match c with
  | CmdQuit => (false, printed (s_ "Bye!" ++ [nl]) s)
  | CmdHelp => (true, printed help_text s)
  | CmdWarnings (Some b) => (true, with_warnings b s)
  | CmdWarnings None => (true, with_warnings (negb (st_warn s)) s)
  | CmdNone => (true, s)
  end.
Lemma obeys_iff l s b s' : obeys l s b s' <-> obey (command_of (joined_lines [59%N :: l])) s = (b, s').
Proof.
  split.
  - intros H. destruct H as [l s H|l s H|l s b H|l s H|l s H];
      [rewrite (named_command _ _ H); reflexivity..|].
    destruct (command_of (joined_lines [59%N :: l])) eqn:E; try reflexivity; exfalso;
      pose proof (command_named l) as X; rewrite E in X; eapply H, X; discriminate.
  - intros H. pose proof (command_named l) as X.
    destruct (command_of (joined_lines [59%N :: l])) as [| |[o|]|] eqn:E; cbn [obey] in H; injection H as <- <-.
    + apply ob_quit, X. discriminate.
    + apply ob_help, X. discriminate.
    + apply ob_set, X. discriminate.
    + apply ob_toggle, X. discriminate.
    + apply ob_other. intros c N. pose proof N as N'. apply named_command in N. rewrite E in N. subst c. inversion N'.
Qed.

Lemma loop_command n k s l rest : st_in s = (59%N :: l) :: rest -> ~ In nl l ->
  repl_loop n (S k) s
  = let '(go, s1) := obey (command_of (joined_lines [59%N :: l])) (took [l] rest s) in
    if go then repl_loop n k s1 else Ok true s1.
Proof.
  intros E N. cbn [repl_loop].
  pose proof (MainProof.read_more_complete _ _ rest (command_complete l N)) as RC.
  assert (R : read_code s = Ok (RCode (joined_lines [59%N :: l]) []) (took [l] rest s))
    by exact (read_round s [59%N :: l] rest _ (asks_one _ _ _ E) RC ltac:(discriminate)).
  rewrite (bind_step _ _ _ _ _ R).
  destruct (command_of (joined_lines [59%N :: l])) as [| |[[|]|]|]; reflexivity.
Qed.

Lemma joined_semicolon lines : lines <> [] -> (forall l ls, lines <> (59%N :: l) :: ls) ->
  forall r, joined_lines lines <> 59%N :: r.
Proof.
  intros N H r E. destruct lines as [|[|c l] ls]; [congruence|discriminate E|].
  injection E as -> _. exact (H l ls eq_refl).
Qed.

(** Statements read input from the front only. *)
Lemma reply_io n sts : steps io_rel unit (mfor (repl_statement n) sts) (mfor (repl_statement n) sts).
Proof.
  apply (r_mfor _ io_closed). intros t. unfold repl_statement.
  pose proof (run_related _ io_closed n) as HR.
  apply (cl_bind _ io_closed); [apply (re_stmt _ _ _ HR)|]. intros [v|].
  - apply (cl_bind _ io_closed); [apply (cl_dread _ io_closed)|]. intros p.
    apply (cl_bind _ io_closed); [apply (cl_fresh _ io_closed)|]. intros text.
    apply (cl_bind _ io_closed); [apply (r_PRINT _ io_closed)|]. intros _.
    apply (r_update_history _ io_closed).
  - apply (cl_ret _ io_closed).
Qed.
Lemma statements_io n sts s s' : repl_statements n sts s = Ok tt s' -> exists k, st_in s = k ++ st_in s'.
Proof.
  intros E. pose proof (reply_io n sts s) as H. unfold repl_statements in E.
  assert (G : exists b, io_rel b s s').
  { destruct (mfor (repl_statement n) sts s) as [[] s1|e s1|].
    - injection E as <-. eauto.
    - destruct e as [|[]|]; try discriminate; injection E as <-; eauto.
    - discriminate. }
  destruct G as (b & _ & G & _). exact G.
Qed.

Definition clean (s : state) : Prop := Forall (fun l => ~ In nl l) (st_in s).

Lemma took_in lines rest s : st_in (took lines rest s) = rest.
Proof. reflexivity. Qed.
Lemma obey_in c s : st_in (snd (obey c s)) = st_in s.
Proof. destruct c as [| |[|]|]; reflexivity. Qed.

Lemma session_iff n : forall k s r, clean s -> length (st_in s) < k ->
  (repl_loop n k s = r <-> talks n s r).
Proof.
  intros k s r C L. split.
  - revert s r C L. induction k as [|k IH]; intros s r C L H; [lia|].
    destruct (st_in s) as [|l0 more] eqn:E.
    + rewrite loop_end in H by exact E. subst r. apply tk_end, E.
    + destruct (first_round more [l0] ltac:(discriminate)) as (lines & rest & EQ & N & O & D).
      { intros j J. cbn in J. lia. }
      cbn [Datatypes.app] in EQ. rewrite EQ in E.
      assert (A : asks s lines rest) by (split; [exact N|split; [exact E|exact O]]).
      assert (CR : Forall (fun l => ~ In nl l) rest) by (unfold clean in C; rewrite E in C; apply Forall_app in C; tauto).
      assert (LR : length rest < k).
      { rewrite EQ, app_length in L. destruct lines; [congruence|]. cbn [length] in L. lia. }
      assert (SC : (exists l, lines = [59%N :: l]) \/ (forall l ls, lines <> (59%N :: l) :: ls)).
      { destruct lines as [|l1 ls]; [congruence|].
        assert (Dec : (exists l, l1 = 59%N :: l) \/ forall l, l1 <> 59%N :: l).
        { destruct l1 as [|c l1]; [right; discriminate|]. destruct (N.eq_dec c 59) as [->|X]; [left; eauto|right; congruence]. }
        destruct Dec as [(l & ->)|X]; [|right; intros l ls' Q; injection Q as Q _; exact (X l Q)].
        destruct ls as [|l2 ls]; [left; eauto|]. exfalso.
        specialize (O 1 ltac:(cbn; lia)). cbn [firstn] in O.
        assert (Nl : ~ In nl l).
        { unfold clean in C. rewrite E in C. inversion C as [|? ? X _]; subst. intros I. apply X. right. exact I. }
        exact (command_closed l Nl O). }
      destruct SC as [(l & ->)|SC].
      * cbn [Datatypes.app] in E. assert (Nl : ~ In nl l).
        { unfold clean in C. rewrite E in C. inversion C as [|? ? X _]; subst. intros I. apply X. right. exact I. }
        rewrite (loop_command n k s l rest E Nl) in H.
        destruct (obey (command_of (joined_lines [59%N :: l])) (took [l] rest s)) as [go s1] eqn:OB.
        assert (IN : st_in s1 = rest).
        { change s1 with (snd (go, s1)). rewrite <- OB, obey_in. reflexivity. }
        apply obeys_iff in OB. destruct go.
        -- eapply tk_command; [exact E|exact OB|]. apply IH; [unfold clean; rewrite IN; exact CR|rewrite IN; exact LR|exact H].
        -- subst r. eapply tk_quit; [exact E|exact OB].
      * destruct D as [(sts & D)|[D|(D & ->)]].
        -- rewrite (MainProof.loop_reads n k s lines rest sts N E O D (joined_semicolon _ N SC)) in H.
           fold (took lines rest s) in H. unfold mbind in H.
           destruct (repl_statements n sts (took lines rest s)) as [[] s1|e s1|] eqn:RS.
           ++ destruct (statements_io _ _ _ _ RS) as (x & IO). rewrite took_in in IO.
              eapply tk_code; [exact A|exact D|exact SC|exact RS|]. apply IH; [| |exact H].
              ** unfold clean. rewrite IO in CR. apply Forall_app in CR. tauto.
              ** rewrite IO, app_length in LR. lia.
           ++ subst r. eapply tk_error; eassumption.
           ++ subst r. eapply tk_diverges; eassumption.
        -- rewrite (loop_bad n k s lines rest A D) in H. eapply tk_bad; [exact A|exact D|]. apply IH; assumption.
        -- rewrite (loop_open n k s lines A D) in H. subst r. apply tk_open; assumption.
  - intros T. revert k C L. induction T as [s E|s lines A I|s lines rest r A B T IH|s l rest s1 E O|s l rest s1 r E O T IH
                               |s lines rest sts s1 r A K SC R T IH|s lines rest sts e s1 A K SC R|s lines rest sts A K SC R];
      intros k C L; (destruct k as [|k]; [lia|]).
    + apply loop_end, E.
    + apply loop_open; assumption.
    + rewrite (loop_bad n k s lines rest A B). destruct A as (N & E & _).
      apply IH.
      * unfold clean in *. rewrite E in C. apply Forall_app in C. apply C.
      * rewrite took_in. rewrite E, app_length in L. destruct lines; [congruence|]. cbn [length] in L. lia.
    + assert (Nl : ~ In nl l).
      { unfold clean in C. rewrite E in C. inversion C as [|? ? X _]; subst. intros I. apply X. right. exact I. }
      rewrite (loop_command n k s l rest E Nl). apply obeys_iff in O. rewrite O. reflexivity.
    + assert (Nl : ~ In nl l).
      { unfold clean in C. rewrite E in C. inversion C as [|? ? X _]; subst. intros I. apply X. right. exact I. }
      rewrite (loop_command n k s l rest E Nl). apply obeys_iff in O. rewrite O.
      assert (IN : st_in s1 = rest).
      { change s1 with (snd (true, s1)). rewrite <- O, obey_in. reflexivity. }
      apply IH.
      * unfold clean in *. rewrite IN. rewrite E in C. inversion C; assumption.
      * rewrite IN. rewrite E in L. cbn [length] in L. lia.
    + destruct A as (N & E & O). rewrite (MainProof.loop_reads n k s lines rest sts N E O K (joined_semicolon _ N SC)).
      fold (took lines rest s). rewrite (bind_step _ _ _ _ _ R).
      destruct (statements_io _ _ _ _ R) as (x & IO). rewrite took_in in IO. apply IH.
      * unfold clean in *. rewrite E in C. apply Forall_app in C. destruct C as [_ C]. rewrite IO in C. apply Forall_app in C. tauto.
      * rewrite E, app_length, IO, app_length in L. destruct lines; [congruence|]. cbn [length] in L. lia.
    + destruct A as (N & E & O). rewrite (MainProof.loop_reads n k s lines rest sts N E O K (joined_semicolon _ N SC)).
      fold (took lines rest s). unfold mbind. rewrite R. reflexivity.
    + destruct A as (N & E & O). rewrite (MainProof.loop_reads n k s lines rest sts N E O K (joined_semicolon _ N SC)).
      fold (took lines rest s). unfold mbind. rewrite R. reflexivity.
Qed.

Lemma repl_talks n o input : Forall (fun l => ~ In nl l) (w_in input) ->
  exists s0, init_state (list_format o) (warnings_on o) input None = Ok tt s0
    /\ forall r, repl n o input = r
         <-> talks n (printed (s_ "Pip 1.2.0" ++ [nl] ++ s_ "Type ;help for more information." ++ [nl]) s0) r.
Proof.
  intros F. exists (AliasStart.first (list_format o) (warnings_on o) input).
  split; [apply AliasStart.first_ok|]. intros r.
  unfold repl. set (fmt := list_format o). set (w := warnings_on o).
  generalize (AliasStart.first_ok fmt w input). unfold init_state.
  destruct (AliasStart.first_rest fmt w input) as (_ & _ & _ & _ & _ & I & _). revert I.
  generalize (AliasStart.first fmt w input). generalize (blank_state fmt w input None).
  generalize wipe_globals. intros m s0 s1 I E1.
  rewrite (bind_step _ _ _ _ _ E1).
  change ((put_out (s_ "Pip 1.2.0" ++ [c_nl] ++ s_ "Type ;help for more information." ++ [c_nl]);;
           repl_loop n (S (length (w_in input)))) s1)
    with (repl_loop n (S (length (w_in input)))
            (printed (s_ "Pip 1.2.0" ++ [nl] ++ s_ "Type ;help for more information." ++ [nl]) s1)).
  apply session_iff; unfold clean; cbn; rewrite I; [exact F|]. apply Nat.lt_succ_diag_r.
Qed.

(** ** How sessions end *)

Lemma talks_quit n s r : talks n s r -> forall s', r = Ok true s' ->
  exists pre l, st_in s = pre ++ (59%N :: l) :: st_in s' /\ named l CmdQuit
    /\ exists text, st_out s' = text ++ s_ "Bye!" ++ [nl].
Proof.
  intros T. induction T as [s E|s lines A I|s lines rest r A B T IH|s l rest s1 E O|s l rest s1 r E O T IH
                               |s lines rest sts s1 r A K SC R T IH|s lines rest sts e s1 A K SC R|s lines rest sts A K SC R];
    intros s' Q; try discriminate Q.
  - destruct (IH s' Q) as (pre & l & E & M). destruct A as (_ & E' & _). rewrite took_in in E. subst rest.
    exists (lines ++ pre), l. rewrite <- app_assoc. auto.
  - injection Q as ->. exists [], l.
    assert (X : forall s0, st_in s0 = rest -> obeys l s0 false s' ->
                st_in s' = rest /\ named l CmdQuit /\ exists text, st_out s' = text ++ s_ "Bye!" ++ [nl]).
    { intros s0 I OB. remember false as f eqn:F. destruct OB as [l s0 M| | | |]; try discriminate F.
      split; [exact I|]. split; [exact M|]. exists (st_out s0). reflexivity. }
    destruct (X (took [l] rest s) eq_refl O) as (-> & M). split; [exact E|exact M].
  - destruct (IH s' Q) as (pre & l' & E' & M).
    assert (I : st_in s1 = rest).
    { apply obeys_iff in O. change s1 with (snd (true, s1)). rewrite <- O, obey_in. reflexivity. }
    exists ((59%N :: l) :: pre), l'. rewrite E, <- I, E'. split; [reflexivity|exact M].
  - destruct (IH s' Q) as (pre & l & E & M). destruct A as (_ & E' & _).
    destruct (statements_io _ _ _ _ R) as (x & IO). rewrite took_in in IO. subst rest. rewrite E in E'.
    exists (lines ++ x ++ pre), l. rewrite <- !app_assoc. auto.
Qed.

Lemma talks_end n s r : talks n s r -> forall s', r = Ok false s' ->
  st_in s' = [] /\ exists text, st_out s' = text ++ s_ ">> " \/ st_out s' = text ++ s_ ".. ".
Proof.
  intros T. induction T as [s E|s lines A I|s lines rest r A B T IH|s l rest s1 E O|s l rest s1 r E O T IH
                               |s lines rest sts s1 r A K SC R T IH|s lines rest sts e s1 A K SC R|s lines rest sts A K SC R];
    intros s' Q; try discriminate Q; auto.
  - injection Q as <-. split; [exact E|]. exists (st_out s). left. reflexivity.
  - injection Q as <-. split; [reflexivity|]. exists (st_out (took lines [] s)). right. reflexivity.
Qed.

(** ** Errors in statements *)

Lemma mfor_app {A} (f : A -> M unit) : forall a b s,
  mfor f (a ++ b) s = (mfor f a;; mfor f b) s.
Proof.
  induction a as [|x a IH]; intros b s; [reflexivity|]. cbn [Datatypes.app mfor]. unfold mbind.
  destruct (f x s) as [[] s1|e s1|]; [|reflexivity..]. apply IH.
Qed.
Lemma statements_stop n a t b s s1 e s2 :
  mfor (repl_statement n) a s = Ok tt s1 -> i_stmt (run n) t s1 = Err e s2 ->
  repl_statements n (a ++ t :: b) s
  = match e with EFatal | EPy RecursionError => Ok tt s2 | _ => Err e s2 end.
Proof.
  intros E1 E2. unfold repl_statements. rewrite mfor_app. unfold mbind at 1. rewrite E1.
  cbn [mfor]. assert (X : repl_statement n t s1 = Err e s2) by (unfold repl_statement, mbind; rewrite E2; reflexivity).
  unfold mbind. rewrite X. destruct e as [|[]|]; reflexivity.
Qed.
