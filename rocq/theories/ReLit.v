(** * Regexes that are escaped texts *)

From Coq Require Import String List NArith ZArith Bool Arith Lia.
From Verif Require Import PyStr PyRe PyNum PTypes Ops UserRe OpsSeq StrFacts ListProof ReSound ReScan ReParse ReShift.
Import ListNotations.
Local Open Scope list_scope.

Definition lit (f : N) (s : str) : rx := fold_right (fun c r => XSeq (XLit f c) r) XEps s.

(** ** Parsing *)

Lemma cls_in_spec l c : cls_in l c = true <-> In c l.
Proof.
  unfold cls_in. rewrite existsb_exists. split.
  - intros (x & I & E). apply N.eqb_eq in E. subst. exact I.
  - intros I. exists c. split; [exact I|apply N.eqb_refl].
Qed.
Lemma special_escape f st c u : In c re_special -> parse_escape f st (c :: u) = Some (XLit f c, u).
Proof.
  intros I. vm_compute in I. repeat (destruct I as [<-|I]; [reflexivity|]). contradiction.
Qed.
Lemma plain_neq c d : cls_in re_special c = false -> In d re_special -> N.eqb c d = false.
Proof.
  intros E I. destruct (N.eqb_spec c d) as [->|]; [|reflexivity].
  apply cls_in_spec in I. congruence.
Qed.
Lemma escape_cons c s : re_escape (c :: s)
  = (if cls_in re_special c then [c_backslash; c] else [c]) ++ re_escape s.
Proof. reflexivity. Qed.

Ltac special := vm_compute; tauto.

Lemma no_repetition s u : closes u -> repetition (re_escape s ++ u) = Some (None, re_escape s ++ u).
Proof.
  intros C. rewrite repetition_eq. destruct s as [|c s].
  - destruct u as [|c u]; [reflexivity|]. cbn [closes] in C. subst c. reflexivity.
  - rewrite escape_cons. destruct (cls_in re_special c) eqn:E; cbn [app]; [reflexivity|].
    rewrite !(plain_neq c) by (try exact E; special). reflexivity.
Qed.
Lemma parse_lit f st s : forall n u, closes u -> 2 * length s + 2 <= n ->
  parse_seq n f st (re_escape s ++ u) = Some (lit f s, st, u).
Proof.
  induction s as [|c s IH]; intros n u C L; (destruct n as [|n]; [cbn [length] in L; lia|]);
    rewrite parse_seq_eq.
  - cbn [re_escape map concat app]. destruct u as [|c u]; [reflexivity|].
    cbn [closes] in C. subst c. reflexivity.
  - cbn [length] in L.
    assert (At : parse_atom n f st (re_escape (c :: s) ++ u) = Some (XLit f c, st, re_escape s ++ u)).
    { destruct n as [|n]; [lia|]. rewrite parse_atom_eq, escape_cons.
      destruct (cls_in re_special c) eqn:E; cbn [app].
      - apply cls_in_spec in E. change (N.eqb c_backslash 40) with false.
        change (N.eqb c_backslash 91) with false. change (N.eqb c_backslash 92) with true. cbv iota.
        rewrite (special_escape f st c _ E). reflexivity.
      - rewrite !(plain_neq c) by (try exact E; special).
        change (existsb (N.eqb c) (s_ "*+?{"))
          with (N.eqb c 42 || (N.eqb c 43 || (N.eqb c 63 || (N.eqb c 123 || false)))).
        rewrite !(plain_neq c) by (try exact E; special). reflexivity. }
    rewrite At, no_repetition by exact C. cbn [repeated]. rewrite IH by (auto; lia).
    rewrite escape_cons. destruct (cls_in re_special c) eqn:E; cbn [app]; [reflexivity|].
    rewrite !(plain_neq c) by (try exact E; special). reflexivity.
Qed.

(** No backslash of an escaped text stands before a digit. *)
Lemma bump_escape s u : B u = u -> B (re_escape s ++ u) = re_escape s ++ u.
Proof.
  intros Eu. induction s as [|c s IH]; [exact Eu|]. rewrite escape_cons, <- app_assoc.
  destruct (cls_in re_special c) eqn:E; cbn [app].
  - change c_backslash with 92%N. rewrite B_esc, IH; [reflexivity|].
    apply cls_in_spec in E. vm_compute in E. repeat (destruct E as [<-|E]; [reflexivity|]). contradiction.
  - rewrite B_cons, IH; [reflexivity|]. apply (plain_neq c); [exact E|special].
Qed.

(** The regex of an escaped text, with the bracket of [Pattern.wrap] or not. *)
Definition lit_rx (s : str) : rx :=
  if Z.ltb 1 (zlen (re_escape s)) then XSeq (lit 0 s) XEps else lit 0 s.

Lemma escape_length s : length s <= length (re_escape s).
Proof.
  induction s as [|c s IH]; [cbn; lia|]. rewrite escape_cons, app_length. cbn [length].
  destruct (cls_in re_special c); cbn [length]; lia.
Qed.
Lemma parse_literal st s n u : closes u -> 4 * length (literal_regex s) + 4 <= n ->
  parse_alt n 0 st (literal_regex s ++ u) = Some (lit_rx s, st, u).
Proof.
  intros C L. pose proof (escape_length s) as Le. unfold lit_rx, literal_regex, pat_wrap in *.
  destruct (Z.ltb 1 (zlen (re_escape s))).
  - rewrite !app_length in L. change (length (s_ "(?:")) with 3 in L. change (length (s_ ")")) with 1 in L.
    assert (L' : 2 * length s + 9 <= n) by lia. clear L. rename L' into L.
    destruct n as [|n]; [lia|]. rewrite parse_alt_eq. destruct n as [|n]; [lia|].
    assert (Sq : parse_seq (S n) 0 st ((s_ "(?:" ++ re_escape s ++ s_ ")") ++ u)
                 = Some (XSeq (lit 0 s) XEps, st, u)).
    { rewrite <- !app_assoc.
      assert (At : parse_atom n 0 st (s_ "(?:" ++ re_escape s ++ s_ ")" ++ u) = Some (lit 0 s, st, u)).
      { destruct n as [|n]; [lia|]. rewrite parse_atom_eq.
        change (s_ "(?:" ++ re_escape s ++ s_ ")" ++ u) with (40%N :: 63%N :: 58%N :: re_escape s ++ 41%N :: u).
        change (N.eqb 40 40) with true. cbv iota.
        change (startswith (s_ "?:") (63%N :: 58%N :: re_escape s ++ 41%N :: u)) with true. cbv iota.
        change (skipn 2 (63%N :: 58%N :: re_escape s ++ 41%N :: u)) with (re_escape s ++ 41%N :: u).
        destruct n as [|n]; [lia|]. rewrite parse_alt_eq, parse_lit by (auto; try reflexivity; lia).
        reflexivity. }
      rewrite parse_seq_eq, At. change (s_ "(?:" ++ re_escape s ++ s_ ")" ++ u)
        with (40%N :: 63%N :: 58%N :: re_escape s ++ 41%N :: u).
      change (N.eqb 40 41 || N.eqb 40 124) with false. cbv iota.
      pose proof (no_repetition [] u C) as Nr. cbn [re_escape map concat app] in Nr. rewrite Nr.
      cbn [repeated]. pose proof (parse_lit 0 st [] n u C ltac:(cbn [length]; lia)) as Pl.
      cbn [re_escape map concat app] in Pl. rewrite Pl. reflexivity. }
    rewrite Sq. destruct u as [|c u]; [reflexivity|]. cbn [closes] in C. subst c. reflexivity.
  - destruct n as [|n]; [lia|]. rewrite parse_alt_eq, parse_lit by (auto; lia).
    destruct u as [|c u]; [reflexivity|]. cbn [closes] in C. subst c. reflexivity.
Qed.
Lemma bump_literal s : as_regex (literal_regex s) = s_ "(?P<all>" ++ literal_regex s ++ s_ ")".
Proof.
  change (as_regex (literal_regex s)) with (s_ "(?P<all>" ++ B (literal_regex s ++ s_ ")")).
  f_equal. unfold literal_regex, pat_wrap. destruct (Z.ltb 1 (zlen (re_escape s))).
  - rewrite <- !app_assoc. change (B (s_ "(?:" ++ re_escape s ++ s_ ")" ++ s_ ")"))
      with (s_ "(?:" ++ B (re_escape s ++ s_ ")" ++ s_ ")")). rewrite bump_escape by reflexivity. reflexivity.
  - apply bump_escape. reflexivity.
Qed.

Lemma shift_lit f s : shift (lit f s) = lit f s.
Proof. induction s as [|c s IH]; [reflexivity|]. cbn [lit fold_right shift]. fold (lit f s). rewrite IH. reflexivity. Qed.
Lemma shift_lit_rx s : shift (lit_rx s) = lit_rx s.
Proof. unfold lit_rx. destruct (Z.ltb 1 (zlen (re_escape s))); cbn [shift]; rewrite shift_lit; reflexivity. Qed.

(** What the parser makes of a bracketed regex. *)
Lemma compile_bracket f body n a m cl :
  parse_alt n f (1, []) (body ++ s_ ")") = Some (a, (m, cl), s_ ")") -> n <= 4 * length body + 20 ->
  compile f (s_ "(?P<all>" ++ body ++ s_ ")") = Some (XSeq (XGrp 1 a) XEps, m).
Proof.
  intros P L. unfold compile. rewrite !app_length. change (length (s_ "(?P<all>")) with 8.
  change (length (s_ ")")) with 1.
  assert (exists k, 4 * (8 + (length body + 1)) + 4 = S (S (S (4 * length body + 20 + k)))) as [k ->].
  { exists 17. lia. }
  assert (At : parse_atom (S (4 * length body + 20 + k)) f (0, []) (s_ "(?P<all>" ++ body ++ s_ ")")
               = Some (XGrp 1 a, (m, 1 :: cl), [])).
  { rewrite parse_atom_eq.
    change (s_ "(?P<all>" ++ body ++ s_ ")") with (40%N :: group_name ++ body ++ s_ ")").
    change (N.eqb 40 40) with true. cbv iota.
    change (startswith (s_ "?:") (group_name ++ body ++ s_ ")")) with false. cbv iota zeta.
    change (startswith group_name (group_name ++ body ++ s_ ")")) with true. cbv iota.
    change (skipn (length group_name) (group_name ++ body ++ s_ ")")) with (body ++ s_ ")"). cbn [fst snd].
    rewrite (parse_alt_mono _ _ _ _ _ _ _ (4 * length body + 20 + k) P) by lia. reflexivity. }
  assert (Sq : parse_seq (S (S (4 * length body + 20 + k))) f (0, []) (s_ "(?P<all>" ++ body ++ s_ ")")
               = Some (XSeq (XGrp 1 a) XEps, (m, 1 :: cl), [])).
  { rewrite parse_seq_eq, At. reflexivity. }
  rewrite parse_alt_eq, Sq. reflexivity.
Qed.
Lemma compile_literal s :
  compile 0 (literal_regex s) = Some (lit_rx s, 0)
  /\ compile 0 (as_regex (literal_regex s)) = Some (bracket (lit_rx s), 1).
Proof.
  pose proof (parse_literal (0, []) s (4 * length (literal_regex s) + 4) [] I (le_n _)) as P.
  rewrite app_nil_r in P. split; [unfold compile; rewrite P; reflexivity|].
  rewrite bump_literal. unfold bracket. rewrite shift_lit_rx.
  apply (compile_bracket 0 (literal_regex s) (4 * length (literal_regex s) + 4) (lit_rx s) 1 []); [|lia].
  apply parse_literal; [reflexivity|lia].
Qed.

(** ** Matching *)

Fixpoint advances (s rest : str) (st : mstate) : mstate :=
  match s, rest with
  | c :: s', d :: r => advances s' r (advance d r st)
  | _, _ => st
  end.
Lemma xmatch_lit {X} t s : forall st (k : mstate -> option X),
  xmatch 0 t (lit 0 s) st k
  = if startswith s (ms_rest st) then k (advances s (ms_rest st) st) else None.
Proof.
  induction s as [|c s IH]; intros st k; cbn [lit fold_right].
  - cbn [xmatch startswith advances]. reflexivity.
  - fold (lit 0 s). cbn [xmatch XLit]. unfold XLit. cbn [xmatch].
    destruct (ms_rest st) as [|d r]; [reflexivity|]. cbn [startswith advances].
    change (fold_case 0 (N.eqb c) d) with (N.eqb c d). destruct (N.eqb c d); [|reflexivity].
    cbn [andb]. rewrite IH. reflexivity.
Qed.
Lemma xmatch_lit_rx {X} t s st (k : mstate -> option X) :
  xmatch 0 t (lit_rx s) st k
  = if startswith s (ms_rest st) then k (advances s (ms_rest st) st) else None.
Proof.
  unfold lit_rx. destruct (Z.ltb 1 (zlen (re_escape s))); cbn [xmatch]; apply xmatch_lit.
Qed.
Lemma advances_spec s : forall rest st, startswith s rest = true -> ms_rest st = rest ->
  ms_pos (advances s rest st) = ms_pos st + length s
  /\ ms_caps (advances s rest st) = ms_caps st
  /\ ms_rest (advances s rest st) = skipn (length s) rest.
Proof.
  induction s as [|c s IH]; intros rest st E Er; cbn [advances length].
  - split; [lia|]. split; [reflexivity|exact Er].
  - destruct rest as [|d r]; [discriminate|]. cbn [startswith] in E. apply andb_prop in E. destruct E as [_ E].
    destruct (IH r (advance d r st) E eq_refl) as (P & Q & R). rewrite P, Q, R. cbn [advance ms_pos ms_caps skipn].
    split; [lia|auto].
Qed.
Lemma match_here_lit t s ok prev rest pos :
  (forall st st', ms_pos st = ms_pos st' -> ms_rest st = ms_rest st' -> ok st = ok st') ->
  match_here 0 (lit_rx s) t ok prev rest pos
  = if startswith s rest && ok (mkms None (skipn (length s) rest) (pos + length s) [])
    then Some (mkfound pos (pos + length s) []) else None.
Proof.
  intros O. unfold match_here. rewrite xmatch_lit_rx. cbn [ms_rest].
  destruct (startswith s rest) eqn:E; [|reflexivity]. cbn [andb].
  destruct (advances_spec s rest (mkms prev rest pos []) E eq_refl) as (P & Q & R).
  cbn [ms_pos ms_caps] in P, Q.
  rewrite (O _ (mkms None (skipn (length s) rest) (pos + length s) []) P R), P, Q. reflexivity.
Qed.
Lemma fullmatch_lit t s :
  fullmatch 0 (lit_rx s) t = if str_eqb s t then Some (mkfound 0 (length s) []) else None.
Proof.
  unfold fullmatch. rewrite match_here_lit by (intros st st' _ ->; reflexivity). cbn [ms_rest Nat.add].
  replace (startswith s t && match skipn (length s) t with [] => true | _ => false end) with (str_eqb s t);
    [reflexivity|].
  revert t. induction s as [|c s IH]; intros [|d t]; cbn [str_eqb startswith length skipn andb]; try reflexivity.
  rewrite IH. destruct (N.eqb c d); reflexivity.
Qed.
Lemma search_from_lit t s ok pos0 :
  (forall st st', ms_pos st = ms_pos st' -> ms_rest st = ms_rest st' -> ok st = ok st') ->
  (forall i r, pos0 <= i -> ok (mkms None r (i + length s) []) = true) -> forall rest prev pos, pos0 <= pos ->
  search_from 0 (lit_rx s) t ok prev rest pos
  = option_map (fun i => mkfound (pos + i) (pos + i + length s) []) (str_find s rest).
Proof.
  intros O A. induction rest as [|c rest IH]; intros prev pos L; cbn [search_from str_find];
    rewrite match_here_lit, A, andb_true_r by assumption.
  - destruct (startswith s []); cbn [option_map]; [rewrite Nat.add_0_r|]; reflexivity.
  - destruct (startswith s (c :: rest)); cbn [option_map]; [rewrite Nat.add_0_r; reflexivity|].
    rewrite IH by lia. destruct (str_find s rest); cbn [option_map]; [|reflexivity].
    do 2 f_equal; lia.
Qed.
Lemma search_lit t s :
  search 0 (lit_rx s) t = option_map (fun i => mkfound i (i + length s) []) (str_find s t).
Proof.
  unfold search. rewrite (search_from_lit t s _ 0) by (auto; reflexivity). reflexivity.
Qed.

(** All matches of a text that is not empty. *)
Fixpoint places (n : nat) (s : str) (pos : nat) (rest : str) : list found :=
  match n with
  | O => []
  | S n' => match str_find s rest with
            | None => []
            | Some i => mkfound (pos + i) (pos + i + length s) []
                        :: places n' s (pos + i + length s) (skipn (i + length s) rest)
            end
  end.
Lemma find_matches_lit t s : s <> [] -> forall n e pos,
  find_matches n 0 (lit_rx s) t e pos = places n s pos (skipn pos t).
Proof.
  intros Ne. induction n as [|n IH]; intros e pos; [reflexivity|]. cbn [find_matches places].
  rewrite (search_from_lit t s _ pos); [| | |lia].
  - destruct (str_find s (skipn pos t)) as [i|]; [|reflexivity]. cbn [option_map].
    cbn [fd_start fd_end]. rewrite IH. rewrite <- Nat.add_assoc, skipn_add. reflexivity.
  - intros st st' E _. rewrite E. reflexivity.
  - intros i r L. cbn [ms_pos]. destruct s as [|c s]; [contradiction|]. cbn [length].
    replace (Nat.eqb (i + S (length s)) pos) with false by (symmetry; apply Nat.eqb_neq; lia).
    rewrite andb_false_r. reflexivity.
Qed.

Lemma find_prefix s x i : str_find s x = Some i -> exists v, skipn i x = s ++ v /\ i + length s <= length x.
Proof.
  intros E. pose proof (str_find_spec s x) as F. rewrite E in F. destruct F as [(a & b & -> & <-) _].
  exists b. rewrite skipn_app, skipn_all, Nat.sub_diag. cbn [skipn app]. split; [reflexivity|].
  rewrite !app_length. lia.
Qed.
Lemma replace_find old new : old <> [] -> forall x,
  replace_ne old new 0 x
  = match str_find old x with
    | None => x
    | Some i => firstn i x ++ new ++ replace_ne old new 0 (skipn (i + length old) x)
    end.
Proof.
  intros Ne. induction x as [|c x IH]; cbn [str_find].
  - destruct old; [contradiction|]. reflexivity.
  - cbn [replace_ne]. destruct (startswith old (c :: x)) eqn:E.
    + cbn [firstn app Nat.add]. f_equal.
      assert (L : length old <= length (c :: x)).
      { apply startswith_spec in E. destruct E as [v E]. rewrite E, app_length. lia. }
      destruct old as [|d old]; [contradiction|]. cbn [length] in *.
      rewrite replace_skip by lia. cbn [skipn Nat.add]. do 2 f_equal; lia.
    + rewrite IH. destruct (str_find old x) as [i|]; cbn [option_map firstn app Nat.add skipn]; reflexivity.
Qed.
Lemma split_find sep : sep <> [] -> forall x cur,
  split_ne sep 0 cur x
  = match str_find sep x with
    | None => [cur ++ x]
    | Some i => (cur ++ firstn i x) :: split_ne sep 0 [] (skipn (i + length sep) x)
    end.
Proof.
  intros Ne. induction x as [|c x IH]; intros cur; cbn [str_find].
  - destruct sep; [contradiction|]. cbn [split_ne startswith]. rewrite app_nil_r. reflexivity.
  - cbn [split_ne]. destruct (startswith sep (c :: x)) eqn:E.
    + cbn [firstn app Nat.add]. rewrite app_nil_r. f_equal.
      assert (L : length sep <= length (c :: x)).
      { apply startswith_spec in E. destruct E as [v E]. rewrite E, app_length. lia. }
      destruct sep as [|d sep]; [contradiction|]. cbn [length] in *.
      rewrite split_skip by lia. cbn [skipn Nat.add]. do 2 f_equal; lia.
    + rewrite IH. destruct (str_find sep x) as [i|]; cbn [option_map firstn Nat.add skipn];
        rewrite <- app_assoc; reflexivity.
Qed.
Lemma count_skip sub k s : k <= length s -> count_ne sub k s = count_ne sub 0 (skipn k s).
Proof.
  revert s. induction k as [|k IH]; intros s H; [reflexivity|].
  destruct s as [|c s]; [cbn [length] in H; lia|]. cbn [count_ne skipn]. apply IH. cbn [length] in H. lia.
Qed.
Lemma count_find sub : sub <> [] -> forall x,
  count_ne sub 0 x
  = match str_find sub x with
    | None => 0
    | Some i => S (count_ne sub 0 (skipn (i + length sub) x))
    end.
Proof.
  intros Ne. induction x as [|c x IH]; cbn [str_find].
  - destruct sub; [contradiction|]. reflexivity.
  - cbn [count_ne]. destruct (startswith sub (c :: x)) eqn:E.
    + f_equal. cbn [Nat.add].
      assert (L : length sub <= length (c :: x)).
      { apply startswith_spec in E. destruct E as [v E]. rewrite E, app_length. lia. }
      destruct sub as [|d sub]; [contradiction|]. cbn [length] in *.
      rewrite count_skip by lia. cbn [skipn Nat.add]. do 2 f_equal; lia.
    + rewrite IH. destruct (str_find sub x) as [i|]; reflexivity.
Qed.

Lemma places_spec t s u : s <> [] -> forall n pos, pos <= length t -> length t - pos < n ->
  length (places n s pos (skipn pos t)) = count_ne s 0 (skipn pos t)
  /\ sub_from t (fun _ => u) pos (places n s pos (skipn pos t)) = replace_ne s u 0 (skipn pos t)
  /\ split_from t 0 pos (places n s pos (skipn pos t)) = map Some (split_ne s 0 [] (skipn pos t)).
Proof.
  intros Ne. induction n as [|n IH]; intros pos L Ln; [lia|]. cbn [places].
  rewrite (count_find s Ne), (replace_find s u Ne), (split_find s Ne).
  destruct (str_find s (skipn pos t)) as [i|] eqn:E.
  - destruct (find_prefix _ _ _ E) as (v & _ & Lv). rewrite skipn_length in Lv.
    rewrite <- skipn_add. rewrite Nat.add_assoc.
    assert (0 < length s) by (destruct s; [contradiction|cbn [length]; lia]).
    destruct (IH (pos + i + length s)) as (A1 & A2 & A3); [lia|lia|].
    assert (Sp : span t pos (pos + i) = firstn i (skipn pos t))
      by (unfold span; f_equal; lia).
    cbn [length sub_from split_from fd_start fd_end seq map app]. rewrite A1, A2, A3, Sp. auto.
  - cbn [length sub_from split_from map app]. auto.
Qed.

(** All matches of the empty text. *)
Lemma find_matches_empty t : forall n pos, pos <= length t -> length t - pos < n ->
  find_matches n 0 (lit_rx []) t true pos
  = map (fun i => mkfound i i []) (seq (S pos) (length t - pos)).
Proof.
  assert (Mh : forall ok prev rest pos,
    (forall st st', ms_pos st = ms_pos st' -> ms_rest st = ms_rest st' -> ok st = ok st') ->
    match_here 0 (lit_rx []) t ok prev rest pos
    = if ok (mkms None rest pos []) then Some (mkfound pos pos []) else None).
  { intros ok prev rest pos O. rewrite match_here_lit by exact O. cbn [startswith length andb].
    rewrite Nat.add_0_r. reflexivity. }
  induction n as [|n IH]; intros pos L Ln; [lia|]. cbn [find_matches].
  destruct (skipn pos t) as [|c r] eqn:Er.
  - cbn [search_from]. rewrite Mh by (intros st st' E _; rewrite E; reflexivity).
    cbn [ms_pos]. rewrite Nat.eqb_refl. cbn [negb andb].
    apply (f_equal (@length _)) in Er. rewrite skipn_length in Er. unfold str, char in *. cbn [length] in Er.
    replace (length t - pos) with 0 by lia. reflexivity.
  - destruct (skipn_cons _ _ _ _ Er) as (E1 & E2 & E3). cbn [search_from].
    rewrite Mh by (intros st st' E _; rewrite E; reflexivity).
    cbn [ms_pos]. rewrite Nat.eqb_refl. cbn [negb andb].
    assert (Sf : search_from 0 (lit_rx []) t (fun s => negb (Nat.eqb (ms_pos s) pos)) (Some c) r (S pos)
                 = Some (mkfound (S pos) (S pos) [])).
    { destruct r; cbn [search_from]; rewrite Mh by (intros st st' E _; rewrite E; reflexivity);
        cbn [ms_pos]; replace (Nat.eqb (S pos) pos) with false by (symmetry; apply Nat.eqb_neq; lia);
        reflexivity. }
    rewrite Sf. cbn [fd_start fd_end]. rewrite Nat.eqb_refl.
    unfold str, char in *. replace (length t - pos) with (S (length t - S pos)) by lia.
    cbn [seq map]. f_equal. apply IH; lia.
Qed.
Lemma matches_empty t :
  matches 0 (lit_rx []) t = map (fun i => mkfound i i []) (seq 0 (S (length t))).
Proof.
  unfold matches. replace (2 * length t + 2) with (S (2 * length t + 1)) by lia.
  cbn [find_matches skipn prev_at].
  assert (Sf : forall rest, search_from 0 (lit_rx []) t (fun s => negb (false && Nat.eqb (ms_pos s) 0)) None rest 0
               = Some (mkfound 0 0 [])).
  { intros rest. destruct rest; cbn [search_from]; rewrite match_here_lit by (intros; reflexivity);
      reflexivity. }
  rewrite Sf. cbn [fd_start fd_end Nat.eqb seq map]. f_equal.
  rewrite find_matches_empty by lia. rewrite Nat.sub_0_r. reflexivity.
Qed.
Lemma sub_empty t u : forall pos, pos <= length t ->
  sub_from t (fun _ => u) pos (map (fun i => mkfound i i []) (seq (S pos) (length t - pos)))
  = flat_map (fun c => c :: u) (skipn pos t).
Proof.
  intros pos. remember (length t - pos) as k eqn:Ek. revert pos Ek.
  induction k as [|k IH]; intros pos Ek L.
  - cbn [seq map sub_from]. rewrite skipn_all2 by lia. reflexivity.
  - cbn [seq map sub_from fd_start fd_end].
    rewrite IH by lia. destruct (skipn pos t) as [|c r] eqn:Er.
    { apply (f_equal (@length _)) in Er. rewrite skipn_length in Er. unfold str, char in *. cbn [length] in Er. lia. }
    destruct (skipn_cons _ _ _ _ Er) as (E1 & E2 & E3).
    unfold span. rewrite Er, E2. replace (S pos - pos) with 1 by lia. reflexivity.
Qed.

(** Counting, replacing and splitting agree with the functions on texts. *)
Lemma matches_lit t s u :
  length (matches 0 (lit_rx s) t) = str_count s t
  /\ sub_from t (fun _ => u) 0 (matches 0 (lit_rx s) t) = str_replace s u t
  /\ (s <> [] -> split_from t 0 0 (matches 0 (lit_rx s) t) = map Some (str_split s t)).
Proof.
  destruct s as [|c s].
  - rewrite matches_empty, map_length, seq_length. split; [reflexivity|]. split; [|contradiction].
    cbn [seq map sub_from fd_start fd_end]. rewrite span_self. cbn [app str_replace]. f_equal.
    pose proof (sub_empty t u 0 (Nat.le_0_l _)) as H. rewrite Nat.sub_0_r in H. exact H.
  - unfold matches. rewrite find_matches_lit by discriminate.
    destruct (places_spec t (c :: s) u ltac:(discriminate) (2 * length t + 2) 0) as (A1 & A2 & A3); [lia|lia|].
    cbn [skipn] in *. rewrite A1, A2, A3. auto.
Qed.
