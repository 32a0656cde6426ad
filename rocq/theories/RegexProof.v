(** * The operators on Patterns: lemmas *)

From Coq Require Import String List NArith ZArith Bool Arith Lia.
From Verif Require Import PyStr PyRe PyNum Tokens OpFun OpTable Unparse PTypes Ops UserRe OpsSeq Apply RunOp PFacts
                          StrFacts ListProof SpecRegex ReSound ReScan ReParse ReShift ReLit ReAlg.
Import ListNotations.
Local Open Scope list_scope.

(** ** Replacement templates without references *)

Lemma template_neq n g c s : N.eqb c 92 = false ->
  template (S n) g (c :: s) = option_map (cons (PLit c)) (template n g s).
Proof.
  intros H. apply N.eqb_neq in H. cbn [template].
  destruct c as [|p]; [reflexivity|].
  repeat (destruct p as [p|p|]; try reflexivity; []).
  contradiction H. reflexivity.
Qed.
Lemma template_double g u : forall n,
  length (str_replace [c_backslash] [c_backslash; c_backslash] u) < n ->
  template n g (str_replace [c_backslash] [c_backslash; c_backslash] u) = Some (map PLit u).
Proof.
  unfold str_replace. induction u as [|c u IH]; intros n L; (destruct n as [|n]; [cbn [length] in L; lia|]).
  - reflexivity.
  - cbn [replace_ne startswith length Nat.sub] in *. rewrite andb_true_r in *.
    destruct (N.eqb c_backslash c) eqn:E.
    + apply N.eqb_eq in E. subst c. cbn [app length] in L.
      change (template (S n) g (92%N :: 92%N :: replace_ne [c_backslash] [c_backslash; c_backslash] 0 u)
              = Some (PLit 92%N :: map PLit u)).
      change (option_map (cons (PLit 92%N)) (template n g (replace_ne [c_backslash] [c_backslash; c_backslash] 0 u))
              = Some (PLit 92%N :: map PLit u)).
      rewrite IH by (unfold str, char in *; lia). reflexivity.
    + rewrite template_neq by (rewrite N.eqb_sym; exact E). cbn [length] in L.
      rewrite IH by (unfold str, char in *; lia). reflexivity.
Qed.
Lemma parse_double g u :
  parse_template g (str_replace [c_backslash] [c_backslash; c_backslash] u) = Some (map PLit u).
Proof. apply template_double. auto. Qed.
Lemma expand_lit t u m : expand t (map PLit u) m = u.
Proof. unfold expand. induction u as [|c u IH]; cbn [map concat app]; [reflexivity|]. rewrite IH. reflexivity. Qed.

(** ** Literal Patterns *)

Lemma with_literal {A} s t (k : rx -> nat -> option A) :
  with_regex 0 (as_regex (literal_regex s)) t k = k (bracket (lit_rx s)) 1.
Proof. unfold with_regex, usable. rewrite (proj2 (compile_literal s)). reflexivity. Qed.
Lemma sub_bracketed t (u : str) : forall ms pos,
  sub_from t (fun _ => u) pos (map bracketed ms) = sub_from t (fun _ => u) pos ms.
Proof.
  induction ms as [|m ms IH]; intros pos; [reflexivity|]. cbn [map sub_from bracketed fd_start fd_end].
  rewrite IH. reflexivity.
Qed.
Lemma literal_finditer s t :
  re_finditer (literal_regex s) 0 t = Some (map bracketed (matches 0 (lit_rx s) t), 1).
Proof. unfold re_finditer. rewrite with_literal, matches_bracket. reflexivity. Qed.
Lemma literal_search s t :
  re_search (literal_regex s) 0 t
  = Some (option_map (fun i => bracketed (mkfound i (i + length s) [])) (str_find s t), 1).
Proof.
  unfold re_search. rewrite with_literal, search_bracket, search_lit.
  destruct (str_find s t); reflexivity.
Qed.
Lemma literal_full s t :
  re_fullmatch (literal_regex s) 0 t
  = Some (if str_eqb s t then Some (bracketed (mkfound 0 (length s) [])) else None, 1).
Proof.
  unfold re_fullmatch. rewrite with_literal, fullmatch_bracket, fullmatch_lit.
  destruct (str_eqb s t); reflexivity.
Qed.
Lemma sub_text f r t u l : (forall m, expand t l m = u) ->
  sub_from t (expand t l) 0 (matches f r t) = sub_from t (fun _ => u) 0 (matches f r t).
Proof. intros H. apply sub_from_ext. intros m _. apply H. Qed.
Lemma literal_sub s t u :
  re_sub (as_regex (literal_regex s)) 0 (str_replace [c_backslash] [c_backslash; c_backslash] u) t
  = Some (str_replace s u t).
Proof.
  unfold re_sub. rewrite with_literal, parse_double, (sub_text _ _ _ u) by apply expand_lit.
  rewrite matches_bracket, sub_bracketed.
  rewrite (proj1 (proj2 (matches_lit t s u))). reflexivity.
Qed.
Lemma literal_split s t : s <> [] -> re_split (literal_regex s) 0 t = Some (map Some (str_split s t)).
Proof.
  intros H. unfold re_split, with_regex, usable. rewrite (proj1 (compile_literal s)). cbn [orb negb fl_ignorecase].
  rewrite (proj2 (proj2 (matches_lit t s [])) H). reflexivity.
Qed.
Lemma literal_nil s : literal_regex s = [] <-> s = [].
Proof.
  split; [|intros ->; reflexivity]. unfold literal_regex, pat_wrap.
  destruct (Z.ltb 1 (zlen (re_escape s))); [discriminate|].
  destruct s as [|c s]; [reflexivity|]. rewrite escape_cons.
  destruct (cls_in re_special c); discriminate.
Qed.
Lemma literal_X fmt s : run_op fmt "X" [PScal s] = ret (PPat (literal_regex s) 0).
Proof. run_plain. reflexivity. Qed.
Lemma literal_IN fmt s t :
  run_op fmt "N" [PPat (literal_regex s) 0; PScal t] = run_op fmt "N" [PScal s; PScal t].
Proof.
  transitivity (op_IN (PPat (literal_regex s) 0) (PScal t)); [run_plain; reflexivity|].
  transitivity (op_IN (PScal s) (PScal t)); [|symmetry; run_plain; reflexivity].
  cbn [op_IN]. rewrite literal_finditer. cbn [of_re p_count]. rewrite bind_ret. cbn [fst].
  unfold zlen. rewrite map_length, (proj1 (matches_lit t s [])). reflexivity.
Qed.
Lemma literal_NI fmt s t :
  run_op fmt "NI" [PPat (literal_regex s) 0; PScal t] = run_op fmt "NI" [PScal s; PScal t].
Proof.
  transitivity (op_NOTIN (PPat (literal_regex s) 0) (PScal t)); [run_plain; reflexivity|].
  transitivity (op_NOTIN (PScal s) (PScal t)); [|symmetry; run_plain; reflexivity].
  cbn [op_NOTIN]. rewrite literal_search. cbn [of_re p_contains]. rewrite bind_ret. cbn [fst]. unfold str_contains.
  destruct (str_find s t); reflexivity.
Qed.
Lemma literal_FIND fmt s t :
  run_op fmt "@?" [PScal t; PPat (literal_regex s) 0] = run_op fmt "@?" [PScal t; PScal s].
Proof.
  transitivity (op_FIND (PScal t) (PPat (literal_regex s) 0)); [run_plain; reflexivity|].
  transitivity (op_FIND (PScal t) (PScal s)); [|symmetry; run_plain; reflexivity].
  unfold op_FIND. cbn [is_scalar_or_range each_item find1 is_scalar is_iterable andb orb p_index].
  rewrite literal_search. unfold str_index. replace (Nat.ltb (length t) 0) with false by (symmetry; apply Nat.ltb_ge; lia).
  cbn [of_re skipn]. rewrite bind_ret. cbn [fst]. destruct (str_find s t); reflexivity.
Qed.
Lemma literal_SPLIT fmt s t :
  run_op fmt "^" [PScal t; PPat (literal_regex s) 0] = run_op fmt "^" [PScal t; PScal s].
Proof.
  transitivity (op_SPLIT (PScal t) (Some (PPat (literal_regex s) 0))); [run_plain; reflexivity|].
  transitivity (op_SPLIT (PScal t) (Some (PScal s))); [|symmetry; run_plain; reflexivity].
  destruct s as [|c s]; [reflexivity|].
  pose proof (literal_nil (c :: s)) as Ne. pose proof (literal_split (c :: s) t ltac:(discriminate)) as Sp.
  unfold op_SPLIT. destruct (literal_regex (c :: s)) as [|d r]; [discriminate (proj1 Ne eq_refl)|].
  rewrite Sp. cbn [of_re]. rewrite !bind_ret. rewrite map_map. reflexivity.
Qed.
Lemma literal_REMOVE fmt s t :
  run_op fmt "RM" [PScal t; PPat (literal_regex s) 0] = run_op fmt "RM" [PScal t; PScal s].
Proof.
  transitivity (remove_scalar (PScal t) (PPat (literal_regex s) 0)); [run_plain; reflexivity|].
  transitivity (remove_scalar (PScal t) (PScal s)); [|symmetry; run_plain; reflexivity].
  cbn [remove_scalar]. pose proof (literal_sub s t []) as H. change (str_replace [c_backslash] _ []) with (@nil char) in H.
  rewrite H. reflexivity.
Qed.
Lemma literal_REPLACE fmt s t new : is_block new = false ->
  run_op fmt "R" [PScal t; PPat (literal_regex s) 0; new] = run_op fmt "R" [PScal t; PScal s; new].
Proof.
  intros B.
  transitivity (op_REPLACE fmt (PScal t) (PPat (literal_regex s) 0) new); [run_plain; [reflexivity|destruct new; reflexivity]|].
  transitivity (op_REPLACE fmt (PScal t) (PScal s) new); [|symmetry; run_plain; [reflexivity|destruct new; reflexivity]].
  unfold op_REPLACE. cbn [as_list].
  assert (forall new', replace_items fmt (PPat (literal_regex s) 0) new' (PScal t)
                       = replace_items fmt (PScal s) new' (PScal t)) as H.
  { intros new'. cbn [replace_items replace1].
    pose proof (fun u => literal_sub s t u) as L. pose proof (literal_sub s t []) as L0.
    change (str_replace [c_backslash] _ []) with (@nil char) in L0.
    destruct new'; unfold replace_regex; try rewrite L; try rewrite L0; try reflexivity. }
  rewrite !bind_ret. destruct (as_list new) as [w [x|e]]; [|reflexivity]. unfold bind. rewrite H. reflexivity.
Qed.
Lemma literal_FULL fmt s t :
  run_op fmt "~=" [PScal t; PPat (literal_regex s) 0] = ret (scal_bool (str_eqb s t)).
Proof.
  transitivity (op_FULLMATCH (PScal t) (PPat (literal_regex s) 0)); [run_plain; reflexivity|].
  unfold op_FULLMATCH. cbn [match_args full_match]. rewrite literal_full. cbn [of_re]. rewrite bind_ret. cbn [fst].
  destruct (str_eqb s t); reflexivity.
Qed.
Lemma literal_FIRST fmt s t :
  run_op fmt "~" [PScal t; PPat (literal_regex s) 0]
  = ret (if str_contains s t then PScal s else PNil).
Proof.
  transitivity (op_FIRSTMATCH (PScal t) (PPat (literal_regex s) 0)); [run_plain; reflexivity|].
  unfold op_FIRSTMATCH. cbn [match_args]. rewrite literal_search. cbn [of_re]. rewrite bind_ret. cbn [fst]. unfold str_contains.
  destruct (str_find s t) as [i|] eqn:E; [|reflexivity]. cbn [option_map].
  destruct (find_prefix _ _ _ E) as (v & Ev & _).
  unfold match_text, span. cbn [bracketed fd_start fd_end]. rewrite Ev.
  replace (i + length s - i) with (length s) by lia. rewrite firstn_app, firstn_all, Nat.sub_diag. cbn [firstn].
  rewrite app_nil_r. reflexivity.
Qed.

(** ** Patterns made with operators *)

Lemma mapM_literal ss : mapM op_REGEX (map PScal ss) = ret (map (fun s => PPat (literal_regex s) 0) ss).
Proof. induction ss as [|s ss IH]; [reflexivity|]. cbn [map mapM op_REGEX]. rewrite bind_ret, IH. reflexivity. Qed.
Lemma X_texts fmt ss : run_op fmt "X" [PList (map PScal ss)]
  = ret (PPat (pat_wrap (str_join (s_ "|") (map literal_regex ss))) 0).
Proof.
  transitivity (op_REGEX (PList (map PScal ss))); [run_plain; reflexivity|]. cbn [op_REGEX].
  rewrite mapM_literal, bind_ret, map_map. reflexivity.
Qed.
Lemma then_op fmt r f r' f' : run_op fmt "+" [PPat r f; PPat r' f']
  = ret (PPat (pat_wrap r ++ pat_wrap r') (N.lor f f')).
Proof. run_plain. reflexivity. Qed.
Lemma or_op fmt r f r' f' : run_op fmt "," [PPat r f; PPat r' f']
  = ret (PPat (pat_wrap r ++ s_ "|" ++ pat_wrap r') (N.lor f f')).
Proof. run_plain. reflexivity. Qed.
Lemma star_op fmt r f : run_op fmt "K" [PPat r f] = ret (PPat (pat_wrap r ++ s_ "*") f).
Proof. run_plain. reflexivity. Qed.
Lemma plus_op fmt r f : run_op fmt "+" [PPat r f] = ret (PPat (pat_wrap r ++ s_ "+") f).
Proof. run_plain. reflexivity. Qed.
Lemma times_op fmt r f s : run_op fmt "*" [PPat r f; PScal s]
  = ret (PPat (pat_wrap r ++ s_ "{" ++ str_of_Z (scalar_int s) ++ s_ "}") f).
Proof. run_plain. reflexivity. Qed.
Lemma group_op fmt r f : run_op fmt "C" [PPat r f] = ret (PPat (s_ "(" ++ r ++ s_ ")") f).
Proof. run_plain. reflexivity. Qed.

Lemma denotes_part fmt p L : denotes fmt p L -> exists raw, p = PPat raw 0 /\ part raw L.
Proof.
  induction 1 as [s p E|ss p Ne E Np|raw P C|p q L M r _ IHp _ IHq E|p q L M r _ IHp _ IHq E Np
                 |p L r _ IHp Np E|p L r _ IHp Np E|p L s n r _ IHp Np En Ln E|p L r _ IHp E].
  - rewrite literal_X in E. injection E as <-. eexists. split; [reflexivity|]. apply literal_part.
  - rewrite X_texts in E. injection E as <-. eexists. split; [reflexivity|]. apply texts_part; [exact Ne|].
    intros Q. apply Np. rewrite Q. reflexivity.
  - exists raw. split; [reflexivity|apply char_part; exact C].
  - destruct IHp as (a & -> & A). destruct IHq as (b & -> & B). rewrite then_op in E. injection E as <-.
    eexists. split; [reflexivity|apply part_then; assumption].
  - destruct IHp as (a & -> & A). destruct IHq as (b & -> & B). rewrite or_op in E. injection E as <-.
    eexists. split; [reflexivity|apply part_or; try assumption]. intros Q. apply Np.
    exact (f_equal (fun x => PPat x 0) Q).
  - destruct IHp as (a & -> & A). rewrite star_op in E. injection E as <-.
    eexists. split; [reflexivity|apply part_star; [exact A|intros ->; contradiction]].
  - destruct IHp as (a & -> & A). rewrite plus_op in E. injection E as <-.
    eexists. split; [reflexivity|apply part_plus; [exact A|intros ->; contradiction]].
  - destruct IHp as (a & -> & A). rewrite times_op in E. injection E as <-.
    eexists. split; [reflexivity|apply part_times; [exact A|intros ->; contradiction|exact En]].
  - destruct IHp as (a & -> & A). rewrite group_op in E. injection E as <-.
    eexists. split; [reflexivity|apply part_group; exact A].
Qed.

(** The operators on a Pattern that is compiled. *)
Section Compiled.
  Variable fmt : ofmt.
  Variables (raw : str) (f : N) (t : str) (r : rx) (k : nat).
  Hypothesis Us : usable f (as_regex raw) t = true.
  Hypothesis Co : compile f (as_regex raw) = Some (r, k).

  Lemma with_compiled {A} (g : rx -> nat -> option A) : with_regex f (as_regex raw) t g = g r k.
  Proof. unfold with_regex. rewrite Us, Co. reflexivity. Qed.

  Lemma run_FULL : run_op fmt "~=" [PScal t; PPat raw f]
    = ret (scal_bool match fullmatch f r t with Some _ => true | None => false end).
  Proof.
    transitivity (op_FULLMATCH (PScal t) (PPat raw f)); [run_plain; reflexivity|].
    unfold op_FULLMATCH. cbn [match_args full_match]. unfold re_fullmatch. rewrite with_compiled.
    cbn [of_re]. rewrite !bind_ret. reflexivity.
  Qed.
  Lemma run_FIRST : run_op fmt "~" [PScal t; PPat raw f]
    = ret match search f r t with Some m => PScal (match_text t m) | None => PNil end.
  Proof.
    transitivity (op_FIRSTMATCH (PScal t) (PPat raw f)); [run_plain; reflexivity|].
    unfold op_FIRSTMATCH. cbn [match_args]. unfold re_search. rewrite with_compiled.
    cbn [of_re]. rewrite bind_ret. reflexivity.
  Qed.
  Lemma run_FIND : run_op fmt "@?" [PScal t; PPat raw f]
    = ret match search f r t with Some m => scal_Z (Z.of_nat (fd_start m)) | None => PNil end.
  Proof.
    transitivity (op_FIND (PScal t) (PPat raw f)); [run_plain; reflexivity|].
    unfold op_FIND. cbn [is_scalar_or_range each_item find1]. unfold re_search. rewrite with_compiled.
    cbn [of_re]. rewrite bind_ret. reflexivity.
  Qed.
  Lemma run_NI : run_op fmt "NI" [PPat raw f; PScal t]
    = ret (scal_bool match search f r t with Some _ => false | None => true end).
  Proof.
    transitivity (op_NOTIN (PPat raw f) (PScal t)); [run_plain; reflexivity|].
    cbn [op_NOTIN]. unfold re_search. rewrite with_compiled. cbn [of_re]. rewrite bind_ret. reflexivity.
  Qed.
  Lemma run_IN : run_op fmt "N" [PPat raw f; PScal t]
    = ret (scal_Z (Z.of_nat (length (matches f r t)))).
  Proof.
    transitivity (op_IN (PPat raw f) (PScal t)); [run_plain; reflexivity|].
    cbn [op_IN]. unfold re_finditer. rewrite with_compiled. cbn [of_re]. rewrite bind_ret. reflexivity.
  Qed.
  Lemma run_FINDALL : run_op fmt "@*" [PScal t; PPat raw f]
    = ret (PList (map (fun m => scal_Z (Z.of_nat (fd_start m))) (matches f r t))).
  Proof.
    transitivity (op_FINDALL (PScal t) (PPat raw f)); [run_plain; reflexivity|].
    unfold op_FINDALL. cbn [is_scalar_or_range each_item find_all1]. unfold re_finditer. rewrite with_compiled.
    cbn [of_re]. rewrite bind_ret. reflexivity.
  Qed.
  Lemma run_AT : run_op fmt "@" [PScal t; PPat raw f]
    = ret (PList (map (fun m => PScal (match_text t m)) (matches f r t))).
  Proof.
    transitivity (at_pattern raw f (PScal t)); [run_plain; reflexivity|].
    cbn [at_pattern]. unfold re_finditer. rewrite with_compiled.
    cbn [of_re]. rewrite bind_ret. reflexivity.
  Qed.
  Lemma run_REMOVE : run_op fmt "RM" [PScal t; PPat raw f]
    = ret (PScal (sub_from t (fun _ => []) 0 (matches f r t))).
  Proof.
    transitivity (remove_scalar (PScal t) (PPat raw f)); [run_plain; reflexivity|].
    cbn [remove_scalar]. unfold re_sub. rewrite with_compiled.
    change (parse_template k []) with (Some (@nil piece)). cbn [of_re]. rewrite bind_ret. reflexivity.
  Qed.
  Lemma run_REPLACE u : run_op fmt "R" [PScal t; PPat raw f; PScal u]
    = ret (PScal (sub_from t (fun _ => u) 0 (matches f r t))).
  Proof.
    transitivity (op_REPLACE fmt (PScal t) (PPat raw f) (PScal u)); [run_plain; reflexivity|].
    unfold op_REPLACE. cbn [as_list]. rewrite !bind_ret. cbn [replace_items replace1].
    unfold replace_regex, re_sub. rewrite with_compiled. cbn [p_str]. rewrite parse_double.
    cbn [of_re]. rewrite bind_ret, (sub_text _ _ _ u) by apply expand_lit. reflexivity.
  Qed.
  Lemma run_REPLACE_pattern w wf : run_op fmt "R" [PScal t; PPat raw f; PPat w wf]
    = do x <- of_re (match parse_template k (as_replacement w) with
                     | Some l => Some (sub_from t (expand t l) 0 (matches f r t))
                     | None => None
                     end); ret (PScal x).
  Proof.
    transitivity (op_REPLACE fmt (PScal t) (PPat raw f) (PPat w wf)); [run_plain; reflexivity|].
    unfold op_REPLACE. cbn [as_list]. rewrite !bind_ret. cbn [replace_items replace1].
    unfold replace_regex, re_sub. rewrite with_compiled. reflexivity.
  Qed.
End Compiled.
