(** * What statements do: specification

    A semantics of programs with assignments to variables, output, conditions,
    loops and calls of functions that have such statements, in terms of values
    only: no objects, no scopes, no evaluation of lvalues. *)

From Coq Require Import String List NArith ZArith Bool.
From Verif Require Import PyStr PyNum Tokens Scan OpFun OpTable Parse Unparse PTypes Ops Apply Spec Heap Exec
                          SpecHeap SpecScan SpecRun SpecVars SpecMain SpecAlias SpecMeta SpecFun.
Import ListNotations.
Local Open Scope string_scope.
Local Open Scope list_scope.

(** The command with this text. *)
Definition pcmd (text : string) (args : list (tree pval)) : tree pval :=
  match command_of (s_ text) with
  | Some c => TCmd c args
  | None => TBlk []
  end.

(** Variables that are no more than that, and not local to a function. *)
Definition plain_name (x : str) : Prop :=
  name_text x /\ x <> s_ "q" /\ x <> s_ "r" /\ x <> s_ "PIP" /\ ~ is_local x.
Definition know (x : str) (p : pval) (w : setting) : setting :=
  mksetting (w_fmt w) (fun y q => (y = x /\ q = p) \/ (y <> x /\ w_var w y q)) (w_one w).
Definition put (c : N) (p : pval) (L : N -> pval) : N -> pval :=
  fun d => if N.eqb d c then p else L d.
(** Giving the variable [x] the value [p]. *)
Inductive sets (x : str) (p : pval) (w : setting) (L : N -> pval) : setting -> (N -> pval) -> Prop :=
| sets_global : plain_name x -> sets x p w L (know x p w) L
| sets_local c : In c (s_ "abcdefg") -> x = [c] -> sets x p w L w (put c p L).

(** The text that [O p] and [P p] write. *)
Definition shown (fmt : ofmt) (p : pval) : str :=
  match p with PNil => [] | _ => listing fmt p end.
Definition shown_line (fmt : ofmt) (p : pval) : str :=
  match p with PNil => [] | _ => listing fmt p ++ [10%N] end.

(** The items of [l] whose tests in [bs] came out as [sense]. *)
Fixpoint chosen {A} (sense : bool) (bs : list bool) (l : list A) : list A :=
  match bs, l with
  | b :: bs, x :: l => if Bool.eqb b sense then x :: chosen sense bs l else chosen sense bs l
  | _, _ => []
  end.

(** [evaluates F w L e out w' L' p]: in a call of the function [F], evaluating
    the expression [e] writes [out], changes the values of the variables from
    [w], [L] to [w'], [L'] and gives [p].
    [runs F w L t out w' L']: the same of the statement [t].
    [invokes w F args out w' p]: a call of the function [F] with the
    arguments [args] writes [out], changes the global variables from [w] to [w']
    and returns [p]. *)
Inductive evaluates : pval -> setting -> (N -> pval) -> tree pval -> str -> setting -> (N -> pval) -> pval -> Prop :=
| evaluates_value F w L e p : has_value w F L e p -> evaluates F w L e [] w L p
| evaluates_parens F w L e out w' L' p :
    evaluates F w L e out w' L' p -> evaluates F w L (TApp op_paren [e]) out w' L' p
| evaluates_assign F w L x e out w1 L1 p w' L' :
    evaluates F w L e out w1 L1 p -> sets x p w1 L1 w' L' ->
    evaluates F w L (papp ":" [pname x; e]) out w' L' p
| evaluates_update F w L text o k a x es p qs r w' L' :
    op_by_arity (S (length es)) (s_ text) = Some o -> value_op o (S (length es)) ->
    have_values w F L (pname x :: es) (p :: qs) -> forallb plain (p :: qs) = true ->
    snd (run_op (w_fmt w) text (p :: qs)) = Val r -> sets x r w L w' L' ->
    evaluates F w L (TApp (op_set_assign o k a) (pname x :: es)) [] w' L' r
| evaluates_output F w L e out w' L' p :
    evaluates F w L e out w' L' p ->
    evaluates F w L (papp "O" [e]) (out ++ shown (w_fmt w') p) w' L' p
| evaluates_print F w L e out w' L' p :
    evaluates F w L e out w' L' p ->
    evaluates F w L (papp "P" [e]) (out ++ shown_line (w_fmt w') p) w' L' p
| evaluates_and_stop F w L a b out w' L' p :
    evaluates F w L a out w' L' p -> counts p false -> evaluates F w L (papp "&" [a; b]) out w' L' p
| evaluates_and F w L a b out w1 L1 p out' w' L' q :
    evaluates F w L a out w1 L1 p -> counts p true -> evaluates F w1 L1 b out' w' L' q ->
    evaluates F w L (papp "&" [a; b]) (out ++ out') w' L' q
| evaluates_or_stop F w L a b out w' L' p :
    evaluates F w L a out w' L' p -> counts p true -> evaluates F w L (papp "|" [a; b]) out w' L' p
| evaluates_or F w L a b out w1 L1 p out' w' L' q :
    evaluates F w L a out w1 L1 p -> counts p false -> evaluates F w1 L1 b out' w' L' q ->
    evaluates F w L (papp "|" [a; b]) (out ++ out') w' L' q
| evaluates_if F w L (t : bool) c a b out w1 L1 p out' w' L' q :
    evaluates F w L c out w1 L1 p -> counts p t -> evaluates F w1 L1 (if t then a else b) out' w' L' q ->
    evaluates F w L (papp "?" [c; a; b]) (out ++ out') w' L' q
| evaluates_call F w L e h es qs out w' p :
    has_value w F L e h -> have_values w F L es qs -> invokes w h qs out w' p ->
    evaluates F w L (TApp op_send (e :: es)) out w' L p
| evaluates_recurse F w L e out w1 L1 q out' w' p :
    evaluates F w L e out w1 L1 q -> invokes w1 F [q] out' w' p ->
    evaluates F w L (papp "RE" [e]) (out ++ out') w' L1 p
| evaluates_map F w L e1 e2 out w1 L1 h p l out' w' rs :
    evaluates_all F w L [e1; e2] out w1 L1 [h; p] -> elems p l -> invokes_each w1 h l out' w' rs ->
    evaluates F w L (papp "M" [e1; e2]) (out ++ out') w' L1 (PList rs)
| evaluates_filter F w L (sense : bool) e1 e2 out w1 L1 h p l out' w' rs bs :
    evaluates_all F w L [e1; e2] out w1 L1 [h; p] -> elems p l -> invokes_each w1 h l out' w' rs ->
    Forall2 counts rs bs ->
    evaluates F w L (papp (if sense then "FI" else "FN") [e1; e2]) (out ++ out') w' L1 (PList (chosen sense bs l))
| evaluates_yank F w L e out w1 L1 p w' L' :
    evaluates F w L e out w1 L1 p -> sets (s_ "y") p w1 L1 w' L' ->
    evaluates F w L (papp "Y" [e]) out w' L' p
| evaluates_swap F w L x y p q w1 L1 w' L' :
    x <> y -> has_value w F L (pname x) p -> has_value w F L (pname y) q ->
    sets x q w L w1 L1 -> sets y p w1 L1 w' L' ->
    evaluates F w L (papp "::" [pname x; pname y]) [] w' L' q
| evaluates_step F w L text by_ x p r w' L' :
    In (text, by_) [("U", "+"); ("++", "+"); ("D", "-"); ("--", "-")] -> w_one w ->
    has_value w F L (pname x) p -> is_block p = false ->
    snd (run_op (w_fmt w) by_ [p; scal_Z 1]) = Val r -> sets x r w L w' L' ->
    evaluates F w L (papp text [pname x]) [] w' L' r
| evaluates_compare F w L e0 links out w' L' p0 ps r :
    links <> [] -> Forall comparison (map fst links) ->
    evaluates_all F w L (e0 :: map snd links) out w' L' (p0 :: ps) ->
    Forall (fun p => is_block p = false) (p0 :: ps) ->
    chain_result (w_fmt w') p0 (combine (map fst links) ps) r ->
    evaluates F w L (pchain e0 links) out w' L' r
| evaluates_operator F w L text o es out w' L' ps r :
    op_by_arity (length es) (s_ text) = Some o -> value_op o (length es) ->
    evaluates_all F w L es out w' L' ps -> forallb plain ps = true ->
    snd (run_op (w_fmt w') text ps) = Val r ->
    evaluates F w L (TApp o es) out w' L' r
| evaluates_fold_left F w L text o e out w' L' p a l rs :
    op_by_arity 2 (s_ text) = Some o -> value_op o 2 -> o_assoc o = ALeft ->
    evaluates F w L e out w' L' p -> elems p (a :: l) -> forallb plain (a :: l) = true ->
    results_left (w_fmt w') text a l rs ->
    evaluates F w L (TApp (op_set_fold o) [e]) out w' L' (last rs a)
| evaluates_scan_left F w L text o e out w' L' p a l rs :
    op_by_arity 2 (s_ text) = Some o -> value_op o 2 -> o_assoc o = ALeft ->
    evaluates F w L e out w' L' p -> elems p (a :: l) -> forallb plain (a :: l) = true ->
    results_left (w_fmt w') text a l rs ->
    evaluates F w L (TApp (op_set_scan o) [e]) out w' L' (PList rs)
| evaluates_fold_right F w L text o e out w' L' p l c rs :
    op_by_arity 2 (s_ text) = Some o -> value_op o 2 -> o_assoc o = ARight ->
    evaluates F w L e out w' L' p -> elems p l -> forallb plain l = true ->
    results_right (w_fmt w') text l c rs ->
    evaluates F w L (TApp (op_set_fold o) [e]) out w' L' c
| evaluates_scan_right F w L text o e out w' L' p l c rs :
    op_by_arity 2 (s_ text) = Some o -> value_op o 2 -> o_assoc o = ARight ->
    evaluates F w L e out w' L' p -> elems p l -> forallb plain l = true ->
    results_right (w_fmt w') text l c rs ->
    evaluates F w L (TApp (op_set_scan o) [e]) out w' L' (PList (c :: rs))
| evaluates_fold_empty F w L text o e out w' L' p :
    op_by_arity 2 (s_ text) = Some o -> evaluates F w L e out w' L' p -> elems p [] ->
    evaluates F w L (TApp (op_set_fold o) [e]) out w' L' (default_val (o_default o))
| evaluates_scan_empty F w L text o e out w' L' p :
    op_by_arity 2 (s_ text) = Some o -> evaluates F w L e out w' L' p -> elems p [] ->
    evaluates F w L (TApp (op_set_scan o) [e]) out w' L' (PList [])
with runs : pval -> setting -> (N -> pval) -> tree pval -> str -> setting -> (N -> pval) -> Prop :=
| runs_expression F w L e out w' L' p :
    evaluates F w L e out w' L' p -> runs F w L e out w' L'
| runs_if F w L (t : bool) c yes no out w1 L1 p out' w' L' :
    evaluates F w L c out w1 L1 p -> counts p t -> runs_all F w1 L1 (if t then yes else no) out' w' L' ->
    runs F w L (pcmd "I" [c; TBlk yes; TBlk no]) (out ++ out') w' L'
| runs_loop F w L e body out w1 L1 p k out' w' L' :
    evaluates F w L e out w1 L1 p -> repetitions p k -> runs_times F w1 L1 body k out' w' L' ->
    runs F w L (pcmd "L" [e; TBlk body]) (out ++ out') w' L'
| runs_for F w L x e body out w1 L1 p l out' w' L' :
    evaluates F w L e out w1 L1 p -> elems p l -> (plain_name x \/ exists c, In c (s_ "abcdefg") /\ x = [c]) ->
    runs_each F w1 L1 x body l out' w' L' ->
    runs F w L (pcmd "F" [pname x; e; TBlk body]) (out ++ out') w' L'
| runs_while F w L c body out w' L' :
    runs_until F w L true c body out w' L' -> runs F w L (pcmd "W" [c; TBlk body]) out w' L'
| runs_till F w L c body out w' L' :
    runs_until F w L false c body out w' L' -> runs F w L (pcmd "T" [c; TBlk body]) out w' L'
with runs_all : pval -> setting -> (N -> pval) -> list (tree pval) -> str -> setting -> (N -> pval) -> Prop :=
| runs_nil F w L : runs_all F w L [] [] w L
| runs_cons F w L t ts out w1 L1 out' w' L' :
    runs F w L t out w1 L1 -> runs_all F w1 L1 ts out' w' L' ->
    runs_all F w L (t :: ts) (out ++ out') w' L'
with runs_times : pval -> setting -> (N -> pval) -> list (tree pval) -> nat -> str -> setting -> (N -> pval) -> Prop :=
| times_none F w L body : runs_times F w L body O [] w L
| times_more F w L body k out w1 L1 out' w' L' :
    runs_all F w L body out w1 L1 -> runs_times F w1 L1 body k out' w' L' ->
    runs_times F w L body (S k) (out ++ out') w' L'
with runs_each : pval -> setting -> (N -> pval) -> str -> list (tree pval) -> list pval -> str -> setting -> (N -> pval) -> Prop :=
| each_none F w L x body : runs_each F w L x body [] [] w L
| each_more F w L x body p l w1 L1 out w2 L2 out' w' L' :
    sets x p w L w1 L1 -> runs_all F w1 L1 body out w2 L2 -> runs_each F w2 L2 x body l out' w' L' ->
    runs_each F w L x body (p :: l) (out ++ out') w' L'
with runs_until : pval -> setting -> (N -> pval) -> bool -> tree pval -> list (tree pval) -> str -> setting -> (N -> pval) -> Prop :=
| until_stop F w L sense c body out w' L' p :
    evaluates F w L c out w' L' p -> counts p (negb sense) -> runs_until F w L sense c body out w' L'
| until_again F w L sense c body out w1 L1 p out' w2 L2 out'' w' L' :
    evaluates F w L c out w1 L1 p -> counts p sense -> runs_all F w1 L1 body out' w2 L2 ->
    runs_until F w2 L2 sense c body out'' w' L' ->
    runs_until F w L sense c body (out ++ out' ++ out'') w' L'
with invokes : setting -> pval -> list pval -> str -> setting -> pval -> Prop :=
| invokes_function w sts r args out w1 L1 out' w' L' p :
    runs_all (PBlock sts r) w (bound (PBlock sts r) args) sts out w1 L1 ->
    evaluates (PBlock sts r) w1 L1 r out' w' L' p ->
    invokes w (PBlock sts r) args (out ++ out') w' p
with invokes_each : setting -> pval -> list pval -> str -> setting -> list pval -> Prop :=
| invokes_none w sts r : invokes_each w (PBlock sts r) [] [] w []
| invokes_more w h p ps out w1 q out' w' qs :
    invokes w h [p] out w1 q -> invokes_each w1 h ps out' w' qs ->
    invokes_each w h (p :: ps) (out ++ out') w' (q :: qs)
with evaluates_all : pval -> setting -> (N -> pval) -> list (tree pval) -> str -> setting -> (N -> pval) -> list pval -> Prop :=
| evaluates_none F w L : evaluates_all F w L [] [] w L []
| evaluates_more F w L e es out w1 L1 p out' w' L' ps :
    evaluates F w L e out w1 L1 p -> evaluates_all F w1 L1 es out' w' L' ps ->
    evaluates_all F w L (e :: es) (out ++ out') w' L' (p :: ps).

(** The program of this text, as a function. *)
Definition program_of (text : string) (F : pval) : Prop :=
  exists ts b sts rest, scan (s_ text) = ScanOk ts b /\ parse_program (V := hval) ts = POk sts rest
    /\ sts <> [] /\ den [] (mk_block sts) F.
(** What is known at the beginning. *)
Definition start_setting (fmt : ofmt) : setting :=
  mksetting fmt (fun x p => start_values x = Some p) True.
(** Given these arguments, the program ends without an error, having written
    [out] and read none of the input. *)
Definition prints (fmt : ofmt) (warn_ : bool) (input : world) (text : string) (args : list str) (out : str) : Prop :=
  exists n s', (forall m, n <= m -> run_text m fmt warn_ input (s_ text) args = Ok tt s')
    /\ st_out s' = out /\ st_in s' = w_in input.
(** The lines of the numbers [z], [z + k], ... *)
Fixpoint lines (k z : Z) (m : nat) : str :=
  match m with O => [] | S m => str_of_Z z ++ [10%N] ++ lines k (z + k) m end.

(** The positive divisors of [n] up to [n]. *)
Definition divisors (n : Z) : list Z := filter (fun d => n mod d =? 0)%Z (ints_from 1 (Z.to_nat n)).
