(** * Specification vocabulary about running expressions and variables *)

From Coq Require Import String List NArith ZArith Bool.
From Verif Require Import PyStr PyNum Tokens OpFun OpTable Unparse PTypes Ops Apply Spec Heap Exec SpecHeap
                          SpecScan.
Import ListNotations.
Local Open Scope string_scope.
Local Open Scope list_scope.
Local Open Scope Z_scope.

(** ** Running *)

(** Evaluating the expression [e] in state [s] gives the object [v] and ends
    in state [s']. *)
Definition gives (s : state) (e : tree hval) (v : hval) (s' : state) : Prop :=
  exists n, rval_tree (run n) e s = Ok v s'.

(** ... fails with [er]. *)
Definition fails (s : state) (e : tree hval) (er : err) (s' : state) : Prop :=
  exists n, rval_tree (run n) e s = Err er s'.

(** ... gives an object with value [p]. *)
Definition shows (s : state) (e : tree hval) (p : pval) : Prop :=
  exists v s', gives s e v s' /\ den (st_heap s') v p.

(** Executing the statement [t]; [r] is the value of an expression
    statement. *)
Definition executes (s : state) (t : tree hval) (r : option hval) (s' : state)
  : Prop :=
  exists n, i_stmt (run n) t s = Ok r s'.

(** Evaluating the expressions [es] from left to right. *)
Inductive operands : state -> list (tree hval) -> list hval -> state -> Prop :=
| operands_nil s : operands s [] [] s
| operands_cons s e v s1 es vs s2 :
    gives s e v s1 -> operands s1 es vs s2 -> operands s (e :: es) (v :: vs) s2.

(** A TypeError that reaches the operator is reported and ends the program
    (execution.py:227-230). *)
Definition reported (e : err) : err :=
  match e with EPy TypeError => EFatal | e => e end.

(** From state [s] the outcome of [e] is that of [b] run in state [s1]. *)
Definition continues (s1 : state) (b : tree hval) (s : state) (e : tree hval) : Prop :=
  (forall w s2, gives s1 b w s2 <-> gives s e w s2) /\
  (forall er s2, (forall o, b <> TOpr o) -> fails s1 b er s2 ->
     exists er', fails s e er' s2 /\ reported er' = reported er).

(** ** Expressions *)

Definition name (x : str) : tree hval := TTok (Tok KName x).

(** The operator with this text and number of operands, applied. *)
Definition app (text : string) (args : list (tree hval)) : tree hval :=
  match op_by_arity (length args) (s_ text) with
  | Some o => TApp o args
  | None => TOpr op_chain
  end.

(** The list display [[e1 ... en]]. *)
Definition display (args : list (tree hval)) : tree hval := TApp op_enlist args.

(** ** Variables *)

(** The names a to g and $_, $__ ... belong to the function call. *)
Definition is_local (x : str) : Prop :=
  (exists c, In c (s_ "abcdefg") /\ x = [c])
  \/ (exists k, x = 36%N :: repeat 95%N (S k)).

Inductive binding (s : state) (x : str) : option hval -> Prop :=
| binding_local sc rest :
    is_local x -> st_scopes s = sc :: rest ->
    binding s x (lookup (sc_vars sc) x)
| binding_global :
    ~ is_local x -> binding s x (lookup (st_vars s) x).

(** In state [s] the variable [x] has the value [p]; a name that was never
    assigned has the value nil. *)
Definition var (s : state) (x : str) (p : pval) : Prop :=
  exists o, binding s x o
    /\ match o with Some v => den (st_heap s) v p | None => p = PNil end.

(** The state after binding [x] to [v]. *)
Inductive rebound (x : str) (v : hval) (s : state) : state -> Prop :=
| rebound_local sc rest :
    is_local x -> st_scopes s = sc :: rest ->
    rebound x v s (set_scopes (mkscope (sc_fun sc) ((x, v) :: sc_vars sc) :: rest)
                              (st_depth s) s)
| rebound_global : ~ is_local x -> rebound x v s (set_vars ((x, v) :: st_vars s) s).

(** An ordinary variable: not q (a line of input), r (a random number), nor
    PIP when there is a text file for it (execution.py:261-285). *)
Definition ordinary (s : state) (x : str) : Prop :=
  name_text x /\ x <> s_ "q" /\ x <> s_ "r"
  /\ (x = s_ "PIP" -> st_tao s = None).

(** Nothing that can be observed changes except that there may be more
    objects and more warnings. *)
Definition only_adds (s s' : state) : Prop :=
  st_vars s' = st_vars s /\ st_scopes s' = st_scopes s /\ st_depth s' = st_depth s
  /\ st_args s' = st_args s /\ st_main s' = st_main s /\ st_in s' = st_in s
  /\ st_out s' = st_out s /\ st_warn s' = st_warn s /\ st_fmt s' = st_fmt s
  /\ st_tao s' = st_tao s /\ st_rand s' = st_rand s
  /\ (exists t, st_heap s' = st_heap s ++ t)
  /\ (exists w, st_diag s' = st_diag s ++ w).

(** Item [i] of a value, [None] beyond its end; infinite Ranges have no end,
    nil has no items. *)
Inductive items_of : pval -> (nat -> option pval) -> Prop :=
| items_elems p l : elems p l -> items_of p (fun i => nth_error l i)
| items_infinite lo :
    items_of (PRange lo None)
             (fun i => Some (PScal (str_of_Z (range_start lo + Z.of_nat i))))
| items_nil : items_of PNil (fun _ => None).

Definition or_nil (o : option pval) : pval := match o with Some p => p | None => PNil end.

(** The value counts as true ([b = true]) or false: what [!] says. *)
Definition counts (p : pval) (b : bool) : Prop :=
  run_op FmtNone "!" [p] = ret (Spec.truth (negb b)).

(** The object counts as true or false.  For Lists and Blocks it only matters
    whether they are empty (the items may form a cycle). *)
Inductive object_counts (h : heap) : hval -> bool -> Prop :=
| object_counts_value v p b : den h v p -> counts p b -> object_counts h v b
| object_counts_list l items :
    nth_error h l = Some (OL items) ->
    object_counts h (HList l) (match items with [] => false | _ => true end)
| object_counts_block sts r :
    sts <> [] \/ r <> TVal HNil -> object_counts h (HBlock sts r) true.

(** ** Expressions without side effects *)

(** The operators whose result depends on the values of their operands only
    and is a new object: not those that evaluate code, use variables, read or
    write, set the match variables, use random numbers, or return (parts of) their operands
    themselves. *)
Definition value_fun (f : opfun) (n : nat) : bool :=
  match f, n with
  | F_ASSIGN, 2%nat | F_SWAP, 2%nat | F_AND, 2%nat | F_OR, 2%nat | F_IFTE, 3%nat => false
  | F_PARENTHESIZE, 1%nat | F_LIST, _ | F_SEND, _ | F_CHAIN, _ => false
  | F_AT, _ | F_LEFTOF, _ | F_RIGHTOF, _ | F_PREFIX, _ | F_SUFFIX, _ => false
  | F_INC, 1%nat | F_DEC, 1%nat | F_PUSH, 2%nat | F_PUSHBACK, 2%nat
  | F_POP, 1%nat | F_DEQUEUE, 1%nat | F_PICK, 2%nat => false
  | F_YANK, 1%nat | F_YANKOUTPUT, 1%nat | F_YANKPRINT, 1%nat
  | F_OUTPUT, 1%nat | F_PRINT, 1%nat | F_RECURSE, 1%nat => false
  | F_EVAL, _ => false
  | F_MAP, 2%nat | F_MAPCOORDS, 2%nat | F_MAPENUMERATE, 2%nat | F_MAPFLATTEN, 2%nat
  | F_MAPJOIN, 2%nat | F_MAPMAP, 2%nat | F_MAPPAIRS, 2%nat | F_MAPSUM, 2%nat
  | F_MAPUNPACK, 2%nat | F_MAPZIP, 3%nat | F_MAPREGEX, 3%nat => false
  | F_FILTER, 2%nat | F_FILTERNOT, 2%nat | F_FILTERENUMERATE, 2%nat
  | F_FILTERINDEXES, 2%nat | F_FILTERUNPACK, 2%nat | F_FILTERJOIN, 2%nat
  | F_SORTKEYED, 2%nat | F_DESCENDINGKEYED, 2%nat => false
  | F_FIND, 2%nat | F_FINDALL, 2%nat | F_IN, 2%nat | F_FIRSTMATCH, 2%nat
  | F_FULLMATCH, 2%nat | F_REPLACE, 3%nat => false
  | F_RANDRANGE, 2%nat | F_RANDRANGETO, 1%nat | F_RANDCHOICE, 1%nat
  | F_SHUFFLE, 1%nat => false
  | _, _ => true
  end.

Record value_op (o : oper) (n : nat) : Prop :=
  { vo_assign : o_assign o = false; vo_map : o_map o = false;
    vo_fold : o_fold o = false; vo_scan : o_scan o = false;
    vo_rvals : f_rvals (o_flags o) = true;
    vo_fun : value_fun (o_fun o) n = true }.


(** The operator with this text for [n] operands is one of these. *)
Definition value_operator (text : string) (n : nat) : Prop :=
  exists o, op_by_arity n (s_ text) = Some o /\ value_op o n.

(** [means s e p]: the value of the expression [e] computed from the values of
    the variables in [s] alone. *)
Inductive means (s : state) : tree hval -> pval -> Prop :=
| means_object v p : den (st_heap s) v p -> means s (TVal v) p
| means_literal k p :
    is_literal (t_kind k) = true -> t_kind k <> KName -> of_token k = Val p ->
    means s (TTok k) p
| means_name x p : ordinary s x -> var s x p -> means s (name x) p
| means_app text es ps p :
    value_operator text (length es) -> Forall2 (means s) es ps ->
    snd (run_op (st_fmt s) text ps) = Val p -> means s (app text es) p
| means_parens e p : means s e p -> means s (TApp op_paren [e]) p
| means_display es ps : Forall2 (means s) es ps -> means s (display es) (PList ps).

(** ** Statements *)

(** The command with this text. *)
Definition command_stmt (text : string) (args : list (tree hval)) : tree hval :=
  match command_of (s_ text) with
  | Some c => TCmd c args
  | None => TBlk []
  end.

(** Executing the statements one after the other. *)
Inductive does : list (tree hval) -> state -> state -> Prop :=
| does_nil s : does [] s s
| does_cons t r ts s s1 s2 :
    executes s t r s1 -> does ts s1 s2 -> does (t :: ts) s s2.

(** ... [k] times. *)
Inductive times (body : list (tree hval)) : nat -> state -> state -> Prop :=
| times_O s : times body O s s
| times_S k s s1 s2 : does body s s1 -> times body k s1 s2 -> times body (S k) s s2.

(** ... once for each object, bound to [x]. *)
Inductive for_each (x : str) (body : list (tree hval))
  : list hval -> state -> state -> Prop :=
| for_each_nil s : for_each x body [] s s
| for_each_cons v vs s s1 s2 s3 :
    rebound x v s s1 -> does body s1 s2 -> for_each x body vs s2 s3 ->
    for_each x body (v :: vs) s s3.

(** ... as long as the condition counts as [sense]. *)
Inductive while_does (sense : bool) (c : tree hval) (body : list (tree hval))
  : state -> state -> Prop :=
| while_stop s v s1 :
    gives s c v s1 -> object_counts (st_heap s1) v (negb sense) ->
    while_does sense c body s s1
| while_again s v s1 s2 s3 :
    gives s c v s1 -> object_counts (st_heap s1) v sense ->
    does body s1 s2 -> while_does sense c body s2 s3 ->
    while_does sense c body s s3.

(** How often a counted loop runs: an integer numeral (text after it does not
    matter), the number of items, not at all for nil. *)
Inductive repetitions : pval -> nat -> Prop :=
| repetitions_int neg ds t :
    decimal ds -> match t with [] => True | c :: _ => is_digit c = false end ->
    repetitions (PScal (numeral neg ds ++ t)) (Z.to_nat (numeral_value neg ds))
| repetitions_items p l : elems p l -> is_list_or_range p = true -> repetitions p (length l)
| repetitions_nil : repetitions PNil O.

(** ** The history variables *)

(** Executing statements as (part of) the body of a function. *)
Definition function_body (s : state) (sts : list (tree hval)) (s' : state) : Prop :=
  exists n, run_stmts (run n) sts s = Ok tt s'.

(** [x] holds a value, or was not assigned. *)
Definition held (s : state) (x : str) (o : option pval) : Prop :=
  match o with
  | Some p => exists v, binding s x (Some v) /\ den (st_heap s) v p
  | None => binding s x None
  end.
(** The history variables hold the first three values of [l], newest first. *)
Definition history (s : state) (l : list pval) : Prop :=
  held s (s_ "$_") (nth_error l 0) /\ held s (s_ "$__") (nth_error l 1)
  /\ held s (s_ "$___") (nth_error l 2).

(** A call of [f] with arguments of values [ps] has begun: a new scope in which
    f is the function, g the list of the arguments, a to e the first five
    arguments and nothing else is assigned; everything else is unchanged. *)
Definition entered (s : state) (f : hval) (ps : list pval) (s1 : state) : Prop :=
  (exists sc, only_adds (set_scopes (sc :: st_scopes s) (st_depth s + 1) s) s1)
  /\ binding s1 (s_ "f") (Some f)
  /\ held s1 (s_ "g") (Some (PList ps))
  /\ (forall i c, nth_error (s_ "abcde") i = Some c -> held s1 [c] (nth_error ps i))
  /\ history s1 [].
(** The call has ended: its scope is gone, everything else stays. *)
Definition left (s s' : state) : Prop :=
  exists sc rest, st_scopes s = sc :: rest /\ s' = set_scopes rest (st_depth s - 1) s.

(** Executing the statements one after the other, their expressions have the
    values [ps], and none of them interferes with the history itself. *)
Inductive tells : list (tree hval) -> state -> list pval -> state -> Prop :=
| tells_nil s : tells [] s [] s
| tells_value t v p ts ps s s1 s2 s3 :
    executes s t (Some v) s1 -> den (st_heap s1) v p ->
    (forall l, history s l -> history s1 l) ->
    function_body s [t] s2 -> tells ts s2 ps s3 ->
    tells (t :: ts) s (p :: ps) s3
| tells_command t ts ps s s1 s3 :
    executes s t None s1 ->
    (forall l, history s l -> history s1 l) -> tells ts s1 ps s3 ->
    tells (t :: ts) s ps s3.

(** ** Changing one variable *)

(** All other variables keep their values; nothing is read or printed. *)
Definition changes_only (x : str) (s s' : state) : Prop :=
  (forall y q, y <> x -> var s y q -> var s' y q)
  /\ st_in s' = st_in s /\ st_out s' = st_out s.

(** A sequence of additions to the list in [x] and removals from it (while it
    is not empty): the values added, and those returned by the removals. *)
Inductive queue_use (x : str) (add remove : string)
  : state -> list pval -> list pval -> state -> Prop :=
| queue_done s : queue_use x add remove s [] [] s
| queue_add s e p w s1 ins outs s2 :
    means s e p -> gives s (app add [name x; e]) w s1 ->
    queue_use x add remove s1 ins outs s2 ->
    queue_use x add remove s (p :: ins) outs s2
| queue_remove s w p s1 l ins outs s2 :
    var s x (PList l) -> l <> [] ->
    gives s (app remove [name x]) w s1 -> den (st_heap s1) w p ->
    queue_use x add remove s1 ins outs s2 ->
    queue_use x add remove s ins (p :: outs) s2.
