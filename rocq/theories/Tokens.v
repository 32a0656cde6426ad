(** * Tokens, operators, commands and parse trees *)

From Coq Require Import String List NArith ZArith Bool .
From Verif Require Import PyStr OpFun.
Import ListNotations.

(** Token classes (tokens.py:28-60). *)
Inductive tkind : Set :=
| KCommand | KOperator | KSymbol | KName
| KNumber | KString | KPattern | KChar | KEscString | KNil.

(** A token: its class and its text (tokens.py:4-26). *)
Record token : Set := Tok { t_kind : tkind; t_text : str }.

Definition tkind_eqb (a b : tkind) : bool :=
  match a, b with
  | KCommand, KCommand | KOperator, KOperator | KSymbol, KSymbol
  | KName, KName | KNumber, KNumber | KString, KString
  | KPattern, KPattern | KChar, KChar | KEscString, KEscString
  | KNil, KNil => true
  | _, _ => false
  end.

(** [isinstance(t, tokens.Literal)] (tokens.py:40-60). *)
Definition is_literal (k : tkind) : bool :=
  match k with
  | KNumber | KString | KPattern | KChar | KEscString | KNil => true
  | _ => false
  end.

(** Associativity column of the operator table. *)
Inductive assoc : Set := ANone | ALeft | ARight | AChain.

Definition assoc_eqb (a b : assoc) : bool :=
  match a, b with
  | ANone, ANone | ALeft, ALeft | ARight, ARight | AChain, AChain => true
  | _, _ => false
  end.

(** Default value when folding an empty iterable (operators.py:30-39). *)
Inductive opdefault : Set :=
| DNone | DInt (z : Z) | DStr (s : str) | DList.

(** Flag bits (operators.py:106-111). *)
Record flags : Set := mkflags
  { f_vals : bool; f_rvals : bool; f_list_each : bool; f_range_each : bool;
    f_in_lambda : bool }.

Inductive flagname : Set := VALS | RVALS | LIST_EACH | RANGE_EACH | IN_LAMBDA.
Definition flagname_eqb (a b : flagname) : bool :=
  match a, b with
  | VALS, VALS | RVALS, RVALS | LIST_EACH, LIST_EACH
  | RANGE_EACH, RANGE_EACH | IN_LAMBDA, IN_LAMBDA => true
  | _, _ => false
  end.

(** [operators.Operator] (operators.py:16-39).  Operators are immutable here:
    the parser copies an operator before setting [assign], [map], [fold],
    [scan], [precedence], [associativity] or [arity]. *)
Record oper : Set := mkoper
  { o_text : str;
    o_fun : opfun;
    o_arity : nat;
    o_prec : Z;
    o_assoc : assoc;
    o_default : opdefault;
    o_flags : flags;
    o_assign : bool;
    o_map : bool;
    o_fold : bool;
    o_scan : bool }.

(** A level of the precedence table. *)
Definition level : Set :=
  (nat * assoc * list (str * opfun * opdefault * list flagname))%type.

(** Commands (operators.py:4-14, 77-94). *)
Inductive cmdfun : Set :=
| C_FOR | C_IF | C_LOOP | C_LOOPREGEX | C_TILL | C_WHILE | C_WIPEGLOBALS.
Inductive argtype : Set := A_LOOPVAR | A_EXPR | A_CODE | A_ELSE.
Record command : Set := mkcmd
  { c_text : str; c_fun : cmdfun; c_args : list argtype }.

(** Parse trees.  The Python parser represents an expression by a Name or
    Literal token or by a list whose first item is an operator; a command
    statement by a list whose first item is a command; a code block by a list
    of statements.  [V] is the type of Pip values that lambda-building embeds
    into trees (execution.py:161-176); the parser itself never produces
    [TVal]. *)
Inductive tree (V : Type) : Type :=
| TTok (t : token)
| TVal (v : V)
| TOpr (o : oper)                        (* operator inside a CHAIN node *)
| TApp (o : oper) (args : list (tree V))
| TBlk (stmts : list (tree V))           (* code block *)
| TCmd (c : command) (args : list (tree V)).
Arguments TTok {V} t.
Arguments TVal {V} v.
Arguments TOpr {V} o.
Arguments TApp {V} o args.
Arguments TBlk {V} stmts.
Arguments TCmd {V} c args.
