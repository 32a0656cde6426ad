(** * Operator and command tables (operators.py:86-94, 113-441)

    Transcribed entry by entry; each level is [arity, associativity, entries],
    each entry [symbol, function, fold default, flags]. *)

From Coq Require Import String List NArith ZArith Bool .
From Verif Require Import PyStr OpFun Tokens.
Import ListNotations.

(* operators.py:113-441 *)
Definition precedence_table : list level :=
  [(1%nat, ANone,
    [(s_ "O", F_OUTPUT, DNone, [RVALS]);
     (s_ "P", F_PRINT, DNone, [RVALS]);
     (s_ "Y", F_YANK, DNone, [RVALS]);
     (s_ "YO", F_YANKOUTPUT, DNone, [RVALS]);
     (s_ "YP", F_YANKPRINT, DNone, [RVALS])]);
   (2%nat, ARight,
    [(s_ ":", F_ASSIGN, DNone, [VALS]);
     (s_ "::", F_SWAP, DNone, [VALS])]);
   (3%nat, ARight,
    [(s_ "?", F_IFTE, DNone, [])]);
   (2%nat, ALeft,
    [(s_ "|", F_OR, (DInt (0)), [])]);
   (2%nat, ALeft,
    [(s_ "&", F_AND, (DInt (1)), [])]);
   (1%nat, ANone,
    [(s_ "!", F_NOT, DNone, [RVALS])]);
   (2%nat, ALeft,
    [(s_ "==", F_OBJEQUAL, (DInt (1)), [RVALS])]);
   (1%nat, ANone,
    [(s_ "V", F_EVAL, DNone, [RVALS]);
     (s_ "FI", F_FILTER, DNone, [RVALS]);
     (s_ "FN", F_FILTERNOT, DNone, [RVALS]);
     (s_ "FU", F_FILTERUNPACK, DNone, [RVALS]);
     (s_ "FX", F_FILTERINDEXES, DNone, [RVALS]);
     (s_ "FJ", F_FILTERJOIN, DNone, [RVALS]);
     (s_ "RE", F_RECURSE, DNone, [RVALS])]);
   (2%nat, ARight,
    [(s_ "M", F_MAP, DList, [RVALS]);
     (s_ "MC", F_MAPCOORDS, DList, [RVALS]);
     (s_ "ME", F_MAPENUMERATE, DList, [RVALS]);
     (s_ "MJ", F_MAPJOIN, (DStr (s_ "")), [RVALS]);
     (s_ "MM", F_MAPMAP, DList, [RVALS]);
     (s_ "MP", F_MAPPAIRS, DList, [RVALS]);
     (s_ "MS", F_MAPSUM, (DInt (0)), [RVALS]);
     (s_ "MU", F_MAPUNPACK, DList, [RVALS]);
     (s_ "MF", F_MAPFLATTEN, DList, [RVALS]);
     (s_ "FI", F_FILTER, DList, [RVALS]);
     (s_ "FN", F_FILTERNOT, DList, [RVALS]);
     (s_ "FE", F_FILTERENUMERATE, DList, [RVALS]);
     (s_ "FU", F_FILTERUNPACK, DList, [RVALS]);
     (s_ "FX", F_FILTERINDEXES, DList, [RVALS]);
     (s_ "FJ", F_FILTERJOIN, DList, [RVALS]);
     (s_ "SK", F_SORTKEYED, DList, [RVALS]);
     (s_ "DK", F_DESCENDINGKEYED, DList, [RVALS]);
     (s_ "V", F_EVAL, DNone, [RVALS])]);
   (3%nat, ARight,
    [(s_ "MR", F_MAPREGEX, DList, [RVALS]);
     (s_ "MZ", F_MAPZIP, DList, [RVALS])]);
   (3%nat, ARight,
    [(s_ "\?", F_RVALIFTE, DNone, [RVALS; IN_LAMBDA])]);
   (2%nat, ALeft,
    [(s_ "\|", F_RVALOR, (DInt (0)), [RVALS; IN_LAMBDA])]);
   (2%nat, ALeft,
    [(s_ "\&", F_RVALAND, (DInt (1)), [RVALS; IN_LAMBDA])]);
   (1%nat, ANone,
    [(s_ "\!", F_NOT, DNone, [RVALS; IN_LAMBDA])]);
   (2%nat, AChain,
    [(s_ "<", F_NUMLESS, (DInt (1)), [RVALS; IN_LAMBDA]);
     (s_ ">", F_NUMGREATER, (DInt (1)), [RVALS; IN_LAMBDA]);
     (s_ "=", F_NUMEQUAL, (DInt (1)), [RVALS; IN_LAMBDA]);
     (s_ "<=", F_NUMLESSEQ, (DInt (1)), [RVALS; IN_LAMBDA]);
     (s_ ">=", F_NUMGREATEREQ, (DInt (1)), [RVALS; IN_LAMBDA]);
     (s_ "!=", F_NUMNOTEQUAL, (DInt (1)), [RVALS; IN_LAMBDA]);
     (s_ "LT", F_STRLESS, (DInt (1)), [RVALS; IN_LAMBDA]);
     (s_ "GT", F_STRGREATER, (DInt (1)), [RVALS; IN_LAMBDA]);
     (s_ "Q", F_STREQUAL, (DInt (1)), [RVALS; IN_LAMBDA]);
     (s_ "LE", F_STRLESSEQ, (DInt (1)), [RVALS; IN_LAMBDA]);
     (s_ "GE", F_STRGREATEREQ, (DInt (1)), [RVALS; IN_LAMBDA]);
     (s_ "NE", F_STRNOTEQUAL, (DInt (1)), [RVALS; IN_LAMBDA]);
     (s_ "#=", F_LENEQUAL, (DInt (1)), [RVALS; IN_LAMBDA]);
     (s_ "#<", F_LENLESS, (DInt (1)), [RVALS; IN_LAMBDA]);
     (s_ "#>", F_LENGREATER, (DInt (1)), [RVALS; IN_LAMBDA]);
     (s_ "~=", F_FULLMATCH, (DInt (1)), [RVALS; IN_LAMBDA])]);
   (2%nat, ALeft,
    [(s_ "N", F_IN, DNone, [RVALS; IN_LAMBDA]);
     (s_ "NI", F_NOTIN, DNone, [RVALS; IN_LAMBDA])]);
   (1%nat, ANone,
    [(s_ "RP", F_REPR, DNone, [RVALS]);
     (s_ "ST", F_STR, DNone, [RVALS])]);
   (2%nat, ALeft,
    [(s_ "CB", F_COMBINATIONS, DList, [RVALS; IN_LAMBDA])]);
   (1%nat, ANone,
    [(s_ "MX", F_MAX, DNone, [RVALS; IN_LAMBDA]);
     (s_ "M", F_MAX, DNone, [RVALS; IN_LAMBDA]);
     (s_ "MN", F_MIN, DNone, [RVALS; IN_LAMBDA]);
     (s_ "N", F_MIN, DNone, [RVALS; IN_LAMBDA]);
     (s_ "RC", F_RANDCHOICE, DNone, [RVALS; IN_LAMBDA]);
     (s_ "SH", F_SHUFFLE, DNone, [RVALS; IN_LAMBDA]);
     (s_ "SN", F_SORTNUM, DNone, [RVALS; IN_LAMBDA]);
     (s_ "SS", F_SORTSTRING, DNone, [RVALS; IN_LAMBDA]);
     (s_ "DN", F_DESCENDINGNUM, DNone, [RVALS; IN_LAMBDA]);
     (s_ "DS", F_DESCENDINGSTRING, DNone, [RVALS; IN_LAMBDA]);
     (s_ "UQ", F_UNIQUE, DNone, [RVALS; IN_LAMBDA]);
     (s_ "EN", F_ENUMERATE, DNone, [RVALS; IN_LAMBDA]);
     (s_ "PM", F_PERMUTATIONS, DNone, [RVALS; IN_LAMBDA]);
     (s_ "FL", F_FLATTEN, DNone, [RVALS; IN_LAMBDA]);
     (s_ "FA", F_FLATTENALL, DNone, [RVALS; IN_LAMBDA])]);
   (2%nat, ALeft,
    [(s_ "AE", F_APPENDELEM, DList, [RVALS; IN_LAMBDA]);
     (s_ "AL", F_APPENDLIST, DList, [RVALS; IN_LAMBDA]);
     (s_ "PE", F_PREPENDELEM, DList, [RVALS; IN_LAMBDA]);
     (s_ "PU", F_PUSH, DList, [VALS; IN_LAMBDA]);
     (s_ "PB", F_PUSHBACK, DList, [VALS; IN_LAMBDA]);
     (s_ "PK", F_PICK, DList, [VALS; IN_LAMBDA])]);
   (1%nat, ANone,
    [(s_ "PO", F_POP, DNone, [VALS; IN_LAMBDA]);
     (s_ "DQ", F_DEQUEUE, DNone, [VALS; IN_LAMBDA])]);
   (2%nat, ALeft,
    [(s_ "^", F_SPLIT, DList, [RVALS; IN_LAMBDA; RANGE_EACH]);
     (s_ "^@", F_SPLITAT, DList, [RVALS; IN_LAMBDA]);
     (s_ "@?", F_FIND, DNone, [RVALS; IN_LAMBDA]);
     (s_ "@*", F_FINDALL, DList, [RVALS; IN_LAMBDA]);
     (s_ "<>", F_GROUP, DList, [RVALS; IN_LAMBDA]);
     (s_ "CH", F_CHOP, DList, [RVALS; IN_LAMBDA]);
     (s_ "J", F_JOIN, (DStr (s_ "")), [RVALS; IN_LAMBDA]);
     (s_ "JW", F_JOINWRAP, DNone, [RVALS; IN_LAMBDA]);
     (s_ "RL", F_REPEATLIST, DList, [RVALS; IN_LAMBDA]);
     (s_ "Z", F_ZIP, DList, [RVALS; IN_LAMBDA]);
     (s_ "ZD", F_ZIPDEFAULT, DList, [RVALS; IN_LAMBDA]);
     (s_ "ZJ", F_ZIPJOIN, DList, [RVALS; IN_LAMBDA]);
     (s_ "H", F_PREFIX, DList, [VALS; IN_LAMBDA]);
     (s_ "S", F_SUFFIX, DList, [VALS; IN_LAMBDA]);
     (s_ "WV", F_WEAVE, DList, [RVALS; IN_LAMBDA]);
     (s_ "UW", F_UNWEAVE, DList, [RVALS; IN_LAMBDA]);
     (s_ "CP", F_CARTESIANPRODUCT, DList, [RVALS; IN_LAMBDA]);
     (s_ "CG", F_COORDINATEGRID, DNone, [RVALS; IN_LAMBDA; RANGE_EACH]);
     (s_ "ZG", F_ZEROGRID, DNone, [RVALS; IN_LAMBDA; RANGE_EACH]);
     (s_ "OG", F_ONEGRID, DNone, [RVALS; IN_LAMBDA; RANGE_EACH]);
     (s_ "TD", F_TODIGITS, DList, [RVALS; IN_LAMBDA]);
     (s_ "FD", F_FROMDIGITS, (DInt (0)), [RVALS; IN_LAMBDA])]);
   (3%nat, ALeft,
    [(s_ "RA", F_REPLACEAT, DNone, [RVALS; IN_LAMBDA]);
     (s_ "TR", F_TRANSLITERATE, DNone, [RVALS; IN_LAMBDA])]);
   (1%nat, ANone,
    [(s_ "^", F_SPLIT, DNone, [RVALS; IN_LAMBDA; RANGE_EACH]);
     (s_ "<>", F_GROUP, DNone, [RVALS; IN_LAMBDA]);
     (s_ "CH", F_CHOP, DNone, [RVALS; IN_LAMBDA]);
     (s_ "J", F_JOIN, DNone, [RVALS; IN_LAMBDA]);
     (s_ "RV", F_REVERSE, DNone, [RVALS; IN_LAMBDA]);
     (s_ "R", F_REVERSE, DNone, [RVALS; IN_LAMBDA]);
     (s_ "RF", F_REFLECT, DNone, [RVALS; IN_LAMBDA]);
     (s_ "PZ", F_PALINDROMIZE, DNone, [RVALS; IN_LAMBDA]);
     (s_ "QR", F_QUADREFLECT, DNone, [RVALS; IN_LAMBDA]);
     (s_ "QP", F_QUADPALINDROMIZE, DNone, [RVALS; IN_LAMBDA]);
     (s_ "Z", F_ZIP, DNone, [RVALS; IN_LAMBDA]);
     (s_ "ZD", F_ZIPDEFAULT, DNone, [RVALS; IN_LAMBDA]);
     (s_ "ZJ", F_ZIPJOIN, DNone, [RVALS; IN_LAMBDA]);
     (s_ "H", F_PREFIX, DNone, [VALS; IN_LAMBDA]);
     (s_ "S", F_SUFFIX, DNone, [VALS; IN_LAMBDA]);
     (s_ "WV", F_WEAVE, DNone, [RVALS; IN_LAMBDA]);
     (s_ "UW", F_UNWEAVE, DNone, [RVALS; IN_LAMBDA]);
     (s_ "CP", F_CARTESIANPRODUCT, DNone, [RVALS; IN_LAMBDA]);
     (s_ "CG", F_COORDINATEGRID, DNone, [RVALS; IN_LAMBDA; RANGE_EACH]);
     (s_ "ZG", F_ZEROGRID, DNone, [RVALS; IN_LAMBDA; RANGE_EACH]);
     (s_ "OG", F_ONEGRID, DNone, [RVALS; IN_LAMBDA; RANGE_EACH]);
     (s_ "EY", F_IDENTITYMATRIX, DNone, [RVALS; IN_LAMBDA; RANGE_EACH]);
     (s_ "TD", F_TODIGITS, DNone, [RVALS; IN_LAMBDA]);
     (s_ "FD", F_FROMDIGITS, DNone, [RVALS; IN_LAMBDA])]);
   (3%nat, ALeft,
    [(s_ "R", F_REPLACE, DNone, [RVALS])]);
   (2%nat, ALeft,
    [(s_ "WR", F_WRAP, (DStr (s_ "")), [RVALS; IN_LAMBDA; RANGE_EACH]);
     (s_ "~", F_FIRSTMATCH, (DStr (s_ "")), [RVALS; IN_LAMBDA; RANGE_EACH])]);
   (2%nat, ALeft,
    [(s_ ".", F_CAT, (DStr (s_ "")), [RVALS; IN_LAMBDA; RANGE_EACH])]);
   (1%nat, ANone,
    [(s_ "X", F_REGEX, DNone, [RVALS; IN_LAMBDA]);
     (s_ ".", F_DOT, DNone, [RVALS; IN_LAMBDA; LIST_EACH]);
     (s_ "K", F_KLEENESTAR, DNone, [RVALS; IN_LAMBDA; LIST_EACH])]);
   (2%nat, ALeft,
    [(s_ "RM", F_REMOVE, (DStr (s_ "")), [RVALS; IN_LAMBDA]);
     (s_ "DC", F_DELETECHARS, (DStr (s_ "")), [RVALS; IN_LAMBDA; RANGE_EACH])]);
   (2%nat, ALeft,
    [(s_ "X", F_STRMUL, (DStr (s_ "")), [RVALS; IN_LAMBDA; RANGE_EACH])]);
   (2%nat, ALeft,
    [(s_ "||", F_STRIP, (DStr (s_ "")), [RVALS; IN_LAMBDA; LIST_EACH]);
     (s_ "|>", F_LSTRIP, (DStr (s_ "")), [RVALS; IN_LAMBDA; LIST_EACH]);
     (s_ "<|", F_RSTRIP, (DStr (s_ "")), [RVALS; IN_LAMBDA; LIST_EACH]);
     (s_ "TM", F_TRIM, (DStr (s_ "")), [RVALS; IN_LAMBDA; LIST_EACH])]);
   (1%nat, ANone,
    [(s_ "||", F_STRIP, DNone, [RVALS; IN_LAMBDA; LIST_EACH]);
     (s_ "|>", F_LSTRIP, DNone, [RVALS; IN_LAMBDA; LIST_EACH]);
     (s_ "<|", F_RSTRIP, DNone, [RVALS; IN_LAMBDA; LIST_EACH]);
     (s_ "TM", F_TRIM, DNone, [RVALS; IN_LAMBDA; LIST_EACH]);
     (s_ "LC", F_LOWERCASE, DNone, [RVALS; IN_LAMBDA; LIST_EACH]);
     (s_ "UC", F_UPPERCASE, DNone, [RVALS; IN_LAMBDA; LIST_EACH]);
     (s_ "SC", F_SWAPCASE, DNone, [RVALS; IN_LAMBDA; LIST_EACH]);
     (s_ "TC", F_TITLECASE, DNone, [RVALS; IN_LAMBDA; LIST_EACH]);
     (s_ "IC", F_INITIALCAPS, DNone, [RVALS; IN_LAMBDA; LIST_EACH])]);
   (2%nat, ALeft,
    [(s_ ",", F_RANGE, DNone, [RVALS; IN_LAMBDA; RANGE_EACH]);
     (s_ "\,", F_INCLRANGE, DNone, [RVALS; IN_LAMBDA; RANGE_EACH]);
     (s_ "RR", F_RANDRANGE, (DInt (0)), [RVALS; IN_LAMBDA; RANGE_EACH]);
     (s_ "TB", F_TOBASE, (DInt (0)), [RVALS; IN_LAMBDA; RANGE_EACH])]);
   (1%nat, ANone,
    [(s_ ",", F_RANGETO, DNone, [RVALS; IN_LAMBDA; RANGE_EACH]);
     (s_ "\,", F_INCLRANGETO, DNone, [RVALS; IN_LAMBDA; RANGE_EACH]);
     (s_ "RR", F_RANDRANGETO, DNone, [RVALS; IN_LAMBDA; RANGE_EACH]);
     (s_ "TB", F_TOBASE, DNone, [RVALS; IN_LAMBDA; RANGE_EACH])]);
   (2%nat, ALeft,
    [(s_ "BA", F_BITWISEAND, (DInt (-1)), [RVALS; IN_LAMBDA; RANGE_EACH]);
     (s_ "BO", F_BITWISEOR, (DInt (0)), [RVALS; IN_LAMBDA; RANGE_EACH]);
     (s_ "BX", F_BITWISEXOR, (DInt (0)), [RVALS; IN_LAMBDA; RANGE_EACH]);
     (s_ "AT", F_ARCTAN, DNone, [RVALS; IN_LAMBDA; RANGE_EACH]);
     (s_ "CM", F_NUMCMP, (DInt (0)), [RVALS; IN_LAMBDA]);
     (s_ "|<", F_FLOOR, (DInt (0)), [RVALS; IN_LAMBDA; RANGE_EACH]);
     (s_ ">|", F_CEIL, (DInt (0)), [RVALS; IN_LAMBDA; RANGE_EACH]);
     (s_ "RZ", F_ROUNDZERO, (DInt (0)), [RVALS; IN_LAMBDA; RANGE_EACH]);
     (s_ "RN", F_ROUNDNEAREST, (DInt (0)), [RVALS; IN_LAMBDA; RANGE_EACH])]);
   (1%nat, ANone,
    [(s_ "BN", F_BITWISENOT, DNone, [RVALS; IN_LAMBDA; RANGE_EACH]);
     (s_ "SI", F_SINE, DNone, [RVALS; IN_LAMBDA; RANGE_EACH]);
     (s_ "CO", F_COSINE, DNone, [RVALS; IN_LAMBDA; RANGE_EACH]);
     (s_ "TA", F_TANGENT, DNone, [RVALS; IN_LAMBDA; RANGE_EACH]);
     (s_ "SE", F_SECANT, DNone, [RVALS; IN_LAMBDA; RANGE_EACH]);
     (s_ "CS", F_COSEC, DNone, [RVALS; IN_LAMBDA; RANGE_EACH]);
     (s_ "CT", F_COTAN, DNone, [RVALS; IN_LAMBDA; RANGE_EACH]);
     (s_ "AT", F_ARCTAN, DNone, [RVALS; IN_LAMBDA; RANGE_EACH]);
     (s_ "RD", F_RADIANS, DNone, [RVALS; IN_LAMBDA; RANGE_EACH]);
     (s_ "DG", F_DEGREES, DNone, [RVALS; IN_LAMBDA; RANGE_EACH]);
     (s_ "BL", F_BITLENGTH, DNone, [RVALS; IN_LAMBDA; RANGE_EACH]);
     (s_ "|<", F_FLOOR, DNone, [RVALS; IN_LAMBDA; RANGE_EACH]);
     (s_ ">|", F_CEIL, DNone, [RVALS; IN_LAMBDA; RANGE_EACH]);
     (s_ "RZ", F_ROUNDZERO, DNone, [RVALS; IN_LAMBDA; RANGE_EACH]);
     (s_ "RN", F_ROUNDNEAREST, DNone, [RVALS; IN_LAMBDA; RANGE_EACH])]);
   (2%nat, ALeft,
    [(s_ "+", F_ADD, (DInt (0)), [RVALS; IN_LAMBDA; LIST_EACH]);
     (s_ "-", F_SUB, (DInt (0)), [RVALS; IN_LAMBDA; LIST_EACH]);
     (s_ "AD", F_ABSOLUTEDIFF, (DInt (0)), [RVALS; IN_LAMBDA; RANGE_EACH])]);
   (2%nat, ALeft,
    [(s_ "*", F_MUL, (DInt (1)), [RVALS; IN_LAMBDA; RANGE_EACH]);
     (s_ "/", F_DIV, (DInt (1)), [RVALS; IN_LAMBDA; RANGE_EACH]);
     (s_ "%", F_MOD, (DInt (0)), [RVALS; IN_LAMBDA; RANGE_EACH]);
     (s_ "//", F_INTDIV, (DInt (1)), [RVALS; IN_LAMBDA; RANGE_EACH])]);
   (1%nat, ANone,
    [(s_ "+", F_POS, DNone, [RVALS; IN_LAMBDA; LIST_EACH]);
     (s_ "-", F_NEG, DNone, [RVALS; IN_LAMBDA; RANGE_EACH]);
     (s_ "/", F_INVERT, DNone, [RVALS; IN_LAMBDA; RANGE_EACH]);
     (s_ "%", F_MOD, DNone, [RVALS; IN_LAMBDA; RANGE_EACH]);
     (s_ "HV", F_HALVE, DNone, [RVALS; IN_LAMBDA; RANGE_EACH]);
     (s_ "HU", F_HALVEUP, DNone, [RVALS; IN_LAMBDA; RANGE_EACH]);
     (s_ "DB", F_DOUBLE, DNone, [RVALS; IN_LAMBDA; RANGE_EACH]);
     (s_ "SQ", F_SQUARE, DNone, [RVALS; IN_LAMBDA; RANGE_EACH]);
     (s_ "**", F_POW, DNone, [RVALS; IN_LAMBDA; RANGE_EACH]);
     (s_ "E", F_POW, DNone, [RVALS; IN_LAMBDA; RANGE_EACH]);
     (s_ "EE", F_POWEROFTEN, DNone, [RVALS; IN_LAMBDA; RANGE_EACH]);
     (s_ "RT", F_SQRT, DNone, [RVALS; IN_LAMBDA; RANGE_EACH]);
     (s_ "EX", F_EXPONENTIAL, DNone, [RVALS; IN_LAMBDA; RANGE_EACH]);
     (s_ "LN", F_NATURALLOG, DNone, [RVALS; IN_LAMBDA; RANGE_EACH]);
     (s_ "LB", F_BINARYLOG, DNone, [RVALS; IN_LAMBDA; RANGE_EACH]);
     (s_ "LD", F_DECIMALLOG, DNone, [RVALS; IN_LAMBDA; RANGE_EACH])]);
   (2%nat, ARight,
    [(s_ "**", F_POW, (DInt (1)), [RVALS; IN_LAMBDA; RANGE_EACH]);
     (s_ "E", F_POW, (DInt (1)), [RVALS; IN_LAMBDA; RANGE_EACH]);
     (s_ "EE", F_POWEROFTEN, (DInt (1)), [RVALS; IN_LAMBDA; RANGE_EACH]);
     (s_ "RT", F_ROOT, (DInt (1)), [RVALS; IN_LAMBDA; RANGE_EACH])]);
   (2%nat, ALeft,
    [(s_ "FB", F_FROMBASE, (DInt (0)), [RVALS; IN_LAMBDA; RANGE_EACH])]);
   (1%nat, ANone,
    [(s_ "U", F_INC, DNone, [VALS; IN_LAMBDA]);
     (s_ "D", F_DEC, DNone, [VALS; IN_LAMBDA]);
     (s_ "#", F_LEN, DNone, [RVALS; IN_LAMBDA]);
     (s_ "A", F_ASC, DNone, [RVALS; IN_LAMBDA; RANGE_EACH]);
     (s_ "C", F_CHR, DNone, [RVALS; IN_LAMBDA; RANGE_EACH]);
     (s_ "AB", F_ABS, DNone, [RVALS; IN_LAMBDA; RANGE_EACH]);
     (s_ "SG", F_SIGN, DNone, [RVALS; IN_LAMBDA; RANGE_EACH]);
     (s_ "FB", F_FROMBASE, DNone, [RVALS; IN_LAMBDA; RANGE_EACH])]);
   (2%nat, ALeft,
    [(s_ "@", F_AT, DNone, [VALS; IN_LAMBDA]);
     (s_ "@<", F_LEFTOF, DNone, [VALS; IN_LAMBDA]);
     (s_ "@>", F_RIGHTOF, DNone, [VALS; IN_LAMBDA])]);
   (1%nat, ANone,
    [(s_ "@", F_AT, DNone, [VALS; IN_LAMBDA]);
     (s_ "@<", F_LEFTOF, DNone, [VALS; IN_LAMBDA]);
     (s_ "@>", F_RIGHTOF, DNone, [VALS; IN_LAMBDA]);
     (s_ "++", F_INC, DNone, [VALS; IN_LAMBDA]);
     (s_ "--", F_DEC, DNone, [VALS; IN_LAMBDA])])].

(* operators.py:86-94 *)
Definition cmd_table : list command :=
  [mkcmd (s_ "F") C_FOR [A_LOOPVAR; A_EXPR; A_CODE];
   mkcmd (s_ "I") C_IF [A_EXPR; A_CODE; A_ELSE];
   mkcmd (s_ "L") C_LOOP [A_EXPR; A_CODE];
   mkcmd (s_ "LR") C_LOOPREGEX [A_EXPR; A_EXPR; A_CODE];
   mkcmd (s_ "T") C_TILL [A_EXPR; A_CODE];
   mkcmd (s_ "W") C_WHILE [A_EXPR; A_CODE];
   mkcmd (s_ "WG") C_WIPEGLOBALS []].

(** ** Derived structures (operators.py:446-501) *)

Definition flags_of (arity : nat) (l : list flagname) : flags :=
  let has x := existsb (flagname_eqb x) l in
  let f := mkflags (has VALS) (has RVALS)
                   (has LIST_EACH || has RANGE_EACH) (has RANGE_EACH)
                   (has IN_LAMBDA) in
  (* operators.py:470-476: no item-wise ternary operators *)
  let f := if (2 <? arity)%nat && f_list_each f
           then mkflags (f_vals f) (f_rvals f) false false (f_in_lambda f)
           else f in
  (* operators.py:477-482 *)
  if f_in_lambda f && negb (f_vals f || f_rvals f)
  then mkflags (f_vals f) (f_rvals f) (f_list_each f) (f_range_each f) false
  else f.

Definition mkop (text : str) (fn : opfun) (arity : nat) (prec : Z)
           (a : assoc) (d : opdefault) (f : flags) : oper :=
  mkoper text fn arity prec a d f false false false false.

(** operators.py:460-501: every entry with its precedence, in table order. *)
Fixpoint build_ops (prec : Z) (tbl : list level) : list oper :=
  match tbl with
  | [] => []
  | (arity, a, entries) :: tbl' =>
      map (fun '(text, fn, d, fl) =>
             mkop text fn arity prec a d (flags_of arity fl)) entries
      ++ build_ops (prec + 1)%Z tbl'
  end.

Definition all_ops : list oper := Eval vm_compute in build_ops 0 precedence_table.

(** [opsByArity[arity].get(text)]: a dictionary keeps the last entry. *)
Definition op_by_arity (arity : nat) (text : str) : option oper :=
  find (fun o => Nat.eqb (o_arity o) arity && str_eqb (o_text o) text)
       (rev all_ops).

(** [text in operators.operators]. *)
Definition is_op_text (text : str) : bool :=
  existsb (fun o => str_eqb (o_text o) text) all_ops.

(** [operators.commands.get(text)] (operators.py:96). *)
Definition command_of (text : str) : option command :=
  find (fun c => str_eqb (c_text c) text) cmd_table.

(** Pseudo-operators (operators.py:449-456, 490-499). *)
Definition highest_precedence : Z := Eval vm_compute in zlen precedence_table.
Definition op_paren : oper :=
  mkop (s_ "PAREN") F_PARENTHESIZE 1 highest_precedence ALeft DNone
       (flags_of 1 [VALS]).
Definition op_enlist : oper :=
  mkop (s_ "LIST") F_LIST 1 highest_precedence ALeft DNone (flags_of 1 [VALS]).
Definition op_block : oper :=
  mkop (s_ "BLOCK") F_BLOCK 1 highest_precedence ALeft DNone (flags_of 1 []).
Definition op_send : oper :=
  mkop (s_ "SEND") F_SEND 1 highest_precedence ALeft DNone (flags_of 1 [VALS]).

Definition chain_precedence : Z :=
  Eval vm_compute in
  match find (fun o => assoc_eqb (o_assoc o) AChain) all_ops with
  | Some o => o_prec o
  | None => 0%Z
  end.
Definition op_chain : oper :=
  mkop (s_ "CHAIN") F_CHAIN 2 chain_precedence AChain DNone
       (flags_of 2 [RVALS; IN_LAMBDA]).

(** [assignOp = operators.opsByArity[2][":"]] (parsing.py:8). *)
Definition assign_op : oper :=
  Eval vm_compute in
  match op_by_arity 2 (s_ ":") with Some o => o | None => op_chain end.

