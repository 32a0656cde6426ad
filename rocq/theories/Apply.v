(** * execution.py: applying an operator to values

    [evaluate]'s plain-operator branch (execution.py:128-233) once its
    arguments are rvalues: building lambdas from Blocks, item-wise expansion of
    Lists and Ranges, and the call of the operator's method. *)

From Coq Require Import String List NArith ZArith Bool Arith.
From Verif Require Import PyStr PyRe PyNum Tokens OpFun OpTable Unparse PTypes
                          Ops OpsSeq UserRe.
Import ListNotations.
Local Open Scope string_scope.
Local Open Scope list_scope.
Local Open Scope Z_scope.

(** ** Indexing operators on rvalues *)

(** The tail of AT (execution.py:916-937): an iterable and an int or slice.
    [len] of an infinite Range raises ValueError, which is caught. *)
Definition at_idx (lhs : pval) (i : idx) : pm pval :=
  if is_iterable lhs
  then if match p_len lhs with Val n => n =? 0 | Exn _ => false end
       then reject "AT: empty"
       else match p_getitem lhs i with
            | Val v => ret v
            | Exn IndexError => reject "AT: index"
            | Exn e => raise e
            end
  else reject "AT".

(** AT with a Pattern (execution.py:909-917): the texts of all matches. *)
Fixpoint at_pattern (r : str) (f : N) (lhs : pval) : pm pval :=
  let at_text s := do o <- of_re (re_finditer r f s);
                   ret (PList (map (fun m => PScal (match_text s m)) (fst o))) in
  match lhs with
  | PScal s => at_text s
  | PList l => do r <- mapM (at_pattern r f) l; ret (PList r)
  | PRange lo (Some u) =>
    do r <- mapM (fun z => at_text (str_of_Z z)) (range_ints lo u); ret (PList r)
  | PRange _ None => raise Hang
  | _ => reject "AT"
  end.

(** AT (execution.py:866-937) with an rvalue on the left and the index on the
    right. *)
Fixpoint at_val (lhs : pval) (rhs : pval) {struct rhs} : pm pval :=
  match rhs with
  | PScal s => at_idx lhs (IInt (scalar_int s))
  | PRange lo hi => at_idx lhs (ISlice lo hi)
  | PList is_ =>
    if is_iterable lhs
    then do l <- mapM (fun i => at_val lhs i) is_; ret (PList l)
    else reject "AT"
  | PPat r f => at_pattern r f lhs
  | PBlock _ _ | PNil => reject "AT: index type"
  end.
Definition op_AT (lhs : pval) (rhs : option pval) : pm pval :=
  match rhs with
  | None => at_idx lhs (IInt 0)
  | Some r => at_val lhs r
  end.

(** The slicing operators on rvalues; [mk] turns the number into the slice. *)
Fixpoint sliced (w : warning) (mk : Z -> idx) (lhs : pval) (rhs : pval)
         {struct rhs} : pm pval :=
  let scal s := if is_iterable lhs
                then lift (p_getitem lhs (mk (scalar_int s)))
                else reject w in
  match rhs with
  | PList is_ => do l <- mapM (fun i => sliced w mk lhs i) is_; ret (PList l)
  | PRange lo (Some u) =>
    do l <- mapM (fun z => scal (str_of_Z z)) (range_ints lo u); ret (PList l)
  | PRange _ None => raise Hang
  | PScal s => scal s
  | _ => reject w
  end.
Definition or_default (d : Z) (rhs : option pval) : pval :=
  match rhs with Some r => r | None => scal_Z d end.

(** LEFTOF (execution.py:2009-2028), RIGHTOF (3326-3345), PREFIX (2966-2989),
    SUFFIX (3876-3903), with an rvalue on the left. *)
Definition suffix_slice (z : Z) : idx :=
  if z =? 0 then ISlice (Some 0) (Some 0) else ISlice (Some (- z)) None.
Definition op_LEFTOF (lhs : pval) (rhs : option pval) : pm pval :=
  sliced "LEFTOF" (fun z => ISlice None (Some z)) lhs (or_default (-1) rhs).
Definition op_RIGHTOF (lhs : pval) (rhs : option pval) : pm pval :=
  sliced "RIGHTOF" (fun z => ISlice (Some z) None) lhs (or_default 1 rhs).
Definition op_PREFIX (lhs : pval) (rhs : option pval) : pm pval :=
  sliced "PREFIX" (fun z => ISlice None (Some z)) lhs (or_default (-1) rhs).
Definition op_SUFFIX (lhs : pval) (rhs : option pval) : pm pval :=
  sliced "SUFFIX" suffix_slice lhs (or_default (-1) rhs).

(** ** The operator methods by name

    [None] for methods that evaluate code, update variables, do input or
    output, or are called with a number of arguments they do not accept.
    Methods whose results are not modelled (random numbers, transcendental
    functions, user-supplied regexes) raise [Unmodelled]. *)
Definition two : pval := PScal (s_ "2").

Definition pure1 (fmt : ofmt) (f : opfun) (a : pval) : option (pm pval) :=
  match f with
  | F_ABS => Some (op_ABS a)
  | F_ASC => Some (op_ASC a)
  | F_AT => Some (op_AT a None)
  | F_BITLENGTH => Some (op_BITLENGTH a)
  | F_BITWISENOT => Some (op_BITWISENOT a)
  | F_CARTESIANPRODUCT => Some (op_CARTESIANPRODUCT1 a)
  | F_CEIL => Some (op_CEIL a None)
  | F_CHOP => Some (op_CHOP a two)
  | F_CHR => Some (op_CHR a)
  | F_COORDINATEGRID => Some (op_COORDINATEGRID a a)
  | F_DEGREES => Some (op_DEGREES a)
  | F_DESCENDINGNUM => Some (op_DESCENDINGNUM a)
  | F_DESCENDINGSTRING => Some (op_DESCENDINGSTRING fmt a)
  | F_DOT => Some (op_DOT a)
  | F_DOUBLE => Some (op_DOUBLE a)
  | F_ENUMERATE => Some (op_ENUMERATE a)
  | F_FILTER => Some (op_FILTER1 a)
  | F_FILTERINDEXES => Some (op_FILTERINDEXES1 a)
  | F_FILTERJOIN => Some (op_FILTERJOIN1 a)
  | F_FILTERNOT => Some (op_FILTERNOT1 a)
  | F_FILTERUNPACK => Some (op_FILTERUNPACK1 a)
  | F_FLATTEN => Some (op_FLATTEN a)
  | F_FLATTENALL => Some (op_FLATTENALL a)
  | F_FLOOR => Some (op_FLOOR a None)
  | F_FROMBASE => Some (op_FROMBASE a None)
  | F_FROMDIGITS => Some (op_FROMDIGITS a None)
  | F_GROUP => Some (op_GROUP a two)
  | F_HALVE => Some (op_HALVE a)
  | F_HALVEUP => Some (op_HALVEUP a)
  | F_IDENTITYMATRIX => Some (op_IDENTITYMATRIX a)
  | F_INCLRANGETO => Some (op_INCLRANGETO a)
  | F_INITIALCAPS => Some (op_INITIALCAPS a)
  | F_INVERT => Some (op_INVERT a)
  | F_JOIN => Some (op_JOIN a None)
  | F_KLEENESTAR => Some (op_KLEENESTAR a)
  | F_LEFTOF => Some (op_LEFTOF a None)
  | F_LEN => Some (op_LEN a)
  | F_LOWERCASE => Some (op_LOWERCASE a)
  | F_LSTRIP => Some (op_LSTRIP a None)
  | F_MAX => Some (op_MAX a)
  | F_MIN => Some (op_MIN a)
  | F_MOD => Some (op_MOD a two)
  | F_NEG => Some (op_NEG a)
  | F_NOT => Some (op_NOT a)
  | F_ONEGRID => Some (op_ONEGRID a a)
  | F_PALINDROMIZE => Some (op_PALINDROMIZE a)
  | F_PERMUTATIONS => Some (op_PERMUTATIONS a)
  | F_POS => Some (op_POS a)
  | F_POW => Some (op_POW two a)
  | F_POWEROFTEN => Some (op_POWEROFTEN (PScal (s_ "1")) a)
  | F_PREFIX => Some (op_PREFIX a None)
  | F_QUADPALINDROMIZE => Some (op_QUADPALINDROMIZE a)
  | F_QUADREFLECT => Some (op_QUADREFLECT a)
  | F_RADIANS => Some (op_RADIANS a)
  | F_RANGETO => Some (op_RANGETO a)
  | F_REFLECT => Some (op_REFLECT a)
  | F_REGEX => Some (op_REGEX a)
  | F_REPR => Some (op_REPR a)
  | F_REVERSE => Some (op_REVERSE a)
  | F_RIGHTOF => Some (op_RIGHTOF a None)
  | F_ROUNDNEAREST => Some (op_ROUNDNEAREST a None)
  | F_ROUNDZERO => Some (op_ROUNDZERO a None)
  | F_RSTRIP => Some (op_RSTRIP a None)
  | F_SIGN => Some (op_SIGN a)
  | F_SORTNUM => Some (op_SORTNUM a)
  | F_SORTSTRING => Some (op_SORTSTRING fmt a)
  | F_SPLIT => Some (op_SPLIT a None)
  | F_SQUARE => Some (op_SQUARE a)
  | F_STR => Some (op_STR fmt a)
  | F_STRIP => Some (op_STRIP a None)
  | F_SUFFIX => Some (op_SUFFIX a None)
  | F_SWAPCASE => Some (op_SWAPCASE a)
  | F_TITLECASE => Some (op_TITLECASE a)
  | F_TOBASE => Some (op_TOBASE a None)
  | F_TODIGITS => Some (op_TODIGITS None a)
  | F_TRIM => Some (op_TRIM a None)
  | F_UNIQUE => Some (op_UNIQUE a)
  | F_UNWEAVE => Some (op_UNWEAVE a None)
  | F_UPPERCASE => Some (op_UPPERCASE a)
  | F_WEAVE => Some (op_WEAVE1 a)
  | F_ZEROGRID => Some (op_ZEROGRID a a)
  | F_ZIP => Some (op_ZIP1 a)
  | F_ZIPDEFAULT => Some (op_ZIPDEFAULT a None)
  | F_ZIPJOIN => Some (op_ZIPJOIN1 a)
  | F_ARCTAN | F_BINARYLOG | F_COSEC | F_COSINE | F_COTAN | F_DECIMALLOG
  | F_EXPONENTIAL | F_NATURALLOG | F_RANDCHOICE | F_RANDRANGETO | F_SECANT
  | F_SHUFFLE | F_SINE | F_SQRT | F_TANGENT => Some (raise Unmodelled)
  | _ => None
  end.

Definition pure2 (f : opfun) (a b : pval) : option (pm pval) :=
  match f with
  | F_ABSOLUTEDIFF => Some (op_ABSOLUTEDIFF a b)
  | F_ADD => Some (op_ADD a b)
  | F_APPENDELEM => Some (op_APPENDELEM a b)
  | F_APPENDLIST => Some (op_APPENDLIST a b)
  | F_AT => Some (op_AT a (Some b))
  | F_BITWISEAND => Some (op_BITWISEAND a b)
  | F_BITWISEOR => Some (op_BITWISEOR a b)
  | F_BITWISEXOR => Some (op_BITWISEXOR a b)
  | F_CARTESIANPRODUCT => Some (op_CARTESIANPRODUCT2 a b)
  | F_CAT => Some (op_CAT a b)
  | F_CEIL => Some (op_CEIL a (Some b))
  | F_CHOP => Some (op_CHOP a b)
  | F_COMBINATIONS => Some (op_COMBINATIONS a b)
  | F_COORDINATEGRID => Some (op_COORDINATEGRID a b)
  | F_DELETECHARS => Some (op_DELETECHARS a b)
  | F_DIV => Some (op_DIV a b)
  | F_FIND => Some (op_FIND a b)
  | F_FINDALL => Some (op_FINDALL a b)
  | F_FLOOR => Some (op_FLOOR a (Some b))
  | F_FROMBASE => Some (op_FROMBASE a (Some b))
  | F_FROMDIGITS => Some (op_FROMDIGITS a (Some b))
  | F_GROUP => Some (op_GROUP a b)
  | F_IN => Some (op_IN a b)
  | F_INCLRANGE => Some (op_INCLRANGE a b)
  | F_INTDIV => Some (op_INTDIV a b)
  | F_JOIN => Some (op_JOIN a (Some b))
  | F_JOINWRAP => Some (op_JOINWRAP a b)
  | F_LEFTOF => Some (op_LEFTOF a (Some b))
  | F_LENEQUAL => Some (op_LENEQUAL a b)
  | F_LENGREATER => Some (op_LENGREATER a b)
  | F_LENLESS => Some (op_LENLESS a b)
  | F_LSTRIP => Some (op_LSTRIP a (Some b))
  | F_MOD => Some (op_MOD a b)
  | F_MUL => Some (op_MUL a b)
  | F_NOTIN => Some (op_NOTIN a b)
  | F_NUMCMP => Some (op_NUMCMP a b)
  | F_NUMEQUAL => Some (op_NUMEQUAL a b)
  | F_NUMGREATER => Some (op_NUMGREATER a b)
  | F_NUMGREATEREQ => Some (op_NUMGREATEREQ a b)
  | F_NUMLESS => Some (op_NUMLESS a b)
  | F_NUMLESSEQ => Some (op_NUMLESSEQ a b)
  | F_NUMNOTEQUAL => Some (op_NUMNOTEQUAL a b)
  | F_OBJEQUAL => Some (op_OBJEQUAL a b)
  | F_ONEGRID => Some (op_ONEGRID a b)
  | F_POW => Some (op_POW a b)
  | F_POWEROFTEN => Some (op_POWEROFTEN a b)
  | F_PREFIX => Some (op_PREFIX a (Some b))
  | F_PREPENDELEM => Some (op_PREPENDELEM a b)
  | F_RANGE => Some (op_RANGE a b)
  | F_REMOVE => Some (op_REMOVE a b)
  | F_REPEATLIST => Some (op_REPEATLIST a b)
  | F_RIGHTOF => Some (op_RIGHTOF a (Some b))
  | F_ROUNDNEAREST => Some (op_ROUNDNEAREST a (Some b))
  | F_ROUNDZERO => Some (op_ROUNDZERO a (Some b))
  | F_RSTRIP => Some (op_RSTRIP a (Some b))
  | F_RVALAND => Some (op_RVALAND a b)
  | F_RVALOR => Some (op_RVALOR a b)
  | F_SPLIT => Some (op_SPLIT a (Some b))
  | F_SPLITAT => Some (op_SPLITAT a b)
  | F_STREQUAL => Some (op_STREQUAL a b)
  | F_STRGREATER => Some (op_STRGREATER a b)
  | F_STRGREATEREQ => Some (op_STRGREATEREQ a b)
  | F_STRIP => Some (op_STRIP a (Some b))
  | F_STRLESS => Some (op_STRLESS a b)
  | F_STRLESSEQ => Some (op_STRLESSEQ a b)
  | F_STRMUL => Some (op_STRMUL a b)
  | F_STRNOTEQUAL => Some (op_STRNOTEQUAL a b)
  | F_SUB => Some (op_SUB a b)
  | F_SUFFIX => Some (op_SUFFIX a (Some b))
  | F_TOBASE => Some (op_TOBASE a (Some b))
  | F_TODIGITS => Some (op_TODIGITS (Some b) a)
  | F_TRIM => Some (op_TRIM a (Some b))
  | F_UNWEAVE => Some (op_UNWEAVE a (Some b))
  | F_WEAVE => Some (op_WEAVE2 a b)
  | F_WRAP => Some (op_WRAP a b)
  | F_ZEROGRID => Some (op_ZEROGRID a b)
  | F_ZIP => Some (op_ZIP2 a b)
  | F_ZIPDEFAULT => Some (op_ZIPDEFAULT a (Some b))
  | F_ZIPJOIN => Some (op_ZIPJOIN2 a b)
  | F_FIRSTMATCH => Some (op_FIRSTMATCH a b)
  | F_FULLMATCH => Some (op_FULLMATCH a b)
  | F_ARCTAN | F_RANDRANGE | F_ROOT
    => Some (raise Unmodelled)
  | _ => None
  end.

Definition pure3 (fmt : ofmt) (f : opfun) (a b c : pval) : option (pm pval) :=
  match f with
  | F_REPLACE => Some (op_REPLACE fmt a b c)
  | F_REPLACEAT => Some (op_REPLACEAT fmt b a c)
  | F_RVALIFTE => Some (op_RVALIFTE a b c)
  | F_TRANSLITERATE => Some (op_TRANSLITERATE b c a)
  | _ => None
  end.

Definition pure_fun (fmt : ofmt) (f : opfun) (args : list pval)
  : option (pm pval) :=
  match args with
  | [a] => pure1 fmt f a
  | [a; b] => pure2 f a b
  | [a; b; c] => pure3 fmt f a b c
  | _ => None
  end.

(** ** Item-wise expansion and lambdas *)

(** An argument to be expanded (execution.py:140-145). *)
Definition expands (fl : flags) (v : pval) : bool :=
  match v with
  | PRange _ _ => f_range_each fl
  | PList _ => f_list_each fl
  | _ => false
  end.
Definition is_block (v : pval) : bool :=
  match v with PBlock _ _ => true | _ => false end.

(** Building a Block from Block arguments (execution.py:155-189).  With one
    Block its statements are kept; with several they are concatenated: both
    are the concatenation over the arguments. *)
Definition arg_stmts (v : pval) : list (tree pval) :=
  match v with PBlock sts _ => sts | _ => [] end.
Definition arg_expr (v : pval) : tree pval :=
  match v with PBlock _ r => r | _ => TVal v end.
Definition lambda_of (o : oper) (args : list pval) : pval :=
  PBlock (flat_map arg_stmts args) (TApp o (map arg_expr args)).

(** The pairs seen by [zip(a, b)]. *)
Definition zip_args (a b : pval) : list (pval * pval) :=
  combine (zip_items (size_hint b) a) (zip_items (size_hint a) b).

(** [evaluate([operator, *args])] on rvalues (execution.py:128-233).  Nested
    Lists recurse through [evaluate]; the fuel is the nesting depth
    ([apply_op]), so running out, reported as [Hang], does not happen (proved).
    [None] means that the operator is not a function of its argument values
    alone.  [len] of an infinite Range in the two-List case is a
    ValueError. *)
Section Apply.
  Variable fmt : ofmt.
  Variable o : oper.

  Definition call_pure (args : list pval) : pm pval :=
    match pure_fun fmt (o_fun o) args with
    | Some m => m
    | None => raise TypeError
    end.

  Fixpoint apply_fuel (fuel : nat) (args : list pval) : pm pval :=
    let fl := o_flags o in
    if f_in_lambda fl && existsb is_block args
    then ret (lambda_of o args)
    else
      match args with
      | [a] =>
        if expands fl a
        then match fuel with
             | O => raise Hang
             | S f =>
               do l <- (do items <- lift (p_iter a);
                        mapM (fun x => apply_fuel f [x]) items);
               ret (PList l)
             end
        else call_pure args
      | [a; b] =>
        if expands fl a || expands fl b
        then match fuel with
             | O => raise Hang
             | S f =>
               if expands fl a && expands fl b
               then
                 if infinite a && infinite b then raise Hang
                 else
                   do l <- mapM (fun p => apply_fuel f [fst p; snd p])
                                (zip_args a b);
                   if infinite a || infinite b then raise ValueError
                   else ret (PList (l ++ skipn (size_hint b) (zip_items 0 a)
                                      ++ skipn (size_hint a) (zip_items 0 b)))
               else if expands fl a
               then do l <- (do items <- lift (p_iter a);
                             mapM (fun x => apply_fuel f [x; b]) items);
                    ret (PList l)
               else do l <- (do items <- lift (p_iter b);
                             mapM (fun y => apply_fuel f [a; y]) items);
                    ret (PList l)
             end
        else call_pure args
      | _ => call_pure args
      end.

  Definition apply_op (args : list pval) : pm pval :=
    apply_fuel (S (fold_right (fun v n => (pdepth v + n)%nat) O args)) args.
End Apply.

(** [evaluate([op, v1, v2, ...])] where [op] is the operator of the table with
    the given text and as many operands as there are values (the lookup the
    parser does, parsing.py:131-170). *)
Definition run_op (fmt : ofmt) (text : string) (args : list pval) : pm pval :=
  match op_by_arity (List.length args) (s_ text) with
  | Some o => apply_op fmt o args
  | None => raise NameError
  end.
