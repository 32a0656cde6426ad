(** * Which code can be read back from its printed form (C40) *)

From Coq Require Import String List NArith ZArith Bool.
From Verif Require Import PyStr Tokens OpTable Parse PTypes Heap SpecScan SpecRepr.
Import ListNotations.
Local Open Scope string_scope.
Local Open Scope list_scope.

(** ** Operators with their modifiers *)

Definition assigned (o : oper) (a : assoc) : oper := op_set_assign o (o_prec assign_op) a.

(** Before one operand: a unary operator, a fold or a scan, possibly with the
    modifiers [*] and [:].  Only [::] is the text of another operator. *)
Inductive unmarked : oper -> Prop :=
| un_unary t o : op_by_arity 1 t = Some o -> unmarked o
| un_fold t o : op_by_arity 2 t = Some o -> unmarked (op_set_fold o)
| un_scan t o : op_by_arity 2 t = Some o -> unmarked (op_set_scan o).
Inductive prefix_operator : oper -> Prop :=
| pre_plain o : unmarked o -> prefix_operator o
| pre_map o : unmarked o -> prefix_operator (op_set_map o)
| pre_assign o : unmarked o -> o_text o <> s_ ":" -> prefix_operator (assigned o (o_assoc o))
| pre_both o : unmarked o -> prefix_operator (assigned (op_set_map o) (o_assoc o)).

(** Between operands. *)
Definition between (o : oper) : Prop :=
  exists t, op_by_arity 2 t = Some o \/ op_by_arity 2 t = None /\ op_by_arity 3 t = Some o.
Inductive infix_operator : oper -> Prop :=
| in_plain o : between o -> o_assoc o <> AChain -> infix_operator o
| in_assign o : between o -> o_text o <> s_ ":" -> infix_operator (assigned o (o_assoc assign_op)).
Definition comparison (o : oper) : Prop := between o /\ o_assoc o = AChain.

(** ** Code *)

Definition nil_token : token := Tok KNil (s_ "()").

(** Names and literals.  EI is never a name, and a text with interpolated
    names is not a single token of a program. *)
Definition leaf (k : token) : Prop :=
  In (t_kind k) [KName; KNumber; KString; KPattern; KChar; KEscString]
  /\ token_text k /\ t_text k <> s_ "EI"
  /\ (t_kind k = KEscString -> forall a c b, t_text k = a ++ 92%N :: c :: b -> name_letter c = false).

(** The name or literal at the very end of the text of some code. *)
Definition brackets (o : oper) : Prop := o = op_paren \/ o = op_enlist \/ o = op_send \/ o = op_block.
Inductive ends_in {V} : tree V -> token -> Prop :=
| ends_leaf k : ends_in (TTok k) k
| ends_app o front k : ~ brackets o -> ends_in (TApp o (front ++ [TTok k])) k.
(** Code must not end with a semicolon or a space: in the text of a block they
    are taken for separators. *)
Definition tidy {V} (sts : list (tree V)) : Prop :=
  forall front t k, sts = front ++ [t] -> ends_in t k -> t_text k <> s_ "';" /\ t_text k <> s_ "' ".

(** Expressions whose text starts with an operator. *)
Definition starts_prefix {V} (t : tree V) : Prop := exists o x, t = TApp o [x] /\ ~ brackets o.

Inductive printable : tree pval -> Prop :=
| pr_leaf k : leaf k -> printable (TTok k)
| pr_nil : printable (TTok nil_token)
| pr_value : printable (TVal PNil)
| pr_paren e : printable e -> printable (TApp op_paren [e])
| pr_list es : all_printable es -> printable (TApp op_enlist es)
| pr_send a b es : all_printable (a :: b :: es) -> printable (TApp op_send (a :: b :: es))
| pr_block sts : code sts -> tidy sts -> printable (TApp op_block [TBlk sts])
| pr_prefix o e : prefix_operator o -> printable e -> printable (TApp o [e])
| pr_infix o a b : infix_operator o -> o_arity o = 2 -> printable a -> printable b ->
    printable (TApp o [a; b])
| pr_ternary o a b c : infix_operator o -> o_arity o = 3 -> printable a -> printable b -> printable c ->
    printable (TApp o [a; b; c])
| pr_chain e o e1 ls : printable e -> comparison o -> printable e1 -> links ls ->
    printable (TApp op_chain (e :: TOpr o :: e1 :: ls))
with all_printable : list (tree pval) -> Prop :=
| all_nil : all_printable []
| all_cons e es : printable e -> all_printable es -> all_printable (e :: es)
with links : list (tree pval) -> Prop :=
| links_nil : links []
| links_cons o e ls : comparison o -> printable e -> links ls -> links (TOpr o :: e :: ls)
with statement : tree pval -> Prop :=
| st_expr e : printable e -> statement e
| st_cmd c args : In c cmd_table -> arguments (c_args c) args -> statement (TCmd c args)
with code : list (tree pval) -> Prop :=
| code_nil : code []
| code_cons t sts : statement t -> code sts -> code (t :: sts)
with arguments : list argtype -> list (tree pval) -> Prop :=
| arg_nil : arguments [] []
| arg_var x ts args : loop_variable x -> arguments ts args -> arguments (A_LOOPVAR :: ts) (x :: args)
| arg_expr e ts args : printable e -> arguments ts args ->
    (forall e' ts' args', ts = A_EXPR :: ts' -> args = e' :: args' -> ~ starts_prefix e') ->
    arguments (A_EXPR :: ts) (e :: args)
| arg_code sts ts args : code sts -> tidy sts -> arguments ts args -> arguments (A_CODE :: ts) (TBlk sts :: args)
| arg_else sts ts args : code sts -> tidy sts -> arguments ts args -> arguments (A_ELSE :: ts) (TBlk sts :: args)
with loop_variable : tree pval -> Prop :=
| var_name k : leaf k -> t_kind k = KName -> loop_variable (TTok k)
| var_list x xs : loop_variable x -> loop_variables xs -> loop_variable (TApp op_enlist (x :: xs))
with loop_variables : list (tree pval) -> Prop :=
| vars_nil : loop_variables []
| vars_cons x xs : loop_variable x -> loop_variables xs -> loop_variables (x :: xs).

(** ** The same code up to redundant parentheses *)

Inductive reread {V W} (nil : V) : tree V -> tree W -> Prop :=
| re_tok k : reread nil (TTok k) (TTok k)
| re_nil : reread nil (TVal nil) (TTok nil_token)
| re_opr o : reread nil (TOpr o) (TOpr o)
| re_app o a b : rereads nil a b -> reread nil (TApp o a) (TApp o b)
| re_blk a b : rereads nil a b -> reread nil (TBlk a) (TBlk b)
| re_cmd c a b : rereads nil a b -> reread nil (TCmd c a) (TCmd c b)
| re_paren o a b : rereads nil a b -> reread nil (TApp o a) (TApp op_paren [TApp o b])
with rereads {V W} (nil : V) : list (tree V) -> list (tree W) -> Prop :=
| re_none : rereads nil [] []
| re_more a b l m : reread nil a b -> rereads nil l m -> rereads nil (a :: l) (b :: m).

(** Code in which no Block is written. *)
Fixpoint blockless {V} (t : tree V) : Prop :=
  match t with
  | TApp o args => o_fun o <> OpFun.F_BLOCK
                   /\ (fix all l := match l with [] => True | x :: l' => blockless x /\ all l' end) args
  | TBlk sts | TCmd _ sts => (fix all l := match l with [] => True | x :: l' => blockless x /\ all l' end) sts
  | _ => True
  end.
