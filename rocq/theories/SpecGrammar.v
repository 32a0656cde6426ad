(** * A grammar of Pip programs (C68)

    The grammar relates trees to the tokens they are written with.  It is
    stated with the precedence and associativity columns of the operator table
    only: it does not mention how the parser proceeds. *)

From Coq Require Import String List NArith ZArith Bool.
From Verif Require Import PyStr Tokens OpTable SpecRepr.
Import ListNotations.
Local Open Scope string_scope.
Local Open Scope list_scope.
Local Open Scope Z_scope.

Definition sym (s : string) : token := Tok KSymbol (s_ s).
Definition mark (s : string) : token := Tok KOperator (s_ s).

(** ** Operators and their modifiers *)

Definition folding (o : oper) : oper :=
  mkoper (o_text o) (o_fun o) 1 (o_prec o) (o_assoc o) (o_default o) (o_flags o)
         (o_assign o) (o_map o) true (o_scan o).
Definition scanning (o : oper) : oper :=
  mkoper (o_text o) (o_fun o) 1 (o_prec o) (o_assoc o) (o_default o) (o_flags o)
         (o_assign o) (o_map o) (o_fold o) true.
Definition mapping (o : oper) : oper :=
  mkoper (o_text o) (o_fun o) (o_arity o) (o_prec o) (o_assoc o) (o_default o) (o_flags o)
         (o_assign o) true (o_fold o) (o_scan o).
(** Compute-and-assign has the precedence of the assignment. *)
Definition storing (o : oper) (a : assoc) : oper :=
  mkoper (o_text o) (o_fun o) (o_arity o) (o_prec assign_op) a (o_default o) (o_flags o)
         true (o_map o) (o_fold o) (o_scan o).

(** Before an operand. *)
Inductive bare : list token -> oper -> Prop :=
| bare_unary t o : op_by_arity 1 t = Some o -> bare [Tok KOperator t] o
| bare_fold t o : op_by_arity 2 t = Some o -> bare [sym "$"; Tok KOperator t] (folding o)
| bare_scan t o : op_by_arity 2 t = Some o -> bare [sym "\$"; Tok KOperator t] (scanning o).
Inductive prefix : list token -> oper -> Prop :=
| prefix_bare ts o : bare ts o -> prefix ts o
| prefix_map ts o : bare ts o -> prefix (ts ++ [mark "*"]) (mapping o)
| prefix_store ts o : bare ts o -> prefix (ts ++ [mark ":"]) (storing o (o_assoc o))
| prefix_both ts o : bare ts o ->
    prefix (ts ++ [mark "*"; mark ":"]) (storing (mapping o) (o_assoc o)).

(** Between operands. *)
Definition between (t : str) (o : oper) : Prop :=
  op_by_arity 2 t = Some o \/ op_by_arity 3 t = Some o.
Inductive infix : list token -> oper -> Prop :=
| infix_plain t o : between t o -> o_assoc o <> AChain -> infix [Tok KOperator t] o
| infix_store t o : between t o ->
    infix [Tok KOperator t; mark ":"] (storing o (o_assoc assign_op)).
Definition comparison (t : str) (o : oper) : Prop := between t o /\ o_assoc o = AChain.

(** ** Texts with interpolated names *)

(** No name is interpolated in [s]. *)
Definition plain_text (s : str) : Prop :=
  forall a c b, s = a ++ 92%N :: c :: b -> name_letter c = false.
(** An interpolated name followed by [s]: a lower-case letter, an underscore, or
    one or two upper-case letters, two if possible. *)
Inductive name_before : str -> str -> Prop :=
| nb_lower c s : is_lower c = true \/ c = 95%N -> name_before [c] s
| nb_upper c s : is_upper c = true -> (forall d s', s = d :: s' -> is_upper d = false) ->
    name_before [c] s
| nb_two c d s : is_upper c = true -> is_upper d = true -> name_before [c; d] s.
Inductive template : str -> str -> list (str * str) -> Prop :=
| tm_end s : plain_text s -> template s s []
| tm_name s n s1 lit more : plain_text s -> name_before n s1 -> template s1 lit more ->
    template (s ++ 92%N :: n ++ s1) s ((n, lit) :: more).

Definition escaped (s : str) : token := Tok KEscString ([92%N; 34%N] ++ s ++ [92%N; 34%N]).

Section Grammar.
  Context {V : Type}.
  Local Notation tr := (tree V).

  (** The texts and the names, made strings, are put in a List and joined. *)
  Inductive interpolated : token -> tr -> Prop :=
  | ip_plain s : template s s [] -> interpolated (escaped s) (TTok (escaped s))
  | ip_names s lit n l more str_op join_op : template s lit ((n, l) :: more) ->
      op_by_arity 1 (s_ "ST") = Some str_op -> op_by_arity 1 (s_ "J") = Some join_op ->
      interpolated (escaped s)
        (TApp op_paren [TApp join_op [TApp op_enlist
           (TTok (escaped lit)
            :: flat_map (fun '(m, k) => [TApp str_op [TTok (Tok KName m)]; TTok (escaped k)])
                        ((n, l) :: more))]]).

  (** ** Grouping *)

  (** [e] is an operation of the infix operator [p]. *)
  Definition rooted (e : tr) (p : oper) : Prop :=
    exists args, e = TApp p args /\ (o_arity p = 2%nat \/ o_arity p = 3%nat).
  Definition bracket (o : oper) : Prop :=
    o = op_paren \/ o = op_enlist \/ o = op_send \/ o = op_block.
  (** [p] is a prefix operator whose operand ends where [e] ends. *)
  Inductive edge : tr -> oper -> Prop :=
  | edge_here o x : o_arity o = 1%nat -> ~ bracket o -> edge (TApp o [x]) o
  | edge_prefix o x p : o_arity o = 1%nat -> ~ bracket o -> edge x p -> edge (TApp o [x]) p
  | edge_infix o front x p : o_arity o = 2%nat \/ o_arity o = 3%nat -> edge x p ->
      edge (TApp o (front ++ [x])) p.

  (** [l] may stand to the left of [o] without parentheses: its operator binds
      tighter, or as tight and [o] groups to the left; and it does not end with
      the operand of a prefix operator that binds looser than [o]. *)
  Definition left_ok (o : oper) (l : tr) : Prop :=
    (forall p, rooted l p ->
       o_prec p > o_prec o \/ o_prec p = o_prec o /\ o_assoc o = ALeft)
    /\ forall p, edge l p -> o_prec o <= o_prec p.
  (** [r] may stand to its right. *)
  Definition right_ok (o : oper) (r : tr) : Prop :=
    forall p, rooted r p ->
      o_prec p > o_prec o \/ o_prec p = o_prec o /\ o_assoc o = ARight.
  (** [x] may be the operand of the prefix operator [o]. *)
  Definition operand_ok (o : oper) (x : tr) : Prop :=
    forall p, rooted x p -> o_prec p > o_prec o.

  (** ** What may follow

      An expression is as long as possible: it is not followed by an operator
      that could continue it, and a semicolon after it belongs to it. *)
  Definition operator_ahead (rest : list token) : Prop :=
    exists t o rest', rest = Tok KOperator t :: rest' /\ between t o.
  Inductive semi : list token -> list token -> Prop :=
  | semi_none rest : hd_error rest <> Some (sym ";") -> semi [] rest
  | semi_some rest : semi [sym ";"] rest.

  (** ** Programs

      [code sts ts rest]: the tokens [ts], followed by [rest], are the
      statements [sts]. *)
  Inductive expr : tr -> list token -> Prop :=
  | ex_atom t : In (t_kind t) [KName; KNumber; KString; KPattern; KChar] -> expr (TTok t) [t]
  | ex_text t e : interpolated t e -> expr e [t]
  | ex_nil : expr (TTok (Tok KNil (s_ "()"))) [sym "("; sym ")"]
  | ex_paren e ts : closed e ts [sym ")"] -> expr (TApp op_paren [e]) (sym "(" :: ts ++ [sym ")"])
  | ex_send a b es ts : items (a :: b :: es) ts [sym ")"] ->
      expr (TApp op_send (a :: b :: es)) (sym "(" :: ts ++ [sym ")"])
  | ex_list es ts : items es ts [sym "]"] -> expr (TApp op_enlist es) (sym "[" :: ts ++ [sym "]"])
  | ex_block sts ts : code sts ts [sym "}"] ->
      expr (TApp op_block [TBlk sts]) (sym "{" :: ts ++ [sym "}"])
  | ex_prefix o x ot tx : prefix ot o -> expr x tx -> operand_ok o x ->
      expr (TApp o [x]) (ot ++ tx)
  | ex_infix o l r ot tl tx : infix ot o -> o_arity o = 2%nat -> expr l tl -> expr r tx ->
      left_ok o l -> right_ok o r -> expr (TApp o [l; r]) (tl ++ ot ++ tx)
  | ex_ternary o l m r ot tl tm tx : infix ot o -> o_arity o = 3%nat ->
      expr l tl -> closed m tm tx -> expr r tx -> left_ok o l -> right_ok o r ->
      expr (TApp o [l; m; r]) (tl ++ ot ++ tm ++ tx)
  | ex_chain e ls te tl : expr e te -> left_ok op_chain e -> links ls tl ->
      expr (TApp op_chain (e :: ls)) (te ++ tl)
  with links : list tr -> list token -> Prop :=
  | link_last t o e te : comparison t o -> expr e te -> right_ok op_chain e ->
      links [TOpr o; e] (Tok KOperator t :: te)
  | link_more t o e te ls tl : comparison t o -> expr e te -> right_ok op_chain e ->
      left_ok op_chain e -> links ls tl ->
      links (TOpr o :: e :: ls) (Tok KOperator t :: te ++ tl)
  with closed : tr -> list token -> list token -> Prop :=
  | closed_expr e ts s rest : expr e ts -> semi s rest -> (s = [] -> ~ operator_ahead rest) ->
      closed e (ts ++ s) rest
  with items : list tr -> list token -> list token -> Prop :=
  | items_nil rest : items [] [] rest
  | items_cons e es te ts rest : closed e te (ts ++ rest) -> items es ts rest ->
      items (e :: es) (te ++ ts) rest
  with code : list tr -> list token -> list token -> Prop :=
  | code_nil rest : code [] [] rest
  | code_cons st sts tst ts rest : statement st tst (ts ++ rest) -> code sts ts rest ->
      code (st :: sts) (tst ++ ts) rest
  with statement : tr -> list token -> list token -> Prop :=
  | st_expr e ts s rest : closed e ts (s ++ rest) -> semi s rest -> statement e (ts ++ s) rest
  | st_cmd c args ts s rest : In c cmd_table -> arguments (c_args c) args ts (s ++ rest) ->
      semi s rest -> statement (TCmd c args) (Tok KCommand (c_text c) :: ts ++ s) rest
  with arguments : list argtype -> list tr -> list token -> list token -> Prop :=
  | args_nil rest : arguments [] [] [] rest
  | args_cons a tys x xs tx ts rest : argument a x tx (ts ++ rest) -> arguments tys xs ts rest ->
      arguments (a :: tys) (x :: xs) (tx ++ ts) rest
  with argument : argtype -> tr -> list token -> list token -> Prop :=
  | arg_var x ts rest : variable x ts rest -> argument A_LOOPVAR x ts rest
  | arg_expr e ts rest : closed e ts rest -> argument A_EXPR e ts rest
  | arg_code sts ts rest : body sts ts rest -> argument A_CODE (TBlk sts) ts rest
  | arg_else sts ts rest : body sts ts rest -> argument A_ELSE (TBlk sts) (sym "EL" :: ts) rest
  | arg_no_else rest : hd_error rest <> Some (sym "EL") -> argument A_ELSE (TBlk []) [] rest
  with body : list tr -> list token -> list token -> Prop :=
  | body_block sts ts rest : code sts ts [sym "}"] -> body sts (sym "{" :: ts ++ [sym "}"]) rest
  | body_statement st ts rest : statement st ts rest -> hd_error ts <> Some (sym "{") ->
      body [st] ts rest
  with variable : tr -> list token -> list token -> Prop :=
  | var_name t s rest : t_kind t = KName -> semi s rest -> variable (TTok t) (t :: s) rest
  | var_list x xs ts s rest : variables (x :: xs) ts [sym "]"] -> semi s rest ->
      variable (TApp op_enlist (x :: xs)) (sym "[" :: ts ++ sym "]" :: s) rest
  with variables : list tr -> list token -> list token -> Prop :=
  | vars_nil rest : variables [] [] rest
  | vars_cons x xs tx ts rest : variable x tx (ts ++ rest) -> variables xs ts rest ->
      variables (x :: xs) (tx ++ ts) rest.
End Grammar.
