(** * Vocabulary for the properties of the scanner and the parser *)

From Coq Require Import String List NArith ZArith Bool Arith.
From Verif Require Import PyStr Tokens OpTable.
Import ListNotations.
Local Open Scope Z_scope.

(** A token the parser can rely on: command tokens name commands, and braces
    are symbols. *)
Definition proper (t : token) : Prop :=
  (t_kind t = KCommand -> command_of (t_text t) <> None)
  /\ (t_text t = s_ "{" \/ t_text t = s_ "}" -> t_kind t = KSymbol).

(** The end marker stands after the tokens. *)
Definition program (l : list token) : list (option token) := map Some l ++ [None].

(** Opening braces minus closing braces. *)
Definition brace (t : token) : Z :=
  if str_eqb (t_text t) (s_ "{") then 1
  else if str_eqb (t_text t) (s_ "}") then -1 else 0.
Definition balance (l : list token) : Z := fold_right (fun t n => brace t + n) 0 l.

(** No closing brace without an opening one before it. *)
Definition braces_match (l : list token) : Prop :=
  forall p q, l = p ++ q -> 0 <= balance p.

(** ** Infix expressions *)

(** The operator written by a binary operator token, or by one followed by a
    colon: the compute-and-assign form has the precedence and associativity of
    [:] itself. *)
Definition assigning (o : oper) : oper :=
  mkoper (o_text o) (o_fun o) (o_arity o) (o_prec assign_op) (o_assoc assign_op)
         (o_default o) (o_flags o) true (o_map o) (o_fold o) (o_scan o).

Inductive infix : list token -> oper -> Prop :=
| infix_plain : forall t o, t_kind t = KOperator ->
    op_by_arity 2 (t_text t) = Some o -> o_assoc o = ALeft \/ o_assoc o = ARight ->
    infix [t] o
| infix_assign : forall t c o, t_kind t = KOperator ->
    op_by_arity 2 (t_text t) = Some o -> t_text c = s_ ":" ->
    infix [t; c] (assigning o).

(** A name or a literal without interpolation (the text of such a token is
    never a punctuation mark). *)
Definition atom (t : token) : Prop :=
  match t_kind t with
  | KName | KNumber | KString | KPattern | KChar =>
      ~ In (t_text t) (map s_ [":"; ")"; "}"]%string)
  | _ => False
  end.

Section Infix.
  Context {V : Type}.

  (** The tokens of a tree of binary operators, left to right. *)
  Inductive spells : tree V -> list token -> Prop :=
  | spells_atom : forall t, atom t -> spells (TTok t) [t]
  | spells_paren : forall e ts, spells e ts ->
      spells (TApp op_paren [e]) (Tok KSymbol (s_ "(") :: ts ++ [Tok KSymbol (s_ ")")])
  | spells_infix : forall o l r tl ot tr, infix ot o -> spells l tl -> spells r tr ->
      spells (TApp o [l; r]) (tl ++ ot ++ tr).

  (** [t] may stand to the left (right) of operator [o] without parentheses. *)
  Definition left_of (o : oper) (t : tree V) : Prop :=
    match t with
    | TApp p [_; _] => o_prec p > o_prec o \/ o_prec p = o_prec o /\ o_assoc o = ALeft
    | _ => True
    end.
  Definition right_of (o : oper) (t : tree V) : Prop :=
    match t with
    | TApp p [_; _] => o_prec p > o_prec o \/ o_prec p = o_prec o /\ o_assoc o = ARight
    | _ => True
    end.

  (** Every operand is grouped as precedence and associativity demand. *)
  Inductive grouped : tree V -> Prop :=
  | grouped_atom : forall t, grouped (TTok t)
  | grouped_paren : forall e, grouped e -> grouped (TApp op_paren [e])
  | grouped_infix : forall o l r, grouped l -> grouped r -> left_of o l -> right_of o r ->
      grouped (TApp o [l; r]).
End Infix.

(** Token lists that alternate operands and binary operators. *)
Inductive expression : list token -> Prop :=
| expr_operand : forall ts, operand ts -> expression ts
| expr_infix : forall ts ot o xs, expression ts -> infix ot o -> operand xs ->
    expression (ts ++ ot ++ xs)
with operand : list token -> Prop :=
| operand_atom : forall t, atom t -> operand [t]
| operand_paren : forall ts, expression ts ->
    operand (Tok KSymbol (s_ "(") :: ts ++ [Tok KSymbol (s_ ")")]).
