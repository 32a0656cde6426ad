(** * Converting parse trees back to code (parsing.py:326-393,
    operators.py:41-56) *)

From Coq Require Import String List NArith ZArith Bool Arith.
From Verif Require Import PyStr PyRe Tokens OpFun OpTable.
Import ListNotations.

(** [str(op)] (operators.py:41-56). *)
Definition op_str (o : oper) : str :=
  let t := o_text o in
  let t := if o_fold o then s_ "$" ++ t
           else if o_scan o then s_ "\$" ++ t else t in
  let t := if o_map o
           then if is_op_text (o_text o ++ s_ "*") then t ++ s_ " *"
                else t ++ s_ "*"
           else t in
  if o_assign o then t ++ s_ ":" else t.

Section Unparse.
  Context {V : Type}.
  Variable repr_val : V -> str.     (* repr of an embedded Pip value *)

  (** Parenthesise an operand (parsing.py:374-377). *)
  Definition needs_parens (t : tree V) : bool :=
    match t with
    | TApp o _ =>
      negb (existsb (str_eqb (o_text o))
                    [s_ "PAREN"; s_ "BLOCK"; s_ "SEND"; s_ "LIST"])
    | _ => false
    end.

  Definition operand_str (x : tree V * str) : str :=
    if needs_parens (fst x) then s_ "(" ++ snd x ++ s_ ")" else snd x.

  (** An operator application, given its rendered arguments
      (parsing.py:355-386).  Missing operands (never the case in parsed trees)
      are rendered as the empty string. *)
  Definition unparse_app (o : oper) (args : list (tree V * str)) : str :=
    let nth_str i := nth i (map operand_str args) [] in
    if str_eqb (o_text o) (s_ "PAREN")
    then s_ "(" ++ nth 0 (map snd args) [] ++ s_ ")"
    else if str_eqb (o_text o) (s_ "BLOCK")
    then s_ "{" ++ nth 0 (map snd args) [] ++ s_ "}"
    else if str_eqb (o_text o) (s_ "SEND")
    then s_ "(" ++ str_join (s_ "; ") (map snd args) ++ s_ ")"
    else if str_eqb (o_text o) (s_ "LIST")
    then s_ "[" ++ str_join (s_ "; ") (map snd args) ++ s_ "]"
    else if str_eqb (o_text o) (s_ "CHAIN")
    then str_join (s_ " ") (map operand_str args)
    else match o_arity o with
         | 1 => op_str o ++ s_ " " ++ nth_str 0
         | 2 => nth_str 0 ++ s_ " " ++ op_str o ++ s_ " " ++ nth_str 1
         | _ => nth_str 0 ++ s_ " " ++ op_str o ++ s_ " " ++ nth_str 1
                ++ s_ "; " ++ nth_str 2
         end.

  (** A command statement, given its rendered arguments
      (parsing.py:334-344). *)
  Fixpoint unparse_cmd_args (types : list argtype) (args : list str) : str :=
    match types, args with
    | a :: types', x :: args' =>
      (match a with
       | A_ELSE => s_ " EL {" ++ x ++ s_ "}"
       | A_CODE => s_ " {" ++ x ++ s_ "}"
       | A_LOOPVAR | A_EXPR => s_ " " ++ x
       end) ++ unparse_cmd_args types' args'
    | _, _ => []
    end.

  (** [unparseExpr] on expressions, [unparse] (with statementSep = "") on code
      blocks, and one round of its loop on command statements. *)
  Fixpoint unparse_node (t : tree V) : str :=
    match t with
    | TTok tk => t_text tk
    | TVal v => repr_val v
    | TOpr o => op_str o
    | TApp o args => unparse_app o (map (fun x => (x, unparse_node x)) args)
    | TBlk sts =>
      strip (cls_in (s_ "; "))
            (concat (map (fun x => unparse_node x ++ s_ "; ") sts))
    | TCmd c args =>
      c_text c ++ unparse_cmd_args (c_args c) (map unparse_node args)
    end.

  (** [unparse(tree)] (parsing.py:326-350). *)
  Definition unparse (sts : list (tree V)) : str := unparse_node (TBlk sts).
End Unparse.
