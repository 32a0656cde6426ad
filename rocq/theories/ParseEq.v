(** * Unfolding equations of the parsing functions *)

From Coq Require Import String List NArith ZArith Bool Arith.
From Verif Require Import PyStr Tokens OpFun OpTable Parse.
Import ListNotations.

Section Eq.
  Context {V : Type}.
  Local Notation tr := (tree V).

  Lemma parse_eq : forall f (ts : toklist),
    @parse V (S f) ts =
      match ts with
      | [] => PErr PIndexError
      | None :: _ => POk [] ts
      | Some t :: _ =>
        if str_eqb (t_text t) (s_ "}") then POk [] ts
        else pbind (parse_statement f ts) (fun st ts1 =>
             pbind (parse f ts1) (fun sts ts2 => POk (st :: sts) ts2))
      end.
  Proof. reflexivity. Qed.

  Lemma parse_statement_eq : forall f (ts : toklist),
    @parse_statement V (S f) ts =
      let finish (st : tr) (ts : toklist) : pres tr :=

        match ts with
        | [] => PErr PIndexError
        | _ :: ts' => if head_is ts ";" then POk st ts' else POk st ts
        end in
      match ts with
      | [] => PErr PIndexError
      | None :: _ => PErr IncompleteSyntax
      | Some t :: ts1 =>
        match t_kind t with
        | KCommand =>
          match command_of (t_text t) with
          | None => PErr PKeyError
          | Some c => pbind (parse_args f (c_args c) ts1)
                            (fun args ts2 => finish (TCmd c args) ts2)
          end
        | _ => pbind (parse_expr f (-1) ts) finish
        end
      end.
  Proof. reflexivity. Qed.

  Lemma parse_args_eq : forall f (argtypes : list argtype) (ts : toklist),
    @parse_args V (S f) argtypes ts =
      match argtypes with
      | [] => POk [] ts
      | a :: rest_types =>
        let first : pres tr :=
          match a with
          | A_ELSE =>
            match ts with
            | [] => PErr PIndexError
            | _ :: ts1 =>
              if head_is ts "EL"
              then pbind (parse_block f ts1) (fun b ts2 => POk (TBlk b) ts2)
              else POk (TBlk []) ts
            end
          | A_CODE => pbind (parse_block f ts)
                            (fun b ts2 => POk (TBlk b) ts2)
          | A_LOOPVAR => parse_name_list f ts
          | A_EXPR => parse_expr f (-1) ts
          end in
        pbind first (fun x ts1 =>
        pbind (parse_args f rest_types ts1) (fun xs ts2 =>
        POk (x :: xs) ts2))
      end.
  Proof. reflexivity. Qed.

  Lemma parse_block_eq : forall f (ts : toklist),
    @parse_block V (S f) ts =
      match ts with
      | [] => PErr PIndexError
      | _ :: ts1 =>
        if head_is ts "{"
        then pbind (parse f ts1) (fun sts ts2 =>
             match ts2 with
             | [] => PErr PIndexError
             | None :: _ => PErr IncompleteSyntax
             | Some _ :: ts3 =>
               if head_is ts2 "}" then POk sts ts3 else PErr BadSyntax
             end)
        else pbind (parse_statement f ts) (fun st ts2 => POk [st] ts2)
      end.
  Proof. reflexivity. Qed.

  Lemma parse_expr_eq : forall f (minprec : Z) (ts : toklist),
    @parse_expr V (S f) minprec ts =
      pbind (parse_operand f ts) (fun e ts1 =>
      pbind (parse_infix f minprec e ts1) (fun e ts2 =>

      match ts2 with
      | [] => PErr PIndexError
      | _ :: ts3 =>
        if (minprec =? -1)%Z && head_is ts2 ";" then POk e ts3
        else POk e ts2
      end)).
  Proof. reflexivity. Qed.

  Lemma parse_infix_eq : forall f (minprec : Z) (e : tr) (ts : toklist),
    @parse_infix V (S f) minprec e ts =
      match ts with
      | [] => PErr PIndexError
      | None :: _ => POk e ts
      | Some t :: ts1 =>
        match t_kind t with
        | KOperator =>
          match infix_op t with
          | None => POk e ts
          | Some op =>
            match ts1 with
            | [] => PErr PIndexError
            | _ :: ts_after_colon =>
              let precedence := if second_is ts ":" then o_prec assign_op
                                else o_prec op in
              if (precedence <? minprec)%Z then POk e ts
              else
                let '(op, ts2) :=
                  if head_is ts1 ":"
                  then (op_set_assign op (o_prec assign_op)
                                      (o_assoc assign_op), ts_after_colon)
                  else (op, ts1) in
                let is_c := assoc_eqb (o_assoc op) AChain in
                let '(spine, (aop, aargs)) :=
                  bubble (if is_c then op_chain else op) e in
                let middle : pres (list tr) :=
                  if is_c then POk [TOpr op] ts2
                  else if (o_arity op =? 3)%nat
                       then pbind (parse_expr f (-1) ts2)
                                  (fun m ts3 => POk [m] ts3)
                       else POk [] ts2 in
                pbind middle (fun mid ts3 =>
                pbind (parse_operand f ts3) (fun x ts4 =>
                parse_infix f minprec
                  (rebuild spine (TApp aop (aargs ++ mid ++ [x]))) ts4))
            end
          end
        | _ => POk e ts
        end
      end.
  Proof. reflexivity. Qed.

  Lemma parse_operand_eq : forall f (ts : toklist),
    @parse_operand V (S f) ts =
      match ts with
      | [] => PErr PIndexError
      | None :: _ => PErr IncompleteSyntax
      | Some t :: ts1 =>
        match t_kind t with
        | KEscString => POk (parse_escaped t) ts1
        | KName | KNumber | KString | KPattern | KChar | KNil =>
          POk (TTok t) ts1
        | _ =>
          if str_eqb (t_text t) (s_ "(") then
            pbind (parse_until f ")" ts1) (fun es ts2 =>
            match es with
            | [] => POk (TTok (Tok KNil (s_ "()"))) ts2
            | [e] => POk (TApp op_paren [e]) ts2
            | _ => POk (TApp op_send es) ts2
            end)
          else if str_eqb (t_text t) (s_ "[") then
            pbind (parse_until f "]" ts1) (fun es ts2 =>
            POk (TApp op_enlist es) ts2)
          else if str_eqb (t_text t) (s_ "{") then
            pbind (parse_block f ts) (fun b ts2 =>
            POk (TApp op_block [TBlk b]) ts2)
          else
            let is_fold := str_eqb (t_text t) (s_ "$") in
            let is_scan := str_eqb (t_text t) (s_ "\$") in
            let unary (op : oper) (ts2 : toklist) : pres tr :=

              match ts2 with
              | [] => PErr PIndexError
              | _ :: ts2' =>
                let '(op, ts3) := if head_is ts2 "*"
                                  then (op_set_map op, ts2') else (op, ts2) in
                match ts3 with
                | [] => PErr PIndexError
                | _ :: ts3' =>
                  let '(op, ts4) :=
                    if head_is ts3 ":"
                    then (op_set_assign op (o_prec assign_op) (o_assoc op),
                          ts3')
                    else (op, ts3) in
                  pbind (parse_expr f (o_prec op + 1) ts4) (fun x ts5 =>
                  POk (TApp op [x]) ts5)
                end
              end in
            if is_fold || is_scan then
              match ts1 with
              | [] => PErr PIndexError
              | None :: _ => PErr IncompleteSyntax
              | Some t1 :: ts2 =>
                match op_by_arity 2 (t_text t1) with
                | Some op => unary (if is_fold then op_set_fold op
                                    else op_set_scan op) ts2
                | None => PErr BadSyntax
                end
              end
            else
              match op_by_arity 1 (t_text t) with
              | Some op => unary op ts1
              | None => PErr BadSyntax
              end
        end
      end.
  Proof. reflexivity. Qed.

  Lemma parse_until_eq : forall f (close : string) (ts : toklist),
    @parse_until V (S f) close ts =
      match ts with
      | [] => PErr PIndexError
      | None :: _ => PErr IncompleteSyntax
      | Some _ :: ts1 =>
        if head_is ts close then POk [] ts1
        else pbind (parse_expr f (-1) ts) (fun e ts2 =>
             pbind (parse_until f close ts2) (fun es ts3 =>
             POk (e :: es) ts3))
      end.
  Proof. reflexivity. Qed.
End Eq.
