(** * parsing.py: from tokens to parse trees *)

From Coq Require Import String List NArith ZArith Bool  Arith.
From Verif Require Import PyStr Tokens OpFun OpTable.
Import ListNotations.

(** Errors: the two syntax errors of errors.py, Python's IndexError (reading
    [tokenList[0]] of an empty list) and KeyError (unknown command), and the
    model's out-of-fuel value. *)
Inductive perr : Set :=
| BadSyntax | IncompleteSyntax | PIndexError | PKeyError | PFuel.

Definition toklist := list (option token).

Inductive pres (A : Type) : Type :=
| POk (a : A) (rest : toklist)
| PErr (e : perr).
Arguments POk {A} a rest.
Arguments PErr {A} e.

Definition pbind {A B} (x : pres A) (f : A -> toklist -> pres B) : pres B :=
  match x with POk a r => f a r | PErr e => PErr e end.

(** [tokenList[0] == text] (False for None). *)
Definition head_is (ts : toklist) (text : string) : bool :=
  match ts with
  | Some t :: _ => str_eqb (t_text t) (s_ text)
  | _ => false
  end.

(** [tokenList[1] == text]. *)
Definition second_is (ts : toklist) (text : string) : bool :=
  match ts with _ :: ts' => head_is ts' text | [] => false end.

(** Setters used on copies of operators (parsing.py:144-147, 283-289,
    302-309). *)
Definition op_set_assign (o : oper) (prec : Z) (a : assoc) : oper :=
  mkoper (o_text o) (o_fun o) (o_arity o) prec a (o_default o) (o_flags o)
         true (o_map o) (o_fold o) (o_scan o).
Definition op_set_map (o : oper) : oper :=
  mkoper (o_text o) (o_fun o) (o_arity o) (o_prec o) (o_assoc o) (o_default o)
         (o_flags o) (o_assign o) true (o_fold o) (o_scan o).
Definition op_set_fold (o : oper) : oper :=
  mkoper (o_text o) (o_fun o) 1 (o_prec o) (o_assoc o) (o_default o)
         (o_flags o) (o_assign o) (o_map o) true (o_scan o).
Definition op_set_scan (o : oper) : oper :=
  mkoper (o_text o) (o_fun o) 1 (o_prec o) (o_assoc o) (o_default o)
         (o_flags o) (o_assign o) (o_map o) (o_fold o) true.

(** [op is operators.chain]. *)
Definition is_chain (o : oper) : bool :=
  match o_fun o with F_CHAIN => true | _ => false end.

(** [re.split(r"\\([a-z_]|[A-Z]{1,2})", rawText)] (parsing.py:216): the first
    literal, then (name, literal) pairs. *)
Fixpoint interp_split (cur : str) (s : str) : str * list (str * str) :=
  match s with
  | [] => (cur, [])
  | c :: s1 =>
    if N.eqb c c_backslash then
      match s1 with
      | d :: s2 =>
        if is_lower d || N.eqb d 95 then
          let '(lit, more) := interp_split [] s2 in (cur, ([d], lit) :: more)
        else if is_upper d then
          match s2 with
          | e :: s3 =>
            if is_upper e then
              let '(lit, more) := interp_split [] s3 in
              (cur, ([d; e], lit) :: more)
            else
              let '(lit, more) := interp_split [] s2 in
              (cur, ([d], lit) :: more)
          | [] => (cur, [([d], [])])
          end
        else interp_split (cur ++ [c]) s1
      | [] => (cur ++ [c], [])
      end
    else interp_split (cur ++ [c]) s1
  end.

Section Parse.
  Context {V : Type}.
  Local Notation tr := (tree V).

  Definition esc_token (lit : str) : tr :=
    TTok (Tok KEscString ([c_backslash; c_dquote] ++ lit
                          ++ [c_backslash; c_dquote])).

  (** Escaped strings with interpolations (parsing.py:210-232). *)
  Definition parse_escaped (t : token) : tr :=
    let raw := py_slice (Some 2%Z) (Some (-2)%Z) (t_text t) in
    let '(lit, more) := interp_split [] raw in
    match more with
    | [] => TTok t
    | _ =>
      match op_by_arity 1 (s_ "ST"), op_by_arity 1 (s_ "J") with
      | Some str_op, Some join_op =>
        TApp op_paren
          [TApp join_op
             [TApp op_enlist
                (esc_token lit
                 :: flat_map (fun '(n, l) =>
                                [TApp str_op [TTok (Tok KName n)];
                                 esc_token l]) more)]]
      | _, _ => TTok t       (* both operators are in the table *)
      end
    end.

  (** [bubble] (parsing.py:174-199).  Python returns the rearranged tree and a
      reference to the subtree (always on the right spine) whose last child is
      still missing.  Here: the spine above that subtree as a list of
      (operator, children but the last), outermost first, and the subtree's
      operator and children so far. *)
  Definition frame : Type := (oper * list tr)%type.

  Fixpoint bubble_fuel (fuel : nat) (op : oper) (left : tr)
    : list frame * (oper * list tr) :=
    match fuel with
    | O => ([], (op, [left]))
    | S f =>
      match left with
      | TApp next_op largs =>
        if ((o_arity next_op =? 2)%nat || (o_arity next_op =? 3)%nat)
           && ((o_prec next_op <? o_prec op)%Z
               || ((o_prec next_op =? o_prec op)%Z
                   && assoc_eqb (o_assoc op) ARight))
        then match rev largs with
             | last :: front =>
               let '(spine, act) := bubble_fuel f op last in
               ((next_op, rev front) :: spine, act)
             | [] => ([], (op, [left]))     (* operators have arguments *)
             end
        else if is_chain op && is_chain next_op then ([], (next_op, largs))
        else ([], (op, [left]))
      | _ => ([], (op, [left]))
      end
    end.

  (** Length of the right spine, enough fuel for [bubble_fuel]. *)
  Fixpoint spine_depth (t : tr) : nat :=
    match t with
    | TApp _ args =>
      S ((fix last_depth (l : list tr) : nat :=
            match l with
            | [] => 0
            | [x] => spine_depth x
            | _ :: l' => last_depth l'
            end) args)
    | _ => 1
    end.

  Definition bubble (op : oper) (left : tr) : list frame * (oper * list tr) :=
    bubble_fuel (spine_depth left) op left.

  (** Put a completed subtree back under its spine. *)
  Definition rebuild (spine : list frame) (t : tr) : tr :=
    fold_right (fun '(o, front) acc => TApp o (front ++ [acc])) t spine.

  (** Operator at the head of the token list when an infix operator is
      expected (parsing.py:121-126): binary first, then ternary. *)
  Definition infix_op (t : token) : option oper :=
    match op_by_arity 2 (t_text t) with
    | Some o => Some o
    | None => op_by_arity 3 (t_text t)
    end.

  (* parsing.py:62-85 *)
  Fixpoint parse_name_list (fuel : nat) (ts : toklist) {struct fuel} : pres tr :=
    match fuel with
    | O => PErr PFuel
    | S f =>
      let finish (t : tr) (ts : toklist) : pres tr :=
        match ts with
        | [] => PErr PIndexError
        | _ :: ts' => if head_is ts ";" then POk t ts' else POk t ts
        end in
      match ts with
      | [] => PErr PIndexError
      | None :: _ => PErr IncompleteSyntax
      | Some t :: ts1 =>
        match t_kind t with
        | KName => finish (TTok t) ts1
        | _ =>
          if str_eqb (t_text t) (s_ "[")
          then pbind (parse_names f ts1) (fun names ts2 =>
               match names with
               | [] => PErr BadSyntax
               | _ => finish (TApp op_enlist names) ts2
               end)
          else PErr BadSyntax
        end
      end
    end

  (* the inner loop of parseNameList with the closing bracket,
     parsing.py:69-71 *)
  with parse_names (fuel : nat) (ts : toklist) {struct fuel}
    : pres (list tr) :=
    match fuel with
    | O => PErr PFuel
    | S f =>
      match ts with
      | [] => PErr PIndexError
      | _ :: ts1 =>
        if head_is ts "]" then POk [] ts1
        else pbind (parse_name_list f ts) (fun x ts2 =>
             pbind (parse_names f ts2) (fun xs ts3 => POk (x :: xs) ts3))
      end
    end.

  (** The mutually recursive parsing functions.  Every call decreases [fuel].
      Each starts by looking at [tokenList[0]]; on an empty list Python raises
      IndexError. *)
  Fixpoint parse (fuel : nat) (ts : toklist) {struct fuel}
    : pres (list tr) :=
    match fuel with
    | O => PErr PFuel
    | S f =>
      (* parsing.py:16-19 *)
      match ts with
      | [] => PErr PIndexError
      | None :: _ => POk [] ts
      | Some t :: _ =>
        if str_eqb (t_text t) (s_ "}") then POk [] ts
        else pbind (parse_statement f ts) (fun st ts1 =>
             pbind (parse f ts1) (fun sts ts2 => POk (st :: sts) ts2))
      end
    end

  with parse_statement (fuel : nat) (ts : toklist) {struct fuel} : pres tr :=
    match fuel with
    | O => PErr PFuel
    | S f =>
      let finish (st : tr) (ts : toklist) : pres tr :=
        (* parsing.py:57-60 *)
        match ts with
        | [] => PErr PIndexError
        | _ :: ts' => if head_is ts ";" then POk st ts' else POk st ts
        end in
      match ts with
      | [] => PErr PIndexError
      | None :: _ => PErr IncompleteSyntax
      | Some t :: ts1 =>
        match t_kind t with
        | KCommand =>
          match command_of (t_text t) with
          | None => PErr PKeyError
          | Some c => pbind (parse_args f (c_args c) ts1)
                            (fun args ts2 => finish (TCmd c args) ts2)
          end
        | _ => pbind (parse_expr f (-1) ts) finish
        end
      end
    end

  (* the loop over command.argtypes, parsing.py:31-52 *)
  with parse_args (fuel : nat) (argtypes : list argtype) (ts : toklist)
                  {struct fuel} : pres (list tr) :=
    match fuel with
    | O => PErr PFuel
    | S f =>
      match argtypes with
      | [] => POk [] ts
      | a :: rest_types =>
        let first : pres tr :=
          match a with
          | A_ELSE =>
            match ts with
            | [] => PErr PIndexError
            | _ :: ts1 =>
              if head_is ts "EL"
              then pbind (parse_block f ts1) (fun b ts2 => POk (TBlk b) ts2)
              else POk (TBlk []) ts
            end
          | A_CODE => pbind (parse_block f ts)
                            (fun b ts2 => POk (TBlk b) ts2)
          | A_LOOPVAR => parse_name_list f ts
          | A_EXPR => parse_expr f (-1) ts
          end in
        pbind first (fun x ts1 =>
        pbind (parse_args f rest_types ts1) (fun xs ts2 =>
        POk (x :: xs) ts2))
      end
    end

  (* parsing.py:87-106 *)
  with parse_block (fuel : nat) (ts : toklist) {struct fuel}
    : pres (list tr) :=
    match fuel with
    | O => PErr PFuel
    | S f =>
      match ts with
      | [] => PErr PIndexError
      | _ :: ts1 =>
        if head_is ts "{"
        then pbind (parse f ts1) (fun sts ts2 =>
             match ts2 with
             | [] => PErr PIndexError
             | None :: _ => PErr IncompleteSyntax
             | Some _ :: ts3 =>
               if head_is ts2 "}" then POk sts ts3 else PErr BadSyntax
             end)
        else pbind (parse_statement f ts) (fun st ts2 => POk [st] ts2)
      end
    end

  (* parsing.py:117-171 *)
  with parse_expr (fuel : nat) (minprec : Z) (ts : toklist) {struct fuel}
    : pres tr :=
    match fuel with
    | O => PErr PFuel
    | S f =>
      pbind (parse_operand f ts) (fun e ts1 =>
      pbind (parse_infix f minprec e ts1) (fun e ts2 =>
      (* parsing.py:168-171 *)
      match ts2 with
      | [] => PErr PIndexError
      | _ :: ts3 =>
        if (minprec =? -1)%Z && head_is ts2 ";" then POk e ts3
        else POk e ts2
      end))
    end

  (* the while loop of parseExpr, parsing.py:120-166 *)
  with parse_infix (fuel : nat) (minprec : Z) (e : tr) (ts : toklist)
                   {struct fuel} : pres tr :=
    match fuel with
    | O => PErr PFuel
    | S f =>
      match ts with
      | [] => PErr PIndexError
      | None :: _ => POk e ts
      | Some t :: ts1 =>
        match t_kind t with
        | KOperator =>
          match infix_op t with
          | None => POk e ts
          | Some op =>
            match ts1 with
            | [] => PErr PIndexError
            | _ :: ts_after_colon =>
              let precedence := if second_is ts ":" then o_prec assign_op
                                else o_prec op in
              if (precedence <? minprec)%Z then POk e ts
              else
                let '(op, ts2) :=
                  if head_is ts1 ":"
                  then (op_set_assign op (o_prec assign_op)
                                      (o_assoc assign_op), ts_after_colon)
                  else (op, ts1) in
                let is_c := assoc_eqb (o_assoc op) AChain in
                let '(spine, (aop, aargs)) :=
                  bubble (if is_c then op_chain else op) e in
                let middle : pres (list tr) :=
                  if is_c then POk [TOpr op] ts2
                  else if (o_arity op =? 3)%nat
                       then pbind (parse_expr f (-1) ts2)
                                  (fun m ts3 => POk [m] ts3)
                       else POk [] ts2 in
                pbind middle (fun mid ts3 =>
                pbind (parse_operand f ts3) (fun x ts4 =>
                parse_infix f minprec
                  (rebuild spine (TApp aop (aargs ++ mid ++ [x]))) ts4))
            end
          end
        | _ => POk e ts
        end
      end
    end

  (* parsing.py:208-323 *)
  with parse_operand (fuel : nat) (ts : toklist) {struct fuel} : pres tr :=
    match fuel with
    | O => PErr PFuel
    | S f =>
      match ts with
      | [] => PErr PIndexError
      | None :: _ => PErr IncompleteSyntax
      | Some t :: ts1 =>
        match t_kind t with
        | KEscString => POk (parse_escaped t) ts1
        | KName | KNumber | KString | KPattern | KChar | KNil =>
          POk (TTok t) ts1
        | _ =>
          if str_eqb (t_text t) (s_ "(") then
            pbind (parse_until f ")" ts1) (fun es ts2 =>
            match es with
            | [] => POk (TTok (Tok KNil (s_ "()"))) ts2
            | [e] => POk (TApp op_paren [e]) ts2
            | _ => POk (TApp op_send es) ts2
            end)
          else if str_eqb (t_text t) (s_ "[") then
            pbind (parse_until f "]" ts1) (fun es ts2 =>
            POk (TApp op_enlist es) ts2)
          else if str_eqb (t_text t) (s_ "{") then
            pbind (parse_block f ts) (fun b ts2 =>
            POk (TApp op_block [TBlk b]) ts2)
          else
            let is_fold := str_eqb (t_text t) (s_ "$") in
            let is_scan := str_eqb (t_text t) (s_ "\$") in
            let unary (op : oper) (ts2 : toklist) : pres tr :=
              (* parsing.py:298-311 *)
              match ts2 with
              | [] => PErr PIndexError
              | _ :: ts2' =>
                let '(op, ts3) := if head_is ts2 "*"
                                  then (op_set_map op, ts2') else (op, ts2) in
                match ts3 with
                | [] => PErr PIndexError
                | _ :: ts3' =>
                  let '(op, ts4) :=
                    if head_is ts3 ":"
                    then (op_set_assign op (o_prec assign_op) (o_assoc op),
                          ts3')
                    else (op, ts3) in
                  pbind (parse_expr f (o_prec op + 1) ts4) (fun x ts5 =>
                  POk (TApp op [x]) ts5)
                end
              end in
            if is_fold || is_scan then
              match ts1 with
              | [] => PErr PIndexError
              | None :: _ => PErr IncompleteSyntax
              | Some t1 :: ts2 =>
                match op_by_arity 2 (t_text t1) with
                | Some op => unary (if is_fold then op_set_fold op
                                    else op_set_scan op) ts2
                | None => PErr BadSyntax
                end
              end
            else
              match op_by_arity 1 (t_text t) with
              | Some op => unary op ts1
              | None => PErr BadSyntax
              end
        end
      end
    end

  (* the loops of parseOperand over expressions up to a closing bracket
     (parsing.py:240-247, 262-267), including its removal *)
  with parse_until (fuel : nat) (close : string) (ts : toklist)
                   {struct fuel} : pres (list tr) :=
    match fuel with
    | O => PErr PFuel
    | S f =>
      match ts with
      | [] => PErr PIndexError
      | None :: _ => PErr IncompleteSyntax
      | Some _ :: ts1 =>
        if head_is ts close then POk [] ts1
        else pbind (parse_expr f (-1) ts) (fun e ts2 =>
             pbind (parse_until f close ts2) (fun es ts3 =>
             POk (e :: es) ts3))
      end
    end.

  (** Fuel that always suffices (proved in ParseProof.v). *)
  Definition parse_fuel (ts : toklist) : nat := 10 * length ts + 10.

  (** [parse(tokenList)] as called by pip.py and by EVAL. *)
  Definition parse_program (ts : toklist) : pres (list tr) :=
    parse (parse_fuel ts) ts.
End Parse.
