(** * What functions without side effects compute: specification

    A semantics of function bodies that consist of one expression, in terms of
    values only: no state, no objects, no scopes. *)

From Coq Require Import String List NArith ZArith Bool.
From Verif Require Import PyStr PyNum Tokens Scan OpFun OpTable Parse Unparse PTypes Ops Apply Spec Heap Exec
                          SpecHeap SpecRun SpecVars SpecMap SpecMeta SpecRec.
Import ListNotations.
Local Open Scope string_scope.
Local Open Scope list_scope.

(** The operator with this text applied to expressions. *)
Definition papp (text : string) (args : list (tree pval)) : tree pval :=
  match op_by_arity (length args) (s_ text) with
  | Some o => TApp o args
  | None => TOpr op_chain
  end.
(** A chain of comparisons. *)
Definition pchain (e0 : tree pval) (links : list (oper * tree pval)) : tree pval :=
  TApp op_chain (e0 :: flat_map (fun l => [TOpr (fst l); snd l]) links).
Definition pname (x : str) : tree pval := TTok (Tok KName x).

(** Expressions, as the parser gives them. *)
Inductive is_expression : tree pval -> Prop :=
| expression_app o args : is_expression (TApp o args)
| expression_name x : is_expression (pname x)
| expression_literal k : is_literal (t_kind k) = true -> is_expression (TTok k).

(** The values of the variables [a] to [g] in a call of the function [f] with
    the arguments [args]. *)
Definition bound (f : pval) (args : list pval) (c : N) : pval :=
  if N.eqb c 102 then f
  else if N.eqb c 103 then PList args
  else nth (N.to_nat (c - 97)) args PNil.

(** Indices: Scalars, and Ranges if the operand has items. *)
Definition index_of (p q : pval) : Prop :=
  (exists t, q = PScal t) \/ (exists lo hi, q = PRange lo hi /\ ~ elems p []).
(** Expressions whose result is not, as it stands, a list of assignable
    expressions. *)
Fixpoint sliceable (e : tree pval) : bool :=
  match e with
  | TApp o args =>
    match o_fun o, args with
    | F_LIST, _ => false
    | F_IFTE, [_; a; b] => sliceable a && sliceable b
    | (F_PARENTHESIZE | F_SEND | F_AT | F_LEFTOF | F_RIGHTOF | F_PREFIX | F_SUFFIX), e1 :: _ => sliceable e1
    | _, _ => true
    end
  | _ => true
  end.

(** What an expression depends on besides the variables [a] to [g]: the list
    format, the values of the other variables as far as they are known, and the
    interpreter's constant 1, the same object in every run. *)
Record setting := mksetting {
  w_fmt : ofmt;
  w_var : str -> pval -> Prop;
  w_one : Prop }.
Definition has_one (s : state) : Prop := nth_error (st_heap s) loc_one = Some (OS (s_ "1")).
Definition models (s : state) (w : setting) : Prop :=
  st_fmt s = w_fmt w
  /\ (forall x p, w_var w x p -> ordinary s x /\ ~ is_local x /\ var s x p)
  /\ (w_one w -> has_one s).
(** Everything that is so in a state. *)
Definition setting_of (s : state) : setting :=
  mksetting (st_fmt s) (fun x p => ordinary s x /\ ~ is_local x /\ var s x p) (has_one s).

(** [has_value w f L e p]: inside a call of the function [f], the variables [a]
    to [g] having the values [L], the expression [e] has the value [p]; the
    global variables have the values that [w] gives them.
    [called w f args p]: the function [f] returns [p] for the arguments
    [args]. *)
Inductive has_value (w : setting) : pval -> (N -> pval) -> tree pval -> pval -> Prop :=
| hv_local f L c : In c (s_ "abcdefg") -> has_value w f L (pname [c]) (L c)
| hv_global f L x p :
    w_var w x p -> has_value w f L (pname x) p
| hv_object f L p : has_value w f L (TVal p) p
| hv_literal f L k p :
    is_literal (t_kind k) = true -> t_kind k <> KName -> of_token k = Val p ->
    has_value w f L (TTok k) p
| hv_function f L sts e :
    is_expression e -> has_value w f L (TApp op_block [TBlk (sts ++ [e])]) (PBlock sts e)
| hv_procedure f L sts c args :
    let sts' := sts ++ [TCmd c args] in
    has_value w f L (TApp op_block [TBlk sts']) (PBlock sts' (TVal PNil))
| hv_empty f L : has_value w f L (TApp op_block [TBlk []]) (PBlock [] (TVal PNil))
| hv_app f L text es ps p :
    value_operator text (length es) -> have_values w f L es ps ->
    snd (run_op (w_fmt w) text ps) = Val p -> has_value w f L (papp text es) p
| hv_parens f L e p : has_value w f L e p -> has_value w f L (TApp op_paren [e]) p
| hv_display f L es ps :
    have_values w f L es ps -> has_value w f L (TApp op_enlist es) (PList ps)
| hv_compare f L e0 links p0 ps r :
    links <> [] -> Forall comparison (map fst links) ->
    have_values w f L (e0 :: map snd links) (p0 :: ps) ->
    Forall (fun p => is_block p = false) (p0 :: ps) ->
    chain_result (w_fmt w) p0 (combine (map fst links) ps) r ->
    has_value w f L (pchain e0 links) r
| hv_and_stop f L a b p :
    has_value w f L a p -> counts p false -> has_value w f L (papp "&" [a; b]) p
| hv_and f L a b p q :
    has_value w f L a p -> counts p true -> has_value w f L b q ->
    has_value w f L (papp "&" [a; b]) q
| hv_or_stop f L a b p :
    has_value w f L a p -> counts p true -> has_value w f L (papp "|" [a; b]) p
| hv_or f L a b p q :
    has_value w f L a p -> counts p false -> has_value w f L b q ->
    has_value w f L (papp "|" [a; b]) q
| hv_if f L (t : bool) c a b p q :
    has_value w f L c p -> counts p t -> has_value w f L (if t then a else b) q ->
    has_value w f L (papp "?" [c; a; b]) q
| hv_item f L e i p q r :
    has_value w f L e p -> has_value w f L i q -> is_block p = false -> index_of p q ->
    snd (run_op (w_fmt w) "@" [p; q]) = Val r -> has_value w f L (papp "@" [e; i]) r
| hv_send f L e i p q r :
    has_value w f L e p -> has_value w f L i q -> is_block p = false -> index_of p q ->
    snd (run_op (w_fmt w) "@" [p; q]) = Val r -> has_value w f L (TApp op_send [e; i]) r
| hv_first f L e p r :
    has_value w f L e p -> is_block p = false ->
    snd (run_op (w_fmt w) "@" [p]) = Val r -> has_value w f L (papp "@" [e]) r
| hv_slice f L text e i p t r :
    In text ["@<"; "@>"; "H"; "S"] -> has_value w f L e p -> sliceable e = true ->
    has_value w f L i (PScal t) -> is_block p = false ->
    snd (run_op (w_fmt w) text [p; PScal t]) = Val r -> has_value w f L (papp text [e; i]) r
| hv_rest f L e p r :
    has_value w f L e p -> sliceable e = true -> is_block p = false ->
    w_one w ->
    snd (run_op (w_fmt w) "@>" [p]) = Val r -> has_value w f L (papp "@>" [e]) r
| hv_recurse f L e q r :
    has_value w f L e q -> called w f [q] r -> has_value w f L (papp "RE" [e]) r
| hv_call f L e h es qs r :
    has_value w f L e h -> have_values w f L es qs -> called w h qs r ->
    has_value w f L (TApp op_send (e :: es)) r
| hv_map f L e1 e2 h p l rs :
    has_value w f L e1 h -> has_value w f L e2 p -> elems p l ->
    called_each w h l rs -> has_value w f L (papp "M" [e1; e2]) (PList rs)
with have_values (w : setting) : pval -> (N -> pval) -> list (tree pval) -> list pval -> Prop :=
| hvs_nil f L : have_values w f L [] []
| hvs_cons f L e p es ps :
    has_value w f L e p -> have_values w f L es ps ->
    have_values w f L (e :: es) (p :: ps)
with called (w : setting) : pval -> list pval -> pval -> Prop :=
| called_function e args p :
    has_value w (PBlock [] e) (bound (PBlock [] e) args) e p -> called w (PBlock [] e) args p
with called_each (w : setting) : pval -> list pval -> list pval -> Prop :=
| each_nil e : called_each w (PBlock [] e) [] []
| each_cons h p r ps rs :
    called w h [p] r -> called_each w h ps rs -> called_each w h (p :: ps) (r :: rs).

(** The function that this text, one function literal, is. *)
Definition function_of (text : string) : option pval :=
  match scan (s_ text) with
  | ScanOk ts _ =>
    match parse_program (V := pval) ts with
    | POk [TApp o [TBlk [e]]] _ =>
      match o_fun o with F_BLOCK => Some (PBlock [] e) | _ => None end
    | _ => None
    end
  | _ => None
  end.

(** A place where the running function and the variables [a] to [g] have these
    values. *)
Definition inside (s : state) (f : pval) (L : N -> pval) : Prop :=
  (forall c, In c (s_ "abcdefg") -> var s [c] (L c))
  /\ exists v, running s v /\ den (st_heap s) v f.
