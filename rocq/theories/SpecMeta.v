(** * Specification vocabulary about folds, scans and comparison chains *)

From Coq Require Import String List NArith ZArith Bool.
From Verif Require Import PyStr PyNum Tokens OpFun OpTable Parse Unparse PTypes Ops Apply
                          Spec Heap Exec SpecHeap SpecVars.
Import ListNotations.
Local Open Scope string_scope.
Local Open Scope list_scope.
Local Open Scope Z_scope.

(** [$text e] and [\$text e]. *)
Definition folded (o : oper) (e : tree hval) : tree hval := TApp (op_set_fold o) [e].
Definition scanned (o : oper) (e : tree hval) : tree hval := TApp (op_set_scan o) [e].

(** The operator as a fold or scan applies it: a copy without modifiers whose
    number of operands is recorded as 1 (parsing.py:283-289; only the trees of
    functions built by the operator show that). *)
Definition inner (o : oper) : oper :=
  mkoper (o_text o) (o_fun o) 1 (o_prec o) (o_assoc o) (o_default o) (o_flags o)
         false false false false.

(** Applying an operator to operands that are already evaluated. *)
Definition applies (o : oper) (s : state) (xs : list xval) (r : xval) (s' : state) : Prop :=
  exists n, i_op (run n) o (map AVal xs) s = Ok r s'.

(** Repeated application to an accumulated result: all the results. *)
Inductive accumulates (f : state -> xval -> hval -> xval -> state -> Prop)
  : state -> xval -> list hval -> list xval -> xval -> state -> Prop :=
| accumulates_end s acc : accumulates f s acc [] [acc] acc s
| accumulates_step s acc v vs acc' s1 rs r s2 :
    f s acc v acc' s1 -> accumulates f s1 acc' vs rs r s2 ->
    accumulates f s acc (v :: vs) (acc :: rs) r s2.

(** Applying a binary operator to [v1 ... vn] from the left,
    [((v1 o v2) o v3) ...], or from the right if it associates to the right:
    the intermediate results [rs], in the order of the operands, and the
    overall result [r]. *)
Inductive nested (o : oper) (s : state) : list hval -> list xval -> xval -> state -> Prop :=
| nested_left v vs rs r s' :
    o_assoc o = ALeft ->
    accumulates (fun s acc v => applies o s [acc; XR v]) s (XR v) vs rs r s' ->
    nested o s (v :: vs) rs r s'
| nested_right v vs rs r s' :
    o_assoc o = ARight ->
    accumulates (fun s acc v => applies o s [XR v; acc]) s (XR v) vs rs r s' ->
    nested o s (rev vs ++ [v]) (rev rs) r s'.

(** The same on values: the results of applying the operator [text]. *)
Inductive results_left (fmt : ofmt) (text : string) : pval -> list pval -> list pval -> Prop :=
| results_left_end a : results_left fmt text a [] [a]
| results_left_step a b l c rs :
    snd (run_op fmt text [a; b]) = Val c -> plain c = true ->
    results_left fmt text c l rs ->
    results_left fmt text a (b :: l) (a :: rs).
Inductive results_right (fmt : ofmt) (text : string) : list pval -> pval -> list pval -> Prop :=
| results_right_end a : results_right fmt text [a] a []
| results_right_step a l b c rs :
    results_right fmt text l b rs ->
    snd (run_op fmt text [a; b]) = Val c -> plain c = true ->
    results_right fmt text (a :: l) c (b :: rs).

(** ** Chains *)

(** The comparison [e0 text1 e1 text2 e2 ...]. *)
Definition chain_tree (e0 : tree hval) (links : list (oper * tree hval)) : tree hval :=
  TApp op_chain (e0 :: flat_map (fun l => [TOpr (fst l); snd l]) links).

(** The links are tested from left to right; the result of the chain is that
    of the first link that is not true, or of the last link. *)
Inductive chain_result (fmt : ofmt) : pval -> list (oper * pval) -> pval -> Prop :=
| chain_false a o b links r :
    snd (apply_op fmt o [a; b]) = Val r -> counts r false ->
    chain_result fmt a ((o, b) :: links) r
| chain_last a o b r :
    snd (apply_op fmt o [a; b]) = Val r -> chain_result fmt a [(o, b)] r
| chain_true a o b links r r' :
    snd (apply_op fmt o [a; b]) = Val r -> counts r true ->
    chain_result fmt b links r' -> chain_result fmt a ((o, b) :: links) r'.

(** The links of [a o b o c ...]. *)
Definition same_links (o : oper) (l : list pval) : list (oper * pval) := map (pair o) l.

(** Every link of the chain is true. *)
Inductive all_links (fmt : ofmt) : pval -> list (oper * pval) -> Prop :=
| all_links_nil a : all_links fmt a []
| all_links_cons a o b links r :
    snd (apply_op fmt o [a; b]) = Val r -> counts r true -> all_links fmt b links ->
    all_links fmt a ((o, b) :: links).

(** The comparison operators: those that chain, except [~=], which sets the
    match variables. *)
Definition comparison (o : oper) : Prop :=
  exists text, op_by_arity 2 text = Some o /\ o_assoc o = AChain /\ text <> s_ "~=".

(** The object an evaluated expression stands for; variables are read. *)
Inductive value_of : xval -> state -> hval -> state -> Prop :=
| value_object v s : value_of (XR v) s v s
| value_variable lv s v s' : get_lval lv s = Ok v s' -> value_of (XL lv) s v s'.
