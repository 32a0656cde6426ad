(** * Which values can be read back from their printed form (C39) *)

From Coq Require Import String List NArith ZArith Bool.
From Verif Require Import PyStr PyNum Tokens OpTable PTypes Apply Heap Exec SpecScan SpecVars.
Import ListNotations.
Local Open Scope string_scope.
Local Open Scope list_scope.
Local Open Scope Z_scope.

(** Number literals as written in a program, and with a minus sign. *)
Definition unsigned (s : str) : Prop :=
  digits s \/ exists a b, s = a ++ s_ "." ++ b /\ digits a /\ digits b.
Definition numeric (s : str) : Prop :=
  unsigned s \/ exists u, s = s_ "-" ++ u /\ unsigned u.

(** The characters that start an interpolated name after a backslash. *)
Definition name_letter (c : char) : bool := is_lower c || is_upper c || N.eqb c 95.

(** Texts that are read back unchanged:
    - number literals;
    - negative numbers in the form in which negation prints them, in
      particular negative integers without leading zeros;
    - other texts without double quotes;
    - texts with a double quote in which no backslash precedes a letter or
      an underscore. *)
Inductive readable_text : str -> Prop :=
| text_number s : unsigned s -> readable_text s
| text_integer z : z < 0 -> readable_text (str_of_Z z)
| text_negative u : unsigned u ->
    (forall fmt, snd (run_op fmt "-" [PScal u]) = Val (PScal (s_ "-" ++ u))) ->
    readable_text (s_ "-" ++ u)
| text_plain s : ~ numeric s -> ~ In 34%N s -> readable_text s
| text_quoted s : In 34%N s ->
    (forall a c b, s = a ++ 92%N :: c :: b -> name_letter c = false) -> readable_text s.

(** Values built of such texts, Lists, Ranges and nil. *)
Inductive readable : pval -> Prop :=
| readable_scalar s : readable_text s -> readable (PScal s)
| readable_range lo hi : readable (PRange lo hi)
| readable_nil : readable PNil
| readable_list l : Forall readable l -> readable (PList l).

(** ** Evaluating a text (C59) *)

(** Statements that have a value. *)
Definition expression (t : tree hval) : Prop :=
  (exists o args, t = TApp o args)
  \/ exists k, t = TTok k /\ In (t_kind k) [KName; KNumber; KString; KEscString; KChar; KPattern; KNil].
Definition a_command (t : tree hval) : Prop := exists c args, t = TCmd c args.

(** [v] is the value of the statements [sts], run from state [s]: that of the
    last one if it is an expression, otherwise nil. *)
Definition value_of_code (s : state) (sts : list (tree hval)) (v : hval) (s' : state) : Prop :=
  (exists front b s1, sts = front ++ [b] /\ expression b /\ does front s s1 /\ gives s1 b v s')
  \/ ((sts = [] \/ exists front b, sts = front ++ [b] /\ a_command b) /\ v = HNil /\ does sts s s').
