(** * Specifications for the main program: argument lines, list formats, REPL *)

From Coq Require Import String List NArith ZArith Bool.
From Verif Require Import PyStr PyNum Tokens Scan Parse PTypes Spec Heap Exec SpecHeap SpecVars Main.
Import ListNotations.
Local Open Scope list_scope.

(** ** Argument lines *)

Definition quote_char (c : N) : Prop := c = 39%N \/ c = 34%N.

(** A piece of an argument: one character that is no space and no quote, or a
    text between two quotes of a kind that does not occur in it. *)
Inductive piece : str -> str -> Prop :=
| piece_char c : ~ quote_char c -> c <> 32%N -> piece [c] [c]
| piece_quoted q t : quote_char q -> ~ In q t -> piece (q :: t ++ [q]) t.
(** [spells w t]: the characters [w] stand for the argument [t]. *)
Inductive spells : str -> str -> Prop :=
| spells_one w t : piece w t -> spells w t
| spells_more w t w' t' : piece w t -> spells w' t' -> spells (w ++ w') (t ++ t').
(** A line with these arguments, separated by spaces. *)
Inductive line_of : str -> list str -> Prop :=
| line_empty : line_of [] []
| line_space l args : line_of l args -> line_of (32%N :: l) args
| line_last w t : spells w t -> line_of w [t]
| line_arg w t l args : spells w t -> line_of l args -> line_of (w ++ 32%N :: l) (t :: args).

(** The beginning of an argument that is still inside quotes. *)
Inductive unclosed : str -> Prop :=
| unclosed_here q t : quote_char q -> ~ In q t -> unclosed (q :: t)
| unclosed_later w t u : piece w t -> unclosed u -> unclosed (w ++ u).

(** ** List formats *)

(** [l] with [sep] between each two. *)
Fixpoint between (sep : str) (l : list str) : str :=
  match l with
  | [] => []
  | [x] => x
  | x :: l' => x ++ sep ++ between sep l'
  end.

(** The texts of the items of a value at any depth, from left to right.  A List
    without items counts as one empty text; a finite Range counts as the List of
    its numbers, or as one text if [whole]. *)
Definition or_blank (l : list str) : list str := match l with [] => [[]] | _ => l end.
Fixpoint texts (whole : bool) (p : pval) : list str :=
  match p with
  | PScal t => [t]
  | PPat t _ => [t]
  | PNil => [[]]
  | PList l => or_blank (concat (map (texts whole) l))
  | PRange lo (Some hi) =>
    let ints := or_blank (map str_of_Z (range_ints lo hi)) in
    if whole then [between [10%N] ints] else ints
  | PRange _ None | PBlock _ _ => [p_repr p]
  end.

(** The items of a List or finite Range. *)
Definition items (p : pval) : option (list pval) :=
  match p with
  | PList l => Some l
  | PRange lo (Some hi) => Some (map (fun z => PScal (str_of_Z z)) (range_ints lo hi))
  | _ => None
  end.

(** The output for the value [p]. *)
Definition listing (fmt : ofmt) (p : pval) : str :=
  match items p with
  | None => concat (texts false p)
  | Some l =>
    match fmt with
    | FmtNone => concat (texts false p)
    | Fmt_s => between [32%N] (texts false p)
    | Fmt_n => between [10%N] (texts false p)
    | Fmt_p => [91%N] ++ between [59%N] (map p_repr l) ++ [93%N]
    | Fmt_P => between [10%N] (map p_repr l)
    | Fmt_l => between [10%N] (map (fun x => concat (texts true x)) l)
    | Fmt_S => between [10%N] (map (fun x => between [32%N] (texts true x)) l)
    end
  end.

(** ** The REPL *)

(** What the lines read so far are. *)
Definition complete (code : str) (sts : list (tree hval)) : Prop :=
  exists ts rest b, scan code = ScanOk ts b /\ parse_program (V := hval) ts = POk sts rest.
Definition incomplete (code : str) : Prop :=
  scan code = ScanIncomplete \/
  exists ts b, scan code = ScanOk ts b /\ parse_program (V := hval) ts = PErr IncompleteSyntax.
(** Lines as one text. *)
Definition joined_lines (l : list str) : str := concat (map (fun x => x ++ [10%N]) l).

(** Answering the statements, without an error. *)
Definition replies (s : state) (sts : list (tree hval)) (s' : state) : Prop :=
  exists n, mfor (repl_statement n) sts s = Ok tt s'.
(** Answering the statements; an error that is reported ends them. *)
Definition answers (s : state) (sts : list (tree hval)) (s' : state) : Prop :=
  exists n, repl_statements n sts s = Ok tt s'.
(** [text] written to standard output. *)
Definition printed (text : str) (s : state) : state := set_out (st_out s ++ text) s.

(** ** Options *)

(** The options with these arguments and without -r. *)
Definition given (o : options) (args : list str) : options :=
  mkopt (op_debug o) (op_warnings o) (op_repr o) (op_reprlines o) (op_space o) (op_spacelines o)
        (op_newline o) (op_lines o) false (op_exec_args o) args.
