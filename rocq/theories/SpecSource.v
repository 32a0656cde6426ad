(** * Specification: programs given in several ways *)

From Coq Require Import List NArith.
From Verif Require Import PyStr.
Import ListNotations.

(** The text of these lines: a newline between any two of them. *)
Fixpoint program_text (lines : list str) : str :=
  match lines with
  | [] => []
  | [l] => l
  | l :: rest => l ++ 10%N :: program_text rest
  end.
(** A line has no newline inside. *)
Definition is_line (l : str) : Prop := ~ In 10%N l.
