(** * What Patterns match, described without regexes *)

From Coq Require Import String List NArith ZArith Bool.
From Verif Require Import PyStr PyNum Unparse PTypes Ops Apply.
Import ListNotations.
Local Open Scope list_scope.

(** ** Languages: sets of texts *)

Definition language : Type := str -> Prop.
Definition one_char (P : char -> Prop) : language := fun t => exists c, t = [c] /\ P c.
Definition followed (L M : language) : language := fun t => exists a b, t = a ++ b /\ L a /\ M b.
Definition either (L M : language) : language := fun t => L t \/ M t.
(** So many texts of [L] after each other. *)
Definition repeated_by (n : nat -> Prop) (L : language) : language :=
  fun t => exists ts, n (length ts) /\ Forall L ts /\ t = concat ts.

(** The Patterns in variables that match one character. *)
Definition between (a b : N) (c : char) : Prop := (a <= c /\ c <= b)%N.
Definition one_of (s : str) (c : char) : Prop := In c s.
Definition char_pattern (raw : str) (P : char -> Prop) : Prop :=
  (raw = s_ "[a-z]" /\ P = between 97 122)                         (* XL *)
  \/ (raw = s_ "[A-Z]" /\ P = between 65 90)                       (* XU *)
  \/ (raw = s_ "[aeiou]" /\ P = one_of (s_ "aeiou"))               (* XV *)
  \/ (raw = s_ "[aeiouy]" /\ P = one_of (s_ "aeiouy"))             (* XY *)
  \/ (raw = s_ "[bcdfghjklmnpqrstvwxyz]" /\ P = one_of (s_ "bcdfghjklmnpqrstvwxyz"))  (* XC *)
  \/ (raw = s_ "." /\ P = fun c => c <> 10%N).                     (* XX *)

(** The Patterns that a program can make of texts and of these with the
    operators X, +, comma, *, K and C, and the texts that they should match.
    Left out: repeating the empty Pattern, and the alternative of two empty
    Patterns. *)
Inductive denotes (fmt : ofmt) : pval -> language -> Prop :=
| D_text s p :
    run_op fmt "X" [PScal s] = ret p -> denotes fmt p (fun t => t = s)
| D_texts ss p : ss <> [] ->
    run_op fmt "X" [PList (map PScal ss)] = ret p -> p <> PPat (s_ "|") 0 -> denotes fmt p (fun t => In t ss)
| D_char raw P : char_pattern raw P -> denotes fmt (PPat raw 0) (one_char P)
| D_then p q L M r : denotes fmt p L -> denotes fmt q M ->
    run_op fmt "+" [p; q] = ret r -> denotes fmt r (followed L M)
| D_or p q L M r : denotes fmt p L -> denotes fmt q M ->
    run_op fmt "," [p; q] = ret r -> r <> PPat (s_ "|") 0 -> denotes fmt r (either L M)
| D_star p L r : denotes fmt p L -> p <> PPat [] 0 ->
    run_op fmt "K" [p] = ret r -> denotes fmt r (repeated_by (fun _ => True) L)
| D_plus p L r : denotes fmt p L -> p <> PPat [] 0 ->
    run_op fmt "+" [p] = ret r -> denotes fmt r (repeated_by (fun n => 1 <= n) L)
| D_times p L s n r : denotes fmt p L -> p <> PPat [] 0 ->
    scalar_int s = Z.of_nat n -> (Z.of_nat n < 4294967295)%Z ->
    run_op fmt "*" [p; PScal s] = ret r -> denotes fmt r (repeated_by (eq n) L)
| D_group p L r : denotes fmt p L ->
    run_op fmt "C" [p] = ret r -> denotes fmt r L.

(** Those that are not made by the comma in the last step. *)
Inductive joined (fmt : ofmt) : pval -> language -> Prop :=
| J_text s p :
    run_op fmt "X" [PScal s] = ret p -> joined fmt p (fun t => t = s)
| J_texts ss p : ss <> [] ->
    run_op fmt "X" [PList (map PScal ss)] = ret p -> p <> PPat (s_ "|") 0 -> joined fmt p (fun t => In t ss)
| J_char raw P : char_pattern raw P -> joined fmt (PPat raw 0) (one_char P)
| J_then p q L M r : denotes fmt p L -> denotes fmt q M ->
    run_op fmt "+" [p; q] = ret r -> joined fmt r (followed L M)
| J_star p L r : denotes fmt p L -> p <> PPat [] 0 ->
    run_op fmt "K" [p] = ret r -> joined fmt r (repeated_by (fun _ => True) L)
| J_plus p L r : denotes fmt p L -> p <> PPat [] 0 ->
    run_op fmt "+" [p] = ret r -> joined fmt r (repeated_by (fun n => 1 <= n) L)
| J_times p L s n r : denotes fmt p L -> p <> PPat [] 0 ->
    scalar_int s = Z.of_nat n -> (Z.of_nat n < 4294967295)%Z ->
    run_op fmt "*" [p; PScal s] = ret r -> joined fmt r (repeated_by (eq n) L)
| J_group p L r : denotes fmt p L ->
    run_op fmt "C" [p] = ret r -> joined fmt r L.

(** [t] has a part in [L] at [i]. *)
Definition part_at (L : language) (t : str) (i : nat) (m : str) : Prop :=
  exists a b, t = a ++ m ++ b /\ length a = i /\ L m.

(** ** One scan of a text: the text before each match and the match *)

Definition scan : Type := list (str * str).
Definition rebuilt (f : str -> str -> str) (gm : scan) (last : str) : str :=
  concat (map (fun p => f (fst p) (snd p)) gm) ++ last.
Fixpoint starts (pos : nat) (gm : scan) : list nat :=
  match gm with
  | [] => []
  | (g, m) :: gm' => (pos + length g) :: starts (pos + length g + length m) gm'
  end.
(** Brackets that could be capturing groups. *)
Fixpoint group_count (raw : str) : nat :=
  match raw with
  | [] => 0
  | c :: r => (if N.eqb c 40 && negb (startswith (s_ "?:") r) then 1 else 0) + group_count r
  end.
Definition ascii_digits_only (raw : str) : Prop :=
  forall c, In c raw -> is_digit c = true -> is_ascii_digit c = true.
