(** * Vocabulary for text and grid operators *)

From Coq Require Import String List NArith ZArith Bool.
From Verif Require Import PyStr PyNum PTypes Spec.
Import ListNotations.
Local Open Scope list_scope.
Local Open Scope Z_scope.

(** ** Letter case *)

(** The [k]-th letter of the alphabet. *)
Definition lower_letter (k : N) (c : char) : Prop := (k < 26)%N /\ c = (97 + k)%N.
Definition upper_letter (k : N) (c : char) : Prop := (k < 26)%N /\ c = (65 + k)%N.
Definition letter (c : char) : Prop := exists k, lower_letter k c \/ upper_letter k c.

(** One character made small, made capital, or with its case swapped. *)
Definition lowered (c d : char) : Prop :=
  (exists k, upper_letter k c /\ lower_letter k d)
  \/ ((forall k, ~ upper_letter k c) /\ d = c).
Definition raised (c d : char) : Prop :=
  (exists k, lower_letter k c /\ upper_letter k d)
  \/ ((forall k, ~ lower_letter k c) /\ d = c).
Definition swapped (c d : char) : Prop :=
  (exists k, upper_letter k c /\ lower_letter k d)
  \/ (exists k, lower_letter k c /\ upper_letter k d)
  \/ (~ letter c /\ d = c).

Definition ascii (s : str) : Prop := Forall (fun c => (c < 128)%N) s.

(** ** Pieces of text *)

(** [s] without [front] characters at its start and [back] at its end. *)
Definition trimmed (s : str) (front back : nat) (t : str) : Prop :=
  (exists u w, s = u ++ t ++ w /\ length u = front /\ length w = back)
  \/ ((length s <= front + back)%nat /\ t = []).

(** The characters of [s] that are not in [x], in order. *)
Inductive without (x : str) : str -> str -> Prop :=
| without_nil : without x [] []
| without_drop c s t : In c x -> without x s t -> without x (c :: s) t
| without_keep c s t : ~ In c x -> without x s t -> without x (c :: s) (c :: t).

(** What transliteration makes of one character: if it is in [old] (at a place
    that [new] has too), the character of [new] at its last place there. *)
Definition translated (old new : str) (c d : char) : Prop :=
  (exists i, nth_error old i = Some c /\ nth_error new i = Some d
     /\ forall j, (i < j)%nat -> (j < length new)%nat -> nth_error old j <> Some c)
  \/ ((forall j, (j < length new)%nat -> nth_error old j <> Some c) /\ d = c).

(** Column [i] of lines of text, with spaces where a line is too short. *)
Definition column (lines : list str) (i : nat) : str :=
  map (fun l => match nth_error l i with Some c => c | None => 32%N end) lines.

(** ** Grids *)

(** A List of [n] Lists of [m] cells; [cell i j p] says what is in row [i] and
    column [j]. *)
Definition grid_of (n m : nat) (cell : nat -> nat -> pval -> Prop) (v : pval) : Prop :=
  exists rows, v = PList (map PList rows) /\ length rows = n
    /\ forall i row, nth_error rows i = Some row -> length row = m
         /\ forall j p, nth_error row j = Some p -> cell i j p.

(** A sequence followed by its mirror image, which may share the middle. *)
Definition reflected {A} (l r : list A) : Prop := r = l ++ rev l.
Definition palindromized {A} (l r : list A) : Prop :=
  l = [] /\ r = [] \/ exists l' x, l = l' ++ [x] /\ r = l' ++ x :: rev l'.

(** ** Replacing items *)

(** [p] with the item at index [z] replaced by [q]: indices go around, and in a
    Scalar the text of [q] takes the place of the character. *)
Inductive replaced_at (fmt : ofmt) : pval -> Z -> pval -> pval -> Prop :=
| replaced_char s1 c s2 z q :
    z mod Z.of_nat (length (s1 ++ c :: s2)) = Z.of_nat (length s1) ->
    replaced_at fmt (PScal (s1 ++ c :: s2)) z q (PScal (s1 ++ p_str fmt q ++ s2))
| replaced_item l1 x l2 z q :
    z mod Z.of_nat (length (l1 ++ x :: l2)) = Z.of_nat (length l1) ->
    replaced_at fmt (PList (l1 ++ x :: l2)) z q (PList (l1 ++ q :: l2)).

(** One replacement after the other; the [k]-th puts in [pick k]. *)
Inductive replaced_in_turn (fmt : ofmt) (pick : nat -> pval)
  : nat -> pval -> list Z -> pval -> Prop :=
| in_turn_done k p : replaced_in_turn fmt pick k p [] p
| in_turn_more k p z zs p1 p2 :
    replaced_at fmt p z (pick k) p1 -> replaced_in_turn fmt pick (S k) p1 zs p2 ->
    replaced_in_turn fmt pick k p (z :: zs) p2.

(** [index_text v z]: the Scalar [v] is a numeral of [z]. *)
Definition index_text (v : pval) (z : Z) : Prop :=
  exists n ds, decimal ds /\ v = PScal (numeral n ds) /\ numeral_value n ds = z.

(** ** Lists and lengths *)

(** What a value contributes to a List it is appended to: its items, or itself
    if it has none to give. *)
Inductive listed : pval -> list pval -> Prop :=
| listed_text s : listed (PScal s) [PScal s]
| listed_pattern r f : listed (PPat r f) [PPat r f]
| listed_nil : listed PNil [PNil]
| listed_list l : listed (PList l) l
| listed_range lo u l : elems (PRange lo (Some u)) l -> listed (PRange lo (Some u)) l.

(** The length of an iterable; none for a Range without an end. *)
Inductive has_length : pval -> option nat -> Prop :=
| length_elems v l : elems v l -> has_length v (Some (length l))
| length_endless lo : has_length (PRange lo None) None.
Definition shorter (a b : option nat) : bool :=
  match a, b with
  | Some m, Some n => Nat.ltb m n
  | Some _, None => true
  | None, _ => false
  end.
Definition same_length (a b : option nat) : bool :=
  match a, b with
  | Some m, Some n => Nat.eqb m n
  | None, None => true
  | _, _ => false
  end.
