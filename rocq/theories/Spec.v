(** * Specification vocabulary

    Small definitions, independent of the model's helpers, in which the
    property theorems are stated. *)

From Coq Require Import String List NArith ZArith Bool.
From Verif Require Import PyStr PyNum PTypes.
Import ListNotations.
Local Open Scope string_scope.
Local Open Scope list_scope.
Local Open Scope Z_scope.

(** [l] is the sequence of items of the finite sequence value [v]: the
    characters of a Scalar, the items of a List, the integers from the lower
    bound (0 if missing) up to but excluding the upper bound of a Range. *)
Fixpoint ints_from (z : Z) (n : nat) : list Z :=
  match n with
  | O => []
  | S k => z :: ints_from (z + 1) k
  end.

Inductive elems : pval -> list pval -> Prop :=
| elems_scal : forall s, elems (PScal s) (map (fun c => PScal [c]) s)
| elems_list : forall l, elems (PList l) l
| elems_range : forall lo u,
    let z := match lo with Some z => z | None => 0 end in
    elems (PRange lo (Some u))
          (map (fun i => PScal (str_of_Z i)) (ints_from z (Z.to_nat (u - z)))).

(** [r] is the window from [a] up to but excluding [b] of [l] repeated forever
    in both directions. *)
Definition window {A} (l : list A) (a b : Z) (r : list A) : Prop :=
  Z.of_nat (length r) = Z.max 0 (b - a)
  /\ forall k, (k < length r)%nat ->
       nth_error r k
       = nth_error l (Z.to_nat ((a + Z.of_nat k) mod Z.of_nat (length l))).

(** A slice bound counts from the end, once, if negative; a missing bound
    means [default]. *)
Definition from_end {A} (l : list A) (default : Z) (b : option Z) : Z :=
  match b with
  | None => default
  | Some z => if z <? 0 then z + Z.of_nat (length l) else z
  end.

(** [sub] occurs in [s] at position [i]. *)
Definition occurs_at (sub s : str) (i : nat) : Prop :=
  exists a b, s = a ++ sub ++ b /\ length a = i.

(** Values built without Blocks. *)
Fixpoint plain (v : pval) : bool :=
  match v with
  | PList l => forallb plain l
  | PBlock _ _ => false
  | _ => true
  end.

(** [n] is the least number with property [P]. *)
Definition least (P : nat -> Prop) (n : nat) : Prop :=
  P n /\ forall i, (i < n)%nat -> ~ P i.

(** The meaning of "occurs at position [i]" for Lists and strings. *)
Definition item_at (v item : pval) (i : nat) : Prop :=
  match v, item with
  | PList l, _ => nth_error l i = Some item
  | PScal s, PScal t => occurs_at t s i
  | _, _ => False
  end.

Definition searchable (v item : pval) : bool :=
  match v, item with
  | PList _, _ => true
  | PScal _, PScal _ => true
  | _, _ => false
  end.

(** First element of a Range: a missing lower bound means 0. *)
Definition range_start (lo : option Z) : Z :=
  match lo with Some z => z | None => 0 end.

(** The bounds of the slicing operators [x@<n], [x@>n], [xHn], [xSn]. *)
Definition slice_bounds (text : string) (n : Z) : option Z * option Z :=
  if String.eqb text "@<" then (None, Some n)
  else if String.eqb text "@>" then (Some n, None)
  else if String.eqb text "H" then (None, Some n)
  else if n =? 0 then (Some 0, Some 0) else (Some (- n), None).

(** Operators that run through all items of their argument. *)
Definition iterating_ops : list string :=
  ["EN"; "RV"; "RF"; "PZ"; "MX"; "MN"; "SN"; "DN"; "SS"; "DS"; "FL"; "FA"; "PM"].

(** ** Numbers as text *)

(** Decimal numerals: an optional minus sign and decimal digits, most
    significant first, and the integer they stand for. *)
Definition numeral (neg : bool) (ds : list N) : str :=
  (if neg then s_ "-" else []) ++ map (fun d => (48 + d)%N) ds.
Definition numeral_value (neg : bool) (ds : list N) : Z :=
  let v := fold_left (fun acc d => 10 * acc + Z.of_N d) ds 0 in
  if neg then - v else v.
Definition decimal (ds : list N) : Prop :=
  ds <> [] /\ Forall (fun d => (d < 10)%N) ds.

(** Digit characters of bases up to 36: 0-9, then A-Z. *)
Definition digit_char (d : N) : char :=
  if (d <? 10)%N then (48 + d)%N else (55 + d)%N.

(** Value of a digit list, most significant first. *)
Definition positional (b : Z) (ds : list Z) : Z :=
  fold_left (fun acc d => b * acc + d) ds 0.

(** The decimal forms of zero: zeros with at most one point among them and at
    least one zero. *)
Definition zero_form (s : str) : Prop :=
  exists a b : nat,
    (s = repeat 48%N a /\ (1 <= a)%nat)
    \/ (s = repeat 48%N a ++ [46%N] ++ repeat 48%N b /\ (1 <= a + b)%nat).

(** The Scalars that stand for true and false. *)
Definition truth (b : bool) : pval := PScal (if b then s_ "1" else s_ "0").

(** [s] comes before [t] in dictionary order of code points. *)
Inductive lex_lt : str -> str -> Prop :=
| lex_prefix : forall c t, lex_lt [] (c :: t)
| lex_here : forall c d s t, (c < d)%N -> lex_lt (c :: s) (d :: t)
| lex_later : forall c s t, lex_lt s t -> lex_lt (c :: s) (c :: t).

(** Text whose first character after blanks cannot begin a number. *)
Definition not_a_number (s : str) : Prop :=
  exists blanks rest, s = blanks ++ rest /\ forallb is_space blanks = true
    /\ match rest with
       | [] => True
       | c :: _ => is_space c = false /\ is_digit c = false
                   /\ c <> 45%N /\ c <> 46%N
       end.

(** ** Comparing nested Lists *)

(** Two Scalars, or two Lists that are alike at every position both have. *)
Inductive alike : pval -> pval -> Prop :=
| alike_scal s t : alike (PScal s) (PScal t)
| alike_list l l' : alikes l l' -> alike (PList l) (PList l')
with alikes : list pval -> list pval -> Prop :=
| alikes_left l : alikes [] l
| alikes_right l : alikes l []
| alikes_cons x y l l' : alike x y -> alikes l l' -> alikes (x :: l) (y :: l').

(** Lists are ordered by the first position where they differ, and a proper
    prefix comes first; [lt] and [eq] compare Scalars. *)
Section NestedOrder.
  Variables lt eq : str -> str -> Prop.
  Inductive same_items : pval -> pval -> Prop :=
  | same_scal s t : eq s t -> same_items (PScal s) (PScal t)
  | same_list l l' : Forall2 same_items l l' -> same_items (PList l) (PList l').
  Inductive before : pval -> pval -> Prop :=
  | before_scal s t : lt s t -> before (PScal s) (PScal t)
  | before_list l l' : list_before l l' -> before (PList l) (PList l')
  with list_before : list pval -> list pval -> Prop :=
  | before_end y l : list_before [] (y :: l)
  | before_here x y l l' : before x y -> list_before (x :: l) (y :: l')
  | before_later x y l l' :
      same_items x y -> list_before l l' -> list_before (x :: l) (y :: l').
End NestedOrder.
