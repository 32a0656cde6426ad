(** * Specification vocabulary about Lists *)

From Coq Require Import String List NArith ZArith Bool Sorted Permutation.
From Verif Require Import PyStr PyNum PTypes Ops Apply Spec SpecRun.
Import ListNotations.
Local Open Scope string_scope.
Local Open Scope list_scope.
Local Open Scope Z_scope.

(** ** Sorting *)

(** [r] is [l] rearranged so that no item stands after an item it has to come
    before, and items that tie keep their order in [l]: the rearrangement is
    seen on the items numbered by their positions in [l]. *)
Definition stably_sorted {A} (before : A -> A -> Prop) (l r : list A) : Prop :=
  exists ps, Permutation ps (combine (seq 0 (length l)) l)
    /\ StronglySorted (fun a b => before (snd a) (snd b)
                                  \/ ~ before (snd b) (snd a) /\ (fst a < fst b)%nat) ps
    /\ map snd ps = r.

(** Order of the numeric values of items: numbers by size, lists of numbers
    lexicographically. *)
Inductive key_same : key -> key -> Prop :=
| same_num : forall x y, num_compare x y = Some Eq -> key_same (KNum x) (KNum y)
| same_list : forall l l', Forall2 key_same l l' -> key_same (KList l) (KList l').
Inductive key_before : key -> key -> Prop :=
| before_num : forall x y, num_compare x y = Some Lt -> key_before (KNum x) (KNum y)
| before_prefix : forall p p' y l', Forall2 key_same p p' ->
    key_before (KList p) (KList (p' ++ y :: l'))
| before_list : forall p p' x y l l', Forall2 key_same p p' -> key_before x y ->
    key_before (KList (p ++ x :: l)) (KList (p' ++ y :: l')).

Definition number_before (x y : pval) : Prop :=
  key_before (p_to_number x) (p_to_number y).
Definition number_same (x y : pval) : Prop :=
  key_same (p_to_number x) (p_to_number y).

(** [flip] for the operators that sort in descending order. *)
Definition directed {A} (desc : bool) (R : A -> A -> Prop) (x y : A) : Prop :=
  if desc then R y x else R x y.

Definition scalar (v : pval) : Prop := match v with PScal _ => True | _ => False end.

(** ** Positions *)

(** [r] is the list of the items of [l] at the positions [ps]. *)
Definition items_at {A} (l : list A) (ps : list nat) (r : list A) : Prop :=
  Forall2 (fun i x => nth_error l i = Some x) ps r.

(** [r] keeps exactly the first occurrence of each item of [l], in order. *)
Definition first_occurrences {A} (l r : list A) : Prop :=
  exists ps, StronglySorted lt ps
    /\ (forall i, In i ps <-> exists x, least (fun j => nth_error l j = Some x) i)
    /\ items_at l ps r.

(** [r] is [l] without the items equal to [x]. *)
Inductive without {A} (x : A) : list A -> list A -> Prop :=
| without_nil : without x [] []
| without_drop : forall l r, without x l r -> without x (x :: l) r
| without_keep : forall y l r, y <> x -> without x l r -> without x (y :: l) (y :: r).

(** Lists of positions in dictionary order. *)
Inductive pos_lt : list nat -> list nat -> Prop :=
| pos_here : forall i j p q, (i < j)%nat -> length p = length q -> pos_lt (i :: p) (j :: q)
| pos_later : forall i p q, pos_lt p q -> pos_lt (i :: p) (i :: q).

(** [r] holds, for every choice of positions allowed by [ok], in dictionary
    order, the items of [l] at these positions. *)
Definition selections {A} (ok : list nat -> Prop) (l : list A) (r : list (list A)) : Prop :=
  exists pss, StronglySorted pos_lt pss /\ (forall ps, In ps pss <-> ok ps)
    /\ Forall2 (items_at l) pss r.

(** ** Leaves of nested Lists *)

Inductive leaves : pval -> list pval -> Prop :=
| leaves_list : forall l ls, Forall2 leaves l ls -> leaves (PList l) (concat ls)
| leaves_range : forall lo u l, elems (PRange lo (Some u)) l -> leaves (PRange lo (Some u)) l
| leaves_atom : forall v, match v with PList _ | PRange _ _ => False | _ => True end ->
    leaves v [v].

(** ** Cutting *)

(** The positions where one piece ends and the next begins. *)
Fixpoint cuts_from {A} (start : nat) (ps : list (list A)) : list nat :=
  match ps with
  | [] | [_] => []
  | p :: ps' => (start + length p)%nat :: cuts_from (start + length p) ps'
  end.

(** Value [v] holds the [i]-th item [x] (also for infinite Ranges). *)
Definition item_of (v : pval) (i : nat) (x : pval) : Prop :=
  match v with
  | PRange lo None => x = scal_Z (range_start lo + Z.of_nat i)
  | _ => exists l, elems v l /\ nth_error l i = Some x
  end.

Definition not_range (v : pval) : Prop :=
  match v with PRange _ _ => False | _ => True end.

(** No infinite Range anywhere inside. *)
Fixpoint bounded (v : pval) : bool :=
  match v with
  | PList l => forallb bounded l
  | PRange _ None => false
  | _ => true
  end.

(** [r] is [s] without its longest prefix (if [left]) and then its longest
    suffix (if [right]) of characters satisfying [P]. *)
Definition stripped (left right : bool) (P : char -> Prop) (s r : str) : Prop :=
  exists a b, s = a ++ r ++ b
    /\ Forall P a /\ Forall P b
    /\ (if left then forall c r', r = c :: r' -> ~ P c else a = [])
    /\ (if right then forall r' c, r = r' ++ [c] -> ~ P c else b = []).

(** The sequences: Scalars, Lists and Ranges. *)
Definition sequence (v : pval) : Prop :=
  match v with PScal _ | PList _ | PRange _ _ => True | _ => False end.

(** [r] takes from the [k]-th list of [ls] the item at the [k]-th position of
    [ix]. *)
Inductive choice {A} : list (list A) -> list nat -> list A -> Prop :=
| choice_nil : choice [] [] []
| choice_cons : forall l ls i ix x r,
    nth_error l i = Some x -> choice ls ix r -> choice (l :: ls) (i :: ix) (x :: r).

(** Binomial coefficients by Pascal's rule. *)
Fixpoint binomial (n k : nat) : nat :=
  match k, n with
  | O, _ => 1
  | S _, O => 0
  | S k', S n' => binomial n' k' + binomial n' k
  end%nat.
