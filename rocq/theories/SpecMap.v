(** * Specification vocabulary about operators that call a function *)

From Coq Require Import String List NArith ZArith Bool.
From Verif Require Import PyStr PyNum Tokens OpFun OpTable Unparse PTypes Ops Apply Spec Heap Exec SpecHeap
                          SpecVars.
Import ListNotations.
Local Open Scope string_scope.
Local Open Scope list_scope.
Local Open Scope Z_scope.

(** ** Calls *)

Definition is_function (f : hval) : Prop := exists sts ret, f = HBlock sts ret.

(** Calling [f] with the objects [args] in state [s] returns the object [v] and
    ends in state [s'] (what a call does is C63). *)
Definition calls (s : state) (f : hval) (args : list hval) (v : hval) (s' : state) : Prop :=
  exists n, i_call (run n) f args s = Ok v s'.

(** One call for each list of arguments, in this order. *)
Inductive calls_each (f : hval) : list (list hval) -> state -> list hval -> state -> Prop :=
| calls_none s : calls_each f [] s [] s
| calls_next args v s s1 rest vs s2 :
    calls s f args v s1 -> calls_each f rest s1 vs s2 ->
    calls_each f (args :: rest) s (v :: vs) s2.

(** [f] computes [F] and has no effect, from state [s0] on: whenever only
    objects and warnings were added since then, a call with arguments of values
    [ps] returns an object of value [p] if [F ps p], and only adds. *)
Definition computes (s0 : state) (f : hval) (F : list pval -> pval -> Prop) : Prop :=
  forall s args ps p,
    only_adds s0 s -> dens (st_heap s) args ps -> F ps p ->
    exists v s', calls s f args v s' /\ only_adds s s' /\ den (st_heap s') v p.

(** ** Operands *)

(** The operands [e1] and [e2] evaluate to the function [f] and the object
    [it], in either order. *)
Definition applied (s : state) (e1 e2 : tree hval) (f it : hval) (s1 : state) : Prop :=
  is_function f /\
  (operands s [e1; e2] [f; it] s1 \/ operands s [e1; e2] [it; f] s1).

(** Going through [it], whose items have the values [l], visits the objects
    [vs]: the items themselves if [it] is a List, otherwise new objects. *)
Definition visits (s : state) (it : hval) (l : list pval) (vs : list hval) (s' : state) : Prop :=
  only_adds s s' /\ dens (st_heap s') vs l
  /\ forall loc objs, it = HList loc -> nth_error (st_heap s) loc = Some (OL objs) ->
       vs = objs.

(** A new List of the objects [vs] or a new Scalar is made, nothing else
    changes. *)
Definition makes_list (vs : list hval) (s : state) (v : hval) (s' : state) : Prop :=
  v = HList (length (st_heap s)) /\ s' = set_heap (st_heap s ++ [OL vs]) s.
Definition makes_scalar (t : str) (s : state) (v : hval) (s' : state) : Prop :=
  v = HScal (length (st_heap s)) /\ s' = set_heap (st_heap s ++ [OS t]) s.

(** The value of [e] is [p] and evaluating it only adds to [s1]. *)
Definition results (s s1 : state) (e : tree hval) (p : pval) : Prop :=
  exists v s', gives s e v s' /\ only_adds s1 s' /\ den (st_heap s') v p.

(** ** Values *)

Definition whole (z : Z) : pval := PScal (str_of_Z z).
(** The values with their positions, counted from [i]. *)
Fixpoint numbered (i : nat) (l : list pval) : list (nat * pval) :=
  match l with [] => [] | x :: l' => (i, x) :: numbered (S i) l' end.
(** Each value with the next one. *)
Fixpoint adjacent {A} (l : list A) : list (A * A) :=
  match l with
  | x :: (y :: _) as l' => (x, y) :: adjacent l'
  | _ => []
  end.
Definition couple {A} (p : A * A) : list A := [fst p; snd p].

(** What the right operand of MC says about the number of rows and columns;
    indices wrap around. *)
Inductive dimensions : pval -> Z -> Z -> Prop :=
| dimensions_square n : dimensions (whole n) n n
| dimensions_sides r c l : dimensions (PList (whole r :: whole c :: l)) r c
| dimensions_side n : dimensions (PList [whole n]) n n.

(** Adding the values one after the other to [p] with [+]. *)
Inductive adds_up (fmt : ofmt) : pval -> list pval -> pval -> Prop :=
| adds_none p : adds_up fmt p [] p
| adds_next p x q l r :
    snd (run_op fmt "+" [p; x]) = Val q -> adds_up fmt q l r -> adds_up fmt p (x :: l) r.

(** ** Filtering *)

(** How the function is called for item number [i]: with the item, or with its
    number and the item; what is kept: the item or its number. *)
Inductive with_item : nat -> hval -> state -> list hval -> state -> Prop :=
| with_item_intro i v s : with_item i v s [v] s.
Inductive with_number : nat -> hval -> state -> list hval -> state -> Prop :=
| with_number_intro i v s n s' :
    makes_scalar (str_of_Z (Z.of_nat i)) s n s' -> with_number i v s [n; v] s'.
Inductive the_item : nat -> hval -> state -> hval -> state -> Prop :=
| the_item_intro i v s : the_item i v s v s.
Inductive the_number : nat -> hval -> state -> hval -> state -> Prop :=
| the_number_intro i v s n s' :
    makes_scalar (str_of_Z (Z.of_nat i)) s n s' -> the_number i v s n s'.

(** Calling [f] for the items [vs] from number [i] on keeps [rs]: those for
    which the result counts as [sense] at the end of the call. *)
Inductive keeps (args : nat -> hval -> state -> list hval -> state -> Prop)
                (kept : nat -> hval -> state -> hval -> state -> Prop)
                (sense : bool) (f : hval)
  : nat -> list hval -> state -> list hval -> state -> Prop :=
| keeps_none i s : keeps args kept sense f i [] s [] s
| keeps_item i v vs s l s1 w s2 r s3 rs s4 :
    args i v s l s1 -> calls s1 f l w s2 -> object_counts (st_heap s2) w sense ->
    kept i v s2 r s3 -> keeps args kept sense f (S i) vs s3 rs s4 ->
    keeps args kept sense f i (v :: vs) s (r :: rs) s4
| keeps_not i v vs s l s1 w s2 rs s4 :
    args i v s l s1 -> calls s1 f l w s2 -> object_counts (st_heap s2) w (negb sense) ->
    keeps args kept sense f (S i) vs s2 rs s4 ->
    keeps args kept sense f i (v :: vs) s rs s4.

(** The values for which [F] says [sense]. *)
Inductive selected {A} (F : A -> pval -> Prop) (sense : bool) : list A -> list A -> Prop :=
| selected_none : selected F sense [] []
| selected_one x y l r :
    F x y -> counts y sense -> selected F sense l r -> selected F sense (x :: l) (x :: r)
| selected_not x y l r :
    F x y -> counts y (negb sense) -> selected F sense l r -> selected F sense (x :: l) r.

(** ** Sorting *)

(** A value that can be a key. *)
Definition sort_key (p : pval) : Prop :=
  match p with PScal _ | PList _ | PRange _ (Some _) => True | _ => False end.
(** The calls for the items [vs] return keys of the values [ks]. *)
Inductive keyed_by (f : hval) : list hval -> state -> list pval -> state -> Prop :=
| keyed_none s : keyed_by f [] s [] s
| keyed_next v k p s s1 vs ks s2 :
    calls s f [v] k s1 -> den (st_heap s1) k p -> sort_key p -> keyed_by f vs s1 ks s2 ->
    keyed_by f (v :: vs) s (p :: ks) s2.
