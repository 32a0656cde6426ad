(** * Specification vocabulary for value semantics (C43)

    A program of assignments [x:e] and [x@i...:e] is given a meaning on a
    _valuation_ that maps names to values, without objects; the theorems compare
    the objects of the interpreter with it. *)

From Coq Require Import String List NArith ZArith Bool.
From Verif Require Import PyStr PyNum Tokens OpFun OpTable Unparse PTypes Ops Apply Spec Heap Exec
                          SpecHeap SpecScan SpecVars.
Import ListNotations.
Local Open Scope string_scope.
Local Open Scope list_scope.
Local Open Scope Z_scope.

(** ** Items *)

(** The item an integer means: [0] the first, [-1] the last, and so on around
    the sequence. *)
Definition position {A} (l : list A) (z : Z) : nat := Z.to_nat (z mod Z.of_nat (length l)).

(** The integer a value means as an index: that of its leading numeral. *)
Inductive index_value : pval -> Z -> Prop :=
| index_numeral neg ds t :
    decimal ds -> match t with [] => True | c :: _ => is_digit c = false end ->
    index_value (PScal (numeral neg ds ++ t)) (numeral_value neg ds).

(** [item_at p zs q]: following the indices [zs] from [p] one gets to [q]; nil
    where there is nothing to index. *)
Inductive item_at : pval -> list Z -> pval -> Prop :=
| item_self p : item_at p [] p
| item_in p l z r zs q :
    elems p l -> nth_error l (position l z) = Some r -> item_at r zs q ->
    item_at p (z :: zs) q
| item_empty p z zs : elems p [] -> item_at p (z :: zs) PNil
| item_nil z zs : item_at PNil (z :: zs) PNil.

(** [updated fmt p zs q p']: [p] with the item at [zs] replaced by [q] is
    [p'].  In a Scalar a character is replaced by the text of [q].  Where there
    are no items nothing changes.  An item of a Scalar is a Scalar of its own:
    changing a part of it does not change the Scalar it was taken from. *)
Inductive updated (fmt : ofmt) : pval -> list Z -> pval -> pval -> Prop :=
| updated_item l1 a l2 z q :
    position (l1 ++ a :: l2) z = length l1 ->
    updated fmt (PList (l1 ++ a :: l2)) [z] q (PList (l1 ++ q :: l2))
| updated_char s1 c s2 z q :
    position (s1 ++ c :: s2) z = length s1 ->
    updated fmt (PScal (s1 ++ c :: s2)) [z] q (PScal (s1 ++ p_str fmt q ++ s2))
| updated_no_item z q : updated fmt (PList []) [z] q (PList [])
| updated_no_char z q : updated fmt (PScal []) [z] q (PScal [])
| updated_inside l1 a l2 z zs q a' :
    position (l1 ++ a :: l2) z = length l1 -> zs <> [] -> updated fmt a zs q a' ->
    updated fmt (PList (l1 ++ a :: l2)) (z :: zs) q (PList (l1 ++ a' :: l2))
| updated_apart s z zs q :
    s <> [] -> zs <> [] -> updated fmt (PScal s) (z :: zs) q (PScal s).

(** Assigning to an item of a Range makes the variable a List first. *)
Inductive as_list : pval -> pval -> Prop :=
| as_list_range lo u l :
    elems (PRange lo (Some u)) l -> as_list (PRange lo (Some u)) (PList l)
| as_list_list l : as_list (PList l) (PList l)
| as_list_scal t : as_list (PScal t) (PScal t).

(** ** The meaning of assignments on valuations *)

Definition valuation := str -> option pval.
Definition update (rho : valuation) (x : str) (p : pval) : valuation :=
  fun y => if str_eqb y x then Some p else rho y.

(** [x@i@j...] *)
Fixpoint path (e : tree hval) (is : list (tree hval)) : tree hval :=
  match is with
  | [] => e
  | i :: is' => path (app "@" [e; i]) is'
  end.

(** The value of an expression made from literals, variables, items of
    variables, operators without side effects and list displays. *)
Inductive value_in (fmt : ofmt) (rho : valuation) : tree hval -> pval -> Prop :=
| value_literal k p :
    is_literal (t_kind k) = true -> t_kind k <> KName -> of_token k = Val p ->
    value_in fmt rho (TTok k) p
| value_item x is ps zs p q :
    rho x = Some p -> Forall2 (value_in fmt rho) is ps -> Forall2 index_value ps zs ->
    item_at p zs q -> value_in fmt rho (path (name x) is) q
| value_app text es ps p :
    value_operator text (length es) -> Forall2 (value_in fmt rho) es ps ->
    snd (run_op fmt text ps) = Val p -> value_in fmt rho (app text es) p
| value_parens e p : value_in fmt rho e p -> value_in fmt rho (TApp op_paren [e]) p
| value_display es ps :
    Forall2 (value_in fmt rho) es ps -> value_in fmt rho (display es) (PList ps).

(** [x:e] if [is] is empty, else [x@i...:e]. *)
Record assignment : Type := Put { put_var : str; put_path : list (tree hval); put_value : tree hval }.
Definition expression (a : assignment) : tree hval :=
  app ":" [path (name (put_var a)) (put_path a); put_value a].

Inductive effect (fmt : ofmt) (rho : valuation) : assignment -> valuation -> Prop :=
| effect_var x e p :
    value_in fmt rho e p -> plain p = true ->
    effect fmt rho (Put x [] e) (update rho x p)
| effect_item x is ps zs e p p1 q p' :
    rho x = Some p -> is <> [] ->
    Forall2 (value_in fmt rho) is ps -> Forall2 index_value ps zs ->
    value_in fmt rho e q -> plain q = true ->
    as_list p p1 -> updated fmt p1 zs q p' ->
    effect fmt rho (Put x is e) (update rho x p').

Inductive effects (fmt : ofmt) : valuation -> list assignment -> valuation -> Prop :=
| effects_nil rho : effects fmt rho [] rho
| effects_cons rho a rho1 l rho' :
    effect fmt rho a rho1 -> effects fmt rho1 l rho' -> effects fmt rho (a :: l) rho'.

(** Evaluating the assignments one after the other. *)
Inductive performs : state -> list assignment -> state -> Prop :=
| performs_nil s : performs s [] s
| performs_cons s a v s1 l s' :
    gives s (expression a) v s1 -> performs s1 l s' -> performs s (a :: l) s'.

(** ** Where the interpreter keeps objects *)

Inductive place : Type :=
| PGlobal (x : str)
| PLocal (k : nat) (x : str)       (* variable of the k-th call from the top *)
| PFunction (k : nat)              (* the function called there *)
| PArg (i : nat)                   (* the arguments of the program *)
| PMain                            (* the program, with its literals *)
| PConst (l : loc).                (* SCALAR_EMPTY, SCALAR_ONE, SCALAR_TWO *)

Inductive at_place (s : state) : place -> hval -> Prop :=
| at_global x v : lookup (st_vars s) x = Some v -> at_place s (PGlobal x) v
| at_local k sc x v :
    nth_error (st_scopes s) k = Some sc -> lookup (sc_vars sc) x = Some v ->
    at_place s (PLocal k x) v
| at_function k sc v :
    nth_error (st_scopes s) k = Some sc -> sc_fun sc = Some v -> at_place s (PFunction k) v
| at_arg i v : nth_error (st_args s) i = Some v -> at_place s (PArg i) v
| at_main v : st_main s = Some v -> at_place s PMain v
| at_const l : In l [loc_empty; loc_one; loc_two] -> at_place s (PConst l) (HScal l).

(** The place of a variable. *)
Inductive place_of (x : str) : place -> Prop :=
| place_local : is_local x -> place_of x (PLocal 0 x)
| place_global : ~ is_local x -> place_of x (PGlobal x).

(** [owns h v fp]: the cells of [h] that make up the object [v] are [fp], each
    as often as it occurs. *)
Inductive owns (h : heap) : hval -> list loc -> Prop :=
| owns_scal l t : nth_error h l = Some (OS t) -> owns h (HScal l) [l]
| owns_list l items fp :
    nth_error h l = Some (OL items) -> owns_all h items fp -> owns h (HList l) (l :: fp)
| owns_pat r fl : owns h (HPat r fl) []
| owns_range lo hi : owns h (HRange lo hi) []
| owns_block sts r : owns h (HBlock sts r) []
| owns_nil : owns h HNil []
with owns_all (h : heap) : list hval -> list loc -> Prop :=
| owns_none : owns_all h [] []
| owns_more v f vs g : owns h v f -> owns_all h vs g -> owns_all h (v :: vs) (f ++ g).

(** The object at a place shares no cell with itself or with the object at any
    other place. *)
Definition isolated (s : state) (pl : place) : Prop :=
  exists v fp, at_place s pl v /\ owns (st_heap s) v fp /\ NoDup fp /\
    forall pl' w l, pl' <> pl -> at_place s pl' w -> reach (st_heap s) w l -> ~ In l fp.

(** There are no dangling references. *)
Definition sound (s : state) : Prop :=
  forall pl w l, at_place s pl w -> reach (st_heap s) w l -> (l < length (st_heap s))%nat.

(** The variables in [rho] have these values, and none of them shares objects
    with anything else. *)
Definition agrees (s : state) (rho : valuation) : Prop :=
  forall x p, rho x = Some p ->
    ordinary s x /\ var s x p /\ plain p = true /\ (forall pl, place_of x pl -> isolated s pl).

(** Everything that is kept anywhere but in the variables [xs] keeps its
    value. *)
Definition keeps (xs : list str) (s s' : state) : Prop :=
  (forall y q, ~ In y xs -> var s y q -> var s' y q) /\
  (forall pl w q, (forall x, In x xs -> ~ place_of x pl) ->
     at_place s pl w -> den (st_heap s) w q ->
     at_place s' pl w /\ den (st_heap s') w q).

(** The variables of a new interpreter that hold no Blocks. *)
Definition start_table : list (string * pval) :=
  [("h", PScal (s_ "100")); ("i", PScal (s_ "0")); ("k", PScal (s_ ", ")); ("l", PList []);
   ("m", PScal (s_ "1000")); ("n", PScal [10%N]); ("o", PScal (s_ "1")); ("p", PScal (s_ "()"));
   ("s", PScal (s_ " ")); ("t", PScal (s_ "10")); ("u", PNil); ("v", PScal (s_ "-1"));
   ("x", PScal []); ("y", PScal []); ("z", PScal (s_ "abcdefghijklmnopqrstuvwxyz"));
   ("AZ", PScal (s_ "ABCDEFGHIJKLMNOPQRSTUVWXYZ")); ("CZ", PScal (s_ "bcdfghjklmnpqrstvwxyz"));
   ("VN", PScal (s_ "1.2.0")); ("VW", PScal (s_ "aeiou")); ("VY", PScal (s_ "aeiouy"))].
Definition start_values : valuation :=
  fun x => option_map snd (find (fun e => str_eqb x (s_ (fst e))) start_table).
