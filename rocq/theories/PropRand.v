(** * Property C86: random numbers *)

From Coq Require Import String List NArith ZArith Bool Arith Lia Permutation.
From Verif Require Import PyStr PyNum Tokens OpFun OpTable Unparse PTypes Ops Apply Spec Heap Exec
                          SpecHeap SpecExec SpecScan SpecVars SpecAlias SpecRand PropExec.
From Verif Require RandProof.
Import ListNotations.
Local Open Scope string_scope.
Local Open Scope list_scope.
Local Open Scope Z_scope.

(** In all these theorems the operands are any expressions and the generator
    in the state is any generator.  Nothing changes except the generator. *)

(** ** RR *)

(** a RR b is an integer from a up to but excluding b. *)
Theorem C86_range : forall s e1 e2 v1 v2 s1 p1 p2 a b,
  operands s [e1; e2] [v1; v2] s1 ->
  den (st_heap s1) v1 p1 -> den (st_heap s1) v2 p2 -> index_value p1 a -> index_value p2 b ->
  a < b ->
  exists k v s', gives s (app "RR" [e1; e2]) v s' /\ den (st_heap s') v (scal_Z k)
    /\ a <= k < b /\ only_draws s1 s'.
Proof. exact RandProof.range_ok. Qed.
Print Assumptions C86_range.

(** Each of these numbers is possible. *)
Theorem C86_range_all : forall s v1 v2 p1 p2 a b k,
  den (st_heap s) v1 p1 -> den (st_heap s) v2 p2 -> index_value p1 a -> index_value p2 b ->
  a <= k < b ->
  exists g v s', gives (set_rand g s) (app "RR" [TVal v1; TVal v2]) v s'
    /\ den (st_heap s') v (scal_Z k).
Proof. exact RandProof.range_reach. Qed.
Print Assumptions C86_range_all.

(** Without a number to choose from the program ends with a Python
    exception. *)
Theorem C86_range_empty : forall s e1 e2 v1 v2 s1 p1 p2 a b,
  operands s [e1; e2] [v1; v2] s1 ->
  den (st_heap s1) v1 p1 -> den (st_heap s1) v2 p2 -> index_value p1 a -> index_value p2 b ->
  b <= a -> fails s (app "RR" [e1; e2]) (EPy ValueError) s1.
Proof. exact RandProof.range_empty. Qed.
Print Assumptions C86_range_empty.

(** RR b is an integer from 0 up to but excluding b. *)
Theorem C86_below : forall s e v s1 p b,
  operands s [e] [v] s1 -> den (st_heap s1) v p -> index_value p b -> 0 < b ->
  exists k w s', gives s (app "RR" [e]) w s' /\ den (st_heap s') w (scal_Z k)
    /\ 0 <= k < b /\ only_draws s1 s'.
Proof. exact RandProof.below_ok. Qed.
Print Assumptions C86_below.
Theorem C86_below_all : forall s v p b k,
  den (st_heap s) v p -> index_value p b -> 0 <= k < b ->
  exists g w s', gives (set_rand g s) (app "RR" [TVal v]) w s' /\ den (st_heap s') w (scal_Z k).
Proof. exact RandProof.below_reach. Qed.
Print Assumptions C86_below_all.
Theorem C86_below_empty : forall s e v s1 p b,
  operands s [e] [v] s1 -> den (st_heap s1) v p -> index_value p b -> b <= 0 ->
  fails s (app "RR" [e]) (EPy ValueError) s1.
Proof. exact RandProof.below_empty. Qed.
Print Assumptions C86_below_empty.

(** On a List of bounds RR gives a List of numbers, each below its bound. *)
Theorem C86_below_each : forall s e l s1 ps bs,
  operands s [e] [HList l] s1 -> den (st_heap s1) (HList l) (PList ps) ->
  Forall2 index_value ps bs -> Forall (fun b => 0 < b) bs ->
  exists ks v s', gives s (app "RR" [e]) v s' /\ den (st_heap s') v (PList (map scal_Z ks))
    /\ Forall2 (fun k b => 0 <= k < b) ks bs /\ only_draws s1 s'.
Proof. exact RandProof.each_below. Qed.
Print Assumptions C86_below_each.

(** ** RC *)

Theorem C86_choice : forall s e v s1 p ps,
  operands s [e] [v] s1 -> den (st_heap s1) v p -> elems p ps -> ps <> [] ->
  exists q w s', gives s (app "RC" [e]) w s' /\ den (st_heap s') w q /\ In q ps /\ only_draws s1 s'.
Proof. exact RandProof.choice_ok. Qed.
Print Assumptions C86_choice.
Theorem C86_choice_all : forall s v p ps i q,
  den (st_heap s) v p -> elems p ps -> nth_error ps i = Some q ->
  exists g w s', gives (set_rand g s) (app "RC" [TVal v]) w s' /\ den (st_heap s') w q.
Proof. exact RandProof.choice_reach. Qed.
Print Assumptions C86_choice_all.
Theorem C86_choice_empty : forall s e v s1 p,
  operands s [e] [v] s1 -> den (st_heap s1) v p -> elems p [] ->
  fails s (app "RC" [e]) (EPy ValueError) s1.
Proof. exact RandProof.choice_empty. Qed.
Print Assumptions C86_choice_empty.

(** From a List one gets the item itself, not a copy. *)
Theorem C86_choice_object : forall s e l items s1 w s',
  operands s [e] [HList l] s1 -> nth_error (st_heap s1) l = Some (OL items) ->
  gives s (app "RC" [e]) w s' -> In w items.
Proof. exact RandProof.choice_object. Qed.
Print Assumptions C86_choice_object.

(** ** SH *)

(** The same items in some order: a text for a Scalar, else a List. *)
Theorem C86_shuffle : forall s e v s1 p ps,
  operands s [e] [v] s1 -> den (st_heap s1) v p -> elems p ps ->
  exists qs r w s', gives s (app "SH" [e]) w s' /\ den (st_heap s') w r
    /\ Permutation ps qs /\ reordered p qs r /\ only_draws s1 s'.
Proof. exact RandProof.shuffle_ok. Qed.
Print Assumptions C86_shuffle.

(** Every order is possible. *)
Theorem C86_shuffle_all : forall s v p ps qs,
  den (st_heap s) v p -> elems p ps -> Permutation ps qs ->
  exists g r w s', gives (set_rand g s) (app "SH" [TVal v]) w s' /\ den (st_heap s') w r
    /\ reordered p qs r.
Proof. exact RandProof.shuffle_all. Qed.
Print Assumptions C86_shuffle_all.

(** A shuffled List is a new List with the same objects; the operand keeps its
    order. *)
Theorem C86_shuffle_objects : forall s e l items s1,
  operands s [e] [HList l] s1 -> nth_error (st_heap s1) l = Some (OL items) ->
  exists l' items' s', gives s (app "SH" [e]) (HList l') s'
    /\ nth_error (st_heap s1) l' = None /\ nth_error (st_heap s') l' = Some (OL items')
    /\ Permutation items items' /\ nth_error (st_heap s') l = Some (OL items).
Proof. exact RandProof.shuffle_objects. Qed.
Print Assumptions C86_shuffle_objects.

(** ** The variable r *)

(** Each occurrence of r is a multiple of 2^-53 from 0 up to but excluding 1;
    each of them is possible. *)
Theorem C86_variable : forall s,
  exists k f v s', gives s (name (s_ "r")) v s' /\ den (st_heap s') v (scal_num (NF f))
    /\ is_fraction53 f k /\ 0 <= k < 2 ^ 53 /\ only_draws s s'.
Proof. exact RandProof.read_r_ok. Qed.
Print Assumptions C86_variable.
Theorem C86_variable_all : forall s k,
  0 <= k < 2 ^ 53 ->
  exists g f v s', gives (set_rand g s) (name (s_ "r")) v s'
    /\ den (st_heap s') v (scal_num (NF f)) /\ is_fraction53 f k.
Proof. exact RandProof.read_r_reach. Qed.
Print Assumptions C86_variable_all.

(** The statement r:e seeds the generator with the text of e.  Its value is
    the next random number, not e. *)
Theorem C86_seed : forall s e p,
  means s e p ->
  exists v s' w s'' q,
    executes s (app ":" [name (s_ "r"); e]) (Some v) s' /\ only_draws s s'
    /\ gives (set_rand (seeded (st_rand s) (p_str (st_fmt s) p)) s) (name (s_ "r")) w s''
    /\ den (st_heap s') v q /\ den (st_heap s'') w q /\ st_rand s' = st_rand s''.
Proof. exact RandProof.seed_ok. Qed.
Print Assumptions C86_seed.

(** What was drawn before does not matter afterwards, and only the text of the
    seed does. *)
Theorem C86_seed_forgets : forall s1 s2 e1 e2 p1 p2,
  same_but_draws s1 s2 -> means s1 e1 p1 -> means s2 e2 p2 ->
  p_str (st_fmt s1) p1 = p_str (st_fmt s2) p2 ->
  exists v1 s1' v2 s2' q,
    executes s1 (app ":" [name (s_ "r"); e1]) (Some v1) s1'
    /\ executes s2 (app ":" [name (s_ "r"); e2]) (Some v2) s2'
    /\ st_rand s1' = st_rand s2' /\ den (st_heap s1') v1 q /\ den (st_heap s2') v2 q.
Proof. exact RandProof.seed_forgets. Qed.
Print Assumptions C86_seed_forgets.

(** With a literal as seed the states are the same, hence all that follows. *)
Theorem C86_seed_literal : forall s1 s2 k p,
  same_but_draws s1 s2 -> is_literal (t_kind k) = true -> t_kind k <> KName -> of_token k = Val p ->
  exists v s', executes s1 (app ":" [name (s_ "r"); TTok k]) (Some v) s'
    /\ executes s2 (app ":" [name (s_ "r"); TTok k]) (Some v) s'.
Proof. exact RandProof.seed_same. Qed.
Print Assumptions C86_seed_literal.

(** ** Examples *)

(** A generator whose answers grow with the number of requests; seeding makes
    it start from the length of the seed. *)
Definition C86_world (k : Z) : world :=
  mkworld [] (mkrng (fun l => k + Z.of_nat (length l))
                    (fun t l => Z.of_nat (length t) * 2 ^ 51 + Z.of_nat (length l))).
Definition C86_out (k : Z) (text : string) : option str :=
  match run_text 60 FmtNone false (C86_world k) (s_ text) [] with
  | Ok _ s => Some (st_out s)
  | _ => None
  end.
Example C86_ex_range :
  C86_out 4 "[RR 3;5RR9;RR[10 20];RR(2,5)]J'," = Some (s_ "2,7,7,8,1,1,3" ++ [10%N])
  /\ C86_out 4 "5RR5" = None.
Proof. split; vm_compute; reflexivity. Qed.
Example C86_ex_choice :
  C86_out 0 "(RC""abc"").(RC[7 8])" = Some (s_ "b7" ++ [10%N])
  /\ C86_out 1 "(RC""abc"").(RC[7 8])" = Some (s_ "c8" ++ [10%N]).
Proof. split; vm_compute; reflexivity. Qed.
Example C86_ex_shuffle :
  C86_out 0 "SH""abcd""" = Some (s_ "adcb" ++ [10%N])
  /\ C86_out 2 "x:[1 2 3]y:SHx x@0:9[x y]J',"  = Some (s_ "9,2,3,2,3,1" ++ [10%N]).
Proof. split; vm_compute; reflexivity. Qed.
Example C86_ex_seed :
  C86_out 5 "r:12 r" = Some (s_ "0.5000000000000002" ++ [10%N])
  /\ C86_out 6 "r:12 r" = Some (s_ "0.5000000000000002" ++ [10%N])
  /\ C86_out (2 ^ 51) "r" = Some (s_ "0.2500000000000001" ++ [10%N]).
Proof. repeat split; vm_compute; reflexivity. Qed.
