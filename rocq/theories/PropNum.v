(** * Properties C06-C15, C55, C56: numbers, comparison, truth *)

From Coq Require Import String List NArith ZArith Bool Arith.
From Verif Require Import PyStr PyNum PTypes Ops Apply Spec SpecRun.
From Verif Require NumProof NumProof2 HalveProof.
Import ListNotations.
Local Open Scope string_scope.
Local Open Scope list_scope.
Local Open Scope Z_scope.

(** ** C06: integer arithmetic is exact *)

Theorem C06_add : forall fmt na a nb b, decimal a -> decimal b ->
  run_op fmt "+" [PScal (numeral na a); PScal (numeral nb b)]
  = ret (scal_Z (numeral_value na a + numeral_value nb b)).
Proof. exact NumProof.plus_numeral. Qed.
Print Assumptions C06_add.

Theorem C06_sub : forall fmt na a nb b, decimal a -> decimal b ->
  run_op fmt "-" [PScal (numeral na a); PScal (numeral nb b)]
  = ret (scal_Z (numeral_value na a - numeral_value nb b)).
Proof. exact NumProof.minus_numeral. Qed.
Print Assumptions C06_sub.

Theorem C06_mul : forall fmt na a nb b, decimal a -> decimal b ->
  run_op fmt "*" [PScal (numeral na a); PScal (numeral nb b)]
  = ret (scal_Z (numeral_value na a * numeral_value nb b)).
Proof. exact NumProof.times_numeral. Qed.
Print Assumptions C06_mul.

(** Results are written as canonical numerals. *)
Theorem C06_text : forall z, exists ds, scal_Z z = PScal (numeral (z <? 0) ds)
  /\ decimal ds /\ numeral_value (z <? 0) ds = z
  /\ (hd 1%N ds = 0%N -> ds = [0%N]).
Proof.
  intro z. destruct (NumProof.str_of_Z_numeral z) as (ds & H & E & V & Hd).
  exists ds. unfold scal_Z. rewrite E. auto.
Qed.
Print Assumptions C06_text.

Theorem C06_round_trip : forall fmt na a, decimal a ->
  run_op fmt "+" [PScal (numeral na a)] = ret (scal_Z (numeral_value na a))
  /\ run_op fmt "-" [PScal (numeral na a)] = ret (scal_Z (- numeral_value na a)).
Proof. exact NumProof.round_trip. Qed.
Print Assumptions C06_round_trip.

Example C06_ex :
  numeral true [0; 4; 2]%N = s_ "-042"
  /\ numeral_value true [0; 4; 2]%N = -42
  /\ run_op FmtNone "*" [PScal (s_ "-042"); PScal (s_ "99999999999999999999")]
     = ret (PScal (s_ "-4199999999999999999958")).
Proof. repeat split; vm_compute; reflexivity. Qed.

(** ** C07: floor division *)

Theorem C07_divmod : forall fmt a b, b <> 0 ->
  exists q r, run_op fmt "//" [scal_Z a; scal_Z b] = ret (scal_Z q)
    /\ run_op fmt "%" [scal_Z a; scal_Z b] = ret (scal_Z r)
    /\ a = q * b + r
    /\ (0 < b -> 0 <= r < b) /\ (b < 0 -> b < r <= 0).
Proof. exact NumProof.int_divmod. Qed.
Print Assumptions C07_divmod.

Theorem C07_zero : forall fmt a,
  (exists w, run_op fmt "//" [scal_Z a; scal_Z 0] = ([w], Val PNil))
  /\ (exists w, run_op fmt "%" [scal_Z a; scal_Z 0] = ([w], Val PNil)).
Proof. exact NumProof.int_div_zero. Qed.
Print Assumptions C07_zero.

Example C07_ex :
  run_op FmtNone "//" [scal_Z (-7); scal_Z 2] = ret (scal_Z (-4))
  /\ run_op FmtNone "%" [scal_Z (-7); scal_Z 2] = ret (scal_Z 1)
  /\ run_op FmtNone "%" [scal_Z 7; scal_Z (-2)] = ret (scal_Z (-1)).
Proof. repeat split; vm_compute; reflexivity. Qed.

(** ** C08: order on Scalars *)

(** One three-way answer accounts for all comparison operators, in both
    orders of the operands. *)
Theorem C08_total : forall fmt s t, exists c,
  compares fmt s t c /\ compares fmt t s (CompOpp c).
Proof. exact NumProof2.compares_exists. Qed.
Print Assumptions C08_total.

Theorem C08_integers : forall fmt na a nb b, decimal a -> decimal b ->
  compares fmt (numeral na a) (numeral nb b)
           (Z.compare (numeral_value na a) (numeral_value nb b)).
Proof. exact NumProof2.compares_integers. Qed.
Print Assumptions C08_integers.

(** Text that does not begin with a number counts as 0. *)
Theorem C08_text_is_zero : forall fmt s t c, not_a_number s ->
  compares fmt (s_ "0") t c -> compares fmt s t c /\ compares fmt t s (CompOpp c).
Proof. exact NumProof2.compares_not_a_number. Qed.
Print Assumptions C08_text_is_zero.

Theorem C08_less_trans : forall fmt s t u,
  holds fmt "<" (PScal s) (PScal t) -> holds fmt "<" (PScal t) (PScal u) ->
  holds fmt "<" (PScal s) (PScal u).
Proof. exact NumProof2.less_trans. Qed.
Print Assumptions C08_less_trans.

Theorem C08_lesseq_trans : forall fmt s t u,
  holds fmt "<=" (PScal s) (PScal t) -> holds fmt "<=" (PScal t) (PScal u) ->
  holds fmt "<=" (PScal s) (PScal u).
Proof. exact NumProof2.lesseq_trans. Qed.
Print Assumptions C08_lesseq_trans.

Example C08_ex :
  holds FmtNone "<" (PScal (s_ "abc")) (PScal (s_ "0.5"))
  /\ holds FmtNone "<" (PScal (s_ "0.5")) (PScal (s_ "12345678901234567890"))
  /\ holds FmtNone "=" (PScal (s_ "1.0")) (PScal (s_ "001")).
Proof. repeat split; vm_compute; reflexivity. Qed.
Example C08_ex_text : not_a_number (s_ "  abc").
Proof.
  exists (s_ "  "), (s_ "abc"). split; [reflexivity|]. split; [reflexivity|].
  repeat split; try discriminate.
Qed.

(** ** C09: comparisons of all values *)

Theorem C09_less_greater : forall fmt x y,
  not_block x = true -> not_block y = true ->
  exists b, run_op fmt "<" [x; y] = ret (truth b)
    /\ run_op fmt ">" [y; x] = ret (truth b).
Proof. exact NumProof2.run_less_greater. Qed.
Print Assumptions C09_less_greater.

Theorem C09_lesseq_greatereq : forall fmt x y,
  not_block x = true -> not_block y = true ->
  exists b, run_op fmt "<=" [x; y] = ret (truth b)
    /\ run_op fmt ">=" [y; x] = ret (truth b).
Proof. exact NumProof2.run_lesseq_greatereq. Qed.
Print Assumptions C09_lesseq_greatereq.

Theorem C09_equal_notequal : forall fmt x y,
  not_block x = true -> not_block y = true ->
  exists b, run_op fmt "=" [x; y] = ret (truth b)
    /\ run_op fmt "!=" [x; y] = ret (truth (negb b)).
Proof. exact NumProof2.run_equal_notequal. Qed.
Print Assumptions C09_equal_notequal.

(** With a Block operand nothing is compared: the result is a new function. *)
Theorem C09_block : forall fmt text x y,
  In text ["<"; ">"; "<="; ">="; "="; "!="] ->
  not_block x = false \/ not_block y = false ->
  exists sts r, run_op fmt text [x; y] = ret (PBlock sts r).
Proof. exact NumProof2.run_compare_block. Qed.
Print Assumptions C09_block.

Example C09_ex :
  let x := PList [scal_Z 0; PList [scal_Z 1; PNil]] in
  let y := PRange None None in
  run_op FmtNone "<" [PList [x; y]; PList [x; PRange (Some 1) None]] = ret (truth true)
  /\ run_op FmtNone "<" [y; PList [scal_Z 0; scal_Z 1]] = ret (truth false)
  /\ run_op FmtNone "!=" [x; y] = ret (truth true).
Proof. repeat split; vm_compute; reflexivity. Qed.

(** ** C10: Ranges *)

(** Full claim: two Ranges with the same integers are [=] and exactly one of
    the three comparisons holds.  It is proved for Ranges that were given both
    a lower bound and at least one element; a missing lower bound breaks it. *)
Theorem C10_equal_partial : forall fmt a hi b hi',
  (forall z, range_elem (Some a) hi z <-> range_elem (Some b) hi' z) ->
  (exists z, range_elem (Some a) hi z) ->
  run_op fmt "=" [PRange (Some a) hi; PRange (Some b) hi'] = ret (truth true).
Proof. exact NumProof2.range_equal_same. Qed.
Print Assumptions C10_equal_partial.

Theorem C10_trichotomy_partial : forall fmt a hi b hi',
  exists c,
    run_op fmt "<" [PRange (Some a) hi; PRange (Some b) hi'] = ret (truth (lt_of c))
    /\ run_op fmt "=" [PRange (Some a) hi; PRange (Some b) hi'] = ret (truth (eq_of c))
    /\ run_op fmt ">" [PRange (Some a) hi; PRange (Some b) hi'] = ret (truth (gt_of c)).
Proof. exact NumProof2.range_trichotomy. Qed.
Print Assumptions C10_trichotomy_partial.

(** [,5] and [0,5] have the same integers and none of [<], [=], [>] holds. *)
Theorem C10_missing_bound_refuted :
  exists r r', run_op FmtNone "," [scal_Z 5] = ret (PRange (fst r) (snd r))
    /\ run_op FmtNone "," [scal_Z 0; scal_Z 5] = ret (PRange (fst r') (snd r'))
    /\ (forall z, range_elem (fst r) (snd r) z <-> range_elem (fst r') (snd r') z)
    /\ Forall (fun text => run_op FmtNone text [PRange (fst r) (snd r);
                                                PRange (fst r') (snd r')]
                           = ret (truth false)) ["<"; "="; ">"].
Proof.
  exists (None, Some 5), (Some 0, Some 5). split; [vm_compute; reflexivity|].
  split; [vm_compute; reflexivity|]. split; [intro z; reflexivity|].
  repeat constructor.
Qed.
Print Assumptions C10_missing_bound_refuted.

(** Two empty Ranges need not be [=]. *)
Theorem C10_empty_refuted :
  (forall z, range_elem (Some 3) (Some 3) z <-> range_elem (Some 5) (Some 5) z)
  /\ run_op FmtNone "=" [PRange (Some 3) (Some 3); PRange (Some 5) (Some 5)]
     = ret (truth false).
Proof.
  split; [|vm_compute; reflexivity].
  intro z. unfold range_elem, range_start. split; intros [H1 H2];
    exfalso; apply (Z.lt_irrefl z); eapply Z.lt_le_trans; eauto.
Qed.
Print Assumptions C10_empty_refuted.

Example C10_ex : range_elem (Some 2) (Some 7) 3 /\ range_elem (Some (-4)) None 99.
Proof. unfold range_elem, range_start. repeat split; discriminate. Qed.

(** ** C11: string comparison *)

Theorem C11_lexicographic : forall fmt s t,
  exists c, run_op fmt "LT" [PScal s; PScal t] = ret (truth (lt_of c))
    /\ run_op fmt "Q" [PScal s; PScal t] = ret (truth (eq_of c))
    /\ run_op fmt "GT" [PScal s; PScal t] = ret (truth (gt_of c))
    /\ run_op fmt "LE" [PScal s; PScal t] = ret (truth (negb (gt_of c)))
    /\ run_op fmt "GE" [PScal s; PScal t] = ret (truth (negb (lt_of c)))
    /\ run_op fmt "NE" [PScal s; PScal t] = ret (truth (negb (eq_of c)))
    /\ (c = Lt <-> lex_lt s t) /\ (c = Eq <-> s = t) /\ (c = Gt <-> lex_lt t s).
Proof. exact NumProof2.string_compares. Qed.
Print Assumptions C11_lexicographic.

Theorem C11_trans : forall s t u, lex_lt s t -> lex_lt t u -> lex_lt s u.
Proof. exact NumProof2.lex_lt_trans. Qed.
Print Assumptions C11_trans.

Example C11_ex : lex_lt (s_ "ab") (s_ "abc") /\ lex_lt (s_ "abc") (s_ "b")
  /\ run_op FmtNone "LT" [PScal (s_ "10"); PScal (s_ "9")] = ret (truth true).
Proof.
  split; [|split; [|vm_compute; reflexivity]].
  - do 2 apply lex_later. constructor.
  - apply lex_here. reflexivity.
Qed.

(** ** C12: truth value of Scalars *)

(** Exact account of the false Scalars.  Full claim: without the last case; a
    single newline after a zero is not seen by the regular expression. *)
Theorem C12_false_partial : forall fmt s,
  exists b, run_op fmt "!" [PScal s] = ret (truth (negb b))
    /\ (b = false <-> s = [] \/ zero_form s
                      \/ exists z, s = z ++ [10%N] /\ zero_form z).
Proof. exact NumProof2.not_truth. Qed.
Print Assumptions C12_false_partial.

Theorem C12_newline_refuted :
  run_op FmtNone "!" [PScal (s_ "0" ++ [10%N])] = ret (truth true)
  /\ s_ "0" ++ [10%N] <> [] /\ ~ zero_form (s_ "0" ++ [10%N]).
Proof.
  split; [vm_compute; reflexivity|]. split; [discriminate|].
  intros (a & b & [[H _]|[H _]]).
  - destruct a as [|[|[|a]]]; discriminate.
  - destruct a as [|[|[|a]]]; discriminate.
Qed.
Print Assumptions C12_newline_refuted.

Theorem C12_integer : forall fmt z,
  run_op fmt "!" [scal_Z z] = ret (truth (z =? 0)).
Proof. exact NumProof2.not_int. Qed.
Print Assumptions C12_integer.

Example C12_ex : zero_form (s_ "00.000") /\ zero_form (s_ ".0")
  /\ run_op FmtNone "!" [PScal (s_ "-0")] = ret (truth false).
Proof.
  split; [exists 2%nat, 3%nat; right; auto with arith|].
  split; [exists 0%nat, 1%nat; right; auto|]. vm_compute. reflexivity.
Qed.

(** ** C13: bases 2 to 36 *)

Theorem C13_digits : forall fmt n b, 2 <= b <= 36 ->
  exists ds, run_op fmt "TB" [scal_Z n; scal_Z b]
             = ret (PScal ((if n <? 0 then s_ "-" else []) ++ map digit_char ds))
    /\ canonical_in b ds
    /\ Z.abs n = positional b (map Z.of_N ds).
Proof. exact NumProof.to_base. Qed.
Print Assumptions C13_digits.

Theorem C13_read : forall fmt neg ds b, 2 <= b <= 36 -> canonical_in b ds ->
  run_op fmt "FB" [PScal ((if neg : bool then s_ "-" else []) ++ map digit_char ds);
                   scal_Z b]
  = ret (scal_Z (let v := positional b (map Z.of_N ds) in if neg then - v else v)).
Proof. exact NumProof.from_base_canonical. Qed.
Print Assumptions C13_read.

Theorem C13_inverse : forall fmt n b, 2 <= b <= 36 ->
  exists s, run_op fmt "TB" [scal_Z n; scal_Z b] = ret (PScal s)
    /\ run_op fmt "FB" [PScal s; scal_Z b] = ret (scal_Z n).
Proof. exact NumProof.base_inverse. Qed.
Print Assumptions C13_inverse.

Theorem C13_default : forall fmt v,
  match v with PScal _ => True | _ => False end ->
  run_op fmt "TB" [v] = run_op fmt "TB" [v; scal_Z 2]
  /\ run_op fmt "FB" [v] = run_op fmt "FB" [v; scal_Z 2].
Proof. exact NumProof.base_default. Qed.
Print Assumptions C13_default.

Example C13_ex :
  run_op FmtNone "TB" [scal_Z (-123456); scal_Z 36] = ret (PScal (s_ "-2N9C"))
  /\ run_op FmtNone "FB" [PScal (s_ "-2N9C"); scal_Z 36] = ret (scal_Z (-123456)).
Proof. split; vm_compute; reflexivity. Qed.

(** ** C14: digit lists *)

Theorem C14_digits : forall fmt n b, 2 <= b ->
  exists ds, run_op fmt "TD" [scal_Z n; scal_Z b] = ret (PList (map scal_Z ds))
    /\ positional b ds = n
    /\ (0 <= n -> Forall (fun d => 0 <= d < b) ds)
    /\ (n <= 0 -> Forall (fun d => - b < d <= 0) ds)
    /\ hd 1 ds <> 0.
Proof. exact NumProof.to_digits. Qed.
Print Assumptions C14_digits.

Theorem C14_read : forall fmt b l,
  run_op fmt "FD" [PList (map scal_Z l); scal_Z b] = ret (scal_Z (positional b l)).
Proof. exact NumProof.from_digits_run. Qed.
Print Assumptions C14_read.

Theorem C14_inverse : forall fmt n b, 2 <= b ->
  exists l, run_op fmt "TD" [scal_Z n; scal_Z b] = ret (PList l)
    /\ run_op fmt "FD" [PList l; scal_Z b] = ret (scal_Z n).
Proof. exact NumProof.digits_inverse. Qed.
Print Assumptions C14_inverse.

Example C14_ex :
  run_op FmtNone "TD" [scal_Z 12345; scal_Z 100]
  = ret (PList [scal_Z 1; scal_Z 23; scal_Z 45])
  /\ run_op FmtNone "FD" [PList [scal_Z 1; scal_Z 23; scal_Z 45]; scal_Z 100]
     = ret (scal_Z 12345).
Proof. split; vm_compute; reflexivity. Qed.

(** ** C15: bitwise operators *)

Theorem C15_and : forall fmt a b,
  exists c, run_op fmt "BA" [scal_Z a; scal_Z b] = ret (scal_Z c)
    /\ forall i, 0 <= i -> Z.testbit c i = Z.testbit a i && Z.testbit b i.
Proof. exact NumProof.bit_and. Qed.
Print Assumptions C15_and.

Theorem C15_or : forall fmt a b,
  exists c, run_op fmt "BO" [scal_Z a; scal_Z b] = ret (scal_Z c)
    /\ forall i, 0 <= i -> Z.testbit c i = Z.testbit a i || Z.testbit b i.
Proof. exact NumProof.bit_or. Qed.
Print Assumptions C15_or.

Theorem C15_xor : forall fmt a b,
  exists c, run_op fmt "BX" [scal_Z a; scal_Z b] = ret (scal_Z c)
    /\ forall i, 0 <= i -> Z.testbit c i = xorb (Z.testbit a i) (Z.testbit b i).
Proof. exact NumProof.bit_xor. Qed.
Print Assumptions C15_xor.

Theorem C15_not : forall fmt a,
  exists c, run_op fmt "BN" [scal_Z a] = ret (scal_Z c)
    /\ forall i, 0 <= i -> Z.testbit c i = negb (Z.testbit a i).
Proof. exact NumProof.bit_not. Qed.
Print Assumptions C15_not.

Theorem C15_xor_twice : forall fmt a b c,
  run_op fmt "BX" [scal_Z a; scal_Z b] = ret c ->
  run_op fmt "BX" [c; scal_Z b] = ret (scal_Z a).
Proof. exact NumProof.bit_xor_twice. Qed.
Print Assumptions C15_xor_twice.

Theorem C15_not_twice : forall fmt a c,
  run_op fmt "BN" [scal_Z a] = ret c -> run_op fmt "BN" [c] = ret (scal_Z a).
Proof. exact NumProof.bit_not_twice. Qed.
Print Assumptions C15_not_twice.

Theorem C15_length : forall fmt a,
  exists n, run_op fmt "BL" [scal_Z a] = ret (scal_Z n)
    /\ 0 <= n /\ Z.abs a < 2 ^ n /\ (n <> 0 -> 2 ^ (n - 1) <= Z.abs a).
Proof. exact NumProof.bit_length. Qed.
Print Assumptions C15_length.

Example C15_ex :
  run_op FmtNone "BX" [scal_Z (-6); scal_Z 11] = ret (scal_Z (-15))
  /\ run_op FmtNone "BN" [scal_Z 41] = ret (scal_Z (-42)).
Proof. split; vm_compute; reflexivity. Qed.

(** ** C55: integer conversion *)

(** Full claim: the numeric value, truncated.  Proved for integer numerals with
    a decimal fraction; numbers written with an exponent break it. *)
Theorem C55_index_partial : forall fmt text v neg ds fs, decimal ds ->
  In text ["@"; "@<"; "@>"; "H"; "S"; "RL"] -> not_block v = true ->
  run_op fmt text [v; PScal (with_fraction neg ds fs)]
  = run_op fmt text [v; scal_Z (numeral_value neg ds)].
Proof. exact NumProof2.index_by_fraction. Qed.
Print Assumptions C55_index_partial.

Theorem C55_count_partial : forall fmt s n a n' a' fs fs', decimal a -> decimal a' ->
  run_op fmt "," [PScal (with_fraction n a fs); PScal (with_fraction n' a' fs')]
  = ret (PRange (Some (numeral_value n a)) (Some (numeral_value n' a')))
  /\ run_op fmt "," [PScal (with_fraction n a fs)]
     = run_op fmt "," [scal_Z (numeral_value n a)]
  /\ run_op fmt "X" [PScal s; PScal (with_fraction n a fs)]
     = run_op fmt "X" [PScal s; scal_Z (numeral_value n a)].
Proof. exact NumProof2.count_by_fraction. Qed.
Print Assumptions C55_count_partial.

(** The quotient 10^16 / 1 has the numeric value 10^16 but counts as 1. *)
Theorem C55_exponent_refuted :
  exists q, run_op FmtNone "/" [scal_Z (10 ^ 16); scal_Z 1] = ret q
    /\ holds FmtNone "=" q (scal_Z (10 ^ 16))
    /\ run_op FmtNone "," [scal_Z 0; q] = ret (PRange (Some 0) (Some 1)).
Proof. exists (PScal (s_ "1e+16")). repeat split; vm_compute; reflexivity. Qed.
Print Assumptions C55_exponent_refuted.

Example C55_ex : with_fraction true [1; 2]%N [7; 5]%N = s_ "-12.75"
  /\ run_op FmtNone "@" [PScal (s_ "abcdef"); PScal (s_ "2.9")] = ret (PScal (s_ "c")).
Proof. split; vm_compute; reflexivity. Qed.

(** ** C56: halving *)

(** Full claim: for every integer.  Proved below 2^53 in magnitude; beyond that
    the division is done in floating point. *)
Theorem C56_halve_partial : forall fmt n, - 2 ^ 53 < n < 2 ^ 53 ->
  run_op fmt "HV" [scal_Z n] = ret (scal_Z (n / 2))
  /\ run_op fmt "HU" [scal_Z n] = ret (scal_Z (- ((- n) / 2))).
Proof. exact HalveProof.halve_small. Qed.
Print Assumptions C56_halve_partial.

Theorem C56_halve_refuted :
  run_op FmtNone "HV" [scal_Z (2 ^ 54 + 2)] = ret (scal_Z (2 ^ 53))
  /\ (2 ^ 54 + 2) / 2 = 2 ^ 53 + 1.
Proof. split; vm_compute; reflexivity. Qed.
Print Assumptions C56_halve_refuted.

Example C56_ex : run_op FmtNone "HV" [scal_Z (-7)] = ret (scal_Z (-4))
  /\ run_op FmtNone "HU" [scal_Z (-7)] = ret (scal_Z (-3)).
Proof. split; vm_compute; reflexivity. Qed.
