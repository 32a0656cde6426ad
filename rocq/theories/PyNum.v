(** * Python numbers

    [int] is [Z]; [float] is IEEE binary64 as given by the axiom-free
    [SpecFloat] development of the standard library.  Definitions only. *)

From Coq Require Import String List NArith ZArith Bool .
From Coq Require Import Floats.SpecFloat.
From Verif Require Import PyStr PyRe.
Import ListNotations.
Local Open Scope Z_scope.

(** ** Python exceptions as values *)

Inductive exn : Set :=
| TypeError | ValueError | IndexError | ZeroDivisionError | OverflowError
| NameError | AttributeError | RecursionError
| Unmodelled     (* the model does not cover this case; not a Python error *)
| Hang.          (* the Python code loops forever (e.g. infinite Range) *)

Inductive res (A : Type) : Type :=
| Val (a : A)
| Exn (e : exn).
Arguments Val {A} a.
Arguments Exn {A} e.

Definition rbind {A B} (x : res A) (f : A -> res B) : res B :=
  match x with Val a => f a | Exn e => Exn e end.

(** ** Integers and text *)

(** Digits of [n] in base [b >= 2], most significant first; [] for 0. *)
Fixpoint digits_aux (fuel : nat) (b n : N) (acc : list N) : list N :=
  match fuel with
  | O => acc
  | S f => if N.eqb n 0 then acc
           else digits_aux f b (N.div n b) (N.modulo n b :: acc)
  end.
Definition digits_of (b n : N) : list N := digits_aux (N.size_nat n) b n [].

Definition value_of_digits (b : N) (ds : list N) : N :=
  fold_left (fun acc d => acc * b + d)%N ds 0%N.

(** [str(n)] for an int. *)
Definition str_of_N (n : N) : str :=
  if N.eqb n 0 then [48%N] else map (N.add 48) (digits_of 10 n).
Definition str_of_Z (z : Z) : str :=
  if z <? 0 then c_minus :: str_of_N (Z.abs_N z) else str_of_N (Z.abs_N z).

(** Value of a run of decimal digit characters. *)
Definition digit_val0 (c : char) : N :=
  match digit_value c with Some d => d | None => 0%N end.
Definition N_of_digits (s : str) : N :=
  value_of_digits 10 (map digit_val0 s).

(** [int(s)] for text matched by the regex [-?\d+]. *)
Definition Z_of_numeral (s : str) : Z :=
  match s with
  | c :: s' => if N.eqb c c_minus then - Z.of_N (N_of_digits s')
               else Z.of_N (N_of_digits s)
  | [] => 0
  end.

(** ** Binary64 floats *)

Definition float := spec_float.
Definition prec53 : Z := 53.
Definition emax1024 : Z := 1024.

(** Correctly rounded value of [num/den] with the given sign, [num,den > 0]. *)
Definition round_ratio (sign : bool) (num den : positive) : float :=
  let '(mz, ez, lz) :=
    SFdiv_core_binary prec53 emax1024 (Zpos num) 0 (Zpos den) 0 in
  binary_round_aux prec53 emax1024 sign mz ez lz.

(** Correctly rounded value of an integer. *)
Definition float_of_Z_raw (z : Z) : float :=
  binary_normalize prec53 emax1024 z 0 false.

Definition is_inf (f : float) : bool :=
  match f with S754_infinity _ => true | _ => false end.

(** [float(z)]: OverflowError if out of range. *)
Definition float_of_Z (z : Z) : res float :=
  let f := float_of_Z_raw z in
  if is_inf f then Exn OverflowError else Val f.

Definition set_sign (neg : bool) (f : float) : float :=
  if neg then SFopp f else f.

(** Value of decimal [(-1)^neg * m * 10^e], correctly rounded. *)
Definition float_of_decimal (neg : bool) (m : N) (e : Z) : float :=
  match m with
  | N0 => S754_zero neg
  | Npos p =>
      if 0 <=? e
      then set_sign neg (float_of_Z_raw (Zpos p * 10 ^ e))
      else match 10 ^ (- e) with
           | Zpos d => round_ratio neg p d
           | _ => S754_nan
           end
  end.

(** [float(s)] for text matched by [pyFloatRgx] (sign, digits, optional
    fraction, optional exponent). *)
Definition float_of_numeral (s : str) : float :=
  let '(neg, s) := match s with
                   | c :: s' => if N.eqb c c_minus then (true, s')
                                else (false, s)
                   | [] => (false, [])
                   end in
  let ip := take_while is_digit s in
  let s := drop_while is_digit s in
  let '(fp, s) := match s with
                  | c :: s' => if N.eqb c c_dot
                               then (take_while is_digit s',
                                     drop_while is_digit s')
                               else ([], s)
                  | [] => ([], [])
                  end in
  let ex := match s with
            | _ :: sg :: ds => let v := Z.of_N (N_of_digits ds) in
                               if N.eqb sg c_minus then - v else v
            | _ => 0
            end in
  float_of_decimal neg (N_of_digits (ip ++ fp)) (ex - zlen fp).

(** *** Shortest round-trip decimal ([repr(float)]) *)

Definition ratio_of (m : positive) (e : Z) : Z * Z :=
  if 0 <=? e then (Zpos m * 2 ^ e, 1) else (Zpos m, 2 ^ (- e)).

Definition float_eqb (a b : float) : bool :=
  match a, b with
  | S754_zero s, S754_zero t => Bool.eqb s t
  | S754_infinity s, S754_infinity t => Bool.eqb s t
  | S754_nan, S754_nan => true
  | S754_finite s m e, S754_finite t m' e' =>
      Bool.eqb s t && Pos.eqb m m' && Z.eqb e e'
  | _, _ => false
  end.

(** Decimal point position [k] with [10^(k-1) <= num/den < 10^k]. *)
Fixpoint find_decpt (fuel : nat) (num den k : Z) : Z :=
  match fuel with
  | O => k
  | S f =>
      let below := if 0 <=? k then num <? den * 10 ^ k
                   else num * 10 ^ (- k) <? den in
      if below then k else find_decpt f num den (k + 1)
  end.

(** Try [n], [n+1], ... significant digits until one candidate reads back as
    [f]; result (digits, p) means digits * 10^(-p). *)
Fixpoint shortest (fuel : nat) (n : Z) (f : float) (num den k : Z) : N * Z :=
  let p := n - k in
  let '(a, b) := if 0 <=? p then (num * 10 ^ p, den)
                 else (num, den * 10 ^ (- p)) in
  let lo := Z.to_N (a / b) in
  let r := a mod b in
  let hi := (lo + 1)%N in
  let ok d := float_eqb (float_of_decimal false d (- p)) f in
  let '(first, second) :=
    match Z.compare (2 * r) b with
    | Lt => (lo, hi)
    | Gt => (hi, lo)
    | Eq => if N.even lo then (lo, hi) else (hi, lo)
    end in
  match fuel with
  | O => (first, p)
  | S fu => if ok first then (first, p)
            else if ok second then (second, p)
            else shortest fu (n + 1) f num den k
  end.

Fixpoint strip_zeros (fuel : nat) (d : N) (p : Z) : N * Z :=
  match fuel with
  | O => (d, p)
  | S fu => if N.eqb (N.modulo d 10) 0 then strip_zeros fu (N.div d 10) (p - 1)
            else (d, p)
  end.

Definition zeros (n : Z) : str := List.repeat 48%N (Z.to_nat n).

(** Positive finite float. *)
Definition repr_pos (m : positive) (e : Z) : str :=
  let '(num, den) := ratio_of m e in
  let est := (Z.log2 num - Z.log2 den - 1) * 30103 / 100000 - 1 in
  let k := find_decpt 8 num den est in
  let '(d, p) := shortest 17 1 (S754_finite false m e) num den k in
  let '(d, p) := strip_zeros 20 d p in
  let ds := str_of_N d in
  let n := zlen ds in
  let decpt := n - p in
  if (-4 <? decpt) && (decpt <=? 16) then
    if decpt <=? 0 then s_ "0." ++ zeros (- decpt) ++ ds
    else if n <=? decpt then ds ++ zeros (decpt - n) ++ s_ ".0"
    else firstn (Z.to_nat decpt) ds ++ s_ "." ++ skipn (Z.to_nat decpt) ds
  else
    let x := decpt - 1 in
    let mant := match ds with
                | [c] => [c]
                | c :: rest => c :: c_dot :: rest
                | [] => []
                end in
    let xs := str_of_N (Z.abs_N x) in
    let xs := if zlen xs <? 2 then 48%N :: xs else xs in
    mant ++ s_ "e" ++ (if x <? 0 then s_ "-" else s_ "+") ++ xs.

(** [str(f)] = [repr(f)]. *)
Definition str_of_float (f : float) : str :=
  match f with
  | S754_zero false => s_ "0.0"
  | S754_zero true => s_ "-0.0"
  | S754_infinity false => s_ "inf"
  | S754_infinity true => s_ "-inf"
  | S754_nan => s_ "nan"
  | S754_finite false m e => repr_pos m e
  | S754_finite true m e => c_minus :: repr_pos m e
  end.

(** *** Conversions and comparison *)

(** [math.floor], [math.ceil], [int]. *)
Definition float_floor (f : float) : res Z :=
  match f with
  | S754_zero _ => Val 0
  | S754_infinity _ => Exn OverflowError
  | S754_nan => Exn ValueError
  | S754_finite s m e =>
      let v := if s then Zneg m else Zpos m in
      Val (if 0 <=? e then v * 2 ^ e else v / 2 ^ (- e))
  end.
Definition float_ceil (f : float) : res Z :=
  match float_floor (SFopp f) with Val z => Val (- z) | Exn e => Exn e end.
Definition float_trunc (f : float) : res Z :=
  match f with
  | S754_finite true _ _ => float_ceil f
  | _ => float_floor f
  end.

(** Python numbers. *)
Inductive num : Type :=
| NI (z : Z)
| NF (f : float).

(** Exact value, for comparison: extended dyadic rationals. *)
Inductive ext : Type :=
| ENegInf | EPosInf | ENaN
| EDy (m e : Z).        (* m * 2^e *)

Definition ext_of (x : num) : ext :=
  match x with
  | NI z => EDy z 0
  | NF (S754_zero _) => EDy 0 0
  | NF (S754_infinity false) => EPosInf
  | NF (S754_infinity true) => ENegInf
  | NF S754_nan => ENaN
  | NF (S754_finite s m e) => EDy (if s then Zneg m else Zpos m) e
  end.

Definition dy_compare (m1 e1 m2 e2 : Z) : comparison :=
  let e := Z.min e1 e2 in
  Z.compare (m1 * 2 ^ (e1 - e)) (m2 * 2 ^ (e2 - e)).

(** Python's mixed int/float comparison is exact; [None]: a NaN is involved. *)
Definition num_compare (a b : num) : option comparison :=
  match ext_of a, ext_of b with
  | ENaN, _ => None
  | _, ENaN => None
  | ENegInf, ENegInf => Some Eq
  | ENegInf, _ => Some Lt
  | _, ENegInf => Some Gt
  | EPosInf, EPosInf => Some Eq
  | EPosInf, _ => Some Gt
  | _, EPosInf => Some Lt
  | EDy m1 e1, EDy m2 e2 => Some (dy_compare m1 e1 m2 e2)
  end.

Definition num_ltb (a b : num) : bool :=
  match num_compare a b with Some Lt => true | _ => false end.
Definition num_gtb (a b : num) : bool :=
  match num_compare a b with Some Gt => true | _ => false end.
Definition num_eqb (a b : num) : bool :=
  match num_compare a b with Some Eq => true | _ => false end.
Definition num_leb (a b : num) : bool :=
  match num_compare a b with Some Lt | Some Eq => true | _ => false end.
Definition num_geb (a b : num) : bool :=
  match num_compare a b with Some Gt | Some Eq => true | _ => false end.
Definition num_is_zero (a : num) : bool := num_eqb a (NI 0).

(** *** Arithmetic *)

Definition to_float (x : num) : res float :=
  match x with NI z => float_of_Z z | NF f => Val f end.

Definition lift2 (fi : Z -> Z -> res num) (ff : float -> float -> res num)
           (a b : num) : res num :=
  match a, b with
  | NI x, NI y => fi x y
  | _, _ => rbind (to_float a) (fun x => rbind (to_float b) (fun y => ff x y))
  end.

Definition num_add := lift2 (fun x y => Val (NI (x + y)))
                            (fun x y => Val (NF (SFadd prec53 emax1024 x y))).
Definition num_sub := lift2 (fun x y => Val (NI (x - y)))
                            (fun x y => Val (NF (SFsub prec53 emax1024 x y))).
Definition num_mul := lift2 (fun x y => Val (NI (x * y)))
                            (fun x y => Val (NF (SFmul prec53 emax1024 x y))).

Definition float_is_zero (f : float) : bool :=
  match f with S754_zero _ => true | _ => false end.

(** True division of ints is correctly rounded (CPython [long_true_divide]). *)
Definition int_truediv (x y : Z) : res num :=
  match x, y with
  | _, Z0 => Exn ZeroDivisionError
  | Z0, Zpos _ => Val (NF (S754_zero false))
  | Z0, Zneg _ => Val (NF (S754_zero true))
  | _, _ =>
      let f := round_ratio (xorb (x <? 0) (y <? 0))
                           (Z.to_pos (Z.abs x)) (Z.to_pos (Z.abs y)) in
      if is_inf f then Exn OverflowError else Val (NF f)
  end.

Definition num_truediv :=
  lift2 int_truediv
        (fun x y => if float_is_zero y then Exn ZeroDivisionError
                    else Val (NF (SFdiv prec53 emax1024 x y))).

(** C [fmod]: exact, sign of the dividend. *)
Definition float_fmod (x y : float) : float :=
  match x, y with
  | S754_nan, _ | _, S754_nan => S754_nan
  | S754_infinity _, _ => S754_nan
  | _, S754_zero _ => S754_nan
  | _, S754_infinity _ => x
  | S754_zero _, _ => x
  | S754_finite sx mx ex, S754_finite _ my ey =>
      let e := Z.min ex ey in
      let r := (Zpos mx * 2 ^ (ex - e)) mod (Zpos my * 2 ^ (ey - e)) in
      if r =? 0 then S754_zero sx
      else set_sign sx (binary_normalize prec53 emax1024 r e false)
  end.

Definition float_neg (f : float) : bool :=
  match f with
  | S754_zero s | S754_infinity s => s
  | S754_nan => false
  | S754_finite s _ _ => s
  end.
Definition float_ltz (f : float) : bool :=
  match f with
  | S754_infinity s | S754_finite s _ _ => s
  | _ => false
  end.
Definition float_one : float := float_of_Z_raw 1.

(** CPython [_float_div_mod] (Objects/floatobject.c). *)
Definition float_floordiv_mod (v w : float) : float * float :=
  let md := float_fmod v w in
  let dv := SFdiv prec53 emax1024 (SFsub prec53 emax1024 v md) w in
  let '(dv, md) :=
    if negb (float_is_zero md)
    then if xorb (float_ltz w) (float_ltz md)
         then (SFsub prec53 emax1024 dv float_one, SFadd prec53 emax1024 md w)
         else (dv, md)
    else (dv, S754_zero (float_neg w)) in
  let fl :=
    if negb (float_is_zero dv)
    then match float_floor dv with
         | Val z => let f := match z with
                             | Z0 => S754_zero (float_neg dv)
                             | _ => float_of_Z_raw z
                             end in
                    match SFcompare (SFsub prec53 emax1024 dv f)
                                    (SFdiv prec53 emax1024 float_one
                                           (float_of_Z_raw 2)) with
                    | Some Gt => SFadd prec53 emax1024 f float_one
                    | _ => f
                    end
         | Exn _ => dv
         end
    else S754_zero (float_neg (SFdiv prec53 emax1024 v w)) in
  (fl, md).

Definition num_floordiv :=
  lift2 (fun x y => if y =? 0 then Exn ZeroDivisionError
                    else Val (NI (x / y)))
        (fun x y => if float_is_zero y then Exn ZeroDivisionError
                    else Val (NF (fst (float_floordiv_mod x y)))).
Definition num_mod :=
  lift2 (fun x y => if y =? 0 then Exn ZeroDivisionError
                    else Val (NI (x mod y)))
        (fun x y => if float_is_zero y then Exn ZeroDivisionError
                    else Val (NF (snd (float_floordiv_mod x y)))).

(** [**]: exact for int and non-negative int; libm's [pow] otherwise, which is
    not modelled. *)
Definition num_pow (a b : num) : res num :=
  match a, b with
  | NI x, NI y =>
      if 0 <=? y then Val (NI (x ^ y))
      else if x =? 0 then Exn ZeroDivisionError else Exn Unmodelled
  | _, _ => Exn Unmodelled
  end.

Definition num_neg (a : num) : num :=
  match a with NI z => NI (- z) | NF f => NF (SFopp f) end.
Definition num_abs (a : num) : num :=
  match a with NI z => NI (Z.abs z) | NF f => NF (SFabs f) end.
Definition num_floor (a : num) : res Z :=
  match a with NI z => Val z | NF f => float_floor f end.
Definition num_ceil (a : num) : res Z :=
  match a with NI z => Val z | NF f => float_ceil f end.
Definition num_trunc (a : num) : res Z :=
  match a with NI z => Val z | NF f => float_trunc f end.

(** *** Numeric reading of a Scalar (ptypes.py:12-16, 72-98) *)

(* exp = r"(?:e[+-]\d+)"   (ptypes.py:13) *)
Definition exp_re : re :=
  RSeq (RChar 101%N) (RSeq (RCls (cls_in [43; 45]%N)) (RPlus RDigit)).
(* pyFloatRgx = -?(\d+\.\d*{exp}?|\d+{exp}|\.\d+{exp}?)   (ptypes.py:14) *)
Definition py_float_re : re :=
  RSeq (ROpt (RChar c_minus))
       (RAlts [RSeq (RPlus RDigit)
                    (RSeq (RChar c_dot) (RSeq (RStar RDigit) (ROpt exp_re)));
               RSeq (RPlus RDigit) exp_re;
               RSeq (RChar c_dot) (RSeq (RPlus RDigit) (ROpt exp_re))]).
(* pipFloatRgx = -?\d+\.\d+   (ptypes.py:15) *)
Definition pip_float_re : re :=
  RSeq (ROpt (RChar c_minus))
       (RSeq (RPlus RDigit) (RSeq (RChar c_dot) (RPlus RDigit))).
(* intRgx = -?\d+   (ptypes.py:16) *)
Definition int_re : re := RSeq (ROpt (RChar c_minus)) (RPlus RDigit).
(* zeroRgx = ^(0+(\.0* )?|0*\.0+)$  without the blank   (ptypes.py:12) *)
Definition zero_re : re :=
  RSeq (RAlt (RSeq (RPlus (RChar 48%N))
                   (ROpt (RSeq (RChar c_dot) (RStar (RChar 48%N)))))
             (RSeq (RStar (RChar 48%N)) (RSeq (RChar c_dot) (RPlus (RChar 48%N)))))
       REol.

(** [Scalar.toNumber] on the stored text (ptypes.py:90-98). *)
Definition to_number (s : str) : num :=
  let t := lstrip is_space s in
  match match_re py_float_re t with
  | Some rest => NF (float_of_numeral (matched t rest))
  | None =>
      match match_re int_re t with
      | Some rest => NI (Z_of_numeral (matched t rest))
      | None => NI 0
      end
  end.

(** [Scalar.__int__] (ptypes.py:72-76). *)
Definition scalar_int (s : str) : Z :=
  let t := lstrip is_space s in
  match match_re int_re t with
  | Some rest => Z_of_numeral (matched t rest)
  | None => 0
  end.

(** [Scalar.__bool__] (ptypes.py:78-80). *)
Definition scalar_bool (s : str) : bool :=
  negb (match s with [] => true | _ => false end)
  && match match_re zero_re s with Some _ => false | None => true end.

(** Text stored by [Scalar(value)] for a number (ptypes.py:34-42): floats whose
    [str] ends in ".0" become ints. *)
Definition str_of_num (n : num) : str :=
  match n with
  | NI z => str_of_Z z
  | NF f =>
      let t := str_of_float f in
      if endswith (s_ ".0") t
      then match float_trunc f with Val z => str_of_Z z | Exn _ => t end
      else t
  end.
