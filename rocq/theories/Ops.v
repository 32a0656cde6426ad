(** * execution.py: the operators as functions on values

    One definition per operator method that neither calls back into the
    program nor updates variables.  Each returns the list of warnings it
    reports ([ErrorReporter.warn], errors.py:26-29) together with its value or
    the Python exception it raises.  Warning texts are abbreviated to the name
    of the operator and a keyword. *)

From Coq Require Import String List NArith ZArith Bool Arith.
From Verif Require Import PyStr PyRe PyNum Tokens OpFun OpTable Unparse PTypes.
Import ListNotations.
Local Open Scope string_scope.
Local Open Scope list_scope.
Local Open Scope Z_scope.

(** ** Results with warnings *)

Definition warning : Type := string.
Definition pm (A : Type) : Type := (list warning * res A)%type.

Definition ret {A} (a : A) : pm A := ([], Val a).
Definition raise {A} (e : exn) : pm A := ([], Exn e).
Definition lift {A} (r : res A) : pm A := ([], r).
Definition warn {A} (w : warning) (k : pm A) : pm A := (w :: fst k, snd k).
Definition bind {A B} (m : pm A) (f : A -> pm B) : pm B :=
  match m with
  | (w, Val a) => let '(w', r) := f a in (w ++ w', r)
  | (w, Exn e) => (w, Exn e)
  end.
Notation "'do' x <- m ; k" := (bind m (fun x => k))
  (at level 200, x name, m at level 100, k at level 200).

(** [self.err.warn(...); return nil], the usual rejection. *)
Definition reject (w : warning) : pm pval := warn w (ret PNil).

Section MapM.
  Context {A B : Type}.
  Variable f : A -> pm B.
  (** [f(x) for x in l], collected. *)
  Fixpoint mapM (l : list A) : pm (list B) :=
    match l with
    | [] => ret []
    | x :: l' => do y <- f x; do ys <- mapM l'; ret (y :: ys)
    end.
End MapM.

Section FoldM.
  Context {A B : Type}.
  Variable f : B -> A -> pm B.
  Fixpoint foldM (acc : B) (l : list A) : pm B :=
    match l with
    | [] => ret acc
    | x :: l' => do acc' <- f acc x; foldM acc' l'
    end.
End FoldM.

(** [PipIterable] (ptypes.py:26): Scalar, List, Range. *)
Definition is_iterable (v : pval) : bool :=
  match v with PScal _ | PList _ | PRange _ _ => true | _ => false end.

Definition infinite (v : pval) : bool := negb (p_is_finite v).

(** ** Arithmetic on Scalars *)

(** A unary operation on numbers; [w] names it. *)
Definition on_num (w : warning) (f : num -> res num) (v : pval) : pm pval :=
  match v with
  | PScal s => lift (rbind (f (to_number s)) (fun n => Val (scal_num n)))
  | _ => reject w
  end.

(** ABS (execution.py:753-759) *)
Definition op_ABS : pval -> pm pval :=
  on_num "ABS" (fun n => Val (num_abs n)).

(** ABSOLUTEDIFF (execution.py:761-768) *)
Definition op_ABSOLUTEDIFF (lhs rhs : pval) : pm pval :=
  match lhs, rhs with
  | PScal a, PScal b =>
    lift (rbind (num_sub (to_number a) (to_number b))
                (fun n => Val (scal_num (num_abs n))))
  | _, _ => reject "ABSOLUTEDIFF"
  end.

(** [Pattern.wrap] (ptypes.py:223-228). *)
Definition pat_wrap (r : str) : str :=
  if 1 <? zlen r then s_ "(?:" ++ r ++ s_ ")" else r.

(** ADD (execution.py:770-793): a Range plus an integer is a shifted Range.
    [Range(lower, None)] for an unbounded Range is the one-argument
    constructor. *)
Definition add_scal_range (s : str) (lo hi : option Z) : pm pval :=
  if num_eqb (to_number s) (NI (scalar_int s))
  then ret (mk_range (Some (lower0 lo + scalar_int s))
                     (match hi with
                      | Some u => AInt (u + scalar_int s)
                      | None => ANothing
                      end))
  else match hi with
       | None => raise Hang
       | Some u =>
         do l <- mapM (fun z => lift (rbind (num_add (to_number s)
                                                     (to_number (str_of_Z z)))
                                            (fun n => Val (scal_num n))))
                      (range_ints lo u);
         ret (PList l)
       end.

Definition op_ADD (lhs rhs : pval) : pm pval :=
  match lhs, rhs with
  | PScal a, PScal b =>
    lift (rbind (num_add (to_number a) (to_number b))
                (fun n => Val (scal_num n)))
  | PScal s, PRange lo hi => add_scal_range s lo hi
  | PRange lo hi, PScal s => add_scal_range s lo hi
  | PPat r f, PPat r' f' => ret (PPat (pat_wrap r ++ pat_wrap r') (N.lor f f'))
  | _, _ => reject "ADD"
  end.

(** SUB (execution.py:3853-3874): unlike ADD, a Range minus a non-integer
    truncates the number. *)
Definition op_SUB (lhs rhs : pval) : pm pval :=
  match lhs, rhs with
  | PScal a, PScal b =>
    lift (rbind (num_sub (to_number a) (to_number b))
                (fun n => Val (scal_num n)))
  | PRange lo hi, PScal s =>
    ret (mk_range (Some (lower0 lo - scalar_int s))
                  (match hi with
                   | Some u => AInt (u - scalar_int s)
                   | None => ANothing
                   end))
  | PScal s, PRange lo hi =>
    match hi with
    | None => raise Hang
    | Some u =>
      do l <- mapM (fun z => lift (rbind (num_sub (to_number s)
                                                  (to_number (str_of_Z z)))
                                         (fun n => Val (scal_num n))))
                   (range_ints lo u);
      ret (PList l)
    end
  | PRange _ _, PRange _ _ => reject "SUB: two Ranges"
  | _, _ => reject "SUB"
  end.

(** MUL (execution.py:2408-2421); [Pattern.repeat] (ptypes.py:239-243). *)
Definition op_MUL (lhs rhs : pval) : pm pval :=
  match lhs, rhs with
  | PScal a, PScal b =>
    lift (rbind (num_mul (to_number a) (to_number b))
                (fun n => Val (scal_num n)))
  | PPat r f, PScal s | PScal s, PPat r f =>
    ret (PPat (pat_wrap r ++ s_ "{" ++ str_of_Z (scalar_int s) ++ s_ "}") f)
  | _, _ => reject "MUL"
  end.

(** Catch ZeroDivisionError with a warning and nil. *)
Definition catch_zero (w : warning) (r : res num) : pm pval :=
  match r with
  | Val n => ret (scal_num n)
  | Exn ZeroDivisionError => reject w
  | Exn e => raise e
  end.

(** DIV (execution.py:1344-1355) *)
Definition op_DIV (lhs rhs : pval) : pm pval :=
  match lhs, rhs with
  | PScal a, PScal b => catch_zero "DIV: zero"
                          (num_truediv (to_number a) (to_number b))
  | _, _ => reject "DIV"
  end.

(** INTDIV (execution.py:1925-1935) *)
Definition op_INTDIV (lhs rhs : pval) : pm pval :=
  match lhs, rhs with
  | PScal a, PScal b => catch_zero "INTDIV: zero"
                          (num_floordiv (to_number a) (to_number b))
  | _, _ => reject "INTDIV"
  end.

(** MOD (execution.py:2392-2406); the unary form has rhs 2. *)
Definition op_MOD (lhs rhs : pval) : pm pval :=
  match lhs, rhs with
  | PScal a, PScal b => catch_zero "MOD: zero"
                          (num_mod (to_number a) (to_number b))
  | _, _ => reject "MOD"
  end.

(** INVERT (execution.py:1937-1947) *)
Definition op_INVERT (rhs : pval) : pm pval :=
  match rhs with
  | PScal s => catch_zero "INVERT: zero" (num_truediv (NI 1) (to_number s))
  | _ => reject "INVERT"
  end.

(** NEG (execution.py:2438-2448): on a Pattern, toggles IGNORECASE. *)
Definition op_NEG (rhs : pval) : pm pval :=
  match rhs with
  | PScal s => ret (scal_num (num_neg (to_number s)))
  | PPat r f => ret (PPat r (N.lxor f flag_ignorecase))
  | _ => reject "NEG"
  end.

(** POS (execution.py:2912-2923); [Pattern.plus] (ptypes.py:236-237). *)
Definition op_POS (rhs : pval) : pm pval :=
  match rhs with
  | PScal s => ret (scal_num (to_number s))
  | PRange _ _ => ret rhs
  | PPat r f => ret (PPat (pat_wrap r ++ s_ "+") f)
  | _ => reject "POS"
  end.

(** POW (execution.py:2925-2948); unary [**a] is 2**a.  [int(rhs) != rhs] can
    hold for floats only, for which [num_pow] is not modelled. *)
Definition op_POW (lhs rhs : pval) : pm pval :=
  match lhs, rhs with
  | PScal a, PScal b => catch_zero "POW: zero"
                          (num_pow (to_number a) (to_number b))
  | _, _ => reject "POW"
  end.

(** POWEROFTEN (execution.py:2950-2964) *)
Definition op_POWEROFTEN (lhs rhs : pval) : pm pval :=
  match lhs, rhs with
  | PScal a, PScal b =>
    lift (rbind (num_pow (NI 10) (to_number b)) (fun p =>
          rbind (num_mul (to_number a) p) (fun n => Val (scal_num n))))
  | _, _ => reject "POWEROFTEN"
  end.

(** SQUARE (execution.py:3685-3692), DOUBLE (1366-1372), HALVE (1818-1825),
    HALVEUP (1827-1834) *)
Definition op_SQUARE : pval -> pm pval :=
  on_num "SQUARE" (fun n => num_mul n n).
Definition op_DOUBLE : pval -> pm pval :=
  on_num "DOUBLE" (fun n => num_mul n (NI 2)).
Definition op_HALVE : pval -> pm pval :=
  on_num "HALVE" (fun n => rbind (num_truediv n (NI 2)) (fun h =>
                           rbind (num_floor h) (fun z => Val (NI z)))).
Definition op_HALVEUP : pval -> pm pval :=
  on_num "HALVEUP" (fun n => rbind (num_truediv n (NI 2)) (fun h =>
                             rbind (num_ceil h) (fun z => Val (NI z)))).

(** FLOOR (execution.py:1687-1711), CEIL (1038-1062), ROUNDZERO (3399-3423):
    round to a multiple of the precision; [None] is the unary form. *)
Definition op_round (w : warning) (rnd : num -> res Z)
           (lhs : pval) (rhs : option pval) : pm pval :=
  let precision := match rhs with
                   | None => Some (NI 1)
                   | Some (PScal p) => Some (num_abs (to_number p))
                   | Some _ => None
                   end in
  match lhs, precision with
  | PScal s, Some p =>
    if num_eqb p (NI 0) then ret lhs
    else if num_eqb p (NI 1)
         then lift (rbind (rnd (to_number s)) (fun z => Val (scal_Z z)))
         else lift (rbind (num_truediv (to_number s) p) (fun q =>
                    rbind (rnd q) (fun z =>
                    rbind (num_mul (NI z) p) (fun n => Val (scal_num n)))))
  | _, _ => reject w
  end.
Definition op_FLOOR := op_round "FLOOR" num_floor.
Definition op_CEIL := op_round "CEIL" num_ceil.
Definition op_ROUNDZERO := op_round "ROUNDZERO" num_trunc.

(** SIGN (execution.py:3515-3526) *)
Definition op_SIGN (rhs : pval) : pm pval :=
  match rhs with
  | PScal s => if num_ltb (to_number s) (NI 0) then ret (scal_Z (-1))
               else if num_gtb (to_number s) (NI 0) then ret (scal_Z 1)
               else ret (scal_Z 0)
  | _ => reject "SIGN"
  end.

(** BITWISEAND (execution.py:961-968), BITWISEOR (978-985), BITWISEXOR
    (987-994), BITWISENOT (970-976), BITLENGTH (954-959) *)
Definition on_ints2 (w : warning) (f : Z -> Z -> Z) (lhs rhs : pval) : pm pval :=
  match lhs, rhs with
  | PScal a, PScal b => ret (scal_Z (f (scalar_int a) (scalar_int b)))
  | _, _ => reject w
  end.
Definition op_BITWISEAND := on_ints2 "BITWISEAND" Z.land.
Definition op_BITWISEOR := on_ints2 "BITWISEOR" Z.lor.
Definition op_BITWISEXOR := on_ints2 "BITWISEXOR" Z.lxor.
Definition op_BITWISENOT (rhs : pval) : pm pval :=
  match rhs with
  | PScal s => ret (scal_Z (Z.lnot (scalar_int s)))
  | _ => reject "BITWISENOT"
  end.
Definition op_BITLENGTH (rhs : pval) : pm pval :=
  match rhs with
  | PScal s => ret (scal_Z (Z.of_N (N.size (Z.abs_N (scalar_int s)))))
  | _ => reject "BITLENGTH"
  end.

(** ASC (execution.py:840-853), CHR (1120-1129): [chr] raises ValueError
    outside 0..0x10FFFF. *)
Definition op_ASC (rhs : pval) : pm pval :=
  match rhs with
  | PScal (c :: _) => ret (scal_Z (Z.of_N c))
  | PScal [] => reject "ASC: empty"
  | PPat r f => ret (PPat r (N.lxor f flag_ascii))
  | _ => reject "ASC"
  end.
Definition op_CHR (rhs : pval) : pm pval :=
  match rhs with
  | PScal s => let z := scalar_int s in
               if (0 <=? z) && (z <=? 1114111)
               then ret (PScal [Z.to_N z])
               else raise ValueError
  | PPat r f => ret (PPat (s_ "(" ++ r ++ s_ ")") f)
  | _ => reject "CHR"
  end.

(** ** Base conversion *)

Definition base_alphabet : str := s_ "0123456789ABCDEFGHIJKLMNOPQRSTUVWXYZ".
Definition base_char (d : N) : char := nth (N.to_nat d) base_alphabet 48%N.

(** The base argument: missing means 2 (execution.py:1714-1720, 3948-3955). *)
Definition base_of (w : warning) (base : option pval) : pm (option Z) :=
  match base with
  | None => ret (Some 2)
  | Some (PScal b) => ret (Some (scalar_int b))
  | Some _ => warn w (ret None)
  end.

(** TOBASE (execution.py:3946-3976); the digit loop is [digits_of]. *)
Definition op_TOBASE (number : pval) (base : option pval) : pm pval :=
  do b <- base_of "TOBASE: base type" base;
  match b with
  | None => ret PNil
  | Some b =>
    if (b <? 2) || (36 <? b) then reject "TOBASE: base"
    else match number with
         | PScal s =>
           let z := scalar_int s in
           if z =? 0 then ret (scal_Z 0)
           else ret (PScal ((if z <? 0 then [c_minus] else [])
                            ++ map base_char
                                   (digits_of (Z.to_N b) (Z.abs_N z))))
         | _ => reject "TOBASE"
         end
  end.

(** Python's [int(s, base)], 2 <= base <= 36: optional whitespace, a sign, a
    prefix 0b/0o/0x for bases 2/8/16, digits, whitespace.  Underscores cannot
    occur (FROMBASE replaces them by spaces).  Non-ASCII decimal digits and
    spaces count as their ASCII equivalents. *)
Definition int_space (c : char) : bool :=
  if N.ltb c 127 then N.eqb c 32 || (N.leb 9 c && N.leb c 13) else is_space c.
Definition base_digit (c : char) : option N :=
  if is_ascii_digit c then Some (c - 48)%N
  else if is_upper c then Some (c - 55)%N
  else if is_lower c then Some (c - 87)%N
  else if N.ltb c 127 then None else digit_value c.
Fixpoint base_digits (b : N) (s : str) : list N * str :=
  match s with
  | c :: s' => match base_digit c with
               | Some d => if N.ltb d b
                           then let '(ds, r) := base_digits b s' in (d :: ds, r)
                           else ([], s)
               | None => ([], s)
               end
  | [] => ([], [])
  end.
Definition skip_prefix (b : N) (s : str) : str :=
  match s with
  | z :: x :: s' =>
    if N.eqb z 48
       && ((N.eqb b 2 && (N.eqb x 98 || N.eqb x 66))
           || (N.eqb b 8 && (N.eqb x 111 || N.eqb x 79))
           || (N.eqb b 16 && (N.eqb x 120 || N.eqb x 88)))
    then s' else s
  | _ => s
  end.
Definition py_int_base (s : str) (b : N) : option Z :=
  let s := drop_while int_space s in
  let '(neg, s) := match s with
                   | c :: s' => if N.eqb c c_minus then (true, s')
                                else if N.eqb c 43 then (false, s')
                                else (false, s)
                   | [] => (false, [])
                   end in
  let s := skip_prefix b s in
  match base_digits b s with
  | ([], _) => None
  | (ds, r) =>
    match drop_while int_space r with
    | [] => let v := Z.of_N (value_of_digits b ds) in
            Some (if neg then - v else v)
    | _ => None
    end
  end.

(** FROMBASE (execution.py:1713-1737) *)
Definition op_FROMBASE (number : pval) (base : option pval) : pm pval :=
  do b <- base_of "FROMBASE: base type" base;
  match b with
  | None => ret PNil
  | Some b =>
    if (b <? 2) || (36 <? b) then reject "FROMBASE: base"
    else match number with
         | PScal s =>
           let t := match s with [] => s_ "0" | _ => s end in
           match py_int_base (str_replace (s_ "_") (s_ " ") t) (Z.to_N b) with
           | Some z => ret (scal_Z z)
           | None => reject "FROMBASE: digits"
           end
         | _ => reject "FROMBASE"
         end
  end.

(** TODIGITS (execution.py:3978-4008); Lists and Ranges of numbers are
    converted item by item. *)
Fixpoint op_TODIGITS (base : option pval) (number : pval) : pm pval :=
  let scal s :=
    do b <- base_of "TODIGITS: base type" base;
    match b with
    | None => ret PNil
    | Some b =>
      if b <? 2 then reject "TODIGITS: base"
      else let z := scalar_int s in
           let sign := if z <? 0 then -1 else 1 in
           ret (PList (map (fun d => scal_Z (sign * Z.of_N d))
                           (digits_of (Z.to_N b) (Z.abs_N z))))
    end in
  match number with
  | PList l => do l' <- mapM (op_TODIGITS base) l; ret (PList l')
  | PRange lo (Some u) =>
    do l' <- mapM (fun z => scal (str_of_Z z)) (range_ints lo u);
    ret (PList l')
  | PRange _ None => raise Hang
  | PScal s => scal s
  | _ => do b <- base_of "TODIGITS: base type" base;
         match b with
         | None => ret PNil
         | Some b => if b <? 2 then reject "TODIGITS: base"
                     else reject "TODIGITS"
         end
  end.

(** FROMDIGITS (execution.py:1739-1762): the sum of digit * base ** exponent,
    least significant digit first; [reversed] needs a length. *)
Fixpoint from_digits (base : num) (exponent : Z) (acc : num) (ds : list pval)
  : pm pval :=
  match ds with
  | [] => ret (scal_num acc)
  | PScal d :: ds' =>
    do acc' <- lift (rbind (num_pow base (NI exponent)) (fun p =>
                     rbind (num_mul (to_number d) p) (num_add acc)));
    from_digits base (exponent + 1) acc' ds'
  | _ :: _ => reject "FROMDIGITS: digit"
  end.
Definition op_FROMDIGITS (digits : pval) (base : option pval) : pm pval :=
  do b <- match base with
          | None => ret (Some (NI 2))
          | Some (PScal s) => ret (Some (to_number s))
          | Some _ => warn "FROMDIGITS: base type" (ret None)
          end;
  match b with
  | None => ret PNil
  | Some b =>
    if is_iterable digits
    then do ds <- lift (p_list digits); from_digits b 0 (NI 0) (rev ds)
    else reject "FROMDIGITS"
  end.

(** ** Numeric comparison *)

Definition b2 (b : bool) : pm pval := ret (scal_bool b).

(** Items seen by [zip(lhs, rhs)] for Lists and Ranges, where an infinite Range
    yields as many items as the other side has.  Two infinite Ranges do not
    reach this (they are compared by bounds). *)
Definition zip_items (n : nat) (v : pval) : list pval :=
  match v with
  | PList l => l
  | PRange lo (Some u) => map scal_Z (range_ints lo u)
  | PRange lo None => map (fun i => scal_Z (lower0 lo + Z.of_nat i)) (seq 0 n)
  | _ => []
  end.
Definition size_hint (v : pval) : nat :=
  match v with
  | PList l => length l
  | PRange lo (Some u) => length (range_ints lo u)
  | _ => 0
  end.

(** Comparison of Range bounds shared by the four ordering operators
    (execution.py:2497-2516, 2551-2570, 2609-2628, 2663-2682): [None] upper
    bounds are largest. *)
Definition range_compare (lo hi lo' hi' : option Z) : comparison :=
  match Z.compare (lower0 lo) (lower0 lo') with
  | Lt => Lt
  | Gt => Gt
  | Eq => match hi, hi' with
          | None, None => Eq
          | None, Some _ => Gt
          | Some _, None => Lt
          | Some u, Some u' => Z.compare u u'
          end
  end.

(** [len(lhs)] against [len(rhs)], with an infinite lhs decided first. *)
Definition len_pair (lhs rhs : pval) : Z * Z + bool :=
  match p_len lhs with
  | Exn _ => inr true          (* lhs is an infinite Range *)
  | Val m => match p_len rhs with
             | Exn _ => inr false       (* rhs is an infinite Range *)
             | Val n => inl (m, n)
             end
  end.

Definition is_list_or_range (v : pval) : bool :=
  match v with PList _ | PRange _ _ => true | _ => false end.

(** First decision of the item loop of NUMLESS and friends: [less i j] and
    [less j i] tested in turn; [None] if no pair decides. *)
Section FirstDecision.
  Variable less : pval -> pval -> bool.
  Fixpoint first_decision (l1 l2 : list pval) : option bool :=
    match l1, l2 with
    | x :: l1', y :: l2' =>
      if less x y then Some true
      else if less y x then Some false
      else first_decision l1' l2'
    | _, _ => None
    end.
End FirstDecision.

(** Nesting depth, the fuel of the mutually swapping comparisons. *)
Fixpoint pdepth (v : pval) : nat :=
  match v with
  | PList l => S (fold_right (fun x m => Nat.max (pdepth x) m) O l)
  | PRange _ _ => 1
  | _ => O
  end.
Definition cmp_fuel (lhs rhs : pval) : nat := S (pdepth lhs + pdepth rhs).

(** NUMLESS (execution.py:2605-2657): [self.NUMLESS] on items, with the
    arguments in both orders. *)
Fixpoint num_less (fuel : nat) (lhs rhs : pval) : bool :=
  match fuel with
  | O => false
  | S f =>
    match lhs, rhs with
    | PScal a, PScal b => num_ltb (to_number a) (to_number b)
    | PRange lo hi, PRange lo' hi' =>
      match range_compare lo hi lo' hi' with Lt => true | _ => false end
    | _, _ =>
      if is_list_or_range lhs && is_list_or_range rhs
      then match first_decision (num_less f) (zip_items (size_hint rhs) lhs)
                                (zip_items (size_hint lhs) rhs) with
           | Some r => r
           | None => match len_pair lhs rhs with
                     | inl (m, n) => m <? n
                     | inr lhs_infinite => negb lhs_infinite
                     end
           end
      else false
    end
  end.
Definition op_NUMLESS (lhs rhs : pval) : pm pval :=
  b2 (num_less (cmp_fuel lhs rhs) lhs rhs).

(** NUMGREATER (execution.py:2495-2547) *)
Fixpoint num_greater (fuel : nat) (lhs rhs : pval) : bool :=
  match fuel with
  | O => false
  | S f =>
    match lhs, rhs with
    | PScal a, PScal b => num_gtb (to_number a) (to_number b)
    | PRange lo hi, PRange lo' hi' =>
      match range_compare lo hi lo' hi' with Gt => true | _ => false end
    | _, _ =>
      if is_list_or_range lhs && is_list_or_range rhs
      then match first_decision (num_greater f) (zip_items (size_hint rhs) lhs)
                                (zip_items (size_hint lhs) rhs) with
           | Some r => r
           | None => match len_pair lhs rhs with
                     | inl (m, n) => m >? n
                     | inr lhs_infinite => lhs_infinite
                     end
           end
      else false
    end
  end.
Definition op_NUMGREATER (lhs rhs : pval) : pm pval :=
  b2 (num_greater (cmp_fuel lhs rhs) lhs rhs).

(** NUMLESSEQ (execution.py:2659-2713) *)
Definition num_lesseq (lhs rhs : pval) : bool :=
  match lhs, rhs with
  | PScal a, PScal b => num_leb (to_number a) (to_number b)
  | PRange lo hi, PRange lo' hi' =>
    match range_compare lo hi lo' hi' with Gt => false | _ => true end
  | _, _ =>
    if is_list_or_range lhs && is_list_or_range rhs
    then match first_decision (num_less (cmp_fuel lhs rhs))
                              (zip_items (size_hint rhs) lhs)
                              (zip_items (size_hint lhs) rhs) with
         | Some r => r
         | None => match len_pair lhs rhs with
                   | inl (m, n) => m <=? n
                   | inr lhs_infinite => negb lhs_infinite
                   end
         end
    else p_eqb lhs rhs
  end.
Definition op_NUMLESSEQ (lhs rhs : pval) : pm pval := b2 (num_lesseq lhs rhs).

(** NUMGREATEREQ (execution.py:2549-2603) *)
Definition num_greatereq (lhs rhs : pval) : bool :=
  match lhs, rhs with
  | PScal a, PScal b => num_geb (to_number a) (to_number b)
  | PRange lo hi, PRange lo' hi' =>
    match range_compare lo hi lo' hi' with Lt => false | _ => true end
  | _, _ =>
    if is_list_or_range lhs && is_list_or_range rhs
    then match first_decision (num_greater (cmp_fuel lhs rhs))
                              (zip_items (size_hint rhs) lhs)
                              (zip_items (size_hint lhs) rhs) with
         | Some r => r
         | None => match len_pair lhs rhs with
                   | inl (m, n) => m >=? n
                   | inr lhs_infinite => lhs_infinite
                   end
         end
    else p_eqb lhs rhs
  end.
Definition op_NUMGREATEREQ (lhs rhs : pval) : pm pval :=
  b2 (num_greatereq lhs rhs).

Section AllPairs.
  Variable r : pval -> pval -> bool.
  (** [all(r(i, j) for i, j in zip(l1, l2))]. *)
  Fixpoint all_pairs (l1 l2 : list pval) : bool :=
    match l1, l2 with
    | x :: l1', y :: l2' => r x y && all_pairs l1' l2'
    | _, _ => true
    end.
  (** [any(...)]. *)
  Fixpoint any_pairs (l1 l2 : list pval) : bool :=
    match l1, l2 with
    | x :: l1', y :: l2' => r x y || any_pairs l1' l2'
    | _, _ => false
    end.
End AllPairs.

(** NUMEQUAL (execution.py:2474-2493).  If the first [len] succeeds and the
    second raises, or the first raises, the result is False. *)
Fixpoint num_equal (fuel : nat) (lhs rhs : pval) : bool :=
  match fuel with
  | O => false
  | S f =>
    match lhs, rhs with
    | PScal a, PScal b => num_eqb (to_number a) (to_number b)
    | PRange _ _, PRange _ _ => p_eqb lhs rhs
    | _, _ =>
      if is_list_or_range lhs && is_list_or_range rhs
      then match len_pair lhs rhs with
           | inl (m, n) => (m =? n)
                           && all_pairs (num_equal f)
                                        (zip_items (size_hint rhs) lhs)
                                        (zip_items (size_hint lhs) rhs)
           | inr _ => false
           end
      else p_eqb lhs rhs
    end
  end.
Definition op_NUMEQUAL (lhs rhs : pval) : pm pval :=
  b2 (num_equal (cmp_fuel lhs rhs) lhs rhs).

(** NUMNOTEQUAL (execution.py:2715-2732) *)
Fixpoint num_notequal (fuel : nat) (lhs rhs : pval) : bool :=
  match fuel with
  | O => false
  | S f =>
    match lhs, rhs with
    | PScal a, PScal b => negb (num_eqb (to_number a) (to_number b))
    | PRange _ _, PRange _ _ => negb (p_eqb lhs rhs)
    | _, _ =>
      if is_list_or_range lhs && is_list_or_range rhs
      then match len_pair lhs rhs with
           | inl (m, n) => negb (m =? n)
                           || any_pairs (num_notequal f)
                                        (zip_items (size_hint rhs) lhs)
                                        (zip_items (size_hint lhs) rhs)
           | inr _ => true
           end
      else negb (p_eqb lhs rhs)
    end
  end.
Definition op_NUMNOTEQUAL (lhs rhs : pval) : pm pval :=
  b2 (num_notequal (cmp_fuel lhs rhs) lhs rhs).

(** NUMCMP (execution.py:2463-2472) *)
Definition op_NUMCMP (lhs rhs : pval) : pm pval :=
  if num_greater (cmp_fuel lhs rhs) lhs rhs then ret (scal_Z 1)
  else if num_less (cmp_fuel lhs rhs) lhs rhs then ret (scal_Z (-1))
  else ret (scal_Z 0).

(** ** String comparison *)

Definition str_ltb (a b : str) : bool :=
  match str_compare a b with Lt => true | _ => false end.

(** STRLESS (execution.py:3792-3810) *)
Fixpoint str_less (fuel : nat) (lhs rhs : pval) : bool :=
  match fuel with
  | O => false
  | S f =>
    match lhs, rhs with
    | PScal a, PScal b => str_ltb a b
    | PList l, PList l' =>
      match first_decision (str_less f) l l' with
      | Some r => r
      | None => zlen l <? zlen l'
      end
    | _, _ => false
    end
  end.
Definition op_STRLESS (lhs rhs : pval) : pm pval :=
  b2 (str_less (cmp_fuel lhs rhs) lhs rhs).

(** STRGREATER (execution.py:3709-3727) *)
Fixpoint str_greater (fuel : nat) (lhs rhs : pval) : bool :=
  match fuel with
  | O => false
  | S f =>
    match lhs, rhs with
    | PScal a, PScal b => match str_compare a b with Gt => true | _ => false end
    | PList l, PList l' =>
      match first_decision (str_greater f) l l' with
      | Some r => r
      | None => zlen l >? zlen l'
      end
    | _, _ => false
    end
  end.
Definition op_STRGREATER (lhs rhs : pval) : pm pval :=
  b2 (str_greater (cmp_fuel lhs rhs) lhs rhs).

(** STRLESSEQ (execution.py:3812-3830) *)
Definition op_STRLESSEQ (lhs rhs : pval) : pm pval :=
  match lhs, rhs with
  | PScal a, PScal b =>
    b2 match str_compare a b with Gt => false | _ => true end
  | PList l, PList l' =>
    b2 match first_decision (str_less (cmp_fuel lhs rhs)) l l' with
       | Some r => r
       | None => zlen l <=? zlen l'
       end
  | _, _ => b2 (p_eqb lhs rhs)
  end.

(** STRGREATEREQ (execution.py:3729-3747) *)
Definition op_STRGREATEREQ (lhs rhs : pval) : pm pval :=
  match lhs, rhs with
  | PScal a, PScal b =>
    b2 match str_compare a b with Lt => false | _ => true end
  | PList l, PList l' =>
    b2 match first_decision (str_greater (cmp_fuel lhs rhs)) l l' with
       | Some r => r
       | None => zlen l >=? zlen l'
       end
  | _, _ => b2 (p_eqb lhs rhs)
  end.

(** STREQUAL (execution.py:3697-3707): Scalars and Patterns compare by text. *)
Fixpoint str_equal (fuel : nat) (lhs rhs : pval) : bool :=
  match fuel with
  | O => false
  | S f =>
    match lhs, rhs with
    | (PScal a | PPat a _), (PScal b | PPat b _) => str_eqb a b
    | PList l, PList l' => (zlen l =? zlen l') && all_pairs (str_equal f) l l'
    | _, _ => p_eqb lhs rhs
    end
  end.
Definition op_STREQUAL (lhs rhs : pval) : pm pval :=
  b2 (str_equal (cmp_fuel lhs rhs) lhs rhs).

(** STRNOTEQUAL (execution.py:3842-3851): unlike STREQUAL, a Scalar never
    equals a Pattern. *)
Fixpoint str_notequal (fuel : nat) (lhs rhs : pval) : bool :=
  match fuel with
  | O => false
  | S f =>
    match lhs, rhs with
    | PScal a, PScal b => negb (str_eqb a b)
    | PList l, PList l' =>
      negb (zlen l =? zlen l') || any_pairs (str_notequal f) l l'
    | _, _ => negb (p_eqb lhs rhs)
    end
  end.
Definition op_STRNOTEQUAL (lhs rhs : pval) : pm pval :=
  b2 (str_notequal (cmp_fuel lhs rhs) lhs rhs).

(** OBJEQUAL (execution.py:2734-2735) *)
Definition op_OBJEQUAL (lhs rhs : pval) : pm pval := b2 (p_eqb lhs rhs).

(** LENEQUAL (execution.py:2043-2056), LENGREATER (2058-2077), LENLESS
    (2079-2098): lengths with infinity. *)
Definition is_range (v : pval) : bool :=
  match v with PRange _ _ => true | _ => false end.
Definition op_LENEQUAL (lhs rhs : pval) : pm pval :=
  if is_iterable lhs && is_iterable rhs
  then match p_len lhs, p_len rhs with
       | Val m, Val n => b2 (m =? n)
       | _, _ => b2 (infinite lhs && infinite rhs)
       end
  else reject "LENEQUAL".
Definition op_LENGREATER (lhs rhs : pval) : pm pval :=
  if is_iterable lhs && is_iterable rhs
  then match p_len lhs, p_len rhs with
       | Val m, Val n => b2 (m >? n)
       | _, _ => if negb (is_range lhs) then b2 false
                 else if negb (is_range rhs) then b2 true
                 else b2 (infinite lhs && negb (infinite rhs))
       end
  else reject "LENGREATER".
Definition op_LENLESS (lhs rhs : pval) : pm pval :=
  if is_iterable lhs && is_iterable rhs
  then match p_len lhs, p_len rhs with
       | Val m, Val n => b2 (m <? n)
       | _, _ => if negb (is_range lhs) then b2 true
                 else if negb (is_range rhs) then b2 false
                 else b2 (negb (infinite lhs) && infinite rhs)
       end
  else reject "LENLESS".

(** LEN (execution.py:2030-2041), NOT (2450-2452), RVALAND (3463-3464), RVALOR
    (3469-3470), RVALIFTE (3466-3467), REPR (3308-3309), STR (3694-3695), PARENTHESIZE (2793-2795) *)
Definition op_LEN (rhs : pval) : pm pval :=
  if is_iterable rhs
  then match p_len rhs with
       | Val n => ret (scal_Z n)
       | Exn _ => reject "LEN: infinite"
       end
  else reject "LEN".
Definition op_NOT (rhs : pval) : pm pval := b2 (negb (p_bool rhs)).
Definition op_RVALAND (lhs rhs : pval) : pm pval :=
  ret (if p_bool lhs then rhs else lhs).
Definition op_RVALOR (lhs rhs : pval) : pm pval :=
  ret (if p_bool lhs then lhs else rhs).
Definition op_RVALIFTE (t a b : pval) : pm pval := ret (if p_bool t then a else b).
Definition op_REPR (rhs : pval) : pm pval := ret (PScal (p_repr rhs)).
Definition op_STR (fmt : ofmt) (rhs : pval) : pm pval :=
  ret (PScal (p_str fmt rhs)).
