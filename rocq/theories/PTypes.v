(** * ptypes.py: Pip values as pure data

    Scalars and Lists are mutable Python objects; this file models them as
    values (mutation and sharing are the subject of Exec.v). *)

From Coq Require Import String List NArith ZArith Bool Arith.
From Verif Require Import PyStr PyRe PyNum Tokens OpFun OpTable Unparse.
Import ListNotations.
Local Open Scope Z_scope.

(** The Pip types (ptypes.py:31-774).  A Block without return expression has
    [TVal PNil] there (ptypes.py:687-688). *)
Inductive pval : Type :=
| PScal (s : str)                             (* Scalar *)
| PPat (raw : str) (flags : N)                (* Pattern *)
| PList (l : list pval)                       (* List *)
| PRange (lo hi : option Z)                   (* Range *)
| PBlock (sts : list (tree pval)) (ret : tree pval)  (* Block *)
| PNil.                                       (* Nil *)

(** [Scalar(value)] for Python ints and bools (ptypes.py:34-42). *)
Definition scal_Z (z : Z) : pval := PScal (str_of_Z z).
Definition scal_bool (b : bool) : pval := scal_Z (if b then 1 else 0).
Definition scal_num (n : num) : pval := PScal (str_of_num n).

(** ** Range *)

(** [self._lower or 0]. *)
Definition lower0 (lo : option Z) : Z :=
  match lo with Some z => z | None => 0 end.

(** [Range.__init__] on ints / None / nil (ptypes.py:484-507).  The second
    argument is missing ([ANothing]), an int, or nil: a missing (or None)
    upper bound makes the single argument the upper bound. *)
Inductive range_arg : Type := ANothing | AInt (z : Z) | ANilVal.
Definition mk_range (value : option Z) (upper : range_arg) : pval :=
  match upper with
  | ANothing => PRange None value
  | AInt u => PRange value (Some u)
  | ANilVal => PRange value None
  end.

(** [Range.isEmpty] (ptypes.py:519-521). *)
Definition range_is_empty (lo hi : option Z) : bool :=
  match hi with
  | Some u => u <=? lower0 lo
  | None => false
  end.

(** [Range.__len__] (ptypes.py:549-555). *)
Definition range_len (lo hi : option Z) : res Z :=
  match hi with
  | Some u => Val (Z.max 0 (u - lower0 lo))
  | None => Exn ValueError
  end.

(** [Range.__iter__] of a finite Range, as ints (ptypes.py:590-598). *)
Definition range_ints (lo : option Z) (u : Z) : list Z := zseq (lower0 lo) u.

(** [Range.__contains__] on a Scalar (ptypes.py:566-576). *)
Definition range_contains (lo hi : option Z) (s : str) : bool :=
  num_leb (NI (lower0 lo)) (to_number s)
  && match hi with
     | Some u => num_ltb (to_number s) (NI u)
     | None => true
     end.

(** ** Truth value, emptiness, finiteness *)

Definition p_is_empty (v : pval) : bool :=
  match v with
  | PScal s => match s with [] => true | _ => false end
  | PPat r _ => match r with [] => true | _ => false end
  | PList l => match l with [] => true | _ => false end
  | PRange lo hi => range_is_empty lo hi
  | PBlock sts ret => match sts, ret with
                      | [], TVal PNil => true
                      | _, _ => false
                      end
  | PNil => true
  end.

(** [__bool__] (ptypes.py:78, 279, 379, 539, 717, 759). *)
Definition p_bool (v : pval) : bool :=
  match v with
  | PScal s => scalar_bool s
  | _ => negb (p_is_empty v)
  end.

Definition p_is_finite (v : pval) : bool :=
  match v with PRange _ None => false | _ => true end.

(** ** repr *)

(** [Scalar.__repr__] (ptypes.py:56-70). *)
Definition scalar_repr (s : str) : str :=
  let m := match match_re pip_float_re s with
           | Some r => Some r
           | None => match_re int_re s
           end in
  match m with
  | Some [] => s
  | _ =>
    if existsb (N.eqb c_dquote) s
    then s_ "\""" ++ str_replace [c_backslash] [c_backslash; c_backslash] s
         ++ s_ "\"""
    else [c_dquote] ++ s ++ [c_dquote]
  end.

(** Regex flag bits of Python's [re]: ASCII 256, IGNORECASE 2, MULTILINE 8,
    DOTALL 16. *)
Definition flag_ascii : N := 256.
Definition flag_ignorecase : N := 2.
Definition flag_multiline : N := 8.
Definition flag_dotall : N := 16.
Definition has_flag (fl bit : N) : bool := negb (N.eqb (N.land fl bit) 0).

(** [Pattern.__repr__] (ptypes.py:267-277). *)
Definition pattern_repr (raw : str) (fl : N) : str :=
  (if has_flag fl flag_ascii then s_ "A" else [])
  ++ (if has_flag fl flag_ignorecase then s_ "-" else [])
  ++ (if has_flag fl flag_multiline then s_ "," else [])
  ++ (if has_flag fl flag_dotall then s_ "." else [])
  ++ [c_backtick] ++ str_replace [c_backtick] [c_backslash; c_backtick] raw
  ++ [c_backtick].

Definition bound_str (b : option Z) : str :=
  match b with Some z => str_of_Z z | None => s_ "()" end.

(** [Range.__repr__] (ptypes.py:534-537). *)
Definition range_repr (lo hi : option Z) : str :=
  s_ "(" ++ bound_str lo ++ s_ "," ++ bound_str hi ++ s_ ")".

(** [__repr__] of all types; Block: ptypes.py:713-715 with [parsing.unparse]
    unfolded one step. *)
Fixpoint p_repr (v : pval) : str :=
  match v with
  | PScal s => scalar_repr s
  | PPat r fl => pattern_repr r fl
  | PList l => s_ "[" ++ str_join (s_ ";") (map p_repr l) ++ s_ "]"
  | PRange lo hi => range_repr lo hi
  | PBlock sts ret =>
    s_ "{" ++ strip (cls_in (s_ "; "))
                    (concat (map (fun x => unparse_node p_repr x ++ s_ "; ")
                                 sts)
                     ++ unparse_node p_repr ret ++ s_ "; ") ++ s_ "}"
  | PNil => s_ "()"
  end.

(** ** str *)

(** [List.outFormat] (ptypes.py:304-313). *)
Inductive ofmt : Set := FmtNone | Fmt_p | Fmt_n | Fmt_s | Fmt_l | Fmt_P | Fmt_S.

(** [str(List)] for a flat List of Scalars, used for finite Ranges
    (ptypes.py:526-532, 345-368): the sub-formats l and S act on List items
    only. *)
Definition str_flat (fmt : ofmt) (items : list str) : str :=
  match fmt with
  | FmtNone => concat items
  | Fmt_p => s_ "[" ++ str_join (s_ ";") (map scalar_repr items) ++ s_ "]"
  | Fmt_n | Fmt_l | Fmt_S => str_join [c_nl] items
  | Fmt_s => str_join [c_space] items
  | Fmt_P => str_join [c_nl] (map scalar_repr items)
  end.

Definition range_str (fmt : ofmt) (lo hi : option Z) : str :=
  match hi with
  | Some u => str_flat fmt (map str_of_Z (range_ints lo u))
  | None => range_repr lo hi
  end.

(** [List.joined] (ptypes.py:370-374) given [str] for the non-List items. *)
Fixpoint p_joined (str_item : pval -> str) (sep : str) (v : pval) : str :=
  match v with
  | PList l => str_join sep (map (p_joined str_item sep) l)
  | _ => str_item v
  end.

(** [str] of everything but Lists. *)
Definition str_nonlist (fmt : ofmt) (v : pval) : str :=
  match v with
  | PScal s => s
  | PPat r _ => r
  | PRange lo hi => range_str fmt lo hi
  | PBlock _ _ => p_repr v
  | PNil => []
  | PList _ => []
  end.

(** [__str__] (ptypes.py:53, 264, 345-368, 526, 710, 753). *)
Fixpoint p_str (fmt : ofmt) (v : pval) : str :=
  match v with
  | PList l =>
    match fmt with
    | FmtNone => concat (map (p_str fmt) l)
    | Fmt_p => p_repr v
    | Fmt_n => str_join [c_nl] (map (p_str fmt) l)
    | Fmt_s => str_join [c_space] (map (p_str fmt) l)
    | Fmt_l => str_join [c_nl] (map (p_joined (str_nonlist fmt) []) l)
    | Fmt_P => str_join [c_nl] (map p_repr l)
    | Fmt_S => str_join [c_nl] (map (p_joined (str_nonlist fmt) [c_space]) l)
    end
  | _ => str_nonlist fmt v
  end.

(** ** Equality *)

Definition optZ_eqb (a b : option Z) : bool :=
  match a, b with
  | Some x, Some y => x =? y
  | None, None => true
  | _, _ => false
  end.

(** Python [==] on parse trees: tokens, operators and commands compare by text
    only (tokens.py:12-13), lists item by item.  A statement list and an
    operator or command node never occur at the same position below equal
    ancestors, so comparing different kinds of list is [false] here. *)
Section TreeEq.
  Context {V : Type}.
  Variable veq : V -> V -> bool.
  Fixpoint tree_eqb (a b : tree V) {struct a} : bool :=
    let all_eqb := fix go (l1 l2 : list (tree V)) : bool :=
      match l1, l2 with
      | [], [] => true
      | x :: l1', y :: l2' => tree_eqb x y && go l1' l2'
      | _, _ => false
      end in
    match a, b with
    | TTok x, TTok y => str_eqb (t_text x) (t_text y)
    | TVal x, TVal y => veq x y
    | TOpr x, TOpr y => str_eqb (o_text x) (o_text y)
    | TTok x, TOpr y => str_eqb (t_text x) (o_text y)
    | TOpr x, TTok y => str_eqb (o_text x) (t_text y)
    | TApp o l1, TApp p l2 => str_eqb (o_text o) (o_text p) && all_eqb l1 l2
    | TBlk l1, TBlk l2 => all_eqb l1 l2
    | TCmd c l1, TCmd d l2 => str_eqb (c_text c) (c_text d) && all_eqb l1 l2
    | _, _ => false
    end.
End TreeEq.

(** [__eq__] (ptypes.py:82, 283, 382, 542, 720, 765). *)
Fixpoint p_eqb (a b : pval) {struct a} : bool :=
  match a, b with
  | PScal s, PScal t => str_eqb s t
  | PPat r f, PPat r' f' => str_eqb r r' && N.eqb f f'
  | PList l, PList l' =>
    (fix go (l1 l2 : list pval) : bool :=
       match l1, l2 with
       | [], [] => true
       | x :: l1', y :: l2' => p_eqb x y && go l1' l2'
       | _, _ => false
       end) l l'
  | PRange lo hi, PRange lo' hi' => optZ_eqb lo lo' && optZ_eqb hi hi'
  | PBlock s r, PBlock s' r' =>
    (fix go (l1 l2 : list (tree pval)) : bool :=
       match l1, l2 with
       | [], [] => true
       | x :: l1', y :: l2' => tree_eqb p_eqb x y && go l1' l2'
       | _, _ => false
       end) s s' && tree_eqb p_eqb r r'
  | PNil, PNil => true
  | _, _ => false
  end.

(** ** Sequences: iteration, length, indexing, slicing *)

Definition chars (s : str) : list pval := map (fun c => PScal [c]) s.

(** Items produced by [for item in v].  Iterating an infinite Range never
    ends; Blocks are not iterable. *)
Definition p_iter (v : pval) : res (list pval) :=
  match v with
  | PScal s => Val (chars s)
  | PPat r _ => Val (chars r)
  | PList l => Val l
  | PRange lo (Some u) => Val (map scal_Z (range_ints lo u))
  | PRange _ None => Exn Hang
  | PBlock _ _ => Exn TypeError
  | PNil => Val []
  end.

(** [list(v)]: asks for the length first, so an infinite Range raises
    ValueError. *)
Definition p_list (v : pval) : res (list pval) :=
  match v with
  | PRange _ None => Exn ValueError
  | _ => p_iter v
  end.

(** [len(v)]. *)
Definition p_len (v : pval) : res Z :=
  match v with
  | PScal s => Val (zlen s)
  | PPat r _ => Val (zlen r)
  | PList l => Val (zlen l)
  | PRange lo hi => range_len lo hi
  | PBlock _ _ | PNil => Exn TypeError
  end.

Section Seq.
  Context {A : Type}.

  (** [index %= len(value); value[index]] (ptypes.py:114-119, 405-410);
      [None] is the IndexError on the empty sequence. *)
  Definition seq_index (v : list A) (i : Z) : option A :=
    match v with
    | [] => None
    | _ => znth v (i mod zlen v)
    end.

  (** The first while loop of slicing (ptypes.py:134-137, 425-428); [None] is
      the model's out-of-fuel value. *)
  Fixpoint extend_left (fuel : nat) (v rep : list A) (start stop : Z)
    : option (list A * Z * Z) :=
    if start <? 0 then
      match fuel with
      | O => None
      | S f => extend_left f v (v ++ rep) (start + zlen v) (stop + zlen v)
      end
    else Some (rep, start, stop).

  (** The second while loop (ptypes.py:138-139, 429-430). *)
  Fixpoint extend_right (fuel : nat) (v rep : list A) (stop : Z)
    : option (list A) :=
    if zlen rep <? stop then
      match fuel with
      | O => None
      | S f => extend_right f v (rep ++ v) stop
      end
    else Some rep.

  (** Slicing with wrap-around (ptypes.py:120-140, 411-431). *)
  Definition seq_slice (v : list A) (start stop : option Z)
    : option (list A) :=
    match v with
    | [] => Some []
    | _ =>
      let len := zlen v in
      let a := match start with Some z => z | None => 0 end in
      let b := match stop with Some z => z | None => len end in
      let a := if a <? 0 then a + len else a in
      let b := if b <? 0 then b + len else b in
      if b <=? a then Some []
      else
        match extend_left (Z.to_nat (- a)) v v a b with
        | None => None
        | Some (rep, a, b) =>
          match extend_right (Z.to_nat b) v rep b with
          | None => None
          | Some rep => Some (py_slice (Some a) (Some b) rep)
          end
        end
    end.
End Seq.

(** Index values as used by Lvals and AT: an int or a slice. *)
Inductive idx : Type :=
| IInt (z : Z)
| ISlice (a b : option Z).

Definition of_option {A} (e : exn) (x : option A) : res A :=
  match x with Some a => Val a | None => Exn e end.

(** [range(lower, upper)[start:stop]] converted back to a Range
    (ptypes.py:631-634); Python slices of a range keep the clamped bounds. *)
Definition range_py_slice (lo : option Z) (u : Z) (a b : Z) : pval :=
  let l := lower0 lo in
  let len := Z.max 0 (u - l) in
  mk_range (Some (l + clamp_bound len a)) (AInt (l + clamp_bound len b)).

(** [__getitem__] with an int or slice (ptypes.py:114-142, 405-433, 600-659,
    773-774).  Slices never exhaust the fuel (proved), so that case is mapped
    to [Hang]. *)
Definition p_getitem (v : pval) (i : idx) : res pval :=
  match v, i with
  | PScal s, IInt z =>
    rbind (of_option IndexError (seq_index s z)) (fun c => Val (PScal [c]))
  | PScal s, ISlice a b =>
    rbind (of_option Hang (seq_slice s a b)) (fun t => Val (PScal t))
  | PList l, IInt z => of_option IndexError (seq_index l z)
  | PList l, ISlice a b =>
    rbind (of_option Hang (seq_slice l a b)) (fun t => Val (PList t))
  | PRange lo hi, IInt z =>
    if range_is_empty lo hi then Exn IndexError
    else match hi with
         | None => if z <? 0 then Val PNil else Val (scal_Z (lower0 lo + z))
         | Some u => Val (scal_Z (lower0 lo
                                  + z mod (Z.max 0 (u - lower0 lo))))
         end
  | PRange lo hi, ISlice a b =>
    if range_is_empty lo hi then Val v
    else match hi with
         | Some u =>
           let len := Z.max 0 (u - lower0 lo) in
           let a := match a with Some z => z | None => 0 end in
           let b := match b with Some z => z | None => len end in
           if (- len <=? a) && (b <=? len)
           then Val (range_py_slice lo u a b)
           else rbind (of_option Hang
                         (seq_slice (map scal_Z (range_ints lo u))
                                    (Some a) (Some b)))
                      (fun t => Val (PList t))
         | None =>
           let neg x := match x with Some z => z <? 0 | None => false end in
           if neg a || neg b then Val PNil
           else
             let new_lower := match a with
                              | None => lo
                              | Some z => Some (lower0 lo + z)
                              end in
             let new_upper := match b with
                              | None => ANilVal
                              | Some z => AInt (lower0 lo + z)
                              end in
             Val (mk_range new_lower new_upper)
         end
  | PNil, _ => Val PNil
  | PPat _ _, _ | PBlock _ _, _ => Exn TypeError
  end.

(** Map a partial function over a list, stopping at the first exception. *)
Section MapR.
  Context {A B : Type}.
  Variable f : A -> res B.
  Fixpoint mapR (l : list A) : res (list B) :=
    match l with
    | [] => Val []
    | x :: l' => rbind (f x) (fun y => rbind (mapR l') (fun ys => Val (y :: ys)))
    end.
End MapR.

(** [__getitem__] with a Pip value as index: Lists select several items
    (ptypes.py:106-112, 397-403, 600-618).  Indexing a Range with a
    non-iterable falls off the end of the method and returns Python's None,
    which is outside the model. *)
Fixpoint p_getitem_val (v : pval) (index : pval) {struct index} : res pval :=
  match v with
  | PNil => Val PNil
  | PPat _ _ | PBlock _ _ => Exn TypeError
  | _ =>
    match index with
    | PList is_ => rbind (mapR (fun i => p_getitem_val v i) is_) (fun l => Val (PList l))
    | PScal s => p_getitem v (IInt (scalar_int s))
    | PRange lo hi => p_getitem v (ISlice lo hi)
    | _ => match v with PRange _ _ => Exn Unmodelled | _ => Exn TypeError end
    end
  end.

(** [item in v] (ptypes.py:100, 394, 566); Pattern and Nil define only
    [__iter__], so Python searches by iterating; Block defines neither. *)
Definition p_contains (v item : pval) : res bool :=
  match v with
  | PScal s => Val match item with PScal t => str_contains t s | _ => false end
  | PPat r _ => Val (existsb (fun x => p_eqb x item) (chars r))
  | PList l => Val (existsb (fun x => p_eqb x item) l)
  | PRange lo hi => Val match item with
                        | PScal t => range_contains lo hi t
                        | _ => false
                        end
  | PBlock _ _ => Exn TypeError
  | PNil => Val false
  end.

(** [v.index(item, start)] (ptypes.py:162, 472, 665), [start >= 0]. *)
Fixpoint list_index_from (item : pval) (i : nat) (l : list pval) : option nat :=
  match l with
  | [] => None
  | x :: l' => if p_eqb x item then Some i else list_index_from item (S i) l'
  end.

Definition p_index (v item : pval) (start : nat) : res Z :=
  match v with
  | PScal s =>
    match item with
    | PScal t => match str_index t s start with
                 | Some n => Val (Z.of_nat n)
                 | None => Exn ValueError
                 end
    | _ => Exn TypeError
    end
  | PList l => match list_index_from item start (skipn start l) with
               | Some n => Val (Z.of_nat n)
               | None => Exn ValueError
               end
  | PRange lo hi =>
    match item with
    | PScal t =>
      rbind (p_getitem v (ISlice (Some (Z.of_nat start)) None)) (fun sub =>
      rbind (p_contains sub item) (fun b =>
        if b
        then if num_eqb (NI (scalar_int t)) (to_number t)
             then Val (scalar_int t - lower0 lo)
             else Exn ValueError
        else Exn ValueError))
    | _ => Exn TypeError
    end
  | _ => Exn AttributeError
  end.

(** [v.count(item)] (ptypes.py:156, 443, 661). *)
Definition p_count (v item : pval) : res pval :=
  match v with
  | PScal s => match item with
               | PScal t => Val (scal_Z (Z.of_nat (str_count t s)))
               | _ => Val PNil
               end
  | PList l => Val (scal_Z (Z.of_nat (List.length
                                        (filter (fun x => p_eqb x item) l))))
  | PRange _ _ => rbind (p_contains v item) (fun b => Val (scal_bool b))
  | _ => Exn AttributeError
  end.

(** ** Numeric keys: the result of [toNumber] (ptypes.py:90, 293, 390, 557,
    727, 770): a number, or a Python list of such for Lists and Ranges. *)
Inductive key : Type :=
| KNum (n : num)
| KList (l : list key).

Fixpoint p_to_number (v : pval) : key :=
  match v with
  | PScal s => KNum (to_number s)
  | PList l => KList (map p_to_number l)
  | PRange lo (Some u) => KList (map (fun z => KNum (NI z)) (range_ints lo u))
  | PRange _ None => KList []
  | _ => KNum (NI 0)
  end.

(** ** Literals: [toPipType] on tokens (ptypes.py:792-816) *)
Definition of_token (t : token) : res pval :=
  let x := t_text t in
  match t_kind t with
  | KNumber => Val (PScal x)
  | KString => Val (PScal (py_slice (Some 1) (Some (-1)) x))
  | KPattern => Val (PPat (str_replace [c_backslash; c_backtick] [c_backtick]
                              (py_slice (Some 1) (Some (-1)) x)) 0)
  | KChar => match nth_error x 1 with
             | Some c => Val (PScal [c])
             | None => Exn IndexError
             end
  | KEscString =>
    Val (PScal (str_replace [c_backslash; c_backslash] [c_backslash]
                  (py_slice (Some 2) (Some (-2)) x)))
  | KNil => Val PNil
  | _ => Exn TypeError
  end.
