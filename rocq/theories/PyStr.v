(** * Python strings and list helpers

    A Python [str] is a sequence of Unicode code points; here a [list N].
    This file contains definitions only. *)

From Coq Require Import String List NArith ZArith Bool Ascii .
Import ListNotations.

Definition char := N.
Definition str := list char.

(** Literal helper: ASCII text to code points. *)
Definition s_ (x : string) : str := map N_of_ascii (list_ascii_of_string x).

Definition c_nl : char := 10%N.
Definition c_space : char := 32%N.
Definition c_dquote : char := 34%N.
Definition c_squote : char := 39%N.
Definition c_backslash : char := 92%N.
Definition c_backtick : char := 96%N.
Definition c_minus : char := 45%N.
Definition c_dot : char := 46%N.

(** Equality of strings (Python [==] on [str]). *)
Fixpoint str_eqb (a b : str) : bool :=
  match a, b with
  | [], [] => true
  | x :: a', y :: b' => N.eqb x y && str_eqb a' b'
  | _, _ => false
  end.

(** [len]. *)
Definition zlen {A} (l : list A) : Z := Z.of_nat (List.length l).

(** Code points [c] with [chr(c).isspace()], equivalently matching [\s]
    (Unicode 14, CPython 3.11). *)
Definition space_table : list N :=
  [9; 10; 11; 12; 13; 28; 29; 30; 31; 32; 133; 160; 5760; 8192; 8193; 8194;
   8195; 8196; 8197; 8198; 8199; 8200; 8201; 8202; 8232; 8233; 8239; 8287;
   12288]%N.

Definition is_space (c : char) : bool := existsb (N.eqb c) space_table.

(** The digit zero of each block of ten decimal digits (category Nd, i.e. the
    characters matched by [\d] and accepted by [int]/[float]). *)
Definition zero_table : list N :=
  [48; 1632; 1776; 1984; 2406; 2534; 2662; 2790; 2918; 3046; 3174; 3302; 3430;
   3558; 3664; 3792; 3872; 4160; 4240; 6112; 6160; 6470; 6608; 6784; 6800;
   6992; 7088; 7232; 7248; 42528; 43216; 43264; 43472; 43504; 43600; 44016;
   65296; 66720; 68912; 69734; 69872; 69942; 70096; 70384; 70736; 70864;
   71248; 71360; 71472; 71904; 72016; 72784; 73040; 73120; 92768; 92864;
   93008; 120782; 120792; 120802; 120812; 120822; 123200; 123632; 125264;
   130032]%N.

(** Value of a decimal digit character. *)
Fixpoint digit_value_in (tbl : list N) (c : char) : option N :=
  match tbl with
  | [] => None
  | z :: tbl' => if (N.leb z c && N.ltb c (z + 10))%bool then Some (c - z)%N
                 else digit_value_in tbl' c
  end.

Definition digit_value (c : char) : option N := digit_value_in zero_table c.

Definition is_digit (c : char) : bool :=
  match digit_value c with Some _ => true | None => false end.

(** ASCII classes used by the scanner's regexes. *)
Definition is_upper (c : char) : bool := (N.leb 65 c && N.leb c 90)%bool.
Definition is_lower (c : char) : bool := (N.leb 97 c && N.leb c 122)%bool.
Definition is_ascii_digit (c : char) : bool := (N.leb 48 c && N.leb c 57)%bool.

(** Longest prefix satisfying [p] is dropped ([str.lstrip]-like). *)
Fixpoint drop_while {A} (p : A -> bool) (l : list A) : list A :=
  match l with
  | [] => []
  | x :: l' => if p x then drop_while p l' else l
  end.

Fixpoint take_while {A} (p : A -> bool) (l : list A) : list A :=
  match l with
  | [] => []
  | x :: l' => if p x then x :: take_while p l' else []
  end.

(** [s.lstrip(chars)], [s.rstrip(chars)], [s.strip(chars)], with the set of
    characters given as a predicate; [is_space] for the no-argument form. *)
Definition lstrip (p : char -> bool) (s : str) : str := drop_while p s.
Definition rstrip (p : char -> bool) (s : str) : str :=
  rev (drop_while p (rev s)).
Definition strip (p : char -> bool) (s : str) : str := rstrip p (lstrip p s).

(** [s.startswith(p)]. *)
Fixpoint startswith (p s : str) : bool :=
  match p, s with
  | [], _ => true
  | x :: p', y :: s' => N.eqb x y && startswith p' s'
  | _ :: _, [] => false
  end.

Definition endswith (p s : str) : bool := startswith (rev p) (rev s).

(** Position of the first occurrence of [sub] in [s] ([s.find(sub)]). *)
Fixpoint str_find (sub s : str) : option nat :=
  if startswith sub s then Some 0%nat
  else match s with
       | [] => None
       | _ :: s' => option_map S (str_find sub s')
       end.

(** [sub in s]. *)
Definition str_contains (sub s : str) : bool :=
  match str_find sub s with Some _ => true | None => false end.

(** [s.index(sub, start)] for [start >= 0]; [None] is [ValueError].  Python
    fails for a start beyond [len(s)] even if [sub] is empty. *)
Definition str_index (sub s : str) (start : nat) : option nat :=
  if Nat.ltb (List.length s) start then None
  else option_map (Nat.add start) (str_find sub (skipn start s)).

(** [sep.join(l)]. *)
Fixpoint str_join (sep : str) (l : list str) : str :=
  match l with
  | [] => []
  | [x] => x
  | x :: l' => x ++ sep ++ str_join sep l'
  end.

(** Non-overlapping left-to-right scan for [old]; [skip] counts characters of
    the current match still to be passed. *)
Fixpoint replace_ne (old new : str) (skip : nat) (s : str) : str :=
  match s with
  | [] => []
  | c :: s' =>
      match skip with
      | S k => replace_ne old new k s'
      | O => if startswith old s
             then new ++ replace_ne old new (List.length old - 1) s'
             else c :: replace_ne old new 0 s'
      end
  end.

(** [s.replace(old, new)]. *)
Definition str_replace (old new s : str) : str :=
  match old with
  | [] => new ++ flat_map (fun c => c :: new) s
  | _ => replace_ne old new 0 s
  end.

(** [s.split(sep)] for non-empty [sep]; [cur] is the current piece. *)
Fixpoint split_ne (sep : str) (skip : nat) (cur : str) (s : str) : list str :=
  match s with
  | [] => [cur]
  | c :: s' =>
      match skip with
      | S k => split_ne sep k cur s'
      | O => if startswith sep s
             then cur :: split_ne sep (List.length sep - 1) [] s'
             else split_ne sep 0 (cur ++ [c]) s'
      end
  end.

Definition str_split (sep s : str) : list str := split_ne sep 0 [] s.

(** [s.count(sub)] for non-empty [sub] (non-overlapping). *)
Fixpoint count_ne (sub : str) (skip : nat) (s : str) : nat :=
  match s with
  | [] => 0
  | _ :: s' =>
      match skip with
      | S k => count_ne sub k s'
      | O => if startswith sub s then S (count_ne sub (List.length sub - 1) s')
             else count_ne sub 0 s'
      end
  end.

Definition str_count (sub s : str) : nat :=
  match sub with
  | [] => S (List.length s)
  | _ => count_ne sub 0 s
  end.

(** Repetition [s * n] / [l * n] for a Python int [n]. *)
Definition py_repeat {A} (n : Z) (l : list A) : list A :=
  List.concat (List.repeat l (Z.to_nat n)).

(** Lexicographic comparison of strings ([<] on [str]). *)
Fixpoint str_compare (a b : str) : comparison :=
  match a, b with
  | [], [] => Eq
  | [], _ :: _ => Lt
  | _ :: _, [] => Gt
  | x :: a', y :: b' =>
      match N.compare x y with
      | Eq => str_compare a' b'
      | c => c
      end
  end.

(** Element at a non-negative Python index. *)
Definition znth {A} (l : list A) (i : Z) : option A :=
  if (i <? 0)%Z then None else nth_error l (Z.to_nat i).

(** Python slice bounds for step 1: negative bounds count from the end, then
    bounds are clamped to [0, len]. *)
Definition clamp_bound (len i : Z) : Z :=
  let i := (if i <? 0 then i + len else i)%Z in
  Z.max 0 (Z.min i len).

(** [l[start:stop]] with optional bounds. *)
Definition py_slice {A} (start stop : option Z) (l : list A) : list A :=
  let len := zlen l in
  let a := match start with Some i => clamp_bound len i | None => 0%Z end in
  let b := match stop with Some i => clamp_bound len i | None => len end in
  firstn (Z.to_nat (b - a)) (skipn (Z.to_nat a) l).

(** [range(lo, hi)] as a list of ints. *)
Definition zseq (lo hi : Z) : list Z :=
  map (fun k => lo + Z.of_nat k)%Z (seq 0 (Z.to_nat (hi - lo))).
