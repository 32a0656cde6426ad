(** * A backtracking matcher for the interpreter's own regular expressions

    Covers the constructs that the fixed regexes of [scanning.py] and
    [ptypes.py] use: classes, sequence, ordered alternation, greedy and lazy
    repetition, option and [$].  [match_re r s] is the rest of [s] after the
    match that Python's [re.match] would find (leftmost alternative first,
    greedy repetition first, backtracking into both).  Repetition bodies of
    all these regexes consume at least one character. *)

From Coq Require Import List NArith Bool Arith.
From Verif Require Import PyStr.
Import ListNotations.

Inductive re : Type :=
| REps
| RCls (p : char -> bool)
| RSeq (a b : re)
| RAlt (a b : re)
| RStar (a : re)        (* greedy a* *)
| RLazy (a : re)        (* lazy a*? *)
| ROpt (a : re)         (* greedy a? *)
| REol.                 (* $: at the end, or before a final newline *)

Section Match.
  Context {X : Type}.

  (** Continuation-passing backtracking match. *)
  Fixpoint rmatch (r : re) (s : str) (k : str -> option X) {struct r}
    : option X :=
    match r with
    | REps => k s
    | RCls p => match s with
                | c :: s' => if p c then k s' else None
                | [] => None
                end
    | RSeq a b => rmatch a s (fun s' => rmatch b s' k)
    | RAlt a b => match rmatch a s k with
                  | Some x => Some x
                  | None => rmatch b s k
                  end
    | RStar a =>
        (fix star (n : nat) (s : str) : option X :=
           match n with
           | O => k s
           | S n' =>
               match rmatch a s (fun s' => if length s' <? length s
                                           then star n' s' else None) with
               | Some x => Some x
               | None => k s
               end
           end) (S (length s)) s
    | RLazy a =>
        (fix star (n : nat) (s : str) : option X :=
           match n with
           | O => k s
           | S n' =>
               match k s with
               | Some x => Some x
               | None =>
                   rmatch a s (fun s' => if length s' <? length s
                                         then star n' s' else None)
               end
           end) (S (length s)) s
    | ROpt a => match rmatch a s k with
                | Some x => Some x
                | None => k s
                end
    | REol => match s with
              | [] => k s
              | [c] => if N.eqb c c_nl then k s else None
              | _ => None
              end
    end.
End Match.

(** [re.match]: remaining input after the match. *)
Definition match_re (r : re) (s : str) : option str := rmatch r s Some.

(** [re.fullmatch]. *)
Definition fullmatch_re (r : re) (s : str) : bool :=
  match rmatch r s (fun s' => match s' with [] => Some tt | _ => None end) with
  | Some _ => true
  | None => false
  end.

(** The matched text, given the rest. *)
Definition matched (s rest : str) : str := firstn (length s - length rest) s.

(** Derived forms. *)
Definition RChar (c : char) : re := RCls (N.eqb c).
Definition RPlus (a : re) : re := RSeq a (RStar a).
Fixpoint RLit (l : str) : re :=
  match l with
  | [] => REps
  | [c] => RChar c
  | c :: l' => RSeq (RChar c) (RLit l')
  end.
Fixpoint RAlts (l : list re) : re :=
  match l with
  | [] => RCls (fun _ => false)
  | [r] => r
  | r :: l' => RAlt r (RAlts l')
  end.
Definition cls_in (s : str) : char -> bool := fun c => existsb (N.eqb c) s.
Definition RDigit : re := RCls is_digit.          (* \d *)
Definition RSpace : re := RCls is_space.          (* \s *)
Definition RDot : re := RCls (fun c => negb (N.eqb c c_nl)).  (* . *)
Definition RAny : re := RCls (fun _ => true).     (* . with DOTALL *)
