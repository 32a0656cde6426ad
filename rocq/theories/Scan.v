(** * scanning.py: from source text to tokens *)

From Coq Require Import String List NArith ZArith Bool  Arith.
From Verif Require Import PyStr PyRe Tokens OpTable.
Import ListNotations.

(** ** The scanner's regular expressions (scanning.py:10-50) *)

Definition cls_lower_digit_us (c : char) : bool :=
  is_lower c || is_ascii_digit c || N.eqb c 95.

(* nameRgx (scanning.py:10-15) *)
Definition name_re : re :=
  RAlts [RPlus (RCls is_upper);
         (* [a-ik-z_] *)
         RCls (fun c => (is_lower c && negb (N.eqb c 106)) || N.eqb c 95);
         (* \$[][()$`'0-9] *)
         RSeq (RChar 36%N) (RCls (fun c => cls_in (s_ "][()$`'") c
                                          || is_ascii_digit c));
         (* \$[a-z][a-z0-9_]* *)
         RSeq (RChar 36%N) (RSeq (RCls is_lower)
                                 (RStar (RCls cls_lower_digit_us)));
         (* \$_{1,3} *)
         RSeq (RChar 36%N) (RSeq (RChar 95%N) (ROpt (RSeq (RChar 95%N)
                                                    (ROpt (RChar 95%N)))));
         (* \\[a-g] *)
         RSeq (RChar c_backslash)
              (RCls (fun c => N.leb 97 c && N.leb c 103))].

(* stringRgx: double quote, any number of non-quotes, double quote
   (scanning.py:16) *)
Definition string_re : re :=
  RSeq (RChar c_dquote)
       (RSeq (RStar (RCls (fun c => negb (N.eqb c c_dquote))))
             (RChar c_dquote)).

(* patternRgx (scanning.py:17): inside backticks, either a character other
   than backtick and backslash, or a backslash and any character but newline *)
Definition pattern_re : re :=
  RSeq (RChar c_backtick)
       (RSeq (RStar (RAlt (RCls (fun c => negb (N.eqb c c_backtick)
                                          && negb (N.eqb c c_backslash)))
                          (RSeq (RChar c_backslash) RDot)))
             (RChar c_backtick)).

(* charRgx = '(.|\n)   (scanning.py:18) *)
Definition char_re : re :=
  RSeq (RChar c_squote) (RAlt RDot (RChar c_nl)).

(* escStringRgx (scanning.py:19): between backslash-quote delimiters, either a
   backslash and a non-quote, or a non-backslash *)
Definition esc_string_re : re :=
  RSeq (RLit [c_backslash; c_dquote])
       (RSeq (RStar (RAlt (RSeq (RChar c_backslash)
                                (RCls (fun c => negb (N.eqb c c_dquote))))
                          (RCls (fun c => negb (N.eqb c c_backslash)))))
             (RLit [c_backslash; c_dquote])).

(* numberRgx = \d+(\.\d+)?   (scanning.py:20) *)
Definition number_re : re :=
  RSeq (RPlus RDigit) (ROpt (RSeq (RChar c_dot) (RPlus RDigit))).

(* symbolsRgx = [][(){};$]|\\\$|EL   (scanning.py:21) *)
Definition symbols_re : re :=
  RAlts [RCls (cls_in (s_ "][(){};$"));
         RLit [c_backslash; 36%N];
         RLit (s_ "EL")].

(** [sorted(operators, key=len, reverse=True)] (scanning.py:27-30).  The
    operators form a Python set with unspecified iteration order; two distinct
    operators of equal length never match at the same place, so any order
    within a length class gives the same matches.  Table order is used. *)
Fixpoint insert_by_len (x : str) (l : list str) : list str :=
  match l with
  | [] => [x]
  | y :: l' => if (length y <? length x)%nat then x :: l
               else y :: insert_by_len x l'
  end.
Definition sorted_ops : list str :=
  Eval vm_compute in
  fold_left (fun acc x => insert_by_len x acc) (map o_text all_ops) [].
Definition oper_re : re := RAlts (map RLit sorted_ops).

(* tokenRgx (scanning.py:33-40) *)
Definition token_re : re :=
  RAlts [name_re; string_re; pattern_re; char_re; esc_string_re; number_re;
         symbols_re; oper_re].

(* lineCommentRgx = (\s*\n\s*;| {2}).*   (scanning.py:47) *)
Definition line_comment_re : re :=
  RSeq (RAlt (RSeq (RStar RSpace)
                   (RSeq (RChar c_nl) (RSeq (RStar RSpace) (RChar 59%N))))
             (RLit [c_space; c_space]))
       (RStar RDot).
(* blockCommentRgx = \{;.*?;\} with DOTALL   (scanning.py:49) *)
Definition block_comment_re : re :=
  RSeq (RLit (s_ "{;")) (RSeq (RLazy RAny) (RLit (s_ ";}"))).
(* whitespaceRgx = \s+   (scanning.py:50) *)
Definition whitespace_re : re := RPlus RSpace.

(** ** newToken (scanning.py:53-75) *)
Definition new_token (text : str) : option token :=
  if is_op_text text then Some (Tok KOperator text)
  else match command_of text with
  | Some _ => Some (Tok KCommand text)
  | None =>
    match text with
    | [] => None      (* Python would raise IndexError; text is never empty *)
    | c :: _ =>
      if N.eqb c c_squote then Some (Tok KChar text)
      else if N.eqb c c_dquote then Some (Tok KString text)
      else if startswith [c_backslash; c_dquote] text
           then Some (Tok KEscString text)
      else if N.eqb c c_backtick then Some (Tok KPattern text)
      else if fullmatch_re symbols_re text then Some (Tok KSymbol text)
      else if fullmatch_re name_re text then Some (Tok KName text)
      else if fullmatch_re number_re text then Some (Tok KNumber text)
      else None
    end
  end.

(** Result of the scanner: tokens (Python [None] is [None]) and the ignored
    characters (for which a warning is printed), or an IncompleteSyntax error.
    [ScanFuel] is the model's out-of-fuel value. *)
Inductive scanres : Type :=
| ScanOk (toks : list (option token)) (ignored : list char)
| ScanIncomplete
| ScanFuel.

Definition scan_cons (t : option token) (r : scanres) : scanres :=
  match r with ScanOk ts ig => ScanOk (t :: ts) ig | _ => r end.
Definition scan_ignore (c : char) (r : scanres) : scanres :=
  match r with ScanOk ts ig => ScanOk ts (c :: ig) | _ => r end.

(** [text.isalpha() and text.isupper()] for a text matched by [token_re]: the
    only such texts are runs of A-Z (every other alternative contains or
    starts with a non-letter or a lowercase letter; single non-ASCII letters
    are never matched). *)
Definition is_upper_run (text : str) : bool :=
  match text with [] => false | _ => forallb is_upper text end.

(** Length of the first token of an uppercase run (scanning.py:102-111). *)
Definition upper_index (text : str) : nat :=
  if str_eqb text (s_ "PIP") then 3
  else if Nat.odd (length text) then 1 else 2.

(** The main loop (scanning.py:83-132). *)
Fixpoint tokenize_loop (fuel : nat) (code : str) : scanres :=
  match code with
  | [] => ScanOk [] []
  | c :: code' =>
    match fuel with
    | O => ScanFuel
    | S fuel' =>
      match match_re line_comment_re code with
      | Some rest => tokenize_loop fuel' rest
      | None =>
      match match_re block_comment_re code with
      | Some rest => tokenize_loop fuel' rest
      | None =>
      if startswith (s_ "{;") code then ScanIncomplete
      else
      match match_re whitespace_re code with
      | Some rest => tokenize_loop fuel' rest
      | None =>
      match match_re token_re code with
      | Some rest =>
          let text := matched code rest in
          let '(text, index) :=
            if is_upper_run text
            then (firstn (upper_index text) text, upper_index text)
            else (text, length text) in
          let '(text, index) :=
            if str_eqb text (s_ "EI") then (s_ "EL", (index - 1)%nat)
            else (text, index) in
          scan_cons (new_token text)
                    (tokenize_loop fuel' (skipn index code))
      | None =>
          if cls_in [c_dquote; c_backtick; c_squote] c
             || startswith [c_backslash; c_dquote] code
          then ScanIncomplete
          else scan_ignore c (tokenize_loop fuel' code')
      end end end end
    end
  end.

(** [tokenize] (scanning.py:78-82): a newline is prefixed. *)
Definition tokenize (code : str) : scanres :=
  let code := c_nl :: code in
  tokenize_loop (length code) code.

(** [scan] (scanning.py:134-138). *)
Definition scan (code : str) : scanres :=
  match tokenize (code ++ [c_nl]) with
  | ScanOk ts ig => ScanOk (ts ++ [None]) ig
  | r => r
  end.

(** [addSpaces] on a token list (scanning.py:140-148). *)
Definition add_spaces (ts : list (option token)) : str :=
  str_join [c_space]
    (flat_map (fun t => match t with Some t => [t_text t] | None => [] end) ts).
