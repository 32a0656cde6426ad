(** * Specification of the lexical structure of programs *)

From Coq Require Import String List NArith Bool Arith.
From Verif Require Import PyStr Tokens OpTable.
Import ListNotations.

Local Notation dq := 34%N.     (* double quote *)
Local Notation bq := 96%N.     (* backtick *)
Local Notation sq := 39%N.     (* single quote *)
Local Notation bs := 92%N.     (* backslash *)
Local Notation dollar := 36%N.
Local Notation nl := 10%N.
Local Notation us := 95%N.     (* underscore *)

(** ** Token texts *)

Inductive name_text : str -> Prop :=
| name_upper : forall u, u <> [] -> Forall (fun c => is_upper c = true) u ->
    length u <= 2 \/ u = s_ "PIP" -> name_text u
| name_lower : forall c, is_lower c = true -> c <> 106%N -> name_text [c]
| name_under : name_text [us]
| name_special : forall c, In c (s_ "][()$`'0123456789") -> name_text [dollar; c]
| name_long : forall c s, is_lower c = true ->
    Forall (fun d => is_lower d = true \/ is_ascii_digit d = true \/ d = us) s ->
    name_text (dollar :: c :: s)
| name_match : forall n, 1 <= n <= 3 -> name_text (dollar :: repeat us n)
| name_args : forall c, In c (s_ "abcdefg") -> name_text [bs; c].

(** Bodies of patterns and of escaped strings. *)
Inductive pattern_body : str -> Prop :=
| pb_nil : pattern_body []
| pb_plain : forall c b, c <> bq -> c <> bs -> pattern_body b -> pattern_body (c :: b)
| pb_esc : forall c b, c <> nl -> pattern_body b -> pattern_body (bs :: c :: b).
Inductive esc_body : str -> Prop :=
| eb_nil : esc_body []
| eb_plain : forall c b, c <> bs -> esc_body b -> esc_body (c :: b)
| eb_esc : forall c b, c <> dq -> esc_body b -> esc_body (bs :: c :: b).

Definition digits (s : str) : Prop := s <> [] /\ Forall (fun c => is_digit c = true) s.

Definition operator_text (s : str) : Prop := exists o, In o all_ops /\ o_text o = s.
Definition command_text (s : str) : Prop := exists c, In c cmd_table /\ c_text c = s.

Definition token_text (t : token) : Prop :=
  let s := t_text t in
  match t_kind t with
  | KOperator => operator_text s
  | KCommand => command_text s
  | KSymbol => In s (map s_ ["]"; "["; "("; ")"; "{"; "}"; ";"; "$"; "\$"; "EL"]%string)
  | KName => name_text s /\ ~ operator_text s /\ ~ command_text s /\ s <> s_ "EL"
  | KString => exists b, s = dq :: b ++ [dq] /\ ~ In dq b
  | KPattern => exists b, s = bq :: b ++ [bq] /\ pattern_body b
  | KChar => exists c, s = [sq; c]
  | KEscString => exists b, s = [bs; dq] ++ b ++ [bs; dq] /\ esc_body b
  | KNumber => digits s \/ exists a b, s = a ++ s_ "." ++ b /\ digits a /\ digits b
  | KNil => False
  end.

(** [t] is a token at the start of [s]. *)
Definition starts_with_token (s : str) (t : token) : Prop :=
  token_text t /\ exists rest, s = t_text t ++ rest.

(** ** What separates tokens *)

Definition blank (w : str) : Prop := Forall (fun c => is_space c = true) w.
Definition at_line_end (s : str) : Prop := s = [] \/ exists s', s = nl :: s'.
Definition starts_blank (s : str) : Prop := exists c s', s = c :: s' /\ is_space c = true.

(** [gap g s]: text [g] before [s] is a comment or white space. *)
Inductive gap : str -> str -> Prop :=
| gap_semicolon : forall w body s, blank w -> In nl w -> ~ In nl body -> at_line_end s ->
    gap (w ++ s_ ";" ++ body) s
| gap_two_spaces : forall body s, ~ In nl body -> at_line_end s ->
    (forall w s', s_ "  " ++ body ++ s = w ++ s_ ";" ++ s' -> blank w -> ~ In nl w) ->
    gap (s_ "  " ++ body) s
| gap_block : forall body s,
    (forall a b, body ++ s_ ";}" = a ++ s_ ";}" ++ b -> b = []) ->
    gap (s_ "{;" ++ body ++ s_ ";}") s
| gap_blank : forall w s, w <> [] -> blank w -> ~ starts_blank s ->
    (forall w', w <> s_ "  " ++ w') ->
    (In nl w -> forall s', s <> s_ ";" ++ s') ->
    gap w s.

(** ** One step of reading *)

Definition starts_upper (s : str) : Prop := exists c s', s = c :: s' /\ is_upper c = true.

Inductive step : str -> list token -> list char -> str -> Prop :=
| step_gap : forall g s, gap g s -> step (g ++ s) [] [] s
| step_token : forall t s, token_text t -> ~ starts_upper (t_text t) ->
    (forall t', starts_with_token (t_text t ++ s) t' -> length (t_text t') <= length (t_text t)) ->
    (forall s', t_text t ++ s <> s_ "{;" ++ s') ->
    step (t_text t ++ s) [t] [] s
  (** A run of upper-case letters: the letters [u] are the first token, [v] the
      rest of the run. *)
| step_upper : forall t v s, token_text t ->
    Forall (fun c => is_upper c = true) (t_text t ++ v) -> ~ starts_upper s ->
    t_text t ++ v <> s_ "PIP" -> t_text t <> s_ "EI" ->
    length (t_text t) = (if Nat.odd (length (t_text t ++ v)) then 1 else 2) ->
    step (t_text t ++ v ++ s) [t] [] (v ++ s)
| step_pip : forall t s, token_text t -> t_text t = s_ "PIP" -> ~ starts_upper s ->
    step (t_text t ++ s) [t] [] s
  (** EI is read as EL, leaving the I. *)
| step_elseif : forall v s, Forall (fun c => is_upper c = true) v -> Nat.even (length v) = true ->
    ~ starts_upper s ->
    step (s_ "EI" ++ v ++ s) [Tok KSymbol (s_ "EL")] [] (s_ "I" ++ v ++ s)
  (** A character is skipped (with a warning) only if no token starts with it. *)
| step_ignore : forall c s, (forall t, ~ starts_with_token (c :: s) t) ->
    is_space c = false ->
    c <> dq -> c <> bq -> c <> sq -> (forall s', c :: s <> [bs; dq] ++ s') ->
    step (c :: s) [] [c] s.

(** Reading some of a text; the rest is the last argument. *)
Inductive reads : str -> list token -> list char -> str -> Prop :=
| reads_stop : forall s, reads s [] [] s
| reads_step : forall s s' s'' t1 ts i1 ig, step s t1 i1 s' -> reads s' ts ig s'' ->
    reads s (t1 ++ ts) (i1 ++ ig) s''.

(** A comment or literal that never ends. *)
Definition unterminated (s : str) : Prop :=
  (exists s', s = s_ "{;" ++ s' /\ forall a b, s' <> a ++ s_ ";}" ++ b)
  \/ (exists s', (s = dq :: s' \/ s = bq :: s' \/ s = sq :: s' \/ s = bs :: dq :: s')
      /\ forall t, ~ starts_with_token s t).

(** ** Runs of upper-case letters *)

(** Two letters at a time; a single letter comes first if the length is odd. *)
Fixpoint pairs (u : str) : list str :=
  match u with a :: b :: r => [a; b] :: pairs r | [a] => [[a]] | [] => [] end.
Definition pieces (u : str) : list str :=
  if Nat.odd (length u) then match u with a :: r => [a] :: pairs r | [] => [] end else pairs u.

(** A program is read with a newline before and after it. *)
Definition framed (code : str) : str := nl :: code ++ [nl].
