(** * Properties C39, C59: printed values and evaluated texts *)

From Coq Require Import String List NArith ZArith Bool Arith Lia.
From Verif Require Import PyStr PyNum Tokens OpTable Scan Parse PTypes Apply Heap Exec SpecScan SpecSyntax
                          SpecHeap SpecVars SpecRepr.
From Verif Require PureProof ReprProof PropSyntax.
Import ListNotations.
Local Open Scope string_scope.
Local Open Scope list_scope.
Local Open Scope Z_scope.

Definition start : state := blank_state FmtNone false (lines []) None.
Definition sc (t : string) : pval := PScal (s_ t).
Definition code (text : str) : list (tree hval) :=
  match scan text with
  | ScanOk ts _ => match parse_program (V := hval) ts with POk sts _ => sts | _ => [] end
  | _ => []
  end.
(** Run by the model: the value of the text, and what was printed. *)
Definition value (text : string) : outcome hval :=
  match code (s_ text ++ [10%N]) with
  | [t] => rval_tree (run 60) t start
  | _ => Fuel
  end.
Definition out_of (m : outcome hval) : option (hval * heap * str) :=
  match m with Ok v s => Some (v, st_heap s, st_out s) | _ => None end.

(** ** C39: printing a value and evaluating the text gives the value back *)

(** The repr of a readable value (SpecRepr.v) is the text of a program that
    consists of one expression; its value is the value again, in any state. *)
Theorem C39_source_partial : forall v, readable v ->
  exists ts t, scan (p_repr v ++ [10%N]) = ScanOk (program ts) []
    /\ parse_program (program ts) = POk [t] [None]
    /\ forall s, exists w s', gives s t w s' /\ den (st_heap s') w v /\ only_adds s s'.
Proof.
  intros v R. destruct (ReprProof.repr_scanned v [10%N] R ltac:(constructor; [reflexivity|constructor]))
    as (ts & t & Sc & P & _ & M).
  exists ts, t. split; [exact Sc|]. split; [exact P|]. intros s. exact (PureProof.means_gives _ _ _ (M s)).
Qed.
Print Assumptions C39_source_partial.

(** [V RP e] has the value of [e]; no variable changes, nothing is printed. *)
Theorem C39_roundtrip_partial : forall s e v, means s e v -> readable v ->
  exists w s', gives s (app "V" [app "RP" [e]]) w s' /\ den (st_heap s') w v /\ only_adds s s'.
Proof. exact ReprProof.repr_evaluated. Qed.
Print Assumptions C39_roundtrip_partial.

(** All texts without a double quote are readable unless they are negative
    numbers not in the form in which integers are printed. *)
Theorem C39_text_partial : forall t, ~ In 34%N t ->
  (forall u, t = s_ "-" ++ u -> unsigned u -> exists z, z < 0 /\ t = str_of_Z z) -> readable (PScal t).
Proof.
  intros t Q H. constructor.
  destruct (ReprProof.numeric_dec t) as [[U|(u & E & U)]|N].
  - apply text_number. exact U.
  - destruct (H u E U) as (z & L & ->). apply text_integer. exact L.
  - apply text_plain; assumption.
Qed.
Print Assumptions C39_text_partial.

(** Not so for other numbers with a minus sign, and for texts with a double
    quote in which a backslash precedes a name. *)
Definition reads_as (p q : pval) : Prop :=
  exists t v s', code (p_repr p ++ [10%N]) = [t] /\ gives start t v s' /\ den (st_heap s') v q.
Theorem C39_refuted :
  reads_as (sc "-007") (sc "-7") /\ reads_as (sc "-1.50") (sc "-1.5") /\ reads_as (sc "-0") (sc "0")
  /\ reads_as (sc "\h""") (sc "\""").
Proof.
  assert (X : forall p q (t := hd (TBlk []) (code (p_repr p ++ [10%N]))) (m := rval_tree (run 19) t start),
    code (p_repr p ++ [10%N]) = [t] ->
    match m with Ok v s => exists l x, v = HScal l /\ nth_error (st_heap s) l = Some (OS x) /\ q = PScal x
               | _ => False end -> reads_as p q).
  { intros p q t m C H. destruct m as [v s| |] eqn:E; try contradiction. destruct H as (l & x & -> & Ex & ->).
    exists t, (HScal l), s. split; [exact C|]. split; [exists 19%nat; exact E|]. apply den_scal. exact Ex. }
  split; [|split; [|split]]; (apply X; vm_compute; [reflexivity|]); do 2 eexists; repeat split; reflexivity.
Qed.
Print Assumptions C39_refuted.

(** A nested List with quotes, backslashes, negative numbers, Ranges and
    nil. *)
Definition sample : pval :=
  PList [sc "12"; sc "-3"; sc "a\""b\3"; PList []; PRange None (Some (-4)); PNil; PList [sc "\x"; sc "1.50"]].
Example C39_ex : readable sample
  /\ p_repr sample = s_ "[12;-3;\""a\\""b\\3\"";[];((),-4);();[""\x"";1.50]]".
Proof.
  split; [|vm_compute; reflexivity]. constructor.
  assert (D : forall l, forallb is_digit l = true -> l <> [] -> digits l).
  { intros l F N0. split; [exact N0|]. apply Forall_forall. intros c I. rewrite forallb_forall in F. exact (F c I). }
  repeat apply Forall_cons; try apply Forall_nil.
  - constructor. apply text_number. left. apply D; [reflexivity|discriminate].
  - constructor. apply (text_integer (-3)). reflexivity.
  - constructor. apply text_quoted; [vm_compute; auto 10|].
    intros a c b E. destruct a as [|a0 [|a1 [|a2 [|a3 [|a4 a]]]]]; cbn in E; try discriminate E.
    + injection E as _ <- _. reflexivity.
    + injection E as _ _ _ _ <- _. reflexivity.
    + injection E as _ _ _ _ _ E. destruct a as [|a5 a]; [discriminate E|].
      injection E as _ E. destruct a; discriminate E.
  - constructor. constructor.
  - constructor.
  - constructor.
  - constructor. repeat apply Forall_cons; try apply Forall_nil.
    + constructor. apply text_plain; [|vm_compute; intros [E|[E|[]]]; discriminate E].
      intros N0.
      destruct N0 as [[[_ F]|(a & b & E & [_ F] & _)]|(u & E & _)].
      * inversion F. discriminate.
      * destruct a as [|a0 a]; [discriminate E|]. cbn in E. injection E as <- _. inversion F. discriminate.
      * discriminate E.
    + constructor. apply text_number. right. exists (s_ "1"), (s_ "50"). split; [reflexivity|].
      split; apply D; (reflexivity || discriminate).
Qed.

(** ** C59: V runs a text like code in its place *)

(** If the text is a program, its statements are executed in the state in
    which the text was evaluated, with the variables of that state, and V has
    the value of the last one (nil if that is a command). *)
Theorem C59_runs : forall s e w s1 text ts ig sts rest,
  gives s e w s1 -> den (st_heap s1) w (PScal text) ->
  scan (text ++ [10%N]) = ScanOk ts ig -> parse_program ts = POk sts rest ->
  forall v s', gives s (app "V" [e]) v s' <-> value_of_code s1 sts v s'.
Proof. exact ReprProof.eval_code. Qed.
Print Assumptions C59_runs.

(** Any other text is a fatal error. *)
Theorem C59_syntax : forall s e w s1 text,
  gives s e w s1 -> den (st_heap s1) w (PScal text) ->
  (exists ts ig sts rest, scan (text ++ [10%N]) = ScanOk ts ig /\ parse_program (V := hval) ts = POk sts rest)
  \/ fails s (app "V" [e]) EFatal s1.
Proof.
  intros s e w s1 text G D. destruct (PropSyntax.C35_source hval (text ++ [10%N])) as [E|(ts & ig & E & P)].
  - right. apply (ReprProof.eval_bad s e w s1 text G D). intros ts ig E'.
    change (text ++ [c_nl]) with (text ++ [10%N]) in E'. rewrite E in E'. discriminate E'.
  - destruct P as [(sts & rest & P)|P]; [left; exists ts, ig, sts, rest; auto|]. right.
    apply (ReprProof.eval_bad s e w s1 text G D). intros ts' ig' E'.
    change (text ++ [c_nl]) with (text ++ [10%N]) in E'. rewrite E in E'. injection E' as <- <-.
    destruct P as [P|P]; eexists; (split; [exact P|discriminate]).
Qed.
Print Assumptions C59_syntax.

(** The text assigns a variable and prints; the value is that of its last
    expression. *)
Example C59_ex :
  out_of (value "V""x:4 O x x+1""") <> None
  /\ match value "V""x:4 O x x+1""" with
     | Ok (HScal l) s => nth_error (st_heap s) l = Some (OS (s_ "5")) /\ st_out s = s_ "4"
     | _ => False
     end.
Proof. split; [vm_compute; discriminate|vm_compute; split; reflexivity]. Qed.
