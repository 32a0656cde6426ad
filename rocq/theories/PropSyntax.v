(** * Properties C32-C38: reading program text *)

From Coq Require Import String List NArith ZArith Bool Arith.
From Verif Require Import PyStr Tokens OpTable Scan Parse SpecSyntax SpecScan.
From Verif Require ScanProof ParseProof PrecProof FinalProof.
Import ListNotations.
Local Open Scope string_scope.
Local Open Scope list_scope.
Local Open Scope Z_scope.

(** ** C32: scanning is total and loses nothing *)

(** The scanner either reads the whole text into tokens, comments, white space
    and skipped characters, or it stops at a literal or comment that does not
    end. *)
Theorem C32_total : forall code,
  (exists ts ig, scan code = ScanOk (program ts) ig /\ reads (framed code) ts ig []
     /\ Forall token_text ts)
  \/ (scan code = ScanIncomplete
      /\ exists ts ig s, reads (framed code) ts ig s /\ unterminated s).
Proof.
  intro code. destruct (ScanProof.scan_total code) as [(ts & ig & E & R)|X]; [left|right; exact X].
  exists ts, ig. repeat split; auto. eapply ScanProof.reads_tokens, R.
Qed.
Print Assumptions C32_total.

(** A skipped character is not white space and starts no token. *)
Theorem C32_ignored : forall code ts ig c,
  scan code = ScanOk (program ts) ig -> In c ig ->
  exists a b, framed code = a ++ c :: b /\ is_space c = false
    /\ forall t, ~ starts_with_token (c :: b) t.
Proof.
  intros code ts ig c S I. apply ScanProof.scan_reads in S.
  exact (ScanProof.ignored_starts_no_token _ _ _ _ S c I).
Qed.
Print Assumptions C32_ignored.

(** Nothing but an unterminated literal or comment is reported as one. *)
Theorem C32_open : forall code ts ig s,
  reads (framed code) ts ig s -> unterminated s -> scan code = ScanIncomplete.
Proof. exact ScanProof.scan_open. Qed.
Print Assumptions C32_open.

Example C32_ex :
  scan (s_ "x:5j{;c;}PxABC  end") =
    ScanOk (program [Tok KName (s_ "x"); Tok KOperator (s_ ":"); Tok KNumber (s_ "5");
                     Tok KOperator (s_ "P"); Tok KName (s_ "x"); Tok KOperator (s_ "A");
                     Tok KName (s_ "BC")]) (s_ "j")
  /\ scan (s_ "P ""abc") = ScanIncomplete
  /\ reads (framed (s_ "P ""abc")) [Tok KOperator (s_ "P")] [] (s_ """abc" ++ [10%N])
  /\ unterminated (s_ """abc" ++ [10%N]).
Proof.
  split; [vm_compute; reflexivity|]. split; [vm_compute; reflexivity|]. split.
  - apply (ScanProof.first_steps_reads 3). vm_compute. reflexivity.
  - apply ScanProof.stop_unterminated; [discriminate|vm_compute; reflexivity].
Qed.

(** ** C33: runs of upper-case letters *)

(** A maximal run [u] between [a] and [b], met at a token boundary, becomes
    the tokens [pieces u]. *)
Theorem C33_runs : forall a u b ts1 ig1,
  u <> [] -> Forall (fun c => is_upper c = true) u -> u <> s_ "PIP" ->
  ~ In (s_ "EI") (pieces u) -> ~ starts_upper b ->
  reads (framed (a ++ u ++ b)) ts1 ig1 (u ++ b ++ [10%N]) ->
  forall ts ig, scan (a ++ u ++ b) = ScanOk (program ts) ig ->
  exists run ts2 ig2, ts = ts1 ++ run ++ ts2 /\ ig = ig1 ++ ig2
    /\ map t_text run = pieces u /\ reads (b ++ [10%N]) ts2 ig2 [].
Proof. exact ScanProof.run_scan. Qed.
Print Assumptions C33_runs.

(** A program that is one run of letters. *)
Theorem C33_run_alone : forall u,
  u <> [] -> Forall (fun c => is_upper c = true) u -> u <> s_ "PIP" ->
  ~ In (s_ "EI") (pieces u) ->
  exists run, scan u = ScanOk (program run) [] /\ map t_text run = pieces u.
Proof. exact ScanProof.run_alone. Qed.
Print Assumptions C33_run_alone.

Example C33_ex :
  pieces (s_ "ABCDE") = map s_ ["A"; "BC"; "DE"]
  /\ reads (framed (s_ "x:" ++ s_ "ABCDE" ++ s_ "y"))
       [Tok KName (s_ "x"); Tok KOperator (s_ ":")] [] (s_ "ABCDE" ++ s_ "y" ++ [10%N])
  /\ scan (s_ "x:ABCDEy") =
     ScanOk (program [Tok KName (s_ "x"); Tok KOperator (s_ ":"); Tok KOperator (s_ "A");
                      Tok KName (s_ "BC"); Tok KName (s_ "DE"); Tok KName (s_ "y")]) []
  /\ scan (s_ "PIP") = ScanOk (program [Tok KName (s_ "PIP")]) [].
Proof.
  split; [reflexivity|]. split; [|split; vm_compute; reflexivity].
  apply (ScanProof.first_steps_reads 3). vm_compute. reflexivity.
Qed.

(** ** C34: comments and layout *)

(** Removing a comment or white space [g] from between [a] and [b] does not
    change the tokens, if reading reaches that place with and without it. *)
Theorem C34_removed : forall a g b ts ig, gap g (b ++ [10%N]) ->
  reads (framed (a ++ g ++ b)) ts ig (g ++ b ++ [10%N]) ->
  reads (framed (a ++ b)) ts ig (b ++ [10%N]) ->
  scan (a ++ g ++ b) = scan (a ++ b).
Proof. exact ScanProof.gap_removed. Qed.
Print Assumptions C34_removed.

(** One comment or white space may be replaced by another. *)
Theorem C34_exchanged : forall a g h b ts ig, gap g (b ++ [10%N]) -> gap h (b ++ [10%N]) ->
  reads (framed (a ++ g ++ b)) ts ig (g ++ b ++ [10%N]) ->
  reads (framed (a ++ h ++ b)) ts ig (h ++ b ++ [10%N]) ->
  scan (a ++ g ++ b) = scan (a ++ h ++ b).
Proof. exact ScanProof.gap_exchanged. Qed.
Print Assumptions C34_exchanged.

(** The scanner computes exactly the specified reading of the text. *)
Theorem C34_reading : forall code ts ig,
  reads (framed code) ts ig [] <-> scan code = ScanOk (program ts) ig.
Proof. exact ScanProof.scan_reads. Qed.
Print Assumptions C34_reading.

Example C34_ex :
  gap (s_ "{;a ; b} c;}") (s_ "3" ++ [10%N])
  /\ reads (framed (s_ "2+" ++ s_ "{;a ; b} c;}" ++ s_ "3"))
       [Tok KNumber (s_ "2"); Tok KOperator (s_ "+")] [] (s_ "{;a ; b} c;}" ++ s_ "3" ++ [10%N])
  /\ reads (framed (s_ "2+" ++ s_ "3"))
       [Tok KNumber (s_ "2"); Tok KOperator (s_ "+")] [] (s_ "3" ++ [10%N])
  /\ gap (s_ "  to the end") (s_ "" ++ [10%N]).
Proof.
  split; [|split; [|split]].
  - apply (gap_block (s_ "a ; b} c")). intros a b E.
    do 8 (destruct a as [|? a]; [discriminate E|cbn in E; injection E as _ E]).
    destruct a as [|? [|? a]]; [|discriminate E|destruct a; discriminate E].
    cbn in E. injection E as E. symmetry. exact E.
  - apply (ScanProof.first_steps_reads 3). vm_compute. reflexivity.
  - apply (ScanProof.first_steps_reads 3). vm_compute. reflexivity.
  - apply (gap_two_spaces (s_ "to the end")).
    + cbn. intuition discriminate.
    + right. exists []. reflexivity.
    + intros w s' E B I. destruct w as [|a [|b [|c w]]]; cbn in E; try discriminate.
      injection E as E1 E2 E3 E4. inversion B as [|? ? _ B1]; subst. inversion B1 as [|? ? _ B2]; subst.
      inversion B2 as [|? ? B3 _]; subst. discriminate B3.
Qed.

(** ** C35: parsing is total *)

Theorem C35_tokens : forall V l, Forall proper l ->
  (exists sts rest, @parse_program V (program l) = POk sts rest)
  \/ @parse_program V (program l) = PErr BadSyntax
  \/ @parse_program V (program l) = PErr IncompleteSyntax.
Proof. exact (@ParseProof.parse_total). Qed.
Print Assumptions C35_tokens.

(** From the text of a program to its tree: a program, or one of the two
    syntax errors. *)
Theorem C35_source : forall V code,
  scan code = ScanIncomplete
  \/ exists toks ig, scan code = ScanOk toks ig
     /\ ((exists sts rest, @parse_program V toks = POk sts rest)
         \/ @parse_program V toks = PErr BadSyntax
         \/ @parse_program V toks = PErr IncompleteSyntax).
Proof.
  intros V code. destruct (C32_total code) as [(ts & ig & E & _ & F)|(E & _)]; [right|left; exact E].
  exists (program ts), ig. split; [exact E|]. apply C35_tokens.
  eapply Forall_impl; [|exact F]. exact ScanProof.token_proper.
Qed.
Print Assumptions C35_source.

Definition toks (code : string) : list (option token) :=
  match scan (s_ code) with ScanOk ts _ => ts | _ => [] end.

Example C35_ex :
  (exists sts, @parse_program unit (toks "Fi,9{i%2?Pi P""odd""}") = POk sts [None])
  /\ @parse_program unit (toks "5+)") = PErr BadSyntax
  /\ @parse_program unit (toks "Fi,9{Pi") = PErr IncompleteSyntax.
Proof. split; [eexists|split]; vm_compute; reflexivity. Qed.

(** ** C36: precedence and associativity *)

Theorem C36_grouping : forall V ts, expression ts ->
  exists t : tree V, parse_program (program ts) = POk [t] [None]
    /\ spells t ts /\ grouped t
    /\ forall t', spells t' ts -> grouped t' -> t' = t.
Proof. exact (@PrecProof.parse_precedence). Qed.
Print Assumptions C36_grouping.

Example C36_ex :
  expression [Tok KName (s_ "a"); Tok KOperator (s_ "-"); Tok KName (s_ "b"); Tok KOperator (s_ "*");
              Tok KNumber (s_ "3"); Tok KOperator (s_ "-"); Tok KName (s_ "c")]
  /\ exists minus times,
     @parse_program unit (toks "a-b*3-c") =
     POk [TApp minus [TApp minus [TTok (Tok KName (s_ "a"));
                                  TApp times [TTok (Tok KName (s_ "b")); TTok (Tok KNumber (s_ "3"))]];
                      TTok (Tok KName (s_ "c"))]] [None]
     /\ o_text minus = s_ "-" /\ o_text times = s_ "*".
Proof.
  assert (A : forall k s, In k [KName; KNumber] -> ~ In s (map s_ [":"; ")"; "}"]) -> operand [Tok k s]).
  { intros k s I N. apply operand_atom. unfold atom. cbn [t_kind t_text]. destruct I as [<-|[<-|[]]]; exact N. }
  assert (B : forall c, In c ["-"; "*"] -> exists o, infix [Tok KOperator (s_ c)] o).
  { intros c [<-|[<-|[]]].
    - destruct (op_by_arity 2 (s_ "-")) as [o|] eqn:E; [|discriminate E]. exists o. apply infix_plain; [reflexivity|exact E|].
      vm_compute in E. injection E as <-. left. reflexivity.
    - destruct (op_by_arity 2 (s_ "*")) as [o|] eqn:E; [|discriminate E]. exists o. apply infix_plain; [reflexivity|exact E|].
      vm_compute in E. injection E as <-. left. reflexivity. }
  split.
  - destruct (B "-") as (m & M); [cbn; auto|]. destruct (B "*") as (x & X); [cbn; auto|].
    change (expression ((([Tok KName (s_ "a")] ++ [Tok KOperator (s_ "-")] ++ [Tok KName (s_ "b")])
                          ++ [Tok KOperator (s_ "*")] ++ [Tok KNumber (s_ "3")])
                        ++ [Tok KOperator (s_ "-")] ++ [Tok KName (s_ "c")])).
    eapply expr_infix; [eapply expr_infix; [eapply expr_infix; [apply expr_operand| |]| |]| |]; try eassumption.
    all: apply A; [cbn; auto|cbn; intuition discriminate].
  - destruct (op_by_arity 2 (s_ "-")) as [m|] eqn:M; [|discriminate M].
    destruct (op_by_arity 2 (s_ "*")) as [x|] eqn:X; [|discriminate X].
    exists m, x. vm_compute in M, X. injection M as <-. injection X as <-. vm_compute. auto.
Qed.

(** ** C37: a bad-syntax error is final *)

Theorem C37_final : forall V l m, @parse_program V (program l) = PErr BadSyntax ->
  @parse_program V (program (l ++ m)) = PErr BadSyntax.
Proof. exact FinalProof.bad_syntax_final. Qed.
Print Assumptions C37_final.

Example C37_ex : exists l,
  toks "x:)" = program l /\ @parse_program unit (program l) = PErr BadSyntax
  /\ @parse_program unit (toks "x:") = PErr IncompleteSyntax.
Proof.
  exists [Tok KName (s_ "x"); Tok KOperator (s_ ":"); Tok KSymbol (s_ ")")].
  repeat split; vm_compute; reflexivity.
Qed.

(** ** C38: the whole program is parsed *)

(** The claim is false: parsing stops at a closing brace without an opening
    one, and the rest of the program is dropped without an error. *)
Theorem C38_whole_refuted : exists (l used more : list token) t sts,
  toks "1}2" = program l /\ l = used ++ t :: more
  /\ @parse_program unit (program l) = POk sts (program (t :: more)).
Proof.
  exists [Tok KNumber (s_ "1"); Tok KSymbol (s_ "}"); Tok KNumber (s_ "2")],
    [Tok KNumber (s_ "1")], [Tok KNumber (s_ "2")], (Tok KSymbol (s_ "}")),
    [TTok (Tok KNumber (s_ "1"))].
  repeat split; vm_compute; reflexivity.
Qed.
Print Assumptions C38_whole_refuted.

(** That is the only way to lose text: the part parsed is the whole program or
    ends just before a closing brace with no opening one. *)
Theorem C38_consumed_partial : forall V l sts rest, Forall proper l ->
  @parse_program V (program l) = POk sts rest ->
  exists used, balance used = 0
    /\ (l = used /\ rest = [None]
        \/ exists t more, l = used ++ t :: more /\ rest = program (t :: more)
                          /\ t_text t = s_ "}").
Proof. exact (@ParseProof.parse_consumes). Qed.
Print Assumptions C38_consumed_partial.

Theorem C38_whole_partial : forall V l sts rest, Forall proper l -> braces_match l ->
  @parse_program V (program l) = POk sts rest -> rest = [None].
Proof. exact (@ParseProof.parse_whole). Qed.
Print Assumptions C38_whole_partial.

Example C38_ex : braces_match [Tok KSymbol (s_ "{"); Tok KName (s_ "a"); Tok KSymbol (s_ "}")]
  /\ exists sts, @parse_program unit (toks "{a}") = POk sts [None].
Proof.
  split; [|eexists; vm_compute; reflexivity].
  intros p q E. destruct p as [|t1 p]; [discriminate|]. injection E as <- E.
  destruct p as [|t2 p]; [discriminate|]. injection E as <- E.
  destruct p as [|t3 p]; [discriminate|]. injection E as <- E.
  destruct p; [discriminate|discriminate E].
Qed.
