(** * The grammar of programs and their completion (C68, C69) *)

From Coq Require Import String List NArith ZArith Bool Arith Lia.
From Verif Require Import PyStr Tokens OpFun OpTable Parse Scan SpecScan SpecRepr SpecGrammar.
From Verif Require SpecSyntax ParseMono ParseProof ScanProof PropSyntax GrammarProof GrammarSound GrammarComplete GrammarOpen ResumeProof.
From Verif Require Heap SpecMain.
Import ListNotations.
Local Open Scope string_scope.
Local Open Scope list_scope.
Local Open Scope Z_scope.

Notation program := SpecSyntax.program.

(** ** C68: the parser accepts exactly the programs of the grammar *)

(** Parsing succeeds exactly with the statements the grammar derives from the
    tokens, up to the end or a closing brace. *)
Theorem C68_grammar : forall V l (sts : list (tree V)) rest, Forall token_text l ->
  (parse_program (program l) = POk sts rest <->
   exists used more, l = used ++ more /\ rest = program more /\ code sts used more
     /\ (more = [] \/ hd_error more = Some (sym "}"))).
Proof.
  intros V l sts rest T. split.
  - intros H. destruct (proj1 (GrammarSound.parse_sound _) l sts rest T H) as (u & r & A & B & C & D).
    exists u, r. auto.
  - intros (used & more & -> & -> & C & D).
    destruct (GrammarComplete.code_complete sts used more C more eq_refl D T) as (n & H).
    assert (F : @parse_program V (program (used ++ more)) <> PErr PFuel).
    { destruct (PropSyntax.C35_tokens V (used ++ more)) as [(a & b & E)|[E|E]]; try (rewrite E; discriminate).
      eapply Forall_impl; [|exact T]. exact ScanProof.token_proper. }
    pose proof (ParseMono.parse_steady _ (program (used ++ more)) _ eq_refl F
                  (parse_fuel (program (used ++ more)) + n)%nat ltac:(lia)) as E.
    rewrite H in E by lia. symmetry. exact E.
Qed.
Print Assumptions C68_grammar.

(** The same from the text of the program. *)
Theorem C68_source : forall V text ts ig (sts : list (tree V)), reads (framed text) ts ig [] ->
  (code sts ts [] <-> scan text = ScanOk (program ts) ig /\ parse_program (program ts) = POk sts [None]).
Proof.
  intros V text ts ig sts R. apply PropSyntax.C34_reading in R.
  assert (T : Forall token_text ts).
  { destruct (PropSyntax.C32_total text) as [(ts' & ig' & E & _ & F)|(E & _)]; [|congruence].
    rewrite R in E. injection E as E _. apply app_inj_tail in E. destruct E as [E _].
    assert (ts = ts') as ->; [|exact F]. clear - E. revert ts' E.
    induction ts as [|a ts IH]; intros [|b ts'] E; try discriminate E; [reflexivity|].
    injection E as -> E. f_equal. auto. }
  change [None] with (program []). rewrite (C68_grammar V ts sts (program []) T). split.
  - intros C. split; [exact R|]. exists ts, []. rewrite app_nil_r. auto.
  - intros (_ & u & [|t r] & -> & E & C & _); [rewrite app_nil_r; exact C|destruct r; discriminate E].
Qed.
Print Assumptions C68_source.

(** So the grammar is unambiguous. *)
Theorem C68_unambiguous : forall V l (a b : list (tree V)), Forall token_text l ->
  code a l [] -> code b l [] -> a = b.
Proof.
  intros V l a b T A B.
  assert (P : forall sts : list (tree V), code sts l [] -> parse_program (program l) = POk sts (program [])).
  { intros sts C. apply C68_grammar; [exact T|]. exists l, []. rewrite app_nil_r. auto. }
  pose proof (P a A) as X. rewrite (P b B) in X. congruence.
Qed.
Print Assumptions C68_unambiguous.

(** A condition, a comparison chain, a prefix operator with a modifier and a
    ternary operator: [I a<b<=3{x:#*c}EL Pa?b n]. *)
Example C68_ex : exists ts sts, PropSyntax.toks "I a<b<=3{x:#*c}EL Pa?b n" = program ts
  /\ Forall token_text ts /\ @code unit sts ts [] /\ length sts = 1%nat.
Proof.
  destruct (PropSyntax.C32_total (s_ "I a<b<=3{x:#*c}EL Pa?b n")) as [(ts & ig & E & _ & F)|(E & _)];
    [|vm_compute in E; discriminate E].
  exists ts. destruct (@parse_program unit (program ts)) as [sts rest|e] eqn:P.
  - exists sts. assert (Q : PropSyntax.toks "I a<b<=3{x:#*c}EL Pa?b n" = program ts).
    { unfold PropSyntax.toks. rewrite E. reflexivity. }
    split; [exact Q|]. split; [exact F|]. rewrite <- Q in P.
    assert (X : rest = [None] /\ length sts = 1%nat).
    { vm_compute in P. injection P as <- <-. auto. }
    destruct X as (-> & L). split; [|exact L]. rewrite Q in P.
    apply C68_grammar in P; [|exact F]. destruct P as (u & [|t r] & -> & R & C & _).
    + rewrite app_nil_r. exact C.
    + destruct r; discriminate R.
  - exfalso. assert (Q : PropSyntax.toks "I a<b<=3{x:#*c}EL Pa?b n" = program ts).
    { unfold PropSyntax.toks. rewrite E. reflexivity. }
    rewrite <- Q in P. vm_compute in P. discriminate P.
Qed.

(** In a ternary operation the operands stay in order. *)
Example C68_ternary : exists o, op_by_arity 3 (s_ "?") = Some o
  /\ @code unit [TApp o [TTok (Tok KName (s_ "a")); TTok (Tok KNumber (s_ "1")); TTok (Tok KNumber (s_ "2"))]]
       [Tok KName (s_ "a"); mark "?"; Tok KNumber (s_ "1"); Tok KNumber (s_ "2")] [].
Proof.
  destruct (op_by_arity 3 (s_ "?")) as [o|] eqn:E; [|discriminate E]. exists o. split; [reflexivity|].
  assert (F : forall k s, In k [KName; KNumber] -> forall p, ~ rooted (@TTok unit (Tok k s)) p)
    by (intros k s _ p (args & X & _); discriminate X).
  assert (G : forall k s p, ~ edge (@TTok unit (Tok k s)) p) by (intros k s p X; inversion X).
  apply (code_cons _ [] [Tok KName (s_ "a"); mark "?"; Tok KNumber (s_ "1"); Tok KNumber (s_ "2")] []);
    [|constructor].
  apply (st_expr _ [Tok KName (s_ "a"); mark "?"; Tok KNumber (s_ "1"); Tok KNumber (s_ "2")] []);
    [|constructor; discriminate].
  apply (closed_expr _ [Tok KName (s_ "a"); mark "?"; Tok KNumber (s_ "1"); Tok KNumber (s_ "2")] []);
    [|constructor; discriminate|intros _ (t & p & r & X & _); discriminate X].
  apply (ex_ternary o _ _ _ [mark "?"] [Tok KName (s_ "a")] [Tok KNumber (s_ "1")] [Tok KNumber (s_ "2")]).
  - apply infix_plain; [right; exact E|]. vm_compute in E. injection E as <-. discriminate.
  - vm_compute in E. injection E as <-. reflexivity.
  - constructor. cbn. auto.
  - apply (closed_expr _ [Tok KNumber (s_ "1")] []); [constructor; cbn; auto|constructor; discriminate|].
    intros _ (t & p & r & X & _). discriminate X.
  - constructor. cbn. auto.
  - split; [intros p R; destruct (F KName (s_ "a") ltac:(cbn; auto) p R)|intros p R; destruct (G _ _ _ R)].
  - intros p R. destruct (F KNumber (s_ "2") ltac:(cbn; auto) p R).
Qed.

(** ** C69: incomplete means that it can be completed *)

(** A program is reported as incomplete only if some tokens complete it. *)
Theorem C69_completed : forall V l, Forall token_text l ->
  @parse_program V (program l) = PErr IncompleteSyntax ->
  exists m sts, Forall token_text m /\ @parse_program V (program (l ++ m)) = POk sts [None].
Proof.
  intros V l T H. destruct (proj1 (GrammarOpen.parse_open _) l T H) as (c & sts & (M0 & _) & C).
  assert (M : Forall token_text c) by (eapply Forall_impl; [|exact M0]; exact GrammarOpen.closer_text).
  exists c, sts. split; [exact M|]. change [None] with (program []).
  apply C68_grammar; [apply Forall_app; auto|]. exists (l ++ c), []. rewrite app_nil_r.
  repeat split; auto. apply C, GrammarOpen.calm_nil.
Qed.
Print Assumptions C69_completed.

(** So a program is reported as bad exactly if nothing that could be written
    after it makes it acceptable. *)
Theorem C69_bad : forall V l, Forall token_text l ->
  (@parse_program V (program l) = PErr BadSyntax <->
   forall m sts rest, Forall token_text m -> @parse_program V (program (l ++ m)) <> POk sts rest).
Proof.
  intros V l T. split.
  - intros H m sts rest _ E. rewrite (PropSyntax.C37_final V l m H) in E. discriminate E.
  - intros H. destruct (PropSyntax.C35_tokens V l) as [(sts & rest & E)|[E|E]].
    + eapply Forall_impl; [|exact T]. exact ScanProof.token_proper.
    + exfalso. apply (H [] sts rest); [constructor|]. rewrite app_nil_r. exact E.
    + exact E.
    + exfalso. destruct (C69_completed V l T E) as (m & sts & M & P). exact (H m sts [None] M P).
Qed.
Print Assumptions C69_bad.

(** And as incomplete exactly if it is not acceptable but something makes it so. *)
Theorem C69_incomplete : forall V l, Forall token_text l ->
  (@parse_program V (program l) = PErr IncompleteSyntax <->
   (forall sts rest, @parse_program V (program l) <> POk sts rest)
   /\ exists m sts rest, Forall token_text m /\ @parse_program V (program (l ++ m)) = POk sts rest).
Proof.
  intros V l T. split.
  - intros H. split; [congruence|]. destruct (C69_completed V l T H) as (m & sts & M & P). eauto 6.
  - intros (N & m & sts & rest & M & P). destruct (PropSyntax.C35_tokens V l) as [(sts' & rest' & E)|[E|E]].
    + eapply Forall_impl; [|exact T]. exact ScanProof.token_proper.
    + exfalso. exact (N _ _ E).
    + exfalso. exact (proj1 (C69_bad V l T) E m sts rest M P).
    + exact E.
Qed.
Print Assumptions C69_incomplete.

(** In terms of lines, as the REPL reads them.  When all literals and comments
    are closed but the code is incomplete, one more line can complete it. *)
Theorem C69_line : forall lines ts ig, lines <> [] ->
  scan (SpecMain.joined_lines lines) = ScanOk ts ig ->
  parse_program (V := Heap.hval) ts = PErr IncompleteSyntax ->
  exists l sts, SpecMain.complete (SpecMain.joined_lines (lines ++ [l])) sts.
Proof.
  intros lines ts ig N H P. destruct (exists_last N) as (a & x & ->).
  assert (J : SpecMain.joined_lines (a ++ [x]) = (SpecMain.joined_lines a ++ x) ++ [10%N]).
  { unfold SpecMain.joined_lines. rewrite map_app, concat_app. cbn. rewrite app_nil_r, app_assoc. reflexivity. }
  rewrite J, ResumeProof.scan_newline in H.
  destruct (PropSyntax.C32_total (SpecMain.joined_lines a ++ x)) as [(l & ig' & E & _ & T)|(E & _)]; [|congruence].
  rewrite H in E. injection E as -> <-.
  destruct (proj1 (GrammarOpen.parse_open _) l T P) as (c & sts & (M & _) & C).
  assert (D : c = [] \/ c <> []) by (destruct c; [left; reflexivity|right; discriminate]).
  destruct D as [->|NC].
  - exfalso. assert (X : @parse_program Heap.hval (program l) = POk sts (program [])).
    { apply C68_grammar; [exact T|]. exists l, []. rewrite !app_nil_r. repeat split; auto.
      rewrite <- (app_nil_r l). apply C, GrammarOpen.calm_nil. }
    congruence.
  - exists (ResumeProof.spaced c), sts. exists (program (l ++ c)), (program []), ig. split.
    + assert (J2 : SpecMain.joined_lines ((a ++ [x]) ++ [ResumeProof.spaced c])
                 = ((SpecMain.joined_lines a ++ x) ++ 10%N :: ResumeProof.spaced c) ++ [10%N]).
      { unfold SpecMain.joined_lines. rewrite !map_app, !concat_app. cbn. rewrite !app_nil_r, <- !app_assoc. reflexivity. }
      rewrite J2, ResumeProof.scan_newline. apply ResumeProof.scan_completed; auto.
    + apply C68_grammar.
      * apply Forall_app. split; [exact T|]. eapply Forall_impl; [|exact M]. exact GrammarOpen.closer_text.
      * exists (l ++ c), []. rewrite app_nil_r. repeat split; auto. apply C, GrammarOpen.calm_nil.
Qed.
Print Assumptions C69_line.

(** When the code is bad, no more lines make it acceptable. *)
Theorem C69_no_line : forall lines ts ig, lines <> [] ->
  scan (SpecMain.joined_lines lines) = ScanOk ts ig ->
  parse_program (V := Heap.hval) ts = PErr BadSyntax ->
  forall more sts, ~ SpecMain.complete (SpecMain.joined_lines (lines ++ more)) sts.
Proof.
  intros lines ts ig N H P more sts (ts' & rest & b & S & Q). destruct (exists_last N) as (a & x & ->).
  assert (J : SpecMain.joined_lines (a ++ [x]) = (SpecMain.joined_lines a ++ x) ++ [10%N]).
  { unfold SpecMain.joined_lines. rewrite map_app, concat_app. cbn. rewrite app_nil_r, app_assoc. reflexivity. }
  assert (J2 : SpecMain.joined_lines ((a ++ [x]) ++ more) = (SpecMain.joined_lines a ++ x) ++ 10%N :: SpecMain.joined_lines more).
  { unfold SpecMain.joined_lines. rewrite !map_app, !concat_app. cbn. rewrite app_nil_r, <- !app_assoc. reflexivity. }
  rewrite J, ResumeProof.scan_newline in H. rewrite J2 in S.
  destruct (PropSyntax.C32_total (SpecMain.joined_lines a ++ x)) as [(l & ig' & E & _ & T)|(E & _)]; [|congruence].
  rewrite H in E. injection E as -> <-.
  destruct (ResumeProof.scan_starts _ _ _ _ _ _ H S) as (m & -> & _).
  rewrite (PropSyntax.C37_final Heap.hval l m P) in Q. discriminate Q.
Qed.
Print Assumptions C69_no_line.

Example C69_ex : exists l, PropSyntax.toks "Fi,9{Pi+$" = program l /\ Forall token_text l
  /\ @parse_program unit (program l) = PErr IncompleteSyntax.
Proof.
  destruct (PropSyntax.C32_total (s_ "Fi,9{Pi+$")) as [(ts & ig & E & _ & F)|(E & _)];
    [|vm_compute in E; discriminate E].
  exists ts. assert (Q : PropSyntax.toks "Fi,9{Pi+$" = program ts).
  { unfold PropSyntax.toks. rewrite E. reflexivity. }
  split; [exact Q|]. split; [exact F|]. rewrite <- Q. vm_compute. reflexivity.
Qed.

Example C69_lines :
  (exists ts ig, scan (SpecMain.joined_lines [s_ "Fi,9{"; s_ "  Pi+  a comment"]) = ScanOk ts ig
     /\ parse_program (V := Heap.hval) ts = PErr IncompleteSyntax)
  /\ exists ts ig, scan (SpecMain.joined_lines [s_ "Fi,9{"; s_ "  Pi+)"]) = ScanOk ts ig
     /\ parse_program (V := Heap.hval) ts = PErr BadSyntax.
Proof. split; do 2 eexists; split; vm_compute; reflexivity. Qed.
