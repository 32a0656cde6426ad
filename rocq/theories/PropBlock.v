(** * Property C40: printed Blocks *)

From Coq Require Import String List NArith ZArith Bool Arith Lia.
From Verif Require Import PyStr PyNum Tokens OpTable Scan Parse PTypes Apply Heap Exec SpecScan SpecSyntax
                          SpecHeap SpecVars SpecRepr SpecBlock.
From Verif Require ScanProof ParenProof UnparseProof BlockProof PropRepr.
Import ListNotations.
Local Open Scope string_scope.
Local Open Scope list_scope.
Local Open Scope Z_scope.

(** The text of a Block of [printable] code (SpecBlock.v) is one expression
    of a program.  The code read is the code printed up to parentheses around
    operands, and is printed in the same way. *)
Theorem C40_source_partial : forall sts ret h u r,
  code sts -> printable ret -> tidy (sts ++ [ret]) ->
  den h (HBlock u r) (PBlock sts ret) ->
  exists ts u' r',
    scan (p_repr (PBlock sts ret) ++ [10%N]) = ScanOk (program ts) []
    /\ parse_program (V := hval) (program ts) = POk [TApp op_block [TBlk (u' ++ [r'])]] [None]
    /\ tree_is_expr r' = true /\ rereads HNil u u' /\ reread HNil r r'
    /\ forall h', exists sts' ret', den h' (HBlock u' r') (PBlock sts' ret')
                                    /\ p_repr (PBlock sts' ret') = p_repr (PBlock sts ret).
Proof. exact BlockProof.block_printed. Qed.
Print Assumptions C40_source_partial.

(** [V RP e] gives such a Block if [e] gives the Block; nothing changes. *)
Theorem C40_roundtrip_partial : forall s e u r s1 sts ret,
  gives s e (HBlock u r) s1 -> den (st_heap s1) (HBlock u r) (PBlock sts ret) ->
  code sts -> printable ret -> tidy (sts ++ [ret]) ->
  exists u' r' s2, gives s (app "V" [app "RP" [e]]) (HBlock u' r') s2
    /\ only_adds s1 s2 /\ rereads HNil u u' /\ reread HNil r r'
    /\ exists sts' ret', den (st_heap s2) (HBlock u' r') (PBlock sts' ret')
                         /\ p_repr (PBlock sts' ret') = p_repr (PBlock sts ret).
Proof. exact BlockProof.block_back. Qed.
Print Assumptions C40_roundtrip_partial.

(** Such a Block does the same: from every state its statements and the
    expression at its end have the same outcome - the same result or the same
    error, with the same variables, objects and output - if they have one.
    Missing: Blocks written inside it; there the results are Blocks that
    differ in parentheses again, which [=] can tell apart. *)
Definition outcome_of (u : list (tree hval)) (r : tree hval) (s : state) (o : outcome hval) : Prop :=
  o <> Fuel /\ exists n, (run_stmts (run n) u;; rval_tree (run n) r) s = o.
Theorem C40_meaning_partial : forall u u' r r',
  rereads HNil u u' -> reread HNil r r' -> blockless (TBlk u) -> blockless r ->
  forall s o, outcome_of u r s o <-> outcome_of u' r' s o.
Proof.
  intros u u' r r' Ru Rr Bu Br s o.
  pose proof (proj2 ParenProof.reread_like _ _ Ru Bu) as Lu. pose proof (proj1 ParenProof.reread_like _ _ Rr Br) as Lr.
  split; intros [N0 E]; (split; [exact N0|]).
  - exact (ParenProof.like_function _ _ _ _ Lu Lr s o N0 E).
  - exact (ParenProof.like_function _ _ _ _ (proj2 ParenProof.like_sym _ _ Lu) (proj1 ParenProof.like_sym _ _ Lr) s o N0 E).
Qed.
Print Assumptions C40_meaning_partial.

(** Parentheses around an expression, whatever it contains. *)
Theorem C40_parentheses : forall s e, (forall o, e <> TOpr o) ->
  (forall v s', gives s (TApp op_paren [e]) v s' <-> gives s e v s')
  /\ (forall er s', fails s (TApp op_paren [e]) er s' <-> fails s e er s').
Proof.
  assert (X : forall s e o, (forall p, e <> TOpr p) -> o <> Fuel ->
            ((exists n, rval_tree (run n) (TApp op_paren [e]) s = o) <-> (exists n, rval_tree (run n) e s = o))).
  { intros s e o NO N0.
    assert (E : forall n, rval_tree (run (S (S n))) (TApp op_paren [e]) s = rval_tree (run n) e s).
    { intros n. unfold rval_tree, rval_arg_h, rval_arg.
      destruct e; try (destruct (NO _ eq_refl)); unfold mbind; rewrite ParenProof.paren_eval; reflexivity. }
    split; intros [n En].
    - destruct n as [|[|n]]; [exfalso; apply N0; rewrite <- En; reflexivity..|]. exists n. rewrite <- E. exact En.
    - exists (S (S n)). rewrite E. exact En. }
  intros s e NO. split; intros; apply X; auto; discriminate.
Qed.
Print Assumptions C40_parentheses.

(** ** Not so in general *)

(** The Block written as [text] has the value [p]. *)
Definition written (text : string) (p : pval) : Prop :=
  exists t v, PropRepr.code (s_ text ++ [10%N]) = [t] /\ gives PropRepr.start t v PropRepr.start
    /\ den (st_heap PropRepr.start) v p.
Definition printed (text : string) : option str :=
  match run_text 60 FmtNone false (lines []) (s_ text) [] with Ok _ s => Some (st_out s) | _ => None end.
Definition lines (l : list string) : str := concat (map (fun x => s_ x ++ [10%N]) l).

(** A semicolon at the end of a Block is removed from its text even if it
    belongs to a character literal; the text is then not a program.  The
    operands of a command are not separated in its text, so that other
    operands may be read.  An assignment with a second colon becomes the
    operator that exchanges two variables. *)
Theorem C40_refuted :
  (exists p, written "{';}" p /\ p_repr p = s_ "{'}" /\ PropRepr.code (p_repr p ++ [10%N]) = [])
  /\ (exists p, written "{LR a;-b{c}}" p /\ p_repr p = s_ "{LR a - b {c}; ()}"
                /\ exists q, written "{LR a - b {c}; ()}" q /\ p_repr q = s_ "{LR a - b {c} {()}; ()}")
  /\ printed "y:2;x:7;({x: :y}1);P x;y" = Some (lines ["2"; "2"])
  /\ printed "y:2;x:7;((V RP{x: :y})1);P x;y" = Some (lines ["2"; "7"]).
Proof.
  assert (X : forall text, match PropRepr.code (s_ text ++ [10%N]) with
     | [t] => match rval_tree (run 9) t PropRepr.start with
              | Ok (HBlock u r) s => s = PropRepr.start
                 /\ forall h, den h (HBlock u r) (PBlock (map BlockProof.revalue u) (BlockProof.revalue r))
              | _ => False
              end
     | _ => False
     end -> exists u r, written text (PBlock (map BlockProof.revalue u) (BlockProof.revalue r))
        /\ match PropRepr.code (s_ text ++ [10%N]) with
           | [t] => exists s, rval_tree (run 9) t PropRepr.start = Ok (HBlock u r) s
           | _ => False
           end).
  { intros text H. destruct (PropRepr.code (s_ text ++ [10%N])) as [|t [|]] eqn:Ec; try contradiction.
    destruct (rval_tree (run 9) t PropRepr.start) as [[| | | |u r|] s| |] eqn:E; try contradiction. destruct H as [-> D].
    exists u, r. split; [|eexists; reflexivity]. exists t, (HBlock u r).
    split; [exact Ec|]. split; [exists 9%nat; exact E|]. apply D. }
  split; [|split; [|split; vm_compute; reflexivity]].
  - destruct (X "{';}") as (u & r & W & E).
    { vm_compute. split; [reflexivity|]. intros h. repeat constructor. }
    vm_compute in E. destruct E as [s E]. injection E as <- <- _. eexists. split; [exact W|].
    split; vm_compute; reflexivity.
  - destruct (X "{LR a;-b{c}}") as (u & r & W & E).
    { vm_compute. split; [reflexivity|]. intros h. repeat constructor. }
    vm_compute in E. destruct E as [s E]. injection E as <- <- _. eexists. split; [exact W|].
    split; [vm_compute; reflexivity|].
    clear W. destruct (X "{LR a - b {c}; ()}") as (u & r & W & E).
    { vm_compute. split; [reflexivity|]. intros h. repeat constructor. }
    vm_compute in E. destruct E as [s' E]. injection E as <- <- _. eexists. split; [exact W|].
    vm_compute; reflexivity.
Qed.
Print Assumptions C40_refuted.

(** The Block [{F i a{P i*2}a*b+c<d}]: its text has parentheses around the
    operands, and what is read back does the same. *)
Definition nm (x : string) : tree pval := TTok (Tok KName (s_ x)).
Definition op2 (x : string) : oper := match op_by_arity 2 (s_ x) with Some o => o | None => op_chain end.
Definition op1 (x : string) : oper := match op_by_arity 1 (s_ x) with Some o => o | None => op_chain end.
Definition ex_loop : tree pval :=
  TCmd (mkcmd (s_ "F") C_FOR [A_LOOPVAR; A_EXPR; A_CODE])
       [nm "i"; nm "a"; TBlk [TApp (op1 "P") [TApp (op2 "*") [nm "i"; TTok (Tok KNumber (s_ "2"))]]]].
Definition ex_ret : tree pval :=
  TApp op_chain [TApp (op2 "+") [TApp (op2 "*") [nm "a"; nm "b"]; nm "c"]; TOpr (op2 "<"); nm "d"].
Example C40_ex :
  code [ex_loop] /\ printable ex_ret /\ tidy ([ex_loop] ++ [ex_ret])
  /\ written "{F i a{P i*2}a*b+c<d}" (PBlock [ex_loop] ex_ret)
  /\ p_repr (PBlock [ex_loop] ex_ret) = s_ "{F i a {P (i * 2)}; ((a * b) + c) < d}"
  /\ blockless ex_loop /\ blockless ex_ret
  /\ printed "({F i a{P i*2}a*b+c<d}[1 2]3 4 9)" = printed "((V RP{F i a{P i*2}a*b+c<d})[1 2]3 4 9)"
  /\ printed "({F i a{P i*2}a*b+c<d}[1 2]3 4 9)" = Some (lines ["2"; "4"; "0"]).
Proof.
  assert (T : Forall token_text [Tok KName (s_ "i"); Tok KName (s_ "a"); Tok KName (s_ "b"); Tok KName (s_ "c");
                                 Tok KName (s_ "d"); Tok KNumber (s_ "2")]).
  { eapply (ScanProof.reads_tokens (framed (s_ "i a b c d 2"))). apply ScanProof.scan_reads. vm_compute. reflexivity. }
  assert (L : forall x, In x ["i"; "a"; "b"; "c"; "d"] -> leaf (Tok KName (s_ x))).
  { intros x I. split; [left; reflexivity|]. split; [|split; [|discriminate]].
    - rewrite Forall_forall in T. apply T. cbn in I |- *. repeat (destruct I as [<-|I]; [tauto|]). destruct I.
    - cbn in I. repeat (destruct I as [<-|I]; [discriminate|]). destruct I. }
  assert (L2 : leaf (Tok KNumber (s_ "2"))).
  { split; [right; left; reflexivity|]. split; [|split; discriminate].
    rewrite Forall_forall in T. apply T. cbn. tauto. }
  assert (NM : forall x, In x ["i"; "a"; "b"; "c"; "d"] -> printable (nm x)) by (intros x I; constructor; apply L, I).
  assert (B : forall x, In x ["*"; "+"; "<"] -> between (op2 x)).
  { intros x I. exists (s_ x). left. cbn in I. repeat (destruct I as [<-|I]; [reflexivity|]). destruct I. }
  assert (IN : forall x, In x ["*"; "+"] -> infix_operator (op2 x)).
  { intros x I. apply in_plain; [apply B; cbn in *; tauto|]. cbn in I. repeat (destruct I as [<-|I]; [discriminate|]). destruct I. }
  assert (TW : printable (TTok (Tok KNumber (s_ "2")))) by (constructor; exact L2).
  assert (INNER : code [TApp (op1 "P") [TApp (op2 "*") [nm "i"; TTok (Tok KNumber (s_ "2"))]]]).
  { constructor; [|constructor]. constructor. apply pr_prefix.
    - apply pre_plain, (un_unary (s_ "P")). reflexivity.
    - apply pr_infix; [apply IN; cbn; tauto|reflexivity|apply NM; cbn; tauto|exact TW]. }
  assert (EA : forall o (args : list (tree pval)) k, ends_in (TApp o args) k -> exists fr, args = fr ++ [TTok k]).
  { intros o args k H. inversion H; subst. eexists. reflexivity. }
  split; [|split; [|split; [|split; [|split; [|split; [|split; [|split]]]]]]].
  - constructor; [|constructor]. apply st_cmd; [left; reflexivity|].
    apply arg_var; [apply var_name; [apply L; cbn; tauto|reflexivity]|].
    apply arg_expr; [apply NM; cbn; tauto| |discriminate].
    apply arg_code; [exact INNER| |constructor].
    intros front t k E En. destruct front as [|? [|? ?]]; try discriminate E. injection E as <-.
    destruct (EA _ _ _ En) as (fr & Ea). destruct fr as [|? [|? ?]]; discriminate.
  - apply pr_chain; [|split; [apply B; cbn; tauto|reflexivity]|apply NM; cbn; tauto|constructor].
    apply pr_infix; [apply IN; cbn; tauto|reflexivity| |apply NM; cbn; tauto].
    apply pr_infix; [apply IN; cbn; tauto|reflexivity|apply NM; cbn; tauto|apply NM; cbn; tauto].
  - intros front t k E En. apply app_inj_tail in E. destruct E as [_ <-].
    destruct (EA _ _ _ En) as (fr & Ea).
    change [TApp (op2 "+") [TApp (op2 "*") [nm "a"; nm "b"]; nm "c"]; TOpr (op2 "<"); nm "d"]
      with ([TApp (op2 "+") [TApp (op2 "*") [nm "a"; nm "b"]; nm "c"]; TOpr (op2 "<")] ++ [nm "d"]) in Ea.
    apply app_inj_tail in Ea. destruct Ea as [_ Ea]. injection Ea as <-. split; discriminate.
  - eexists _, _. split; [vm_compute; reflexivity|]. split; [exists 9%nat; vm_compute; reflexivity|].
    repeat constructor.
  - vm_compute. reflexivity.
  - repeat split; discriminate.
  - repeat split; discriminate.
  - vm_compute. reflexivity.
  - vm_compute. reflexivity.
Qed.
