(** * Reading printed code back (C40) *)

From Coq Require Import String List NArith ZArith Bool Arith Lia.
From Verif Require Import PyStr PyRe Tokens OpFun OpTable Scan Parse Unparse PTypes Heap Exec
                          StrFacts ReFacts ParseEq SpecScan SpecSyntax SpecRepr SpecBlock.
From Verif Require Import LexProof LexProof2 LexProof3.
From Verif Require ScanProof ReprProof.
Import ListNotations.
Local Open Scope string_scope.
Local Open Scope list_scope.
Local Open Scope nat_scope.
Import ReprProof.

(** ** Reading single tokens *)

(** What follows a token in printed code. *)
Definition after_ok (s : str) : Prop :=
  exists c r, s = c :: r /\ In c (s_ " ;)]}
").

Lemma after_in c r : In c (s_ " ;)]}
") -> after_ok (c :: r).
Proof. intros I. exists c, r. auto. Qed.

Ltac ins H := cbn in H; repeat (destruct H as [<-|H]; [|]); [..|destruct H].

Lemma after_not_upper s : after_ok s -> ~ starts_upper s.
Proof.
  intros (c & r & -> & I) (c' & r' & E & U). injection E as <- <-.
  cbn in I. repeat (destruct I as [<-|I]; [discriminate U|]). destruct I.
Qed.

Lemma reads_upper t s : token_text t -> Forall (fun c => is_upper c = true) (t_text t) ->
  length (t_text t) <= 2 -> t_text t <> [] -> t_text t <> s_ "EI" -> ~ starts_upper s ->
  reads (t_text t ++ s) [t] [] s.
Proof.
  intros T F L N0 NE NS. change [t] with ([t] ++ []). change (@nil char) with (@nil char ++ []).
  eapply reads_step; [|constructor].
  apply (step_upper t [] s T); rewrite ?app_nil_r; auto.
  - intros E. rewrite E in L. cbn in L. lia.
  - destruct (t_text t) as [|a [|b [|? ?]]]; try reflexivity; [congruence|cbn in L; lia].
Qed.

Lemma upper_punct c : punct c -> is_upper c = false.
Proof.
  intros P. apply not_true_is_false. intros U. apply upper_range in U. unfold punct in P. chars. lia.
Qed.

Lemma reads_leaf k s : leaf k -> after_ok s -> reads (t_text k ++ s) [k] [] s.
Proof.
  intros (K & T & NE & _) A. destruct (tok_cases k T) as (c & a & E & TA).
  assert (FX : fixed_head c -> c <> 123%N -> reads (t_text k ++ s) [k] [] s).
  { intros F N0. exact (reads_fixed k s c a T E F N0). }
  assert (ONE : ~ starts_upper (t_text k) -> c <> 123%N ->
            (forall t', starts_with_token (t_text k ++ s) t' -> length (t_text t') <= length (t_text k)) ->
            reads (t_text k ++ s) [k] [] s).
  { intros NU N0 M. apply reads_one; auto. intros s' E'. rewrite E in E'. injection E' as E' _. congruence. }
  assert (HD : forall t', starts_with_token (t_text k ++ s) t' ->
             exists b r, t_text t' = c :: b /\ tok_at c b t' /\ a ++ s = b ++ r).
  { intros t' (T' & r & E'). destruct (tok_cases t' T') as (c' & b & Eb & TB). rewrite E, Eb in E'.
    cbn [Datatypes.app] in E'. injection E' as <- E'. exists b, r. auto. }
  destruct TA as [k0 c s0 U F L|c C| |d I|d s0 D F|n Kn|d I| |d I O|b B|b B|b B|d|c s0 D Nm|c I|c s0 P L O];
    try (apply FX; [unfold fixed_head; chars; lia|chars; lia]);
    try solve [cbn in K; repeat (destruct K as [K|K]; [discriminate K|]); destruct K].
  - (* upper case *) destruct L as [L|L].
    + apply reads_upper; cbn [t_text] in *; auto.
      * constructor; [apply upper_range; exact U|exact F].
      * cbn [length]. lia.
      * discriminate.
      * apply after_not_upper, A.
    + change [Tok k0 (c :: s0)] with ([Tok k0 (c :: s0)] ++ []). change (@nil char) with (@nil char ++ []).
      eapply reads_step; [|constructor]. apply step_pip; [exact T|exact L|apply after_not_upper, A].
  - (* special *) apply ONE.
    + intros (x & y & Ex & Ux). injection Ex as <- <-. discriminate Ux.
    + discriminate.
    + intros t' H. destruct (HD t' H) as (b & r & -> & TB & Eb). cbn [t_text length].
      inversion TB; subst; cbn [length]; try lia; cbn [Datatypes.app] in Eb; chars; try lia;
        try (injection Eb as -> _; chars; lia).
      destruct n as [|n]; [lia|]. cbn in Eb. injection Eb as -> _. chars. lia.
  - (* long *) apply ONE.
    + intros (x & y & Ex & Ux). injection Ex as <- <-. discriminate Ux.
    + discriminate.
    + intros t' H. destruct (HD t' H) as (b & r & -> & TB & Eb). cbn [t_text length].
      apply le_n_S. apply lower_range in D.
      inversion TB; subst; cbn [length]; try lia; cbn [Datatypes.app] in Eb; chars; try lia.
      * injection Eb as _ Eb. apply le_n_S.
        apply (prefix_length cls_lower_digit_us s1 s0 r s); [assumption| |exact Eb].
        destruct A as (x & y & -> & I). exists x, y. split; [reflexivity|].
        cbn in I. repeat (destruct I as [<-|I]; [reflexivity|]). destruct I.
      * destruct n as [|n]; [lia|]. cbn in Eb. injection Eb as -> _. lia.
  - (* match *) apply ONE.
    + intros (x & y & Ex & Ux). injection Ex as <- <-. discriminate Ux.
    + discriminate.
    + intros t' H. destruct (HD t' H) as (b & r & -> & TB & Eb). cbn [t_text length].
      apply le_n_S. destruct n as [|n]; [lia|].
      inversion TB; subst; cbn [length]; try lia; cbn [Datatypes.app repeat] in Eb; chars; try lia.
      * rewrite repeat_length. lia.
      * injection Eb as <- _. chars. lia.
      * rewrite !repeat_length. destruct n0 as [|m]; [lia|].
        cbn [repeat Datatypes.app] in Eb. injection Eb as Eb. 
        pose proof (prefix_length (N.eqb 95) (repeat 95%N m) (repeat 95%N n) r s) as PL.
        rewrite !repeat_length in PL. enough (m <= n) by lia. apply PL; [| |exact Eb].
        -- apply forallb_forall. intros x I. apply repeat_spec in I. subst. reflexivity.
        -- destruct A as (x & y & -> & I). exists x, y. split; [reflexivity|].
           cbn in I. repeat (destruct I as [<-|I]; [reflexivity|]). destruct I.
  - (* number *) pose proof (digit_range c D) as R. apply ONE.
    + intros (x & y & Ex & Ux). injection Ex as <- <-. rewrite (not_upper_digit c D) in Ux. discriminate.
    + chars. lia.
    + intros t' H. destruct (HD t' H) as (b & r & Et & TB & Eb). rewrite Et. cbn [t_text length].
      apply le_n_S. apply (prefix_length numch b s0 r s); [| |exact Eb].
      * inversion TB; subst; try (exfalso; chars; lia).
        match goal with X : digits (c :: b) \/ _ |- _ => destruct (unsigned_chars _ X) as (G & _) end.
        cbn [forallb] in G. apply andb_prop in G. tauto.
      * destruct A as (x & y & -> & I). exists x, y. split; [reflexivity|].
        cbn in I. repeat (destruct I as [<-|I]; [reflexivity|]). destruct I.
Qed.

(** ** Reading operators *)

Definition alone (t : str) (d : char) : bool :=
  match t with
  | [c] => if is_upper c then negb (is_upper d) else negb (is_op_text [c; d])
  | [c; _] => negb (is_upper c && is_upper d)
  | _ => false
  end.

Lemma reads_op_token (t : str) d s : operator_text t -> t <> s_ "EI" -> alone t d = true ->
  reads (t ++ d :: s) [Tok KOperator t] [] (d :: s).
Proof.
  intros O NE A. assert (T : token_text (Tok KOperator t)) by exact O.
  destruct (tok_cases _ T) as (c & a & E & TA). cbn [t_text] in E. subst t.
  assert (L : length a <= 1) by (destruct a as [|? [|? ?]]; cbn in A; [cbn; lia..|discriminate]).
  destruct (is_upper c) eqn:U.
  - assert (F : Forall (fun x => is_upper x = true) (c :: a)).
    { apply upper_range in U. inversion TA; subst; try (exfalso; chars; lia); constructor; auto; apply upper_range; lia. }
    apply (reads_upper (Tok KOperator (c :: a))); cbn [t_text]; auto; [cbn; lia|discriminate|].
    intros (x & y & Ex & Ux). injection Ex as <- <-.
    destruct a as [|b [|? ?]]; cbn [alone] in A; [rewrite U, Ux in A; discriminate A| |cbn in L; lia].
    rewrite U, Ux in A. discriminate A.
  - apply (reads_one (Tok KOperator (c :: a))); cbn [t_text]; auto.
    + intros (x & y & Ex & Ux). injection Ex as <- <-. congruence.
    + intros t' (T' & r & E'). destruct (tok_cases t' T') as (c' & b & Eb & TB). rewrite Eb in *.
      cbn [Datatypes.app] in E'. injection E' as <- E'. cbn [length]. apply le_n_S.
      inversion TA; subst; try (exfalso; match goal with X : (65 <= c <= 90)%N |- _ => apply upper_range in X; congruence end); try (exfalso; chars; lia).
      * (* backslash *) inversion TB; subst; cbn [length]; try lia; cbn [Datatypes.app] in E'; chars; try lia.
        injection E' as E' _. chars. lia.
      * unfold punct in *. inversion TB; subst; try (exfalso; chars; lia); cbn [length]; try lia.
        destruct a as [|x [|? ?]]; [|cbn [length]; lia|cbn in L; lia].
        destruct b as [|y [|? ?]]; [cbn; lia| |cbn [length] in *; lia].
        cbn [Datatypes.app] in E'. injection E' as <- _.
        cbn [alone] in A. rewrite U in A.
        match goal with X : operator_text [c; d] |- _ => apply is_op_iff in X; rewrite X in A end. discriminate A.
    + intros s' E'. injection E' as -> _. inversion TA; subst; try (exfalso; chars; lia).
Qed.

Definition words : list string := ["PAREN"; "BLOCK"; "SEND"; "LIST"; "CHAIN"; "("; "["; "{"; "$"; "\$"; ")"; "]"; "}"; ";"; "EL"].

Definition fits (o : oper) : bool :=
  let t := o_text o in
  negb (str_eqb t (s_ "EI")) && alone t 32%N && (is_op_text (t ++ s_ "*") || alone t 42%N)
  && (alone t 58%N || str_eqb t (s_ ":"))
  && match t with
     | c :: _ => negb (existsb (N.eqb c) (s_ "][()$`'0123456789_ ;")) && negb (is_lower c)
     | [] => false
     end
  && forallb (fun w => negb (str_eqb t (s_ w))) words
  && (0 <=? o_prec o)%Z && negb (is_chain o)
  && negb (o_fold o) && negb (o_scan o) && negb (o_map o) && negb (o_assign o).

Lemma all_fit o : In o all_ops -> fits o = true.
Proof.
  assert (C : forallb fits all_ops = true) by (vm_compute; reflexivity).
  rewrite forallb_forall in C. apply C.
Qed.

Lemma looked_up n t o : op_by_arity n t = Some o -> In o all_ops /\ o_text o = t /\ o_arity o = n.
Proof.
  unfold op_by_arity. intros F. apply find_some in F. destruct F as [I E].
  apply andb_prop in E. destruct E as [E1 E2]. apply Nat.eqb_eq in E1. apply str_eqb_eq in E2.
  split; [apply in_rev; exact I|auto].
Qed.

Record op_facts (o : oper) : Prop := {
  of_ei : o_text o <> s_ "EI";
  of_space : alone (o_text o) 32%N = true;
  of_star : is_op_text (o_text o ++ s_ "*") = true \/ alone (o_text o) 42%N = true;
  of_colon : alone (o_text o) 58%N = true \/ o_text o = s_ ":";
  of_head : exists c r, o_text o = c :: r /\ ~ In c (s_ "][()$`'0123456789_ ;") /\ is_lower c = false;
  of_word : forall w, In w words -> o_text o <> s_ w;
  of_prec : (0 <= o_prec o)%Z;
  of_chain : is_chain o = false;
  of_plain : o_fold o = false /\ o_scan o = false /\ o_map o = false /\ o_assign o = false }.

Lemma op_fits o : In o all_ops -> op_facts o.
Proof.
  intros I. pose proof (all_fit o I) as F. unfold fits in F. cbv zeta in F.
  repeat (apply andb_prop in F; destruct F as [F ?]).
  repeat match goal with X : negb _ = true |- _ => apply negb_true_iff in X end.
  constructor; auto.
  - intros E. rewrite E in F. discriminate F.
  - match goal with X : _ || _ = true |- _ \/ alone _ 42%N = true => apply orb_prop in X; exact X end.
  - match goal with X : alone _ 58%N || _ = true |- _ => apply orb_prop in X; destruct X as [X|X]; auto end.
    right. apply str_eqb_eq; assumption.
  - destruct (o_text o) as [|c r]; [discriminate|]. exists c, r. split; [reflexivity|].
    match goal with X : _ && _ = true |- _ => apply andb_prop in X; destruct X as [X Y];
      apply negb_true_iff in X; apply negb_true_iff in Y end.
    split; [|assumption]. intros J.
    match goal with X : existsb _ _ = false |- _ => apply not_true_iff_false in X; apply X end.
    apply existsb_exists. exists c. split; [exact J|apply N.eqb_refl].
  - intros w J E. match goal with X : forallb _ words = true |- _ => rewrite forallb_forall in X; specialize (X w J) end.
    rewrite E, str_eqb_refl in *. discriminate.
  - apply Z.leb_le. assumption.
Qed.

(** ** Tokens of operators *)

Definition op_toks (o : oper) : list token :=
  (if o_fold o then [sym "$"] else if o_scan o then [sym "\$"] else [])
  ++ [Tok KOperator (o_text o)]
  ++ (if o_map o then [opt "*"] else [])
  ++ (if o_assign o then [opt ":"] else []).

(** Operators as in [prefix_operator] and [infix_operator]. *)
Definition well_marked (o : oper) : Prop :=
  exists b, In b all_ops /\ o_text o = o_text b /\ is_chain o = is_chain b
    /\ (o_fold o = true -> o_scan o = false)
    /\ (o_assign o = true -> o_map o = false -> o_text b <> s_ ":")
    /\ (0 <= o_prec o)%Z.

Lemma reads_space s : ~ starts_blank s -> reads (32%N :: s) [] [] s.
Proof.
  intros NB. change (@nil token) with (@nil token ++ []). change (@nil char) with (@nil char ++ []).
  eapply reads_step; [|constructor]. apply (step_gap [32%N]), gap_blank.
  - discriminate.
  - repeat constructor.
  - exact NB.
  - intros w' E. discriminate E.
  - intros [I|[]]. discriminate I.
Qed.

Lemma reads_dollar c s : ~ In c (s_ "][()$`'0123456789_ ;") -> is_lower c = false ->
  reads (36%N :: c :: s) [sym "$"] [] (c :: s).
Proof.
  intros NI NL. apply (reads_one (sym "$") (c :: s)).
  - cbn. tauto.
  - intros (x & y & E & U). injection E as <- <-. discriminate U.
  - intros t' (T' & r & E'). destruct (tok_cases t' T') as (c' & b & Eb & TB). rewrite Eb in *.
    cbn [sym t_text s_ Datatypes.app] in E'. injection E' as <- E'. cbn [length sym t_text s_]. apply le_n_S.
    inversion TB; subst; cbn [length]; try lia; try (exfalso; chars; lia); exfalso.
    + injection E' as -> _. apply NI. cbn in *. tauto.
    + injection E' as -> _. congruence.
    + destruct n as [|n]; [lia|]. cbn in E'. injection E' as -> _. apply NI. cbn. tauto.
  - discriminate.
Qed.

Lemma reads_opstr o s : well_marked o -> reads (op_str o ++ 32%N :: s) (op_toks o) [] (32%N :: s).
Proof.
  intros (b & I & Et & _ & FS & AM & _). pose proof (op_fits b I) as F.
  assert (OT : operator_text (o_text o)) by (rewrite Et; exists b; auto).
  assert (NE : o_text o <> s_ "EI") by (rewrite Et; apply F).
  assert (TEXT : forall d s', alone (o_text b) d = true ->
            reads (o_text o ++ d :: s') [Tok KOperator (o_text o)] [] (d :: s')).
  { intros d s' A. apply reads_op_token; auto. rewrite Et. exact A. }
  assert (STAR : forall d s', d = 32%N \/ d = 58%N -> reads (42%N :: d :: s') [opt "*"] [] (d :: s')).
  { intros d s' D. apply (reads_op_token (s_ "*")); [apply is_op_iff; vm_compute; reflexivity|discriminate|].
    destruct D as [->| ->]; vm_compute; reflexivity. }
  assert (COLON : forall s', reads (58%N :: 32%N :: s') [opt ":"] [] (32%N :: s')).
  { intros s'. apply (reads_op_token (s_ ":")); [apply is_op_iff; vm_compute; reflexivity|discriminate|].
    vm_compute; reflexivity. }
  (* after the text of the operator *)
  assert (ASG : forall s', reads ((if o_assign o then [58%N] else []) ++ 32%N :: s')
                                 (if o_assign o then [opt ":"] else []) [] (32%N :: s')).
  { intros s'. destruct (o_assign o); [apply COLON|constructor]. }
  assert (MAIN : forall s',
    reads (o_text o ++ (if o_map o then if is_op_text (o_text o ++ s_ "*") then s_ " *" else s_ "*" else [])
             ++ (if o_assign o then [58%N] else []) ++ 32%N :: s')
          (Tok KOperator (o_text o) :: (if o_map o then [opt "*"] else []) ++ (if o_assign o then [opt ":"] else []))
          [] (32%N :: s')).
  { intros s'.
    assert (NX : exists d r, (if o_assign o then [58%N] else []) ++ 32%N :: s' = d :: r /\ (d = 32%N \/ d = 58%N)).
    { destruct (o_assign o); cbn; eauto. }
    destruct (o_map o) eqn:M.
    - destruct NX as (d & r & En & D).
      destruct (is_op_text (o_text o ++ s_ "*")) eqn:IO.
      + eapply reads_cons; [apply TEXT; apply F|].
        eapply (reads_app' _ [] _ (opt "*" :: _)); [apply reads_space|].
        * intros (x & y & E & B). injection E as <- _. discriminate B.
        * cbn [Datatypes.app] in *. eapply reads_cons; [|apply ASG]. rewrite En. apply STAR, D.
      + eapply reads_cons; [apply TEXT|].
        * destruct (of_star _ F) as [X|X]; [rewrite <- Et in X; congruence|exact X].
        * cbn [Datatypes.app] in *. eapply reads_cons; [|apply ASG]. rewrite En. apply STAR, D.
    - cbn [Datatypes.app] in *. eapply reads_cons; [|apply ASG].
      destruct (o_assign o) eqn:As; cbn [Datatypes.app].
      + apply TEXT. destruct (of_colon _ F) as [X|X]; [exact X|]. destruct (AM eq_refl eq_refl X).
      + apply TEXT. apply F. }
  destruct (of_head _ F) as (c & r & Ec & N1 & N2). rewrite <- Et in Ec.
  assert (SPLIT : op_str o ++ 32%N :: s =
     (if o_fold o then s_ "$" else if o_scan o then s_ "\$" else [])
     ++ o_text o ++ (if o_map o then if is_op_text (o_text o ++ s_ "*") then s_ " *" else s_ "*" else [])
     ++ (if o_assign o then [58%N] else []) ++ 32%N :: s).
  { unfold op_str. cbv zeta.
    destruct (o_fold o), (o_scan o), (o_map o), (o_assign o), (is_op_text (o_text o ++ s_ "*"));
      cbn [s_]; rewrite <- ?app_assoc; reflexivity. }
  rewrite SPLIT. unfold op_toks.
  specialize (MAIN s). destruct (o_fold o); [|destruct (o_scan o)]; cbn [Datatypes.app].
  - eapply reads_cons; [|exact MAIN]. rewrite Ec. cbn [s_ Datatypes.app]. apply reads_dollar; assumption.
  - eapply reads_cons; [|exact MAIN].
    apply (reads_fixed (sym "\$") _ 92%N [36%N]); [cbn; tauto|reflexivity|unfold fixed_head; lia|discriminate].
  - exact MAIN.
Qed.

Lemma opstr_head o : well_marked o -> exists c r, op_str o = c :: r /\ is_space c = false /\ c <> 59%N.
Proof.
  intros (b & I & Et & _). pose proof (op_fits b I) as F. destruct (of_head _ F) as (c & r & Ec & N1 & N2).
  unfold op_str. cbv zeta.
  assert (X : is_space c = false /\ c <> 59%N).
  { assert (T : token_text (Tok KOperator (o_text b))) by (exists b; auto).
    destruct (ScanProof.tok_nonempty _ T) as (c' & r' & E' & Sp). cbn [t_text] in E'. rewrite Ec in E'.
    injection E' as <- <-. split; [exact Sp|]. intros ->. apply N1. cbn. tauto. }
  rewrite Et, Ec.
  destruct (o_fold o); [|destruct (o_scan o)]; cbn [s_ Datatypes.app];
    destruct (o_map o), (is_op_text (c :: r ++ s_ "*")), (o_assign o); cbn [Datatypes.app]; eexists _, _; (split; [reflexivity|]);
    auto; split; reflexivity || discriminate.
Qed.

Lemma unmarked_base o : unmarked o -> exists b, In b all_ops /\ o_text o = o_text b /\ is_chain o = is_chain b
  /\ (o_fold o = true -> o_scan o = false) /\ (0 <= o_prec o)%Z
  /\ o_map o = false /\ o_assign o = false /\ o_arity o = 1.
Proof.
  intros [t p E|t p E|t p E]; destruct (looked_up _ _ _ E) as (I & Et & A);
    exists p; pose proof (op_fits p I) as F; destruct (of_plain _ F) as (P1 & P2 & P3 & P4);
    (split; [exact I|]); (split; [reflexivity|]); (split; [reflexivity|]);
    cbn [op_set_fold op_set_scan o_fold o_scan o_prec o_map o_assign o_arity];
    repeat split; auto; try congruence; apply F.
Qed.

Lemma assign_prec : (0 <= o_prec assign_op)%Z.
Proof. vm_compute. discriminate. Qed.

Lemma prefix_marked o : prefix_operator o -> well_marked o /\ o_arity o = 1.
Proof.
  intros [p U|p U|p U N0|p U]; destruct (unmarked_base p U) as (b & I & Et & C & FS & P & M & As & A);
    (split; [|exact A]); exists b; (split; [exact I|]); (split; [exact Et|]); (split; [exact C|]); (split; [exact FS|]);
    cbn [assigned op_set_assign op_set_map o_assign o_map o_prec].
  - split; [congruence|exact P].
  - split; [congruence|exact P].
  - split; [intros _ _; congruence|apply assign_prec].
  - split; [discriminate|apply assign_prec].
Qed.

Lemma between_base o : between o -> In o all_ops.
Proof. intros (t & [E|(_ & E)]); apply looked_up in E; tauto. Qed.

Lemma between_marked o : between o -> well_marked o.
Proof.
  intros B. pose proof (between_base o B) as I. pose proof (op_fits o I) as F.
  destruct (of_plain _ F) as (P1 & P2 & P3 & P4). exists o. repeat split; auto; try congruence. apply F.
Qed.

Lemma infix_marked o : infix_operator o -> well_marked o.
Proof.
  intros [p B N0|p B N0]; [apply between_marked, B|].
  destruct (between_marked p B) as (b & I & Et & C & FS & _ & _). exists b.
  cbn [assigned op_set_assign o_text o_fold o_scan o_assign o_map o_prec is_chain o_fun].
  repeat split; auto; try congruence; try apply assign_prec.
Qed.

(** ** The text and the tokens of code *)

Definition text (t : tree pval) : str := unparse_node p_repr t.
Definition otext (t : tree pval) : str := operand_str (t, text t).

Fixpoint tok_join (l : list (list token)) : list token :=
  match l with
  | [] => []
  | [x] => x
  | x :: l' => x ++ sym ";" :: tok_join l'
  end.

Definition operand_toks (x : tree pval * list token) : list token :=
  if needs_parens (fst x) then sym "(" :: snd x ++ [sym ")"] else snd x.

Definition toks_app (o : oper) (args : list (tree pval * list token)) : list token :=
  let nth_toks i := nth i (map operand_toks args) [] in
  if str_eqb (o_text o) (s_ "PAREN") then sym "(" :: nth 0 (map snd args) [] ++ [sym ")"]
  else if str_eqb (o_text o) (s_ "BLOCK") then sym "{" :: nth 0 (map snd args) [] ++ [sym "}"]
  else if str_eqb (o_text o) (s_ "SEND") then sym "(" :: tok_join (map snd args) ++ [sym ")"]
  else if str_eqb (o_text o) (s_ "LIST") then sym "[" :: tok_join (map snd args) ++ [sym "]"]
  else if str_eqb (o_text o) (s_ "CHAIN") then concat (map operand_toks args)
  else match o_arity o with
       | 1 => op_toks o ++ nth_toks 0
       | 2 => nth_toks 0 ++ op_toks o ++ nth_toks 1
       | _ => nth_toks 0 ++ op_toks o ++ nth_toks 1 ++ sym ";" :: nth_toks 2
       end.

Fixpoint toks_args (types : list argtype) (args : list (list token)) : list token :=
  match types, args with
  | a :: types', x :: args' =>
    (match a with
     | A_ELSE => sym "EL" :: sym "{" :: x ++ [sym "}"]
     | A_CODE => sym "{" :: x ++ [sym "}"]
     | A_LOOPVAR | A_EXPR => x
     end) ++ toks_args types' args'
  | _, _ => []
  end.

Fixpoint toks (t : tree pval) : list token :=
  match t with
  | TTok k => match t_kind k with KNil => [sym "("; sym ")"] | _ => [k] end
  | TVal _ => [sym "("; sym ")"]
  | TOpr o => op_toks o
  | TApp o args => toks_app o (map (fun x => (x, toks x)) args)
  | TBlk sts => tok_join (map toks sts)
  | TCmd c args => Tok KCommand (c_text c) :: toks_args (c_args c) (map toks args)
  end.
Definition otoks (t : tree pval) : list token := operand_toks (t, toks t).

(** Texts of the forms of code. *)
Lemma text_paren e : text (TApp op_paren [e]) = 40%N :: text e ++ [41%N].
Proof. reflexivity. Qed.
Lemma text_block sts : text (TApp op_block [TBlk sts]) = 123%N :: text (TBlk sts) ++ [125%N].
Proof. reflexivity. Qed.
Lemma text_send es : text (TApp op_send es) = 40%N :: str_join (s_ "; ") (map text es) ++ [41%N].
Proof. unfold text. cbn [unparse_node]. unfold unparse_app. cbn [op_send]. 
  change (str_eqb _ _) with false at 1. change (str_eqb _ _) with false at 1. change (str_eqb _ _) with true at 1.
  cbv iota. rewrite map_map. reflexivity. Qed.
Lemma text_list es : text (TApp op_enlist es) = 91%N :: str_join (s_ "; ") (map text es) ++ [93%N].
Proof. unfold text. cbn [unparse_node]. unfold unparse_app. cbn [op_enlist]. 
  change (str_eqb _ _) with false at 1. change (str_eqb _ _) with false at 1. change (str_eqb _ _) with false at 1.
  change (str_eqb _ _) with true at 1. cbv iota. rewrite map_map. reflexivity. Qed.
Lemma text_chain es : text (TApp op_chain es) = str_join (s_ " ") (map otext es).
Proof. unfold text. cbn [unparse_node]. unfold unparse_app. cbn [op_chain].
  do 4 (change (str_eqb _ _) with false at 1). change (str_eqb _ _) with true at 1. cbv iota. rewrite map_map. reflexivity. Qed.
Lemma toks_send es : toks (TApp op_send es) = sym "(" :: tok_join (map toks es) ++ [sym ")"].
Proof. cbn [toks]. unfold toks_app. cbn [op_send]. 
  change (str_eqb _ _) with false at 1. change (str_eqb _ _) with false at 1. change (str_eqb _ _) with true at 1.
  cbv iota. rewrite map_map. reflexivity. Qed.
Lemma toks_list es : toks (TApp op_enlist es) = sym "[" :: tok_join (map toks es) ++ [sym "]"].
Proof. cbn [toks]. unfold toks_app. cbn [op_enlist]. 
  change (str_eqb _ _) with false at 1. change (str_eqb _ _) with false at 1. change (str_eqb _ _) with false at 1.
  change (str_eqb _ _) with true at 1. cbv iota. rewrite map_map. reflexivity. Qed.
Lemma toks_chain es : toks (TApp op_chain es) = concat (map otoks es).
Proof. cbn [toks]. unfold toks_app. cbn [op_chain].
  do 4 (change (str_eqb _ _) with false at 1). change (str_eqb _ _) with true at 1. cbv iota. rewrite map_map. reflexivity. Qed.

Lemma marked_words o w : well_marked o -> In w words -> str_eqb (o_text o) (s_ w) = false.
Proof.
  intros (b & I & Et & _) J. apply not_true_is_false. intros E. apply str_eqb_eq in E.
  apply (of_word _ (op_fits b I) w J). congruence.
Qed.

Ltac words_out H :=
  rewrite ?(marked_words _ "PAREN" H), ?(marked_words _ "BLOCK" H), ?(marked_words _ "SEND" H),
          ?(marked_words _ "LIST" H), ?(marked_words _ "CHAIN" H) by (cbn; tauto).

Lemma text_prefix o e : well_marked o -> o_arity o = 1 -> text (TApp o [e]) = op_str o ++ 32%N :: otext e.
Proof. intros W A. unfold text. cbn [unparse_node map]. unfold unparse_app. words_out W. rewrite A. reflexivity. Qed.
Lemma text_infix o a b : well_marked o -> o_arity o = 2 ->
  text (TApp o [a; b]) = otext a ++ 32%N :: op_str o ++ 32%N :: otext b.
Proof. intros W A. unfold text. cbn [unparse_node map]. unfold unparse_app. words_out W. rewrite A. reflexivity. Qed.
Lemma text_ternary o a b c : well_marked o -> o_arity o = 3 ->
  text (TApp o [a; b; c]) = otext a ++ 32%N :: op_str o ++ 32%N :: otext b ++ 59%N :: 32%N :: otext c.
Proof. intros W A. unfold text. cbn [unparse_node map]. unfold unparse_app. words_out W. rewrite A. reflexivity. Qed.
Lemma toks_prefix o e : well_marked o -> o_arity o = 1 -> toks (TApp o [e]) = op_toks o ++ otoks e.
Proof. intros W A. cbn [toks map]. unfold toks_app. words_out W. rewrite A. reflexivity. Qed.
Lemma toks_infix o a b : well_marked o -> o_arity o = 2 ->
  toks (TApp o [a; b]) = otoks a ++ op_toks o ++ otoks b.
Proof. intros W A. cbn [toks map]. unfold toks_app. words_out W. rewrite A. reflexivity. Qed.
Lemma toks_ternary o a b c : well_marked o -> o_arity o = 3 ->
  toks (TApp o [a; b; c]) = otoks a ++ op_toks o ++ otoks b ++ sym ";" :: otoks c.
Proof. intros W A. cbn [toks map]. unfold toks_app. words_out W. rewrite A. reflexivity. Qed.

Lemma needs_marked o args : well_marked o -> needs_parens (V := pval) (TApp o args) = true.
Proof.
  intros W. cbn [needs_parens existsb]. words_out W. reflexivity.
Qed.

Lemma text_cmd c args : text (TCmd c args) = c_text c ++ unparse_cmd_args (c_args c) (map text args).
Proof. reflexivity. Qed.

(** ** The text of a block of code *)

Definition sepd (l : list str) : str := concat (map (fun x => x ++ s_ "; ") l).
Lemma sepd_join l : l <> [] -> sepd l = str_join (s_ "; ") l ++ s_ "; ".
Proof.
  induction l as [|x l IH]; [congruence|]. intros _. unfold sepd in *. cbn [map concat].
  destruct l as [|y l]; [cbn [map concat str_join]; rewrite app_nil_r; reflexivity|].
  rewrite IH by discriminate.
  change (str_join (s_ "; ") (x :: y :: l)) with (x ++ s_ "; " ++ str_join (s_ "; ") (y :: l)).
  rewrite <- !app_assoc. reflexivity.
Qed.

Definition good_head (s : str) : Prop := exists c r, s = c :: r /\ is_space c = false /\ c <> 59%N.
Definition good_last (s : str) : Prop := exists r c, s = r ++ [c] /\ c <> 59%N /\ c <> 32%N.

Lemma strip_ends s : good_head s -> good_last s -> strip (cls_in (s_ "; ")) (s ++ s_ "; ") = s.
Proof.
  intros (c & r & -> & Sp & N0) (q & d & Eq & N1 & N2).
  unfold strip, rstrip, lstrip.
  assert (P : cls_in (s_ "; ") c = false).
  { unfold cls_in. cbn [s_ existsb].
    destruct (N.eqb_spec c 59) as [->|]; [congruence|]. destruct (N.eqb_spec c 32) as [->|]; [discriminate Sp|].
    cbn. rewrite ?(proj2 (N.eqb_neq _ _)) by congruence. reflexivity. }
  cbn [Datatypes.app]. rewrite (drop_while_stop _ c) by exact P.
  change (c :: r ++ s_ "; ") with ((c :: r) ++ s_ "; "). rewrite Eq, !rev_app_distr.
  cbn [rev s_ Datatypes.app]. 
  assert (D1 : forall l, drop_while (cls_in (s_ "; ")) (32%N :: 59%N :: d :: l) = d :: l).
  { intros l.
    change (drop_while (cls_in (s_ "; ")) (32%N :: 59%N :: d :: l)) with (drop_while (cls_in (s_ "; ")) (d :: l)).
    apply drop_while_stop. unfold cls_in. cbn [s_ existsb].
    cbn. rewrite ?(proj2 (N.eqb_neq _ _)) by congruence. reflexivity. }
  etransitivity; [apply f_equal, D1|]. cbn [rev]. rewrite rev_involutive. reflexivity.
Qed.

Lemma join_head l x : l = x :: tl l -> good_head x -> good_head (str_join (s_ "; ") l).
Proof.
  intros -> (c & r & -> & H). destruct (tl l); cbn [str_join].
  - exists c, r. auto.
  - eexists c, _. split; [reflexivity|]. exact H.
Qed.
Lemma join_cons y m : m <> [] -> str_join (s_ "; ") (y :: m) = y ++ s_ "; " ++ str_join (s_ "; ") m.
Proof. intros H. destruct m; [congruence|reflexivity]. Qed.
Lemma join_last l x : good_last x -> good_last (str_join (s_ "; ") (l ++ [x])).
Proof.
  intros H. induction l as [|y l IH]; [exact H|].
  change ((y :: l) ++ [x]) with (y :: (l ++ [x])).
  rewrite join_cons by (destruct l; discriminate).
  destruct IH as (q & d & E & K). rewrite E. exists (y ++ s_ "; " ++ q), d. split; [|exact K].
  rewrite <- !app_assoc. reflexivity.
Qed.

Lemma block_text sts : (forall t, In t sts -> good_head (text t)) ->
  (forall front t, sts = front ++ [t] -> good_last (text t)) ->
  text (TBlk sts) = str_join (s_ "; ") (map text sts).
Proof.
  intros H L. unfold text at 1. cbn [unparse_node].
  replace (concat (map (fun x => unparse_node p_repr x ++ s_ "; ") sts)) with (sepd (map text sts))
    by (unfold sepd; rewrite map_map; reflexivity).
  destruct sts as [|t sts]; [reflexivity|].
  rewrite sepd_join by discriminate. apply strip_ends.
  - apply (join_head _ (text t)); [reflexivity|]. apply H. left. reflexivity.
  - destruct (@exists_last _ (t :: sts)) as (front & u & E); [discriminate|].
    rewrite E, map_app. apply join_last. apply (L front u E).
Qed.

(** ** The last character of printed code *)

Lemma leaf_last k : leaf k -> t_text k <> s_ "';" -> t_text k <> s_ "' " -> good_last (t_text k).
Proof.
  intros (K & T & _ & _) N1 N2. destruct (tok_cases k T) as (c & a & E & TA).
  assert (G : forall r x, (x <> 59)%N -> (x <> 32)%N -> t_text k = r ++ [x] -> good_last (t_text k))
    by (intros r x X1 X2 ->; exists r, x; auto).
  assert (ALL : forall p, p 59%N = false -> p 32%N = false -> forallb p (t_text k) = true -> good_last (t_text k)).
  { intros p P1 P2 F. destruct (@exists_last _ (t_text k)) as (r & x & E'); [rewrite E; discriminate|].
    apply (G r x); [| |exact E']; rewrite E', forallb_app in F; apply andb_prop in F; destruct F as [_ F]; cbn in F;
      intros ->; rewrite ?P1, ?P2 in F; discriminate F. }
  destruct TA as [k0 c s0 U F L|c C| |d I|d s0 D F|n Kn|d I| |d I O|b B|b B|b B|d|c s0 D Nm|c I|c s0 P L O];
    try solve [cbn in K; repeat (destruct K as [K|K]; [discriminate K|]); destruct K]; cbn [t_text] in *.
  - apply (ALL is_upper); try reflexivity. cbn [forallb]. apply andb_true_intro. split; [apply upper_range; exact U|].
    apply forallb_forall. rewrite Forall_forall in F. exact F.
  - apply (G [] c); [lia|lia|reflexivity].
  - apply (G [36%N] d); [chars; lia|chars; lia|reflexivity].
  - destruct (@exists_last _ (d :: s0)) as (r & x & E'); [discriminate|].
    assert (X : cls_lower_digit_us x = true \/ is_lower x = true).
    { assert (I : In x (d :: s0)) by (rewrite E'; apply in_or_app; right; left; reflexivity).
      destruct I as [<-|I]; [auto|]. rewrite forallb_forall in F. auto. }
    apply (G (36%N :: r) x); [| |rewrite E'; reflexivity]; intros ->; destruct X as [X|X]; discriminate X.
  - destruct n as [|n]; [lia|]. apply (G (36%N :: repeat 95%N n) 95%N); [discriminate|discriminate|].
    cbn [repeat Datatypes.app]. f_equal. exact (repeat_cons n 95%N).
  - apply (G [92%N] d); [chars; lia|chars; lia|reflexivity].
  - apply (G (92%N :: 34%N :: b ++ [92%N]) 34%N); [discriminate|discriminate|].
    cbn [Datatypes.app]. rewrite <- app_assoc. reflexivity.
  - apply (G (34%N :: b) 34%N); [discriminate|discriminate|reflexivity].
  - apply (G (96%N :: b) 96%N); [discriminate|discriminate|reflexivity].
  - apply (G [39%N] d); [| |reflexivity]; intros ->; [apply N1|apply N2]; reflexivity.
  - apply (ALL numch); try reflexivity. exact (proj1 (unsigned_chars _ Nm)).
Qed.

Lemma last_ends s (c : char) : c <> 59%N -> c <> 32%N -> good_last (s ++ [c]).
Proof. intros. exists s, c. auto. Qed.
Lemma last_app a s : good_last s -> good_last (a ++ s).
Proof. intros (r & c & -> & H). exists (a ++ r), c. split; [apply app_assoc|exact H]. Qed.
Lemma last_cons c s : good_last s -> good_last (c :: s).
Proof. apply (last_app [c]). Qed.

Lemma bracket_last e : printable e -> needs_parens e = false ->
  (exists k, e = TTok k /\ leaf k) \/ good_last (text e).
Proof.
  intros P NP. destruct P as [k L| | |e Pe|es Pe|a b es Pe|sts C T|o e Po Pe|o a b Po A Pa Pb|o a b c Po A Pa Pb Pc|e o e1 ls Pe Co Pe1 Pl].
  - left. eauto.
  - right. apply (last_ends [40%N] 41%N); discriminate.
  - right. apply (last_ends [40%N] 41%N); discriminate.
  - right. rewrite text_paren. apply (last_ends (40%N :: _) 41%N); discriminate.
  - right. rewrite text_list. apply (last_ends (91%N :: _) 93%N); discriminate.
  - right. rewrite text_send. apply (last_ends (40%N :: _) 41%N); discriminate.
  - right. rewrite text_block. apply (last_ends (123%N :: _) 125%N); discriminate.
  - destruct (prefix_marked o Po) as [W _]. rewrite (needs_marked o _ W) in NP. discriminate.
  - rewrite (needs_marked o _ (infix_marked o Po)) in NP. discriminate.
  - rewrite (needs_marked o _ (infix_marked o Po)) in NP. discriminate.
  - discriminate NP.
Qed.

Lemma operand_last e : printable e -> (exists k, e = TTok k /\ leaf k) \/ good_last (otext e).
Proof.
  intros P. unfold otext, operand_str. cbn [fst snd].
  destruct (needs_parens e) eqn:NP.
  - right. apply (last_ends (40%N :: text e) 41%N); discriminate.
  - apply bracket_last; assumption.
Qed.

Lemma marked_brackets o : well_marked o -> ~ brackets o.
Proof.
  intros W B. unfold brackets in B.
  destruct B as [->|[->|[->| ->]]].
  - pose proof (marked_words _ "PAREN" W ltac:(cbn; tauto)) as X. discriminate X.
  - pose proof (marked_words _ "LIST" W ltac:(cbn; tauto)) as X. discriminate X.
  - pose proof (marked_words _ "SEND" W ltac:(cbn; tauto)) as X. discriminate X.
  - pose proof (marked_words _ "BLOCK" W ltac:(cbn; tauto)) as X. discriminate X.
Qed.

Definition tidy_end (t : tree pval) : Prop :=
  forall k, ends_in t k -> t_text k <> s_ "';" /\ t_text k <> s_ "' ".

Lemma operand_end o front e : printable e -> ~ brackets o -> tidy_end (TApp o (front ++ [e])) -> good_last (otext e).
Proof.
  intros P NB T. destruct (operand_last e P) as [(k & -> & L)|G]; [|exact G].
  destruct (T k) as [T1 T2]; [apply ends_app; exact NB|]. apply leaf_last; assumption.
Qed.

Lemma spread_join e ls : str_join (s_ " ") (map otext (e :: ls)) = otext e ++ concat (map (fun x => 32%N :: otext x) ls).
Proof.
  revert e. induction ls as [|x ls IH]; intros e; cbn [map str_join concat]; [rewrite app_nil_r; reflexivity|].
  specialize (IH x). cbn [map] in IH. cbn [s_ Datatypes.app]. f_equal. apply f_equal. exact IH.
Qed.

Lemma links_last e ls : links ls -> printable e -> exists front x, e :: ls = front ++ [x] /\ printable x.
Proof.
  intros L. revert e. induction L as [|o e1 ls C P1 L IH]; intros e P.
  - exists [], e. auto.
  - destruct (IH e1 P1) as (front & x & E & Px). exists (e :: TOpr o :: front), x. split; [|exact Px].
    cbn [Datatypes.app]. do 2 f_equal. exact E.
Qed.

Lemma chain_brackets : ~ brackets op_chain.
Proof. intros [E|[E|[E|E]]]; discriminate E. Qed.

Lemma expr_last e : printable e -> tidy_end e -> good_last (text e).
Proof.
  intros P T. destruct (needs_parens e) eqn:NP.
  - destruct P as [k L| | |e Pe|es Pe|a b es Pe|sts C Td|o e Po Pe|o a b Po A Pa Pb|o a b c Po A Pa Pb Pc|e o e1 ls Pe Co Pe1 Pl];
      try discriminate NP.
    + destruct (prefix_marked o Po) as [W A]. rewrite (text_prefix o e W A).
      apply last_app, last_cons. apply (operand_end o []); auto. apply marked_brackets, W.
    + pose proof (infix_marked o Po) as W. rewrite (text_infix o a b W A).
      apply last_app, last_cons, last_app, last_cons. apply (operand_end o [a]); auto. apply marked_brackets, W.
    + pose proof (infix_marked o Po) as W. rewrite (text_ternary o a b c W A).
      apply last_app, last_cons, last_app, last_cons, last_app, last_cons, last_cons.
      apply (operand_end o [a; b]); auto. apply marked_brackets, W.
    + rewrite text_chain. destruct (links_last e1 ls Pl Pe1) as (front & x & E & Px).
      assert (EA : e :: TOpr o :: e1 :: ls = (e :: TOpr o :: front) ++ [x]) by (cbn [Datatypes.app]; rewrite E; reflexivity).
      rewrite EA in *. change ((e :: TOpr o :: front) ++ [x]) with (e :: (TOpr o :: front) ++ [x]).
      rewrite spread_join, map_app, concat_app. apply last_app, last_app. cbn [map concat]. rewrite app_nil_r.
      apply last_cons. apply (operand_end op_chain (e :: TOpr o :: front)); auto. apply chain_brackets.
  - destruct (bracket_last e P NP) as [(k & -> & L)|G]; [|exact G].
    destruct (T k) as [T1 T2]; [apply ends_leaf|]. apply leaf_last; assumption.
Qed.

Lemma args_last tys args : arguments tys args -> tys = [] \/ last tys A_EXPR = A_CODE \/ last tys A_EXPR = A_ELSE ->
  unparse_cmd_args tys (map text args) = [] \/ good_last (unparse_cmd_args tys (map text args)).
Proof.
  intros A. induction A as [|x ts args V A IH|e ts args P A IH N0|sts ts args C T A IH|sts ts args C T A IH]; intros H.
  - left. reflexivity.
  - right. destruct H as [H|H]; [discriminate H|].
    assert (N1 : ts <> []) by (intros ->; destruct H; discriminate).
    destruct IH as [E|E]; [right; destruct ts; [congruence|exact H]| |].
    + destruct A; try congruence; discriminate E.
    + cbn [map unparse_cmd_args]. apply last_app, E.
  - right. destruct H as [H|H]; [discriminate H|].
    assert (N1 : ts <> []) by (intros ->; destruct H; discriminate).
    destruct IH as [E|E]; [right; destruct ts; [congruence|exact H]| |].
    + destruct A; try congruence; discriminate E.
    + cbn [map unparse_cmd_args]. apply last_app, E.
  - right. cbn [map unparse_cmd_args]. destruct H as [H|H]; [discriminate H|].
    destruct IH as [E|E]; [destruct ts; [auto|right; exact H]| |].
    + rewrite E, app_nil_r. rewrite app_assoc. apply last_ends; discriminate.
    + apply last_app, E.
  - right. cbn [map unparse_cmd_args]. destruct H as [H|H]; [discriminate H|].
    destruct IH as [E|E]; [destruct ts; [auto|right; exact H]| |].
    + rewrite E, app_nil_r. rewrite app_assoc. apply last_ends; discriminate.
    + apply last_app, E.
Qed.

Lemma statement_last t : statement t -> tidy_end t -> good_last (text t).
Proof.
  intros [e P|c args I A] T; [apply expr_last; assumption|].
  rewrite text_cmd.
  assert (X : (c_args c = [] \/ last (c_args c) A_EXPR = A_CODE \/ last (c_args c) A_EXPR = A_ELSE)
              /\ good_last (c_text c)).
  { assert (F : Forall (fun c => (c_args c = [] \/ last (c_args c) A_EXPR = A_CODE \/ last (c_args c) A_EXPR = A_ELSE)
                                 /\ good_last (c_text c)) cmd_table).
    { unfold cmd_table. repeat (constructor; [split; [cbn; tauto|]|]); [..|constructor];
        first [eexists [], _; split; [reflexivity|split; discriminate]
              |eexists [_], _; split; [reflexivity|split; discriminate]]. }
    rewrite Forall_forall in F. apply F, I. }
  destruct X as [X G]. destruct (args_last _ _ A X) as [E|E].
  - rewrite E, app_nil_r. exact G.
  - apply last_app, E.
Qed.

(** ** Printed code is read as its tokens *)

Scheme printable_mind := Minimality for printable Sort Prop
  with all_mind := Minimality for all_printable Sort Prop
  with links_mind := Minimality for links Sort Prop
  with statement_mind := Minimality for statement Sort Prop
  with code_mind := Minimality for code Sort Prop
  with arguments_mind := Minimality for arguments Sort Prop
  with variable_mind := Minimality for loop_variable Sort Prop
  with variables_mind := Minimality for loop_variables Sort Prop.
Combined Scheme printable_all from printable_mind, all_mind, links_mind, statement_mind, code_mind,
  arguments_mind, variable_mind, variables_mind.

Definition reads_as (s : str) (ts : list token) : Prop :=
  forall r, after_ok r -> reads (s ++ r) ts [] r.
Definition well_read (t : tree pval) : Prop := good_head (text t) /\ reads_as (text t) (toks t).

Lemma blank_head s r : good_head s -> ~ starts_blank (s ++ r).
Proof. intros (c & q & -> & Sp & _) (d & u & E & B). injection E as <- _. congruence. Qed.

Lemma well_operand t : well_read t -> good_head (otext t) /\ reads_as (otext t) (otoks t).
Proof.
  intros [H R]. unfold otext, otoks, operand_str, operand_toks. cbn [fst snd].
  destruct (needs_parens t); [|auto]. split.
  - exists 40%N, (text t ++ [41%N]). repeat split; discriminate.
  - intros r A. cbn [s_ Datatypes.app]. rewrite <- !app_assoc.
    eapply reads_cons; [apply (reads_sym "("); [reflexivity|cbn; tauto]|].
    eapply reads_app'; [apply R; apply after_in; cbn; tauto|].
    apply (reads_sym ")"); [reflexivity|cbn; tauto].
Qed.

Lemma space_reads s ts : good_head s -> reads_as s ts -> reads_as (32%N :: s) ts.
Proof.
  intros H R r A. cbn [Datatypes.app]. apply (reads_app' _ [] (s ++ r)); [|apply R, A].
  apply reads_space, blank_head, H.
Qed.

Lemma join_reads es : Forall well_read es -> forall r, after_ok r ->
  reads (str_join (s_ "; ") (map text es) ++ r) (tok_join (map toks es)) [] r.
Proof.
  intros F r A. induction F as [|e es [H R] F IH]; [constructor|].
  destruct es as [|e' es]; [apply R, A|].
  change (str_join (s_ "; ") (map text (e :: e' :: es)))
    with (text e ++ 59%N :: 32%N :: str_join (s_ "; ") (map text (e' :: es))).
  change (tok_join (map toks (e :: e' :: es))) with (toks e ++ sym ";" :: tok_join (map toks (e' :: es))).
  rewrite <- app_assoc. cbn [Datatypes.app]. eapply reads_app'; [apply R, after_in; cbn; tauto|].
  eapply reads_cons; [apply (reads_sym ";"); [reflexivity|cbn; tauto]|].
  eapply (reads_app' _ []); [|exact IH]. apply reads_space, blank_head.
  apply (join_head _ (text e')); [reflexivity|]. inversion F; subst. apply H2.
Qed.

Lemma reads_brace s : (forall q, s <> 59%N :: q) -> reads (123%N :: s) [sym "{"] [] s.
Proof.
  intros N0. apply (reads_one (sym "{") s).
  - cbn. tauto.
  - intros (x & y & E & U). injection E as <- <-. discriminate U.
  - intros t' (T' & r & E'). destruct (tok_cases t' T') as (c' & b & Eb & TB). rewrite Eb in *.
    change (t_text (sym "{") ++ s) with (123%N :: s) in E'. cbn [Datatypes.app] in E'.
    injection E' as <- E'. change (length (t_text (sym "{"))) with 1.
    inversion TB; subst; cbn [length]; try lia; chars; lia.
  - intros q E. cbn [sym t_text s_ Datatypes.app] in E. injection E as E. exact (N0 q E).
Qed.

Lemma block_reads sts : Forall well_read sts -> code sts -> tidy sts -> reads_as (123%N :: text (TBlk sts) ++ [125%N]) (sym "{" :: toks (TBlk sts) ++ [sym "}"]).
Proof.
  intros F C T r A.
  assert (HD : forall t, In t sts -> good_head (text t)).
  { intros t I. rewrite Forall_forall in F. apply (F t I). }
  assert (EB : text (TBlk sts) = str_join (s_ "; ") (map text sts)).
  { apply block_text; [exact HD|]. intros front t E. apply statement_last.
    - rewrite E in C. clear -C. induction front as [|x front IH]; inversion C; subst; auto.
    - intros k K. exact (T front t k E K). }
  rewrite EB. cbn [Datatypes.app toks]. rewrite <- app_assoc. cbn [Datatypes.app].
  eapply reads_cons; [apply reads_brace|].
  - intros q E. destruct sts as [|t sts]; [discriminate E|].
    destruct (join_head (map text (t :: sts)) (text t) eq_refl (HD t (or_introl eq_refl))) as (c & u & E' & _ & N0).
    rewrite E' in E. injection E as E _. congruence.
  - eapply reads_app'; [apply join_reads; [exact F|apply after_in; cbn; tauto]|].
    apply (reads_fixed (sym "}") _ 125%N []); [cbn; tauto|reflexivity|unfold fixed_head; lia|discriminate].
Qed.

Lemma opr_reads o : well_marked o -> good_head (op_str o) /\ forall s ts, good_head s -> reads_as s ts ->
  reads_as (op_str o ++ 32%N :: s) (op_toks o ++ ts).
Proof.
  intros W. split; [exact (opstr_head o W)|]. intros s ts H R r A. rewrite <- app_assoc. cbn [Datatypes.app].
  eapply reads_app'; [apply reads_opstr, W|]. eapply (reads_app' _ []); [|apply R, A].
  apply reads_space, blank_head, H.
Qed.

Lemma head_app s r : good_head s -> good_head (s ++ r).
Proof. intros (c & q & -> & H). exists c, (q ++ r). auto. Qed.

Lemma infix_reads a o s ts : good_head (otext a) -> reads_as (otext a) (otoks a) -> well_marked o ->
  good_head s -> reads_as s ts ->
  reads_as (otext a ++ 32%N :: op_str o ++ 32%N :: s) (otoks a ++ op_toks o ++ ts).
Proof.
  intros Ha Ra W H R r A. rewrite <- app_assoc. cbn [Datatypes.app].
  eapply reads_app'; [apply Ra, after_in; cbn; tauto|].
  eapply (reads_app' _ []); [apply reads_space, blank_head, head_app, (opstr_head o W)|].
  apply (proj2 (opr_reads o W)); assumption.
Qed.

Lemma command_reads c s : In c cmd_table -> after_ok s \/ s = [] -> reads (c_text c ++ s) [Tok KCommand (c_text c)] [] s.
Proof.
  intros I A.
  assert (X : Forall (fun x => is_upper x = true) (c_text c) /\ length (c_text c) <= 2 /\ c_text c <> [] /\ c_text c <> s_ "EI").
  { assert (F : Forall (fun c => Forall (fun x => is_upper x = true) (c_text c) /\ length (c_text c) <= 2 /\ c_text c <> [] /\ c_text c <> s_ "EI") cmd_table).
    { unfold cmd_table. repeat (constructor; [split; [repeat (constructor; [reflexivity|]); constructor|split; [cbn; lia|split; discriminate]]|]). constructor. }
    rewrite Forall_forall in F. apply F, I. }
  destruct X as (X1 & X2 & X3 & X4). apply (reads_upper (Tok KCommand (c_text c))); auto.
  - exists c. auto.
  - destruct A as [A| ->]; [apply after_not_upper, A|]. intros (x & y & E & _). discriminate E.
Qed.

Lemma else_reads s : after_ok s -> reads (69%N :: 76%N :: s) [sym "EL"] [] s.
Proof.
  intros A. apply (reads_upper (sym "EL") s); [cbn; tauto|repeat constructor|cbn; lia|discriminate|discriminate|].
  apply after_not_upper, A.
Qed.

Lemma token_head k : token_text k -> t_text k <> s_ ";" -> good_head (t_text k).
Proof.
  intros T N0. destruct (ScanProof.tok_nonempty k T) as (c & r & E & Sp). exists c, r. split; [exact E|].
  split; [exact Sp|]. intros ->. destruct (tok_cases k T) as (c' & a & E' & TA). rewrite E in E'. injection E' as <- <-.
  apply N0. rewrite E. f_equal. inversion TA; subst; try reflexivity; exfalso; chars; lia.
Qed.

Lemma leaf_read k : leaf k -> well_read (TTok k).
Proof.
  intros L. split.
  - apply token_head; [apply L|]. intros E. destruct L as (K & T & _).
    destruct k as [kd x]. cbn [t_text t_kind] in *. subst x. cbn in K.
    repeat (destruct K as [<-|K]; [cbn in T|]); [..|destruct K].
    * destruct T as (T & _). inversion T; subst; try discriminate.
      -- match goal with X : Forall _ _ |- _ => inversion X; subst; discriminate end.
    * destruct (unsigned_chars _ T) as (F & _). discriminate F.
    * destruct T as (b & T & _). discriminate T.
    * destruct T as (b & T & _). discriminate T.
    * destruct T as (c & T). discriminate T.
    * destruct T as (b & T & _). discriminate T.
  - intros r A. unfold text. cbn [unparse_node toks].
    replace (match t_kind k with KNil => [sym "("; sym ")"] | _ => [k] end) with [k]
      by (destruct L as (K & _); destruct (t_kind k); cbn in K; reflexivity || (exfalso; clear -K; repeat (destruct K as [K|K]; [discriminate K|]); destruct K)).
    apply reads_leaf; assumption.
Qed.

Theorem code_read :
  (forall t, printable t -> well_read t)
  /\ (forall es, all_printable es -> Forall well_read es)
  /\ (forall ls, links ls -> reads_as (concat (map (fun x => 32%N :: otext x) ls)) (concat (map otoks ls)))
  /\ (forall t, statement t -> well_read t)
  /\ (forall sts, code sts -> Forall well_read sts)
  /\ (forall tys args, arguments tys args ->
        (args = [] \/ exists q, unparse_cmd_args tys (map text args) = 32%N :: q)
        /\ reads_as (unparse_cmd_args tys (map text args)) (toks_args tys (map toks args)))
  /\ (forall t, loop_variable t -> well_read t)
  /\ (forall es, loop_variables es -> Forall well_read es).
Proof.
  assert (BR : forall es, Forall well_read es -> forall a b ta tb, In a (s_ "[(") -> In b (s_ "])") -> s_ ta = [a] -> s_ tb = [b] ->
            good_head (a :: str_join (s_ "; ") (map text es) ++ [b])
            /\ reads_as (a :: str_join (s_ "; ") (map text es) ++ [b]) (sym ta :: tok_join (map toks es) ++ [sym tb])).
  { intros es F a b ta tb Ia Ib Ea Eb. split.
    - eexists a, _. split; [reflexivity|]. cbn in Ia. destruct Ia as [<-|[<-|[]]]; split; reflexivity || discriminate.
    - intros r A. cbn [Datatypes.app]. rewrite <- app_assoc.
      eapply reads_cons; [apply (reads_sym ta); [exact Ea|cbn in *; tauto]|].
      eapply reads_app'; [apply join_reads; [exact F|apply after_in; cbn in *; tauto]|].
      apply (reads_sym tb); [exact Eb|cbn in *; tauto]. }
  apply printable_all.
  - exact leaf_read.
  - (* nil *) apply (BR [] ltac:(constructor) 40%N 41%N "(" ")"); cbn; auto.
  - apply (BR [] ltac:(constructor) 40%N 41%N "(" ")"); cbn; auto.
  - (* paren *) intros e _ W. apply (BR [e] ltac:(constructor; [exact W|constructor]) 40%N 41%N "(" ")"); cbn; auto.
  - intros es _ W. unfold well_read. rewrite text_list, toks_list. apply BR; cbn; auto.
  - intros a b es _ W. unfold well_read. rewrite text_send, toks_send. apply BR; cbn; auto.
  - (* block *) intros sts C F T. split.
    + rewrite text_block. eexists _, _. split; [reflexivity|]. split; [reflexivity|discriminate].
    + rewrite text_block. apply block_reads; assumption.
  - (* prefix *) intros o e P _ W. destruct (prefix_marked o P) as [M A]. destruct (well_operand e W) as [H R].
    unfold well_read. rewrite (text_prefix o e M A), (toks_prefix o e M A). split.
    + apply head_app, opstr_head, M.
    + apply opr_reads; assumption.
  - (* infix *) intros o a b P A _ Wa _ Wb. pose proof (infix_marked o P) as M.
    destruct (well_operand a Wa) as [Ha Ra]. destruct (well_operand b Wb) as [Hb Rb].
    unfold well_read. rewrite (text_infix o a b M A), (toks_infix o a b M A). split; [apply head_app, Ha|].
    apply infix_reads; assumption.
  - (* ternary *) intros o a b c P A _ Wa _ Wb _ Wc. pose proof (infix_marked o P) as M.
    destruct (well_operand a Wa) as [Ha Ra]. destruct (well_operand b Wb) as [Hb Rb]. destruct (well_operand c Wc) as [Hc Rc].
    unfold well_read. rewrite (text_ternary o a b c M A), (toks_ternary o a b c M A). split; [apply head_app, Ha|].
    apply infix_reads; auto; [apply head_app, Hb|].
    intros r Ar. rewrite <- app_assoc. cbn [Datatypes.app].
    eapply reads_app'; [apply Rb, after_in; cbn; tauto|].
    eapply reads_cons; [apply (reads_sym ";"); [reflexivity|cbn; tauto]|].
    apply (space_reads _ _ Hc Rc r Ar).
  - (* chain *) intros e o e1 ls _ We (B & _) _ We1 _ Rl. pose proof (between_marked o B) as M.
    destruct (well_operand e We) as [He Re]. destruct (well_operand e1 We1) as [H1 R1].
    unfold well_read. rewrite text_chain, toks_chain, spread_join. split; [apply head_app, He|].
    cbn [map concat]. rewrite ?app_assoc.
    change (otext (TOpr o)) with (op_str o). change (otoks (TOpr o)) with (op_toks o).
    intros r Ar. rewrite <- !app_assoc. cbn [Datatypes.app].
    eapply reads_app'; [apply Re, after_in; cbn; tauto|].
    eapply (reads_app' _ []); [apply reads_space, blank_head, (opstr_head o M)|].
    rewrite <- ?app_assoc. cbn [Datatypes.app].
    eapply reads_app'; [apply reads_opstr, M|].
    eapply (reads_app' _ []); [apply reads_space, blank_head, H1|].
    assert (Al : after_ok (concat (map (fun x => 32%N :: otext x) ls) ++ r)).
    { destruct ls; [exact Ar|]. apply after_in. cbn; tauto. }
    eapply reads_app'; [apply R1, Al|]. apply Rl, Ar.
  - constructor.
  - intros e es _ W _ F. constructor; assumption.
  - intros r A. constructor.
  - (* links *) intros o e ls (B & _) _ We _ Rl r Ar. pose proof (between_marked o B) as M.
    destruct (well_operand e We) as [H1 R1]. cbn [map concat].
    change (otext (TOpr o)) with (op_str o). change (otoks (TOpr o)) with (op_toks o).
    rewrite <- !app_assoc. cbn [Datatypes.app].
    eapply (reads_app' _ []); [apply reads_space, blank_head, (opstr_head o M)|].
    rewrite <- ?app_assoc. cbn [Datatypes.app].
    eapply reads_app'; [apply reads_opstr, M|].
    eapply (reads_app' _ []); [apply reads_space, blank_head, H1|].
    assert (Al : after_ok (concat (map (fun x => 32%N :: otext x) ls) ++ r)).
    { destruct ls; [exact Ar|]. apply after_in. cbn; tauto. }
    eapply reads_app'; [apply R1, Al|]. apply Rl, Ar.
  - auto.
  - (* command *) intros c args I A [H R]. split.
    + rewrite text_cmd. apply head_app.
      assert (F : Forall (fun c => good_head (c_text c)) cmd_table).
      { unfold cmd_table. repeat (constructor; [eexists _, _; split; [reflexivity|split; [reflexivity|discriminate]]|]). constructor. }
      rewrite Forall_forall in F. apply F, I.
    + rewrite text_cmd. cbn [toks]. intros r Ar. rewrite <- app_assoc.
      eapply reads_cons; [apply command_reads; [exact I|]|apply R, Ar].
      left. destruct H as [->|(q & E)].
      * destruct (c_args c); exact Ar.
      * rewrite E. apply after_in. cbn; tauto.
  - constructor.
  - intros t sts _ W _ F. constructor; assumption.
  - (* arguments *) split; [auto|]. intros r A. constructor.
  - intros x ts args _ [H R] A [_ Ra]. split; [right; eexists; reflexivity|]. intros r Ar.
    cbn [map unparse_cmd_args toks_args s_ Datatypes.app]. rewrite <- app_assoc.
    eapply reads_app'; [apply (space_reads _ _ H R)|apply Ra, Ar].
    destruct A; [exact Ar|apply after_in; cbn; tauto..].
  - intros x ts args _ [H R] A [_ Ra] _. split; [right; eexists; reflexivity|]. intros r Ar.
    cbn [map unparse_cmd_args toks_args s_ Datatypes.app]. rewrite <- app_assoc.
    eapply reads_app'; [apply (space_reads _ _ H R)|apply Ra, Ar].
    destruct A; [exact Ar|apply after_in; cbn; tauto..].
  - intros sts ts args C F T A [_ Ra]. split; [right; eexists; reflexivity|]. intros r Ar.
    cbn [map unparse_cmd_args toks_args].
    assert (Al : after_ok (unparse_cmd_args ts (map text args) ++ r)).
    { destruct A; [exact Ar|apply after_in; cbn; tauto..]. }
    pose proof (block_reads sts F C T _ Al) as BK.
    change ((s_ " {" ++ text (TBlk sts) ++ s_ "}") ++ unparse_cmd_args ts (map text args))
      with (32%N :: 123%N :: (text (TBlk sts) ++ [125%N]) ++ unparse_cmd_args ts (map text args)).
    cbn [Datatypes.app] in BK |- *. rewrite <- (app_assoc (text (TBlk sts) ++ [125%N])).
    eapply (reads_app' _ []); [apply reads_space; intros (x & y & E & B); injection E as <- _; discriminate B|].
    change (sym "{" :: (toks (TBlk sts) ++ [sym "}"]) ++ toks_args ts (map toks args))
      with ((sym "{" :: toks (TBlk sts) ++ [sym "}"]) ++ toks_args ts (map toks args)).
    eapply reads_app'; [exact BK|apply Ra, Ar].
  - intros sts ts args C F T A [_ Ra]. split; [right; eexists; reflexivity|]. intros r Ar.
    cbn [map unparse_cmd_args toks_args].
    assert (Al : after_ok (unparse_cmd_args ts (map text args) ++ r)).
    { destruct A; [exact Ar|apply after_in; cbn; tauto..]. }
    pose proof (block_reads sts F C T _ Al) as BK.
    change ((s_ " EL {" ++ text (TBlk sts) ++ s_ "}") ++ unparse_cmd_args ts (map text args))
      with (32%N :: 69%N :: 76%N :: 32%N :: 123%N :: (text (TBlk sts) ++ [125%N]) ++ unparse_cmd_args ts (map text args)).
    cbn [Datatypes.app] in BK |- *. rewrite <- (app_assoc (text (TBlk sts) ++ [125%N])).
    eapply (reads_app' _ []); [apply reads_space; intros (x & y & E & B); injection E as <- _; discriminate B|].
    eapply reads_cons; [apply else_reads, after_in; cbn; tauto|].
    eapply (reads_app' _ []); [apply reads_space; intros (x & y & E & B); injection E as <- _; discriminate B|].
    change (sym "{" :: (toks (TBlk sts) ++ [sym "}"]) ++ toks_args ts (map toks args))
      with ((sym "{" :: toks (TBlk sts) ++ [sym "}"]) ++ toks_args ts (map toks args)).
    eapply reads_app'; [exact BK|apply Ra, Ar].
  - intros k L _. apply leaf_read, L.
  - intros x xs _ W _ F. unfold well_read. rewrite text_list, toks_list. apply BR; cbn; auto.
  - constructor.
  - intros x xs _ W _ F. constructor; assumption.
Qed.

(** ** Its tokens are parsed as the same code with some more parentheses *)

Definition bracket_op (o : oper) : bool :=
  existsb (str_eqb (o_text o)) [s_ "PAREN"; s_ "BLOCK"; s_ "SEND"; s_ "LIST"].

Fixpoint wrap (t : tree pval) : tree hval :=
  match t with
  | TTok k => TTok k
  | TVal _ => TTok nil_token
  | TOpr o => TOpr o
  | TApp o args =>
    TApp o (map (fun x => if negb (bracket_op o) && needs_parens x then TApp op_paren [wrap x] else wrap x) args)
  | TBlk sts => TBlk (map wrap sts)
  | TCmd c args => TCmd c (map wrap args)
  end.
Definition owrap (t : tree pval) : tree hval := if needs_parens t then TApp op_paren [wrap t] else wrap t.

Lemma wrap_bracket o args : bracket_op o = true -> wrap (TApp o args) = TApp o (map wrap args).
Proof. intros E. cbn [wrap]. f_equal. apply map_ext. intros x. rewrite E. reflexivity. Qed.
Lemma wrap_op o args : bracket_op o = false -> wrap (TApp o args) = TApp o (map owrap args).
Proof. intros E. cbn [wrap]. f_equal. apply map_ext. intros x. rewrite E. reflexivity. Qed.
Lemma marked_bracket o : well_marked o -> bracket_op o = false.
Proof. intros W. unfold bracket_op. cbn [existsb]. words_out W. reflexivity. Qed.

Definition stopper (k : option token) : Prop := match k with None => True | Some t => t_kind t <> KOperator end.

Lemma infix_stopped f m (e : tree hval) k r : stopper k -> parse_infix (S f) m e (k :: r) = POk e (k :: r).
Proof.
  intros H. rewrite parse_infix_eq. destruct k as [t|]; [|reflexivity]. cbn in H. destruct (t_kind t); congruence || reflexivity.
Qed.

(** [ts] are the tokens of an operand, parsed as [t]. *)
Definition parsed (ts : list token) (t : tree hval) : Prop :=
  (exists k r, ts = k :: r /\ t_kind k <> KOperator /\ t_kind k <> KCommand
     /\ forall w, In w ["*"; ":"; "]"; ")"; "}"; ";"; "EL"] -> t_text k <> s_ w)
  /\ forall f rest, 10 * length ts <= f -> parse_operand f (map Some ts ++ rest) = POk t rest.

Definition simple_tree (t : tree hval) : Prop :=
  match t with
  | TApp o _ => o_arity o = 1 /\ is_chain o = false
  | _ => True
  end.
Lemma bubble_one o t : simple_tree t -> bubble o t = ([], (o, [t])).
Proof.
  intros H. destruct t as [k|v|p|p args|sts|c args]; try reflexivity. destruct H as [A C].
  unfold bubble. cbn [spine_depth bubble_fuel]. rewrite A, C, andb_false_r. reflexivity.
Qed.

(** *** Prefix operators *)

Definition unary_rest (f : nat) (op : oper) (ts2 : toklist) : pres (tree hval) :=
  match ts2 with
  | [] => PErr PIndexError
  | _ :: ts2' =>
    let '(op, ts3) := if head_is ts2 "*" then (op_set_map op, ts2') else (op, ts2) in
    match ts3 with
    | [] => PErr PIndexError
    | _ :: ts3' =>
      let '(op, ts4) :=
        if head_is ts3 ":" then (op_set_assign op (o_prec assign_op) (o_assoc op), ts3') else (op, ts3) in
      pbind (parse_expr f (o_prec op + 1) ts4) (fun x ts5 => POk (TApp op [x]) ts5)
    end
  end.

Lemma operand_unary f t op ts : op_by_arity 1 t = Some op ->
  parse_operand (V := hval) (S f) (Some (Tok KOperator t) :: ts) = unary_rest f op ts.
Proof.
  intros E. destruct (looked_up _ _ _ E) as (I & Et & _). pose proof (op_fits op I) as F.
  rewrite parse_operand_eq. cbn [t_kind t_text].
  assert (W : forall w, In w words -> str_eqb t (s_ w) = false).
  { intros w J. apply not_true_is_false. intros X. apply str_eqb_eq in X. apply (of_word _ F w J). congruence. }
  rewrite !W by (cbn; tauto). cbn [orb]. rewrite E. reflexivity.
Qed.
Lemma operand_fold f t op ts : op_by_arity 2 t = Some op ->
  parse_operand (V := hval) (S f) (Some (sym "$") :: Some (Tok KOperator t) :: ts) = unary_rest f (op_set_fold op) ts.
Proof.
  intros E. rewrite parse_operand_eq. change (t_kind (sym "$")) with KSymbol. change (t_text (sym "$")) with (s_ "$").
  cbn [t_text]. rewrite E. reflexivity.
Qed.
Lemma operand_scan f t op ts : op_by_arity 2 t = Some op ->
  parse_operand (V := hval) (S f) (Some (sym "\$") :: Some (Tok KOperator t) :: ts) = unary_rest f (op_set_scan op) ts.
Proof.
  intros E. rewrite parse_operand_eq. change (t_kind (sym "\$")) with KSymbol. change (t_text (sym "\$")) with (s_ "\$").
  cbn [t_text]. rewrite E. reflexivity.
Qed.

(** The tokens in front of the modifiers. *)
Definition base_toks (o : oper) : list token :=
  (if o_fold o then [sym "$"] else if o_scan o then [sym "\$"] else []) ++ [Tok KOperator (o_text o)].

Lemma operand_base f o ts : unmarked o ->
  parse_operand (V := hval) (S f) (map Some (base_toks o) ++ ts) = unary_rest f o ts.
Proof.
  intros [t p E|t p E|t p E]; destruct (looked_up _ _ _ E) as (I & Et & A); pose proof (op_fits p I) as F;
    destruct (of_plain _ F) as (P1 & P2 & P3 & P4).
  - unfold base_toks. rewrite P1, P2, Et. apply operand_unary, E.
  - unfold base_toks. cbn [op_set_fold o_fold o_text]. rewrite Et. apply operand_fold, E.
  - unfold base_toks. cbn [op_set_scan o_fold o_scan o_text]. rewrite P1, Et. apply operand_scan, E.
Qed.

Lemma expr_high f m ts t k rest : parsed ts t -> (0 <= m)%Z -> stopper k -> 10 * length ts + 2 <= f ->
  parse_expr f m (map Some ts ++ k :: rest) = POk t (k :: rest).
Proof.
  intros [_ P] M K L. destruct f as [|[|f]]; try lia. rewrite parse_expr_eq, P by lia. cbn [pbind].
  rewrite (infix_stopped f m t k rest K). cbn [pbind].
  destruct (Z.eqb_spec m (-1)); [lia|]. reflexivity.
Qed.

Lemma parsed_head ts t rest w : parsed ts t -> In w ["*"; ":"; "]"; ")"; "}"; ";"; "EL"] ->
  head_is (map Some ts ++ rest) w = false.
Proof.
  intros [(k & r & -> & _ & _ & H) _] I. cbn [map Datatypes.app head_is].
  apply not_true_is_false. intros E. apply str_eqb_eq in E. exact (H w I E).
Qed.
Lemma parsed_cons ts t rest : parsed ts t -> exists k q, map Some ts ++ rest = Some k :: q.
Proof. intros [(k & r & -> & _) _]. eexists _, _. reflexivity. Qed.

Lemma prefix_parsed o ts t k rest f : prefix_operator o -> parsed ts t -> stopper k ->
  10 * length (op_toks o ++ ts) <= f ->
  parse_operand f (map Some (op_toks o ++ ts) ++ k :: rest) = POk (TApp o [t]) (k :: rest).
Proof.
  intros PO P K L.
  assert (U : exists b (m a : bool), unmarked b /\ op_toks o = base_toks b ++ (if m then [opt "*"] else []) ++ (if a then [opt ":"] else [])
            /\ o = (if a then assigned (if m then op_set_map b else b) (o_assoc b) else if m then op_set_map b else b)
            /\ (0 <= o_prec o)%Z).
  { assert (Q : (0 <= o_prec o)%Z) by (destruct (prefix_marked o PO) as [(b & _ & _ & _ & _ & _ & Q) _]; exact Q).
    destruct PO as [b U|b U|b U N0|b U]; destruct (unmarked_base b U) as (b' & _ & _ & _ & _ & _ & M & As & _).
    - exists b, false, false. split; [exact U|]. split; [|auto]. unfold op_toks, base_toks. rewrite M, As, <- app_assoc. reflexivity.
    - exists b, true, false. split; [exact U|]. split; [|auto]. unfold op_toks, base_toks.
      cbn [op_set_map o_fold o_scan o_text o_map o_assign]. rewrite As, <- app_assoc. reflexivity.
    - exists b, false, true. split; [exact U|]. split; [|auto]. unfold op_toks, base_toks.
      cbn [assigned op_set_assign o_fold o_scan o_text o_map o_assign]. rewrite M, <- app_assoc. reflexivity.
    - exists b, true, true. split; [exact U|]. split; [|auto]. unfold op_toks, base_toks.
      cbn [assigned op_set_assign op_set_map o_fold o_scan o_text o_map o_assign]. rewrite <- app_assoc. reflexivity. }
  destruct U as (b & m & a & U & Et & Eo & Q).
  assert (Lo : 1 <= length (op_toks o)).
  { unfold op_toks. rewrite !app_length. cbn [length]. lia. }
  rewrite app_length in L. destruct f as [|f]; [lia|].
  rewrite Et, !map_app, <- !app_assoc, (operand_base f b _ U).
  assert (EX : parse_expr f (o_prec o + 1) (map Some ts ++ k :: rest) = POk t (k :: rest)).
  { apply expr_high; [exact P|lia|exact K|lia]. }
  destruct (parsed_cons ts t (k :: rest) P) as (k0 & q0 & E0).
  pose proof (parsed_head ts t (k :: rest) "*" P ltac:(cbn; tauto)) as H1.
  pose proof (parsed_head ts t (k :: rest) ":" P ltac:(cbn; tauto)) as H2.
  destruct m, a; cbn [map Datatypes.app]; unfold unary_rest.
  - change (head_is (Some (opt "*") :: Some (opt ":") :: map Some ts ++ k :: rest) "*") with true. cbv iota.
    change (head_is (Some (opt ":") :: map Some ts ++ k :: rest) ":") with true. cbv iota.
    unfold assigned in Eo. cbn [op_set_map o_assoc]. rewrite <- Eo, EX. reflexivity.
  - change (head_is (Some (opt "*") :: map Some ts ++ k :: rest) "*") with true. cbv iota.
    rewrite E0 in *. rewrite H2, <- Eo, EX. reflexivity.
  - change (head_is (Some (opt ":") :: map Some ts ++ k :: rest) "*") with false. cbv iota.
    change (head_is (Some (opt ":") :: map Some ts ++ k :: rest) ":") with true. cbv iota.
    unfold assigned in Eo. rewrite <- Eo, EX. reflexivity.
  - rewrite E0 in *. rewrite H1, H2, <- Eo, EX. reflexivity.
Qed.

(** *** Infix operators *)

Lemma infix_base o : between o -> infix_op (Tok KOperator (o_text o)) = Some o.
Proof.
  intros (t & [E|(E2 & E)]); destruct (looked_up _ _ _ E) as (_ & <- & _); unfold infix_op; cbn [t_text].
  - rewrite E. reflexivity.
  - rewrite E2. exact E.
Qed.

Definition mid_toks (o : oper) (mid : list token) : list token := if (o_arity o =? 3)%nat then mid ++ [sym ";"] else [].

Lemma infix_parsed o e f r : infix_operator o -> simple_tree e ->
  head_is r ":" = false -> r <> [] ->
  parse_infix (S f) (-1) e (map Some (op_toks o) ++ r) =
  pbind (if (o_arity o =? 3)%nat then pbind (parse_expr f (-1) r) (fun m ts3 => POk [m] ts3) else POk [] r)
    (fun mid ts3 => pbind (parse_operand f ts3) (fun x ts4 => parse_infix f (-1) (TApp o (e :: mid ++ [x])) ts4)).
Proof.
  intros O Se H N0. destruct O as [b B C|b B C].
  - pose proof (op_fits b (between_base b B)) as F. destruct (of_plain _ F) as (P1 & P2 & P3 & P4).
    unfold op_toks. rewrite P1, P2, P3, P4. cbn [Datatypes.app map].
    rewrite parse_infix_eq. cbn [t_kind]. rewrite (infix_base b B).
    destruct r as [|k r]; [congruence|]. cbv zeta. unfold second_is. rewrite H.
    pose proof (of_prec _ F) as Pr. destruct (Z.ltb_spec (o_prec b) (-1)); [lia|].
    assert (Ac : assoc_eqb (o_assoc b) AChain = false) by (destruct (o_assoc b); congruence || reflexivity).
    rewrite Ac, (bubble_one b e Se). destruct (o_arity b =? 3)%nat; [|reflexivity].
    destruct (parse_expr f (-1) (k :: r)); reflexivity.
  - pose proof (op_fits b (between_base b B)) as F. destruct (of_plain _ F) as (P1 & P2 & P3 & P4).
    unfold op_toks. cbn [assigned op_set_assign o_fold o_scan o_text o_map o_assign o_arity]. rewrite P1, P2, P3. cbn [Datatypes.app map].
    rewrite parse_infix_eq. cbn [t_kind]. rewrite (infix_base b B). cbv zeta. 
    change (second_is (Some (Tok KOperator (o_text b)) :: Some (opt ":") :: r) ":") with true. cbv iota.
    change (head_is (Some (opt ":") :: r) ":") with true. cbv iota.
    pose proof assign_prec. destruct (Z.ltb_spec (o_prec assign_op) (-1)); [lia|].
    change (assoc_eqb (o_assoc (op_set_assign b (o_prec assign_op) (o_assoc assign_op))) AChain) with false. cbv iota.
    rewrite (bubble_one _ e Se). cbn [op_set_assign o_arity]. destruct (o_arity b =? 3)%nat; [|reflexivity].
    destruct (parse_expr f (-1) r); reflexivity.
Qed.

(** The first comparison, and one more. *)
Lemma chain_first o e f r : comparison o -> simple_tree e -> head_is r ":" = false -> r <> [] ->
  parse_infix (S f) (-1) e (map Some (op_toks o) ++ r) =
  pbind (parse_operand f r) (fun x ts => parse_infix f (-1) (TApp op_chain [e; TOpr o; x]) ts).
Proof.
  intros (B & C) Se H N0.
  pose proof (op_fits o (between_base o B)) as F. destruct (of_plain _ F) as (P1 & P2 & P3 & P4).
  unfold op_toks. rewrite P1, P2, P3, P4. cbn [Datatypes.app map].
  rewrite parse_infix_eq. cbn [t_kind]. rewrite (infix_base o B).
  destruct r as [|k r]; [congruence|]. cbv zeta. unfold second_is. rewrite H.
  pose proof (of_prec _ F) as Pr. destruct (Z.ltb_spec (o_prec o) (-1)); [lia|].
  rewrite C. change (assoc_eqb AChain AChain) with true. cbv iota. rewrite (bubble_one _ e Se). reflexivity.
Qed.
Lemma chain_next o (args : list (tree hval)) f r : comparison o -> head_is r ":" = false -> r <> [] ->
  parse_infix (S f) (-1) (TApp op_chain args) (map Some (op_toks o) ++ r) =
  pbind (parse_operand f r) (fun x ts => parse_infix f (-1) (TApp op_chain (args ++ [TOpr o; x])) ts).
Proof.
  intros (B & C) H N0.
  pose proof (op_fits o (between_base o B)) as F. destruct (of_plain _ F) as (P1 & P2 & P3 & P4).
  unfold op_toks. rewrite P1, P2, P3, P4. cbn [Datatypes.app map].
  rewrite parse_infix_eq. cbn [t_kind]. rewrite (infix_base o B).
  destruct r as [|k r]; [congruence|]. cbv zeta. unfold second_is. rewrite H.
  pose proof (of_prec _ F) as Pr. destruct (Z.ltb_spec (o_prec o) (-1)); [lia|].
  rewrite C. change (assoc_eqb AChain AChain) with true. cbv iota.
  unfold bubble. cbn [spine_depth bubble_fuel].
  change (((o_arity op_chain =? 2) || (o_arity op_chain =? 3))
    && ((o_prec op_chain <? o_prec op_chain)%Z || (o_prec op_chain =? o_prec op_chain)%Z && assoc_eqb (o_assoc op_chain) ARight))
    with false. cbv iota. change (is_chain op_chain) with true. reflexivity.
Qed.

(** *** All code *)

Definition semi (ts : toklist) : toklist := if head_is ts ";" then tl ts else ts.
Definition closers : list string := ["]"; ")"; "}"; ";"; "EL"].

Definition expr_head (ts : list token) : Prop :=
  exists k r, ts = k :: r /\ t_kind k <> KCommand /\ forall w, In w closers -> t_text k <> s_ w.
Definition expr_parsed (ts : list token) (t : tree hval) : Prop :=
  forall f k rest, stopper k -> 10 * length ts + 2 <= f ->
    parse_expr f (-1) (map Some ts ++ k :: rest) = POk t (semi (k :: rest)).

Lemma finish_expr f ts (t : tree hval) k rest : stopper k ->
  parse_operand f (map Some ts ++ k :: rest) = POk t (k :: rest) -> 1 <= f ->
  parse_expr (S f) (-1) (map Some ts ++ k :: rest) = POk t (semi (k :: rest)).
Proof.
  intros K E L. destruct f as [|f]; [lia|]. rewrite parse_expr_eq, E. cbn [pbind].
  rewrite (infix_stopped f _ t k rest K). cbn [pbind]. rewrite Z.eqb_refl. cbn [andb]. unfold semi.
  destruct (head_is (k :: rest) ";"); reflexivity.
Qed.

Lemma parsed_expr ts t : parsed ts t -> expr_parsed ts t.
Proof.
  intros [_ P] f k rest K L. destruct f as [|f]; [lia|]. apply finish_expr; [exact K|apply P; lia|lia].
Qed.
Lemma parsed_expr_head ts t : parsed ts t -> expr_head ts.
Proof.
  intros [(k & r & E & K1 & K2 & H) _]. exists k, r. split; [exact E|]. split; [exact K2|].
  intros w I. apply H. cbn in *. tauto.
Qed.

Lemma head_closed ts rest w : expr_head ts -> In w closers -> head_is (map Some ts ++ rest) w = false.
Proof.
  intros (k & r & -> & _ & H) I. cbn [map Datatypes.app head_is].
  apply not_true_is_false. intros E. apply str_eqb_eq in E. exact (H w I E).
Qed.
Lemma head_cons ts rest : expr_head ts -> exists k q, map Some ts ++ rest = Some k :: q.
Proof. intros (k & r & -> & _). eexists _, _. reflexivity. Qed.

Lemma length_pos ts : expr_head ts -> 1 <= length ts.
Proof. intros (k & r & -> & _). cbn [length]. lia. Qed.

Definition item_parsed (t : tree pval) : Prop := expr_head (toks t) /\ expr_parsed (toks t) (wrap t).

Lemma until_parsed close es : In close ["]"; ")"] -> Forall item_parsed es -> forall f rest,
  10 * length (tok_join (map toks es)) + 5 <= f ->
  parse_until f close (map Some (tok_join (map toks es)) ++ Some (sym close) :: rest) = POk (map wrap es) rest.
Proof.
  intros C F. assert (KS : stopper (Some (sym close))) by (cbn; discriminate).
  assert (CC : In close closers) by (cbn in *; tauto).
  assert (NS : head_is (Some (sym close) :: nil) ";" = false) by (cbn in C; destruct C as [<-|[<-|[]]]; reflexivity).
  induction F as [|e es [H P] F IH]; intros f rest L.
  - destruct f as [|f]; [lia|]. rewrite parse_until_eq. cbn [map tok_join Datatypes.app].
    assert (X : head_is (Some (sym close) :: rest) close = true) by (cbn [head_is sym t_text]; apply str_eqb_refl).
    rewrite X. reflexivity.
  - destruct f as [|f]; [lia|]. destruct es as [|e' es].
    + cbn [map tok_join] in *. rewrite parse_until_eq, (head_closed _ _ _ H CC).
      destruct (head_cons (toks e) (Some (sym close) :: rest) H) as (k & q & E). rewrite E, <- E.
      rewrite P by (auto; lia). cbn [pbind].
      assert (X : semi (Some (sym close) :: rest) = Some (sym close) :: rest).
      { unfold semi. change (head_is (Some (sym close) :: rest) ";") with (head_is (Some (sym close) :: nil) ";").
        rewrite NS. reflexivity. }
      rewrite X. pose proof (length_pos _ H). specialize (IH f rest ltac:(cbn [map tok_join length]; lia)). cbn [map tok_join Datatypes.app] in IH. rewrite IH. reflexivity.
    + change (tok_join (map toks (e :: e' :: es))) with (toks e ++ sym ";" :: tok_join (map toks (e' :: es))) in *.
      rewrite app_length in L. cbn [length] in L.
      rewrite map_app, <- app_assoc. cbn [map Datatypes.app].
      set (more := map Some (tok_join _) ++ _). 
      rewrite parse_until_eq, (head_closed _ _ _ H CC).
      destruct (head_cons (toks e) (Some (sym ";") :: more) H) as (k & q & E). rewrite E, <- E.
      rewrite P by (cbn; try discriminate; lia). cbn [pbind].
      change (semi (Some (sym ";") :: more)) with more. unfold more.
      specialize (IH f rest ltac:(cbn [map] in *; lia)). cbn [map] in IH. rewrite IH. reflexivity.
Qed.

Lemma paren_operand f ts rest es : parse_until (V := hval) f ")" (map Some ts ++ Some (sym ")") :: rest) = POk es rest ->
  parse_operand (S f) (map Some (sym "(" :: ts ++ [sym ")"]) ++ rest) =
  POk (match es with [] => TTok nil_token | [e] => TApp op_paren [e] | _ => TApp op_send es end) rest.
Proof.
  intros E. cbn [map Datatypes.app]. rewrite map_app, <- app_assoc. cbn [map Datatypes.app].
  rewrite parse_operand_eq. change (t_kind (sym "(")) with KSymbol.
  change (str_eqb (t_text (sym "(")) (s_ "(")) with true. cbv iota. rewrite E. cbn [pbind].
  destruct es as [|e [|? ?]]; reflexivity.
Qed.

Lemma sym_head x r : In x ["("; "["; "{"] ->
  exists k q, sym x :: r = k :: q /\ t_kind k <> KOperator /\ t_kind k <> KCommand
    /\ forall w, In w ["*"; ":"; "]"; ")"; "}"; ";"; "EL"] -> t_text k <> s_ w.
Proof.
  intros I. exists (sym x), r. split; [reflexivity|]. split; [discriminate|]. split; [discriminate|].
  cbn [sym t_text]. intros w J. cbn in I, J.
  repeat (destruct I as [<-|I]; [repeat (destruct J as [<-|J]; [discriminate|]); destruct J|]). destruct I.
Qed.

Lemma parsed_paren t : expr_head (toks t) -> expr_parsed (toks t) (wrap t) ->
  parsed (sym "(" :: toks t ++ [sym ")"]) (TApp op_paren [wrap t]).
Proof.
  intros H P. split; [apply sym_head; cbn; tauto|]. intros f rest L. cbn [length] in L. rewrite app_length in L.
  cbn [length] in L. destruct f as [|f]; [lia|].
  apply (paren_operand f (toks t) rest [wrap t]).
  apply (until_parsed ")" [t]); [cbn; tauto|constructor; [split; assumption|constructor]|cbn [map tok_join]; lia].
Qed.

Definition good_tree (t : tree pval) : Prop :=
  parsed (otoks t) (owrap t) /\ simple_tree (owrap t)
  /\ expr_head (toks t) /\ expr_parsed (toks t) (wrap t)
  /\ (~ starts_prefix t -> exists k r, toks t = k :: r /\ t_kind k <> KOperator).

Lemma good_item t : good_tree t -> item_parsed t.
Proof. intros (_ & _ & H & P & _). split; assumption. Qed.

(** Trees printed in brackets or as one token. *)
Lemma good_atom t : needs_parens t = false -> parsed (toks t) (wrap t) -> simple_tree (wrap t) -> good_tree t.
Proof.
  intros NP P Si. unfold good_tree, otoks, owrap, operand_toks. cbn [fst snd]. rewrite NP.
  split; [exact P|]. split; [exact Si|]. split; [exact (parsed_expr_head _ _ P)|]. split; [exact (parsed_expr _ _ P)|].
  intros _. destruct P as [(k & r & E & K & _) _]. eauto.
Qed.
Lemma good_wrapped t : needs_parens t = true -> expr_head (toks t) -> expr_parsed (toks t) (wrap t) ->
  (~ starts_prefix t -> exists k r, toks t = k :: r /\ t_kind k <> KOperator) -> good_tree t.
Proof.
  intros NP H P S. unfold good_tree, otoks, owrap, operand_toks. cbn [fst snd]. rewrite NP.
  split; [apply parsed_paren; assumption|]. split; [split; reflexivity|]. auto.
Qed.

Lemma leaf_parsed k : leaf k -> parsed [k] (TTok k).
Proof.
  intros (K & T & _ & I). split.
  - exists k, []. split; [reflexivity|]. split; [intros E; rewrite E in K; cbn in K; intuition discriminate|].
    split; [intros E; rewrite E in K; cbn in K; intuition discriminate|].
    intros w J E.
    assert (W : operator_text (t_text k) \/ t_text k = s_ "EL" \/ exists c, t_text k = [c] /\ In c (s_ "]){};")).
    { rewrite E. cbn in J.
      repeat (destruct J as [<-|J]; [first [left; apply is_op_iff; vm_compute; reflexivity|right; left; reflexivity
                                            |right; right; eexists; split; [reflexivity|cbn; tauto]]|]). destruct J. }
    destruct k as [kd x]. cbn [t_text t_kind] in *. cbn in K.
    assert (SP : forall c, x = [c] -> In c (s_ "]){};*:") -> False).
    { intros c Ex Ic. destruct (tok_cases _ T) as (c' & a & E' & TA). cbn [t_text] in E'. rewrite Ex in E'. injection E' as <- <-.
      destruct K as [<-|[<-|[<-|[<-|[<-|[<-|[]]]]]]]; inversion TA; subst; chars; lia. }
    destruct K as [<-|K].
    + destruct T as (T & T1 & T2 & T3). destruct W as [W|[W|(c & W & Wc)]]; [contradiction|contradiction|].
      apply (SP c W). cbn in *. tauto.
    + destruct W as [W|[W|(c & W & Wc)]].
      * cbn in J. repeat (destruct J as [<-|J]; [first [apply (SP _ E); cbn; tauto|subst x; apply is_op_iff in W; discriminate W]|]).
        destruct J.
      * clear E. subst x.
        destruct K as [<-|[<-|[<-|[<-|[<-|[]]]]]]; cbn in T.
        -- destruct (unsigned_chars _ T) as (F & _). discriminate F.
        -- destruct T as (b & T & _). discriminate T.
        -- destruct T as (b & T & _). discriminate T.
        -- destruct T as (c & T). discriminate T.
        -- destruct T as (b & T & _). discriminate T.
      * apply (SP c W). cbn in *. tauto.
  - intros f rest L. cbn [length] in L. destruct f as [|f]; [lia|]. cbn [map Datatypes.app]. rewrite parse_operand_eq.
    destruct (t_kind k) eqn:Ek; cbn in K; try (exfalso; intuition discriminate); try reflexivity.
    f_equal. unfold token_text in T. rewrite Ek in T. destruct T as (b & Et & B).
    unfold parse_escaped. rewrite Et.
    change ([92%N; 34%N] ++ b ++ [92%N; 34%N]) with (s_ "\""" ++ b ++ s_ "\""").
    rewrite slice_escaped.
    assert (X : forall s cur, (forall a c r, s = a ++ 92%N :: c :: r -> name_letter c = false) ->
              interp_split cur s = (cur ++ s, [])).
    { induction s as [|c s IH]; intros cur NN; cbn [interp_split]; [rewrite app_nil_r; reflexivity|].
      assert (N1 : forall a d r, s = a ++ 92%N :: d :: r -> name_letter d = false).
      { intros a d r ->. apply (NN (c :: a) d r). reflexivity. }
      assert (Z : interp_split (cur ++ [c]) s = (cur ++ c :: s, [])) by (rewrite IH by exact N1; rewrite <- app_assoc; reflexivity).
      unfold c_backslash. destruct (N.eqb_spec c 92) as [->|NE]; [|exact Z].
      destruct s as [|d s2]; [reflexivity|].
      pose proof (NN [] d s2 eq_refl) as LC. unfold name_letter in LC. apply orb_false_iff in LC. destruct LC as [LC1 LC2].
      apply orb_false_iff in LC1. destruct LC1 as [LC0 LC1]. rewrite LC0, LC1, LC2. exact Z. }
    rewrite (X b []); [reflexivity|]. intros a c r Eb.
    apply (I eq_refl (92%N :: 34%N :: a) c (r ++ [92%N; 34%N])). rewrite Et, Eb, <- app_assoc. reflexivity.
Qed.

(** What may follow a statement. *)
Definition ends_statement (k : option token) (rest : toklist) : Prop :=
  (k = Some (sym ";") /\ rest <> [] /\ head_is rest ";" = false) \/ (stopper k /\ head_is (k :: rest) ";" = false).

Definition statement_head (ts : list token) : Prop :=
  exists k r, ts = k :: r /\ t_text k <> s_ "}" /\ t_text k <> s_ ";".
Definition statement_parsed (t : tree pval) : Prop :=
  statement_head (toks t) /\
  forall f k rest, ends_statement k rest -> 10 * length (toks t) + 4 <= f ->
    parse_statement f (map Some (toks t) ++ k :: rest) = POk (wrap t) (semi (k :: rest)).

Lemma code_of_statements sts : Forall statement_parsed sts -> forall f rest,
  10 * length (tok_join (map toks sts)) + 6 <= f ->
  parse f (map Some (tok_join (map toks sts)) ++ Some (sym "}") :: rest) = POk (map wrap sts) (Some (sym "}") :: rest).
Proof.
  intros F. induction F as [|t sts [H P] F IH]; intros f rest L.
  - destruct f as [|f]; [lia|]. reflexivity.
  - destruct f as [|f]; [lia|]. destruct H as (k & r & Ek & H1 & H2).
    assert (NB : str_eqb (t_text k) (s_ "}") = false) by (apply not_true_is_false; intros E; apply str_eqb_eq in E; congruence).
    assert (Lt : 1 <= length (toks t)) by (rewrite Ek; cbn; lia).
    destruct sts as [|t' sts].
    + cbn [map tok_join] in *.
      assert (S1 : parse_statement f (map Some (toks t) ++ Some (sym "}") :: rest) = POk (wrap t) (Some (sym "}") :: rest)).
      { apply (P f (Some (sym "}")) rest); [|lia]. right. split; [discriminate|reflexivity]. }
      specialize (IH f rest ltac:(cbn [length]; lia)). cbn [Datatypes.app] in IH.
      rewrite Ek in *. cbn [map Datatypes.app] in *. rewrite parse_eq, NB, S1. cbn [pbind]. rewrite IH. reflexivity.
    + change (tok_join (map toks (t :: t' :: sts))) with (toks t ++ sym ";" :: tok_join (map toks (t' :: sts))) in *.
      rewrite app_length in L. cbn [length] in L.
      rewrite map_app, <- app_assoc. cbn [map Datatypes.app].
      set (more := map Some (tok_join (toks t' :: map toks sts)) ++ Some (sym "}") :: rest).
      assert (HM : more <> [] /\ head_is more ";" = false).
      { unfold more. inversion F as [|? ? [(k' & r' & Ek' & _ & H2') _] _]; subst.
        split; [intros E; destruct (app_eq_nil _ _ E) as [_ X]; discriminate X|].
        destruct (map toks sts); cbn [tok_join]; rewrite Ek'; cbn [map Datatypes.app head_is];
          apply not_true_is_false; intros E; apply str_eqb_eq in E; congruence. }
      assert (S1 : parse_statement f (map Some (toks t) ++ Some (sym ";") :: more) = POk (wrap t) more).
      { apply (P f (Some (sym ";")) more); [|lia]. left. split; [reflexivity|exact HM]. }
      specialize (IH f rest ltac:(cbn [map] in *; lia)). cbn [map] in IH.
      rewrite Ek in *. cbn [map Datatypes.app] in *. rewrite parse_eq, NB, S1. cbn [pbind]. unfold more. rewrite IH. reflexivity.
Qed.

Lemma block_parsed sts : Forall statement_parsed sts -> forall f rest,
  10 * length (tok_join (map toks sts)) + 7 <= f ->
  parse_block f (map Some (sym "{" :: tok_join (map toks sts) ++ [sym "}"]) ++ rest) = POk (map wrap sts) rest.
Proof.
  intros F f rest L. destruct f as [|f]; [lia|]. cbn [map Datatypes.app]. rewrite map_app, <- app_assoc. cbn [map Datatypes.app].
  rewrite parse_block_eq. 
  change (head_is (Some (sym "{") :: map Some (tok_join (map toks sts)) ++ Some (sym "}") :: rest) "{") with true. cbv iota.
  rewrite (code_of_statements sts F) by lia. reflexivity.
Qed.

Lemma expr_statement t : good_tree t -> statement_parsed t.
Proof.
  intros (_ & _ & (k & r & Ek & K & H) & P & _). split.
  - exists k, r. split; [exact Ek|]. split; apply H; cbn; tauto.
  - intros f k0 rest E L. destruct f as [|f]; [lia|].
    assert (Sk : stopper k0) by (destruct E as [(-> & _)|(E & _)]; [discriminate|exact E]).
    specialize (P f k0 rest Sk ltac:(lia)).
    assert (ST : parse_statement (V := hval) (S f) (map Some (toks t) ++ k0 :: rest) =
      pbind (parse_expr f (-1) (map Some (toks t) ++ k0 :: rest))
        (fun st ts => match ts with [] => PErr PIndexError | _ :: ts' => if head_is ts ";" then POk st ts' else POk st ts end)).
    { rewrite parse_statement_eq. cbv zeta. rewrite Ek. cbn [map Datatypes.app].
      destruct (t_kind k); congruence || reflexivity. }
    rewrite ST, P. cbn [pbind]. unfold semi.
    destruct E as [(-> & N0 & H2)|(_ & H2)].
    + change (head_is (Some (sym ";") :: rest) ";") with true. cbn [tl].
      destruct rest as [|x rest]; [congruence|]. rewrite H2. reflexivity.
    + rewrite H2, H2. reflexivity.
Qed.

(** *** Loop variables *)

Definition var_parsed (t : tree pval) : Prop :=
  (exists k r, toks t = k :: r /\ t_kind k <> KOperator /\ t_kind k <> KCommand /\ forall w, In w closers -> t_text k <> s_ w) /\
  forall f k rest, 10 * length (toks t) <= f ->
    parse_name_list f (map Some (toks t) ++ k :: rest) = POk (wrap t) (semi (k :: rest)).

Lemma names_parsed es : Forall var_parsed es -> forall f rest,
  10 * length (tok_join (map toks es)) + 5 <= f ->
  parse_names f (map Some (tok_join (map toks es)) ++ Some (sym "]") :: rest) = POk (map wrap es) rest.
Proof.
  intros F. induction F as [|e es [(k & r & Ek & _ & _ & H) P] F IH]; intros f rest L.
  - destruct f as [|f]; [lia|]. reflexivity.
  - destruct f as [|f]; [lia|].
    assert (NB : forall q, head_is (map Some (toks e) ++ q) "]" = false).
    { intros q. rewrite Ek. cbn [map Datatypes.app head_is]. apply not_true_is_false. intros E. apply str_eqb_eq in E.
      apply (H "]"); [cbn; tauto|exact E]. }
    assert (Lt : 1 <= length (toks e)) by (rewrite Ek; cbn; lia).
    assert (STEP : forall q, q <> [] -> parse_names (V := hval) (S f) (map Some (toks e) ++ q) =
       pbind (parse_name_list f (map Some (toks e) ++ q)) (fun x ts2 =>
             pbind (parse_names f ts2) (fun xs ts3 => POk (x :: xs) ts3))).
    { intros q N0. specialize (NB q). rewrite Ek in *. cbn [map Datatypes.app] in *. cbn [parse_names]. rewrite NB. reflexivity. }
    destruct es as [|e' es].
    + cbn [map tok_join] in *. rewrite STEP by discriminate. rewrite (P f) by lia. cbn [pbind].
      specialize (IH f rest ltac:(cbn [length]; lia)). cbn [Datatypes.app] in IH.
      change (semi (Some (sym "]") :: rest)) with (Some (sym "]") :: rest). rewrite IH. reflexivity.
    + change (tok_join (map toks (e :: e' :: es))) with (toks e ++ sym ";" :: tok_join (map toks (e' :: es))) in *.
      rewrite app_length in L. cbn [length] in L.
      rewrite map_app, <- app_assoc. cbn [map Datatypes.app]. rewrite STEP by discriminate. rewrite (P f) by lia. cbn [pbind].
      specialize (IH f rest ltac:(cbn [map] in *; lia)). cbn [map] in IH.
      change (semi (Some (sym ";") :: map Some (tok_join (toks e' :: map toks es)) ++ Some (sym "]") :: rest))
        with (map Some (tok_join (toks e' :: map toks es)) ++ Some (sym "]") :: rest). rewrite IH. reflexivity.
Qed.

(** *** Arguments of commands *)

Definition args_parsed (tys : list argtype) (args : list (tree pval)) : Prop :=
  (tys = [] \/ last tys A_EXPR = A_CODE \/ last tys A_EXPR = A_ELSE) ->
  (tys <> [] -> exists k r, toks_args tys (map toks args) = k :: r /\ t_text k <> s_ ";"
     /\ ((forall e' ts' args', tys = A_EXPR :: ts' -> args = e' :: args' -> ~ starts_prefix e') -> t_kind k <> KOperator))
  /\ forall f rest, 10 * length (toks_args tys (map toks args)) + 3 <= f ->
     parse_args f tys (map Some (toks_args tys (map toks args)) ++ rest) = POk (map wrap args) rest.

Lemma more_args a ts : ts <> [] -> a :: ts = [] \/ last (a :: ts) A_EXPR = A_CODE \/ last (a :: ts) A_EXPR = A_ELSE ->
  ts = [] \/ last ts A_EXPR = A_CODE \/ last ts A_EXPR = A_ELSE.
Proof. intros N0 [H|H]; [discriminate H|]. right. destruct ts; [congruence|exact H]. Qed.

Theorem code_parsed :
  (forall t, printable t -> good_tree t)
  /\ (forall es, all_printable es -> Forall good_tree es)
  /\ (forall ls, links ls -> forall args f k rest, stopper k -> 10 * length (concat (map otoks ls)) + 1 <= f ->
        parse_infix f (-1) (TApp op_chain args) (map Some (concat (map otoks ls)) ++ k :: rest)
        = POk (TApp op_chain (args ++ map owrap ls)) (k :: rest))
  /\ (forall t, statement t -> statement_parsed t)
  /\ (forall sts, code sts -> Forall statement_parsed sts)
  /\ (forall tys args, arguments tys args -> args_parsed tys args)
  /\ (forall t, loop_variable t -> var_parsed t)
  /\ (forall es, loop_variables es -> Forall var_parsed es).
Proof.
  assert (ITEMS : forall es, Forall good_tree es -> Forall item_parsed es).
  { intros es F. eapply Forall_impl; [|exact F]. exact good_item. }
  assert (OT : forall o, 1 <= length (op_toks o)).
  { intros o. unfold op_toks. rewrite !app_length. cbn [length]. lia. }
  apply printable_all.
  - (* leaf *) intros k L.
    assert (E : toks (TTok k) = [k]).
    { cbn [toks]. destruct L as (K & _). destruct (t_kind k); cbn in K; try reflexivity. exfalso. intuition discriminate. }
    apply good_atom; [reflexivity|rewrite E; apply leaf_parsed, L|exact I].
  - apply good_atom; [reflexivity| |exact I]. split; [apply sym_head; cbn; tauto|].
    intros f rest L. do 3 (destruct f as [|f]; [cbn in L; lia|]). reflexivity.
  - apply good_atom; [reflexivity| |exact I]. split; [apply sym_head; cbn; tauto|].
    intros f rest L. do 3 (destruct f as [|f]; [cbn in L; lia|]). reflexivity.
  - (* paren *) intros e _ (_ & _ & H & P & _). apply good_atom; [reflexivity| |split; reflexivity].
    exact (parsed_paren e H P).
  - (* list *) intros es _ F. apply good_atom; [reflexivity| |split; reflexivity].
    rewrite toks_list, (wrap_bracket op_enlist es eq_refl). split; [apply sym_head; cbn; tauto|].
    intros f rest L. cbn [length] in L. rewrite app_length in L. cbn [length] in L. destruct f as [|f]; [lia|].
    cbn [map Datatypes.app]. rewrite map_app, <- app_assoc. cbn [map Datatypes.app].
    rewrite parse_operand_eq. change (t_kind (sym "[")) with KSymbol.
    change (str_eqb (t_text (sym "[")) (s_ "(")) with false. change (str_eqb (t_text (sym "[")) (s_ "[")) with true. cbv iota.
    rewrite (until_parsed "]" es); [reflexivity|cbn; tauto|apply ITEMS, F|lia].
  - (* send *) intros a b es _ F. apply good_atom; [reflexivity| |split; reflexivity].
    rewrite toks_send, (wrap_bracket op_send _ eq_refl). split; [apply sym_head; cbn; tauto|].
    intros f rest L. cbn [length] in L. rewrite app_length in L. cbn [length] in L. destruct f as [|f]; [lia|].
    apply (paren_operand f (tok_join (map toks (a :: b :: es))) rest (map wrap (a :: b :: es))).
    apply until_parsed; [cbn; tauto|apply ITEMS, F|lia].
  - (* block *) intros sts _ F T. apply good_atom; [reflexivity| |split; reflexivity].
    change (toks (TApp op_block [TBlk sts])) with (sym "{" :: tok_join (map toks sts) ++ [sym "}"]).
    change (wrap (TApp op_block [TBlk sts])) with (TApp op_block [TBlk (map wrap sts)]). split; [apply sym_head; cbn; tauto|].
    intros f rest L. cbn [length] in L. rewrite app_length in L. cbn [length] in L. destruct f as [|f]; [lia|].
    pose proof (block_parsed sts F f rest ltac:(lia)) as B. cbn [map Datatypes.app] in *.
    rewrite parse_operand_eq. change (t_kind (sym "{")) with KSymbol.
    change (str_eqb (t_text (sym "{")) (s_ "(")) with false. change (str_eqb (t_text (sym "{")) (s_ "[")) with false.
    change (str_eqb (t_text (sym "{")) (s_ "{")) with true. cbv iota. rewrite B. reflexivity.
  - (* prefix *) intros o e PO _ (P & Si & _). destruct (prefix_marked o PO) as [M A].
    apply good_wrapped; [apply needs_marked, M| | |].
    + rewrite (toks_prefix o e M A). unfold op_toks. destruct M as (b & I & Et & _). pose proof (op_fits b I) as F.
      destruct (o_fold o); [|destruct (o_scan o)]; (eexists _, _; split; [reflexivity|split; [discriminate|]]); intros w J;
        [intros X; cbn in J; repeat (destruct J as [<-|J]; [discriminate X|]); destruct J
        |intros X; cbn in J; repeat (destruct J as [<-|J]; [discriminate X|]); destruct J|].
      cbn [t_text]. rewrite Et. apply F. cbn in *. tauto.
    + rewrite (toks_prefix o e M A), (wrap_op o [e] (marked_bracket o M)). cbn [map].
      intros f k rest K L. destruct f as [|f]; [lia|]. apply finish_expr; [exact K| |lia].
      apply prefix_parsed; auto. lia.
    + intros N0. exfalso. apply N0. exists o, e. split; [reflexivity|apply marked_brackets, M].
  - (* infix *) intros o a b PO A _ (Pa & Sa & _) _ (Pb & Sb & _). pose proof (infix_marked o PO) as M.
    apply good_wrapped; [apply needs_marked, M| | |].
    + rewrite (toks_infix o a b M A). destruct Pa as [(k & r & E & K1 & K2 & H) _]. rewrite E.
      eexists _, _. split; [reflexivity|]. split; [exact K2|]. intros w J. apply H. cbn in *. tauto.
    + rewrite (toks_infix o a b M A), (wrap_op o [a; b] (marked_bracket o M)). cbn [map].
      intros f k rest K L. rewrite !app_length in L. destruct f as [|[|f]]; try lia. specialize (OT o).
      rewrite !map_app, <- !app_assoc, parse_expr_eq, (proj2 Pa) by lia. cbn [pbind].
      rewrite infix_parsed; [|exact PO|exact Sa|apply (parsed_head _ _ _ _ Pb); cbn; tauto|].
      2: { destruct (parsed_cons _ _ (k :: rest) Pb) as (k' & q' & E'). rewrite E'. discriminate. }
      rewrite A. cbn [Nat.eqb pbind Datatypes.app]. rewrite (proj2 Pb) by lia. cbn [pbind].
      destruct f as [|f]; [lia|]. rewrite (infix_stopped f _ _ k rest K). cbn [pbind]. rewrite Z.eqb_refl. cbn [andb].
      unfold semi. destruct (head_is (k :: rest) ";"); reflexivity.
    + intros _. rewrite (toks_infix o a b M A). destruct Pa as [(k & r & E & K1 & _) _]. rewrite E.
      eexists _, _. split; [reflexivity|exact K1].
  - (* ternary *) intros o a b c PO A _ (Pa & Sa & _) _ (Pb & Sb & _) _ (Pc & _). pose proof (infix_marked o PO) as M.
    apply good_wrapped; [apply needs_marked, M| | |].
    + rewrite (toks_ternary o a b c M A). destruct Pa as [(k & r & E & K1 & K2 & H) _]. rewrite E.
      eexists _, _. split; [reflexivity|]. split; [exact K2|]. intros w J. apply H. cbn in *. tauto.
    + rewrite (toks_ternary o a b c M A), (wrap_op o [a; b; c] (marked_bracket o M)). cbn [map].
      intros f k rest K L. rewrite !app_length in L. cbn [length] in L. destruct f as [|[|f]]; try lia. specialize (OT o).
      rewrite !map_app, <- !app_assoc, parse_expr_eq, (proj2 Pa) by lia. cbn [pbind].
      rewrite infix_parsed; [|exact PO|exact Sa| |].
      2: { rewrite <- ?app_assoc. apply (parsed_head _ _ _ _ Pb); cbn; tauto. }
      2: { destruct Pb as [(k' & q' & -> & _) _]. discriminate. }
      rewrite A. cbn [Nat.eqb map Datatypes.app].
      rewrite (parsed_expr _ _ Pb) by (cbn; try discriminate; lia). cbn [pbind].
      change (semi (Some (sym ";") :: map Some (otoks c) ++ k :: rest)) with (map Some (otoks c) ++ k :: rest).
      rewrite (proj2 Pc) by lia. cbn [pbind Datatypes.app].
      destruct f as [|f]; [lia|]. rewrite (infix_stopped f _ _ k rest K). cbn [pbind]. rewrite Z.eqb_refl. cbn [andb].
      unfold semi. destruct (head_is (k :: rest) ";"); reflexivity.
    + intros _. rewrite (toks_ternary o a b c M A). destruct Pa as [(k & r & E & K1 & _) _]. rewrite E.
      eexists _, _. split; [reflexivity|exact K1].
  - (* chain *) intros e o e1 ls _ (Pe & Se & _) C _ (P1 & _) _ IH.
    apply good_wrapped; [reflexivity| | |].
    + rewrite toks_chain. cbn [map concat]. destruct Pe as [(k & r & E & K1 & K2 & H) _]. rewrite E.
      eexists _, _. split; [reflexivity|]. split; [exact K2|]. intros w J. apply H. cbn in *. tauto.
    + rewrite toks_chain, (wrap_op op_chain _ eq_refl). cbn [map concat].
      change (otoks (TOpr o)) with (op_toks o). change (owrap (TOpr o)) with (TOpr (V := hval) o).
      intros f k rest K L. rewrite !app_length in L. destruct f as [|[|f]]; try lia. specialize (OT o).
      rewrite !map_app, <- !app_assoc, parse_expr_eq, (proj2 Pe) by lia. cbn [pbind].
      rewrite chain_first; [|exact C|exact Se|apply (parsed_head _ _ _ _ P1); cbn; tauto|].
      2: { destruct (parsed_cons _ _ (map Some (concat (map otoks ls)) ++ k :: rest) P1) as (k' & q' & E'). rewrite E'. discriminate. }
      rewrite (proj2 P1) by lia. cbn [pbind].
      rewrite IH by (auto; lia). cbn [pbind Datatypes.app]. rewrite Z.eqb_refl. cbn [andb].
      unfold semi. destruct (head_is (k :: rest) ";"); reflexivity.
    + intros _. rewrite toks_chain. cbn [map concat]. destruct Pe as [(k & r & E & K1 & _) _]. rewrite E.
      eexists _, _. split; [reflexivity|exact K1].
  - constructor.
  - intros e es _ W _ F. constructor; assumption.
  - intros args f k rest K L. destruct f as [|f]; [lia|]. cbn [map concat Datatypes.app]. rewrite app_nil_r.
    apply infix_stopped, K.
  - (* links *) intros o e ls C _ (P1 & _) _ IH args f k rest K L. cbn [map concat] in *.
    change (otoks (TOpr o)) with (op_toks o) in *. change (owrap (TOpr o)) with (TOpr (V := hval) o).
    rewrite !app_length in L. destruct f as [|f]; [lia|]. specialize (OT o).
    rewrite !map_app, <- !app_assoc.
    rewrite chain_next; [|exact C|apply (parsed_head _ _ _ _ P1); cbn; tauto|].
    2: { destruct (parsed_cons _ _ (map Some (concat (map otoks ls)) ++ k :: rest) P1) as (k' & q' & E'). rewrite E'. discriminate. }
    rewrite (proj2 P1) by lia. cbn [pbind].
    rewrite IH by (auto; lia). rewrite <- app_assoc. reflexivity.
  - intros e _ G. apply expr_statement, G.
  - (* command *) intros c args I A AP.
    assert (X : (c_args c = [] \/ last (c_args c) A_EXPR = A_CODE \/ last (c_args c) A_EXPR = A_ELSE)
                /\ c_text c <> s_ "}" /\ c_text c <> s_ ";" /\ command_of (c_text c) = Some c).
    { assert (F : Forall (fun c => (c_args c = [] \/ last (c_args c) A_EXPR = A_CODE \/ last (c_args c) A_EXPR = A_ELSE)
                /\ c_text c <> s_ "}" /\ c_text c <> s_ ";" /\ command_of (c_text c) = Some c) cmd_table).
      { unfold cmd_table. repeat (constructor; [split; [cbn; tauto|split; [discriminate|split; [discriminate|reflexivity]]]|]). constructor. }
      rewrite Forall_forall in F. apply F, I. }
    destruct X as (X & X1 & X2 & X3). destruct (AP X) as [_ PA]. split.
    + cbn [toks]. eexists _, _. split; [reflexivity|]. split; assumption.
    + intros f k rest E L. cbn [toks length] in L. destruct f as [|f]; [lia|]. cbn [toks map Datatypes.app].
      rewrite parse_statement_eq. cbv zeta. cbn [t_kind t_text]. rewrite X3, PA by lia. cbn [pbind].
      unfold semi. destruct (head_is (k :: rest) ";"); reflexivity.
  - constructor.
  - intros t sts _ W _ F. constructor; assumption.
  - (* no arguments *) intros _. split; [congruence|]. intros f rest L. destruct f as [|f]; [lia|]. reflexivity.
  - (* loop variable *) intros x ts args _ [(k & r & Ek & K1 & K2 & H) P] A AP X.
    assert (N0 : ts <> []) by (intros ->; destruct X as [X|[X|X]]; discriminate X).
    destruct (AP (more_args _ _ N0 X)) as [HD PA]. destruct (HD N0) as (k' & q' & E' & H' & _).
    cbn [map toks_args]. split.
    + intros _. rewrite Ek. eexists _, _. split; [reflexivity|]. split; [apply H; cbn; tauto|intros _; exact K1].
    + intros f rest L. rewrite app_length in L. destruct f as [|f]; [lia|].
      assert (Lx : 1 <= length (toks x)) by (rewrite Ek; cbn; lia).
      rewrite map_app, <- app_assoc. rewrite parse_args_eq. cbv zeta.
      specialize (PA f rest ltac:(lia)). rewrite E' in *. cbn [map Datatypes.app] in *.
      rewrite P by lia. cbn [pbind]. unfold semi. cbn [head_is].
      destruct (str_eqb (t_text k') (s_ ";")) eqn:Es; [apply str_eqb_eq in Es; congruence|]. rewrite PA. reflexivity.
  - (* expression *) intros e ts args _ (_ & _ & EH & P & SP) A AP NP X.
    assert (N0 : ts <> []) by (intros ->; destruct X as [X|[X|X]]; discriminate X).
    destruct (AP (more_args _ _ N0 X)) as [HD PA]. destruct (HD N0) as (k' & q' & E' & H' & K').
    pose proof (length_pos _ EH) as Lx.
    cbn [map toks_args]. split.
    + intros _. pose proof EH as EH'. destruct EH' as (k & r & Ek & _ & H). rewrite Ek. eexists _, _. split; [reflexivity|].
      split; [apply H; cbn; tauto|]. intros C. destruct (SP (C _ _ _ eq_refl eq_refl)) as (k2 & r2 & E2 & K2). congruence.
    + intros f rest L. rewrite app_length in L. destruct f as [|f]; [lia|].
      rewrite map_app, <- app_assoc. rewrite parse_args_eq. cbv zeta.
      specialize (PA f rest ltac:(lia)). rewrite E' in *. cbn [map Datatypes.app] in *.
      rewrite P by (try exact (K' NP); lia). cbn [pbind]. unfold semi. cbn [head_is].
      destruct (str_eqb (t_text k') (s_ ";")) eqn:Es; [apply str_eqb_eq in Es; congruence|]. rewrite PA. reflexivity.
  - (* code *) intros sts ts args _ F T A AP X.
    assert (X' : ts = [] \/ last ts A_EXPR = A_CODE \/ last ts A_EXPR = A_ELSE).
    { destruct ts as [|t ts]; [auto|]. apply (more_args A_CODE); [discriminate|exact X]. }
    destruct (AP X') as [_ PA]. cbn [map toks_args]. split.
    + intros _. eexists _, _. split; [reflexivity|]. split; [discriminate|intros _; discriminate].
    + intros f rest L. rewrite app_length in L. cbn [length] in L. rewrite app_length in L. cbn [length] in L.
      destruct f as [|f]; [lia|]. rewrite map_app, <- app_assoc. rewrite parse_args_eq. cbv zeta.
      change (toks (TBlk sts)) with (tok_join (map toks sts)) in *.
      rewrite (block_parsed sts F) by lia. cbn [pbind]. rewrite PA by lia. reflexivity.
  - (* else *) intros sts ts args _ F T A AP X.
    assert (X' : ts = [] \/ last ts A_EXPR = A_CODE \/ last ts A_EXPR = A_ELSE).
    { destruct ts as [|t ts]; [auto|]. apply (more_args A_ELSE); [discriminate|exact X]. }
    destruct (AP X') as [_ PA]. cbn [map toks_args]. split.
    + intros _. eexists _, _. split; [reflexivity|]. split; [discriminate|intros _; discriminate].
    + intros f rest L. rewrite app_length in L. cbn [length] in L. rewrite app_length in L. cbn [length] in L.
      destruct f as [|f]; [lia|].
      change (toks (TBlk sts)) with (tok_join (map toks sts)) in *.
      pose proof (block_parsed sts F f (map Some (toks_args ts (map toks args)) ++ rest) ltac:(lia)) as B.
      cbn [Datatypes.app]. rewrite map_cons. rewrite <- (map_cons (@Some token)).
      change (map Some (sym "EL" :: sym "{" :: (tok_join (map toks sts) ++ [sym "}"]) ++ toks_args ts (map toks args)) ++ rest)
        with (Some (sym "EL") :: (map Some ((sym "{" :: tok_join (map toks sts) ++ [sym "}"]) ++ toks_args ts (map toks args)) ++ rest)).
      rewrite map_app, <- app_assoc. rewrite parse_args_eq. cbv zeta.
      set (more := map Some (sym "{" :: _) ++ _) in *. change (head_is (Some (sym "EL") :: more) "EL") with true. cbv iota.
      rewrite B. cbn [pbind]. rewrite PA by lia. reflexivity.
  - (* name *) intros k L K. destruct (leaf_parsed k L) as [(k' & r' & E' & H1 & H2 & H3) _]. injection E' as <- <-.
    assert (E : toks (TTok k) = [k]) by (cbn [toks]; rewrite K; reflexivity).
    split; rewrite E.
    + exists k, []. split; [reflexivity|]. split; [exact H1|]. split; [exact H2|]. intros w J. apply H3. cbn in *. tauto.
    + intros f k0 rest Lf. cbn [length] in Lf. destruct f as [|f]; [lia|]. cbn [map Datatypes.app parse_name_list]. rewrite K.
      unfold semi. destruct (head_is (k0 :: rest) ";"); reflexivity.
  - (* list of names *) intros x xs _ Vx _ F. unfold var_parsed. rewrite toks_list, (wrap_bracket op_enlist _ eq_refl). split.
    + eexists _, _. split; [reflexivity|]. split; [discriminate|]. split; [discriminate|].
      intros w J E. cbn in J. repeat (destruct J as [<-|J]; [discriminate E|]). destruct J.
    + intros f k rest L. cbn [length] in L. rewrite app_length in L. cbn [length] in L. destruct f as [|f]; [lia|].
      pose proof (names_parsed (x :: xs) (Forall_cons _ Vx F) f (k :: rest) ltac:(lia)) as B.
      rewrite map_cons, map_app, <- app_comm_cons, <- app_assoc. change (map Some [sym "]"] ++ k :: rest) with (Some (sym "]") :: k :: rest).
      revert B. generalize (map Some (tok_join (map toks (x :: xs))) ++ Some (sym "]") :: k :: rest). intros q B.
      change (parse_name_list (V := hval) (S f) (Some (sym "[") :: q)) with
        (pbind (parse_names (V := hval) f q) (fun names ts2 =>
           match names with
           | [] => PErr BadSyntax
           | _ => match ts2 with
                  | [] => PErr PIndexError
                  | _ :: ts' => if head_is ts2 ";" then POk (TApp op_enlist names) ts' else POk (TApp op_enlist names) ts2
                  end
           end)).
      rewrite B. cbn [pbind map]. unfold semi. destruct (head_is (k :: rest) ";"); reflexivity.
  - constructor.
  - intros x xs _ W _ F. constructor; assumption.
Qed.
