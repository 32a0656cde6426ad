(** * Property C43: variables have value semantics *)

From Coq Require Import String List NArith ZArith Bool Arith Lia.
From Verif Require Import PyStr PyNum Tokens OpFun OpTable PTypes Ops Apply Spec Heap Exec
                          SpecHeap SpecExec SpecScan SpecVars SpecAlias PropExec.
From Verif Require AliasProof AliasStart.
Import ListNotations.
Local Open Scope string_scope.
Local Open Scope list_scope.
Local Open Scope Z_scope.

(** The full claim: no in-place change of one variable changes the value of
    another variable, a constant of the language or a literal of the program.
    It is false of the interpreter (see [C43_refuted] below).  What holds: if
    no variable shares objects with anything else, every sequence of
    assignments [x:e] and [x@i...:e], with right sides and indices made from
    literals, items of variables, operators without side effects and list
    displays, has on the objects of the interpreter exactly the effect it has
    on a plain table of values; nothing else that is kept anywhere changes;
    and still no variable shares objects with anything else.  Missing:
    variables that do share objects, the other ways of changing a variable in
    place, and values that hold Blocks. *)
Theorem C43_assignments_partial : forall prog s rho rho',
  sound s -> agrees s rho -> st_scopes s <> [] ->
  (forall a, In a prog -> ordinary s (put_var a)) ->
  effects (st_fmt s) rho prog rho' ->
  exists s', performs s prog s' /\ sound s' /\ agrees s' rho' /\
    keeps (map put_var prog) s s' /\ st_out s' = st_out s /\ st_in s' = st_in s /\
    st_fmt s' = st_fmt s /\ st_scopes s' <> [].
Proof. exact AliasProof.effects_performed. Qed.
Print Assumptions C43_assignments_partial.

(** A new interpreter meets these hypotheses. *)
Theorem C43_start_partial : forall fmt wn input s,
  init_state fmt wn input None = Ok tt s ->
  sound s /\ agrees s start_values /\ st_scopes s <> [] /\ st_fmt s = fmt /\ st_tao s = None.
Proof. exact AliasStart.start_agrees. Qed.
Print Assumptions C43_start_partial.

(** A case: [x:[1 23] y:x x@1@0:y x@(-2):s y@0:[0 1 2] y@0@1:8] makes x the
    List [" "; "1233"] and y the List [[0;8;2]; "23"]. *)
Definition num (t : string) : tree hval := TTok (Tok KNumber (s_ t)).
Definition var_name (t : string) : tree hval := name (s_ t).
Definition sc (t : string) : pval := PScal (s_ t).
Definition program : list assignment :=
  [Put (s_ "x") [] (display [num "1"; num "23"]);
   Put (s_ "y") [] (var_name "x");
   Put (s_ "x") [num "1"; num "0"] (var_name "y");
   Put (s_ "x") [TApp op_paren [app "-" [num "2"]]] (var_name "s");
   Put (s_ "y") [num "0"] (display [num "0"; num "1"; num "2"]);
   Put (s_ "y") [num "0"; num "1"] (num "8")].

Lemma value_num fmt rho t :
  of_token (Tok KNumber (s_ t)) = Val (sc t) -> value_in fmt rho (num t) (sc t).
Proof. intros E. apply value_literal; [reflexivity|discriminate|exact E]. Qed.
Lemma value_var fmt rho t p : rho (s_ t) = Some p -> value_in fmt rho (var_name t) p.
Proof.
  intros E. apply (value_item fmt rho (s_ t) [] [] [] p p E); constructor.
Qed.
Lemma index_digit neg d : (d < 10)%N ->
  index_value (PScal (numeral neg [d])) (numeral_value neg [d]).
Proof.
  intros L. rewrite <- (app_nil_r (numeral neg [d])). apply index_numeral; [|exact I].
  split; [discriminate|]. constructor; [exact L|constructor].
Qed.

Example C43_case_effects :
  exists rho', effects FmtNone start_values program rho'
    /\ rho' (s_ "x") = Some (PList [sc " "; sc "1233"])
    /\ rho' (s_ "y") = Some (PList [PList [sc "0"; sc "8"; sc "2"]; sc "23"]).
Proof.
  eexists. split; [unfold program|].
  - eapply effects_cons.
    { apply effect_var with (p := PList [sc "1"; sc "23"]); [|reflexivity].
      apply value_display. repeat (apply Forall2_cons; [apply value_num; reflexivity|]). constructor. }
    eapply effects_cons.
    { apply effect_var with (p := PList [sc "1"; sc "23"]); [|reflexivity].
      apply value_var. reflexivity. }
    eapply effects_cons.
    { eapply effect_item with (p := PList [sc "1"; sc "23"]) (p' := PList [sc "1"; sc "1233"])
        (ps := [sc "1"; sc "0"]) (zs := [1; 0]) (q := PList [sc "1"; sc "23"]);
        [reflexivity|discriminate| | | |reflexivity|apply as_list_list|].
      - repeat (apply Forall2_cons; [apply value_num; reflexivity|]). constructor.
      - constructor; [apply (index_digit false 1); reflexivity|].
        constructor; [apply (index_digit false 0); reflexivity|constructor].
      - apply value_var. reflexivity.
      - apply (updated_inside FmtNone [sc "1"] (sc "23") []); [reflexivity|discriminate|].
        apply (updated_char FmtNone [] 50%N [51%N]). reflexivity. }
    eapply effects_cons.
    { eapply effect_item with (p := PList [sc "1"; sc "1233"]) (p' := PList [sc " "; sc "1233"])
        (ps := [sc "-2"]) (zs := [-2]) (q := sc " ");
        [reflexivity|discriminate| | | |reflexivity|apply as_list_list|].
      - constructor; [|constructor]. apply value_parens.
        apply value_app with (ps := [sc "2"]); [|constructor; [apply value_num; reflexivity|constructor]|
                                                 vm_compute; reflexivity].
        eexists. split; [reflexivity|]. split; reflexivity.
      - constructor; [apply (index_digit true 2); reflexivity|constructor].
      - apply value_var. reflexivity.
      - apply (updated_item FmtNone [] (sc "1") [sc "1233"]). reflexivity. }
    eapply effects_cons.
    { eapply effect_item with (p := PList [sc "1"; sc "23"])
        (p' := PList [PList [sc "0"; sc "1"; sc "2"]; sc "23"])
        (ps := [sc "0"]) (zs := [0]) (q := PList [sc "0"; sc "1"; sc "2"]);
        [reflexivity|discriminate| | | |reflexivity|apply as_list_list|].
      - repeat (apply Forall2_cons; [apply value_num; reflexivity|]). constructor.
      - constructor; [apply (index_digit false 0); reflexivity|constructor].
      - apply value_display. repeat (apply Forall2_cons; [apply value_num; reflexivity|]). constructor.
      - apply (updated_item FmtNone [] (sc "1") [sc "23"]). reflexivity. }
    eapply effects_cons.
    { eapply effect_item with (p := PList [PList [sc "0"; sc "1"; sc "2"]; sc "23"])
        (p' := PList [PList [sc "0"; sc "8"; sc "2"]; sc "23"])
        (ps := [sc "0"; sc "1"]) (zs := [0; 1]) (q := sc "8");
        [reflexivity|discriminate| | | |reflexivity|apply as_list_list|].
      - repeat (apply Forall2_cons; [apply value_num; reflexivity|]). constructor.
      - constructor; [apply (index_digit false 0); reflexivity|].
        constructor; [apply (index_digit false 1); reflexivity|constructor].
      - apply value_num; reflexivity.
      - apply (updated_inside FmtNone [] (PList [sc "0"; sc "1"; sc "2"]) [sc "23"]);
          [reflexivity|discriminate|].
        apply (updated_item FmtNone [sc "0"] (sc "1") [sc "2"]). reflexivity. }
    constructor.
  - split; reflexivity.
Qed.
Example C43_case_program : forall s, init_state FmtNone false (lines []) None = Ok tt s ->
  exists s', performs s program s' /\ var s' (s_ "x") (PList [sc " "; sc "1233"])
    /\ var s' (s_ "y") (PList [PList [sc "0"; sc "8"; sc "2"]; sc "23"])
    /\ var s' (s_ "z") (sc "abcdefghijklmnopqrstuvwxyz").
Proof.
  intros s E. destruct (C43_start_partial _ _ _ _ E) as (Sd & Ag & Ns & Fm & Tao).
  destruct C43_case_effects as (rho' & Ef & Ex & Ey). rewrite <- Fm in Ef.
  destruct (C43_assignments_partial program s start_values rho' Sd Ag Ns) as (s' & P & _ & Ag' & K & _).
  - assert (O : ordinary s (s_ "x") /\ ordinary s (s_ "y")).
    { split; [apply (Ag (s_ "x") (PScal []))|apply (Ag (s_ "y") (PScal []))]; reflexivity. }
    destruct O as [Ox Oy]. intros a [<-|[<-|[<-|[<-|[<-|[<-|[]]]]]]]; assumption.
  - exact Ef.
  - exists s'. split; [exact P|]. split; [apply Ag'; exact Ex|]. split; [apply Ag'; exact Ey|].
    apply K; [|apply (Ag (s_ "z") (sc "abcdefghijklmnopqrstuvwxyz")); reflexivity].
    intros I. cbn in I. repeat (destruct I as [I|I]; [discriminate|]). exact I.
Qed.
Example C43_case_text :
  output_of "x:[1 23] y:x x@1@0:y x@(-2):s y@0:[0 1 2] y@0@1:8 O RP x RP y" []
  = Some (s_ "["" "";1233][[0;8;2];23]" ++ [10%N]).
Proof. vm_compute. reflexivity. Qed.

(** Where objects are shared the claim fails.  The program's argument is both
    a and \a (execution.py:53-70, 400-418); the literal in a Block is returned
    itself (execution.py:400-418); [$<] on a one-item List returns the constant
    1 of the interpreter (execution.py:18-20, 657-660); the items of
    [3M,3] are one object (execution.py:2170-2174). *)
Theorem C43_refuted :
  output_of "a@0:9 \a" ["123"] = Some (s_ "923" ++ [10%N])
  /\ output_of "f:[[1]]@_ x:(f 0) x@0:9 (f 0)" [] = Some (s_ "9" ++ [10%N])
  /\ output_of "x:$<[5] x@0:7 ++i" [] = Some (s_ "7" ++ [10%N])
  /\ output_of "x:3M,3 x@0@0:9 x" [] = Some (s_ "999" ++ [10%N]).
Proof. repeat split; vm_compute; reflexivity. Qed.
Print Assumptions C43_refuted.
