(** * Property C105: arguments evaluated by -x *)

From Coq Require Import String List NArith ZArith Bool Arith.
From Verif Require Import PyStr PyNum Tokens OpTable Scan Parse PTypes Heap Exec SpecHeap SpecVars SpecMain
                          SpecRec SpecFun SpecImp Main.
From Verif Require SpecRepr VarProof MainProof ImpProof3 PropRepr XargsProof.
Import ListNotations.
Local Open Scope string_scope.
Local Open Scope list_scope.

(** An argument that is the repr of a readable value (SpecRepr.v) is this
    value; nothing else changes. *)
Theorem C105_argument : forall p, SpecRepr.readable p -> forall s, exists v s' n,
  (forall m, (n <= m)%nat -> exec_arg m (p_repr p) s = Ok v s') /\ den (st_heap s') v p /\ only_adds s s'.
Proof.
  intros p R s. destruct (XargsProof.arg_read p R s) as (v & s' & n & E & A & D).
  exists v, s', n. split; [exact E|]. split; [exact D|]. apply VarProof.adv_only_adds. exact A.
Qed.
Print Assumptions C105_argument.

(** The program ends, whatever the fuel from some number on, having written
    [out] and read none of the input. *)
Definition writes (o : options) (input : world) (text : string) (out : str) : Prop :=
  exists n s', (forall m, (n <= m)%nat -> pip_main m o input (s_ text) = Ok tt s')
    /\ st_out s' = out /\ st_in s' = w_in input.

(** With -x, a program is called with the values whose reprs are given. *)
Theorem C105_program : forall text o input ps F out w' p,
  op_exec_args o = true -> op_readlines o = false -> op_args o = map p_repr ps -> Forall SpecRepr.readable ps ->
  program_of text F -> invokes (start_setting (list_format o)) F ps out w' p ->
  writes o input text (out ++ shown_line (list_format o) p).
Proof. exact XargsProof.program_runs_x. Qed.
Print Assumptions C105_program.

(** So the program [g], whose value is the List of all arguments, prints the
    values. *)
Theorem C105_all : forall o input ps,
  op_exec_args o = true -> op_readlines o = false -> op_args o = map p_repr ps -> Forall SpecRepr.readable ps ->
  writes o input "g" (listing (list_format o) (PList ps) ++ [10%N]).
Proof.
  intros o input ps Ox Or Oa R.
  set (F := PBlock [] (pname (s_ "g"))).
  assert (P : program_of "g" F).
  { do 4 eexists. split; [vm_compute; reflexivity|]. split; [vm_compute; reflexivity|].
    split; [discriminate|]. vm_compute. repeat constructor. }
  apply (C105_program "g" o input ps F [] (start_setting (list_format o)) (PList ps) Ox Or Oa R P).
  apply (invokes_function _ [] _ _ [] (start_setting (list_format o)) (bound F ps) []
           (start_setting (list_format o)) (bound F ps)); [constructor|].
  apply evaluates_value. exact (hv_local _ _ (bound F ps) 103%N ltac:(cbn; tauto)).
Qed.
Print Assumptions C105_all.

(** Integers are the same with -x and without. *)
Theorem C105_integers : forall text o input zs F out w' p,
  op_readlines o = false -> op_args o = map str_of_Z zs ->
  program_of text F -> invokes (start_setting (list_format o)) F (map scal_Z zs) out w' p ->
  writes o input text (out ++ shown_line (list_format o) p).
Proof. exact XargsProof.integers_x. Qed.
Print Assumptions C105_integers.
(** For instance, Euclid's algorithm (C98). *)
Theorem C105_gcd : forall o input x y, (0 <= x)%Z -> (0 <= y)%Z ->
  op_readlines o = false -> op_args o = [str_of_Z x; str_of_Z y] ->
  writes o input "Wb{x:a%b a:b b:x}a" (str_of_Z (Z.gcd x y) ++ [10%N]).
Proof.
  intros o input x y Hx Hy Or Oa.
  destruct (ImpProof3.euclid_invoked (start_setting (list_format o)) x y Hx Hy) as (w' & Iv).
  rewrite <- (ImpProof3.line_int (list_format o)).
  exact (C105_integers _ o input [x; y] _ [] w' _ Or Oa ImpProof3.euclid_text Iv).
Qed.
Print Assumptions C105_gcd.

(** With -r too, the reprs are lines of standard input, all of which are read. *)
Theorem C105_lines : forall text o input ps F out w' p,
  op_exec_args o = true -> op_readlines o = true -> w_in input = map p_repr ps -> Forall SpecRepr.readable ps ->
  program_of text F -> invokes (start_setting (list_format o)) F ps out w' p ->
  exists n s', (forall m, (n <= m)%nat -> pip_main m o input (s_ text) = Ok tt s')
    /\ st_out s' = out ++ shown_line (list_format o) p /\ st_in s' = [].
Proof.
  intros text o input ps F out w' p Ox Or Wi R P Iv.
  destruct (C105_program text (given o (w_in input)) (mkworld [] (w_rand input)) ps F out w' p Ox eq_refl Wi R P Iv)
    as (n & s' & E & Eo & Ei).
  exists n, s'. split; [|split; [exact Eo|exact Ei]]. intros m L.
  destruct P as (ts & b & sts & rest & Sn & Pr & _).
  rewrite (MainProof.readlines_eq m o input (s_ text) sts Or); [exact (E m L)|].
  exists ts, rest, b. split; [exact Sn|exact Pr].
Qed.
Print Assumptions C105_lines.

(** Without -x, the same arguments are texts. *)
Definition run_x (x : bool) (text : string) (args : list string) : option str :=
  match pip_main 60 (mkopt false false true false false false false false false x (map s_ args))
          (Exec.lines []) (s_ text) with
  | Ok _ s => Some (st_out s)
  | _ => None
  end.
Definition C105_values : list pval :=
  [PList [PScal (s_ "a b"); PList []; PRange None (Some 2%Z)]; PNil; PScal (s_ "1")].
Example C105_ex :
  run_x true "[#a g]" ["[""a b"";[];((),2)]"; "()"; "1"]
    = Some (s_ "[3;[[""a b"";[];((),2)];();1]]" ++ [10%N])
  /\ run_x false "[#a g]" ["[""a b"";[];((),2)]"; "()"; "1"]
    = Some (s_ "[17;[\""[""a b"";[];((),2)]\"";""()"";1]]" ++ [10%N])
  /\ map p_repr C105_values = map s_ ["[""a b"";[];((),2)]"; "()"; "1"]
  /\ Forall SpecRepr.readable C105_values.
Proof.
  split; [vm_compute; reflexivity|]. split; [vm_compute; reflexivity|]. split; [vm_compute; reflexivity|].
  assert (T : forall t, ~ In 34%N t -> (forall u, t <> s_ "-" ++ u) -> SpecRepr.readable (PScal t)).
  { intros t Q N. apply PropRepr.C39_text_partial; [exact Q|]. intros u E _. exfalso. exact (N u E). }
  assert (A : SpecRepr.readable (PScal (s_ "a b")) /\ SpecRepr.readable (PScal (s_ "1"))).
  { split; apply T; try discriminate; intros X; cbn in X; decompose [or] X; (discriminate || contradiction). }
  destruct A as [A1 A2]. constructor; [|constructor; [constructor|constructor; [exact A2|constructor]]].
  constructor. constructor; [exact A1|]. constructor; [apply SpecRepr.readable_list; constructor|].
  constructor; [constructor|constructor].
Qed.
