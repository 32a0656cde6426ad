(** * Property C95: functions without side effects compute what their equations say *)

From Coq Require Import String List NArith ZArith Bool Arith Lia.
From Verif Require Import PyStr PyNum Tokens OpFun OpTable Parse Unparse PTypes Ops Apply Spec Heap Exec
                          SpecHeap SpecExec SpecScan SpecMain SpecRun SpecVars SpecMap SpecMeta
                          SpecFun PropExec.
From Verif Require FunProof FunProof2.
Import ListNotations.
Local Open Scope string_scope.
Local Open Scope list_scope.
Local Open Scope Z_scope.

(** A call of the function, from whatever place and at whatever depth, returns
    the value that the semantics gives, and has no other effect. *)
Theorem C95_call : forall s f b,
  den (st_heap s) f (PBlock [] b) ->
  computes s f (fun args p => called (setting_of s) (PBlock [] b) args p).
Proof. exact FunProof.function_called. Qed.
Print Assumptions C95_call.

(** The semantics gives at most one value. *)
Theorem C95_unique : forall s F args p q,
  called (setting_of s) F args p -> called (setting_of s) F args q -> p = q.
Proof. exact FunProof.called_unique. Qed.
Print Assumptions C95_unique.

(** Recursion through [RE]. *)
Theorem C95_factorial : forall w F n,
  function_of "{a<2?1a*RE(a-1)}" = Some F ->
  called w F [scal_Z (Z.of_nat n)] (scal_Z (Z.of_nat (fact n))).
Proof. exact FunProof2.factorial. Qed.
Print Assumptions C95_factorial.

(** Recursion through the function's own name. *)
Theorem C95_gcd : forall w F x y,
  function_of "{b?(f b a%b)a}" = Some F -> 0 <= x -> 0 <= y ->
  called w F [scal_Z x; scal_Z y] (scal_Z (Z.gcd x y)).
Proof. exact FunProof2.euclid. Qed.
Print Assumptions C95_gcd.

Example C95_functions :
  (exists F, function_of "{a<2?1a*RE(a-1)}" = Some F) /\ (exists F, function_of "{b?(f b a%b)a}" = Some F).
Proof. split; eexists; vm_compute; reflexivity. Qed.
Example C95_ex :
  output_of "h:{a<2?1a*RE(a-1)} z:{b?(f b a%b)a} O (h 6) O '/ O (z 1071 462) O '/ h M,7" []
  = Some (s_ "720/21/112624120720" ++ [10%N]).
Proof. vm_compute. reflexivity. Qed.
(** Functions passed to functions, and mapped. *)
Example C95_higher : forall w, exists F,
  function_of "{a M b}" = Some F /\
  forall G, function_of "{a*a}" = Some G ->
  called w F [G; PList [scal_Z 3; scal_Z 4]] (PList [scal_Z 9; scal_Z 16]).
Proof.
  intros w. eexists. split; [vm_compute; reflexivity|]. intros G E.
  assert (X : function_of "{a*a}" = Some (PBlock [] (papp "*" [pname (s_ "a"); pname (s_ "a")])))
    by (vm_compute; reflexivity).
  assert (Y : PBlock [] (papp "*" [pname (s_ "a"); pname (s_ "a")]) = G) by congruence.
  subst G. clear E X. constructor.
  match goal with |- has_value _ _ ?args _ _ => set (as_ := args) end.
  apply (hv_map w _ as_ (pname (s_ "a")) (pname (s_ "b"))
           (PBlock [] (papp "*" [pname (s_ "a"); pname (s_ "a")])) (PList [scal_Z 3; scal_Z 4])
           [scal_Z 3; scal_Z 4]).
  - exact (hv_local w _ as_ 97%N ltac:(cbn; tauto)).
  - exact (hv_local w _ as_ 98%N ltac:(cbn; tauto)).
  - constructor.
  - assert (Sq : forall z, called w (PBlock [] (papp "*" [pname (s_ "a"); pname (s_ "a")])) [scal_Z z] (scal_Z (z * z))).
    { intros z. constructor. apply (hv_app w _ _ "*" _ [scal_Z z; scal_Z z]).
      - eexists. split; [vm_compute; reflexivity|constructor; reflexivity].
      - repeat (constructor; [exact (hv_local w _ (bound _ [scal_Z z]) 97%N ltac:(cbn; tauto))|]). constructor.
      - rewrite FunProof2.run_times. reflexivity. }
    constructor; [exact (Sq 3)|]. constructor; [exact (Sq 4)|]. constructor.
Qed.
