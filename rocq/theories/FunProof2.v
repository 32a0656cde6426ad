(** * Two recursive functions: proofs *)

From Coq Require Import String List NArith ZArith Bool Arith Lia.
From Verif Require Import PyStr PyRe PyNum Tokens OpFun OpTable Unparse
                          PTypes Ops OpsSeq Apply Spec StrFacts PFacts RunOp
                          Heap Exec SpecHeap HeapProof ExecRel ExecInv EvalProof
                          SpecScan SpecRun SpecVars VarProof CtlProof PureProof LoopProof SpecMap MapProof
                          FilterProof SpecMeta MetaProof SpecLam LamProof SpecRec RecProof SpecFun FunProof.
Import ListNotations.
Local Open Scope string_scope.
Local Open Scope list_scope.

(** ** Integers *)
Lemma run_ints (op : Z -> Z -> Z) text :
  (forall fmt na a nb b, decimal a -> decimal b ->
     run_op fmt text [PScal (numeral na a); PScal (numeral nb b)]
     = ret (scal_Z (op (numeral_value na a) (numeral_value nb b)))) ->
  forall fmt x y, run_op fmt text [scal_Z x; scal_Z y] = ret (scal_Z (op x y)).
Proof.
  intros H fmt x y.
  destruct (NumProof.str_of_Z_numeral x) as (a & Ha & Ea & Va & _).
  destruct (NumProof.str_of_Z_numeral y) as (b & Hb & Eb & Vb & _).
  unfold scal_Z at 1 2. rewrite Ea, Eb, H by assumption. rewrite Va, Vb. reflexivity.
Qed.
Lemma run_times fmt x y : run_op fmt "*" [scal_Z x; scal_Z y] = ret (scal_Z (x * y)).
Proof. apply (run_ints Z.mul). exact NumProof.times_numeral. Qed.
Lemma run_minus fmt x y : run_op fmt "-" [scal_Z x; scal_Z y] = ret (scal_Z (x - y)).
Proof. apply (run_ints Z.sub). exact NumProof.minus_numeral. Qed.
Lemma run_less fmt x y : run_op fmt "<" [scal_Z x; scal_Z y] = ret (Spec.truth (x <? y)%Z).
Proof.
  destruct (NumProof.str_of_Z_numeral x) as (a & Ha & Ea & Va & _).
  destruct (NumProof.str_of_Z_numeral y) as (b & Hb & Eb & Vb & _).
  destruct (NumProof2.compares_integers fmt (x <? 0)%Z a (y <? 0)%Z b Ha Hb) as (L & _).
  rewrite <- Ea, <- Eb, Va, Vb in L. exact L.
Qed.
Lemma run_mod fmt x y : y <> 0%Z -> run_op fmt "%" [scal_Z x; scal_Z y] = ret (scal_Z (x mod y)).
Proof.
  intros N. destruct (NumProof.int_divmod fmt x y N) as (q & r & _ & E & D & P & M).
  rewrite E. f_equal. f_equal. apply (Z.mod_unique x y q r); lia.
Qed.
Lemma counts_truth b : counts (Spec.truth b) b.
Proof. apply counts_bool. destruct b; reflexivity. Qed.

Ltac operator := eexists; split; [vm_compute; reflexivity|constructor; reflexivity].

(** ** Two functions *)
Definition less : oper := Eval vm_compute in
  match op_by_arity 2 (s_ "<") with Some o => o | None => op_chain end.
Lemma less_than w F L e1 e2 x y :
  has_value w F L e1 (scal_Z x) -> has_value w F L e2 (scal_Z y) ->
  has_value w F L (pchain e1 [(less, e2)]) (Spec.truth (x <? y)%Z).
Proof.
  intros H1 H2. apply (hv_compare w F L e1 [(less, e2)] (scal_Z x) [scal_Z y]).
  - discriminate.
  - constructor; [|constructor]. exists (s_ "<"). split; [vm_compute; reflexivity|].
    split; [reflexivity|discriminate].
  - constructor; [exact H1|]. constructor; [exact H2|constructor].
  - repeat constructor.
  - cbn [map fst combine]. apply chain_last. pose proof (run_less (w_fmt w) x y) as R.
    unfold run_op in R. cbn [length] in R.
    assert (Q : op_by_arity 2 (s_ "<") = Some less) by (vm_compute; reflexivity).
    rewrite Q in R. rewrite R. reflexivity.
Qed.
Theorem factorial w F n :
  function_of "{a<2?1a*RE(a-1)}" = Some F ->
  called w F [scal_Z (Z.of_nat n)] (scal_Z (Z.of_nat (fact n))).
Proof.
  intros E.
  assert (X : function_of "{a<2?1a*RE(a-1)}" = Some (PBlock [] (papp "?" [pchain (pname (s_ "a")) [(less, TTok (Tok KNumber (s_ "2")))];
                                       TTok (Tok KNumber (s_ "1"));
                                       papp "*" [pname (s_ "a");
                                         papp "RE" [TApp op_paren [papp "-" [pname (s_ "a"); TTok (Tok KNumber (s_ "1"))]]]]]))).
  { vm_compute. reflexivity. }
  rewrite X in E. clear X. set (b := papp "?" _) in E.
  assert (Y : PBlock [] b = F) by congruence. clear E. subst F.
  induction n as [|n IH]; constructor; unfold b at 2.
  - apply (hv_if w _ _ true _ _ _ (Spec.truth true)); [|apply counts_truth|].
    + apply (less_than w _ _ _ _ 0 2); [exact (hv_local w _ _ 97%N ltac:(cbn; tauto))|].
      apply hv_literal; try reflexivity; discriminate.
    + apply hv_literal; try reflexivity; discriminate.
  - set (m := Z.of_nat (S n)).
    assert (A : has_value w (PBlock [] b) (bound (PBlock [] b) [scal_Z m]) (pname (s_ "a")) (scal_Z m))
      by exact (hv_local w (PBlock [] b) (bound (PBlock [] b) [scal_Z m]) 97%N ltac:(cbn; tauto)).
    apply (hv_if w _ _ (m <? 2)%Z _ _ _ (Spec.truth (m <? 2)%Z)); [|apply counts_truth|].
    + apply (less_than w _ _ _ _ m 2); [exact A|]. apply hv_literal; try reflexivity; discriminate.
    + destruct (m <? 2)%Z eqn:L.
      * apply Z.ltb_lt in L. assert (n = 0)%nat as -> by lia. apply hv_literal; try reflexivity; discriminate.
      * apply (hv_app w _ _ "*" _ [scal_Z m; scal_Z (Z.of_nat (fact n))]); [operator| |].
        -- constructor; [exact A|]. constructor; [|constructor].
           apply (hv_recurse w _ _ _ (scal_Z (Z.of_nat n))); [|exact IH].
           apply hv_parens. apply (hv_app w _ _ "-" _ [scal_Z m; scal_Z 1]); [operator| |].
           ++ constructor; [exact A|]. constructor; [apply hv_literal; try reflexivity; discriminate|constructor].
           ++ rewrite run_minus. cbn [ret snd]. f_equal. f_equal. unfold m. lia.
        -- rewrite run_times. cbn [ret snd]. f_equal. f_equal. unfold m.
           change (fact (S n)) with (S n * fact n)%nat. lia.
Qed.

Theorem euclid w F x y :
  function_of "{b?(f b a%b)a}" = Some F -> (0 <= x)%Z -> (0 <= y)%Z ->
  called w F [scal_Z x; scal_Z y] (scal_Z (Z.gcd x y)).
Proof.
  intros E.
  assert (X : function_of "{b?(f b a%b)a}" = Some (PBlock [] (papp "?" [pname (s_ "b");
                               TApp op_send [pname (s_ "f"); pname (s_ "b"); papp "%" [pname (s_ "a"); pname (s_ "b")]];
                               pname (s_ "a")]))).
  { vm_compute. reflexivity. }
  rewrite X in E. clear X. set (b := papp "?" _) in E.
  assert (Y : PBlock [] b = F) by congruence. clear E. subst F. intros Hx Hy. revert x Hx.
  assert (W : forall n y, (0 <= y < Z.of_nat n)%Z -> forall x, (0 <= x)%Z ->
             called w (PBlock [] b) [scal_Z x; scal_Z y] (scal_Z (Z.gcd x y))).
  { clear. induction n as [|n IH]; intros y Hy x Hx; [lia|]. constructor. unfold b at 2.
    assert (A : has_value w (PBlock [] b) (bound (PBlock [] b) [scal_Z x; scal_Z y]) (pname (s_ "a")) (scal_Z x))
      by exact (hv_local w (PBlock [] b) (bound (PBlock [] b) [scal_Z x; scal_Z y]) 97%N ltac:(cbn; tauto)).
    assert (B : has_value w (PBlock [] b) (bound (PBlock [] b) [scal_Z x; scal_Z y]) (pname (s_ "b")) (scal_Z y))
      by exact (hv_local w (PBlock [] b) (bound (PBlock [] b) [scal_Z x; scal_Z y]) 98%N ltac:(cbn; tauto)).
    apply (hv_if w _ _ (negb (y =? 0)%Z) _ _ _ (scal_Z y)); [exact B|apply counts_int|].
    destruct (Z.eqb_spec y 0) as [->|N]; cbn [negb].
    - rewrite Z.gcd_0_r, Z.abs_eq by exact Hx. exact A.
    - apply (hv_call w _ _ _ (PBlock [] b) _ [scal_Z y; scal_Z (x mod y)]).
      + exact (hv_local w (PBlock [] b) (bound (PBlock [] b) [scal_Z x; scal_Z y]) 102%N ltac:(cbn; tauto)).
      + constructor; [exact B|]. constructor; [|constructor].
        apply (hv_app w _ _ "%" _ [scal_Z x; scal_Z y]); [operator| |rewrite run_mod by exact N; reflexivity].
        constructor; [exact A|]. constructor; [exact B|constructor].
      + pose proof (Z.mod_pos_bound x y ltac:(lia)) as M.
        replace (Z.gcd x y) with (Z.gcd y (x mod y)); [apply IH; lia|].
        rewrite (Z.gcd_comm y). rewrite Z.gcd_mod by lia. apply Z.gcd_comm. }
  intros x Hx. apply (W (S (Z.to_nat y)) y); lia.
Qed.

(** ** Lists *)
Lemma run_plus fmt x y : run_op fmt "+" [scal_Z x; scal_Z y] = ret (scal_Z (x + y)).
Proof. apply (run_ints Z.add). exact NumProof.plus_numeral. Qed.
Lemma run_length fmt l : run_op fmt "#" [PList l] = ret (scal_Z (Z.of_nat (length l))).
Proof. reflexivity. Qed.
Lemma run_tail fmt x l : run_op fmt "@>" [PList (x :: l)] = ret (PList l).
Proof.
  rewrite run_rest by reflexivity. cbn [sliced is_iterable p_getitem].
  change (scalar_int (s_ "1")) with 1%Z.
  assert (E : seq_slice (x :: l) (Some 1%Z) None = Some l); [|rewrite E; reflexivity].
  unfold seq_slice. cbv zeta. change (1 <? 0)%Z with false. cbv iota.
  assert (Hz : zlen (x :: l) = (1 + zlen l)%Z) by (unfold zlen; cbn [length]; lia).
  assert (P : (0 <= zlen l)%Z) by (unfold zlen; lia). rewrite Hz.
  destruct (Z.ltb_spec (1 + zlen l) 0) as [N|_]; [lia|].
  destruct (Z.leb_spec (1 + zlen l) 1) as [N|N].
  - destruct l; [reflexivity|]. unfold zlen in N. cbn [length] in N. lia.
  - assert (EL : forall n, extend_left n (x :: l) (x :: l) 1 (1 + zlen l) = Some (x :: l, 1%Z, (1 + zlen l)%Z))
      by (intros [|n]; reflexivity).
    rewrite EL.
    assert (ER : forall n, extend_right n (x :: l) (x :: l) (1 + zlen l) = Some (x :: l)).
    { intros n. destruct n; cbn [extend_right]; rewrite Hz, Z.ltb_irrefl; reflexivity. }
    rewrite ER. f_equal. unfold py_slice, clamp_bound. rewrite Hz.
    destruct (Z.ltb_spec (1 + zlen l) 0) as [N'|_]; [lia|]. change (1 <? 0)%Z with false. cbv iota.
    replace (Z.to_nat (Z.max 0 (Z.min 1 (1 + zlen l)))) with 1%nat by lia. cbn [skipn].
    apply firstn_all2. unfold zlen. lia.
Qed.
Lemma run_append fmt l x : is_block x = false -> run_op fmt "AE" [PList l; x] = ret (PList (l ++ [x])).
Proof. intros B. destruct x; try discriminate; reflexivity. Qed.

Section Lists.
  Variables (w : setting) (one : w_one w).

  Lemma here F l c : In c (s_ "abcdefg") -> has_value w F (bound F [PList l]) (pname [c]) (bound F [PList l] c).
  Proof. apply hv_local. Qed.
  Lemma has_items F l (b : tree pval) x y :
    (forall h t, l = h :: t -> has_value w F (bound F [PList l]) b y) ->
    (l = [] -> has_value w F (bound F [PList l]) x y) ->
    has_value w F (bound F [PList l]) (papp "?" [papp "#" [pname (s_ "a")]; b; x]) y.
  Proof.
    intros H1 H2. apply (hv_if w _ _ (negb (Z.of_nat (length l) =? 0)%Z) _ _ _ (scal_Z (Z.of_nat (length l)))).
    - apply (hv_app w _ _ "#" _ [PList l]); [operator| |rewrite run_length; reflexivity].
      constructor; [exact (here F l 97%N ltac:(cbn; tauto))|constructor].
    - apply counts_int.
    - destruct l as [|h t]; [exact (H2 eq_refl)|]. exact (H1 h t eq_refl).
  Qed.
  Lemma first_of F h t :
    has_value w F (bound F [PList (h :: t)]) (papp "@" [pname (s_ "a")]) h.
  Proof.
    apply (hv_first w _ _ _ (PList (h :: t))); [exact (here F _ 97%N ltac:(cbn; tauto))|reflexivity|].
    rewrite (SeqProof2.index_first _ _ h t) by constructor. reflexivity.
  Qed.
  Lemma rest_of F h t :
    has_value w F (bound F [PList (h :: t)]) (papp "@>" [pname (s_ "a")]) (PList t).
  Proof.
    apply (hv_rest w _ _ _ (PList (h :: t))); [exact (here F _ 97%N ltac:(cbn; tauto))|reflexivity|reflexivity|exact one|].
    rewrite run_tail. reflexivity.
  Qed.

  Theorem sum_list F zs :
    function_of "{#a?@a+RE@>a0}" = Some F ->
    called w F [PList (map scal_Z zs)] (scal_Z (fold_right Z.add 0%Z zs)).
  Proof.
    intros E.
    assert (X : function_of "{#a?@a+RE@>a0}" = Some (PBlock [] (papp "?" [papp "#" [pname (s_ "a")];
                  papp "+" [papp "@" [pname (s_ "a")]; papp "RE" [papp "@>" [pname (s_ "a")]]];
                  TTok (Tok KNumber (s_ "0"))])))
      by (vm_compute; reflexivity).
    rewrite X in E. clear X. set (b := papp "?" _) in E.
    assert (Y : PBlock [] b = F) by congruence. clear E. subst F.
    induction zs as [|z zs IH]; constructor; unfold b at 2; apply has_items; try discriminate.
    - intros _. apply hv_literal; try reflexivity; discriminate.
    - intros h t Eh. clear h t Eh. cbn [map fold_right].
      apply (hv_app w _ _ "+" _ [scal_Z z; scal_Z (fold_right Z.add 0%Z zs)]); [operator| |rewrite run_plus; reflexivity].
      constructor; [apply first_of|]. constructor; [|constructor].
      apply (hv_recurse w _ _ _ (PList (map scal_Z zs))); [apply rest_of|exact IH].
  Qed.

  Theorem reverse_list F l :
    function_of "{#a?(RE@>a)AE@a[]}" = Some F -> Forall (fun p => is_block p = false) l ->
    called w F [PList l] (PList (rev l)).
  Proof.
    intros E.
    assert (X : function_of "{#a?(RE@>a)AE@a[]}" = Some (PBlock [] (papp "?" [papp "#" [pname (s_ "a")];
                  papp "AE" [TApp op_paren [papp "RE" [papp "@>" [pname (s_ "a")]]]; papp "@" [pname (s_ "a")]];
                  TApp op_enlist []])))
      by (vm_compute; reflexivity).
    rewrite X in E. clear X. set (b := papp "?" _) in E.
    assert (Y : PBlock [] b = F) by congruence. clear E. subst F.
    induction l as [|p l IH]; intros Bl; constructor; unfold b at 2; apply has_items; try discriminate.
    - intros _. apply hv_display. constructor.
    - intros h t Eh. clear h t Eh. inversion Bl as [|? ? B1 B2]; subst. cbn [rev].
      apply (hv_app w _ _ "AE" _ [PList (rev l); p]); [operator| |rewrite run_append by exact B1; reflexivity].
      constructor; [|constructor; [apply first_of|constructor]].
      apply hv_parens. apply (hv_recurse w _ _ _ (PList l)); [apply rest_of|exact (IH B2)].
  Qed.
End Lists.
