(** * Properties C98 to C103: programs do what their statements say *)

From Coq Require Import String List NArith ZArith Znumtheory Bool Arith Lia.
From Verif Require Import PyStr PyNum Tokens Scan OpFun OpTable Parse Unparse PTypes Ops Apply Spec Heap Exec
                          SpecHeap SpecExec SpecScan SpecMain SpecRun SpecVars SpecMap SpecMeta SpecAlias
                          SpecFun SpecImp SpecImp2 PropExec.
From Verif Require FilterProof ImpProof2 ImpProof3 ImpProof4 ImpProof5 ImpProof6 ImpProof7 ImpProof8.
Import ListNotations.
Local Open Scope string_scope.
Local Open Scope list_scope.
Local Open Scope Z_scope.

(** A call of the function, from whatever place and at whatever depth, writes,
    assigns and returns what the semantics says. *)
Theorem C98_call : forall s f F vs args out w' p,
  den (st_heap s) f F -> dens (st_heap s) vs args -> invokes (setting_of s) F args out w' p ->
  exists v s', calls s f vs v s' /\ den (st_heap s') v p /\ st_out s' = st_out s ++ out /\ st_in s' = st_in s
    /\ st_scopes s' = st_scopes s /\ models s' w'.
Proof. exact ImpProof2.invokes_calls. Qed.
Print Assumptions C98_call.

(** The semantics gives at most one result. *)
Theorem C98_unique : forall s F args out w' p out2 w2 p2,
  invokes (setting_of s) F args out w' p -> invokes (setting_of s) F args out2 w2 p2 -> out = out2 /\ p = p2.
Proof. exact ImpProof2.invokes_unique. Qed.
Print Assumptions C98_unique.

(** A program is called as a function, and its result is printed after the
    rest. *)
Theorem C98_program : forall text fmt warn_ input args F out w' p,
  program_of text F -> invokes (start_setting fmt) F (map PScal args) out w' p ->
  prints fmt warn_ input text args (out ++ shown_line fmt p).
Proof. exact ImpProof2.program_runs. Qed.
Print Assumptions C98_program.

(** A while loop: Euclid's algorithm. *)
Theorem C98_gcd : forall fmt warn_ input x y, 0 <= x -> 0 <= y ->
  prints fmt warn_ input "Wb{x:a%b a:b b:x}a" [str_of_Z x; str_of_Z y] (str_of_Z (Z.gcd x y) ++ [10%N]).
Proof. exact ImpProof3.euclid_prints. Qed.
Print Assumptions C98_gcd.

(** A for loop. *)
Theorem C98_sum : forall fmt warn_ input n, 0 <= n ->
  prints fmt warn_ input "Fy,a{i+:y}i" [str_of_Z n] (str_of_Z (n * (n - 1) / 2) ++ [10%N]).
Proof. exact ImpProof3.sum_prints. Qed.
Print Assumptions C98_sum.

(** A function that writes and assigns, called in a loop. *)
Theorem C98_count : forall fmt warn_ input n k,
  prints fmt warn_ input "x:{Pi i+:a}La{(x b)}i" [str_of_Z n; str_of_Z k] (lines k 0 (S (Z.to_nat n))).
Proof. exact ImpProof3.count_prints. Qed.
Print Assumptions C98_count.

Example C98_ex :
  output_of "Wb{x:a%b a:b b:x}a" ["1071"; "462"] = Some (s_ "21" ++ [10%N])
  /\ output_of "Fy,a{i+:y}i" ["11"] = Some (s_ "55" ++ [10%N])
  /\ output_of "x:{Pi i+:a}La{(x b)}i" ["2"; "7"]
     = Some (s_ "0" ++ [10%N] ++ s_ "7" ++ [10%N] ++ s_ "14" ++ [10%N]).
Proof. vm_compute. auto. Qed.
(** The conditions of commands, operands of [&] and [?], and functions that are
    mapped may have effects too. *)
Example C98_effects : forall fmt warn_ input,
  prints fmt warn_ input "{Oa}M3,5 x:2&Oi" [] (s_ "340" ++ s_ "0" ++ [10%N]).
Proof.
  intros fmt warn_ input.
  assert (P : program_of "{Oa}M3,5 x:2&Oi"
     (PBlock [papp "M" [TApp op_block [TBlk [papp "O" [pname (s_ "a")]]];
                        papp "," [TTok (Tok KNumber (s_ "3")); TTok (Tok KNumber (s_ "5"))]]]
        (papp ":" [pname (s_ "x"); papp "&" [TTok (Tok KNumber (s_ "2")); papp "O" [pname (s_ "i")]]]))).
  { do 4 eexists. split; [vm_compute; reflexivity|]. split; [vm_compute; reflexivity|].
    split; [discriminate|]. vm_compute. repeat constructor. }
  set (g := PBlock [] (papp "O" [pname (s_ "a")])).
  assert (Og : forall w z, invokes w g [scal_Z z] (shown (w_fmt w) (scal_Z z)) w (scal_Z z)).
  { intros w z. apply (invokes_function w [] _ _ [] w (bound g [scal_Z z]) _ w (bound g [scal_Z z])); [constructor|].
    apply (evaluates_output _ w _ _ [] w _ (scal_Z z)). apply evaluates_value.
    exact (hv_local w _ (bound g [scal_Z z]) 97%N ltac:(cbn; tauto)). }
  eapply (C98_program _ fmt warn_ input [] _ (s_ "340") _ (scal_Z 0) P).
  match goal with |- invokes ?w ?F _ _ _ _ => set (w0 := w); set (F0 := F) end.
  apply (invokes_function w0 _ _ _ (s_ "34") w0 (bound F0 []) (s_ "0") (know (s_ "x") (scal_Z 0) w0) (bound F0 [])).
  - apply (runs_cons _ _ _ _ _ (s_ "34") w0 (bound F0 []) []); [|constructor].
    apply runs_expression with (p := PList [scal_Z 3; scal_Z 4]).
    apply (evaluates_map _ w0 _ _ _ [] w0 (bound F0 []) g (PRange (Some 3) (Some 5)) [scal_Z 3; scal_Z 4] (s_ "34")).
    + apply (evaluates_more _ w0 _ _ _ [] w0 (bound F0 []) g [] w0 (bound F0 [])).
      { apply evaluates_value. exact (hv_function w0 _ _ [] (papp "O" [pname (s_ "a")]) (expression_app _ _)). }
      apply (evaluates_more _ w0 _ _ _ [] w0 (bound F0 []) _ [] w0 (bound F0 [])); [|constructor].
      apply evaluates_value. apply (hv_app w0 _ _ "," _ [scal_Z 3; scal_Z 5]).
      * eexists. split; [vm_compute; reflexivity|constructor; reflexivity].
      * repeat (constructor; [apply hv_literal; [reflexivity|discriminate|reflexivity]|]). constructor.
      * vm_compute. reflexivity.
    + exact (elems_range (Some 3) 5).
    + apply (invokes_more w0 g (scal_Z 3) _ (s_ "3") w0 (scal_Z 3) (s_ "4")); [exact (Og w0 3)|].
      apply (invokes_more w0 g (scal_Z 4) _ (s_ "4") w0 (scal_Z 4) []); [exact (Og w0 4)|]. constructor.
  - apply (evaluates_assign _ w0 _ _ _ (s_ "0") w0 (bound F0 []) (scal_Z 0)).
    + apply (evaluates_and _ w0 _ _ _ [] w0 (bound F0 []) (scal_Z 2) (s_ "0")).
      * apply evaluates_value. apply hv_literal; [reflexivity|discriminate|reflexivity].
      * exact (FilterProof.counts_int 2).
      * apply (evaluates_output _ w0 _ _ [] w0 _ (scal_Z 0)). apply evaluates_value. apply hv_global.
        vm_compute. reflexivity.
    + apply sets_global. apply ImpProof3.plain_letter; [reflexivity|]. cbn. intuition discriminate.
Qed.

(** ** C99 *)

(** [$+,a] adds up the integers below [a]. *)
Theorem C99_total : forall fmt warn_ input n, 0 <= n ->
  prints fmt warn_ input "$+,a" [str_of_Z n] (str_of_Z (n * (n - 1) / 2) ++ [10%N]).
Proof. exact ImpProof4.total_prints. Qed.
Print Assumptions C99_total.

(** [$+a] adds up the digits of [a], however many, leading zeros included. *)
Theorem C99_digits : forall fmt warn_ input ds, Forall (fun c => 48 <= c <= 57)%N ds ->
  prints fmt warn_ input "$+a" [ds] (str_of_Z (fold_right Z.add 0 (map (fun c => Z.of_N c - 48) ds)) ++ [10%N]).
Proof. exact ImpProof4.digits_print. Qed.
Print Assumptions C99_digits.

(** [$*\,a] is the factorial; that of 0 is the value of a fold over nothing. *)
Theorem C99_factorial : forall fmt warn_ input n,
  prints fmt warn_ input "$*\,a" [str_of_Z (Z.of_nat n)] (str_of_Z (Z.of_nat (fact n)) ++ [10%N]).
Proof. exact ImpProof4.product_prints. Qed.
Print Assumptions C99_factorial.

(** [\$+,a] lists the triangular numbers. *)
Theorem C99_running : forall fmt warn_ input n, 0 < n ->
  prints fmt warn_ input "\$+,a" [str_of_Z n]
    (listing fmt (PList (map (fun k => scal_Z (k * (k + 1) / 2)) (ints_from 0 (Z.to_nat n)))) ++ [10%N]).
Proof. exact ImpProof4.running_prints. Qed.
Print Assumptions C99_running.

Example C99_ex :
  output_of "$+,a" ["11"] = Some (s_ "55" ++ [10%N])
  /\ output_of "$+a" ["0907"] = Some (s_ "16" ++ [10%N])
  /\ output_of "$*\,a" ["6"] = Some (s_ "720" ++ [10%N])
  /\ output_of "$*\,a" ["0"] = Some (s_ "1" ++ [10%N])
  /\ output_of "\$+,a" ["5"] = Some (s_ "013610" ++ [10%N]).
Proof. vm_compute. auto 8. Qed.

(** ** C100 *)

(** [{y%a}FN\,Ya] lists the divisors of [a]: [Y] assigns while the operand of
    [\,] is evaluated, before the function is called. *)
Theorem C100_divisors : forall fmt warn_ input n,
  prints fmt warn_ input "{y%a}FN\,Ya" [str_of_Z n] (listing fmt (PList (map scal_Z (divisors n))) ++ [10%N]).
Proof. exact ImpProof5.divisors_print. Qed.
Print Assumptions C100_divisors.

Theorem C100_sum : forall fmt warn_ input n,
  prints fmt warn_ input "$+({y%a}FN\,Ya)" [str_of_Z n] (str_of_Z (fold_right Z.add 0 (divisors n)) ++ [10%N]).
Proof. exact ImpProof5.sigma_prints. Qed.
Print Assumptions C100_sum.

(** The numbers listed are the positive divisors, once each. *)
Theorem C100_list : forall n, 0 < n ->
  (forall d, In d (divisors n) <-> 0 < d /\ (d | n)) /\ NoDup (divisors n).
Proof. intros n H. split; [intros d; apply ImpProof5.divisors_spec; exact H|apply ImpProof5.divisors_nodup]. Qed.
Print Assumptions C100_list.

(** [#({y%a}FN\,Ya)] tells primes: it prints 2 for them and another number for
    other positive integers. *)
Theorem C100_prime : forall fmt warn_ input n, 0 < n ->
  exists k, prints fmt warn_ input "#({y%a}FN\,Ya)" [str_of_Z n] (str_of_Z k ++ [10%N])
    /\ (k = 2 <-> prime n).
Proof.
  intros fmt warn_ input n H. exists (Z.of_nat (length (divisors n))).
  split; [apply ImpProof5.number_prints|]. rewrite (ImpProof5.prime_divisors n H). lia.
Qed.
Print Assumptions C100_prime.

Example C100_ex :
  output_of "{y%a}FN\,Ya" ["12"] = Some (s_ "1234612" ++ [10%N])
  /\ output_of "$+({y%a}FN\,Ya)" ["12"] = Some (s_ "28" ++ [10%N])
  /\ output_of "#({y%a}FN\,Ya)" ["13"] = Some (s_ "2" ++ [10%N])
  /\ output_of "#({y%a}FN\,Ya)" ["12"] = Some (s_ "6" ++ [10%N]).
Proof. vm_compute. auto 8. Qed.

(** [i] and [o] start as 0 and 1; each round adds [i] to [o] and swaps them. *)
Theorem C101_fib : forall fmt warn_ input n,
  prints fmt warn_ input "La{o+:i i::o}i" [str_of_Z n] (str_of_Z (fib (Z.to_nat n)) ++ [10%N]).
Proof. exact ImpProof6.fib_prints. Qed.
Print Assumptions C101_fib.

Theorem C101_power : forall fmt warn_ input x n, 0 <= n ->
  prints fmt warn_ input "Lb{o*:a}o" [str_of_Z x; str_of_Z n] (str_of_Z (x ^ n) ++ [10%N]).
Proof. exact ImpProof6.power_prints. Qed.
Print Assumptions C101_power.

(** A loop that ends when a variable has been counted down. *)
Theorem C101_down : forall fmt warn_ input n, 0 <= n ->
  prints fmt warn_ input "Wa{PaDa}" [str_of_Z n] (lines (-1) n (Z.to_nat n)).
Proof. exact ImpProof6.down_prints. Qed.
Print Assumptions C101_down.

Example C101_ex :
  output_of "La{o+:i i::o}i" ["10"] = Some (s_ "55" ++ [10%N])
  /\ output_of "Lb{o*:a}o" ["-3"; "5"] = Some (s_ "-243" ++ [10%N])
  /\ output_of "Wa{PaDa}" ["3"] = Some (s_ "3" ++ [10%N] ++ s_ "2" ++ [10%N] ++ s_ "1" ++ [10%N]).
Proof. vm_compute. auto. Qed.

(** A call of a function with statements that never end does not end. *)
Theorem C102_call : forall s f sts r vs args,
  den (st_heap s) f (PBlock sts r) -> dens (st_heap s) vs args ->
  hangs_all (PBlock sts r) (setting_of s) (bound (PBlock sts r) args) sts ->
  forall n, i_call (run n) f vs s = Fuel.
Proof. exact ImpProof7.call_never. Qed.
Print Assumptions C102_call.

Theorem C102_program : forall text fmt warn_ input args sts r,
  program_of text (PBlock sts r) ->
  hangs_all (PBlock sts r) (start_setting fmt) (bound (PBlock sts r) (map PScal args)) sts ->
  never_ends fmt warn_ input text args.
Proof. exact ImpProof7.program_never. Qed.
Print Assumptions C102_program.

(** Counting up ends at 0 or never. *)
Theorem C102_up : forall fmt warn_ input n,
  (n <= 0 -> prints fmt warn_ input "Wa{Ua}" [str_of_Z n] []) /\
  (0 < n -> never_ends fmt warn_ input "Wa{Ua}" [str_of_Z n]).
Proof. intros. split; [apply ImpProof7.up_ends|apply ImpProof7.up_never]. Qed.
Print Assumptions C102_up.

(** The argument decides whether the program ends. *)
Theorem C102_choice : forall fmt warn_ input t,
  (counts (PScal t) false -> prints fmt warn_ input "Ia{W1{Oi}}" [t] []) /\
  (counts (PScal t) true -> never_ends fmt warn_ input "Ia{W1{Oi}}" [t]).
Proof. intros. split; [apply ImpProof7.choice_ends|apply ImpProof7.choice_never]. Qed.
Print Assumptions C102_choice.

Example C102_ex :
  output_of "Wa{Ua}" ["-3"] = Some []
  /\ run_text 60 FmtNone false (Exec.lines []) (s_ "Wa{Ua}") [s_ "3"] = Fuel
  /\ output_of "Ia{W1{Oi}}" ["0.0"] = Some []
  /\ counts (PScal (s_ "no")) true /\ counts (PScal (s_ "0.0")) false.
Proof. vm_compute. auto 8. Qed.

(** A condition that counts. *)
Theorem C103_below : forall fmt warn_ input n,
  prints fmt warn_ input "W Ui<a{Pi}" [str_of_Z n] (lines 1 1 (Z.to_nat (n - 1))).
Proof. exact ImpProof8.below_prints. Qed.
Print Assumptions C103_below.

Theorem C103_root : forall fmt warn_ input n, 0 <= n ->
  prints fmt warn_ input "Ta<i*i{Ui}i-1" [str_of_Z n] (str_of_Z (Z.sqrt n) ++ [10%N]).
Proof. exact ImpProof8.root_prints. Qed.
Print Assumptions C103_root.

Example C103_ex :
  output_of "W Ui<a{Pi}" ["3"] = Some (s_ "1" ++ [10%N] ++ s_ "2" ++ [10%N])
  /\ output_of "W Ui<a{Pi}" ["-3"] = Some []
  /\ output_of "Ta<i*i{Ui}i-1" ["99"] = Some (s_ "9" ++ [10%N])
  /\ output_of "Ta<i*i{Ui}i-1" ["100"] = Some (s_ "10" ++ [10%N]).
Proof. vm_compute. auto. Qed.
