(** * Properties C87-C91: PK, RE, doing something for each match, Y, == *)

From Coq Require Import String List NArith ZArith Bool Arith Lia Permutation.
From Verif Require Import PyStr PyNum Tokens OpFun OpTable Unparse PTypes Ops Apply Spec Heap Exec
                          SpecHeap SpecExec SpecScan SpecMain SpecVars SpecAlias SpecMatch SpecMap
                          SpecPick SpecEach SpecRec PropExec.
From Verif Require PickProof EachProof RecProof EqProof LoopProof.
Import ListNotations.
Local Open Scope string_scope.
Local Open Scope list_scope.
Local Open Scope Z_scope.

(** ** C87: PK *)

(** The item at the index is returned and is no longer in the variable. *)
Theorem C87_pick : forall s x e p pi i a q,
  ordinary s x -> st_scopes s <> [] -> var s x p ->
  means s e pi -> index_value pi i -> picked p i a q ->
  exists v s', gives s (app "PK" [name x; e]) v s' /\ den (st_heap s') v a /\
    var s' x q /\ changes_only x s s' /\ st_scopes s' <> [].
Proof. exact PickProof.pick_does. Qed.
Print Assumptions C87_pick.

(** Every index is one of an item, if there are items at all. *)
Theorem C87_total : forall p l i,
  elems p l -> l <> [] ->
  exists before a after q, picked p i a q /\ l = before ++ a :: after
    /\ elems q (before ++ after) /\ i mod Z.of_nat (length l) = Z.of_nat (length before).
Proof. exact PickProof.pick_exists. Qed.
Print Assumptions C87_total.

(** From an empty sequence nothing is taken. *)
Theorem C87_empty : forall s x e p pi i,
  ordinary s x -> var s x p -> means s e pi -> index_value pi i -> elems p [] ->
  exists s', gives s (app "PK" [name x; e]) HNil s' /\ only_adds s s'.
Proof. exact PickProof.pick_empty. Qed.
Print Assumptions C87_empty.

(** Whatever the indices, nothing is taken twice and nothing gets lost. *)
Theorem C87_permutation : forall x s outs s2 q,
  pick_use x s outs s2 -> ordinary s x -> st_scopes s <> [] -> var s x (PList q) ->
  (length outs <= length q)%nat ->
  exists rest, var s2 x (PList rest) /\ Permutation q (outs ++ rest).
Proof. exact PickProof.pick_order. Qed.
Print Assumptions C87_permutation.

Example C87_case : picked (PList [whole 7; whole 8; whole 9]) (-2) (whole 8) (PList [whole 7; whole 9]).
Proof. apply (picked_list (-2) [whole 7] (whole 8) [whole 9]). reflexivity. Qed.
Example C87_ex : output_of "x:[7;8;9;10] O xPK5 O '- O xPKv O '- O x O '- y:3,6 O yPK7 O '- O y O '- y:3,6 O yPK3 O '- O y O '- z:""abc"" O zPK1 O '- z" []
  = Some (s_ "8-10-79-4-35-3-45-b-ac" ++ [10%N]).
Proof. vm_compute. reflexivity. Qed.

(** ** C88: RE *)

(** In a call of a function that function is running, *)
Theorem C88_entered : forall sts ret args ps s,
  dens (st_heap s) args ps ->
  exists s1, entered s (HBlock sts ret) ps s1 /\ running s1 (HBlock sts ret) /\
    forall v s', calls s (HBlock sts ret) args v s' <->
      exists s2 s3, function_body s1 sts s2 /\ gives s2 ret v s3 /\ left s3 s'.
Proof. exact LoopProof.call_runs. Qed.
Print Assumptions C88_entered.

(** and it is again after any expression or statement, whatever is called
    there, unless a TypeError was caught on the way. *)
Theorem C88_expression : forall s e v s' f,
  running s f -> gives s e v s' -> st_swallowed s' = st_swallowed s -> running s' f.
Proof. exact RecProof.gives_running. Qed.
Print Assumptions C88_expression.
Theorem C88_statement : forall s t r s' f,
  running s f -> executes s t r s' -> st_swallowed s' = st_swallowed s -> running s' f.
Proof. exact RecProof.executes_running. Qed.
Print Assumptions C88_statement.

(** RE calls it with the operand as the only argument. *)
Theorem C88_recurse : forall s e a s1 f u s',
  gives s e a s1 -> running s1 f -> gives s (app "RE" [e]) u s' <-> calls s1 f [a] u s'.
Proof. exact RecProof.recurse. Qed.
Print Assumptions C88_recurse.

Example C88_ex : output_of "z:{a<2?1a*RE(a-1)}(z 6)" []
  = Some (s_ "720" ++ [10%N]).
Proof. vm_compute. reflexivity. Qed.
Example C88_inner : output_of "z:{a>2?a.({a?a.RE(a-1)'.}a).RE(a-1)'!}(z 4)" []
  = Some (s_ "44321.3321.!" ++ [10%N]).
Proof. vm_compute. reflexivity. Qed.

(** ** C89: for each match *)

(** MR calls the function for each match from left to right with the match and
    its groups; during the call the match variables describe this match. *)
Theorem C89_map : forall s es vs s1 f raw fl t ps,
  is_function f -> operands s es vs s1 -> mr_operands (st_fmt s) (st_heap s1) raw fl t f vs ->
  sound_pattern (st_fmt s) raw fl t -> run_op (st_fmt s) "@" [PScal t; PPat raw fl] = ret ps ->
  exists os tell, occurrences (st_fmt s) t raw fl os /\ telling tell os /\
    forall u s', gives s (app "MR" es) u s' <->
      exists rs s3, calls_told tell f (seq 0 (length os)) s1 rs s3 /\ makes_list rs s3 u s'.
Proof. exact EachProof.mr_calls. Qed.
Print Assumptions C89_map.

(** LR executes its body for each match. *)
Theorem C89_loop : forall s e1 e2 body v1 v2 s1 raw fl t ps,
  operands s [e1; e2] [v1; v2] s1 -> lr_operands (st_fmt s) (st_heap s1) raw fl t v1 v2 ->
  sound_pattern (st_fmt s) raw fl t -> run_op (st_fmt s) "@" [PScal t; PPat raw fl] = ret ps ->
  exists os tell, occurrences (st_fmt s) t raw fl os /\ telling tell os /\
    forall s', executes s (command_stmt "LR" [e1; e2; TBlk body]) None s' <->
      does_told tell body (seq 0 (length os)) s1 s'.
Proof. exact EachProof.lr_does. Qed.
Print Assumptions C89_loop.

(** R with a function puts the text of what the function returns in the place
    of each match. *)
Theorem C89_replace : forall s e1 e2 e3 x p f s1 raw fl t ps,
  is_function f -> operands s [e1; e2; e3] [x; p; f] s1 ->
  den (st_heap s1) x (PScal t) -> r_operand (st_fmt s) (st_heap s1) raw fl p ->
  sound_pattern (st_fmt s) raw fl t -> run_op (st_fmt s) "@" [PScal t; PPat raw fl] = ret ps ->
  exists os tell, occurrences (st_fmt s) t raw fl os /\ telling tell os /\
    forall u s', gives s (app "R" [e1; e2; e3]) u s' <->
      exists r s3, replaces_told tell f t 0 0 os s1 r s3 /\ makes_scalar r s3 u s'.
Proof. exact EachProof.r_calls. Qed.
Print Assumptions C89_replace.

Example C89_case : occurrences FmtNone (s_ "one, two") (s_ "(\w)\w") 0
  [Occ [] (s_ "on") (s_ "e, two") [Some (0, 1)%nat]; Occ (s_ "one, ") (s_ "tw") (s_ "o") [Some (5, 6)%nat]].
Proof. constructor; [repeat constructor|vm_compute; reflexivity..|intros _; vm_compute; reflexivity]. Qed.
Example C89_sound : sound_pattern FmtNone (s_ "(\w)\w") 0 (s_ "one, two").
Proof.
  right. split; [vm_compute; repeat constructor|]. split; [|eexists; vm_compute; reflexivity].
  intros c I. repeat (destruct I as [<-|I]; [vm_compute; discriminate|]). contradiction.
Qed.
Example C89_ex : output_of "O {b.$'.a}MR`(\w)\w`""one, two"" O '/ LR`(\w)\w`""one, two""{O $1.$`.'-} O '/ ""one, two""R`(\w)\w`{b.'x}" []
  = Some (s_ "oe, twoontotw/o-tone, -/oxe, txo" ++ [10%N]).
Proof. vm_compute. reflexivity. Qed.

(** ** C90: Y, YO, YP *)

Theorem C90_yank : forall s e v s1 p,
  gives s e v s1 -> den (st_heap s1) v p -> st_scopes s1 <> [] ->
  exists w s', gives s (app "Y" [e]) w s' /\ den (st_heap s') w p /\ var s' (s_ "y") p
    /\ changes_only (s_ "y") s1 s'.
Proof. exact RecProof.yank_does. Qed.
Print Assumptions C90_yank.
Theorem C90_output : forall s e v s1 p,
  gives s e v s1 -> den (st_heap s1) v p -> p <> PNil -> st_scopes s1 <> [] ->
  exists w s', gives s (app "YO" [e]) w s' /\ den (st_heap s') w p /\ var s' (s_ "y") p
    /\ changes_only (s_ "y") (printed (listing (st_fmt s1) p) s1) s'.
Proof. exact RecProof.yank_output. Qed.
Print Assumptions C90_output.
Theorem C90_print : forall s e v s1 p,
  gives s e v s1 -> den (st_heap s1) v p -> p <> PNil -> st_scopes s1 <> [] ->
  exists w s', gives s (app "YP" [e]) w s' /\ den (st_heap s') w p /\ var s' (s_ "y") p
    /\ changes_only (s_ "y") (printed (listing (st_fmt s1) p ++ [10%N]) s1) s'.
Proof. exact RecProof.yank_print. Qed.
Print Assumptions C90_print.
(** Nil is stored but not printed. *)
Theorem C90_nil : forall text s e v s1, In text ["Y"; "YO"; "YP"] ->
  gives s e v s1 -> den (st_heap s1) v PNil -> st_scopes s1 <> [] ->
  exists w s', gives s (app text [e]) w s' /\ den (st_heap s') w PNil /\ var s' (s_ "y") PNil
    /\ changes_only (s_ "y") s1 s'.
Proof. exact RecProof.yank_nil. Qed.
Print Assumptions C90_nil.
Example C90_ex : output_of "YP 2+3 YO y*2 Y y+1 y" []
  = Some (s_ "5" ++ [10%N] ++ s_ "1011" ++ [10%N]).
Proof. vm_compute. reflexivity. Qed.

(** ** C91: == *)

(** On values without Blocks == decides whether they are the same. *)
Theorem C91_same : forall fmt a b, plain a = true \/ plain b = true ->
  (a = b -> run_op fmt "==" [a; b] = ret (PScal (s_ "1")))
  /\ (a <> b -> run_op fmt "==" [a; b] = ret (PScal (s_ "0"))).
Proof. exact EqProof.same_plain. Qed.
Print Assumptions C91_same.
(** On all values it is an equivalence. *)
Theorem C91_equivalence : forall fmt,
  let says a b t := run_op fmt "==" [a; b] = ret (PScal (s_ t)) in
  (forall a, says a a "1") /\ (forall a b t, says a b t -> says b a t)
  /\ (forall a b c, says a b "1" -> says b c "1" -> says a c "1")
  /\ (forall a b, says a b "1" \/ says a b "0").
Proof. exact EqProof.same_equiv. Qed.
Print Assumptions C91_equivalence.
Example C91_ex : output_of "[1==1.0 [1;""a""]==[1;""a""] 3,5==[3;4] (,5)==0,5 {a+1}=={a + 1} {a}=={b} `a`==""a""]" []
  = Some (s_ "0100100" ++ [10%N]).
Proof. vm_compute. reflexivity. Qed.
