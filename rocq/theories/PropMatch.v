(** * Properties of the match variables *)

From Coq Require Import String List NArith ZArith Bool Arith Lia.
From Verif Require Import PyStr PyRe PyNum Tokens OpFun OpTable Unparse
                          PTypes Ops UserRe OpsSeq Apply PFacts RunOp Heap Exec SpecHeap HeapProof
                          SpecScan SpecVars VarProof PureProof
                          SpecRegex SpecMatch ReSound ReScan ReShift RegexProof RegexScan MatchProof PropExec.
Import ListNotations.
Local Open Scope string_scope.
Local Open Scope list_scope.

(** ** C76: the match variables describe the match *)

Theorem C76_first s e1 e2 v1 v2 s1 raw f t p :
  operands s [e1; e2] [v1; v2] s1 -> den (st_heap s1) v1 (PScal t) -> den (st_heap s1) v2 (PPat raw f) ->
  sound_pattern (st_fmt s) raw f t -> run_op (st_fmt s) "~" [PScal t; PPat raw f] = ret p ->
  exists v s', gives s (app "~" [e1; e2]) v s' /\ den (st_heap s') v p
    /\ ((p = PNil /\ only_adds s1 s')
        \/ exists before m after groups,
             p = PScal m /\ t = before ++ m ++ after
             /\ run_op (st_fmt s) "@?" [PScal t; PPat raw f] = ret (scal_Z (Z.of_nat (length before)))
             /\ (raw <> [] -> exists rest, run_op (st_fmt s) "^" [PScal t; PPat raw f]
                                = ret (PList (PScal before :: map (written t) groups ++ rest)))
             /\ describe s' before m after groups /\ only_matches s1 s').
Proof.
  intros Os D1 D2 Sp E. destruct (sound_compiles _ _ _ _ Sp) as (r & n & Co & Cb & Spl).
  pose proof (usable_first _ _ _ _ _ E) as Us.
  assert (Ds : dens (st_heap s1) [v1; v2] [PScal t; PPat raw f]) by (repeat constructor; assumption).
  assert (Sr : searching "~" F_FIRSTMATCH) by (eexists; repeat (split; [reflexivity|]); exact I).
  destruct (searched "~" F_FIRSTMATCH _ [e1; e2] s v1 v2 s1 _ _ p Sr eq_refl Os Ds eq_refl eq_refl eq_refl)
    as (v & bs & h & G & Dv & M & Nn & T).
  { rewrite <- E, op_first. reflexivity. }
  exists v, (upd bs h s1). split; [exact G|]. split; [exact Dv|].
  change (regex_hits F_FIRSTMATCH [PScal t; PPat raw f]) with (hits_search raw f t) in *.
  rewrite (hits_search_eq raw f t r n Us Cb) in *.
  rewrite (run_FIRST (st_fmt s) raw f t _ _ Us Cb) in E. rewrite (run_FIND (st_fmt s) raw f t _ _ Us Cb).
  rewrite search_bracket in *. destruct (search f r t) as [m|] eqn:Em; cbn [option_map] in *.
  - right. destruct (search_in _ _ _ _ Em) as (ms & Ems & It). destruct (cut_text t m It) as (Ec & L1 & L2).
    exists (firstn (fd_start m) t), (match_text t m), (skipn (fd_end m) t), (places m n).
    split; [injection E as <-; reflexivity|]. split; [symmetry; exact Ec|].
    split; [rewrite L1; reflexivity|]. split.
    { intros Ne. specialize (Spl Ne). rewrite Ems in Spl. destruct (split_first t n m ms) as (rest & Er).
      exists rest. rewrite Spl, Er. reflexivity. }
    split; [|apply upd_matches; exact M]. apply told_describe; [exact It|]. apply (T []). reflexivity.
  - left. rewrite (Nn eq_refl). split; [injection E as <-; reflexivity|apply upd_adds].
Qed.
Print Assumptions C76_first.

Theorem C76_place s e1 e2 v1 v2 s1 raw f t p :
  operands s [e1; e2] [v1; v2] s1 -> den (st_heap s1) v1 (PScal t) -> den (st_heap s1) v2 (PPat raw f) ->
  sound_pattern (st_fmt s) raw f t -> run_op (st_fmt s) "@?" [PScal t; PPat raw f] = ret p ->
  exists v s', gives s (app "@?" [e1; e2]) v s' /\ den (st_heap s') v p
    /\ ((p = PNil /\ only_adds s1 s')
        \/ exists before m after groups,
             p = scal_Z (Z.of_nat (length before)) /\ t = before ++ m ++ after
             /\ run_op (st_fmt s) "~" [PScal t; PPat raw f] = ret (PScal m)
             /\ (raw <> [] -> exists rest, run_op (st_fmt s) "^" [PScal t; PPat raw f]
                                = ret (PList (PScal before :: map (written t) groups ++ rest)))
             /\ describe s' before m after groups /\ only_matches s1 s').
Proof.
  intros Os D1 D2 Sp E. destruct (sound_compiles _ _ _ _ Sp) as (r & n & Co & Cb & Spl).
  pose proof (usable_find _ _ _ _ _ E) as Us.
  assert (Ds : dens (st_heap s1) [v1; v2] [PScal t; PPat raw f]) by (repeat constructor; assumption).
  assert (Sr : searching "@?" F_FIND) by (eexists; repeat (split; [reflexivity|]); exact I).
  destruct (searched "@?" F_FIND _ [e1; e2] s v1 v2 s1 _ _ p Sr eq_refl Os Ds eq_refl eq_refl eq_refl)
    as (v & bs & h & G & Dv & M & Nn & T).
  { rewrite <- E, op_find. reflexivity. }
  exists v, (upd bs h s1). split; [exact G|]. split; [exact Dv|].
  change (regex_hits F_FIND [PScal t; PPat raw f]) with (hits_search raw f t ++ []) in *.
  rewrite (hits_search_eq raw f t r n Us Cb) in *.
  rewrite (run_FIND (st_fmt s) raw f t _ _ Us Cb) in E. rewrite (run_FIRST (st_fmt s) raw f t _ _ Us Cb).
  rewrite search_bracket in *. destruct (search f r t) as [m|] eqn:Em; cbn [option_map] in *.
  - right. destruct (search_in _ _ _ _ Em) as (ms & Ems & It). destruct (cut_text t m It) as (Ec & L1 & L2).
    exists (firstn (fd_start m) t), (match_text t m), (skipn (fd_end m) t), (places m n).
    split; [rewrite L1; injection E as <-; reflexivity|]. split; [symmetry; exact Ec|].
    split; [reflexivity|]. split.
    { intros Ne. specialize (Spl Ne). rewrite Ems in Spl. destruct (split_first t n m ms) as (rest & Er).
      exists rest. rewrite Spl, Er. reflexivity. }
    split; [|apply upd_matches; exact M]. apply told_describe; [exact It|]. apply (T []). reflexivity.
  - left. rewrite (Nn eq_refl). split; [injection E as <-; reflexivity|apply upd_adds].
Qed.
Print Assumptions C76_place.

Theorem C76_whole s e1 e2 v1 v2 s1 raw f t p :
  operands s [e1; e2] [v1; v2] s1 -> den (st_heap s1) v1 (PScal t) -> den (st_heap s1) v2 (PPat raw f) ->
  sound_pattern (st_fmt s) raw f t -> run_op (st_fmt s) "~=" [PScal t; PPat raw f] = ret p ->
  exists v s', gives s (app "~=" [e1; e2]) v s' /\ den (st_heap s') v p
    /\ ((p = PScal (s_ "0") /\ only_adds s1 s')
        \/ exists groups, p = PScal (s_ "1") /\ describe s' [] t [] groups /\ only_matches s1 s').
Proof.
  intros Os D1 D2 Sp E. destruct (sound_compiles _ _ _ _ Sp) as (r & n & Co & Cb & _).
  pose proof (usable_full _ _ _ _ _ E) as Us.
  assert (Ds : dens (st_heap s1) [v1; v2] [PScal t; PPat raw f]) by (repeat constructor; assumption).
  assert (Sr : searching "~=" F_FULLMATCH) by (eexists; repeat (split; [reflexivity|]); exact I).
  destruct (searched "~=" F_FULLMATCH _ [e1; e2] s v1 v2 s1 _ _ p Sr eq_refl Os Ds eq_refl eq_refl eq_refl)
    as (v & bs & h & G & Dv & M & Nn & T).
  { rewrite <- E, op_full. reflexivity. }
  exists v, (upd bs h s1). split; [exact G|]. split; [exact Dv|].
  change (regex_hits F_FULLMATCH [PScal t; PPat raw f]) with (hits_full raw f t) in *.
  rewrite (hits_full_eq raw f t r n Us Cb) in *.
  rewrite (run_FULL (st_fmt s) raw f t _ _ Us Cb), fullmatch_bracket in E.
  destruct (fullmatch f r t) as [m|] eqn:Em; cbn [option_map] in *.
  - right. exists (places m n). split; [injection E as <-; reflexivity|].
    split; [|apply upd_matches; exact M].
    destruct (fullmatch_in _ _ _ _ Em) as (It & S0 & S1).
    pose proof (told_describe (upd bs h s1) t m n It (T [] _ eq_refl)) as Q.
    unfold match_text in Q. rewrite S0, S1, skipn_all in Q. cbn [firstn] in Q.
    replace (span t 0 (length t)) with t in Q; [exact Q|].
    unfold span. cbn [skipn]. rewrite Nat.sub_0_r. symmetry. apply firstn_all.
  - left. rewrite (Nn eq_refl). split; [injection E as <-; reflexivity|apply upd_adds].
Qed.
Print Assumptions C76_whole.

(** The last of all matches. *)
Theorem C76_all s text e1 e2 v1 v2 s1 a1 a2 raw f t p ms :
  (text = "@*" /\ a1 = PScal t /\ a2 = PPat raw f) \/ (text = "N" /\ a1 = PPat raw f /\ a2 = PScal t) ->
  operands s [e1; e2] [v1; v2] s1 -> den (st_heap s1) v1 a1 -> den (st_heap s1) v2 a2 ->
  sound_pattern (st_fmt s) raw f t -> run_op (st_fmt s) text [a1; a2] = ret p ->
  run_op (st_fmt s) "@" [PScal t; PPat raw f] = ret (PList ms) ->
  exists v s', gives s (app text [e1; e2]) v s' /\ den (st_heap s') v p
    /\ ((ms = [] /\ only_adds s1 s')
        \/ exists before m after groups ms' starts,
             ms = ms' ++ [PScal m] /\ t = before ++ m ++ after
             /\ run_op (st_fmt s) "@*" [PScal t; PPat raw f]
                = ret (PList (starts ++ [scal_Z (Z.of_nat (length before))]))
             /\ describe s' before m after groups /\ only_matches s1 s').
Proof.
  intros Cs Os D1 D2 Sp E Ea. destruct (sound_compiles _ _ _ _ Sp) as (r & n & Co & Cb & _).
  pose proof (usable_at _ _ _ _ _ Ea) as Us.
  assert (Ds : dens (st_heap s1) [v1; v2] [a1; a2]) by (repeat constructor; assumption).
  assert (exists fn, searching text fn /\ lone a1 = true /\ lone a2 = true
            /\ pure_fun (st_fmt s) fn [a1; a2] = Some (ret p)
            /\ regex_hits fn [a1; a2] = hits_iter raw f t) as (fn & Sr & L1 & L2 & Pf & Hs).
  { destruct Cs as [(-> & -> & ->)|(-> & -> & ->)]; [exists F_FINDALL|exists F_IN].
    - split; [eexists; repeat (split; [reflexivity|]); exact I|]. split; [reflexivity|]. split; [reflexivity|].
      split; [rewrite <- E, op_findall; reflexivity|]. exact (app_nil_r (hits_iter raw f t)).
    - split; [eexists; repeat (split; [reflexivity|]); exact I|]. split; [reflexivity|]. split; [reflexivity|].
      split; [rewrite <- E, op_in; reflexivity|]. exact (app_nil_r (hits_iter raw f t)). }
  destruct (searched text fn _ [e1; e2] s v1 v2 s1 _ _ p Sr eq_refl Os Ds L1 L2 eq_refl Pf)
    as (v & bs & h & G & Dv & M & Nn & T).
  exists v, (upd bs h s1). split; [exact G|]. split; [exact Dv|].
  rewrite Hs, (hits_iter_eq raw f t r n Us Cb) in *.
  rewrite (run_AT (st_fmt s) raw f t _ _ Us Cb), matches_bracket, map_map in Ea.
  rewrite (run_FINDALL (st_fmt s) raw f t _ _ Us Cb), matches_bracket, map_map.
  injection Ea as <-. pose proof (matches_in f r t) as It.
  destruct (matches f r t) as [|m0 l0] eqn:Em using rev_ind.
  - left. rewrite (Nn eq_refl). split; [reflexivity|apply upd_adds].
  - right. apply Forall_app in It. destruct It as [_ It]. inversion It as [|? ? Im _]; subst.
    destruct (cut_text t m0 Im) as (Ec & Q1 & Q2).
    exists (firstn (fd_start m0) t), (match_text t m0), (skipn (fd_end m0) t), (places m0 n).
    eexists. eexists. split; [rewrite map_app; reflexivity|]. split; [symmetry; exact Ec|].
    split; [rewrite map_app, Q1; reflexivity|].
    split; [|apply upd_matches; exact M]. apply told_describe; [exact Im|].
    eapply T. rewrite map_app. reflexivity.
Qed.
Print Assumptions C76_all.

Theorem C76_matches s e1 e2 raw f t ms :
  means s e1 (PScal t) -> means s e2 (PPat raw f) ->
  sound_pattern (st_fmt s) raw f t -> run_op (st_fmt s) "@" [PScal t; PPat raw f] = ret (PList ms) ->
  exists v s', gives s (app "@" [e1; e2]) v s' /\ den (st_heap s') v (PList ms)
    /\ ((ms = [] /\ only_adds s s')
        \/ exists before m after groups ms' starts,
             ms = ms' ++ [PScal m] /\ t = before ++ m ++ after
             /\ run_op (st_fmt s) "@*" [PScal t; PPat raw f]
                = ret (PList (starts ++ [scal_Z (Z.of_nat (length before))]))
             /\ describe s' before m after groups /\ only_matches s s').
Proof.
  intros M1 M2 Sp Ea. destruct (sound_compiles _ _ _ _ Sp) as (r & n & Co & Cb & _).
  pose proof (usable_at _ _ _ _ _ Ea) as Us.
  destruct (at_run s e1 e2 t raw f r n Us Cb M1 M2) as (s1 & v & bs & h & A & G & Dv & M & Nn & T).
  exists v, (upd bs h s1). split; [exact G|].
  rewrite (run_AT (st_fmt s) raw f t _ _ Us Cb), matches_bracket, map_map in Ea.
  rewrite (run_FINDALL (st_fmt s) raw f t _ _ Us Cb), matches_bracket, map_map.
  injection Ea as <-. split; [exact Dv|]. pose proof (matches_in f r t) as It.
  destruct (matches f r t) as [|m0 l0] eqn:Em using rev_ind.
  - left. rewrite (Nn eq_refl). split; [reflexivity|]. apply adv_adds. exact A.
  - right. apply Forall_app in It. destruct It as [_ It]. inversion It as [|? ? Im _]; subst.
    destruct (cut_text t m0 Im) as (Ec & Q1 & Q2).
    exists (firstn (fd_start m0) t), (match_text t m0), (skipn (fd_end m0) t), (places m0 n).
    eexists. eexists. split; [rewrite map_app; reflexivity|]. split; [symmetry; exact Ec|].
    split; [rewrite map_app, Q1; reflexivity|].
    split; [|apply adv_matches; assumption]. apply told_describe; [exact Im|]. eapply T. reflexivity.
Qed.
Print Assumptions C76_matches.

(** A Pattern that meets the hypotheses; the group in the middle does not take
    part in the match. *)
Definition two_letters : str := s_ "(\w)(x)?(\w), ".
Example C76_case : sound_pattern FmtNone two_letters 0 (s_ "one, two").
Proof.
  right. split; [vm_compute; repeat constructor|]. split; [|eexists; vm_compute; reflexivity].
  intros c I. repeat (destruct I as [<-|I]; [vm_compute; discriminate|]). contradiction.
Qed.
Example C76_program :
  output_of "s:""one, two"" s~`(\w)(x)?(\w), ` P RP[$`$0$'] P RP[$($)] P RP$$ P RP[$1$2$3$4] P RP[$[$]]" []
  = Some (s_ "[""o"";""ne, "";""two""]" ++ [10%N] ++ s_ "[1;5]" ++ [10%N] ++ s_ "[""n"";();""e""]" ++ [10%N]
          ++ s_ "[""n"";();""e"";()]" ++ [10%N] ++ s_ "[[1;-1;2];[2;-1;3]]" ++ [10%N]
          ++ s_ "[[1;-1;2];[2;-1;3]]" ++ [10%N]).
Proof. vm_compute. reflexivity. Qed.
(** No match: the variables still describe the match before. *)
Example C76_kept : output_of """ab""~`b` ""xy""~`b` P $0" [] = Some (s_ "b" ++ [10%N] ++ s_ "b" ++ [10%N]).
Proof. vm_compute. reflexivity. Qed.

(** A regex that leaves the bracket put around it: $0 is not the match. *)
Theorem C76_bracket_refuted :
  run_op FmtNone "~" [PScal (s_ "ab"); PPat (s_ "a)(b") 0] = ret (PScal (s_ "ab"))
  /\ output_of """ab""~`a)(b` P $0" [] = Some (s_ "a" ++ [10%N] ++ s_ "a" ++ [10%N]).
Proof. split; vm_compute; reflexivity. Qed.
Print Assumptions C76_bracket_refuted.
(** $0 is the last item of the result of [@], and changes together with it. *)
Theorem C76_shared_refuted :
  output_of "y:""abab""@`b` P $0 y@1@0:'Q P $0" []
  = Some (s_ "b" ++ [10%N] ++ s_ "Q" ++ [10%N] ++ s_ "Q" ++ [10%N]).
Proof. vm_compute. reflexivity. Qed.
Print Assumptions C76_shared_refuted.
