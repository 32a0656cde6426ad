(** * Doing something for each match of a Pattern *)

From Coq Require Import String List NArith ZArith Bool Arith Lia.
From Verif Require Import PyStr PyRe PyNum Tokens OpFun OpTable Unparse
                          PTypes Ops UserRe OpsSeq Apply Spec PFacts RunOp Heap Exec SpecHeap HeapProof
                          ExecRel ExecInv EvalProof
                          SpecScan SpecMain SpecVars VarProof PureProof
                          SpecRegex SpecMatch ReSound ReScan ReShift RegexProof RegexScan MatchProof
                          CtlProof LoopProof SpecMap MapProof SpecEach.
From Verif Require MainProof.
Import ListNotations.
Local Open Scope string_scope.
Local Open Scope list_scope.

Definition occ_of (t : str) (n : nat) (m : found) : occurrence :=
  Occ (firstn (fd_start m) t) (match_text t m) (skipn (fd_end m) t) (places m n).
Definition hit_of (t : str) (n : nat) (m : found) : hit := mkhit t (bracketed m) (S n).
Definition tell_hits (hs : list hit) (k : nat) (s : state) : list hval * state :=
  match nth_error hs k with
  | Some h => match assign_match h s with Ok gs s' => (gs, s') | _ => ([], s) end
  | None => ([], s)
  end.

Lemma tell_hit hs k h s : nth_error hs k = Some h ->
  assign_match h s = Ok (fst (tell_hits hs k s)) (snd (tell_hits hs k s)).
Proof.
  intros E. unfold tell_hits. rewrite E. destruct (assign_ok h s) as (bs & t & gs & -> & _). reflexivity.
Qed.

Section Matches.
  Variables (fmt : ofmt) (raw : str) (f : N) (t : str).
  Hypothesis Sp : sound_pattern fmt raw f t.
  Variable ps : pval.
  Hypothesis Ea : run_op fmt "@" [PScal t; PPat raw f] = ret ps.

  Lemma parts_split n ms : forall pos, Forall (in_text t) ms ->
    map (fun o => PScal (text_or_None o)) (split_from t n pos ms) = parts t pos (map (occ_of t n) ms).
  Proof.
    induction ms as [|m ms IH]; intros pos It; [reflexivity|].
    inversion It as [|? ? Im Ims]; subst. destruct (cut_text t m Im) as (_ & L1 & L2).
    cbn [split_from map parts]. rewrite map_app, (IH _ Ims). unfold occ_of at 1. cbn [oc_before].
    unfold oc_end. cbn [oc_before oc_match occ_of]. rewrite L1, L2. f_equal.
    change (oc_groups (occ_of t n m)) with (places m n). f_equal.
    unfold places. rewrite !map_map. apply map_ext. intros k. unfold group_text, written.
    destruct (cap k (fd_caps m)) as [[a b]|]; reflexivity.
  Qed.

  Lemma found_all : exists ms n,
    re_finditer raw f t = Some (map bracketed ms, S n)
    /\ Forall (in_text t) ms
    /\ occurrences fmt t raw f (map (occ_of t n) ms)
    /\ telling (tell_hits (map (hit_of t n) ms)) (map (occ_of t n) ms).
  Proof.
    destruct (sound_compiles _ _ _ _ Sp) as (r & n & Co & Cb & Spl).
    pose proof (usable_at _ _ _ _ _ Ea) as Us. pose proof (matches_in f r t) as It.
    exists (matches f r t), n.
    assert (Ic : Forall (fun o => oc_text o = t) (map (occ_of t n) (matches f r t))).
    { apply Forall_map. eapply Forall_impl; [|exact It]. intros m Im. exact (proj1 (cut_text t m Im)). }
    split; [|split; [exact It|split]].
    - unfold re_finditer, with_regex. rewrite Us, Cb, matches_bracket. reflexivity.
    - constructor.
      + exact Ic.
      + rewrite (run_AT fmt raw f t _ _ Us Cb), matches_bracket, !map_map. reflexivity.
      + rewrite (run_FINDALL fmt raw f t _ _ Us Cb), matches_bracket, !map_map.
        do 2 f_equal. apply map_ext_in. intros m I. cbn [occ_of oc_before bracketed fd_start].
        rewrite (proj1 (proj2 (cut_text t m (proj1 (Forall_forall _ _) It m I)))). reflexivity.
      + intros Ne. rewrite (Spl Ne), (parts_split n _ 0 It). reflexivity.
    - intros k o s E. rewrite nth_error_map in E. destruct (nth_error (matches f r t) k) as [m|] eqn:Ek; [|discriminate].
      injection E as <-. pose proof (proj1 (Forall_forall _ _) It m (nth_error_In _ _ Ek)) as Im.
      assert (Eh : nth_error (map (hit_of t n) (matches f r t)) k = Some (hit_of t n m)) by (rewrite nth_error_map, Ek; reflexivity).
      destruct (assign_ok (hit_of t n m) s) as (bs & h & gs & Eg & D & T & M).
      assert (Et : tell_hits (map (hit_of t n) (matches f r t)) k s = (gs, upd bs h s)).
      { unfold tell_hits. rewrite Eh, Eg. reflexivity. }
      rewrite Et. cbn [fst snd]. split; [apply told_describe; assumption|].
      split; [apply upd_matches; exact M|].
      unfold oc_text. cbn [occ_of oc_match oc_groups oc_before oc_after].
      rewrite (proj1 (cut_text t m Im)).
      change (dens (st_heap s ++ h) gs (PScal (match_text t m)
        :: map (fun k => place_text t (place_of (mkhit t (bracketed m) (S n)) k)) (seq 2 n))) in D.
      rewrite (places_next (place_text t) t m n) in D. exact D.
  Qed.
End Matches.

(** ** The loops over the matches *)
Lemma ends_const_bind {A B} (m : M A) (F : interp -> A -> M B) s a s1 b s' :
  m s = Ok a s1 -> ends (fun R => x <- m;; F R x) s b s' <-> ends (fun R => F R a) s1 b s'.
Proof. intros E. unfold ends. split; intros [n H]; exists n; unfold mbind in *; rewrite E in *; exact H. Qed.

Section Loops.
  Variables (t : str) (n : nat).
  Variable all : list found.
  Let tell := tell_hits (map (hit_of t n) all).

  Lemma nth_hit pre m post : all = pre ++ m :: post ->
    nth_error (map (hit_of t n) all) (length pre) = Some (hit_of t n m).
  Proof. intros ->. rewrite nth_error_map, nth_error_app2, Nat.sub_diag by lia. reflexivity. Qed.

  Lemma calls_told_iff f : forall post pre s rs s', all = pre ++ post ->
    ends (fun R => mmap (fun h => gs <- assign_match h;; i_call R f gs) (map (hit_of t n) post)) s rs s'
    <-> calls_told tell f (seq (length pre) (length post)) s rs s'.
  Proof.
    induction post as [|m post IH]; intros pre s rs s' E; cbn [map mmap seq length].
    - rewrite ends_const. split.
      + intros H. injection H as <- <-. constructor.
      + intros H. inversion H; subst. reflexivity.
    - assert (St : forall h, steady (fun R => gs <- assign_match h;; i_call R f gs)).
      { intros h. apply steady_bind; [apply steady_const|intros gs; apply steady_call]. }
      assert (Sm : steady (fun R => mmap (fun h => gs <- assign_match h;; i_call R f gs) (map (hit_of t n) post))).
      { apply (steady_map (fun R h => gs <- assign_match h;; i_call R f gs)). exact St. }
      rewrite (ends_bind (fun R => gs <- assign_match (hit_of t n m);; i_call R f gs)
        (fun R y => ys <- mmap (fun h => gs <- assign_match h;; i_call R f gs) (map (hit_of t n) post);;
                    mret (y :: ys)));
        [|apply St|intros y; apply steady_bind; [exact Sm|intros ys; apply steady_const]].
      assert (Q : forall v s1, ends (fun R => gs <- assign_match (hit_of t n m);; i_call R f gs) s v s1
                  <-> calls (snd (tell (length pre) s)) f (fst (tell (length pre) s)) v s1).
      { intros v s1. rewrite (ends_const_bind _ _ _ _ _ _ _ (tell_hit _ _ _ s (nth_hit pre m post E))).
        reflexivity. }
      assert (Q2 : forall v s1, ends (fun R => ys <- mmap (fun h => gs <- assign_match h;; i_call R f gs) (map (hit_of t n) post);;
                    mret (v :: ys)) s1 rs s'
                <-> exists vs, rs = v :: vs /\ calls_told tell f (seq (S (length pre)) (length post)) s1 vs s').
      { intros v s1. rewrite (ends_bind (fun R => mmap (fun h => gs <- assign_match h;; i_call R f gs) (map (hit_of t n) post))
          (fun R ys => mret (v :: ys))); [|exact Sm|intros ys; apply steady_const].
        assert (E' : all = (pre ++ [m]) ++ post) by (rewrite <- app_assoc; exact E).
        replace (S (length pre)) with (length (pre ++ [m])) by (rewrite app_length; cbn; lia).
        split.
        - intros (vs & s2 & H1 & H2). apply ends_const in H2. injection H2 as <- <-. exists vs.
          split; [reflexivity|]. apply (IH _ _ _ _ E'). exact H1.
        - intros (vs & -> & H). exists vs, s'. split; [apply (IH _ _ _ _ E'); exact H|apply ends_const; reflexivity]. }
      split.
      + intros (v & s1 & H1 & H2). apply Q in H1. apply Q2 in H2. destruct H2 as (vs & -> & H2).
        econstructor; eassumption.
      + intros H. inversion H as [|? ? ? v s1 vs ? H1 H2]; subst. exists v, s1.
        split; [apply Q; exact H1|apply Q2; eauto].
  Qed.

  Lemma does_told_iff body : forall post pre s s', all = pre ++ post ->
    ends (fun R => mfor (fun h => assign_match h;; run_body R body) (map (hit_of t n) post)) s tt s'
    <-> does_told tell body (seq (length pre) (length post)) s s'.
  Proof.
    induction post as [|m post IH]; intros pre s s' E; cbn [map mfor seq length].
    - rewrite ends_const. split.
      + intros H. injection H as <-. constructor.
      + intros H. inversion H; subst. reflexivity.
    - assert (St : forall h, steady (fun R => assign_match h;; run_body R body)).
      { intros h. apply steady_bind; [apply steady_const|intros gs; apply steady_body]. }
      rewrite (ends_bind (fun R => assign_match (hit_of t n m);; run_body R body)
        (fun R _ => mfor (fun h => assign_match h;; run_body R body) (map (hit_of t n) post)));
        [|apply St|intros _; apply (steady_for (fun R h => assign_match h;; run_body R body)); exact St].
      assert (Q : forall s1, ends (fun R => assign_match (hit_of t n m);; run_body R body) s tt s1
                  <-> does body (snd (tell (length pre) s)) s1).
      { intros s1. rewrite (ends_const_bind _ (fun R _ => run_body R body) _ _ _ _ _ (tell_hit _ _ _ s (nth_hit pre m post E))).
        apply ends_body. }
      assert (E' : all = (pre ++ [m]) ++ post) by (rewrite <- app_assoc; exact E).
      replace (S (length pre)) with (length (pre ++ [m])) by (rewrite app_length; cbn; lia).
      split.
      + intros ([] & s1 & H1 & H2). apply Q in H1. apply (IH _ _ _ E') in H2. econstructor; eassumption.
      + intros H. inversion H as [|? ? ? s1 ? H1 H2]; subst. exists tt, s1.
        split; [apply Q; exact H1|apply (IH _ _ _ E'); exact H2].
  Qed.

  Lemma replaces_told_iff f : Forall (in_text t) all -> forall post pre pos s u s', all = pre ++ post ->
    ends (fun R => sub_calls R f t pos (map (hit_of t n) post)) s u s'
    <-> replaces_told tell f t pos (length pre) (map (occ_of t n) post) s u s'.
  Proof.
    intros It. induction post as [|m post IH]; intros pre pos s u s' E; cbn [map sub_calls].
    - rewrite ends_const. split.
      + intros H. injection H as <- <-. constructor.
      + intros H. inversion H; subst. reflexivity.
    - assert (Im : in_text t m).
      { apply (proj1 (Forall_forall _ _) It). rewrite E. apply in_or_app. right. left. reflexivity. }
      destruct (cut_text t m Im) as (_ & L1 & L2).
      assert (Sc : forall hs pos, steady (fun R => sub_calls R f t pos hs)).
      { induction hs as [|h hs IHh]; intros p0; cbn [sub_calls]; [apply steady_const|].
        apply steady_bind; [apply steady_const|intros gs].
        apply steady_bind; [apply steady_call|intros v].
        apply steady_bind; [apply steady_const|intros p].
        apply steady_bind; [apply steady_const|intros fm].
        apply steady_bind; [apply IHh|intros r]. apply steady_const. }
      rewrite (ends_const_bind _ _ _ _ _ _ _ (tell_hit _ _ _ s (nth_hit pre m post E))).
      fold tell. cbn [hit_of ht_found bracketed fd_start fd_end].
      set (K := fun (R : interp) (v : hval) =>
         p <- dread v;; fmt <- get_fmt;;
         rest <- sub_calls R f t (fd_end m) (map (hit_of t n) post);;
         mret (span t pos (fd_start m) ++ p_str fmt p ++ rest)).
      assert (SK : forall v, steady (fun R => K R v)).
      { intros v. apply steady_bind; [apply steady_const|intros p].
        apply steady_bind; [apply steady_const|intros fm].
        apply steady_bind; [apply Sc|intros r]. apply steady_const. }
      change (ends (fun R => v <- i_call R f (fst (tell (length pre) s));; K R v) (snd (tell (length pre) s)) u s'
              <-> replaces_told tell f t pos (length pre) (occ_of t n m :: map (occ_of t n) post) s u s').
      rewrite (ends_bind (fun R => i_call R f (fst (tell (length pre) s))) K);
        [|apply steady_call|exact SK].
      assert (E' : all = (pre ++ [m]) ++ post) by (rewrite <- app_assoc; exact E).
      assert (QK : forall v s1, ends (fun R => K R v) s1 u s' <->
         exists p rest, den (st_heap s1) v p /\
           replaces_told tell f t (fd_end m) (S (length pre)) (map (occ_of t n) post) s1 rest s' /\
           u = span t pos (fd_start m) ++ listing (st_fmt s1) p ++ rest).
      { intros v s1.
        assert (Q : forall p, ends (fun R => rest <- sub_calls R f t (fd_end m) (map (hit_of t n) post);;
             mret (span t pos (fd_start m) ++ p_str (st_fmt s1) p ++ rest)) s1 u s' <->
           exists rest, replaces_told tell f t (fd_end m) (S (length pre)) (map (occ_of t n) post) s1 rest s' /\
           u = span t pos (fd_start m) ++ listing (st_fmt s1) p ++ rest).
        { intros p. rewrite (ends_bind (fun R => sub_calls R f t (fd_end m) (map (hit_of t n) post))
             (fun R rest => mret (span t pos (fd_start m) ++ p_str (st_fmt s1) p ++ rest)));
            [|apply Sc|intros r; apply steady_const].
          replace (S (length pre)) with (length (pre ++ [m])) by (rewrite app_length; cbn; lia).
          split.
          - intros (r & s2 & H1 & H2). apply ends_const in H2. injection H2 as <- <-. exists r.
            split; [apply (IH _ _ _ _ _ E'); exact H1|]. rewrite MainProof.str_listing. reflexivity.
          - intros (r & H & ->). exists r, s'. split; [apply (IH _ _ _ _ _ E'); exact H|].
            apply ends_const. rewrite MainProof.str_listing. reflexivity. }
        split.
        - intros [k H]. unfold K in H. apply bind_ok in H. destruct H as (p & s2 & H1 & H).
          destruct (dread_inv _ _ _ _ H1) as [-> D]. exists p.
          destruct (proj1 (Q p)) as (r & Hr & Eu); [exists k; exact H|]. exists r. auto.
        - intros (p & r & D & Hr & Eu). destruct (proj2 (Q p)) as [k H]; [eauto|]. exists k.
          unfold K. rewrite (bind_step _ _ _ _ _ (dread_ok _ _ _ D)). exact H. }
      assert (Sn : span t pos (fd_start m) = firstn (length (oc_before (occ_of t n m)) - pos) (skipn pos t)).
      { cbn [oc_before occ_of]. rewrite L1. reflexivity. }
      assert (En : oc_end (occ_of t n m) = fd_end m) by exact L2.
      split.
      + intros (v & s1 & H1 & H2). apply QK in H2. destruct H2 as (p & r & D & Hr & ->).
        rewrite Sn. econstructor; [exact H1|exact D|]. rewrite En. exact Hr.
      + intros H. inversion H as [|? ? ? ? ? v s1 p r ? H1 D Hr]; subst. exists v, s1. split; [exact H1|].
        apply QK. exists p, r. split; [exact D|]. rewrite En in Hr. split; [exact Hr|]. rewrite Sn. reflexivity.
  Qed.
End Loops.

(** ** The operands *)
Lemma pair_ok fmt s raw fl t r x ms n :
  lr_operands fmt (st_heap s) raw fl t r x -> re_finditer raw fl t = Some (map bracketed ms, S n) ->
  regex_pair r x s = Ok (Some (map (hit_of t n) ms)) s.
Proof.
  intros L E.
  assert (Q : forall l, nth_error (st_heap s) l = Some (OS t) ->
    (t0 <- load_str l;; o <- of_pm (of_re (re_finditer raw fl t0));;
     mret (Some (map (fun m => mkhit t0 m (snd o)) (fst o)))) s = Ok (Some (map (hit_of t n) ms)) s).
  { intros l El. rewrite (bind_step _ _ _ _ _ (load_str_ok _ _ _ El)), E.
    change (Ok (Some (map (fun m => mkhit t m (S n)) (map bracketed ms))) s = Ok (Some (map (hit_of t n) ms)) s).
    rewrite map_map. reflexivity. }
  destruct L as [p x D1 D2|p x D1 D2|p x u D1 X D2]; inversion D1; subst; inversion D2; subst; cbn [regex_pair].
  - apply Q. assumption.
  - apply Q. assumption.
  - rewrite literal_X in X. injection X as <- <-.
    match goal with H : nth_error _ _ = Some (OS u) |- _ => rewrite (bind_step _ _ _ _ _ (load_str_ok _ _ _ H)) end.
    apply Q. assumption.
Qed.

Definition mr_core (R : interp) (f : hval) (hs : list hit) : M xval :=
  rs <- mmap (fun h => gs <- assign_match h;; i_call R f gs) hs;; v <- new_list rs;; xret v.
Lemma mr_core_ok fmt s raw fl t f vs ms n :
  is_function f -> mr_operands fmt (st_heap s) raw fl t f vs ->
  re_finditer raw fl t = Some (map bracketed ms, S n) ->
  exists a b c, vs = [a; b; c] /\
    forall R, MAPREGEX R a b c s = mr_core R f (map (hit_of t n) ms) s.
Proof.
  intros Fn L E. destruct (function_block _ Fn) as [Fb _].
  assert (Q : forall r x, lr_operands fmt (st_heap s) raw fl t r x -> forall R,
    (o <- regex_pair r x;; match o with
         | Some hits => rs <- mmap (fun h => gs <- assign_match h;; i_call R f gs) hits;;
                        v <- new_list rs;; xret v
         | None => xwarn "MAPREGEX" end) s = mr_core R f (map (hit_of t n) ms) s).
  { intros r x Lr R. rewrite (bind_step _ _ _ _ _ (pair_ok _ _ _ _ _ _ _ _ _ Lr E)). reflexivity. }
  assert (Bp : forall v p, den (st_heap s) v p -> (match p with PBlock _ _ => False | _ => True end) -> h_block v = false).
  { intros v p D Np. destruct D; try reflexivity; destruct Np. }
  destruct L as [p x vs D1 D2 I|p x u vs D1 X D2 I].
  - pose proof (Bp _ _ D1 Logic.I) as B1. pose proof (Bp _ _ D2 Logic.I) as B2.
    pose proof (lr_pattern fmt (st_heap s) raw fl t p x D1 D2) as L1.
    pose proof (lr_swapped fmt (st_heap s) raw fl t p x D1 D2) as L2.
    repeat (destruct I as [<-|I]; [do 3 eexists; split; [reflexivity|]; intros R; unfold MAPREGEX;
      rewrite ?Fb, ?B1, ?B2, ?Fb; cbv beta iota zeta; rewrite ?Fb; first [apply (Q _ _ L1)|apply (Q _ _ L2)]|]).
    destruct I.
  - pose proof (Bp _ _ D1 Logic.I) as B1. pose proof (Bp _ _ D2 Logic.I) as B2.
    pose proof (lr_text fmt (st_heap s) raw fl t p x u D1 X D2) as L1.
    repeat (destruct I as [<-|I]; [do 3 eexists; split; [reflexivity|]; intros R; unfold MAPREGEX;
      rewrite ?Fb, ?B1, ?B2, ?Fb; cbv beta iota zeta; rewrite ?Fb; apply (Q _ _ L1)|]).
    destruct I.
Qed.

Theorem mr_calls s es vs s1 f raw fl t ps :
  is_function f -> operands s es vs s1 -> mr_operands (st_fmt s) (st_heap s1) raw fl t f vs ->
  sound_pattern (st_fmt s) raw fl t -> run_op (st_fmt s) "@" [PScal t; PPat raw fl] = ret ps ->
  exists os tell, occurrences (st_fmt s) t raw fl os /\ telling tell os /\
    forall u s', gives s (app "MR" es) u s' <->
      exists rs s3, calls_told tell f (seq 0 (length os)) s1 rs s3 /\ makes_list rs s3 u s'.
Proof.
  intros Fn Os L Sp Ea. destruct (found_all _ _ _ _ Sp _ Ea) as (ms & n & Ef & It & Oc & Te).
  exists (map (occ_of t n) ms), (tell_hits (map (hit_of t n) ms)). split; [exact Oc|]. split; [exact Te|].
  destruct (mr_core_ok _ _ _ _ _ _ _ _ _ Fn L Ef) as (a & b & c & -> & Ec).
  assert (Le : forall s0 l l' s2, operands s0 l l' s2 -> length l = length l').
  { induction 1 as [|? ? ? ? ? ? ? ? ? IH]; cbn [length]; [reflexivity|]. rewrite IH. reflexivity. }
  apply Le in Os as L3. cbn [length] in L3. clear Le.
  destruct es as [|e1 [|e2 [|e3 [|]]]]; try discriminate.
  intros u s'. rewrite (gives_plain "MR" _ [e1; e2; e3] s [a; b; c] s1 u s' eq_refl eq_refl Os).
  assert (Q : forall x s3, ends (fun R => call_fun R F_MAPREGEX (map arg_of [a; b; c])) s1 x s3 <->
     exists rs s2 v, x = XR v /\ calls_told (tell_hits (map (hit_of t n) ms)) f (seq 0 (length ms)) s1 rs s2
       /\ makes_list rs s2 v s3).
  { intros x s3. rewrite (ends_eq _ (fun R => mr_core R f (map (hit_of t n) ms)) s1 s1 x s3 Ec). unfold mr_core.
    rewrite (ends_bind (fun R => mmap (fun h => gs <- assign_match h;; i_call R f gs) (map (hit_of t n) ms))
      (fun R rs => v <- new_list rs;; xret v)); [|apply (steady_map (fun R h => gs <- assign_match h;; i_call R f gs));
      intros h; apply steady_bind; [apply steady_const|intros gs; apply steady_call]|intros ?; apply steady_const].
    split.
    - intros (rs & s2 & H1 & H2). apply ends_const, new_list_iff in H2. destruct H2 as (v & -> & Mk).
      exists rs, s2, v. split; [reflexivity|]. split; [|exact Mk].
      apply (calls_told_iff t n ms f ms [] s1 rs s2 eq_refl). exact H1.
    - intros (rs & s2 & v & -> & C & Mk). exists rs, s2. split; [|apply ends_const, new_list_iff; eauto].
      apply (calls_told_iff t n ms f ms [] s1 rs s2 eq_refl). exact C. }
  rewrite map_length. split.
  - intros (x & s2 & H1 & H2). apply Q in H1. destruct H1 as (rs & s3 & v & -> & C & Mk).
    injection H2 as -> ->. eauto.
  - intros (rs & s3 & C & Mk). exists (XR u), s'. split; [|reflexivity]. apply Q. eauto 6.
Qed.

Definition cmd_lr : command :=
  match command_of (s_ "LR") with Some c => c | None => mkcmd [] C_LOOPREGEX [] end.
Theorem lr_does s e1 e2 body v1 v2 s1 raw fl t ps :
  operands s [e1; e2] [v1; v2] s1 -> lr_operands (st_fmt s) (st_heap s1) raw fl t v1 v2 ->
  sound_pattern (st_fmt s) raw fl t -> run_op (st_fmt s) "@" [PScal t; PPat raw fl] = ret ps ->
  exists os tell, occurrences (st_fmt s) t raw fl os /\ telling tell os /\
    forall s', executes s (command_stmt "LR" [e1; e2; TBlk body]) None s' <->
      does_told tell body (seq 0 (length os)) s1 s'.
Proof.
  intros Os L Sp Ea. destruct (found_all _ _ _ _ Sp _ Ea) as (ms & n & Ef & It & Oc & Te).
  exists (map (occ_of t n) ms), (tell_hits (map (hit_of t n) ms)). split; [exact Oc|]. split; [exact Te|].
  intros s'. rewrite (run_command "LR" _ cmd_lr) by reflexivity. rewrite executes_cmd.
  inversion Os as [|? ? ? s0 ? ? ? G1 Os2]; subst. inversion Os2 as [|? ? ? s00 ? ? ? G2 Os3]; subst.
  inversion Os3; subst. clear Os2 Os3.
  set (K := fun (R : interp) (r x : hval) => o <- regex_pair r x;;
      match o with
      | Some hits => mfor (fun h => assign_match h;; run_body R body) hits
      | None => mwarn "LOOPREGEX"
      end).
  assert (SK : forall r x, steady (fun R => K R r x)).
  { intros r x. apply steady_bind; [apply steady_const|]. intros [hs|]; [|apply steady_const].
    apply (steady_for (fun R h => assign_match h;; run_body R body)). intros h.
    apply steady_bind; [apply steady_const|intros gs; apply steady_body]. }
  change (@None hval = None /\ ends (fun R => r <- rval_tree R e1;; x <- rval_tree R e2;; K R r x) s tt s'
          <-> does_told (tell_hits (map (hit_of t n) ms)) body (seq 0 (length (map (occ_of t n) ms))) s1 s').
  rewrite (ends_bind (fun R => rval_tree R e1) (fun R r => x <- rval_tree R e2;; K R r x));
    [|apply steady_rval|intros r; apply steady_bind; [apply steady_rval|intros x; apply SK]].
  assert (Q : ends (fun R => K R v1 v2) s1 tt s' <->
     does_told (tell_hits (map (hit_of t n) ms)) body (seq 0 (length (map (occ_of t n) ms))) s1 s').
  { rewrite (ends_eq _ (fun R => mfor (fun h => assign_match h;; run_body R body) (map (hit_of t n) ms)) s1 s1 tt s').
    - rewrite map_length. apply (does_told_iff t n ms body ms [] s1 s' eq_refl).
    - intros R. unfold K. rewrite (bind_step _ _ _ _ _ (pair_ok _ _ _ _ _ _ _ _ _ L Ef)). reflexivity. }
  split.
  - intros (_ & r & s2 & H1 & H2). destruct (ends_fun _ _ _ _ _ _ (steady_rval e1) G1 H1) as [-> ->].
    rewrite (ends_bind (fun R => rval_tree R e2) (fun R x => K R v1 x)) in H2; [|apply steady_rval|apply SK].
    destruct H2 as (x & s3 & H2 & H3). destruct (ends_fun _ _ _ _ _ _ (steady_rval e2) G2 H2) as [-> ->].
    apply Q. exact H3.
  - intros H. split; [reflexivity|]. exists v1, s0. split; [exact G1|].
    rewrite (ends_bind (fun R => rval_tree R e2) (fun R x => K R v1 x)); [|apply steady_rval|apply SK].
    exists v2, s1. split; [exact G2|]. apply Q. exact H.
Qed.

Theorem r_calls s e1 e2 e3 x p f s1 raw fl t ps :
  is_function f -> operands s [e1; e2; e3] [x; p; f] s1 ->
  den (st_heap s1) x (PScal t) -> r_operand (st_fmt s) (st_heap s1) raw fl p ->
  sound_pattern (st_fmt s) raw fl t -> run_op (st_fmt s) "@" [PScal t; PPat raw fl] = ret ps ->
  exists os tell, occurrences (st_fmt s) t raw fl os /\ telling tell os /\
    forall u s', gives s (app "R" [e1; e2; e3]) u s' <->
      exists r s3, replaces_told tell f t 0 0 os s1 r s3 /\ makes_scalar r s3 u s'.
Proof.
  intros Fn Os Dx Rp Sp Ea. destruct (found_all _ _ _ _ Sp _ Ea) as (ms & n & Ef & It & Oc & Te).
  exists (map (occ_of t n) ms), (tell_hits (map (hit_of t n) ms)). split; [exact Oc|]. split; [exact Te|].
  intros u s'. rewrite (gives_plain "R" _ [e1; e2; e3] s [x; p; f] s1 u s' eq_refl eq_refl Os).
  assert (Ec : forall R, call_fun R F_REPLACE (map arg_of [x; p; f]) s1
     = (r <- sub_calls R f t 0 (map (hit_of t n) ms);; v <- fresh (PScal r);; xret v) s1).
  { intros R. destruct Fn as (sts & rt & ->).
    change (call_fun R F_REPLACE (map arg_of [x; p; HBlock sts rt]) s1)
      with (REPLACE_CALL R x p (HBlock sts rt) s1).
    unfold REPLACE_CALL. rewrite (bind_step _ _ _ _ _ (dread_ok _ _ _ Dx)).
    assert (Q : exists b, dread p s1 = Ok b s1 /\
       replace_call R (HBlock sts rt) b (PScal t) = sub_call R (HBlock sts rt) raw fl t).
    { destruct Rp as [p D|p w D X].
      - exists (PPat raw fl). split; [apply dread_ok; exact D|reflexivity].
      - rewrite literal_X in X. injection X as <- <-.
        exists (PScal w). split; [apply dread_ok; exact D|reflexivity]. }
    destruct Q as (b & Eb & Q). rewrite (bind_step _ _ _ _ _ Eb), Q. unfold sub_call. rewrite Ef.
    assert (Eo : of_pm (of_re (Some (map bracketed ms, S n))) s1 = Ok (map bracketed ms, S n) s1) by reflexivity.
    unfold mbind at 1. rewrite (bind_step _ _ _ _ _ Eo). cbn [fst snd]. rewrite map_map.
    change (fun x0 => mkhit t (bracketed x0) (S n)) with (hit_of t n).
    unfold mbind, mret. destruct (sub_calls R (HBlock sts rt) t 0 (map (hit_of t n) ms) s1); reflexivity. }
  assert (Sc : forall hs pos, steady (fun R => sub_calls R f t pos hs)).
  { induction hs as [|h hs IHh]; intros p0; cbn [sub_calls]; [apply steady_const|].
    apply steady_bind; [apply steady_const|intros gs].
    apply steady_bind; [apply steady_call|intros v].
    apply steady_bind; [apply steady_const|intros q].
    apply steady_bind; [apply steady_const|intros fm].
    apply steady_bind; [apply IHh|intros r]. apply steady_const. }
  assert (Fr : forall r s2 y s3, (v <- fresh (PScal r);; xret v) s2 = Ok y s3 <-> exists w, y = XR w /\ makes_scalar r s2 w s3).
  { intros r s2 y s3. unfold makes_scalar. split.
    - intros E. unfold mbind, xret, mret, fresh in E. cbn in E. injection E as <- <-. eauto.
    - intros (w & -> & -> & ->). reflexivity. }
  assert (Q : forall y s3, ends (fun R => call_fun R F_REPLACE (map arg_of [x; p; f])) s1 y s3 <->
     exists r s2 w, y = XR w /\ replaces_told (tell_hits (map (hit_of t n) ms)) f t 0 0 (map (occ_of t n) ms) s1 r s2
       /\ makes_scalar r s2 w s3).
  { intros y s3. rewrite (ends_eq _ (fun R => r <- sub_calls R f t 0 (map (hit_of t n) ms);; v <- fresh (PScal r);; xret v) s1 s1 y s3 Ec).
    rewrite (ends_bind (fun R => sub_calls R f t 0 (map (hit_of t n) ms)) (fun R r => v <- fresh (PScal r);; xret v));
      [|apply Sc|intros ?; apply steady_const].
    split.
    - intros (r & s2 & H1 & H2). apply ends_const, Fr in H2. destruct H2 as (v & -> & Mk).
      exists r, s2, v. split; [reflexivity|]. split; [|exact Mk].
      apply (replaces_told_iff t n ms f It ms [] 0 s1 r s2 eq_refl). exact H1.
    - intros (r & s2 & v & -> & C & Mk). exists r, s2. split; [|apply ends_const, Fr; eauto].
      apply (replaces_told_iff t n ms f It ms [] 0 s1 r s2 eq_refl). exact C. }
  split.
  - intros (y & s2 & H1 & H2). apply Q in H1. destruct H1 as (r & s3 & w & -> & C & Mk).
    injection H2 as -> ->. eauto.
  - intros (r & s3 & C & Mk). exists (XR u), s'. split; [|reflexivity]. apply Q. eauto 6.
Qed.
