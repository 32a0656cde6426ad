(** * Values of expressions that are read later: proofs *)

From Coq Require Import String List NArith ZArith Bool Arith Lia.
From Verif Require Import PyStr PyRe PyNum Tokens OpFun OpTable Unparse
                          PTypes Ops OpsSeq Apply Spec StrFacts PFacts RunOp SeqProof
                          Heap Exec SpecHeap HeapProof ExecRel ExecInv EvalProof
                          SpecScan SpecRun SpecVars VarProof CtlProof PureProof LoopProof SpecMap MapProof
                          FilterProof SpecMeta MetaProof SpecLam LamProof SpecRec RecProof.
Import ListNotations.
Local Open Scope string_scope.
Local Open Scope list_scope.

(** ** States that differ in scopes and in added objects *)
Definition since (s s1 : state) : Prop :=
  st_vars s1 = st_vars s /\ st_tao s1 = st_tao s /\ st_fmt s1 = st_fmt s
  /\ exists t, st_heap s1 = st_heap s ++ t.

Lemma since_refl s : since s s.
Proof. repeat split; try reflexivity. exists []. symmetry. apply app_nil_r. Qed.
Lemma since_trans s1 s2 s3 : since s1 s2 -> since s2 s3 -> since s1 s3.
Proof.
  intros (A1 & A2 & A3 & t & A4) (B1 & B2 & B3 & u & B4).
  repeat split; try congruence. exists (t ++ u). rewrite B4, A4. symmetry. apply app_assoc.
Qed.
Lemma adds_since s s1 : only_adds s s1 -> since s s1.
Proof. intros (A1 & _ & _ & _ & _ & _ & _ & _ & A2 & A3 & _ & A4 & _). repeat split; assumption. Qed.
Lemma since_den s s1 v p : since s s1 -> den (st_heap s) v p -> den (st_heap s1) v p.
Proof. intros (_ & _ & _ & t & E) D. rewrite E. apply den_app. exact D. Qed.
Lemma adds_heap s s1 : only_adds s s1 -> exists t, st_heap s1 = st_heap s ++ t.
Proof. intros H. apply H. Qed.
Lemma adds_dent s s1 e r : only_adds s s1 -> dent (st_heap s) e r -> dent (st_heap s1) e r.
Proof.
  intros A D. destruct (adds_heap _ _ A) as [t E].
  assert (X : den (st_heap s) (HBlock [] e) (PBlock [] r)) by (constructor; [constructor|exact D]).
  apply (den_app _ t) in X. rewrite <- E in X. inversion X; subst. assumption.
Qed.
Lemma adds_dents s s1 es rs : only_adds s s1 -> dents (st_heap s) es rs -> dents (st_heap s1) es rs.
Proof.
  intros A D. apply Forall2_dents. apply dents_Forall2 in D.
  eapply Forall2_imp; [|exact D]. intros a b. apply adds_dent. exact A.
Qed.

Lemma adds_binding s s1 x o : only_adds s s1 -> binding s x o -> binding s1 x o.
Proof.
  intros (V & Sc & _) B. inversion B as [sc rest L E E'|L E']; subst.
  - apply binding_local with rest; [exact L|congruence].
  - rewrite <- V. apply binding_global. exact L.
Qed.
Lemma adds_held s s1 x o : only_adds s s1 -> held s x o -> held s1 x o.
Proof.
  intros A. destruct o as [p|]; cbn [held].
  - intros (v & B & D). exists v. split; [eapply adds_binding; eassumption|eapply adds_den; eassumption].
  - apply adds_binding. exact A.
Qed.
Lemma adds_var s s1 x p : only_adds s s1 -> var s x p -> var s1 x p.
Proof.
  intros A (o & B & D). exists o. split; [eapply adds_binding; eassumption|].
  destruct o; [eapply adds_den; eassumption|exact D].
Qed.
Lemma adds_ordinary s s1 x : only_adds s s1 -> ordinary s x -> ordinary s1 x.
Proof.
  intros (_ & _ & _ & _ & _ & _ & _ & _ & _ & T & _) (N & Q & R & P). repeat split; auto.
  rewrite T. exact P.
Qed.
Lemma adds_running s s1 f : only_adds s s1 -> running s f -> running s1 f.
Proof. intros (_ & Sc & _) (sc & rest & E & F). exists sc, rest. split; [congruence|exact F]. Qed.


(** ** Slices of related lists *)
Section Related.
  Context {A B : Type} (R : A -> B -> Prop).
  Local Open Scope Z_scope.
  Lemma related_length l r : Forall2 R l r -> zlen l = zlen r.
  Proof. unfold zlen. induction 1 as [|a b l r _ _ IH]; cbn [length]; [reflexivity|lia]. Qed.
  Lemma related_nth l r : Forall2 R l r -> forall i,
    match nth_error l i, nth_error r i with Some a, Some b => R a b | None, None => True | _, _ => False end.
  Proof. induction 1 as [|a b l r H _ IH]; intros [|i]; cbn [nth_error]; auto. exact (IH i). Qed.
  Lemma related_firstn l r n : Forall2 R l r -> Forall2 R (firstn n l) (firstn n r).
  Proof. intros F. revert n. induction F; intros [|n]; cbn [firstn]; constructor; auto. Qed.
  Lemma related_skipn l r n : Forall2 R l r -> Forall2 R (skipn n l) (skipn n r).
  Proof. intros F. revert n. induction F; intros [|n]; cbn [skipn]; auto. Qed.
  Lemma related_py_slice a b l r : Forall2 R l r -> Forall2 R (py_slice a b l) (py_slice a b r).
  Proof.
    intros F. unfold py_slice. rewrite (related_length _ _ F).
    apply related_firstn, related_skipn, F.
  Qed.
  Lemma related_index l r z : Forall2 R l r ->
    match seq_index l z, seq_index r z with Some a, Some b => R a b | None, None => True | _, _ => False end.
  Proof.
    intros F. destruct F as [|a b l r H F]; [exact I|]. unfold seq_index.
    pose proof (Forall2_cons a b H F) as G. rewrite (related_length _ _ G). unfold znth.
    destruct (_ <? 0); [exact I|]. apply related_nth. exact G.
  Qed.
  Lemma related_left fuel : forall v w l r a b, Forall2 R v w -> Forall2 R l r ->
    match extend_left fuel v l a b, extend_left fuel w r a b with
    | Some (l', a', b'), Some (r', a'', b'') => Forall2 R l' r' /\ a' = a'' /\ b' = b''
    | None, None => True
    | _, _ => False
    end.
  Proof.
    induction fuel as [|n IH]; intros v w l r a b Fv F; cbn [extend_left]; destruct (a <? 0); auto.
    rewrite (related_length _ _ Fv). apply IH; [exact Fv|]. apply Forall2_app; assumption.
  Qed.
  Lemma related_right fuel : forall v w l r b, Forall2 R v w -> Forall2 R l r ->
    match extend_right fuel v l b, extend_right fuel w r b with
    | Some l', Some r' => Forall2 R l' r'
    | None, None => True
    | _, _ => False
    end.
  Proof.
    induction fuel as [|n IH]; intros v w l r b Fv F; cbn [extend_right];
      rewrite (related_length _ _ F); destruct (zlen r <? b); auto.
    apply IH; [exact Fv|]. apply Forall2_app; assumption.
  Qed.
  Lemma related_slice l r a b : Forall2 R l r ->
    match seq_slice l a b, seq_slice r a b with
    | Some l', Some r' => Forall2 R l' r'
    | None, None => True
    | _, _ => False
    end.
  Proof.
    intros F. destruct F as [|x y l r H F]; [constructor|]. unfold seq_slice.
    pose proof (Forall2_cons x y H F) as G. rewrite (related_length _ _ G).
    cbv zeta. set (a0 := match a with Some z => z | None => 0 end).
    set (b0 := match b with Some z => z | None => zlen (y :: r) end).
    set (a1 := if a0 <? 0 then a0 + zlen (y :: r) else a0).
    set (b1 := if b0 <? 0 then b0 + zlen (y :: r) else b0).
    destruct (b1 <=? a1); [constructor|].
    pose proof (related_left (Z.to_nat (- a1)) _ _ _ _ a1 b1 G G) as HL.
    destruct (extend_left _ (x :: l) _ _ _) as [[[l' a'] b']|], (extend_left _ (y :: r) _ _ _) as [[[r' a''] b'']|];
      try contradiction; [|exact I]. destruct HL as (F' & <- & <-).
    pose proof (related_right (Z.to_nat b') _ _ _ _ b' G F') as HR.
    destruct (extend_right _ (x :: l) _ _) as [l2|], (extend_right _ (y :: r) _ _) as [r2|];
      try contradiction; [|exact I]. apply related_py_slice. exact HR.
  Qed.
End Related.

(** ** Items and slices of objects *)
Lemma den_iterable h v p : den h v p -> h_iterable v = is_iterable p.
Proof. intros D. inversion D; subst; reflexivity. Qed.

Lemma yields_new p i s :
  match p_getitem p i with
  | Val q => yields (index_new p i) s (fun o s' => exists w, o = Some w /\ den (st_heap s') w q)
  | Exn IndexError => yields (index_new p i) s (fun o _ => o = None)
  | Exn _ => True
  end.
Proof.
  unfold index_new. destruct (p_getitem p i) as [q|e].
  - eapply yields_bind; [apply yields_fresh|]. intros v s1 A D. apply yields_ret. eauto.
  - destruct e; try exact I. apply yields_ret. reflexivity.
Qed.

Lemma yields_item v p i s :
  den (st_heap s) v p -> is_iterable p = true ->
  match p_getitem p i with
  | Val q => yields (h_index v i) s (fun o s' => exists w, o = Some w /\ den (st_heap s') w q)
  | Exn IndexError => yields (h_index v i) s (fun o _ => o = None)
  | Exn _ => True
  end.
Proof.
  intros D It. inversion D as [l t Nl| |l vs ps Nl Ds|lo hi| |]; subst; try discriminate; cbn [h_index].
  - pose proof (fun s1 => yields_new (PScal t) i s1) as H.
    destruct (p_getitem (PScal t) i) as [q|e]; [|destruct e; try exact I];
      (eapply yields_bind; [apply yields_load_str; eassumption|]); intros t' s1 A [-> ->]; exact (H _).
  - pose proof (proj1 (dens_Forall2 _ _ _) Ds) as F. destruct i as [z|a b]; cbn [p_getitem].
    + pose proof (related_index _ _ _ z F) as H.
      destruct (seq_index vs z) as [w|] eqn:E1, (seq_index ps z) as [q|] eqn:E2;
        try contradiction; cbn [of_option].
      * eapply yields_bind; [apply yields_load_list; eassumption|]. intros t s1 A [-> ->].
        apply yields_ret. rewrite E1. eauto.
      * eapply yields_bind; [apply yields_load_list; eassumption|]. intros t s1 A [-> ->].
        apply yields_ret. exact E1.
    + pose proof (related_slice _ _ _ a b F) as H.
      destruct vs as [|v0 vs].
      * inversion Ds; subst. cbn [seq_slice of_option rbind].
        eapply yields_bind; [apply yields_load_list; eassumption|]. intros t s1 A [-> ->].
        apply yields_ret. eauto.
      * destruct (seq_slice (v0 :: vs) a b) as [w|] eqn:E1, (seq_slice ps a b) as [q|] eqn:E2;
          try contradiction; cbn [of_option rbind]; [|exact I].
        eapply yields_bind; [apply yields_load_list; eassumption|]. intros t s1 A [-> ->].
        rewrite E1.
        eapply yields_bind; [apply yields_copies; apply dens_Forall2; exact H|].
        intros part s2 A2 D2. eapply yields_bind; [apply yields_new_list; exact D2|].
        intros r s3 A3 D3. apply yields_ret. eauto.
  - pose proof (yields_new (PRange lo hi) i s) as H. exact H.
Qed.

(** ** Following indices *)
Inductive walk : pval -> list idx -> pval -> Prop :=
| walk_end p : walk p [] p
| walk_item p i q sl r :
    is_iterable p = true -> p_getitem p i = Val q -> walk q sl r -> walk p (i :: sl) r
| walk_none p i sl :
    is_iterable p = true -> p_getitem p i = Exn IndexError -> walk p (i :: sl) PNil
| walk_not p i sl : is_iterable p = false -> walk p (i :: sl) PNil.

Lemma walk_app p sl q : walk p sl q -> forall i r, walk q [i] r -> walk p (sl ++ [i]) r.
Proof.
  induction 1 as [p|p i q sl r It G _ IH|p i sl It G|p i sl It]; intros j w W; cbn [List.app].
  - exact W.
  - econstructor; [exact It|exact G|]. exact (IH _ _ W).
  - inversion W; subst; try discriminate. apply walk_none; assumption.
  - inversion W; subst; try discriminate. apply walk_not; assumption.
Qed.

Lemma yields_walk p sl q : walk p sl q -> forall v s, den (st_heap s) v p ->
  yields (follow v sl) s
         (fun o s' => match o with Some w => den (st_heap s') w q | None => q = PNil end).
Proof.
  induction 1 as [p|p i q sl r It G _ IH|p i sl It G|p i sl It]; intros v s D; cbn [follow].
  - apply yields_ret. exact D.
  - rewrite (den_iterable _ _ _ D), It. pose proof (yields_item v p i s D It) as H. rewrite G in H.
    eapply yields_bind; [exact H|]. intros o s1 A (w & -> & Dw). apply IH. exact Dw.
  - rewrite (den_iterable _ _ _ D), It. pose proof (yields_item v p i s D It) as H. rewrite G in H.
    eapply yields_bind; [exact H|]. intros o s1 A ->.
    eapply yields_bind; [apply yields_warn|]. intros _ s2 A2 _. apply yields_ret. reflexivity.
  - rewrite (den_iterable _ _ _ D), It.
    eapply yields_bind; [apply yields_warn|]. intros _ s2 A2 _. apply yields_ret. reflexivity.
Qed.

(** ** What an lvalue stands for *)
Inductive names (s : state) : lval -> pval -> Prop :=
| names_path x sl p q :
    ordinary s x -> var s x p -> walk p sl q -> names s (LName x sl None) q
| names_list lvs ps : names_all s lvs ps -> names s (LList lvs []) (PList ps)
with names_all (s : state) : list lval -> list pval -> Prop :=
| names_nil : names_all s [] []
| names_cons lv p lvs ps : names s lv p -> names_all s lvs ps -> names_all s (lv :: lvs) (p :: ps).
Scheme names_min := Minimality for names Sort Prop
with names_all_min := Minimality for names_all Sort Prop.
Combined Scheme names_mind from names_min, names_all_min.

Lemma names_all_Forall2 s lvs ps : names_all s lvs ps <-> Forall2 (names s) lvs ps.
Proof. split; intros H; induction H; constructor; auto. Qed.

Lemma names_adds s s1 : only_adds s s1 ->
  (forall lv p, names s lv p -> names s1 lv p) /\ (forall lvs ps, names_all s lvs ps -> names_all s1 lvs ps).
Proof.
  intros A. apply names_mind.
  - intros x sl p q O V W. econstructor; [eapply adds_ordinary; eassumption|eapply adds_var; eassumption|exact W].
  - intros lvs ps _ H. constructor. exact H.
  - constructor.
  - intros lv p lvs ps _ H _ Hs. constructor; assumption.
Qed.

Lemma yields_path s x sl p q :
  ordinary s x -> var s x p -> walk p sl q ->
  yields (get_lval (LName x sl None)) s (fun v s' => den (st_heap s') v q).
Proof.
  intros O (o & B & D) W. cbn [get_lval].
  eapply yields_bind with (Q := fun _ s' => s' = s).
  { exists tt, s. split; [|split; [apply adv_refl|reflexivity]].
    destruct (three_letters x) eqn:T; [|reflexivity].
    unfold get_tao, mbind. rewrite (no_tao _ _ O T). reflexivity. }
  intros _ s1 A ->. rewrite (special_false _ _ O).
  eapply yields_bind with (Q := fun r s' => r = o /\ s' = s).
  { exists o, s. split; [apply get_var_binding; [apply O|exact B]|].
    split; [apply adv_refl|auto]. }
  intros r s1 A' [-> ->]. destruct o as [v|].
  - eapply yields_bind; [apply (yields_walk _ _ _ W v s D)|].
    intros r s1 A1 H. cbv beta in H. destruct r as [w|].
    + apply yields_copy. exact H.
    + subst q. apply yields_ret. constructor.
  - subst p. assert (q = PNil) as -> by (inversion W; subst; try reflexivity; discriminate).
    eapply yields_bind; [apply yields_warn|]. intros _ s1 A1 _. apply yields_ret. constructor.
Qed.

Lemma names_read s :
  (forall lv p, names s lv p ->
     forall s0, adv s s0 -> yields (get_lval lv) s0 (fun v s' => den (st_heap s') v p)) /\
  (forall lvs ps, names_all s lvs ps ->
     forall s0, adv s s0 -> yields (mmap get_lval lvs) s0 (fun vs s' => dens (st_heap s') vs ps)).
Proof.
  apply names_mind.
  - intros x sl p q O V W s0 A. apply adv_only_adds in A. eapply yields_path; [| |exact W].
    + eapply adds_ordinary; eassumption.
    + eapply adds_var; eassumption.
  - intros lvs ps _ H s0 A. cbn [get_lval]. eapply yields_bind; [apply H; exact A|].
    intros vs s1 A1 D. apply yields_new_list. exact D.
  - intros s0 A. apply yields_ret. constructor.
  - intros lv p lvs ps _ H _ Hs s0 A. cbn [mmap]. eapply yields_bind; [apply H; exact A|].
    intros v s1 A1 D. eapply yields_bind; [apply Hs; eapply adv_trans; eassumption|].
    intros vs s2 A2 Ds. apply yields_ret. constructor; [eapply adv_den; eassumption|exact Ds].
Qed.

(** ** What the result of an expression stands for *)
Inductive stands (s : state) : xval -> pval -> Prop :=
| stands_value v p : den (st_heap s) v p -> stands s (XR v) p
| stands_lval lv p : names s lv p -> stands s (XL lv) p.

Lemma stands_adds s s1 x p : only_adds s s1 -> stands s x p -> stands s1 x p.
Proof.
  intros A [v q D|lv q N]; constructor; [eapply adds_den; eassumption|].
  exact (proj1 (names_adds _ _ A) _ _ N).
Qed.
Lemma stands_read s x p : stands s x p -> yields (rval_h x) s (fun v s' => den (st_heap s') v p).
Proof.
  intros [v q D|lv q N]; cbn [rval_h]; [apply yields_ret; exact D|].
  apply (proj1 (names_read s) _ _ N). apply adv_refl.
Qed.

(** ** Expressions without side effects *)
Definition reaches (s1 : state) (e : tree hval) (p : pval) : Prop :=
  exists x s2, evals s1 e x s2 /\ only_adds s1 s2 /\ stands s2 x p.
Lemma reaches_value s1 e p v s2 :
  evals s1 e (XR v) s2 -> only_adds s1 s2 -> den (st_heap s2) v p -> reaches s1 e p.
Proof. intros E A D. exists (XR v), s2. split; [exact E|]. split; [exact A|constructor; exact D]. Qed.
Lemma reaches_gives s1 e p :
  reaches s1 e p -> exists v s2, gives s1 e v s2 /\ only_adds s1 s2 /\ den (st_heap s2) v p.
Proof.
  intros (x & s2 & E & A & L). destruct (stands_read _ _ _ L) as (v & s3 & E2 & A2 & D).
  exists v, s3. split; [apply gives_evals; eauto|].
  split; [eapply adds_trans; [exact A|apply adv_only_adds; exact A2]|exact D].
Qed.
Lemma reaches_name s1 x p : ordinary s1 x -> var s1 x p -> reaches s1 (name x) p.
Proof.
  intros O V. exists (XL (LName x [] None)), s1.
  split; [exists 1%nat; apply eval_name; exact O|]. split; [apply adds_refl|].
  constructor. econstructor; [exact O|exact V|constructor].
Qed.

(** ** Items and slices of expressions *)
Lemma yields_weak_warn w s : yields (xwarn w) s (fun x s' => stands s' x PNil).
Proof.
  unfold xwarn. eapply yields_bind; [apply yields_warn|]. intros _ s1 A _. apply yields_ret.
  constructor. constructor.
Qed.

Lemma at_idx_walk p i r :
  snd (at_idx p i) = Val r -> (forall a b, i = ISlice a b -> ~ elems p []) -> walk p [i] r.
Proof.
  unfold at_idx. intros H Ne. destruct (is_iterable p) eqn:It.
  2:{ injection H as <-. apply walk_not. exact It. }
  destruct (match p_len p with Val n => (n =? 0)%Z | Exn _ => false end) eqn:L.
  - injection H as <-.
    assert (El : elems p []).
    { destruct p as [t| |l|lo hi| |]; try discriminate; cbn [p_len] in L.
      - apply Z.eqb_eq in L. destruct t; [exact (elems_scal [])|discriminate].
      - apply Z.eqb_eq in L. destruct l; [constructor|discriminate].
      - destruct hi as [u|]; [|discriminate]. cbn [range_len] in L.
        apply Z.eqb_eq in L. pose proof (elems_range lo u) as H. cbv zeta in H.
        unfold lower0 in L.
        assert (Z.to_nat (u - match lo with Some z => z | None => 0%Z end) = 0%nat) as E by lia.
        rewrite E in H. exact H. }
    destruct i as [z|a b]; [|exfalso; exact (Ne _ _ eq_refl El)].
    apply walk_none; [exact It|].
    destruct p as [t| |l|lo hi| |]; try discriminate; inversion El as [t' Et|l' El'|lo' u' w Ew]; subst.
    + destruct t; [reflexivity|discriminate].
    + reflexivity.
    + cbn [p_getitem]. unfold range_is_empty. cbn [range_len p_len] in L. apply Z.eqb_eq in L.
      destruct (u' <=? lower0 lo)%Z eqn:Le; [reflexivity|]. apply Z.leb_gt in Le. lia.
  - destruct (p_getitem p i) as [q|e] eqn:G.
    + injection H as <-. econstructor; [exact It|exact G|constructor].
    + destruct e; try discriminate. injection H as <-. apply walk_none; assumption.
Qed.

Lemma walk_one p i r : walk p [i] r ->
  (is_iterable p = true /\ p_getitem p i = Val r)
  \/ (is_iterable p = true /\ p_getitem p i = Exn IndexError /\ r = PNil)
  \/ (is_iterable p = false /\ r = PNil).
Proof.
  intros W. inversion W as [|? ? q ? ? It G W'| |]; subst; [|auto|auto].
  inversion W'; subst. auto.
Qed.

Lemma yields_extend lv i s p r :
  names s lv p -> (forall lvs sl, lv <> LList lvs sl) -> walk p [i] r ->
  yields (lv' <- lval_extend lv [i];; mret (XL lv')) s (fun x s' => stands s' x r).
Proof.
  intros N Nl W. destruct N as [x sl p q O V W0|lvs ps _]; [|exfalso; eapply Nl; reflexivity].
  cbn [lval_extend]. apply yields_ret. constructor. econstructor; [exact O|exact V|].
  eapply walk_app; eassumption.
Qed.

Lemma yields_at x i s p r :
  stands s x p -> snd (at_idx p i) = Val r -> (forall a b, i = ISlice a b -> ~ elems p []) ->
  yields (at_index x i) s (fun y s' => stands s' y r).
Proof.
  intros St H Ne. pose proof (at_idx_walk p i r H Ne) as W.
  destruct St as [v p D|lv p N]; cbn [at_index].
  - rewrite (den_iterable _ _ _ D). destruct (walk_one _ _ _ W) as [[It G]|[(It & G & ->)|[It ->]]]; rewrite It.
    + assert (L : yields (h_len v) s (fun n s' => s' = s /\
               (match n with Some n => (n =? 0)%Z | None => false end
                = match p_len p with Val n => (n =? 0)%Z | Exn _ => false end))).
      { inversion D as [l t Nl| |l vs ps Nl Ds|lo hi| |]; subst; try discriminate; cbn [h_len p_len].
        - eapply yields_bind; [apply yields_load_str; eassumption|]. intros t' s1 A [-> ->].
          apply yields_ret. auto.
        - eapply yields_bind; [apply yields_load_list; eassumption|]. intros t' s1 A [-> ->].
          apply yields_ret. unfold zlen. rewrite (dens_length _ _ _ Ds). auto.
        - destruct hi; apply yields_ret; auto. }
      eapply yields_bind; [exact L|]. intros n s1 A [-> ->].
      unfold at_idx in H. rewrite It in H.
      destruct (match p_len p with Val n => (n =? 0)%Z | Exn _ => false end).
      * injection H as <-. apply yields_weak_warn.
      * pose proof (yields_item v p i s D It) as Y. rewrite G in Y.
        eapply yields_bind; [exact Y|]. intros o s2 A2 (w & -> & Dw). apply yields_ret.
        constructor. exact Dw.
    + assert (L : yields (h_len v) s (fun _ s' => s' = s)).
      { inversion D as [l t Nl| |l vs ps Nl Ds|lo hi| |]; subst; try discriminate; cbn [h_len].
        - eapply yields_bind; [apply yields_load_str; eassumption|]. intros t' s1 A [-> ->].
          apply yields_ret. auto.
        - eapply yields_bind; [apply yields_load_list; eassumption|]. intros t' s1 A [-> ->].
          apply yields_ret. auto.
        - destruct hi; apply yields_ret; auto. }
      eapply yields_bind; [exact L|]. intros n s1 A ->.
      destruct (match n with Some n => (n =? 0)%Z | None => false end); [apply yields_weak_warn|].
      pose proof (yields_item v p i s D It) as Y. rewrite G in Y.
      eapply yields_bind; [exact Y|]. intros o s2 A2 ->. apply yields_weak_warn.
    + apply yields_weak_warn.
  - destruct N as [x sl p q O V W0|lvs ps Ns].
    + eapply (yields_extend (LName x sl None) i s q r);
        [econstructor; eassumption|discriminate|exact W].
    + pose proof (proj1 (names_all_Forall2 _ _ _) Ns) as F. destruct i as [z|a b].
      * pose proof (related_index _ _ _ z F) as Rl. destruct (walk_one _ _ _ W) as [[It G]|[(It & G & ->)|[It ->]]].
        -- cbn [p_getitem] in G. destruct (seq_index ps z) as [q|] eqn:E2; [|discriminate].
           injection G as <-. destruct (seq_index lvs z) as [lv|]; [|contradiction].
           apply yields_ret. constructor. exact Rl.
        -- cbn [p_getitem] in G. destruct (seq_index ps z) as [q|] eqn:E2; [discriminate|].
           destruct (seq_index lvs z) as [lv|]; [contradiction|]. apply yields_weak_warn.
        -- discriminate.
      * destruct lvs as [|lv0 lvs].
        { inversion Ns; subst. exfalso. apply (Ne a b eq_refl). constructor. }
        pose proof (related_slice _ _ _ a b F) as Rl.
        destruct (walk_one _ _ _ W) as [[It G]|[(It & G & ->)|[It ->]]]; [| |discriminate];
          cbn [p_getitem] in G; destruct (seq_slice ps a b) as [q|] eqn:E2; try discriminate.
        cbn [of_option rbind] in G. injection G as <-.
        destruct (seq_slice (lv0 :: lvs) a b) as [part|]; [|contradiction].
        assert (M : yields (mmap (fun lv => lval_extend lv []) part) s
                      (fun part' s' => s' = s /\ Forall2 (names s) part' q)).
        { clear - Rl. induction Rl as [|lv p part q N _ IH]; cbn [mmap].
          - apply yields_ret. split; [reflexivity|constructor].
          - eapply yields_bind with (Q := fun lv' s' => s' = s /\ names s lv' p).
            + destruct N as [x sl p q' O V W0|lvs ps Ns]; cbn [lval_extend]; apply yields_ret; (split; [reflexivity|]).
              * rewrite app_nil_r. econstructor; eassumption.
              * constructor. exact Ns.
            + intros lv' s1 A [-> N']. eapply yields_bind; [exact IH|]. intros l s2 A2 [-> F].
              apply yields_ret. split; [reflexivity|]. constructor; assumption. }
        eapply yields_bind; [exact M|]. intros part' s1 A [-> F']. apply yields_ret.
        constructor. constructor. apply names_all_Forall2. exact F'.
Qed.

(** Indices that are numbers or Ranges. *)
Lemma yields_AT R x i s p q r :
  stands s x p -> stands s i q ->
  (exists t, q = PScal t) \/ (exists lo hi, q = PRange lo hi /\ ~ elems p []) ->
  snd (at_val p q) = Val r ->
  yields (AT R x (Some i)) s (fun y s' => stands s' y r).
Proof.
  intros Sx Si Iq H. unfold AT. eapply yields_bind; [apply stands_read; exact Si|].
  intros v s1 A D. pose proof (stands_adds _ _ _ _ (adv_only_adds _ _ A) Sx) as Sx1.
  destruct Iq as [[t ->]|(lo & hi & -> & Ne)]; inversion D; subst.
  - eapply yields_bind; [apply yields_load_str; eassumption|]. intros t' s2 A2 [-> ->].
    eapply yields_at; [exact Sx1|exact H|discriminate].
  - eapply yields_at; [exact Sx1|exact H|]. intros a b _. exact Ne.
Qed.
Lemma yields_head R x s p r :
  stands s x p -> snd (op_AT p None) = Val r -> yields (AT R x None) s (fun y s' => stands s' y r).
Proof. intros Sx H. eapply yields_at; [exact Sx|exact H|discriminate]. Qed.

Definition not_list (x : xval) : Prop := forall lvs sl, x <> XL (LList lvs sl).
Lemma yields_slice R f w mk default x i s p t r :
  stands s x p -> not_list x -> stands s i (PScal t) ->
  snd (sliced w mk p (PScal t)) = Val r ->
  yields (slice_op R f w mk x (Some i) default) s (fun y s' => stands s' y r).
Proof.
  intros Sx Nl Si H. unfold slice_op. eapply yields_bind; [apply stands_read; exact Si|].
  intros v s1 A D. pose proof (stands_adds _ _ _ _ (adv_only_adds _ _ A) Sx) as Sx1.
  inversion D; subst.
  eapply yields_bind; [apply yields_load_str; eassumption|]. intros t' s2 A2 [-> ->].
  cbn [sliced] in H.
  destruct Sx1 as [v p D1|lv p N].
  - rewrite (den_iterable _ _ _ D1). destruct (is_iterable p) eqn:It.
    + pose proof (yields_item v p (mk (scalar_int t)) s1 D1 It) as Y.
      destruct (p_getitem p (mk (scalar_int t))) as [q|e]; [|discriminate]. injection H as <-.
      eapply yields_bind; [exact Y|]. intros o s3 A3 (u & -> & Du). apply yields_ret. constructor. exact Du.
    + injection H as <-. apply yields_weak_warn.
  - apply (yields_extend lv (mk (scalar_int t)) s1 p r N).
    + intros lvs sl ->. exact (Nl _ _ eq_refl).
    + destruct (is_iterable p) eqn:It.
      * destruct (p_getitem p (mk (scalar_int t))) as [q|e] eqn:G; [|discriminate]. injection H as <-.
        econstructor; [exact It|exact G|constructor].
      * injection H as <-. apply walk_not. exact It.
Qed.

(** ** Operators that are given expressions without reading them *)
Definition lambda_vals (o : oper) : bool :=
  negb (o_assign o) && negb (o_map o) && negb (o_fold o) && negb (o_scan o)
  && negb (f_rvals (o_flags o)) && f_vals (o_flags o)
  && negb (f_list_each (o_flags o)) && negb (f_range_each (o_flags o)).

Definition prepares (o : oper) (s1 : state) (e : tree hval) (x : xval) (s2 : state) : Prop :=
  exists n, forall m, (n <= m)%nat -> prepare (run m) (o_flags o) (ATree e) s1 = Ok (AVal x, false) s2.
Lemma den_block h v p : den h v p -> h_block v = is_block p.
Proof. intros D. inversion D; subst; reflexivity. Qed.
Lemma reaches_prepared o s1 e x s2 p :
  lambda_vals o = true -> evals s1 e x s2 -> stands s2 x p -> is_block p = false ->
  exists s3, prepares o s1 e x s3 /\ only_adds s2 s3.
Proof.
  intros P [n E] St B. unfold lambda_vals in P. split_flags P.
  destruct (stands_read _ _ _ St) as (v & s3 & E3 & A3 & D3).
  pose proof (den_block _ _ _ D3) as Bv. rewrite B in Bv.
  assert (HP : forall m, (n <= m)%nat -> prepare (run m) (o_flags o) (ATree e) s1
     = (if f_in_lambda (o_flags o) then match x with
              | XL lv => v <- get_lval lv;; mret (AVal x, h_block v)
              | _ => mret (AVal x, x_block x)
              end else mret (AVal x, false)) s2).
  { intros m Lm. unfold prepare.
    repeat match goal with H : f_rvals _ = _ |- _ => rewrite H end.
    repeat match goal with H : f_vals _ = _ |- _ => rewrite H end. cbn [orb eval_arg].
    rewrite (bind_step _ _ _ _ _ (more_eval n m _ _ _ ltac:(lia) E ltac:(discriminate))).
    rewrite expands_none by assumption. reflexivity. }
  destruct (f_in_lambda (o_flags o)).
  - destruct x as [w|lv|o']; cbn [rval_h] in E3; [| |discriminate].
    + injection E3 as -> ->. exists s3. split; [|apply adds_refl]. exists n. intros m Lm.
      rewrite HP by exact Lm. destruct v; try discriminate; reflexivity.
    + exists s3. split; [|apply adv_only_adds; exact A3]. exists n. intros m Lm.
      rewrite HP by exact Lm. rewrite (bind_step _ _ _ _ _ E3), Bv. reflexivity.
  - exists s2. split; [|apply adds_refl]. exists n. exact HP.
Qed.

Lemma evals_lambda1 text o e x s s1 y s2 :
  op_by_arity 1 (s_ text) = Some o -> lambda_vals o = true ->
  prepares o s e x s1 -> ends (fun R => call_fun R (o_fun o) [AVal x]) s1 y s2 ->
  evals s (app text [e]) y s2.
Proof.
  intros Fo P [n Pr] [m E]. unfold app. cbn [length]. rewrite Fo. apply evals_app. exists (max n m).
  unfold lambda_vals in P. split_flags P. unfold eval_op.
  repeat match goal with A : o_assign _ = _ |- _ => rewrite A; clear A
                       | A : o_map _ = _ |- _ => rewrite A; clear A
                       | A : o_fold _ = _ |- _ => rewrite A; clear A
                       | A : o_scan _ = _ |- _ => rewrite A; clear A end.
  cbn [map mmap].
  rewrite (bind_step _ _ s [(AVal x, false)] s1).
  2:{ rewrite (bind_step _ _ _ _ _ (Pr (max n m) ltac:(lia))). reflexivity. }
  cbn [map fst existsb snd orb]. rewrite apply_plain by assumption. apply catch_ok.
  exact (more_ends _ m (max n m) _ _ _ (steady_call_fun _ _) ltac:(lia) E).
Qed.
Lemma evals_lambda2 text o e1 e2 x1 x2 s s1 s2 y s3 :
  op_by_arity 2 (s_ text) = Some o -> lambda_vals o = true ->
  prepares o s e1 x1 s1 -> prepares o s1 e2 x2 s2 ->
  ends (fun R => call_fun R (o_fun o) [AVal x1; AVal x2]) s2 y s3 ->
  evals s (app text [e1; e2]) y s3.
Proof.
  intros Fo P [n1 P1] [n2 P2] [m E]. unfold app. cbn [length]. rewrite Fo. apply evals_app.
  set (N := max m (max n1 n2)). exists N.
  unfold lambda_vals in P. split_flags P. unfold eval_op.
  repeat match goal with A : o_assign _ = _ |- _ => rewrite A; clear A
                       | A : o_map _ = _ |- _ => rewrite A; clear A
                       | A : o_fold _ = _ |- _ => rewrite A; clear A
                       | A : o_scan _ = _ |- _ => rewrite A; clear A end.
  cbn [map mmap].
  rewrite (bind_step _ _ s [(AVal x1, false); (AVal x2, false)] s2).
  2:{ rewrite (bind_step _ _ _ _ _ (P1 N ltac:(lia))).
      rewrite (bind_step _ _ s1 [(AVal x2, false)] s2); [reflexivity|].
      rewrite (bind_step _ _ _ _ _ (P2 N ltac:(lia))). reflexivity. }
  cbn [map fst existsb snd orb]. rewrite apply_plain by assumption. apply catch_ok.
  exact (more_ends _ m N _ _ _ (steady_call_fun _ _) ltac:(lia) E).
Qed.
