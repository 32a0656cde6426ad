(** * Evaluating operators: the objects follow the values

    Computations that only add cells to the heap and print warnings. *)

From Coq Require Import String List NArith ZArith Bool Arith Lia.
From Verif Require Import PyStr PyRe PyNum Tokens OpFun OpTable Scan Parse
                          PTypes Ops OpsSeq Apply PFacts ItemProof
                          Heap Exec SpecHeap HeapProof SpecVars.
Import ListNotations.
Local Open Scope string_scope.
Local Open Scope list_scope.
Local Open Scope Z_scope.

(** ** States that only got more cells and more warnings *)
Definition adv (s s' : state) : Prop :=
  exists t d, s' = set_diag (st_diag s ++ d) (grow t s).

Lemma adv_refl s : adv s s.
Proof.
  exists [], []. unfold grow, set_heap, set_diag. simpl. rewrite !app_nil_r.
  destruct s; reflexivity.
Qed.
Lemma adv_trans s1 s2 s3 : adv s1 s2 -> adv s2 s3 -> adv s1 s3.
Proof.
  intros (t1 & d1 & ->) (t2 & d2 & ->). exists (t1 ++ t2), (d1 ++ d2).
  unfold grow, set_heap, set_diag. simpl. rewrite !app_assoc. reflexivity.
Qed.
Lemma adv_grow t s : adv s (grow t s).
Proof.
  exists t, []. unfold grow, set_heap, set_diag. simpl. rewrite app_nil_r.
  reflexivity.
Qed.
Lemma adv_warn w s : adv s (if st_warn s then set_diag (st_diag s ++ [w]) s else s).
Proof.
  destruct (st_warn s); [|apply adv_refl]. exists [], [w].
  unfold grow, set_heap, set_diag. simpl. rewrite app_nil_r. reflexivity.
Qed.

Lemma adv_den s s' v p : adv s s' -> den (st_heap s) v p -> den (st_heap s') v p.
Proof. intros (t & d & ->) D. simpl. apply den_app. exact D. Qed.
Lemma adv_dens s s' v p : adv s s' -> dens (st_heap s) v p -> dens (st_heap s') v p.
Proof. intros (t & d & ->) D. simpl. apply dens_app. exact D. Qed.
Lemma adv_dent s s' v p : adv s s' -> dent (st_heap s) v p -> dent (st_heap s') v p.
Proof. intros (t & d & ->) D. simpl. apply dent_app_heap. exact D. Qed.
Lemma adv_vars s s' : adv s s' -> st_vars s' = st_vars s.
Proof. intros (t & d & ->). reflexivity. Qed.
Lemma adv_scopes s s' : adv s s' -> st_scopes s' = st_scopes s.
Proof. intros (t & d & ->). reflexivity. Qed.
Lemma adv_depth s s' : adv s s' -> st_depth s' = st_depth s.
Proof. intros (t & d & ->). reflexivity. Qed.
Lemma adv_fmt s s' : adv s s' -> st_fmt s' = st_fmt s.
Proof. intros (t & d & ->). reflexivity. Qed.
Lemma adv_tao s s' : adv s s' -> st_tao s' = st_tao s.
Proof. intros (t & d & ->). reflexivity. Qed.
Lemma adv_length s s' : adv s s' -> (length (st_heap s) <= length (st_heap s'))%nat.
Proof. intros (t & d & ->). simpl. rewrite app_length. lia. Qed.
Lemma adv_nth s s' l c :
  adv s s' -> nth_error (st_heap s) l = Some c -> nth_error (st_heap s') l = Some c.
Proof.
  intros (t & d & ->) E. simpl. rewrite nth_error_app1; [exact E|].
  apply nth_error_Some. congruence.
Qed.

(** ** Results *)
Definition yields {A} (m : M A) (s : state) (Q : A -> state -> Prop) : Prop :=
  exists a s', m s = Ok a s' /\ adv s s' /\ Q a s'.

Lemma yields_ret {A} (a : A) s (Q : A -> state -> Prop) : Q a s -> yields (mret a) s Q.
Proof. intros H. exists a, s. split; [reflexivity|]. split; [apply adv_refl|exact H]. Qed.
Lemma yields_bind {A B} (m : M A) (f : A -> M B) s Q Q' :
  yields m s Q ->
  (forall a s', adv s s' -> Q a s' -> yields (f a) s' Q') ->
  yields (mbind m f) s Q'.
Proof.
  intros (a & s1 & E & A1 & H) Hf. destruct (Hf a s1 A1 H) as (b & s2 & E2 & A2 & H2).
  exists b, s2. unfold mbind. rewrite E, E2. split; [reflexivity|].
  split; [eapply adv_trans; eauto|exact H2].
Qed.
Lemma yields_weaken {A} (m : M A) s (Q Q' : A -> state -> Prop) :
  yields m s Q -> (forall a s', adv s s' -> Q a s' -> Q' a s') -> yields m s Q'.
Proof. intros (a & s1 & E & A1 & H) W. exists a, s1. auto. Qed.

Lemma yields_warn w s : yields (mwarn w) s (fun _ _ => True).
Proof.
  exists tt. eexists. split; [reflexivity|]. split; [apply adv_warn|exact I].
Qed.
Lemma yields_warns ws : forall s, yields (mfor mwarn ws) s (fun _ _ => True).
Proof.
  induction ws as [|w ws IH]; intros s; cbn [mfor]; [apply yields_ret; exact I|].
  eapply yields_bind; [apply yields_warn|]. intros. apply IH.
Qed.
Lemma yields_fresh p s : yields (fresh p) s (fun v s' => den (st_heap s') v p).
Proof.
  destruct (fresh_ok p s) as (v & t & E & D & _). exists v, (grow t s).
  split; [exact E|]. split; [apply adv_grow|exact D].
Qed.
Lemma yields_fresh_all ps s :
  yields (fresh_all ps) s (fun vs s' => dens (st_heap s') vs ps).
Proof.
  destruct (fresh_all_ok ps s) as (v & t & E & D & _). exists v, (grow t s).
  split; [exact E|]. split; [apply adv_grow|exact D].
Qed.
Lemma yields_copy v p s :
  den (st_heap s) v p -> yields (copy v) s (fun v' s' => den (st_heap s') v' p).
Proof.
  intros D. destruct (copy_ok v s p D) as (v' & t & E & D' & _). exists v', (grow t s).
  split; [exact E|]. split; [apply adv_grow|exact D'].
Qed.
Lemma yields_copies vs ps s :
  dens (st_heap s) vs ps ->
  yields (copies vs) s (fun vs' s' => dens (st_heap s') vs' ps).
Proof.
  intros D. destruct (copies_ok vs s ps D) as (v' & t & E & D' & _). exists v', (grow t s).
  split; [exact E|]. split; [apply adv_grow|exact D'].
Qed.
Lemma yields_new_list vs ps s :
  dens (st_heap s) vs ps ->
  yields (new_list vs) s (fun v s' => den (st_heap s') v (PList ps)).
Proof.
  intros D. destruct (new_list_ok vs s ps D) as (v & t & E & D' & _).
  exists v, (grow t s). split; [exact E|]. split; [apply adv_grow|exact D'].
Qed.
Lemma yields_dread v p s :
  den (st_heap s) v p -> yields (dread v) s (fun q s' => q = p /\ s' = s).
Proof.
  intros D. exists p, s. split; [apply dread_ok; exact D|].
  split; [apply adv_refl|auto].
Qed.
Lemma yields_dreads vs : forall ps s,
  dens (st_heap s) vs ps -> yields (mmap dread vs) s (fun qs s' => qs = ps /\ s' = s).
Proof.
  induction vs as [|v vs IH]; intros ps s D; inversion D; subst; cbn [mmap].
  - apply yields_ret. auto.
  - eapply yields_bind; [apply yields_dread; eassumption|]. intros q s' A [-> ->].
    eapply yields_bind; [apply IH; eassumption|]. intros qs s' A' [-> ->].
    apply yields_ret. auto.
Qed.
Lemma yields_load_str l str s :
  nth_error (st_heap s) l = Some (OS str) ->
  yields (load_str l) s (fun x s' => x = str /\ s' = s).
Proof.
  intros E. exists str, s. unfold load_str, load, mbind. rewrite E.
  split; [reflexivity|]. split; [apply adv_refl|auto].
Qed.
Lemma yields_load_list l items s :
  nth_error (st_heap s) l = Some (OL items) ->
  yields (load_list l) s (fun x s' => x = items /\ s' = s).
Proof.
  intros E. exists items, s. unfold load_list, load, mbind. rewrite E.
  split; [reflexivity|]. split; [apply adv_refl|auto].
Qed.
Lemma yields_fmt s : yields get_fmt s (fun f s' => f = st_fmt s /\ s' = s).
Proof. exists (st_fmt s), s. split; [reflexivity|]. split; [apply adv_refl|auto]. Qed.

(** ** A computation follows a computation on values

    [c] says which error a Python exception becomes; an endless loop ([Hang])
    is not followed. *)
Definition follows {A B} (c : exn -> err) (rel : heap -> A -> B -> Prop)
           (m : M A) (s : state) (r : pm B) : Prop :=
  match snd r with
  | Val b => yields m s (fun a s' => rel (st_heap s') a b)
  | Exn Hang => True
  | Exn e => exists s', m s = Err (c e) s' /\ adv s s'
  end.
Definition thrown (e : exn) : err := EPy e.
Definition caught (e : exn) : err :=
  match e with TypeError => EFatal | e => EPy e end.
(** The error inside an item-wise application, and outside. *)
Definition denx (h : heap) (x : xval) (p : pval) : Prop :=
  exists v, x = XR v /\ den h v p.

Lemma follows_ret {A B} c (rel : heap -> A -> B -> Prop) a b s :
  rel (st_heap s) a b -> follows c rel (mret a) s (ret b).
Proof. intros H. apply yields_ret. exact H. Qed.

Lemma follows_bind {A B A' B'} c (rel : heap -> A -> B -> Prop)
      (rel' : heap -> A' -> B' -> Prop) (m : M A) (f : A -> M A') s r
      (g : B -> pm B') :
  follows c rel m s r ->
  (forall a b s', adv s s' -> rel (st_heap s') a b -> snd r = Val b ->
                  follows c rel' (f a) s' (g b)) ->
  follows c rel' (mbind m f) s (bind r g).
Proof.
  destruct r as [ws [b|e]]; unfold follows; cbn [snd bind]; intros H Hf.
  - destruct H as (a & s1 & E & A1 & R). specialize (Hf a b s1 A1 R eq_refl).
    destruct (g b) as [ws' [b'|e']]; cbn [snd] in *.
    + destruct Hf as (a' & s2 & E2 & A2 & R2). exists a', s2. unfold mbind.
      rewrite E, E2. split; [reflexivity|]. split; [eapply adv_trans; eauto|exact R2].
    + destruct e'; auto; destruct Hf as (s2 & E2 & A2); exists s2; unfold mbind;
        rewrite E, E2; (split; [reflexivity|eapply adv_trans; eauto]).
  - destruct e; auto; destruct H as (s1 & E & A1); exists s1; unfold mbind;
      rewrite E; auto.
Qed.

(** A step on the objects alone. *)
Lemma follows_step {A A' B'} c (rel' : heap -> A' -> B' -> Prop)
      (m : M A) (f : A -> M A') s Q (r : pm B') :
  yields m s Q ->
  (forall a s', adv s s' -> Q a s' -> follows c rel' (f a) s' r) ->
  follows c rel' (mbind m f) s r.
Proof.
  intros (a & s1 & E & A1 & R) Hf. specialize (Hf a s1 A1 R).
  unfold follows in *. destruct (snd r) as [b'|e'].
  - destruct Hf as (a' & s2 & E2 & A2 & R2). exists a', s2. unfold mbind.
    rewrite E, E2. split; [reflexivity|]. split; [eapply adv_trans; eauto|exact R2].
  - destruct e'; auto; destruct Hf as (s2 & E2 & A2); exists s2; unfold mbind;
      rewrite E, E2; (split; [reflexivity|eapply adv_trans; eauto]).
Qed.

Lemma follows_of_pm {B} (m : pm B) s :
  follows thrown (fun _ a b => a = b) (of_pm m) s m.
Proof.
  unfold of_pm. eapply follows_step; [apply yields_warns|]. intros [] s' A _.
  unfold follows. destruct m as [ws [b|e]]; cbn [snd of_res].
  - apply yields_ret. reflexivity.
  - destruct e; auto; exists s'; (split; [reflexivity|apply adv_refl]).
Qed.

Lemma Forall2_weaken {A B} (R R' : A -> B -> Prop) l m :
  (forall x y, R x y -> R' x y) -> Forall2 R l m -> Forall2 R' l m.
Proof. intros H. induction 1; constructor; auto. Qed.

(** Mapping over lists whose items are related. *)
Lemma follows_mmap {X A B} c (rel : heap -> A -> B -> Prop) (f : X -> M A)
      (items : list X) {Y} (ps : list Y) (relx : state -> X -> Y -> Prop)
      (g : Y -> pm B) :
  (forall h t a b, rel h a b -> rel (h ++ t) a b) ->
  (forall s s' x y, adv s s' -> relx s x y -> relx s' x y) ->
  forall s,
  Forall2 (relx s) items ps ->
  (forall x y s', adv s s' -> In x items -> In y ps -> relx s' x y ->
                  follows c rel (f x) s' (g y)) ->
  follows c (fun h l l' => Forall2 (rel h) l l') (mmap f items) s (mapM g ps).
Proof.
  intros Mon Monx s F. revert F.
  enough (G : forall s0, adv s s0 -> Forall2 (relx s0) items ps ->
    (forall x y s', adv s s' -> In x items -> In y ps -> relx s' x y ->
                  follows c rel (f x) s' (g y)) ->
    follows c (fun h l l' => Forall2 (rel h) l l') (mmap f items) s0 (mapM g ps)).
  { intros F. apply G; [apply adv_refl|exact F]. }
  intros s0 A0 F. revert s0 A0 F. revert ps.
  induction items as [|x items IH]; intros ps s0 A0 F Hf; inversion F; subst;
    cbn [mmap mapM].
  - apply follows_ret. constructor.
  - eapply follows_bind.
    + apply Hf; [exact A0|left; reflexivity|left; reflexivity|assumption].
    + intros a b s1 A1 R1 _.
      eapply follows_bind.
      * apply IH with (ps := l'); [eapply adv_trans; eauto| |].
        -- eapply Forall2_weaken; [|eassumption]. intros; eapply Monx; eauto.
        -- intros; apply Hf; auto; now right.
      * intros ys bs s2 A2 R2 _. apply follows_ret. constructor; [|exact R2].
        destruct A2 as (t & d & ->). apply Mon. exact R1.
Qed.

(** ** Iterating *)
Lemma yields_iter v p ps s :
  den (st_heap s) v p -> p_iter p = Val ps ->
  yields (h_iter v) s (fun vs s' => dens (st_heap s') vs ps).
Proof.
  intros D E. inversion D; subst; cbn [p_iter] in E; cbn [h_iter].
  - injection E as <-. eapply yields_bind; [apply yields_load_str; eassumption|].
    intros a s' A [-> ->]. apply yields_fresh_all.
  - injection E as <-. apply yields_fresh_all.
  - injection E as <-. eapply yields_weaken; [apply yields_load_list; eassumption|].
    intros a s' A [-> ->]. assumption.
  - destruct hi as [u|]; [|discriminate]. injection E as <-. apply yields_fresh_all.
  - discriminate.
  - injection E as <-. apply yields_ret. constructor.
Qed.

Lemma follows_iter c v p s :
  den (st_heap s) v p -> is_list_or_range p = true ->
  follows c (fun h vs ps => dens h vs ps) (h_iter v) s (lift (p_iter p)).
Proof.
  intros D L. unfold follows, lift. cbn [snd].
  destruct (p_iter p) as [ps|e] eqn:E.
  - eapply yields_iter; eauto.
  - destruct p as [| | |lo [u|]| |]; try discriminate. injection E as <-. exact I.
Qed.

Definition size_of (p : pval) : option nat :=
  if infinite p then None else Some (size_hint p).

Lemma dens_length h vs ps : dens h vs ps -> length vs = length ps.
Proof. induction 1; simpl; congruence. Qed.

Lemma infinite_range lo hi :
  infinite (PRange lo hi) = match hi with None => true | Some _ => false end.
Proof. destruct hi; reflexivity. Qed.

Lemma yields_size v p s :
  den (st_heap s) v p -> is_list_or_range p = true ->
  yields (h_size v) s (fun n _ => n = size_of p).
Proof.
  intros D L. inversion D; subst; try discriminate.
  - cbn [h_size]. eapply yields_bind; [eapply yields_iter; [exact D|reflexivity]|].
    intros vs s' A H'. apply yields_ret. apply dens_length in H'. rewrite H'. reflexivity.
  - destruct hi as [u|]; cbn [h_size]; [|apply yields_ret; reflexivity].
    eapply yields_bind; [eapply yields_iter; [exact D|reflexivity]|].
    intros vs s' A H'. apply yields_ret. apply dens_length in H'. rewrite H'.
    unfold size_of. rewrite infinite_range. cbn [size_hint]. rewrite map_length.
    reflexivity.
Qed.

Lemma p_iter_finite p : is_list_or_range p = true -> infinite p = false ->
  p_iter p = Val (zip_items 0 p).
Proof.
  destruct p as [| |l|lo [u|]| |]; try discriminate; reflexivity.
Qed.
Lemma zip_items_finite p n m : infinite p = false -> zip_items n p = zip_items m p.
Proof. destruct p as [| |l|lo [u|]| |]; try reflexivity. discriminate. Qed.
Lemma size_hint_items p n : infinite p = false -> is_list_or_range p = true ->
  size_hint p = length (zip_items n p).
Proof.
  destruct p as [| |l|lo [u|]| |]; try discriminate; intros _ _; simpl.
  - reflexivity.
  - rewrite map_length. reflexivity.
Qed.

Lemma zseq_seq lo n :
  map scal_Z (zseq lo (lo + Z.of_nat n))
  = map (fun i => scal_Z (lo + Z.of_nat i)) (seq 0 n).
Proof.
  unfold zseq. rewrite map_map. replace (Z.to_nat (lo + Z.of_nat n - lo)) with n by lia.
  reflexivity.
Qed.

Lemma dens_firstn h n vs ps : dens h vs ps -> dens h (firstn n vs) (firstn n ps).
Proof.
  intros D. revert n. induction D; intros [|n]; simpl; constructor; auto.
Qed.
Lemma dens_skipn h n vs ps : dens h vs ps -> dens h (skipn n vs) (skipn n ps).
Proof.
  intros D. revert n. induction D; intros [|n]; simpl; try constructor; auto.
Qed.
Lemma dens_append h vs ps vs' ps' :
  dens h vs ps -> dens h vs' ps' -> dens h (vs ++ vs') (ps ++ ps').
Proof. induction 1; simpl; auto. constructor; auto. Qed.

Lemma yields_take n v p s :
  den (st_heap s) v p -> is_list_or_range p = true ->
  yields (h_take n v) s
         (fun vs s' => dens (st_heap s') vs
                         (if infinite p then zip_items n p else firstn n (zip_items n p))).
Proof.
  intros D L. destruct (infinite p) eqn:I.
  - destruct p as [| | |lo [u|]| |]; try discriminate. inversion D; subst.
    cbn [h_take zip_items]. rewrite <- zseq_seq. apply yields_fresh_all.
  - destruct p as [| |l|lo [u|]| |]; try discriminate; inversion D; subst;
      cbn [h_take zip_items].
    + eapply yields_bind; [eapply yields_iter; [exact D|reflexivity]|].
      intros vs s' A H'. apply yields_ret. apply dens_firstn. exact H'.
    + eapply yields_bind; [eapply yields_iter; [exact D|reflexivity]|].
      intros vs s' A H'. apply yields_ret. apply dens_firstn. exact H'.
Qed.

Definition den2 (s : state) (x : hval * hval) (y : pval * pval) : Prop :=
  den (st_heap s) (fst x) (fst y) /\ den (st_heap s) (snd x) (snd y).
Lemma dens_combine s vs ps ws qs :
  dens (st_heap s) vs ps -> dens (st_heap s) ws qs ->
  Forall2 (den2 s) (combine vs ws) (combine ps qs).
Proof.
  intros D. revert ws qs. induction D as [|v p vs ps V D IH]; intros ws qs E;
    [constructor|].
  destruct E as [|w q ws qs W E]; simpl; constructor; [split; assumption|auto].
Qed.
Lemma combine_firstn_l {A B} (l : list A) (m : list B) :
  combine l (firstn (length l) m) = combine l m.
Proof.
  revert m. induction l as [|x l IH]; intros [|y m]; simpl; try reflexivity.
  rewrite IH. reflexivity.
Qed.

Lemma yields_zip a b pa pb s :
  den (st_heap s) a pa -> den (st_heap s) b pb ->
  is_list_or_range pa = true -> is_list_or_range pb = true ->
  infinite pa && infinite pb = false ->
  yields (h_zip a b) s (fun l s' => Forall2 (den2 s') l (zip_args pa pb)).
Proof.
  intros Da Db La Lb I. unfold h_zip.
  eapply yields_bind; [apply yields_size; eassumption|]. intros na s1 A1 ->.
  eapply yields_bind; [apply yields_size; [eapply adv_den; eassumption|assumption]|].
  intros nb s2 A2 ->.
  assert (Da2 : den (st_heap s2) a pa) by eauto using adv_den.
  assert (Db2 : den (st_heap s2) b pb) by eauto using adv_den.
  unfold size_of, zip_args. destruct (infinite pa) eqn:Ia.
  - cbn [andb] in I. rewrite I. eapply yields_bind; [apply yields_take; eassumption|].
    rewrite Ia. intros la s3 A3 Dl.
    eapply yields_bind; [eapply yields_iter|].
    + eapply adv_den; [|exact Db2]. exact A3.
    + apply p_iter_finite; assumption.
    + intros lb s4 A4 Dr. apply yields_ret. apply dens_combine.
      * eapply adv_dens; eassumption.
      * rewrite (zip_items_finite pb (size_hint pa) 0 I). exact Dr.
  - eapply yields_bind; [eapply yields_iter; [exact Da2|apply p_iter_finite; assumption]|].
    intros la s3 A3 Dl. eapply yields_bind.
    + apply yields_take; [|exact Lb]. eapply adv_den; eassumption.
    + intros lb s4 A4 Dr. apply yields_ret.
      rewrite (zip_items_finite pa (size_hint pb) 0 Ia).
      destruct (infinite pb).
      * apply dens_combine; [eapply adv_dens; eassumption|exact Dr].
      * rewrite <- (combine_firstn_l (zip_items 0 pa) (zip_items (size_hint pa) pb)).
        rewrite <- (size_hint_items pa 0 Ia La).
        apply dens_combine; [eapply adv_dens; eassumption|exact Dr].
Qed.

Lemma yields_len v p s :
  den (st_heap s) v p -> is_list_or_range p = true ->
  yields (h_len v) s (fun n s' => n = (if infinite p then None
                                     else Some (Z.of_nat (size_hint p))) /\ s' = s).
Proof.
  intros D L. inversion D; subst; try discriminate; cbn [h_len].
  - eapply yields_bind; [apply yields_load_list; eassumption|]. intros x s' A [-> ->].
    apply yields_ret. cbn [size_hint]. unfold zlen. rewrite (dens_length _ _ _ H0). auto.
  - destruct hi as [u|]; apply yields_ret; rewrite infinite_range; split; auto.
    cbn [size_hint]. unfold range_ints, zseq. rewrite map_length, seq_length.
    f_equal. lia.
Qed.

(** ** Operators that only look at the values of their operands *)

Definition arg_of (v : hval) : arg := AVal (XR v).

Lemma call_fun_value R f vs :
  value_fun f (length vs) = true ->
  call_fun R f (map arg_of vs) = pure_call f (map arg_of vs).
Proof.
  destruct f; destruct vs as [|a [|b [|c [|d vs]]]]; cbn [length value_fun];
    intros H; try discriminate; try reflexivity;
    destruct c; reflexivity.
Qed.

Lemma args_r_of vs s : args_r (map arg_of vs) s = Ok vs s.
Proof.
  unfold args_r. induction vs as [|v vs IH]; [reflexivity|].
  cbn [map mmap]. unfold mbind, mret in *. cbn [arg_of]. rewrite IH. reflexivity.
Qed.

Lemma value_no_hits f ps : value_fun f (length ps) = true -> regex_hits f ps = [].
Proof.
  destruct f; destruct ps as [|a [|b [|c ps]]]; cbn [length value_fun];
    intros H; try discriminate; try reflexivity;
    destruct a; try reflexivity; destruct b; reflexivity.
Qed.

Lemma follows_pure f vs ps s :
  value_fun f (length vs) = true -> dens (st_heap s) vs ps ->
  follows thrown denx (pure_call f (map arg_of vs)) s
          (match pure_fun (st_fmt s) f ps with Some m => m | None => raise TypeError end).
Proof.
  intros V D. unfold pure_call.
  rewrite (dens_length _ _ _ D) in V. pose proof (value_no_hits _ _ V) as NH.
  eapply follows_step with (Q := fun x s' => x = vs /\ s' = s).
  { exists vs, s. rewrite args_r_of. split; [reflexivity|]. split; [apply adv_refl|auto]. }
  intros x s1 A1 [-> ->].
  eapply follows_step; [apply yields_dreads; exact D|]. intros x s2 A2 [-> ->].
  eapply follows_step; [apply yields_fmt|]. intros x s3 A3 [-> ->].
  destruct (pure_fun (st_fmt s) f ps) as [m|].
  - pose proof (follows_of_pm m s) as F. unfold follows in *.
    destruct (snd m) as [p|e] eqn:Em.
    + destruct F as (q & s1 & E & A & ->).
      eapply yields_bind with (Q := fun q s' => q = p /\ s' = s1).
      { exists p, s1. auto. }
      intros q s' A' [-> ->]. rewrite NH. cbn [mfor].
      eapply yields_bind with (Q := fun _ s' => s' = s1).
      { exists tt, s1. split; [reflexivity|]. split; [apply adv_refl|reflexivity]. }
      intros [] s2 A2' ->.
      eapply yields_bind; [apply yields_fresh|]. intros v s4 A4 Dv.
      apply yields_ret. exists v. auto.
    + destruct e; auto; destruct F as (s1 & E & A); exists s1; unfold mbind;
        rewrite E; auto.
  - unfold follows. cbn [snd raise]. exists s. split; [reflexivity|apply adv_refl].
Qed.

Lemma follows_catch_thrown {A B} (rel : heap -> A -> B -> Prop) m s r :
  follows thrown rel m s r -> follows caught rel (catch_type m) s r.
Proof.
  unfold follows, catch_type, yields. destruct (snd r) as [b|e].
  - intros (a & s' & E & H). exists a, s'. rewrite E. auto.
  - destruct e; auto; intros (s' & E & H); exists s'; rewrite E; auto.
Qed.
Lemma follows_catch_caught {A B} (rel : heap -> A -> B -> Prop) m s r :
  follows caught rel m s r -> follows caught rel (catch_type m) s r.
Proof.
  unfold follows, catch_type, yields. destruct (snd r) as [b|e].
  - intros (a & s' & E & H). exists a, s'. rewrite E. auto.
  - destruct e; auto; intros (s' & E & H); exists s'; rewrite E; auto.
Qed.

Lemma mmap_total {A B} (f : A -> M B) (g : A -> B) l s :
  (forall x, In x l -> f x s = Ok (g x) s) -> mmap f l s = Ok (map g l) s.
Proof.
  induction l as [|x l IH]; intros H; [reflexivity|]. cbn [mmap map].
  unfold mbind. rewrite (H x) by now left. rewrite IH by (intros; apply H; now right).
  reflexivity.
Qed.

Lemma prepare_value R fl v s :
  f_rvals fl = true ->
  prepare R fl (arg_of v) s = Ok (arg_of v, f_in_lambda fl && h_block v) s.
Proof.
  intros H. unfold prepare. rewrite H. cbn [orb arg_of rval_arg rval_x].
  unfold mbind, mret. destruct v; cbn [expands_x x_block h_block];
    try (destruct (f_range_each fl)); try (destruct (f_list_each fl));
    destruct (f_in_lambda fl); reflexivity.
Qed.

Lemma den_block_iff h v p : den h v p -> h_block v = is_block p.
Proof. intros D. inversion D; reflexivity. Qed.
Lemma dens_blocks h vs ps : dens h vs ps -> existsb h_block vs = existsb is_block ps.
Proof.
  induction 1; [reflexivity|]. simpl. rewrite (den_block_iff _ _ _ H), IHdens.
  reflexivity.
Qed.
Lemma den_expands h v p fl : den h v p -> expands_x fl (XR v) = expands fl p.
Proof. intros D. inversion D; reflexivity. Qed.

Lemma dents_app h a b a' b' :
  dents h a a' -> dents h b b' -> dents h (a ++ b) (a' ++ b').
Proof. induction 1; simpl; auto. constructor; auto. Qed.
Lemma den_lambda h o vs ps :
  dens h vs ps -> den h (lambda_x o (map XR vs)) (lambda_of o ps).
Proof.
  intros D. unfold lambda_x, lambda_of. constructor.
  - induction D; simpl; [constructor|]. apply dents_app; [|assumption].
    inversion H; subst; simpl; auto; constructor.
  - constructor. induction D; simpl; [constructor|]. constructor; [|assumption].
    inversion H; subst; simpl; auto; constructor; assumption.
Qed.

Lemma follows_to_r c m s r :
  follows c denx m s r ->
  follows c (fun h v p => den h v p) (x <- m;; to_r x) s r.
Proof.
  unfold follows. destruct (snd r) as [p|e].
  - intros H. eapply yields_bind; [exact H|]. intros x s' A (v & -> & D).
    apply yields_ret. exact D.
  - destruct e; auto; intros (s' & E & A); exists s'; unfold mbind; rewrite E; auto.
Qed.

Lemma follows_listed c (m : M (list hval)) s (r : pm (list pval)) :
  follows c (fun h l l' => Forall2 (den h) l l') m s r ->
  follows c denx (rs <- m;; v <- new_list rs;; xret v) s (do l <- r; ret (PList l)).
Proof.
  intros F. eapply follows_bind; [exact F|]. intros l ps s' A D _.
  unfold follows. cbn [snd ret].
  eapply yields_bind; [apply yields_new_list; apply dens_Forall2; exact D|].
  intros v s2 A2 Dv. apply yields_ret. exists v. auto.
Qed.

Lemma bind_assoc {A B C} (m : pm A) (f : A -> pm B) (g : B -> pm C) :
  bind (bind m f) g = bind m (fun a => bind (f a) g).
Proof.
  destruct m as [w [a|e]]; [|reflexivity]. cbn [bind].
  destruct (f a) as [w' [b|e]]; [|reflexivity]. cbn [bind].
  destruct (g b) as [w2 r]. rewrite app_assoc. reflexivity.
Qed.

Lemma eval_op_unfold R o vs s ps :
  value_op o (length vs) -> dens (st_heap s) vs ps ->
  eval_op R o (map arg_of vs) s =
  if f_in_lambda (o_flags o) && existsb is_block ps
  then Ok (XR (lambda_x o (map XR vs))) s
  else catch_type (apply_x R o (map arg_of vs)) s.
Proof.
  intros V D. unfold eval_op.
  rewrite (vo_assign _ _ V), (vo_map _ _ V), (vo_fold _ _ V), (vo_scan _ _ V).
  unfold mbind at 1.
  assert (E : mmap (prepare R (o_flags o)) (map arg_of vs) s
              = Ok (map (fun v => (arg_of v, f_in_lambda (o_flags o) && h_block v)) vs) s).
  { generalize (vo_rvals _ _ V). clear. intros V.
    induction vs as [|v vs IH]; [reflexivity|]. cbn [map mmap].
    unfold mbind. rewrite prepare_value, IH by exact V. reflexivity. }
  rewrite E.
  assert (E1 : map fst (map (fun v => (arg_of v, f_in_lambda (o_flags o) && h_block v)) vs)
               = map arg_of vs) by (rewrite map_map; reflexivity).
  assert (E2 : existsb snd (map (fun v => (arg_of v, f_in_lambda (o_flags o) && h_block v)) vs)
               = f_in_lambda (o_flags o) && existsb is_block ps).
  { rewrite <- (dens_blocks _ _ _ D). clear. induction vs as [|v vs IH];
      [destruct (f_in_lambda _); reflexivity|]. cbn [map existsb snd]. rewrite IH.
    destruct (f_in_lambda (o_flags o)), (h_block v); reflexivity. }
  rewrite E1, E2. destruct (f_in_lambda (o_flags o) && existsb is_block ps); [|reflexivity].
  unfold mbind.
  assert (E3 : mmap (rval_arg R) (map arg_of vs) s = Ok (map XR vs) s).
  { clear. induction vs as [|v vs IH]; [reflexivity|]. cbn [map mmap].
    unfold mbind, mret in *. cbn [arg_of rval_arg rval_x]. unfold mret. rewrite IH.
    reflexivity. }
  rewrite E3. reflexivity.
Qed.

(** ** [evaluate] on values *)

Lemma den_mono h t v p : den h v p -> den (h ++ t) v p.
Proof. apply den_app. Qed.

Lemma dens_map2 {A} (f : A -> hval) (g : A -> pval) h l :
  (forall x, In x l -> den h (f x) (g x)) -> dens h (map f l) (map g l).
Proof.
  induction l as [|x l IH]; intros H; simpl; constructor; [apply H; now left|].
  apply IH. intros; apply H; now right.
Qed.

Section Follow.
  Variable o : oper.

  (** Item-wise application of an operator already known to follow. *)
  Lemma follows_each fmt f R k v p s (args : hval -> list hval) (pargs : pval -> list pval) :
    (forall s' it q, adv s s' -> den (st_heap s') it q ->
       follows caught denx (i_op R o (map arg_of (args it))) s'
               (apply_fuel fmt o f (pargs q))) ->
    den (st_heap s) v p -> is_list_or_range p = true ->
    k = (fun it => map arg_of (args it)) ->
    follows caught denx (items <- h_iter v;; each_result R o k items) s
            (do l <- (do items <- lift (p_iter p);
                      mapM (fun x => apply_fuel fmt o f (pargs x)) items);
             ret (PList l)).
  Proof.
    intros H D L ->. rewrite bind_assoc.
    eapply follows_bind; [apply follows_iter; eassumption|].
    intros items ps s1 A1 Ds _. unfold each_result. apply follows_listed.
    eapply follows_mmap with (relx := fun s v p => den (st_heap s) v p).
    - intros; apply den_mono; assumption.
    - intros; eapply adv_den; eassumption.
    - apply dens_Forall2. exact Ds.
    - intros x y s2 A2 _ _ Dx. apply follows_to_r. apply H; [|exact Dx].
      eapply adv_trans; eassumption.
  Qed.

  Lemma expands_lr fl p : expands fl p = true -> is_list_or_range p = true.
  Proof. destruct p; simpl; intros; try discriminate; reflexivity. Qed.

  Lemma follows_both fmt f R a b pa pb s :
    (forall s' x y q r, adv s s' -> den (st_heap s') x q -> den (st_heap s') y r ->
       follows caught denx (i_op R o [arg_of x; arg_of y]) s'
               (apply_fuel fmt o f [q; r])) ->
    den (st_heap s) a pa -> den (st_heap s) b pb ->
    is_list_or_range pa = true -> is_list_or_range pb = true ->
    infinite pa && infinite pb = false ->
    follows caught denx
      (pairs <- h_zip a b;;
       rs <- mmap (fun '(x, y) => r <- i_op R o [AVal (XR x); AVal (XR y)];;
                                  to_r r) pairs;;
       nv <- h_len a;;
       nw <- h_len b;;
       match nv, nw with
       | Some nv, Some nw =>
         lv <- h_iter a;;
         lw <- h_iter b;;
         all <- copies (rs ++ skipn (Z.to_nat nw) lv
                           ++ skipn (Z.to_nat nv) lw);;
         l <- new_list all;; xret l
       | _, _ => fail (EPy ValueError)
       end) s
      (do l <- mapM (fun p => apply_fuel fmt o f [fst p; snd p]) (zip_args pa pb);
       if infinite pa || infinite pb then raise ValueError
       else ret (PList (l ++ skipn (size_hint pb) (zip_items 0 pa)
                          ++ skipn (size_hint pa) (zip_items 0 pb)))).
  Proof.
    intros H Da Db La Lb I.
    eapply follows_step; [apply yields_zip; eassumption|]. intros pairs s1 A1 F.
    eapply follows_bind.
    - eapply follows_mmap with (relx := den2) (rel := fun h v p => den h v p).
      + intros; apply den_mono; assumption.
      + intros s' s'' x y A [X Y]. split; eapply adv_den; eassumption.
      + exact F.
      + intros [x y] [q r] s2 A2 _ _ [X Y]. cbn [fst snd] in *.
        apply follows_to_r. apply H; auto. eapply adv_trans; eassumption.
    - intros rs ps s2 A2 Drs _.
      assert (Da2 : den (st_heap s2) a pa) by eauto using adv_den.
      assert (Db2 : den (st_heap s2) b pb) by eauto using adv_den.
      eapply follows_step; [apply yields_len; eassumption|]. intros nv s3 A3 [-> ->].
      eapply follows_step; [apply yields_len; eassumption|]. intros nw s3 A4 [-> ->].
      destruct (infinite pa) eqn:Ia, (infinite pb) eqn:Ib; cbn [orb];
        try discriminate;
        try (unfold follows; cbn [snd raise]; exists s2;
             split; [reflexivity|apply adv_refl]).
      rewrite !Nat2Z.id. unfold follows. cbn [snd ret].
      eapply yields_bind; [eapply yields_iter; [exact Da2|apply p_iter_finite; assumption]|].
      intros lv s3 A5 Dl.
      eapply yields_bind; [eapply yields_iter; [eapply adv_den; eassumption
                                               |apply p_iter_finite; assumption]|].
      intros lw s4 A6 Dw.
      eapply yields_bind.
      + apply yields_copies. apply dens_append.
        * eapply adv_dens; [|eapply adv_dens; [|apply dens_Forall2; exact Drs]];
            eassumption.
        * apply dens_append; apply dens_skipn; [exact (adv_dens _ _ _ _ A6 Dl)|exact Dw].
      + intros all s5 A7 D7.
        eapply yields_bind; [apply yields_new_list; exact D7|].
        intros l s6 A8 D8. apply yields_ret. exists l. auto.
  Qed.

  Lemma follows_call R vs ps s :
    value_fun (o_fun o) (length vs) = true ->
    dens (st_heap s) vs ps ->
    follows caught denx (catch_type (call_fun R (o_fun o) (map arg_of vs))) s
            (call_pure (st_fmt s) o ps).
  Proof.
    intros V D. rewrite call_fun_value by exact V.
    apply follows_catch_thrown. apply follows_pure; [exact V|exact D].
  Qed.

  Lemma follows_ext {A B} c (rel : heap -> A -> B -> Prop) m m' s r :
    m s = m' s -> follows c rel m' s r -> follows c rel m s r.
  Proof. intros E. unfold follows, yields. rewrite E. auto. Qed.

  Theorem eval_op_follows : forall f n vs ps s,
    (f <= n)%nat -> value_op o (length vs) -> dens (st_heap s) vs ps ->
    follows caught denx (eval_op (run n) o (map arg_of vs)) s
            (apply_fuel (st_fmt s) o f ps).
  Proof.
    induction f as [|f IH]; intros n vs ps s Le V D.
    - (* no nested application *)
      assert (U := eval_op_unfold (run n) o vs s ps V D).
      assert (Call := follows_call (run n) vs ps s (vo_fun _ _ V) D).
      generalize dependent (run n). intros R U Call.
      cbn [apply_fuel].
      destruct (f_in_lambda (o_flags o) && existsb is_block ps) eqn:Lam.
      { eapply follows_ext; [exact U|]. apply yields_ret.
        eexists. split; [reflexivity|]. apply den_lambda. exact D. }
      apply (follows_ext _ _ _ _ _ _ U). clear U.
      destruct vs as [|a [|b [|c vs]]].
      + inversion D; subst. exact Call.
      + inversion D as [|? pa ? ? Ha D']; subst. inversion D'; subst.
        cbn [map apply_x arg_of] in *.
        rewrite (den_expands _ _ _ (o_flags o) Ha).
        destruct (expands (o_flags o) pa); [exact I|exact Call].
      + inversion D as [|? pa ? ? Ha D']; subst.
        inversion D' as [|? pb ? ? Hb D'']; subst. inversion D''; subst.
        cbn [map apply_x arg_of] in *.
        rewrite (den_expands _ _ _ (o_flags o) Ha), (den_expands _ _ _ (o_flags o) Hb).
        destruct (expands (o_flags o) pa), (expands (o_flags o) pb); cbn [orb andb];
          try exact I. exact Call.
      + inversion D as [|? pa ? ? Ha D']; subst.
        inversion D' as [|? pb ? ? Hb D'']; subst. inversion D''; subst.
        exact Call.
    - destruct n as [|n]; [lia|].
      assert (K : forall s' ws qs, adv s s' -> length ws = length vs ->
                  dens (st_heap s') ws qs ->
                  follows caught denx (i_op (run (S n)) o (map arg_of ws)) s'
                          (apply_fuel (st_fmt s) o f qs)).
      { intros s' ws qs A Ln Dw. rewrite <- (adv_fmt _ _ A). cbn [run step i_op].
        apply IH; [lia| |exact Dw]. rewrite Ln. exact V. }
      assert (U := eval_op_unfold (run (S n)) o vs s ps V D).
      assert (Call := follows_call (run (S n)) vs ps s (vo_fun _ _ V) D).
      generalize dependent (run (S n)). intros R K U Call.
      cbn [apply_fuel].
      destruct (f_in_lambda (o_flags o) && existsb is_block ps) eqn:Lam.
      { eapply follows_ext; [exact U|]. apply yields_ret.
        eexists. split; [reflexivity|]. apply den_lambda. exact D. }
      apply (follows_ext _ _ _ _ _ _ U). clear U.
      destruct vs as [|a [|b [|c vs]]].
      + inversion D; subst. exact Call.
      + inversion D as [|? pa ? ? Ha D']; subst. inversion D'; subst.
        cbn [map apply_x arg_of] in *.
        rewrite (den_expands _ _ _ (o_flags o) Ha).
        destruct (expands (o_flags o) pa) eqn:Ea; [|exact Call].
        apply follows_catch_caught.
        apply (follows_each (st_fmt s) f _ _ a pa s (fun it => [it]) (fun q => [q]));
          [|exact Ha|eapply expands_lr; exact Ea|reflexivity].
        intros s' it q A Dq. apply K; [exact A|reflexivity|].
        constructor; [exact Dq|constructor].
      + inversion D as [|? pa ? ? Ha D']; subst.
        inversion D' as [|? pb ? ? Hb D'']; subst. inversion D''; subst.
        cbn [map apply_x arg_of] in *.
        rewrite (den_expands _ _ _ (o_flags o) Ha), (den_expands _ _ _ (o_flags o) Hb).
        destruct (expands (o_flags o) pa) eqn:Ea, (expands (o_flags o) pb) eqn:Eb;
          cbn [orb andb]; [| | |exact Call]; apply follows_catch_caught.
        * destruct (infinite pa && infinite pb) eqn:In; [exact I|].
          apply follows_both; auto; try (eapply expands_lr; eassumption).
          intros s' x y q r A X Y.
          apply (K s' [x; y] [q; r]); [exact A|reflexivity|].
          constructor; [exact X|]. constructor; [exact Y|constructor].
        * apply (follows_each (st_fmt s) f _ _ a pa s (fun it => [it; b])
                              (fun q => [q; pb]));
            [|exact Ha|eapply expands_lr; exact Ea|reflexivity].
          intros s' it q A Dq. apply K; [exact A|reflexivity|].
          constructor; [exact Dq|]. constructor; [eapply adv_den; eassumption|constructor].
        * apply (follows_each (st_fmt s) f _ _ b pb s (fun it => [a; it])
                              (fun q => [pa; q]));
            [|exact Hb|eapply expands_lr; exact Eb|reflexivity].
          intros s' it q A Dq. apply K; [exact A|reflexivity|].
          constructor; [eapply adv_den; eassumption|]. constructor; [exact Dq|constructor].
      + inversion D as [|? pa ? ? Ha D']; subst.
        inversion D' as [|? pb ? ? Hb D'']; subst. inversion D''; subst.
        exact Call.
  Qed.
End Follow.
