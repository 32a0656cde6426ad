(** * Value semantics of assignments *)

From Coq Require Import String List NArith ZArith Bool Arith Lia.
From Verif Require Import PyStr PyRe PyNum Tokens OpFun OpTable Unparse
                          PTypes Ops UserRe OpsSeq Apply Spec StrFacts PFacts SeqProof ItemProof RunOp
                          NumProof NumProof2
                          Heap Exec SpecHeap HeapProof ExecRel ExecInv EvalProof
                          SpecScan SpecVars VarProof PureProof MutProof SpecAlias.
Import ListNotations.
Local Open Scope string_scope.
Local Open Scope list_scope.
Local Open Scope Z_scope.

Scheme owns_mut := Induction for owns Sort Prop
  with owns_all_mut := Induction for owns_all Sort Prop.
Lemma owns_both h (P : hval -> list loc -> Prop) (Q : list hval -> list loc -> Prop) :
  (forall l t, nth_error h l = Some (OS t) -> P (HScal l) [l]) ->
  (forall l items fp, nth_error h l = Some (OL items) -> owns_all h items fp -> Q items fp ->
     P (HList l) (l :: fp)) ->
  (forall r fl, P (HPat r fl) []) -> (forall lo hi, P (HRange lo hi) []) ->
  (forall sts r, P (HBlock sts r) []) -> P HNil [] ->
  Q [] [] ->
  (forall v f vs g, owns h v f -> P v f -> owns_all h vs g -> Q vs g -> Q (v :: vs) (f ++ g)) ->
  (forall v fp, owns h v fp -> P v fp) /\ (forall vs fp, owns_all h vs fp -> Q vs fp).
Proof.
  intros. split.
  - intros v fp O. apply (owns_mut h (fun v fp _ => P v fp) (fun vs fp _ => Q vs fp)); eauto.
  - intros v fp O. apply (owns_all_mut h (fun v fp _ => P v fp) (fun vs fp _ => Q vs fp)); eauto.
Qed.

(** ** Footprints *)
Lemma owns_lt_both h :
  (forall v fp, owns h v fp -> forall l, In l fp -> (l < length h)%nat) /\
  (forall vs fp, owns_all h vs fp -> forall l, In l fp -> (l < length h)%nat).
Proof.
  apply owns_both; try (intros; contradiction).
  - intros l t E k [<-|[]]. apply nth_error_Some. congruence.
  - intros l items fp E _ IH k [<-|I]; [apply nth_error_Some; congruence|auto].
  - intros v f vs g _ H1 _ H2 l I. apply in_app_iff in I. destruct I; auto.
Qed.
Lemma owns_lt h v fp l : owns h v fp -> In l fp -> (l < length h)%nat.
Proof. intros O I. exact (proj1 (owns_lt_both h) v fp O l I). Qed.
Lemma owns_all_lt h v fp l : owns_all h v fp -> In l fp -> (l < length h)%nat.
Proof. intros O I. exact (proj2 (owns_lt_both h) v fp O l I). Qed.

Lemma owns_frame_both h h' :
  (forall v fp, owns h v fp -> (forall l, In l fp -> nth_error h' l = nth_error h l) -> owns h' v fp) /\
  (forall vs fp, owns_all h vs fp -> (forall l, In l fp -> nth_error h' l = nth_error h l) ->
     owns_all h' vs fp).
Proof.
  apply owns_both; try (intros; constructor; fail).
  - intros l t E K. econstructor. rewrite K by now left. exact E.
  - intros l items fp E _ IH K. econstructor; [rewrite K by (now left); exact E|].
    apply IH. intros k I. apply K. now right.
  - intros v f vs g _ H1 _ H2 K. constructor; [apply H1|apply H2];
      intros l I; apply K, in_app_iff; auto.
Qed.
Lemma owns_frame h h' v fp :
  owns h v fp -> (forall l, In l fp -> nth_error h' l = nth_error h l) -> owns h' v fp.
Proof. apply (proj1 (owns_frame_both h h')). Qed.
Lemma owns_all_frame h h' v fp :
  owns_all h v fp -> (forall l, In l fp -> nth_error h' l = nth_error h l) -> owns_all h' v fp.
Proof. apply (proj2 (owns_frame_both h h')). Qed.
Lemma owns_app h t v fp : owns h v fp -> owns (h ++ t) v fp.
Proof.
  intros O. apply (owns_frame h); [exact O|]. intros l I. apply nth_app_old.
  eapply owns_lt; eassumption.
Qed.
Lemma owns_all_app h t v fp : owns_all h v fp -> owns_all (h ++ t) v fp.
Proof.
  intros O. apply (owns_all_frame h); [exact O|]. intros l I. apply nth_app_old.
  eapply owns_all_lt; eassumption.
Qed.

Lemma owns_fun_both h :
  (forall v fp, owns h v fp -> forall fp', owns h v fp' -> fp' = fp) /\
  (forall vs fp, owns_all h vs fp -> forall fp', owns_all h vs fp' -> fp' = fp).
Proof.
  apply owns_both; try (intros; match goal with H : owns _ _ _ |- _ => inversion H; reflexivity end).
  - intros l items fp E _ IH fp' O. inversion O as [|? items' fp2 E' O'| | | |]; subst.
    rewrite E in E'. injection E' as <-. f_equal. auto.
  - intros fp' O. inversion O. reflexivity.
  - intros v f vs g _ H1 _ H2 fp' O. inversion O; subst. f_equal; auto.
Qed.

Lemma reach_owned_both h :
  (forall v fp, owns h v fp -> forall p, den h v p -> plain p = true ->
     forall l, reach h v l -> In l fp) /\
  (forall vs fp, owns_all h vs fp -> forall ps, dens h vs ps -> forallb plain ps = true ->
     forall v l, In v vs -> reach h v l -> In l fp).
Proof.
  apply owns_both.
  - intros l t E p D P k R. inversion R; subst. now left.
  - intros l items fp E _ IH p D P k R. inversion D as [| |? items' ps E' Ds| | |]; subst.
    rewrite E in E'. injection E' as <-. inversion R; subst; [now left|]. right.
    match goal with A : nth_error _ _ = Some (OL ?i) |- _ =>
      rewrite E in A; injection A as <- end.
    eapply IH; eassumption.
  - intros r fl p D P k R. inversion R.
  - intros lo hi p D P k R. inversion R.
  - intros sts r p D P. inversion D; subst. discriminate.
  - intros p D P k R. inversion R.
  - intros ps D P v l [].
  - intros v f vs g _ H1 _ H2 ps D P w l I R. inversion D as [|? p ? qs Dv Dvs]; subst.
    cbn [forallb] in P. apply andb_prop in P. destruct P as [P1 P2].
    apply in_app_iff. destruct I as [<-|I]; [left; eauto|right; eauto].
Qed.
Lemma reach_owned h v fp p l :
  owns h v fp -> den h v p -> plain p = true -> reach h v l -> In l fp.
Proof. intros O D P. exact (proj1 (reach_owned_both h) v fp O p D P l). Qed.
Lemma owned_reach_both h :
  (forall v fp, owns h v fp -> forall l, In l fp -> reach h v l) /\
  (forall vs fp, owns_all h vs fp -> forall l, In l fp -> exists v, In v vs /\ reach h v l).
Proof.
  apply owns_both; try (intros; contradiction).
  - intros l t E k [<-|[]]. constructor.
  - intros l items fp E _ IH k [<-|I]; [constructor|]. destruct (IH k I) as (v & Iv & R).
    eapply reach_item; eassumption.
  - intros v f vs g _ H1 _ H2 l I. apply in_app_iff in I. destruct I as [I|I].
    + exists v. split; [now left|auto].
    + destruct (H2 l I) as (w & Iw & R). exists w. split; [now right|auto].
Qed.

(** Disjoint lists without repetitions. *)
Lemma NoDup_append {A} (l m : list A) :
  NoDup l -> NoDup m -> (forall x, In x l -> ~ In x m) -> NoDup (l ++ m).
Proof.
  intros Hl Hm D. induction Hl as [|x l N _ IH]; [exact Hm|]. cbn [Datatypes.app]. constructor.
  - rewrite in_app_iff. intros [H|H]; [contradiction|]. exact (D x (or_introl eq_refl) H).
  - apply IH. intros y I. apply D. now right.
Qed.
Lemma NoDup_append_inv {A} (l m : list A) :
  NoDup (l ++ m) -> NoDup l /\ NoDup m /\ (forall x, In x l -> ~ In x m).
Proof.
  induction l as [|x l IH]; cbn [Datatypes.app]; intros H.
  - split; [constructor|]. split; [exact H|]. intros x [].
  - inversion H as [|? ? N H']; subst. destruct (IH H') as (A1 & A2 & A3).
    rewrite in_app_iff in N. split; [constructor; tauto|]. split; [exact A2|].
    intros y [<-|I]; [tauto|auto].
Qed.

(** ** New objects *)

(** The object is made of cells from number [n] on, all different. *)
Definition owned (h : heap) (n : nat) (v : hval) : Prop :=
  exists fp, owns h v fp /\ NoDup fp /\ forall l, In l fp -> (n <= l)%nat.
Definition owned_all (h : heap) (n : nat) (vs : list hval) : Prop :=
  exists fp, owns_all h vs fp /\ NoDup fp /\ forall l, In l fp -> (n <= l)%nat.

Lemma owned_app h t n v : owned h n v -> owned (h ++ t) n v.
Proof. intros (fp & O & N & B). exists fp. split; [apply owns_app; exact O|auto]. Qed.
Lemma owned_le h n m v : owned h n v -> (m <= n)%nat -> owned h m v.
Proof.
  intros (fp & O & N & B) L. exists fp. split; [exact O|]. split; [exact N|].
  intros l I. specialize (B l I). lia.
Qed.
Lemma owned_all_app h t n v : owned_all h n v -> owned_all (h ++ t) n v.
Proof. intros (fp & O & N & B). exists fp. split; [apply owns_all_app; exact O|auto]. Qed.
Lemma owned_nil h n : owned_all h n [].
Proof. exists []. split; [constructor|]. split; [constructor|]. intros l []. Qed.
Lemma owned_cons h t n v vs :
  owned h n v -> (n <= length h)%nat -> owned_all (h ++ t) (length h) vs ->
  owned_all (h ++ t) n (v :: vs).
Proof.
  intros (f & O & N & B) L (g & Os & Ns & Bs). exists (f ++ g).
  split; [constructor; [apply owns_app; exact O|exact Os]|]. split.
  - apply NoDup_append; [exact N|exact Ns|]. intros x I I'.
    pose proof (owns_lt _ _ _ _ O I). specialize (Bs x I'). lia.
  - intros l I. apply in_app_iff in I. destruct I as [I|I]; [auto|]. specialize (Bs l I). lia.
Qed.
Lemma owned_new_list h n vs :
  owned_all h n vs -> (n <= length h)%nat -> owned (h ++ [OL vs]) n (HList (length h)).
Proof.
  intros (fp & O & N & B) L. exists (length h :: fp). split; [|split].
  - econstructor; [rewrite nth_error_app2, Nat.sub_diag by lia; reflexivity|].
    apply owns_all_app. exact O.
  - constructor; [|exact N]. intros I. pose proof (owns_all_lt _ _ _ _ O I). lia.
  - intros l [<-|I]; [exact L|auto].
Qed.
Lemma owned_new_scal h t : owned (h ++ [OS t]) (length h) (HScal (length h)).
Proof.
  exists [length h]. split; [|split].
  - econstructor. rewrite nth_error_app2, Nat.sub_diag by lia. reflexivity.
  - constructor; [intros []|constructor].
  - intros l [<-|[]]. lia.
Qed.
Lemma owned_none h n v :
  match v with HScal _ | HList _ => False | _ => True end -> owned h n v.
Proof.
  intros H. exists []. split; [destruct v; try contradiction; constructor|].
  split; [constructor|]. intros l [].
Qed.

Lemma alloc_owned : forall p h v h', alloc_val p h = (v, h') ->
  exists t, h' = h ++ t /\ owned h' (length h) v.
Proof.
  apply (pval_full_ind
    (fun p => forall h v h', alloc_val p h = (v, h') ->
       exists t, h' = h ++ t /\ owned h' (length h) v) (fun _ => True)); auto.
  - intros t h v h' E. injection E as <- <-. exists [OS t]. split; [reflexivity|].
    apply owned_new_scal.
  - intros r f h v h' E. injection E as <- <-. exists []. rewrite app_nil_r. split; [reflexivity|].
    apply owned_none. exact I.
  - intros ps F h v h' E. cbn [alloc_val] in E. unfold hnew in E.
    destruct (alloc_all alloc_val ps h) as [vs h1] eqn:E1. injection E as <- <-.
    assert (G : exists t, h1 = h ++ t /\ owned_all h1 (length h) vs).
    { clear -F E1. revert h vs h1 E1. induction F as [|p ps P _ IH]; intros h vs h1 E.
      - injection E as <- <-. exists []. rewrite app_nil_r. split; [reflexivity|apply owned_nil].
      - cbn [alloc_all] in E. destruct (alloc_val p h) as [w h2] eqn:E2.
        destruct (alloc_all alloc_val ps h2) as [ws h3] eqn:E3. injection E as <- <-.
        destruct (P _ _ _ E2) as (t & -> & Ow). destruct (IH _ _ _ E3) as (t' & -> & Ows).
        exists (t ++ t'). rewrite app_assoc. split; [reflexivity|].
        apply owned_cons; [exact Ow|rewrite app_length; lia|exact Ows]. }
    destruct G as (t & -> & Ow). exists (t ++ [OL vs]). rewrite app_assoc. split; [reflexivity|].
    apply owned_new_list; [exact Ow|rewrite app_length; lia].
  - intros lo hi h v h' E. injection E as <- <-. exists []. rewrite app_nil_r. split; [reflexivity|].
    apply owned_none. exact I.
  - intros sts r _ _ h v h' E. destruct (alloc_val_spec (PBlock sts r) h) as (w & t & E' & D & _).
    rewrite E in E'. injection E' as <- ->. exists t. split; [reflexivity|].
    apply owned_none. inversion D. exact I.
  - intros h v h' E. injection E as <- <-. exists []. rewrite app_nil_r. split; [reflexivity|].
    apply owned_none. exact I.
Qed.

Lemma copy_owned : forall n v h v' h', copy_val n v h = Some (v', h') ->
  exists t, h' = h ++ t /\ owned h' (length h) v'.
Proof.
  assert (Z : forall v h, match v with HScal _ | HList _ => False | _ => True end ->
              exists t, h = h ++ t /\ owned h (length h) v).
  { intros v h H. exists []. rewrite app_nil_r. split; [reflexivity|apply owned_none; exact H]. }
  assert (S1 : forall l h v' h',
    match nth_error h l with
    | Some (OS s) => let '(l', h1) := hnew h (OS s) in Some (HScal l', h1)
    | _ => None
    end = Some (v', h') -> exists t, h' = h ++ t /\ owned h' (length h) v').
  { intros l h v' h' E. destruct (nth_error h l) as [[t| |]|]; try discriminate.
    injection E as <- <-. exists [OS t]. split; [reflexivity|apply owned_new_scal]. }
  induction n as [|n IH]; intros v h v' h' E;
    (destruct v; cbn [copy_val] in E; [apply (S1 _ _ _ _ E)| | | | |]);
    try (injection E as <- <-; apply Z; exact I); try discriminate.
  destruct (nth_error h l) as [[|items|]|]; try discriminate.
  destruct (copy_all (copy_val n) items h) as [[vs h1]|] eqn:E1; [|discriminate].
  injection E as <- <-.
  assert (G : exists t, h1 = h ++ t /\ owned_all h1 (length h) vs).
  { clear -IH E1. revert h vs h1 E1. induction items as [|p ps IHp]; intros h vs h1 E.
    - injection E as <- <-. exists []. rewrite app_nil_r. split; [reflexivity|apply owned_nil].
    - cbn [copy_all] in E. destruct (copy_val n p h) as [[w h2]|] eqn:E2; [|discriminate].
      destruct (copy_all (copy_val n) ps h2) as [[ws h3]|] eqn:E3; [|discriminate].
      injection E as <- <-.
      destruct (IH _ _ _ _ E2) as (t & -> & Ow). destruct (IHp _ _ _ E3) as (t' & -> & Ows).
      exists (t ++ t'). rewrite app_assoc. split; [reflexivity|].
      apply owned_cons; [exact Ow|rewrite app_length; lia|exact Ows]. }
  destruct G as (t & -> & Ow). exists (t ++ [OL vs]). rewrite app_assoc. split; [reflexivity|].
  apply owned_new_list; [exact Ow|rewrite app_length; lia].
Qed.

(** ** Computations that only make objects *)
Definition quiet {A} (m : M A) : Prop :=
  forall s a s', m s = Ok a s' -> exists t, st_heap s' = st_heap s ++ t.
Definition makes (m : M hval) : Prop :=
  forall s v s', m s = Ok v s' ->
    exists t, st_heap s' = st_heap s ++ t /\ owned (st_heap s') (length (st_heap s)) v.
Definition makes_all (m : M (list hval)) : Prop :=
  forall s v s', m s = Ok v s' ->
    exists t, st_heap s' = st_heap s ++ t /\ owned_all (st_heap s') (length (st_heap s)) v.

Lemma quiet_ret {A} (a : A) : quiet (mret a).
Proof. intros s b s' E. injection E as <- <-. exists []. rewrite app_nil_r. reflexivity. Qed.
Lemma quiet_bind {A B} (m : M A) (f : A -> M B) :
  quiet m -> (forall a, quiet (f a)) -> quiet (mbind m f).
Proof.
  intros Q1 Q2 s b s' E. bind_inv E. destruct (Q1 _ _ _ E0) as (t & H).
  destruct (Q2 _ _ _ _ E) as (t' & H'). exists (t ++ t'). rewrite H', H, app_assoc. reflexivity.
Qed.
Lemma quiet_makes m : makes m -> quiet m.
Proof. intros Q s v s' E. destruct (Q _ _ _ E) as (t & H & _). eauto. Qed.
Lemma quiet_makes_all m : makes_all m -> quiet m.
Proof. intros Q s v s' E. destruct (Q _ _ _ E) as (t & H & _). eauto. Qed.
Lemma quiet_fail {A} e : quiet (@fail A e).
Proof. intros s a s' E. discriminate. Qed.
Lemma quiet_same {A} (m : M A) :
  (forall s a s', m s = Ok a s' -> st_heap s' = st_heap s) -> quiet m.
Proof. intros H s a s' E. exists []. rewrite app_nil_r. eauto. Qed.

Lemma makes_bind {A} (m : M A) f : quiet m -> (forall a, makes (f a)) -> makes (mbind m f).
Proof.
  intros Q1 Q2 s b s' E. bind_inv E. destruct (Q1 _ _ _ E0) as (t & H).
  destruct (Q2 _ _ _ _ E) as (t' & H' & O). exists (t ++ t'). rewrite H', H, app_assoc.
  split; [reflexivity|]. rewrite H', H in O. eapply owned_le; [exact O|].
  rewrite app_length. lia.
Qed.
Lemma makes_fresh p : makes (fresh p).
Proof.
  intros s v s' E. unfold fresh in E. destruct (alloc_val p (st_heap s)) as [w h] eqn:E1.
  injection E as <- <-. exact (alloc_owned _ _ _ _ E1).
Qed.
Lemma makes_copy v : makes (copy v).
Proof.
  intros s w s' E. unfold copy in E.
  destruct (copy_val _ v (st_heap s)) as [[x h]|] eqn:E1; [|discriminate].
  injection E as <- <-. exact (copy_owned _ _ _ _ _ E1).
Qed.
Lemma makes_mmap {A} (f : A -> M hval) l : (forall x, makes (f x)) -> makes_all (mmap f l).
Proof.
  intros H. induction l as [|x l IH]; intros s vs s' E; cbn [mmap] in E.
  - injection E as <- <-. exists []. rewrite app_nil_r. split; [reflexivity|apply owned_nil].
  - bind_inv E. bind_inv E. injection E as <- <-.
    destruct (H _ _ _ _ E0) as (t & H1 & O1). destruct (IH _ _ _ E1) as (t' & H2 & O2).
    exists (t ++ t'). rewrite H2, H1, app_assoc. split; [reflexivity|].
    rewrite H2, H1 in O2. rewrite H1 in O1.
    apply owned_cons; [exact O1|rewrite app_length; lia|exact O2].
Qed.
Lemma makes_list m : makes_all m -> makes (vs <- m;; new_list vs).
Proof.
  intros Q s v s' E. bind_inv E. destruct (Q _ _ _ E0) as (t & H & O).
  unfold new_list, alloc, mbind, mret in E. injection E as <- <-. cbn [st_heap set_heap].
  rewrite H. exists (t ++ [OL a]). rewrite app_assoc. split; [reflexivity|].
  rewrite H in O. apply owned_new_list; [exact O|rewrite app_length; lia].
Qed.

Lemma quiet_load l : quiet (load l).
Proof.
  apply quiet_same. intros s a s' E. unfold load in E.
  destruct (nth_error (st_heap s) l); [|discriminate]. injection E as <- <-. reflexivity.
Qed.
Lemma quiet_load_list l : quiet (load_list l).
Proof.
  apply quiet_bind; [apply quiet_load|]. intros []; try apply quiet_ret; apply quiet_fail.
Qed.
Lemma quiet_load_str l : quiet (load_str l).
Proof.
  apply quiet_bind; [apply quiet_load|]. intros []; try apply quiet_ret; apply quiet_fail.
Qed.
Lemma quiet_diverge {A} : quiet (@diverge A).
Proof. intros s a s' E. discriminate. Qed.
Lemma quiet_fresh_all ps : quiet (fresh_all ps).
Proof. apply quiet_makes_all. apply makes_mmap. apply makes_fresh. Qed.
Lemma quiet_dread v : quiet (dread v).
Proof. apply quiet_same. intros s a s' E. apply dread_inv in E. destruct E as [-> _]. reflexivity. Qed.
Lemma quiet_mmap {A B} (f : A -> M B) l : (forall x, quiet (f x)) -> quiet (mmap f l).
Proof.
  intros H. induction l as [|x l IH]; cbn [mmap]; [apply quiet_ret|].
  apply quiet_bind; [apply H|]. intros y. apply quiet_bind; [exact IH|]. intros ys. apply quiet_ret.
Qed.
Lemma quiet_warn w : quiet (mwarn w).
Proof.
  apply quiet_same. intros s a s' E. unfold mwarn in E. injection E as <- <-.
  destruct (st_warn s); reflexivity.
Qed.
Lemma quiet_mfor {A} (f : A -> M unit) l : (forall x, quiet (f x)) -> quiet (mfor f l).
Proof.
  intros H. induction l as [|x l IH]; cbn [mfor]; [apply quiet_ret|].
  apply quiet_bind; [apply H|]. intros y. exact IH.
Qed.
Lemma quiet_of_res {A} (r : res A) : quiet (of_res r).
Proof. destruct r as [a|e]; [apply quiet_ret|]. destruct e; intros s a s' E; discriminate. Qed.
Lemma quiet_of_pm {A} (m : pm A) : quiet (of_pm m).
Proof.
  unfold of_pm. apply quiet_bind; [apply quiet_mfor; apply quiet_warn|]. intros _. apply quiet_of_res.
Qed.
Lemma quiet_fmt : quiet get_fmt.
Proof. apply quiet_same. intros s a s' E. injection E as <- <-. reflexivity. Qed.
Lemma quiet_iter v : quiet (h_iter v).
Proof.
  destruct v as [l|r fl|l|lo [u|]|sts r|]; cbn [h_iter];
    try apply quiet_fresh_all; try apply quiet_load_list; try apply quiet_diverge;
    try apply quiet_fail; try apply quiet_ret.
  apply quiet_bind; [apply quiet_load_str|]. intros t. apply quiet_fresh_all.
Qed.
Lemma quiet_take n v : quiet (h_take n v).
Proof.
  destruct v as [l|r fl|l|lo [u|]|sts r|]; cbn [h_take]; try apply quiet_fresh_all;
    (apply quiet_bind; [apply quiet_iter|]; intros; apply quiet_ret).
Qed.
Lemma quiet_size v : quiet (h_size v).
Proof.
  unfold h_size. destruct v as [l|r fl|l|lo [u|]|sts r|]; try apply quiet_ret;
    try apply quiet_fail; (apply quiet_bind; [apply quiet_iter|]; intros; apply quiet_ret).
Qed.
Lemma quiet_zip v w : quiet (h_zip v w).
Proof.
  unfold h_zip. apply quiet_bind; [apply quiet_size|]. intros a.
  apply quiet_bind; [apply quiet_size|]. intros b.
  destruct a, b; try apply quiet_diverge;
    (apply quiet_bind; [first [apply quiet_iter|apply quiet_take]|]; intros x;
     apply quiet_bind; [first [apply quiet_iter|apply quiet_take]|]; intros; apply quiet_ret).
Qed.
Lemma quiet_len v : quiet (h_len v).
Proof.
  destruct v as [l|r fl|l|lo [u|]|sts r|]; cbn [h_len]; try apply quiet_ret; try apply quiet_fail;
    (apply quiet_bind; [first [apply quiet_load_str|apply quiet_load_list]|]; intros; apply quiet_ret).
Qed.

(** Operators that look at values only make a new object. *)
Definition makes_x (m : M xval) : Prop :=
  forall s x s', m s = Ok x s' ->
    exists v t, x = XR v /\ st_heap s' = st_heap s ++ t /\ owned (st_heap s') (length (st_heap s)) v.
Lemma makes_xret m : makes m -> makes_x (v <- m;; xret v).
Proof.
  intros Q s x s' E. bind_inv E. injection E as <- <-. destruct (Q _ _ _ E0) as (t & H & O).
  exists a, t. auto.
Qed.
Lemma makes_x_bind {A} (m : M A) f : quiet m -> (forall a, makes_x (f a)) -> makes_x (mbind m f).
Proof.
  intros Q1 Q2 s b s' E. bind_inv E. destruct (Q1 _ _ _ E0) as (t & H).
  destruct (Q2 _ _ _ _ E) as (v & t' & -> & H' & O). exists v, (t ++ t').
  rewrite H', H, app_assoc. split; [reflexivity|]. split; [reflexivity|].
  rewrite H', H in O. eapply owned_le; [exact O|]. rewrite app_length. lia.
Qed.
Lemma makes_to_r m : makes_x m -> makes (x <- m;; to_r x).
Proof.
  intros Q s v s' E. bind_inv E. destruct (Q _ _ _ E0) as (w & t & -> & H & O).
  cbn [to_r] in E. injection E as <- <-. exists t. auto.
Qed.
Lemma makes_xlist m : makes_all m -> makes_x (vs <- m;; v <- new_list vs;; xret v).
Proof.
  intros Q s x s' E. apply (makes_xret _ (makes_list _ Q) s x s').
  unfold mbind in *. destruct (m s); auto.
Qed.

Lemma quiet_set_var x v : quiet (set_var x v).
Proof.
  apply quiet_same. intros s a s' E. unfold set_var in E.
  destruct (local_name x); [destruct (st_scopes s); [discriminate|]|];
    injection E as <- <-; reflexivity.
Qed.
Lemma quiet_fresh p : quiet (fresh p).
Proof. apply quiet_makes. apply makes_fresh. Qed.
Lemma quiet_new_list l : quiet (new_list l).
Proof. intros s a s' E. unfold new_list, alloc, mbind in E. injection E as <- <-. eexists. reflexivity. Qed.
Lemma quiet_assign_hit h : quiet (assign_hit h).
Proof.
  unfold assign_hit, assign_match. cbv zeta.
  apply quiet_bind; [|intros; apply quiet_ret].
  apply quiet_bind.
  { apply quiet_mmap. intros k. unfold group_value.
    destruct (group_text _ _ _); [apply quiet_fresh|apply quiet_ret]. }
  intros gs. apply quiet_bind; [apply quiet_new_list|]. intros l.
  apply quiet_bind; [apply quiet_set_var|]. intros _.
  apply quiet_bind; [apply quiet_mfor; intros x; apply quiet_set_var|]. intros _.
  repeat (apply quiet_bind; [apply quiet_fresh|]; intros ?;
          apply quiet_bind; [apply quiet_set_var|]; intros _).
  apply quiet_ret.
Qed.

Lemma makes_pure f vs : makes_x (pure_call f (map arg_of vs)).
Proof.
  unfold pure_call. apply makes_x_bind.
  { apply quiet_same. intros s a s' E. rewrite args_r_of in E. injection E as <- <-. reflexivity. }
  intros ws. apply makes_x_bind; [apply quiet_mmap; apply quiet_dread|]. intros ps.
  apply makes_x_bind; [apply quiet_fmt|]. intros fmt.
  destruct (pure_fun fmt f ps) as [m|]; [|intros s x s' E; discriminate].
  apply makes_x_bind; [apply quiet_of_pm|]. intros p.
  apply makes_x_bind; [apply quiet_mfor; apply quiet_assign_hit|]. intros _.
  apply makes_xret. apply makes_fresh.
Qed.

Lemma makes_each R o k items :
  (forall it, makes_x (i_op R o (k it))) -> makes_x (each_result R o k items).
Proof.
  intros H. unfold each_result. apply makes_xlist. apply makes_mmap. intros x. apply makes_to_r.
  apply H.
Qed.

Lemma op_makes o : forall n vs, value_op o (length vs) ->
  makes_x (eval_op (run n) o (map arg_of vs)).
Proof.
  assert (G : forall R vs, value_op o (length vs) ->
    (forall ws, length ws = length vs -> makes_x (i_op R o (map arg_of ws))) ->
    makes_x (eval_op R o (map arg_of vs))).
  { intros R vs V K. 
    assert (C : makes_x (call_fun R (o_fun o) (map arg_of vs))).
    { rewrite call_fun_value by apply V. apply makes_pure. }
    assert (A : makes_x (apply_x R o (map arg_of vs))).
    { destruct vs as [|a [|b [|c vs]]]; cbn [map] in *; unfold arg_of in *; cbn [apply_x]; try exact C.
      - destruct (expands_x (o_flags o) (XR a)); [|exact C].
        apply makes_x_bind; [apply quiet_iter|]. intros items. apply makes_each.
        intros it. apply (K [it]). reflexivity.
      - destruct (expands_x (o_flags o) (XR a)), (expands_x (o_flags o) (XR b));
          cbn [andb]; try exact C.
        + apply makes_x_bind; [apply quiet_zip|]. intros pairs.
          apply makes_x_bind.
          { apply quiet_makes_all. apply makes_mmap. intros [x y]. apply makes_to_r.
            apply (K [x; y]). reflexivity. }
          intros rs. apply makes_x_bind; [apply quiet_len|]. intros nv.
          apply makes_x_bind; [apply quiet_len|]. intros nw.
          destruct nv as [nv|], nw as [nw|]; try (intros s x s' E; discriminate).
          apply makes_x_bind; [apply quiet_iter|]. intros lv.
          apply makes_x_bind; [apply quiet_iter|]. intros lw.
          apply makes_xlist. apply makes_mmap. apply makes_copy.
        + apply makes_x_bind; [apply quiet_iter|]. intros items. apply makes_each.
          intros it. apply (K [it; b]). reflexivity.
        + apply makes_x_bind; [apply quiet_iter|]. intros items. apply makes_each.
          intros it. apply (K [a; it]). reflexivity. }
    intros s x s' E. unfold eval_op in E.
    rewrite (vo_assign _ _ V), (vo_map _ _ V), (vo_fold _ _ V), (vo_scan _ _ V) in E.
    assert (E2 : mmap (prepare R (o_flags o)) (map arg_of vs) s
                 = Ok (map (fun v => (arg_of v, f_in_lambda (o_flags o) && h_block v)) vs) s).
    { generalize (vo_rvals _ _ V). clear. intros V.
      induction vs as [|v vs IH]; [reflexivity|]. cbn [map mmap].
      unfold mbind. rewrite prepare_value, IH by exact V. reflexivity. }
    rewrite (bind_step _ _ _ _ _ E2) in E. cbv zeta in E.
    assert (E3 : map fst (map (fun v => (arg_of v, f_in_lambda (o_flags o) && h_block v)) vs)
                 = map arg_of vs) by (rewrite map_map; reflexivity).
    rewrite E3 in E. destruct (existsb snd _).
    - bind_inv E. injection E as <- <-.
      assert (E4 : mmap (rval_arg R) (map arg_of vs) s = Ok (map XR vs) s).
      { clear. induction vs as [|v vs IH]; [reflexivity|]. cbn [map mmap].
        unfold mbind, mret in *. cbn [arg_of rval_arg rval_x]. unfold mret. rewrite IH.
        reflexivity. }
      rewrite E4 in E0. injection E0 as <- <-. exists (lambda_x o (map XR vs)), [].
      rewrite app_nil_r. split; [reflexivity|]. split; [reflexivity|]. apply owned_none.
      unfold lambda_x. repeat match goal with |- context [match ?x with _ => _ end] => destruct x end; exact I.
    - apply (proj1 (catch_ok _ _ _ _)) in E. exact (A _ _ _ E). }
  induction n as [|n IH]; intros vs V; apply G; try exact V; intros ws L.
  - intros s x s' E. discriminate.
  - cbn [run]. change (makes_x (eval_op (run n) o (map arg_of ws))). apply IH. rewrite L. exact V.
Qed.

(** ** Reading items *)
Lemma position_zlen {A} (l : list A) z : position l z = Z.to_nat (z mod zlen l).
Proof. reflexivity. Qed.
Lemma seq_index_position {A} (l : list A) z : seq_index l z = nth_error l (position l z).
Proof.
  unfold seq_index. destruct l as [|a l]; [destruct (position [] z); reflexivity|].
  unfold znth. rewrite <- position_zlen.
  destruct (Z.ltb_spec (z mod zlen (a :: l)) 0); [|reflexivity].
  pose proof (Z.mod_pos_bound z (zlen (a :: l)) ltac:(unfold zlen; cbn [length]; lia)). lia.
Qed.

Lemma dens_nth h vs ps i p :
  dens h vs ps -> nth_error ps i = Some p -> exists v, nth_error vs i = Some v /\ den h v p.
Proof.
  intros D. revert i. induction D as [|v q vs ps Dv D IH]; intros [|i] E; try discriminate.
  - injection E as ->. exists v. auto.
  - exact (IH i E).
Qed.

Lemma yields_index_new p z q s :
  p_getitem p (IInt z) = Val q ->
  yields (index_new p (IInt z)) s (fun o s' => exists w, o = Some w /\ den (st_heap s') w q).
Proof.
  intros E. unfold index_new. rewrite E.
  eapply yields_bind; [apply yields_fresh|]. intros v s1 A D. apply yields_ret. eauto.
Qed.

Lemma yields_index v p l z r s :
  den (st_heap s) v p -> elems p l -> nth_error l (position l z) = Some r ->
  yields (h_index v (IInt z)) s (fun o s' => exists w, o = Some w /\ den (st_heap s') w r).
Proof.
  intros D El N.
  assert (NE : l <> []) by (intros ->; destruct (position [] z); discriminate).
  pose proof (p_getitem_int p l z r El NE) as G. rewrite <- position_zlen in G. specialize (G N).
  inversion El; subst; inversion D; subst; cbn [h_index].
  - eapply yields_bind; [apply yields_load_str; eassumption|]. intros t s1 A [-> ->].
    apply yields_index_new. exact G.
  - eapply yields_bind; [apply yields_load_list; eassumption|]. intros t s1 A [-> ->].
    apply yields_ret. match goal with H : dens _ ?vs _ |- _ =>
      destruct (dens_nth _ _ _ _ _ H N) as (w & Nw & Dw);
      exists w; split; [|exact Dw]; rewrite seq_index_position;
      unfold position; rewrite (dens_length _ _ _ H); exact Nw end.
  - apply yields_index_new. exact G.
Qed.

Lemma yields_index_none v p z s :
  den (st_heap s) v p -> elems p [] ->
  yields (h_index v (IInt z)) s (fun o s' => o = None).
Proof.
  intros D El. inversion El as [t Ht|l Hl|lo u w Hw]; subst; inversion D; subst; cbn [h_index].
  - destruct t; [|discriminate].
    eapply yields_bind; [apply yields_load_str; eassumption|]. intros t s1 A [-> ->].
    apply yields_ret. reflexivity.
  - eapply yields_bind; [apply yields_load_list; eassumption|]. intros t s1 A [-> ->].
    match goal with H : dens _ _ [] |- _ => inversion H; subst end. apply yields_ret. reflexivity.
  - unfold index_new. cbn [p_getitem]. unfold range_is_empty, lower0. subst w.
    destruct (u <=? _) eqn:L; [apply yields_ret; reflexivity|].
    apply Z.leb_gt in L.
    destruct (Z.to_nat (u - match lo with Some z0 => z0 | None => 0 end)) eqn:F; [lia|discriminate].
Qed.

Lemma elems_iterable_h h v p l : den h v p -> elems p l -> h_iterable v = true.
Proof. intros D El. inversion El; subst; inversion D; subst; reflexivity. Qed.

Lemma yields_follow p zs q :
  item_at p zs q -> forall v s, den (st_heap s) v p ->
  yields (follow v (map IInt zs)) s
         (fun o s' => match o with Some w => den (st_heap s') w q | None => q = PNil end).
Proof.
  induction 1 as [p|p l z r zs q El N _ IH|p z zs El|z zs]; intros v s D; cbn [map follow].
  - apply yields_ret. exact D.
  - rewrite (elems_iterable_h _ _ _ _ D El).
    eapply yields_bind; [eapply yields_index; eassumption|]. intros o s1 A (w & -> & Dw).
    apply IH. exact Dw.
  - rewrite (elems_iterable_h _ _ _ _ D El).
    eapply yields_bind; [eapply yields_index_none; eassumption|]. intros o s1 A ->.
    eapply yields_bind; [apply yields_warn|]. intros _ s2 A2 _. apply yields_ret. reflexivity.
  - inversion D; subst. cbn [h_iterable].
    eapply yields_bind; [apply yields_warn|]. intros _ s2 A2 _. apply yields_ret. reflexivity.
Qed.

Lemma yields_makes m s (Q : hval -> state -> Prop) :
  yields m s Q -> makes m ->
  yields m s (fun v s' => Q v s' /\ owned (st_heap s') (length (st_heap s)) v).
Proof.
  intros (v & s' & E & A & H) Mk. destruct (Mk _ _ _ E) as (t & Ht & O).
  exists v, s'. auto.
Qed.
Lemma owned_yields (m : M hval) s s0 Q :
  adv s0 s -> yields m s (fun v s' => Q v s' /\ owned (st_heap s') (length (st_heap s)) v) ->
  yields m s (fun v s' => Q v s' /\ owned (st_heap s') (length (st_heap s0)) v).
Proof.
  intros A Y. eapply yields_weaken; [exact Y|]. intros v s' _ [H O]. split; [exact H|].
  eapply owned_le; [exact O|]. exact (adv_length _ _ A).
Qed.

Definition read_owned (lv : lval) (p : pval) (s : state) : Prop :=
  yields (get_lval lv) s
         (fun v s' => den (st_heap s') v p /\ owned (st_heap s') (length (st_heap s)) v).

Lemma get_item_ok s x p zs q :
  ordinary s x -> var s x p -> item_at p zs q ->
  read_owned (LName x (map IInt zs) None) q s.
Proof.
  intros O (o & B & D) It. unfold read_owned. cbn [get_lval].
  eapply yields_bind with (Q := fun _ s' => s' = s).
  { exists tt, s. split; [|split; [apply adv_refl|reflexivity]].
    destruct (three_letters x) eqn:T; [|reflexivity].
    unfold get_tao, mbind. rewrite (no_tao _ _ O T). reflexivity. }
  intros _ s1 A ->. rewrite (special_false _ _ O).
  eapply yields_bind with (Q := fun r s' => r = o /\ s' = s).
  { exists o, s. split; [apply get_var_binding; [apply O|exact B]|].
    split; [apply adv_refl|auto]. }
  intros r s1 A' [-> ->]. destruct o as [v|].
  - eapply yields_bind; [apply (yields_follow _ _ _ It v s D)|].
    intros r s1 A1 H. cbv beta in H. destruct r as [w|].
    + apply owned_yields; [exact A1|]. apply yields_makes; [|apply makes_copy].
      apply yields_copy. exact H.
    + subst q. apply yields_ret. split; [constructor|apply owned_none; exact I].
  - subst p. assert (q = PNil) as ->.
    { inversion It as [|? ? ? ? ? ? El| |]; subst; try reflexivity. inversion El. }
    eapply yields_bind; [apply yields_warn|]. intros _ s1 A1 _.
    apply yields_ret. split; [constructor|apply owned_none; exact I].
Qed.

Lemma nth_plain l i r : forallb plain l = true -> nth_error l i = Some r -> plain r = true.
Proof. intros F N. eapply forallb_forall; [exact F|]. eapply nth_error_In. exact N. Qed.
Lemma elems_plain p l : elems p l -> plain p = true -> forallb plain l = true.
Proof.
  intros El P. destruct El; [| |].
  - apply forallb_forall. intros x I. apply in_map_iff in I. destruct I as (c & <- & _). reflexivity.
  - exact P.
  - apply forallb_forall. intros x I. apply in_map_iff in I. destruct I as (c & <- & _). reflexivity.
Qed.
Lemma item_plain p zs q : item_at p zs q -> plain p = true -> plain q = true.
Proof.
  induction 1 as [p|p l z r zs q El N _ IH|p z zs El|z zs]; intros P; auto.
  apply IH. eapply nth_plain; [eapply elems_plain; eassumption|exact N].
Qed.
Lemma plain_block h v p : den h v p -> plain p = true -> h_block v = false.
Proof. intros D P. inversion D; subst; try reflexivity. discriminate. Qed.

(** ** [e@i] for a variable or an item of one *)
Lemma index_scalar_int p z : index_value p z -> exists t, p = PScal t /\ scalar_int t = z.
Proof. intros [neg ds t D N]. eexists. split; [reflexivity|]. apply scalar_int_numeral; assumption. Qed.

Lemma at_evals s s0 s1 e x sl i pi z :
  adv s s0 -> evals s0 e (XL (LName x sl None)) s1 -> adv s0 s1 ->
  (forall s2, adv s1 s2 -> yields (get_lval (LName x sl None)) s2 (fun v _ => h_block v = false)) ->
  reads s i pi -> index_value pi z ->
  exists s3, evals s0 (app "@" [e; i]) (XL (LName x (sl ++ [IInt z]) None)) s3 /\ adv s0 s3.
Proof.
  intros A0 [ne Ee] A1 Rd Ri Iz. destruct (index_scalar_int _ _ Iz) as (t & -> & <-).
  destruct (Rd s1 (adv_refl _)) as (v & s2 & E2 & A2 & Bv).
  assert (A02 : adv s s2) by (eapply adv_trans; [exact A0|eapply adv_trans; eassumption]).
  destruct (Ri s2 A02) as (xi & s3 & [ni Ei] & A3 & Rxi).
  assert (P : exists s4, prepare (run (max ne ni)) (o_flags (the_op 2 "@")) (ATree i) s2
                = Ok (AVal xi, false) s4 /\ adv s3 s4).
  { destruct (Rxi s3 (adv_refl _)) as (w & s4 & E4 & A4 & D4).
    change (exists s4, (x <- i_eval (run (max ne ni)) i;;
              if expands_x (o_flags (the_op 2 "@")) x then mret (AVal x, false)
              else match x with
                   | XL lv => v <- get_lval lv;; mret (AVal x, h_block v)
                   | _ => mret (AVal x, x_block x)
                   end) s2 = Ok (AVal xi, false) s4 /\ adv s3 s4).
    rewrite (bind_step _ _ _ _ _ (more_eval ni (max ne ni) _ _ _ ltac:(lia) Ei ltac:(discriminate))).
    assert (X : expands_x (o_flags (the_op 2 "@")) xi = false)
      by (destruct xi as [[]| |]; reflexivity).
    rewrite X. destruct xi as [w'|lv|o]; cbn [rval_h] in E4.
    - injection E4 as -> ->. exists s4. split; [|apply adv_refl].
      inversion D4; subst. reflexivity.
    - rewrite (bind_step _ _ _ _ _ E4). exists s4. split; [|exact A4].
      unfold mret. rewrite (plain_block _ _ _ D4 eq_refl). reflexivity.
    - discriminate. }
  destruct P as (s4 & P & A4).
  destruct (Rxi s4 A4) as (w & s5 & E5 & A5 & D5). inversion D5 as [l ? Nl| | | | |]; subst.
  exists s5. split.
  2:{ repeat (eapply adv_trans; [eassumption|]). apply adv_refl. }
  apply evals_app. exists (max ne ni). unfold app.
  change (op_by_arity (length [e; i]) (s_ "@")) with (Some (the_op 2 "@")). cbv iota.
  change (eval_op (run (max ne ni)) (the_op 2 "@") [ATree e; ATree i] s0
          = Ok (XL (LName x (sl ++ [IInt (scalar_int t)]) None)) s5).
  assert (P1 : prepare (run (max ne ni)) (o_flags (the_op 2 "@")) (ATree e) s0
               = Ok (AVal (XL (LName x sl None)), false) s2).
  { change ((x <- i_eval (run (max ne ni)) e;;
              if expands_x (o_flags (the_op 2 "@")) x then mret (AVal x, false)
              else match x with
                   | XL lv => v <- get_lval lv;; mret (AVal x, h_block v)
                   | _ => mret (AVal x, x_block x)
                   end) s0 = Ok (AVal (XL (LName x sl None)), false) s2).
    rewrite (bind_step _ _ _ _ _ (more_eval ne (max ne ni) _ _ _ ltac:(lia) Ee ltac:(discriminate))).
    cbn [expands_x]. rewrite (bind_step _ _ _ _ _ E2), Bv. reflexivity. }
  unfold eval_op. change (o_assign (the_op 2 "@")) with false.
  change (o_map (the_op 2 "@")) with false. change (o_fold (the_op 2 "@")) with false.
  change (o_scan (the_op 2 "@")) with false. cbv iota.
  assert (P2 : mmap (prepare (run (max ne ni)) (o_flags (the_op 2 "@"))) [ATree e; ATree i] s0
               = Ok [(AVal (XL (LName x sl None)), false); (AVal xi, false)] s4).
  { cbn [mmap]. rewrite (bind_step _ _ _ _ _ P1).
    rewrite (bind_step _ _ _ [(AVal xi, false)] s4); [reflexivity|].
    rewrite (bind_step _ _ _ _ _ P). reflexivity. }
  rewrite (bind_step _ _ _ _ _ P2). cbn [map fst existsb snd orb].
  apply (proj2 (catch_ok _ _ _ _)).
  assert (X : apply_x (run (max ne ni)) (the_op 2 "@") [AVal (XL (LName x sl None)); AVal xi]
              = AT (run (max ne ni)) (XL (LName x sl None)) (Some xi)).
  { destruct xi as [[]| |]; reflexivity. }
  rewrite X. unfold AT. rewrite (bind_step _ _ _ _ _ E5).
  rewrite (bind_step _ _ _ t s5); [reflexivity|].
  unfold load_str, load, mbind. rewrite Nl. reflexivity.
Qed.

Lemma path_evals s x p is ps zs :
  ordinary s x -> var s x p -> plain p = true ->
  Forall2 (reads s) is ps -> Forall2 index_value ps zs ->
  forall e zs0 s0 s1,
  (forall k, (k < length zs)%nat -> exists r, item_at p (zs0 ++ firstn k zs) r) ->
  adv s s0 -> evals s0 e (XL (LName x (map IInt zs0) None)) s1 -> adv s0 s1 ->
  exists s2, evals s0 (path e is) (XL (LName x (map IInt (zs0 ++ zs)) None)) s2 /\ adv s0 s2.
Proof.
  intros Ox V Pl F. revert zs. induction F as [|i pi is ps Ri F IH]; intros zs Fz e zs0 s0 s1 It A0 Ee A1.
  - inversion Fz; subst. rewrite app_nil_r. exists s1. auto.
  - inversion Fz as [|? z ? zs' Iz Fz']; subst. cbn [path].
    destruct (at_evals s s0 s1 e x (map IInt zs0) i pi z A0 Ee A1) as (s2 & E2 & A2); auto.
    { intros s2 A2. destruct (It O) as (r & Ir); [cbn [length]; lia|].
      cbn [firstn] in Ir. rewrite app_nil_r in Ir.
      assert (A02 : adv s s2) by (eapply adv_trans; [exact A0|eapply adv_trans; eassumption]).
      eapply yields_weaken;
        [exact (get_item_ok s2 x p zs0 r (adv_ordinary _ _ _ A02 Ox) (adv_var _ _ _ _ A02 V) Ir)|].
      intros v s3 _ [D _]. eapply plain_block; [exact D|]. eapply item_plain; eassumption. }
    destruct (IH zs' Fz' (app "@" [e; i]) (zs0 ++ [z]) s0 s2) as (s3 & E3 & A3); auto.
    + intros k L. destruct (It (S k)) as (r & Ir); [cbn [length]; lia|]. exists r.
      cbn [firstn] in Ir. rewrite <- app_assoc. exact Ir.
    + rewrite map_app. exact E2.
    + exists s3. rewrite <- app_assoc in E3. auto.
Qed.

(** ** Expressions over a valuation *)

(** Evaluated to [p]: a new object, or something that can be read as a new
    object at any time. *)
Definition xgood (x : xval) (p : pval) (n : nat) (s : state) : Prop :=
  (exists v, x = XR v /\ den (st_heap s) v p /\ owned (st_heap s) n v) \/
  (exists lv, x = XL lv /\ forall s', adv s s' -> read_owned lv p s').
Definition makes_value (s : state) (e : tree hval) (p : pval) : Prop :=
  forall s0, adv s s0 ->
  exists x s1, evals s0 e x s1 /\ adv s0 s1 /\ xgood x p (length (st_heap s0)) s1.

Lemma makes_reads s e p : makes_value s e p -> reads s e p.
Proof.
  intros M s0 A. destruct (M s0 A) as (x & s1 & E & A1 & G). exists x, s1.
  split; [exact E|]. split; [exact A1|]. destruct G as [(v & -> & D & _)|(lv & -> & R)].
  - apply readable_value. exact D.
  - intros s2 A2. eapply yields_weaken; [exact (R s2 A2)|]. intros v s3 _ [D _]. exact D.
Qed.
Lemma makes_gives s e p s0 :
  makes_value s e p -> adv s s0 ->
  exists v s1, gives s0 e v s1 /\ adv s0 s1 /\ den (st_heap s1) v p /\
    owned (st_heap s1) (length (st_heap s0)) v.
Proof.
  intros M A. destruct (M s0 A) as (x & s1 & E & A1 & G).
  destruct G as [(v & -> & D & Ow)|(lv & -> & R)].
  - exists v, s1. split; [|auto]. apply gives_evals. exists (XR v), s1. auto.
  - destruct (R s1 (adv_refl _)) as (v & s2 & E2 & A2 & D & Ow). exists v, s2.
    split; [apply gives_evals; exists (XL lv), s1; auto|].
    split; [eapply adv_trans; eassumption|]. split; [exact D|].
    eapply owned_le; [exact Ow|]. exact (adv_length _ _ A1).
Qed.

(** Evaluated operands; [fp] are the cells of those that are objects. *)
Inductive covers (s : state) : list xval -> list pval -> list loc -> Prop :=
| covers_nil : covers s [] [] []
| covers_value v p f xs ps g :
    den (st_heap s) v p -> owns (st_heap s) v f -> covers s xs ps g ->
    covers s (XR v :: xs) (p :: ps) (f ++ g)
| covers_lval lv p xs ps g :
    (forall s', adv s s' -> read_owned lv p s') -> covers s xs ps g ->
    covers s (XL lv :: xs) (p :: ps) g.

Lemma covers_adv s s' xs ps fp : adv s s' -> covers s xs ps fp -> covers s' xs ps fp.
Proof.
  intros A. induction 1 as [|v p f xs ps g D Ow _ IH|lv p xs ps g R _ IH]; constructor; auto.
  - exact (adv_den _ _ _ _ A D).
  - destruct A as (t & d & ->). apply owns_app. exact Ow.
  - intros s2 A2. apply R. eapply adv_trans; eassumption.
Qed.
Lemma covers_lt s xs ps fp l : covers s xs ps fp -> In l fp -> (l < length (st_heap s))%nat.
Proof.
  induction 1 as [|v p f xs ps g D Ow _ IH|lv p xs ps g R _ IH]; intros H; [contradiction| |auto].
  apply in_app_iff in H. destruct H as [H|H]; [eapply owns_lt; eassumption|auto].
Qed.

Lemma makes_evals s es ps :
  Forall2 (makes_value s) es ps -> forall s0, adv s s0 ->
  exists xs s1 n fp,
    (forall m, (n <= m)%nat -> mmap (eval_arg (run m)) (map ATree es) s0 = Ok xs s1)
    /\ adv s0 s1 /\ covers s1 xs ps fp /\ NoDup fp
    /\ (forall l, In l fp -> (length (st_heap s0) <= l)%nat).
Proof.
  intros F. induction F as [|e p es ps R F IH]; intros s0 A.
  - exists [], s0, O, []. split; [reflexivity|]. split; [apply adv_refl|].
    split; [constructor|]. split; [constructor|]. intros l [].
  - destruct (R s0 A) as (x & s1 & [k E] & A1 & G).
    destruct (IH s1 (adv_trans _ _ _ A A1)) as (xs & s2 & n & fp & E2 & A2 & C & N & B).
    assert (E3 : forall m, (max k n <= m)%nat ->
              mmap (eval_arg (run m)) (map ATree (e :: es)) s0 = Ok (x :: xs) s2).
    { intros m L. cbn [map mmap eval_arg].
      rewrite (bind_step _ _ _ _ _ (more_eval k m _ _ _ ltac:(lia) E ltac:(discriminate))).
      rewrite (bind_step _ _ _ _ _ (E2 m ltac:(lia))). reflexivity. }
    pose proof (adv_length _ _ A1) as L1.
    destruct G as [(v & -> & D & f & Ow & Nf & Bf)|(lv & -> & Rd)].
    + exists (XR v :: xs), s2, (max k n), (f ++ fp). split; [exact E3|].
      split; [eapply adv_trans; eassumption|]. split; [|split].
      * constructor; [exact (adv_den _ _ _ _ A2 D)| |exact C].
        destruct A2 as (t & d & ->). apply owns_app. exact Ow.
      * apply NoDup_append; [exact Nf|exact N|]. intros l I I'.
        pose proof (owns_lt _ _ _ _ Ow I). specialize (B l I'). lia.
      * intros l I. apply in_app_iff in I. destruct I as [I|I]; [auto|]. specialize (B l I). lia.
    + exists (XL lv :: xs), s2, (max k n), fp. split; [exact E3|].
      split; [eapply adv_trans; eassumption|]. split; [|split; [exact N|]].
      * constructor; [|exact C]. intros s3 A3. apply Rd. eapply adv_trans; eassumption.
      * intros l I. specialize (B l I). lia.
Qed.

Lemma covers_read s xs ps fp :
  covers s xs ps fp -> NoDup fp -> forall s2, adv s s2 ->
  yields (mmap rval_h xs) s2
    (fun vs s' => dens (st_heap s') vs ps /\
       exists fp', owns_all (st_heap s') vs fp' /\ NoDup fp' /\
         forall l, In l fp' -> In l fp \/ (length (st_heap s2) <= l)%nat).
Proof.
  induction 1 as [|v p f xs ps g D Ow C IH|lv p xs ps g R C IH]; intros N s2 A; cbn [mmap].
  - apply yields_ret. split; [constructor|]. exists []. split; [constructor|].
    split; [constructor|]. intros l [].
  - apply NoDup_append_inv in N. destruct N as (Nf & Ng & Dj).
    eapply yields_bind with (Q := fun w s' => w = v /\ s' = s2).
    { cbn [rval_h]. apply yields_ret. auto. }
    intros w s3 A3 [-> ->].
    eapply yields_bind; [exact (IH Ng s2 A)|].
    intros vs s4 A4 (Ds & fp' & Os & N' & B). apply yields_ret.
    assert (A04 : adv s s4) by (eapply adv_trans; eassumption).
    split; [constructor; [exact (adv_den _ _ _ _ A04 D)|exact Ds]|].
    exists (f ++ fp'). split; [|split].
    + constructor; [|exact Os]. destruct A04 as (t & d & ->). apply owns_app. exact Ow.
    + apply NoDup_append; [exact Nf|exact N'|]. intros l I I'. destruct (B l I') as [H|H].
      * exact (Dj l I H).
      * pose proof (owns_lt _ _ _ _ Ow I). pose proof (adv_length _ _ A). lia.
    + intros l I. rewrite in_app_iff in *. destruct I as [I|I]; [auto|].
      destruct (B l I); auto.
  - eapply yields_bind; [exact (R s2 A)|].
    intros v s3 A3 (D & f & Ow & Nf & Bf). 
    eapply yields_bind; [exact (IH N s3 (adv_trans _ _ _ A A3))|].
    intros vs s4 A4 (Ds & fp' & Os & N' & B). apply yields_ret.
    pose proof (adv_length _ _ A3) as L3. pose proof (adv_length _ _ A) as L2.
    split; [constructor; [exact (adv_den _ _ _ _ A4 D)|exact Ds]|].
    exists (f ++ fp'). split; [|split].
    + constructor; [|exact Os]. destruct A4 as (t & d & ->). apply owns_app. exact Ow.
    + apply NoDup_append; [exact Nf|exact N'|]. intros l I I'.
      pose proof (Bf l I). pose proof (owns_lt _ _ _ _ Ow I).
      destruct (B l I') as [H2|H2]; [|lia]. pose proof (covers_lt _ _ _ _ _ C H2). lia.
    + intros l I. rewrite in_app_iff in I. destruct I as [I|I]; [right; auto|].
      destruct (B l I); [auto|right; lia].
Qed.

Lemma covers_list s xs ps fp n s2 :
  covers s xs ps fp -> NoDup fp -> (forall l, In l fp -> (n <= l)%nat) ->
  (n <= length (st_heap s2))%nat -> adv s s2 ->
  yields (vs <- mmap rval_h xs;; new_list vs) s2
    (fun v s' => den (st_heap s') v (PList ps) /\ owned (st_heap s') n v).
Proof.
  intros C N B Ln A.
  eapply yields_bind; [exact (covers_read _ _ _ _ C N s2 A)|].
  intros vs s3 A3 (Ds & fp' & Os & N' & B').
  destruct (new_list_ok vs s3 ps Ds) as (w & t & E & D & _ & -> & ->).
  exists (HList (length (st_heap s3))), (grow [OL vs] s3). split; [exact E|].
  split; [apply adv_grow|]. split; [exact D|]. pose proof (adv_length _ _ A3).
  apply owned_new_list; [|lia]. exists fp'. split; [exact Os|]. split; [exact N'|].
  intros l I. destruct (B' l I) as [H2|H2]; [auto|lia].
Qed.

Lemma value_in_rect fmt rho (P : tree hval -> pval -> Prop) :
  (forall k p, is_literal (t_kind k) = true -> t_kind k <> KName -> of_token k = Val p ->
     P (TTok k) p) ->
  (forall x is ps zs p q, rho x = Some p -> Forall2 P is ps -> Forall2 index_value ps zs ->
     item_at p zs q -> P (path (name x) is) q) ->
  (forall text es ps p, value_operator text (length es) -> Forall2 P es ps ->
     snd (run_op fmt text ps) = Val p -> P (app text es) p) ->
  (forall e p, P e p -> P (TApp op_paren [e]) p) ->
  (forall es ps, Forall2 P es ps -> P (display es) (PList ps)) ->
  forall e p, value_in fmt rho e p -> P e p.
Proof.
  intros H2 H3 H4 H5 H6. fix IH 3. intros e p M.
  assert (L : forall es ps, Forall2 (value_in fmt rho) es ps -> Forall2 P es ps).
  { fix IHl 3. intros es ps F. destruct F as [|e0 p0 es ps M0 F]; constructor;
      [exact (IH _ _ M0)|exact (IHl _ _ F)]. }
  destruct M as [k p E1 E2 E3|x is ps zs p q R F Z It|text es ps p V F E|e p M|es ps F].
  - apply H2; assumption.
  - exact (H3 x is ps zs p q R (L _ _ F) Z It).
  - exact (H4 text es ps p V (L _ _ F) E).
  - apply H5. exact (IH _ _ M).
  - apply H6. exact (L _ _ F).
Qed.

Lemma item_prefix p zs q :
  item_at p zs q -> forall k, exists r, item_at p (firstn k zs) r.
Proof.
  induction 1 as [p|p l z r zs q El N _ IH|p z zs El|z zs]; intros [|k]; cbn [firstn];
    try (eexists; apply item_self).
  - destruct (IH k) as (r' & H). exists r'. eapply item_in; eassumption.
  - exists PNil. apply item_empty. exact El.
  - exists PNil. apply item_nil.
Qed.

Lemma makes_path s x p is ps zs q :
  ordinary s x -> var s x p -> plain p = true ->
  Forall2 (reads s) is ps -> Forall2 index_value ps zs -> item_at p zs q ->
  makes_value s (path (name x) is) q.
Proof.
  intros Ox V Pl F Fz It s0 A0.
  destruct (path_evals s x p is ps zs Ox V Pl F Fz (name x) [] s0 s0) as (s1 & E & A1).
  - intros k _. cbn [Datatypes.app]. exact (item_prefix _ _ _ It k).
  - exact A0.
  - cbn [map]. exists 1%nat. apply eval_name. exact (adv_ordinary _ _ _ A0 Ox).
  - apply adv_refl.
  - exists (XL (LName x (map IInt zs) None)), s1. split; [exact E|]. split; [exact A1|].
    right. eexists. split; [reflexivity|]. intros s2 A2.
    assert (A02 : adv s s2) by (eapply adv_trans; [exact A0|eapply adv_trans; eassumption]).
    exact (get_item_ok s2 x p zs q (adv_ordinary _ _ _ A02 Ox) (adv_var _ _ _ _ A02 V) It).
Qed.

Theorem value_makes s rho e p :
  agrees s rho -> value_in (st_fmt s) rho e p -> makes_value s e p.
Proof.
  intros Ag V. apply (value_in_rect (st_fmt s) rho (makes_value s)) with (6 := V).
  - intros k q E1 E2 E3 s0 A.
    destruct (yields_makes _ s0 _ (yields_fresh q s0) (makes_fresh q))
      as (v & s1 & E & A1 & D & Ow). exists (XR v), s1.
    split; [|split; [exact A1|left; eauto]].
    exists 1%nat. change (eval_tree (run 0) (TTok k) s0 = Ok (XR v) s1). cbn [eval_tree].
    assert (Y : (if is_literal (t_kind k) then p0 <- of_res (of_token k);; v0 <- fresh p0;; xret v0
                 else fail EFatal) s0 = Ok (XR v) s1).
    { rewrite E1, E3. cbn [of_res]. unfold mbind, mret. rewrite E. reflexivity. }
    destruct (t_kind k); try exact Y. congruence.
  - intros x is ps zs p0 q Rx F Fz It. destruct (Ag x p0 Rx) as (Ox & Vx & Pl & _).
    eapply makes_path; eauto. clear -F. induction F; constructor; auto. apply makes_reads. assumption.
  - intros text es ps q (o & Fo & Vo) F E s0 A.
    assert (F' : reads_all s es ps)
      by (clear -F; unfold reads_all; induction F; constructor; auto; apply makes_reads; assumption).
    destruct (reads_operands s es ps F' s0 A) as (vs & s1 & Os & A1 & Ds).
    pose proof (value_result text es s0 vs s1 ps o Fo Vo Os Ds) as H.
    rewrite (adv_fmt _ _ A), E in H. destruct H as (v & s2 & G & D & A2).
    exists (XR v), s2. split; [exact G|]. split; [eapply adv_trans; eassumption|].
    left. exists v. split; [reflexivity|]. split; [exact D|].
    assert (Ow : owned (st_heap s2) (length (st_heap s1)) v).
    { unfold app in G. rewrite Fo in G. apply evals_app in G. destruct G as [n G].
      destruct (operands_fuel _ _ _ _ Os) as [k K].
      assert (G2 : i_op (run (S (max n k))) o (map ATree es) s0 = Ok (XR v) s2).
      { apply (more_op (S n)); [lia|exact G|discriminate]. }
      change (eval_op (run (max n k)) o (map ATree es) s0 = Ok (XR v) s2) in G2.
      pose proof (operands_length _ _ _ _ Os) as Ln. rewrite <- Ln in Vo.
      rewrite (eval_op_operands _ _ _ _ _ _ Vo (K (max n k) ltac:(lia))) in G2.
      destruct (op_makes o _ vs Vo _ _ _ G2) as (w & t & Ew & _ & Ow). injection Ew as <-. exact Ow. }
    eapply owned_le; [exact Ow|]. exact (adv_length _ _ A1).
  - intros e0 q R s0 A. destruct (R s0 A) as (x & s1 & [n E] & A1 & Rd).
    exists x, s1. split; [|auto]. apply evals_app. exists n.
    rewrite eval_op_vals by reflexivity. cbn [map mmap eval_arg].
    unfold mbind. rewrite E. unfold mret. reflexivity.
  - intros es ps F s0 A.
    destruct (makes_evals s es ps F s0 A) as (xs & s1 & n & fp & E & A1 & C & N & B).
    assert (H : exists x s2, LIST xs s1 = Ok x s2 /\ adv s1 s2
                /\ xgood x (PList ps) (length (st_heap s0)) s2).
    { assert (G : exists x s2, (vs <- mmap rval_h xs;; v <- new_list vs;; xret v) s1 = Ok x s2
                   /\ adv s1 s2 /\ xgood x (PList ps) (length (st_heap s0)) s2).
      { destruct (covers_list s1 xs ps fp (length (st_heap s0)) s1 C N B (adv_length _ _ A1) (adv_refl _))
          as (v & s2 & E2 & A2 & D2 & O2).
        exists (XR v), s2. split; [|split; [exact A2|left; eauto]].
        bind_inv E2. rewrite (bind_step _ _ _ _ _ E0), (bind_step _ _ _ _ _ E2). reflexivity. }
      unfold LIST. destruct xs as [|x0 xs]; [exact G|].
      destruct (all_lvals (x0 :: xs)) as [lvs|] eqn:L; [|exact G].
      apply all_lvals_map in L. exists (XL (LList lvs [])), s1.
      split; [reflexivity|]. split; [apply adv_refl|]. right. eexists. split; [reflexivity|].
      intros s2 A2. unfold read_owned. cbn [get_lval]. rewrite L in C.
      assert (Nil : fp = []).
      { clear -C. revert ps fp C. induction lvs as [|lv lvs IH]; intros ps fp C; cbn [map] in C.
        - inversion C. reflexivity.
        - inversion C; subst. eapply IH. eassumption. }
      subst fp.
      destruct (covers_list s1 _ ps [] (length (st_heap s2)) s2 C N) as (v & s3 & E3 & A3 & D3 & O3).
      { intros l []. }
      { lia. }
      { exact A2. }
      exists v, s3. split; [|auto]. bind_inv E3. rewrite <- mmap_get_lval in E0.
      rewrite (bind_step _ _ _ _ _ E0). exact E3. }
    destruct H as (x & s2 & E2 & A2 & Rd). exists x, s2.
    split; [|split; [eapply adv_trans; eassumption|exact Rd]].
    apply evals_app. exists n. rewrite eval_op_vals by reflexivity.
    rewrite (bind_step _ _ _ _ _ (E n ltac:(lia))). apply (proj2 (catch_ok _ _ _ _)).
    change ((xs0 <- mmap (eval_arg (run n)) (map AVal xs);; LIST xs0) s1 = Ok x s2).
    rewrite (bind_step _ _ _ _ _ (mmap_eval_vals _ _ _)). exact E2.
Qed.

(** ** Places *)
Lemma place_dec (a b : place) : {a = b} + {a <> b}.
Proof. decide equality; try apply Nat.eq_dec; apply (list_eq_dec N.eq_dec). Qed.
Lemma place_of_fun x a b : place_of x a -> place_of x b -> a = b.
Proof. intros [H|H] [H'|H']; congruence || contradiction. Qed.
Lemma place_of_inj x y a : place_of x a -> place_of y a -> x = y.
Proof. intros [H|H] K; inversion K; reflexivity. Qed.
Lemma at_place_fun s pl v w : at_place s pl v -> at_place s pl w -> v = w.
Proof. intros A B. inversion A; subst; inversion B; subst; congruence. Qed.
Lemma place_exists x : name_text x -> exists pl, place_of x pl.
Proof.
  intros N. destruct (local_name x) eqn:L.
  - exists (PLocal 0 x). constructor. apply (local_spec x N). exact L.
  - exists (PGlobal x). constructor. intros H. apply (local_spec x N) in H. congruence.
Qed.

Lemma binding_place s x v pl : binding s x (Some v) -> place_of x pl -> at_place s pl v.
Proof.
  intros B P. inversion B as [sc rest L E H|L H]; subst; destruct P; try contradiction.
  - econstructor; [rewrite E; reflexivity|]. congruence.
  - constructor. congruence.
Qed.
Lemma place_binding s x v pl : place_of x pl -> at_place s pl v -> binding s x (Some v).
Proof.
  intros P A. destruct P as [L|L]; inversion A; subst.
  - destruct (st_scopes s) as [|sc' rest] eqn:E; [discriminate|].
    cbn [nth_error] in *. match goal with H : Some _ = Some _ |- _ => injection H as -> end.
    match goal with H : lookup _ _ = Some _ |- _ => rewrite <- H end.
    eapply binding_local; eassumption.
  - match goal with H : lookup _ _ = Some _ |- _ => rewrite <- H end. apply binding_global. exact L.
Qed.
Lemma unbound_place s x pl v : binding s x None -> place_of x pl -> ~ at_place s pl v.
Proof.
  intros B P A. pose proof (binding_fun _ _ _ _ B (place_binding _ _ _ _ P A)). discriminate.
Qed.
Lemma place_unbound s x pl :
  place_of x pl -> (forall v, ~ at_place s pl v) -> st_scopes s <> [] -> binding s x None.
Proof.
  intros P N S. destruct P as [L|L].
  - destruct (st_scopes s) as [|sc rest] eqn:E; [congruence|].
    destruct (lookup (sc_vars sc) x) as [v|] eqn:F.
    + exfalso. apply (N v). econstructor; [rewrite E; reflexivity|exact F].
    + rewrite <- F. eapply binding_local; eassumption.
  - destruct (lookup (st_vars s) x) as [v|] eqn:F.
    + exfalso. apply (N v). constructor. exact F.
    + rewrite <- F. apply binding_global. exact L.
Qed.
Lemma binding_scopes s x o : binding s x o -> is_local x -> st_scopes s <> [].
Proof. intros [sc rest L E|L] H; [rewrite E; discriminate|contradiction]. Qed.

Lemma reach_frame h h' v l :
  reach h' v l -> (forall k, reach h v k -> nth_error h' k = nth_error h k) -> reach h v l.
Proof.
  revert v l.
  apply (reach_mut h'
    (fun v l _ => (forall k, reach h v k -> nth_error h' k = nth_error h k) -> reach h v l)
    (fun t l _ => (forall k, reach_tree h t k -> nth_error h' k = nth_error h k) -> reach_tree h t l)).
  - constructor.
  - constructor.
  - intros l items v l' E I _ IH K. rewrite K in E by constructor.
    eapply reach_item; [exact E|exact I|]. apply IH. intros k R. apply K.
    eapply reach_item; eassumption.
  - intros sts r t l I _ IH K. eapply reach_st; [exact I|]. apply IH. intros k R. apply K.
    eapply reach_st; eassumption.
  - intros sts r l _ IH K. apply reach_ret. apply IH. intros k R. apply K. apply reach_ret. exact R.
  - intros v l _ IH K. constructor. apply IH. intros k R. apply K. constructor. exact R.
  - intros o args t l I _ IH K. eapply reach_app; [exact I|]. apply IH. intros k R. apply K.
    eapply reach_app; eassumption.
  - intros args t l I _ IH K. eapply reach_blk; [exact I|]. apply IH. intros k R. apply K.
    eapply reach_blk; eassumption.
  - intros o args t l I _ IH K. eapply reach_cmd; [exact I|]. apply IH. intros k R. apply K.
    eapply reach_cmd; eassumption.
Qed.

Lemma str_eqb_refl_true x : str_eqb x x = true.
Proof. apply str_eqb_eq. reflexivity. Qed.

Lemma settle s s' rho x pl v' fp' p' :
  sound s -> agrees s rho -> place_of x pl -> ordinary s x ->
  (forall pl' w, pl' <> pl -> (at_place s' pl' w <-> at_place s pl' w)) ->
  (forall pl' w l, pl' <> pl -> at_place s pl' w -> reach (st_heap s) w l ->
     nth_error (st_heap s') l = nth_error (st_heap s) l) ->
  (length (st_heap s) <= length (st_heap s'))%nat ->
  st_tao s' = st_tao s -> (st_scopes s <> [] -> st_scopes s' <> []) ->
  at_place s' pl v' -> owns (st_heap s') v' fp' -> NoDup fp' ->
  den (st_heap s') v' p' -> plain p' = true ->
  (forall l pl' w, In l fp' -> pl' <> pl -> at_place s pl' w -> ~ reach (st_heap s) w l) ->
  sound s' /\ agrees s' (update rho x p') /\ keeps [x] s s'.
Proof.
  intros Sd Ag Px Ox Pls Fr Ln Tao Sc At Ow Nd D Pl Dj.
  assert (RF : forall pl' w l, pl' <> pl -> at_place s pl' w -> reach (st_heap s') w l ->
               reach (st_heap s) w l).
  { intros pl' w l N A R. eapply reach_frame; [exact R|]. intros k K. eapply Fr; eassumption. }
  assert (OF : forall y, ordinary s y -> ordinary s' y).
  { intros y (H1 & H2 & H3 & H4). repeat split; auto. rewrite Tao. exact H4. }
  split; [|split].
  - intros pl' w l A R. destruct (place_dec pl' pl) as [->|N].
    + rewrite (at_place_fun _ _ _ _ A At) in R.
      eapply owns_lt; [exact Ow|]. eapply reach_owned; eassumption.
    + apply (Pls _ _ N) in A. specialize (RF _ _ _ N A R). specialize (Sd _ _ _ A RF). lia.
  - intros y p Ey. unfold update in Ey. destruct (str_eqb y x) eqn:Eyx.
    + apply str_eqb_eq in Eyx. subst y. injection Ey as <-.
      split; [auto|]. split; [|split; [exact Pl|]].
      * exists (Some v'). split; [eapply place_binding; eassumption|exact D].
      * intros pl0 P0. rewrite <- (place_of_fun _ _ _ Px P0). exists v', fp'.
        split; [exact At|]. split; [exact Ow|]. split; [exact Nd|].
        intros pl' w l N A R I. apply (Pls _ _ N) in A. eapply Dj; eauto.
    + assert (Nyx : y <> x) by (intros ->; rewrite str_eqb_refl_true in Eyx; discriminate).
      destruct (Ag y p Ey) as (Oy & Vy & Py & Iy). split; [auto|].
      destruct (place_exists y) as [ply Ply]; [apply Oy|].
      assert (Npl : ply <> pl).
      { intros ->. apply Nyx. eapply place_of_inj; eassumption. }
      destruct (Iy _ Ply) as (vy & fy & Ay & Owy & Ndy & Djy).
      assert (Ay' : at_place s' ply vy) by (apply Pls; assumption).
      split; [|split; [exact Py|]].
      * destruct Vy as (o & B & Do).
        rewrite (binding_fun _ _ _ _ (place_binding _ _ _ _ Ply Ay) B) in Do.
        exists (Some vy). split; [eapply place_binding; eassumption|].
        eapply den_frame; [exact Do|]. intros l R. eapply Fr; eassumption.
      * intros pl0 P0. rewrite <- (place_of_fun _ _ _ Ply P0). exists vy, fy.
        split; [exact Ay'|]. split.
        { eapply owns_frame; [exact Owy|]. intros l I. eapply (Fr ply vy); [exact Npl|exact Ay|].
          exact (proj1 (owned_reach_both _) _ _ Owy l I). }
        split; [exact Ndy|]. intros pl' w l N A R I.
        destruct (place_dec pl' pl) as [->|N'].
        -- rewrite (at_place_fun _ _ _ _ A At) in R.
           pose proof (reach_owned _ _ _ _ _ Ow D Pl R) as I'.
           apply (Dj l ply vy I' Npl Ay).
           exact (proj1 (owned_reach_both _) _ _ Owy l I).
        -- apply (Pls _ _ N') in A. exact (Djy pl' w l N A (RF _ _ _ N' A R) I).
  - split.
    + intros y q Ny (o & B & Do). assert (Nyx : y <> x) by (intros ->; apply Ny; now left).
      assert (PL : exists ply, place_of y ply).
      { inversion B; eexists; constructor; assumption. }
      destruct PL as [ply Ply].
      assert (Npl : ply <> pl).
      { intros ->. apply Nyx. eapply place_of_inj; eassumption. }
      destruct o as [v|].
      * pose proof (binding_place _ _ _ _ B Ply) as Av. exists (Some v). split.
        -- eapply place_binding; [exact Ply|]. apply Pls; assumption.
        -- eapply den_frame; [exact Do|]. intros l R. eapply Fr; eassumption.
      * exists None. split; [|exact Do]. destruct Ply as [L|L].
        -- apply (place_unbound s' y (PLocal 0 y)); [constructor; exact L| |].
           ++ intros v A. apply (Pls _ _ Npl) in A.
              exact (unbound_place _ _ _ _ B (place_local _ L) A).
           ++ apply Sc. eapply binding_scopes; eassumption.
        -- destruct (lookup (st_vars s') y) as [v|] eqn:F.
           ++ exfalso. apply (unbound_place s y (PGlobal y) v B (place_global _ L)).
              apply (Pls _ _ Npl). constructor. exact F.
           ++ rewrite <- F. apply binding_global. exact L.
    + intros pl' w q Np A Dw. 
      assert (N : pl' <> pl) by (intros ->; apply (Np x (or_introl eq_refl)); exact Px).
      split; [apply Pls; assumption|]. eapply den_frame; [exact Dw|]. intros l R.
      eapply Fr; eassumption.
Qed.

Lemma adv_place s s' pl w : adv s s' -> (at_place s' pl w <-> at_place s pl w).
Proof.
  intros (t & d & ->). split; intros A; inversion A; subst; econstructor; eassumption.
Qed.
Lemma rebound_place x pl v s s' : rebound x v s s' -> place_of x pl ->
  at_place s' pl v /\ forall pl' w, pl' <> pl -> (at_place s' pl' w <-> at_place s pl' w).
Proof.
  intros Rb P. destruct Rb as [sc rest L E|L]; destruct P as [L'|L']; try contradiction.
  - split.
    + econstructor; [reflexivity|]. cbn [sc_vars lookup]. rewrite str_eqb_refl_true. reflexivity.
    + intros pl' w N. split; intros A; inversion A; subst;
        try (econstructor; eassumption).
      * destruct k as [|k]; cbn [st_scopes set_scopes nth_error] in *.
        -- match goal with H : Some _ = Some _ |- _ => injection H as <- end.
           cbn [sc_vars lookup] in *.
           destruct (str_eqb x0 x) eqn:X; [apply str_eqb_eq in X; congruence|].
           econstructor; [rewrite E; reflexivity|eassumption].
        -- econstructor; [rewrite E; cbn [nth_error]; eassumption|eassumption].
      * destruct k as [|k]; cbn [st_scopes set_scopes nth_error] in *.
        -- match goal with H : Some _ = Some _ |- _ => injection H as <- end. cbn [sc_fun] in *.
           econstructor; [rewrite E; reflexivity|eassumption].
        -- econstructor; [rewrite E; cbn [nth_error]; eassumption|eassumption].
      * rewrite E in *. destruct k as [|k]; cbn [nth_error] in *.
        -- match goal with H : Some _ = Some _ |- _ => injection H as <- end.
           econstructor; [reflexivity|]. cbn [sc_vars lookup].
           destruct (str_eqb x0 x) eqn:X; [apply str_eqb_eq in X; congruence|eassumption].
        -- econstructor; [cbn [st_scopes set_scopes nth_error]; eassumption|eassumption].
      * rewrite E in *. destruct k as [|k]; cbn [nth_error] in *.
        -- match goal with H : Some _ = Some _ |- _ => injection H as <- end.
           econstructor; [reflexivity|]. cbn [sc_fun]. assumption.
        -- econstructor; [cbn [st_scopes set_scopes nth_error]; eassumption|eassumption].
  - split.
    + constructor. cbn [st_vars set_vars lookup]. rewrite str_eqb_refl_true. reflexivity.
    + intros pl' w N. split; intros A; inversion A; subst;
        try (econstructor; eassumption).
      * cbn [st_vars set_vars lookup] in *.
        destruct (str_eqb x0 x) eqn:X; [apply str_eqb_eq in X; congruence|].
        constructor. assumption.
      * constructor. cbn [st_vars set_vars lookup].
        destruct (str_eqb x0 x) eqn:X; [apply str_eqb_eq in X; congruence|assumption].
Qed.

(** ** Changing an item in place *)

(** Only the cells [fp] may have changed, and there may be new ones. *)
Definition touches (fp : list loc) (s s' : state) : Prop :=
  exists h d, s' = set_diag (st_diag s ++ d) (set_heap h s) /\
    (length (st_heap s) <= length h)%nat /\
    forall l, (l < length (st_heap s))%nat -> ~ In l fp -> nth_error h l = nth_error (st_heap s) l.

Lemma touches_adv fp s s' : adv s s' -> touches fp s s'.
Proof.
  intros (t & d & ->). exists (st_heap s ++ t), d. split; [reflexivity|].
  split; [rewrite app_length; lia|]. intros l L _. apply nth_app_old. exact L.
Qed.
Lemma touches_incl fp fq s s' : touches fp s s' -> incl fp fq -> touches fq s s'.
Proof.
  intros (h & d & -> & L & K) I. exists h, d. split; [reflexivity|]. split; [exact L|].
  intros l Ll N. apply K; [exact Ll|]. intros H. apply N, I, H.
Qed.
Lemma touches_trans fp s1 s2 s3 :
  adv s1 s2 -> touches fp s2 s3 -> touches fp s1 s3.
Proof.
  intros (t & d & ->) (h & d' & -> & L & K). exists h, (d ++ d'). split.
  { unfold set_diag, set_heap, grow. cbn. rewrite app_assoc. reflexivity. }
  cbn [st_heap set_diag grow set_heap] in *. rewrite app_length in L. split; [lia|].
  intros l Ll N. rewrite K; [apply nth_app_old; exact Ll|rewrite app_length; lia|exact N].
Qed.
Lemma touches_length fp s s' : touches fp s s' -> (length (st_heap s) <= length (st_heap s'))%nat.
Proof. intros (h & d & -> & L & _). exact L. Qed.
Lemma touches_same fp s s' l :
  touches fp s s' -> (l < length (st_heap s))%nat -> ~ In l fp ->
  nth_error (st_heap s') l = nth_error (st_heap s) l.
Proof. intros (h & d & -> & _ & K). exact (K l). Qed.
Lemma touches_store l c s :
  (l < length (st_heap s))%nat -> touches [l] s (set_heap (hset (st_heap s) l c) s).
Proof.
  intros L. exists (hset (st_heap s) l c), []. split.
  { unfold set_diag, set_heap. cbn. rewrite app_nil_r. reflexivity. }
  unfold hset. rewrite set_nth_length by exact L. split; [lia|].
  intros k Lk N. apply set_nth_other; [exact L|]. intros ->. apply N. now left.
Qed.

Lemma owns_all_split h vs1 vs2 fp :
  owns_all h (vs1 ++ vs2) fp <->
  exists f g, fp = f ++ g /\ owns_all h vs1 f /\ owns_all h vs2 g.
Proof.
  revert fp. induction vs1 as [|v vs1 IH]; intros fp; cbn [Datatypes.app].
  - split.
    + intros O. exists [], fp. split; [reflexivity|]. split; [constructor|exact O].
    + intros (f & g & -> & O1 & O2). inversion O1; subst. exact O2.
  - split.
    + intros O. inversion O as [|? f ? g Ov Os]; subst. apply IH in Os.
      destruct Os as (f' & g' & -> & O1 & O2). exists (f ++ f'), g'. rewrite app_assoc.
      split; [reflexivity|]. split; [constructor; assumption|exact O2].
    + intros (f & g & -> & O1 & O2). inversion O1 as [|? f1 ? f2 Ov Os]; subst.
      rewrite <- app_assoc. constructor; [exact Ov|]. apply IH. eauto.
Qed.
Lemma dens_split h vs ps1 p ps2 :
  dens h vs (ps1 ++ p :: ps2) ->
  exists vs1 v vs2, vs = vs1 ++ v :: vs2 /\ dens h vs1 ps1 /\ den h v p /\ dens h vs2 ps2.
Proof.
  revert vs. induction ps1 as [|q ps1 IH]; intros vs D; cbn [Datatypes.app] in D.
  - inversion D; subst. exists [], v, vs0. split; [reflexivity|]. split; [constructor|auto].
  - inversion D as [|w ? ws ? Dw Ds]; subst. destruct (IH _ Ds) as (vs1 & v & vs2 & -> & D1 & D2 & D3).
    exists (w :: vs1), v, vs2. split; [reflexivity|]. split; [constructor; assumption|auto].
Qed.
Lemma dens_join h vs1 v vs2 ps1 p ps2 :
  dens h vs1 ps1 -> den h v p -> dens h vs2 ps2 -> dens h (vs1 ++ v :: vs2) (ps1 ++ p :: ps2).
Proof.
  intros D1 D D2. induction D1; cbn [Datatypes.app]; constructor; assumption.
Qed.
Lemma dens_frame_owned h h' vs fp ps :
  owns_all h vs fp -> dens h vs ps -> forallb plain ps = true ->
  (forall l, In l fp -> nth_error h' l = nth_error h l) -> dens h' vs ps.
Proof.
  intros Ow D P K. apply (proj1 (proj2 (den_frame_all h h')) _ _ D).
  intros v l I R. apply K. exact (proj2 (reach_owned_both h) _ _ Ow ps D P v l I R).
Qed.
Lemma set_nth_mid {A} (l1 : list A) a l2 x :
  set_nth (l1 ++ a :: l2) (length l1) x = l1 ++ x :: l2.
Proof.
  unfold set_nth. rewrite firstn_app, Nat.sub_diag, firstn_all, firstn_O, app_nil_r.
  rewrite skipn_app, (skipn_all2 l1) by lia.
  replace (S (length l1) - length l1)%nat with 1%nat by lia. reflexivity.
Qed.

Definition set_item (v : hval) (zs : list Z) (rv : hval) : M unit :=
  cur <- dig v (map IInt (removelast zs));;
  ok <- h_setitem cur (IInt (last zs 0)) rv;;
  if ok then mret tt else mwarn "assign: index".

(** Following indices into a Scalar leads to new Scalars. *)
Lemma dig_scalar zs : forall l t s,
  t <> [] -> nth_error (st_heap s) l = Some (OS t) ->
  exists l' t' s', dig (HScal l) (map IInt zs) s = Ok (HScal l') s' /\ adv s s' /\ t' <> [] /\
    nth_error (st_heap s') l' = Some (OS t') /\ (zs <> [] -> (length (st_heap s) <= l')%nat).
Proof.
  induction zs as [|z zs IH]; intros l t s Nt E.
  - exists l, t, s. split; [reflexivity|]. split; [apply adv_refl|]. split; [exact Nt|].
    split; [exact E|]. congruence.
  - cbn [map dig h_index].
    assert (Pg : exists c, p_getitem (PScal t) (IInt z) = Val (PScal [c])).
    { cbn [p_getitem]. rewrite seq_index_position.
      destruct (nth_error t (position t z)) as [c|] eqn:N; [exists c; reflexivity|].
      apply nth_error_None in N. exfalso. unfold position in N.
      assert (0 < Z.of_nat (length t)) by (destruct t; [congruence|cbn [length]; lia]).
      pose proof (Z.mod_pos_bound z (Z.of_nat (length t)) H). lia. }
    destruct Pg as [c Pg].
    assert (X : (o <- (s0 <- load_str l;; index_new (PScal s0) (IInt z));;
                 match o with Some v' => dig v' (map IInt zs) | None => fail (EPy NameError) end) s
              = dig (HScal (length (st_heap s))) (map IInt zs) (grow [OS [c]] s)).
    { unfold load_str, load, mbind. rewrite E. unfold mret, index_new. rewrite Pg. reflexivity. }
    rewrite X.
    destruct (IH (length (st_heap s)) [c] (grow [OS [c]] s)) as (l' & t' & s' & E' & A & Nt' & N' & L').
    + discriminate.
    + cbn [grow st_heap set_heap]. rewrite nth_error_app2, Nat.sub_diag by lia. reflexivity.
    + exists l', t', s'. split; [exact E'|].
      split; [eapply adv_trans; [apply adv_grow|exact A]|]. split; [exact Nt'|]. split; [exact N'|].
      intros _. destruct zs as [|z' zs].
      * cbn [map dig] in E'. injection E' as <- <-. lia.
      * assert (Y : (length (st_heap (grow [OS [c]] s)) <= l')%nat) by (apply L'; discriminate).
        cbn [grow st_heap set_heap] in Y. rewrite app_length in Y. lia.
Qed.

Lemma set_scalar l t z rv q s :
  t <> [] -> nth_error (st_heap s) l = Some (OS t) -> den (st_heap s) rv q ->
  h_setitem (HScal l) (IInt z) rv s
  = Ok true (set_heap (hset (st_heap s) l
       (OS (firstn (position t z) t ++ p_str (st_fmt s) q ++ skipn (S (position t z)) t))) s).
Proof.
  intros Nt E D. cbn [h_setitem].
  rewrite (bind_step _ _ _ t s) by (unfold load_str, load, mbind; rewrite E; reflexivity).
  rewrite (bind_step _ _ _ (st_fmt s) s) by reflexivity.
  destruct t as [|c t]; [congruence|].
  rewrite (bind_step _ _ _ _ _ (dread_ok _ _ _ D)).
  unfold mbind at 1, Heap.store. rewrite E. reflexivity.
Qed.

Theorem set_item_ok fmt p zs q p' :
  updated fmt p zs q p' -> forall s v fp rv fr,
  st_fmt s = fmt ->
  owns (st_heap s) v fp -> NoDup fp -> den (st_heap s) v p -> plain p = true ->
  owns (st_heap s) rv fr -> NoDup fr -> den (st_heap s) rv q -> plain q = true ->
  (forall l, In l fp -> ~ In l fr) ->
  exists s', set_item v zs rv s = Ok tt s' /\ touches fp s s' /\ plain p' = true /\
    den (st_heap s') v p' /\
    exists fp', owns (st_heap s') v fp' /\ NoDup fp' /\ forall l, In l fp' -> In l fp \/ In l fr.
Proof.
  induction 1 as [l1 a l2 z q Pz|s1 c s2 z q Pz|z q|z q|l1 a l2 z zs q a' Pz Nz U IH|t z zs q Nt Nz];
    intros s v fp rv fr Fm Ow Nd D Pl Or Nr Dr Pr Dj.
  - (* an item of a List *)
    inversion D as [| |l items ps E Ds| | |]; subst. inversion Ow as [|? items' f E' Os| | | |]; subst.
    rewrite E in E'. injection E' as <-.
    destruct (dens_split _ _ _ _ _ Ds) as (i1 & w & i2 & -> & D1 & Dw & D2).
    apply owns_all_split in Os. destruct Os as (f1 & g & -> & O1 & Og).
    inversion Og as [|? fa ? f2 Oa O2]; subst.
    cbn [plain] in Pl. rewrite forallb_app in Pl. cbn [forallb] in Pl.
    apply andb_prop in Pl. destruct Pl as [P1 P2]. apply andb_prop in P2. destruct P2 as [Pa P2].
    assert (Ll : (l < length (st_heap s))%nat) by (apply nth_error_Some; congruence).
    assert (Pos : Z.to_nat (z mod zlen (i1 ++ w :: i2)) = length i1).
    { rewrite (dens_length _ _ _ D1), <- Pz. unfold position, zlen. rewrite !app_length.
      cbn [length]. rewrite (dens_length _ _ _ D1), (dens_length _ _ _ D2). reflexivity. }
    inversion Nd as [|? ? Nl Nf]; subst.
    apply NoDup_append_inv in Nf. destruct Nf as (N1 & Ng & Dj1).
    apply NoDup_append_inv in Ng. destruct Ng as (Na & N2 & Dj2).
    set (h' := hset (st_heap s) l (OL (i1 ++ rv :: i2))).
    exists (set_heap h' s).
    assert (T : touches [l] s (set_heap h' s)) by (apply touches_store; exact Ll).
    assert (Keep : forall k, (k < length (st_heap s))%nat -> k <> l ->
              nth_error h' k = nth_error (st_heap s) k).
    { intros k Lk Nk. apply (touches_same [l] s (set_heap h' s) k T Lk). intros [->|[]]. congruence. }
    assert (Nth : nth_error h' l = Some (OL (i1 ++ rv :: i2))) by (apply set_nth_same; exact Ll).
    assert (Kr : forall k, In k fr -> nth_error h' k = nth_error (st_heap s) k).
    { intros k I. apply Keep; [exact (owns_lt _ _ _ _ Or I)|]. intros ->. apply (Dj l); [now left|exact I]. }
    assert (K1 : forall k, In k f1 -> nth_error h' k = nth_error (st_heap s) k).
    { intros k I. apply Keep; [exact (owns_all_lt _ _ _ _ O1 I)|]. intros ->. apply Nl.
      rewrite in_app_iff. auto. }
    assert (K2 : forall k, In k f2 -> nth_error h' k = nth_error (st_heap s) k).
    { intros k I. apply Keep; [exact (owns_all_lt _ _ _ _ O2 I)|]. intros ->. apply Nl.
      rewrite !in_app_iff. auto. }
    split; [|split; [|split; [|split]]].
    + unfold set_item. cbn [removelast map dig last].
      rewrite (bind_step _ _ _ (HList l) s) by reflexivity.
      rewrite (bind_step _ _ _ true (set_heap h' s)); [reflexivity|].
      cbn [h_setitem].
      rewrite (bind_step _ _ _ (i1 ++ w :: i2) s)
        by (unfold load_list, load, mbind; rewrite E; reflexivity).
      rewrite Pos, set_nth_mid.
      destruct (i1 ++ w :: i2) eqn:Z; [destruct i1; discriminate|].
      unfold mbind, Heap.store. rewrite E. reflexivity.
    + eapply touches_incl; [exact T|]. intros k [<-|[]]. now left.
    + cbn [plain]. rewrite forallb_app. cbn [forallb]. rewrite P1, Pr, P2. reflexivity.
    + cbn [st_heap set_heap]. econstructor; [exact Nth|]. apply dens_join.
      * exact (dens_frame_owned _ _ _ _ _ O1 D1 P1 K1).
      * eapply den_frame; [exact Dr|]. intros k R. apply Kr. exact (reach_owned _ _ _ _ _ Or Dr Pr R).
      * exact (dens_frame_owned _ _ _ _ _ O2 D2 P2 K2).
    + cbn [st_heap set_heap]. exists (l :: f1 ++ fr ++ f2). split; [|split].
      * econstructor; [exact Nth|]. apply owns_all_split. exists f1, (fr ++ f2).
        split; [reflexivity|]. split; [exact (owns_all_frame _ _ _ _ O1 K1)|].
        constructor; [exact (owns_frame _ _ _ _ Or Kr)|exact (owns_all_frame _ _ _ _ O2 K2)].
      * constructor.
        -- rewrite !in_app_iff. intros [H|[H|H]].
           ++ apply Nl. rewrite in_app_iff. auto.
           ++ apply (Dj l); [now left|exact H].
           ++ apply Nl. rewrite !in_app_iff. auto.
        -- apply NoDup_append; [exact N1| |].
           ++ apply NoDup_append; [exact Nr|exact N2|]. intros k I I'. apply (Dj k); [|exact I].
              right. rewrite !in_app_iff. auto.
           ++ intros k I I'. rewrite in_app_iff in I'. destruct I' as [I'|I'].
              ** apply (Dj k); [|exact I']. right. rewrite in_app_iff. auto.
              ** apply (Dj1 k I). rewrite in_app_iff. auto.
      * intros k [<-|I]; [left; now left|]. rewrite !in_app_iff in I.
        destruct I as [I|[I|I]]; [left|auto|left]; right; rewrite !in_app_iff; auto.
  - (* a character *)
    inversion D as [l ? E| | | | |]; subst. inversion Ow as [? t E'| | | | |]; subst.
    assert (Ll : (l < length (st_heap s))%nat) by (apply nth_error_Some; congruence).
    set (h' := hset (st_heap s) l (OS (s1 ++ p_str (st_fmt s) q ++ s2))).
    exists (set_heap h' s).
    assert (Nth : nth_error h' l = Some (OS (s1 ++ p_str (st_fmt s) q ++ s2)))
      by (apply set_nth_same; exact Ll).
    split; [|split; [|split; [|split]]].
    + unfold set_item. cbn [removelast map dig last].
      rewrite (bind_step _ _ _ (HScal l) s) by reflexivity.
      rewrite (bind_step _ _ _ true (set_heap h' s)); [reflexivity|].
      rewrite (set_scalar l (s1 ++ c :: s2) z rv q s); [|destruct s1; discriminate|exact E|exact Dr].
      unfold h'. rewrite Pz. do 4 f_equal.
      rewrite firstn_app, Nat.sub_diag, firstn_all, firstn_O, app_nil_r. f_equal. f_equal.
      rewrite skipn_app, (skipn_all2 s1) by lia.
      replace (S (length s1) - length s1)%nat with 1%nat by lia. reflexivity.
    + apply touches_store. exact Ll.
    + reflexivity.
    + constructor. exact Nth.
    + exists [l]. split; [econstructor; exact Nth|]. split; [constructor; [intros []|constructor]|].
      auto.
  - (* no items *)
    inversion D as [| |l items ps E Ds| | |]; subst. inversion Ds; subst.
    destruct (yields_warn "assign: index" s) as ([] & s' & E' & A & _).
    exists s'. split; [|split; [apply touches_adv; exact A|]].
    + unfold set_item. cbn [removelast map dig last].
      rewrite (bind_step _ _ _ (HList l) s) by reflexivity.
      rewrite (bind_step _ _ _ false s); [exact E'|]. cbn [h_setitem].
      rewrite (bind_step _ _ _ [] s); [reflexivity|].
      unfold load_list, load, mbind; rewrite E; reflexivity.
    + split; [reflexivity|]. split; [exact (adv_den _ _ _ _ A D)|]. exists fp.
      split; [destruct A as (t & d & ->); apply owns_app; exact Ow|]. split; [exact Nd|]. auto.
  - inversion D as [l ? E| | | | |]; subst.
    destruct (yields_warn "assign: index" s) as ([] & s' & E' & A & _).
    exists s'. split; [|split; [apply touches_adv; exact A|]].
    + unfold set_item. cbn [removelast map dig last].
      rewrite (bind_step _ _ _ (HScal l) s) by reflexivity.
      rewrite (bind_step _ _ _ false s); [exact E'|]. cbn [h_setitem].
      rewrite (bind_step _ _ _ ([] : str) s); [reflexivity|].
      unfold load_str, load, mbind; rewrite E; reflexivity.
    + split; [reflexivity|]. split; [exact (adv_den _ _ _ _ A D)|]. exists fp.
      split; [destruct A as (t & d & ->); apply owns_app; exact Ow|]. split; [exact Nd|]. auto.
  - (* inside an item of a List *)
    inversion D as [| |l items ps E Ds| | |]; subst. inversion Ow as [|? items' f E' Os| | | |]; subst.
    rewrite E in E'. injection E' as <-.
    destruct (dens_split _ _ _ _ _ Ds) as (i1 & w & i2 & -> & D1 & Dw & D2).
    apply owns_all_split in Os. destruct Os as (f1 & g & -> & O1 & Og).
    inversion Og as [|? fa ? f2 Oa O2]; subst.
    cbn [plain] in Pl. rewrite forallb_app in Pl. cbn [forallb] in Pl.
    apply andb_prop in Pl. destruct Pl as [P1 P2]. apply andb_prop in P2. destruct P2 as [Pa P2].
    assert (Ll : (l < length (st_heap s))%nat) by (apply nth_error_Some; congruence).
    assert (Pos : seq_index (i1 ++ w :: i2) z = Some w).
    { rewrite seq_index_position.
      assert (position (i1 ++ w :: i2) z = length i1) as ->.
      { rewrite (dens_length _ _ _ D1), <- Pz. unfold position. rewrite !app_length. cbn [length].
        rewrite (dens_length _ _ _ D1), (dens_length _ _ _ D2). reflexivity. }
      rewrite nth_error_app2, Nat.sub_diag by lia. reflexivity. }
    inversion Nd as [|? ? Nl Nf]; subst.
    apply NoDup_append_inv in Nf. destruct Nf as (N1 & Ng & Dj1).
    apply NoDup_append_inv in Ng. destruct Ng as (Na & N2 & Dj2).
    destruct (IH s w fa rv fr eq_refl Oa Na Dw Pa Or Nr Dr Pr) as (s' & E2 & T & Pa' & Da' & fa' & Oa' & Na' & Ia').
    { intros k I. apply Dj. right. rewrite !in_app_iff. auto. }
    assert (Keep : forall k, (k < length (st_heap s))%nat -> ~ In k fa ->
              nth_error (st_heap s') k = nth_error (st_heap s) k)
      by (intros k Lk Nk; eapply touches_same; eassumption).
    assert (Nth : nth_error (st_heap s') l = Some (OL (i1 ++ w :: i2))).
    { rewrite Keep; [exact E|exact Ll|]. intros I. apply Nl. rewrite !in_app_iff. auto. }
    assert (K1 : forall k, In k f1 -> nth_error (st_heap s') k = nth_error (st_heap s) k).
    { intros k I. apply Keep; [exact (owns_all_lt _ _ _ _ O1 I)|]. intros I'.
      apply (Dj1 k I). rewrite in_app_iff. auto. }
    assert (K2 : forall k, In k f2 -> nth_error (st_heap s') k = nth_error (st_heap s) k).
    { intros k I. apply Keep; [exact (owns_all_lt _ _ _ _ O2 I)|]. intros I'. exact (Dj2 k I' I). }
    exists s'. split; [|split; [|split; [|split]]].
    + unfold set_item in *. destruct zs as [|z' zs]; [congruence|].
      replace (removelast (z :: z' :: zs)) with (z :: removelast (z' :: zs)) by reflexivity.
      replace (last (z :: z' :: zs) 0) with (last (z' :: zs) 0) by reflexivity.
      bind_inv E2. rewrite (bind_step _ _ _ a0 s0); [exact E2|].
      replace (map IInt (z :: removelast (z' :: zs)))
        with (IInt z :: map IInt (removelast (z' :: zs))) by reflexivity.
      cbn [dig h_index]. rewrite (bind_step _ _ _ (Some w) s); [exact E0|].
      rewrite (bind_step _ _ _ (i1 ++ w :: i2) s)
        by (unfold load_list, load, mbind; rewrite E; reflexivity).
      rewrite Pos. reflexivity.
    + eapply touches_incl; [exact T|]. intros k I. right. rewrite !in_app_iff. auto.
    + cbn [plain]. rewrite forallb_app. cbn [forallb]. rewrite P1, Pa', P2. reflexivity.
    + econstructor; [exact Nth|]. apply dens_join.
      * exact (dens_frame_owned _ _ _ _ _ O1 D1 P1 K1).
      * exact Da'.
      * exact (dens_frame_owned _ _ _ _ _ O2 D2 P2 K2).
    + exists (l :: f1 ++ fa' ++ f2). split; [|split].
      * econstructor; [exact Nth|]. apply owns_all_split. exists f1, (fa' ++ f2).
        split; [reflexivity|]. split; [exact (owns_all_frame _ _ _ _ O1 K1)|].
        constructor; [exact Oa'|exact (owns_all_frame _ _ _ _ O2 K2)].
      * constructor.
        -- rewrite !in_app_iff. intros [H|[H|H]].
           ++ apply Nl. rewrite in_app_iff. auto.
           ++ destruct (Ia' l H) as [I|I].
              ** apply Nl. rewrite !in_app_iff. auto.
              ** apply (Dj l); [now left|exact I].
           ++ apply Nl. rewrite !in_app_iff. auto.
        -- apply NoDup_append; [exact N1| |].
           ++ apply NoDup_append; [exact Na'|exact N2|]. intros k I I'.
              destruct (Ia' k I) as [H|H]; [exact (Dj2 k H I')|].
              apply (Dj k); [|exact H]. right. rewrite !in_app_iff. auto.
           ++ intros k I I'. rewrite in_app_iff in I'. destruct I' as [I'|I'].
              ** destruct (Ia' k I') as [H|H].
                 --- apply (Dj1 k I). rewrite in_app_iff. auto.
                 --- apply (Dj k); [|exact H]. right. rewrite in_app_iff. auto.
              ** apply (Dj1 k I). rewrite in_app_iff. auto.
      * intros k [<-|I]; [left; now left|]. rewrite !in_app_iff in I.
        destruct I as [I|[I|I]].
        -- left. right. rewrite !in_app_iff. auto.
        -- destruct (Ia' k I) as [H|H]; [|auto]. left. right. rewrite !in_app_iff. auto.
        -- left. right. rewrite !in_app_iff. auto.
  - (* inside a character *)
    inversion D as [l ? E| | | | |]; subst. inversion Ow as [? t' E'| | | | |]; subst.
    assert (Ll : (l < length (st_heap s))%nat) by (apply nth_error_Some; congruence).
    destruct (dig_scalar (removelast (z :: zs)) l t s Nt E) as (l' & u & s1 & E1 & A1 & Nu & Nl & L').
    assert (Hl : (length (st_heap s) <= l')%nat).
    { apply L'. destruct zs; [congruence|discriminate]. }
    assert (Ll' : (l' < length (st_heap s1))%nat) by (apply nth_error_Some; congruence).
    pose proof (set_scalar l' u (last (z :: zs) 0) rv q s1 Nu Nl (adv_den _ _ _ _ A1 Dr)) as S1.
    match type of S1 with _ = Ok true ?x => set (s2 := x) in * end.
    assert (T : touches [l'] s1 s2) by (apply touches_store; exact Ll').
    assert (Same : nth_error (st_heap s2) l = nth_error (st_heap s) l).
    { rewrite (touches_same _ _ _ l T).
      - destruct A1 as (tt1 & d & ->). cbn [st_heap set_diag grow set_heap].
        apply nth_app_old. exact Ll.
      - pose proof (adv_length _ _ A1). lia.
      - intros [->|[]]. lia. }
    exists s2. split; [|split; [|split; [reflexivity|split]]].
    + unfold set_item. rewrite (bind_step _ _ _ _ _ E1), (bind_step _ _ _ _ _ S1). reflexivity.
    + destruct (touches_trans _ _ _ _ A1 T) as (h & d & Eh & Lh & Kh).
      exists h, d. split; [exact Eh|]. split; [exact Lh|].
      intros k Lk Nk. apply Kh; [exact Lk|]. intros [->|[]]. lia.
    + constructor. congruence.
    + exists [l]. split; [econstructor; rewrite Same; exact E|].
      split; [constructor; [intros []|constructor]|]. auto.
Qed.

(** ** Reading what is updated *)
Lemma position_below {A} (l : list A) z : l <> [] -> (position l z < length l)%nat.
Proof.
  intros N. unfold position.
  assert (0 < Z.of_nat (length l)) by (destruct l; [congruence|cbn [length]; lia]).
  pose proof (Z.mod_pos_bound z (Z.of_nat (length l)) H). lia.
Qed.
Lemma scalar_item zs : forall t, exists r, item_at (PScal t) zs r.
Proof.
  induction zs as [|z zs IH]; intros t; [eexists; constructor|].
  destruct t as [|c t].
  - exists PNil. apply item_empty. apply (elems_scal []).
  - pose proof (position_below (map (fun c => PScal [c]) (c :: t)) z) as B.
    destruct (nth_error (map (fun c => PScal [c]) (c :: t))
                (position (map (fun c => PScal [c]) (c :: t)) z)) as [r|] eqn:N.
    + pose proof N as N'. rewrite nth_error_map in N'. destruct (nth_error (c :: t) _); [|discriminate].
      injection N' as <-. destruct (IH [c0]) as [r H]. exists r.
      eapply item_in; [apply (elems_scal (c :: t))|exact N|exact H].
    + apply nth_error_None in N. assert (X : map (fun c => PScal [c]) (c :: t) <> []) by discriminate.
      specialize (B X). lia.
Qed.
Lemma mid_item l1 a l2 z zs r :
  position (l1 ++ a :: l2) z = length l1 -> item_at a zs r ->
  item_at (PList (l1 ++ a :: l2)) (z :: zs) r.
Proof.
  intros P I. eapply item_in; [apply elems_list| |exact I].
  rewrite P, nth_error_app2, Nat.sub_diag by lia. reflexivity.
Qed.
Lemma position_mid {A} (l1 : list A) a b l2 z :
  position (l1 ++ a :: l2) z = position (l1 ++ b :: l2) z.
Proof. unfold position. rewrite !app_length. reflexivity. Qed.
Lemma updated_read fmt p zs q p' : updated fmt p zs q p' -> exists r, item_at p' zs r.
Proof.
  induction 1 as [l1 a l2 z q P|s1 c s2 z q P|z q|z q|l1 a l2 z zs q a' P N U IH|t z zs q N N'];
    try apply scalar_item.
  - exists q. apply mid_item; [|constructor]. rewrite <- P. apply position_mid.
  - exists PNil. apply item_empty. constructor.
  - destruct IH as [r H]. exists r. apply mid_item; [|exact H]. rewrite <- P. apply position_mid.
Qed.
Lemma updated_prefix fmt p zs q p' : updated fmt p zs q p' -> exists r, item_at p zs r.
Proof.
  induction 1 as [l1 a l2 z q P|s1 c s2 z q P|z q|z q|l1 a l2 z zs q a' P N U IH|t z zs q N N'];
    try apply scalar_item.
  - exists a. apply mid_item; [exact P|constructor].
  - exists PNil. apply item_empty. constructor.
  - destruct IH as [r H]. exists r. apply mid_item; [exact P|exact H].
Qed.
Lemma as_list_item p p1 zs r : as_list p p1 -> item_at p1 zs r -> exists r', item_at p zs r'.
Proof.
  intros A I. inversion A as [lo u l El| |]; subst; eauto.
  inversion I as [|? l' z r0 zs' ? El' N I'|? z zs' El'|]; subst.
  - eexists; constructor.
  - inversion El'; subst. exists r. eapply item_in; eassumption.
  - inversion El'; subst. exists PNil. apply item_empty. exact El.
Qed.
Lemma updated_some fmt p zs q p' : updated fmt p zs q p' -> zs <> [].
Proof. destruct 1; discriminate. Qed.
Lemma as_list_plain p p1 : as_list p p1 -> plain p = true -> plain p1 = true.
Proof.
  intros [lo u l El| |] P; auto. exact (elems_plain _ _ El P).
Qed.

(** ** What an assignment changes *)

(** What changed is the object at [pl], the cells [fp], and there may be new
    cells. *)
Record changes (pl : place) (fp : list loc) (s s' : state) : Prop := {
  ch_place : forall pl' w, pl' <> pl -> (at_place s' pl' w <-> at_place s pl' w);
  ch_cell : forall l, (l < length (st_heap s))%nat -> ~ In l fp ->
              nth_error (st_heap s') l = nth_error (st_heap s) l;
  ch_length : (length (st_heap s) <= length (st_heap s'))%nat;
  ch_tao : st_tao s' = st_tao s;
  ch_fmt : st_fmt s' = st_fmt s;
  ch_io : st_out s' = st_out s /\ st_in s' = st_in s;
  ch_scopes : st_scopes s <> [] -> st_scopes s' <> [] }.

Lemma changes_adv pl fp s s' : adv s s' -> changes pl fp s s'.
Proof.
  intros A. split.
  - intros pl' w _. apply adv_place. exact A.
  - intros l L _. destruct A as (t & d & ->). apply nth_app_old. exact L.
  - apply adv_length. exact A.
  - destruct A as (t & d & ->). reflexivity.
  - destruct A as (t & d & ->). reflexivity.
  - destruct A as (t & d & ->). auto.
  - destruct A as (t & d & ->). auto.
Qed.
Lemma changes_rebound x pl fp v s s' : rebound x v s s' -> place_of x pl -> changes pl fp s s'.
Proof.
  intros Rb P. destruct (rebound_place _ _ _ _ _ Rb P) as [_ K].
  split.
  - exact K.
  - intros; destruct Rb; reflexivity.
  - destruct Rb; apply le_n.
  - destruct Rb; reflexivity.
  - destruct Rb; reflexivity.
  - destruct Rb; auto.
  - destruct Rb; [discriminate|auto].
Qed.
Lemma changes_touches pl fp s s' : touches fp s s' -> changes pl fp s s'.
Proof.
  intros (h & d & -> & L & K). split.
  - intros pl' w _. split; intros A; inversion A; subst; econstructor; eassumption.
  - exact K.
  - exact L.
  - reflexivity.
  - reflexivity.
  - auto.
  - auto.
Qed.
Lemma changes_trans pl fp fq fr s1 s2 s3 :
  changes pl fp s1 s2 -> changes pl fq s2 s3 ->
  (forall l, (In l fp \/ In l fq) -> (l < length (st_heap s1))%nat -> In l fr) ->
  changes pl fr s1 s3.
Proof.
  intros A B I. split.
  - intros pl' w N. rewrite (ch_place _ _ _ _ B) by exact N. apply (ch_place _ _ _ _ A). exact N.
  - intros l L N. rewrite (ch_cell _ _ _ _ B), (ch_cell _ _ _ _ A); try reflexivity; auto.
    pose proof (ch_length _ _ _ _ A). lia.
  - pose proof (ch_length _ _ _ _ A). pose proof (ch_length _ _ _ _ B). lia.
  - rewrite (ch_tao _ _ _ _ B). apply (ch_tao _ _ _ _ A).
  - rewrite (ch_fmt _ _ _ _ B). apply (ch_fmt _ _ _ _ A).
  - destruct (ch_io _ _ _ _ A), (ch_io _ _ _ _ B). split; congruence.
  - intros N. apply (ch_scopes _ _ _ _ B), (ch_scopes _ _ _ _ A), N.
Qed.

Lemma changes_settle s s' rho x pl fp v' fp' p' :
  sound s -> agrees s rho -> place_of x pl -> ordinary s x ->
  changes pl fp s s' ->
  (forall pl' w l, pl' <> pl -> at_place s pl' w -> reach (st_heap s) w l -> ~ In l fp) ->
  at_place s' pl v' -> owns (st_heap s') v' fp' -> NoDup fp' ->
  den (st_heap s') v' p' -> plain p' = true ->
  (forall l, In l fp' -> In l fp \/ (length (st_heap s) <= l)%nat) ->
  sound s' /\ agrees s' (update rho x p') /\ keeps [x] s s'.
Proof.
  intros Sd Ag Px Ox Ch Ap At Ow Nd D Pl I.
  apply (settle s s' rho x pl v' fp' p' Sd Ag Px Ox (ch_place _ _ _ _ Ch)); try assumption;
    try apply Ch.
  - intros pl' w l N A R. apply (ch_cell _ _ _ _ Ch); [exact (Sd _ _ _ A R)|].
    exact (Ap _ _ _ N A R).
  - intros l pl' w Il N A R. destruct (I l Il) as [H|H].
    + exact (Ap _ _ _ N A R H).
    + pose proof (Sd _ _ _ A R). lia.
Qed.

(** ** The two assignments *)

(** The new state after [a]. *)
Definition performed (s : state) (a : assignment) (rho' : valuation) : Prop :=
  exists v s', gives s (expression a) v s' /\ sound s' /\ agrees s' rho' /\
    keeps [put_var a] s s' /\ st_out s' = st_out s /\ st_in s' = st_in s /\
    st_fmt s' = st_fmt s /\ st_tao s' = st_tao s /\ st_scopes s' <> [].

Lemma assign_var_ok s rho x e p :
  sound s -> agrees s rho -> st_scopes s <> [] -> ordinary s x ->
  value_in (st_fmt s) rho e p -> plain p = true ->
  performed s (Put x [] e) (update rho x p).
Proof.
  intros Sd Ag Ns Ox V Pl.
  destruct (makes_gives _ _ _ s (value_makes _ _ _ _ Ag V) (adv_refl s))
    as (v & s1 & G & A1 & D1 & fp & Ow & Nd & B).
  assert (O1 : ordinary s1 x) by exact (adv_ordinary _ _ _ A1 Ox).
  destruct (place_exists x (proj1 Ox)) as [pl Px].
  assert (X : exists s2, rebound x v s1 s2).
  { destruct Px as [L|L].
    - destruct (st_scopes s1) as [|sc rest] eqn:E.
      + exfalso. apply Ns. destruct A1 as (t & d & ->). exact E.
      + eexists. eapply rebound_local; eassumption.
    - eexists. apply rebound_global. exact L. }
  destruct X as [s2 Rb].
  destruct (rebound_place _ _ _ _ _ Rb Px) as [At2 _].
  assert (H2 : st_heap s2 = st_heap s1) by (destruct Rb; reflexivity).
  assert (V2 : var s2 x p).
  { exists (Some v). split; [exact (place_binding _ _ _ _ Px At2)|]. rewrite H2. exact D1. }
  assert (O2 : ordinary s2 x).
  { destruct O1 as (H & I & J & K). repeat split; auto. intros E.
    rewrite <- (K E). destruct Rb; reflexivity. }
  destruct (get_item_ok s2 x p [] p O2 V2 (item_self p)) as (w & s3 & E3 & A3 & _).
  assert (Ch : changes pl [] s s3).
  { eapply (changes_trans pl [] []); [exact (changes_adv pl [] _ _ A1)| |intros l [[]|[]]].
    eapply (changes_trans pl [] []); [exact (changes_rebound _ _ _ _ _ _ Rb Px)|
      exact (changes_adv pl [] _ _ A3)|intros l [[]|[]]]. }
  destruct (changes_settle s s3 rho x pl [] v fp p Sd Ag Px Ox Ch) as (Sd' & Ag' & K').
  - intros pl' u l _ _ _ [].
  - apply (adv_place _ _ _ _ A3). exact At2.
  - destruct A3 as (t & d & ->). cbn [st_heap set_diag grow set_heap]. apply owns_app.
    rewrite H2. exact Ow.
  - exact Nd.
  - apply (adv_den _ _ _ _ A3). rewrite H2. exact D1.
  - exact Pl.
  - auto.
  - exists w, s3. split; [|split; [exact Sd'|split; [exact Ag'|split; [exact K'|]]]].
    + cbn [expression put_var put_path put_value path]. apply gives_evals.
      exists (XL (LName x [] None)), s2. split; [|exact E3].
      apply evals_assign; [exact Ox|]. split; [reflexivity|]. eauto.
    + split; [apply (ch_io _ _ _ _ Ch)|]. split; [apply (ch_io _ _ _ _ Ch)|].
      split; [apply (ch_fmt _ _ _ _ Ch)|]. split; [apply (ch_tao _ _ _ _ Ch)|].
      apply (ch_scopes _ _ _ _ Ch). exact Ns.
Qed.

Lemma last_index zs : zs <> [] ->
  rev (map IInt zs) = IInt (last zs 0) :: rev (map IInt (removelast zs)).
Proof.
  intros N. rewrite (app_removelast_last 0 N) at 1. rewrite map_app, rev_app_distr. reflexivity.
Qed.

Lemma assign_item_ok s x pl w fp p p1 zs q p' rv fr :
  ordinary s x -> place_of x pl -> at_place s pl w -> st_scopes s <> [] ->
  owns (st_heap s) w fp -> NoDup fp -> den (st_heap s) w p -> plain p = true ->
  owns (st_heap s) rv fr -> NoDup fr -> den (st_heap s) rv q -> plain q = true ->
  (forall l, In l fp -> ~ In l fr) ->
  as_list p p1 -> updated (st_fmt s) p1 zs q p' ->
  exists s', assign (LName x (map IInt zs) None) rv s = Ok tt s' /\ changes pl fp s s' /\
    exists w' fp', at_place s' pl w' /\ owns (st_heap s') w' fp' /\ NoDup fp' /\
      den (st_heap s') w' p' /\ plain p' = true /\
      forall l, In l fp' -> In l fp \/ In l fr \/ (length (st_heap s) <= l)%nat.
Proof.
  intros Ox Px At Ns Ow Nd D Pl Or Nr Dr Pr Dj As U.
  assert (B : binding s x (Some w)) by exact (place_binding _ _ _ _ Px At).
  assert (X : assign (LName x (map IInt zs) None) rv s
    = (v <- (match w with
             | HRange _ _ => items <- h_iter w;; v' <- new_list items;; set_var x v';; mret v'
             | _ => mret w
             end);;
       match v with
       | HList _ | HScal _ => set_item v zs rv
       | _ => mwarn "assign: not indexable"
       end) s).
  { cbn [assign]. unfold assign_name. rewrite (special_false _ _ Ox).
    rewrite (last_index _ (updated_some _ _ _ _ _ U)).
    rewrite (bind_step _ _ _ (Some w) s) by (apply get_var_binding; [apply Ox|exact B]).
    unfold set_item. rewrite rev_involutive. reflexivity. }
  rewrite X. clear X.
  inversion As as [lo u l El|l|t]; subst.
  - (* a Range *)
    inversion D as [| | |? ? | |]; subst. inversion Ow; subst.
    assert (Y : yields (items <- h_iter (HRange lo (Some u));; new_list items) s
                  (fun v s' => den (st_heap s') v (PList l) /\
                               owned (st_heap s') (length (st_heap s)) v)).
    { apply yields_makes.
      - eapply yields_bind; [exact (yields_iter _ _ l s D (elems_p_iter _ _ El))|].
        intros vs s1 A1 D1. apply yields_new_list. exact D1.
      - apply makes_list. apply makes_mmap. apply makes_fresh. }
    destruct Y as (v & s1 & E1 & A1 & D1 & f1 & O1 & N1 & B1).
    destruct v as [| |lv| | |]; try (inversion D1; fail).
    assert (Y : exists s2, rebound x (HList lv) s1 s2).
    { destruct Px as [L|L].
      - destruct (st_scopes s1) as [|sc rest] eqn:E.
        + exfalso. apply Ns. destruct A1 as (t & d & ->). exact E.
        + eexists. eapply rebound_local; eassumption.
      - eexists. apply rebound_global. exact L. }
    destruct Y as [s2 Rb].
    destruct (rebound_place _ _ _ _ _ Rb Px) as [At2 _].
    assert (H2 : st_heap s2 = st_heap s1) by (destruct Rb; reflexivity).
    assert (F2 : st_fmt s2 = st_fmt s).
    { destruct A1 as (t & d & ->). destruct Rb; reflexivity. }
    assert (Or1 : owns (st_heap s1) rv fr).
    { destruct A1 as (t & d & ->). cbn [st_heap set_diag grow set_heap]. apply owns_app. exact Or. }
    rewrite <- F2 in U. rewrite <- H2 in *.
    destruct (set_item_ok _ _ _ _ _ U s2 (HList lv) f1 rv fr eq_refl O1 N1 D1
                (elems_plain _ _ El Pl) Or1 Nr) as (s3 & E3 & T3 & P3 & D3 & f3 & O3 & N3 & I3).
    + rewrite H2. exact (adv_den _ _ _ _ A1 Dr).
    + exact Pr.
    + intros k I I'. specialize (B1 k I). pose proof (owns_lt _ _ _ _ Or I'). lia.
    + exists s3. split.
      * rewrite (bind_step _ _ _ (HList lv) s2); [exact E3|].
        bind_inv E1. rewrite (bind_step _ _ _ _ _ E), (bind_step _ _ _ _ _ E1).
        rewrite (bind_step _ _ _ tt s2); [reflexivity|].
        apply set_var_ok; [apply Ox|exact Rb].
      * split.
        -- eapply (changes_trans pl [] f1); [exact (changes_adv pl [] _ _ A1)| |].
           ++ eapply (changes_trans pl [] f1);
                [exact (changes_rebound _ _ _ _ _ _ Rb Px)|exact (changes_touches pl _ _ _ T3)|].
              intros k [[]|I] _. exact I.
           ++ intros k [[]|I] L. specialize (B1 k I). lia.
        -- exists (HList lv), f3. split.
           { destruct T3 as (h & d & -> & _). inversion At2; subst; econstructor; eassumption. }
           split; [exact O3|]. split; [exact N3|]. split; [exact D3|]. split; [exact P3|].
           intros k I. destruct (I3 k I) as [J|J]; [|auto]. right. right. auto.
  - (* a List *)
    destruct w as [| |lw| | |]; try (inversion D; fail).
    destruct (set_item_ok _ _ _ _ _ U s (HList lw) fp rv fr eq_refl Ow Nd D Pl Or Nr Dr Pr Dj)
      as (s3 & E3 & T3 & P3 & D3 & f3 & O3 & N3 & I3).
    exists s3. split; [rewrite (bind_step _ _ _ (HList lw) s) by reflexivity; exact E3|].
    split; [exact (changes_touches pl _ _ _ T3)|]. exists (HList lw), f3. split.
    { destruct T3 as (h & d & -> & _). inversion At; subst; econstructor; eassumption. }
    split; [exact O3|]. split; [exact N3|]. split; [exact D3|]. split; [exact P3|].
    intros k I. destruct (I3 k I); auto.
  - (* a Scalar *)
    destruct w as [lw| | | | |]; try (inversion D; fail).
    destruct (set_item_ok _ _ _ _ _ U s (HScal lw) fp rv fr eq_refl Ow Nd D Pl Or Nr Dr Pr Dj)
      as (s3 & E3 & T3 & P3 & D3 & f3 & O3 & N3 & I3).
    exists s3. split; [rewrite (bind_step _ _ _ (HScal lw) s) by reflexivity; exact E3|].
    split; [exact (changes_touches pl _ _ _ T3)|]. exists (HScal lw), f3. split.
    { destruct T3 as (h & d & -> & _). inversion At; subst; econstructor; eassumption. }
    split; [exact O3|]. split; [exact N3|]. split; [exact D3|]. split; [exact P3|].
    intros k I. destruct (I3 k I); auto.
Qed.

Lemma assign_path_ok s rho x is ps zs e p p1 q p' :
  sound s -> agrees s rho -> st_scopes s <> [] ->
  rho x = Some p -> is <> [] ->
  Forall2 (value_in (st_fmt s) rho) is ps -> Forall2 index_value ps zs ->
  value_in (st_fmt s) rho e q -> plain q = true ->
  as_list p p1 -> updated (st_fmt s) p1 zs q p' ->
  performed s (Put x is e) (update rho x p').
Proof.
  intros Sd Ag Ns Ex Ni Fi Fz V Pq As U.
  destruct (Ag x p Ex) as (Ox & Vx & Pp & Ix).
  destruct (place_exists x (proj1 Ox)) as [pl Px].
  destruct (Ix pl Px) as (w & fp & At & Ow & Nd & Ap).
  assert (D : den (st_heap s) w p).
  { destruct Vx as (o & B & Do).
    rewrite (binding_fun _ _ _ _ (place_binding _ _ _ _ Px At) B) in Do. exact Do. }
  (* the left side *)
  destruct (updated_prefix _ _ _ _ _ U) as [r1 I1].
  destruct (as_list_item _ _ _ _ As I1) as [r0 I0].
  destruct (path_evals s x p is ps zs Ox Vx Pp) with (e := name x) (zs0 := @nil Z) (s0 := s) (s1 := s)
    as (s1 & E1 & A1).
  - clear -Ag Fi. induction Fi; constructor; [|assumption].
    apply makes_reads. eapply value_makes; eassumption.
  - exact Fz.
  - intros k _. cbn [Datatypes.app]. exact (item_prefix _ _ _ I0 k).
  - apply adv_refl.
  - cbn [map]. exists 1%nat. apply eval_name. exact Ox.
  - apply adv_refl.
  - cbn [Datatypes.app] in E1.
    (* the right side *)
    destruct (makes_gives _ _ _ s1 (value_makes _ _ _ _ Ag V) A1)
      as (rv & s2 & G & A2 & D2 & fr & Or & Nr & Br).
    assert (A02 : adv s s2) by (eapply adv_trans; eassumption).
    assert (O2 : ordinary s2 x) by exact (adv_ordinary _ _ _ A02 Ox).
    assert (F2 : st_fmt s2 = st_fmt s) by (destruct A02 as (t & d & ->); reflexivity).
    assert (Lh : (length (st_heap s) <= length (st_heap s1))%nat) by (apply adv_length; exact A1).
    rewrite <- F2 in U.
    destruct (assign_item_ok s2 x pl w fp p p1 zs q p' rv fr) as (s3 & E3 & Ch3 & w' & fp' & At3 & O3 & N3 & D3 & P3 & I3);
      try assumption.
    + apply (adv_place _ _ _ _ A02). exact At.
    + destruct A02 as (t & d & ->). exact Ns.
    + destruct A02 as (t & d & ->). cbn [st_heap set_diag grow set_heap]. apply owns_app. exact Ow.
    + exact (adv_den _ _ _ _ A02 D).
    + intros l I I'. specialize (Br l I'). pose proof (owns_lt _ _ _ _ Ow I). lia.
    + assert (O3' : ordinary s3 x).
      { destruct O2 as (Ha & Hb & Hc & Hd). repeat split; auto. intros E.
        rewrite (ch_tao _ _ _ _ Ch3). auto. }
      assert (V3 : var s3 x p').
      { exists (Some w'). split; [exact (place_binding _ _ _ _ Px At3)|exact D3]. }
      destruct (updated_read _ _ _ _ _ U) as [r Ir].
      destruct (get_item_ok s3 x p' zs r O3' V3 Ir) as (u & s4 & E4 & A4 & _).
      assert (Ch : changes pl fp s s4).
      { eapply (changes_trans pl [] fp); [exact (changes_adv pl [] _ _ A02)| |].
        - eapply (changes_trans pl fp []); [exact Ch3|exact (changes_adv pl [] _ _ A4)|].
          intros l [I|[]] _. exact I.
        - intros l [[]|I] _. exact I. }
      destruct (changes_settle s s4 rho x pl fp w' fp' p' Sd Ag Px Ox Ch Ap) as (Sd' & Ag' & K').
      * apply (adv_place _ _ _ _ A4). exact At3.
      * destruct A4 as (t & d & ->). cbn [st_heap set_diag grow set_heap]. apply owns_app. exact O3.
      * exact N3.
      * exact (adv_den _ _ _ _ A4 D3).
      * exact P3.
      * intros l I. destruct (I3 l I) as [J|[J|J]]; [auto|right..].
        -- specialize (Br l J). lia.
        -- pose proof (adv_length _ _ A02). lia.
      * exists u, s4. split; [|split; [exact Sd'|split; [exact Ag'|split; [exact K'|]]]].
        -- apply gives_evals.
           exists (XL (LName x (map IInt zs) None)), s3. split; [|exact E4].
           apply gives_evals in G. destruct G as (xb & s2' & Eb & E2).
           unfold expression. cbn [put_var put_path put_value]. rewrite app_assign.
           apply evals_vals2; [reflexivity|].
           exists (XL (LName x (map IInt zs) None)), xb, s1, s2'.
           split; [exact E1|]. split; [exact Eb|]. exists 0%nat.
           change (ASSIGN (XL (LName x (map IInt zs) None)) xb s2'
                   = Ok (XL (LName x (map IInt zs) None)) s3).
           unfold ASSIGN. rewrite (bind_step _ _ _ _ _ E2), (bind_step _ _ _ _ _ E3). reflexivity.
        -- split; [apply (ch_io _ _ _ _ Ch)|]. split; [apply (ch_io _ _ _ _ Ch)|].
           split; [apply (ch_fmt _ _ _ _ Ch)|]. split; [apply (ch_tao _ _ _ _ Ch)|].
           apply (ch_scopes _ _ _ _ Ch). exact Ns.
Qed.

(** ** Programs of assignments *)
Lemma keeps_refl xs s : keeps xs s s.
Proof. split; auto. Qed.
Lemma keeps_trans x xs s1 s2 s3 : keeps [x] s1 s2 -> keeps xs s2 s3 -> keeps (x :: xs) s1 s3.
Proof.
  intros [A1 B1] [A2 B2]. split.
  - intros y q N V. apply A2; [intros I; apply N; now right|].
    apply A1; [|exact V]. intros [->|[]]. apply N. now left.
  - intros pl w q N At D. destruct (B1 pl w q) as [At1 D1]; [|exact At|exact D|].
    + intros y [<-|[]]. apply N. now left.
    + apply B2; [|exact At1|exact D1]. intros y I. apply N. now right.
Qed.

Lemma effect_performed s rho a rho' :
  sound s -> agrees s rho -> st_scopes s <> [] -> ordinary s (put_var a) ->
  effect (st_fmt s) rho a rho' -> performed s a rho'.
Proof.
  intros Sd Ag Ns Ox E. inversion E; subst.
  - apply assign_var_ok; assumption.
  - eapply assign_path_ok; eassumption.
Qed.

Theorem effects_performed prog : forall s rho rho',
  sound s -> agrees s rho -> st_scopes s <> [] ->
  (forall a, In a prog -> ordinary s (put_var a)) ->
  effects (st_fmt s) rho prog rho' ->
  exists s', performs s prog s' /\ sound s' /\ agrees s' rho' /\
    keeps (map put_var prog) s s' /\ st_out s' = st_out s /\ st_in s' = st_in s /\
    st_fmt s' = st_fmt s /\ st_scopes s' <> [].
Proof.
  induction prog as [|a prog IH]; intros s rho rho' Sd Ag Ns Os E; inversion E; subst.
  - exists s. split; [constructor|]. split; [exact Sd|]. split; [exact Ag|].
    split; [apply keeps_refl|]. auto.
  - destruct (effect_performed s rho a rho1 Sd Ag Ns) as (v & s1 & G & Sd1 & Ag1 & K1 & Out1 & In1 & F1 & T1 & Ns1).
    { apply Os. now left. }
    { assumption. }
    destruct (IH s1 rho1 rho' Sd1 Ag1 Ns1) as (s' & P & Sd' & Ag' & K' & Out' & In' & F' & Ns').
    { intros b I. destruct (Os b (or_intror I)) as (Ha & Hb & Hc & Hd). repeat split; auto.
      rewrite T1. exact Hd. }
    { rewrite F1. assumption. }
    exists s'. split; [econstructor; eassumption|]. split; [exact Sd'|]. split; [exact Ag'|].
    split; [cbn [map]; eapply keeps_trans; eassumption|].
    split; [congruence|]. split; [congruence|]. split; [congruence|exact Ns'].
Qed.
