(** * Reading, making and copying objects *)

From Coq Require Import String List NArith ZArith Bool Arith Lia.
From Verif Require Import PyStr PyRe PyNum Tokens OpFun OpTable PTypes Ops OpsSeq
                          PFacts NumProof2 Heap SpecHeap.
Import ListNotations.

Scheme den_mut := Induction for den Sort Prop
  with dens_mut := Induction for dens Sort Prop
  with dent_mut := Induction for dent Sort Prop
  with dents_mut := Induction for dents Sort Prop.
Combined Scheme den_all from den_mut, dens_mut, dent_mut, dents_mut.

Lemma dens_Forall2 h vs ps : dens h vs ps <-> Forall2 (den h) vs ps.
Proof.
  split; [induction 1 | induction 1]; constructor; auto.
Qed.
Lemma dents_Forall2 h vs ps : dents h vs ps <-> Forall2 (dent h) vs ps.
Proof.
  split; [induction 1 | induction 1]; constructor; auto.
Qed.

(** ** The value is determined *)
Lemma den_fun_all h :
  (forall v p, den h v p -> forall q, den h v q -> p = q) /\
  (forall v p, dens h v p -> forall q, dens h v q -> p = q) /\
  (forall v p, dent h v p -> forall q, dent h v q -> p = q) /\
  (forall v p, dents h v p -> forall q, dents h v q -> p = q).
Proof.
  apply den_all; intros; try (inversion H; subst; congruence);
    try (inversion H0; subst; f_equal; auto; congruence);
    try (inversion H1; subst; f_equal; auto; congruence).
  inversion H0; subst. rewrite e in H2. injection H2 as <-. f_equal. auto.
Qed.
Lemma den_fun h v p q : den h v p -> den h v q -> p = q.
Proof. intros A B. exact (proj1 (den_fun_all h) v p A q B). Qed.

(** ** Frames: only reachable cells matter *)
Lemma den_frame_all h h' :
  (forall v p, den h v p ->
     (forall l, reach h v l -> nth_error h' l = nth_error h l) -> den h' v p) /\
  (forall vs ps, dens h vs ps ->
     (forall v l, In v vs -> reach h v l -> nth_error h' l = nth_error h l) ->
     dens h' vs ps) /\
  (forall t t', dent h t t' ->
     (forall l, reach_tree h t l -> nth_error h' l = nth_error h l) ->
     dent h' t t') /\
  (forall ts ts', dents h ts ts' ->
     (forall t l, In t ts -> reach_tree h t l -> nth_error h' l = nth_error h l) ->
     dents h' ts ts').
Proof.
  apply den_all; intros; try (constructor; fail).
  - constructor. rewrite H; [exact e|constructor].
  - apply den_list with items.
    + rewrite H0; [exact e|constructor].
    + apply H. intros. apply H0. eapply reach_item; eauto.
  - constructor; [apply H|apply H0]; intros; apply H1.
    + eapply reach_st; eauto.
    + apply reach_ret; auto.
  - constructor; [apply H|apply H0]; intros.
    + apply (H1 v); simpl; auto.
    + eapply H1; simpl; eauto.
  - constructor. apply H. intros. apply H0. constructor. auto.
  - constructor. apply H. intros. apply H0. econstructor; eauto.
  - constructor. apply H. intros. apply H0. econstructor; eauto.
  - constructor. apply H. intros. apply H0. econstructor; eauto.
  - constructor; [apply H|apply H0]; intros.
    + apply (H1 t); simpl; auto.
    + eapply H1; simpl; eauto.
Qed.
Lemma den_frame h h' v p :
  den h v p ->
  (forall l, reach h v l -> nth_error h' l = nth_error h l) -> den h' v p.
Proof. intros. eapply (proj1 (den_frame_all h h')); eauto. Qed.

Scheme reach_mut := Induction for reach Sort Prop
  with reach_tree_mut := Induction for reach_tree Sort Prop.

Lemma dens_in h vs ps v : dens h vs ps -> In v vs -> defined h v.
Proof.
  induction 1 as [|w p vs ps H D IH]; [intros [] |].
  intros [->|I]; [exists p; exact H|auto].
Qed.
Lemma dents_in h ts ts' t : dents h ts ts' -> In t ts -> exists t', dent h t t'.
Proof.
  induction 1 as [|w p vs ps H D IH]; [intros [] |].
  intros [->|I]; [exists p; exact H|auto].
Qed.

(** All cells of a defined object exist. *)
Lemma reach_lt h v l : reach h v l -> forall p, den h v p -> (l < length h)%nat.
Proof.
  revert v l.
  apply (reach_mut h
    (fun v l _ => forall p, den h v p -> (l < length h)%nat)
    (fun t l _ => forall t', dent h t t' -> (l < length h)%nat)).
  - intros l p D. inversion D; subst. apply nth_error_Some. congruence.
  - intros l p D. inversion D; subst. apply nth_error_Some. congruence.
  - intros l items v l' E I R IH p D. inversion D; subst.
    rewrite E in H0. injection H0 as <-. destruct (dens_in _ _ _ _ H1 I) as [q Q].
    exact (IH q Q).
  - intros sts r t l I R IH p D. inversion D; subst.
    destruct (dents_in _ _ _ _ H1 I) as [q Q]. exact (IH q Q).
  - intros sts r l R IH p D. inversion D; subst. eauto.
  - intros v l R IH t' D. inversion D; subst. eauto.
  - intros o args t l I R IH t' D. inversion D; subst.
    destruct (dents_in _ _ _ _ H2 I) as [q Q]. exact (IH q Q).
  - intros sts t l I R IH t' D. inversion D; subst.
    destruct (dents_in _ _ _ _ H0 I) as [q Q]. exact (IH q Q).
  - intros o args t l I R IH t' D. inversion D; subst.
    destruct (dents_in _ _ _ _ H2 I) as [q Q]. exact (IH q Q).
Qed.

Lemma nth_app_old {A} (h t : list A) l :
  (l < length h)%nat -> nth_error (h ++ t) l = nth_error h l.
Proof. intros. apply nth_error_app1. exact H. Qed.

Lemma den_app h t v p : den h v p -> den (h ++ t) v p.
Proof.
  intros D. apply (den_frame h); [exact D|]. intros l R. apply nth_app_old.
  eapply reach_lt; eauto.
Qed.
Lemma dens_app h t vs ps : dens h vs ps -> dens (h ++ t) vs ps.
Proof. induction 1; constructor; auto using den_app. Qed.

Lemma set_nth_same {A} (l : list A) i x :
  (i < length l)%nat -> nth_error (set_nth l i x) i = Some x.
Proof.
  intros H. unfold set_nth. rewrite nth_error_app2; rewrite firstn_length_le by lia;
    [|lia]. rewrite Nat.sub_diag. reflexivity.
Qed.
Lemma set_nth_other {A} (l : list A) i j x :
  (i < length l)%nat -> i <> j -> nth_error (set_nth l i x) j = nth_error l j.
Proof.
  revert l j. induction i as [|i IH]; intros [|y l] [|j] H N; simpl in H; try lia;
    try reflexivity. unfold set_nth. simpl. apply (IH l j); lia.
Qed.
Lemma set_nth_length {A} (l : list A) i x :
  (i < length l)%nat -> length (set_nth l i x) = length l.
Proof.
  intros H. unfold set_nth. rewrite app_length, firstn_length_le by lia.
  cbn [length]. rewrite skipn_length. lia.
Qed.

(** Changing a cell that is not reachable does not matter. *)
Lemma den_hset h l c v p :
  (l < length h)%nat -> den h v p -> ~ reach h v l -> den (hset h l c) v p.
Proof.
  intros L D N. apply (den_frame h); [exact D|]. intros l' R.
  apply set_nth_other; [exact L|]. intros ->. contradiction.
Qed.

(** ** List nesting *)
Section Depth.
  Variable f : pval -> nat.
  Fixpoint tree_depth (t : tree pval) : nat :=
    let all := fix all (l : list (tree pval)) : nat :=
      match l with [] => 0 | x :: l' => Nat.max (tree_depth x) (all l') end in
    match t with
    | TTok _ | TOpr _ => 0
    | TVal v => f v
    | TApp _ l | TBlk l | TCmd _ l => all l
    end.
End Depth.
Fixpoint depth (p : pval) : nat :=
  match p with
  | PList l => S ((fix all (l : list pval) : nat :=
                     match l with [] => 0 | x :: l' => Nat.max (depth x) (all l') end) l)
  | PBlock sts r =>
    Nat.max ((fix all (l : list (tree pval)) : nat :=
                match l with
                | [] => 0
                | x :: l' => Nat.max (tree_depth depth x) (all l')
                end) sts)
            (tree_depth depth r)
  | _ => 0
  end.
Fixpoint depths (l : list pval) : nat :=
  match l with [] => 0 | x :: l' => Nat.max (depth x) (depths l') end.
Fixpoint tree_depths (l : list (tree pval)) : nat :=
  match l with
  | [] => 0
  | x :: l' => Nat.max (tree_depth depth x) (tree_depths l')
  end.
Lemma depth_list l : depth (PList l) = S (depths l).
Proof. reflexivity. Qed.
Lemma depth_block sts r :
  depth (PBlock sts r) = Nat.max (tree_depths sts) (tree_depth depth r).
Proof. reflexivity. Qed.
Lemma depth_app o l : tree_depth depth (TApp o l) = tree_depths l.
Proof. reflexivity. Qed.
Lemma depth_blk l : tree_depth depth (TBlk l) = tree_depths l.
Proof. reflexivity. Qed.
Lemma depth_cmd o l : tree_depth depth (TCmd o l) = tree_depths l.
Proof. reflexivity. Qed.

Lemma depth_levels_all h :
  (forall v p, den h v p -> forall k, (1 <= k <= depth p)%nat ->
     exists l q, den h (HList l) q /\ depth q = k) /\
  (forall v p, dens h v p -> forall k, (1 <= k <= depths p)%nat ->
     exists l q, den h (HList l) q /\ depth q = k) /\
  (forall v p, dent h v p -> forall k, (1 <= k <= tree_depth depth p)%nat ->
     exists l q, den h (HList l) q /\ depth q = k) /\
  (forall v p, dents h v p -> forall k, (1 <= k <= tree_depths p)%nat ->
     exists l q, den h (HList l) q /\ depth q = k).
Proof.
  apply den_all; intros; try (simpl in *; lia).
  - rewrite depth_list in *.
    destruct (Nat.eq_dec k (S (depths ps))) as [->|N].
    + exists l, (PList ps). split; [eapply den_list; eauto|reflexivity].
    + apply H. lia.
  - rewrite depth_block in *.
    destruct (Nat.le_gt_cases k (tree_depths sts')); [apply H|apply H0]; lia.
  - cbn [depths] in *.
    destruct (Nat.le_gt_cases k (depth p)); [apply H|apply H0]; lia.
  - apply H. exact H0.
  - rewrite depth_app in *. auto.
  - rewrite depth_blk in *. auto.
  - rewrite depth_cmd in *. auto.
  - cbn [tree_depths] in *.
    destruct (Nat.le_gt_cases k (tree_depth depth t')); [apply H|apply H0]; lia.
Qed.

(** An object is nested at most as deep as there are cells. *)
Lemma den_depth h v p : den h v p -> (depth p <= length h)%nat.
Proof.
  intros D.
  assert (G : forall d, (d <= depth p)%nat ->
    exists ls, length ls = d /\ NoDup ls /\
      forall l, In l ls -> exists q, den h (HList l) q /\ (1 <= depth q <= d)%nat).
  { induction d as [|d IH]; intros L.
    - exists []. split; [reflexivity|]. split; [constructor|]. intros l [].
    - destruct IH as (ls & Ln & Nd & Hl); [lia|].
      destruct (proj1 (depth_levels_all h) v p D (S d)) as (l & q & Q & E); [lia|].
      exists (l :: ls). split; [simpl; lia|]. split.
      + constructor; [|exact Nd]. intros I. destruct (Hl l I) as (q' & Q' & B).
        rewrite (den_fun _ _ _ _ Q Q') in E. lia.
      + intros l' [<-|I].
        * exists q. split; [exact Q|lia].
        * destruct (Hl l' I) as (q' & Q' & B). exists q'. split; [exact Q'|lia]. }
  destruct (G (depth p) (le_n _)) as (ls & Ln & Nd & Hl).
  rewrite <- Ln, <- (seq_length (length h) 0).
  apply NoDup_incl_length; [exact Nd|]. intros l I. apply in_seq.
  destruct (Hl l I) as (q & Q & _). split; [lia|]. simpl.
  eapply reach_lt; [|exact Q]. constructor.
Qed.

(** ** Induction on objects *)
Section HvalInd.
  Variable P : hval -> Prop.
  Variable Q : tree hval -> Prop.
  Hypothesis Hscal : forall l, P (HScal l).
  Hypothesis Hpat : forall r f, P (HPat r f).
  Hypothesis Hlist : forall l, P (HList l).
  Hypothesis Hrange : forall lo hi, P (HRange lo hi).
  Hypothesis Hblock : forall sts r, Forall Q sts -> Q r -> P (HBlock sts r).
  Hypothesis Hnil : P HNil.
  Hypothesis Htok : forall t, Q (TTok t).
  Hypothesis Hval : forall v, P v -> Q (TVal v).
  Hypothesis Hopr : forall o, Q (TOpr o).
  Hypothesis Happ : forall o l, Forall Q l -> Q (TApp o l).
  Hypothesis Hblk : forall l, Forall Q l -> Q (TBlk l).
  Hypothesis Hcmd : forall c l, Forall Q l -> Q (TCmd c l).
  Fixpoint hval_full_ind (v : hval) : P v :=
    match v with
    | HScal s => Hscal s
    | HPat r f => Hpat r f
    | HList l => Hlist l
    | HRange lo hi => Hrange lo hi
    | HBlock sts r =>
      let tr := tree_full_ind P Q hval_full_ind Htok Hval Hopr Happ Hblk Hcmd in
      Hblock sts r ((fix go (l : list (tree hval)) : Forall Q l :=
                       match l with
                       | [] => Forall_nil Q
                       | x :: l' => Forall_cons x (tr x) (go l')
                       end) sts) (tr r)
    | HNil => Hnil
    end.
  Definition tree_of_hval_ind :=
    tree_full_ind P Q hval_full_ind Htok Hval Hopr Happ Hblk Hcmd.
End HvalInd.

(** ** [read_val] *)
Lemma opt_map_Forall2 {A B} (f : A -> option B) l r :
  opt_map f l = Some r <-> Forall2 (fun x y => f x = Some y) l r.
Proof.
  revert r. induction l as [|x l IH]; intros r; simpl.
  - split; [intros E; injection E as <-; constructor|inversion 1; reflexivity].
  - destruct (f x) as [y|] eqn:E.
    + destruct (opt_map f l) as [ys|].
      * split.
        -- intros H. injection H as <-. constructor; [exact E|]. apply IH. reflexivity.
        -- inversion 1; subst. apply IH in H4. congruence.
      * split; [discriminate|]. inversion 1; subst. apply IH in H4. discriminate.
    + split; [discriminate|]. inversion 1; subst. congruence.
Qed.

Lemma tree_opt_app {V W} (f : V -> option W) o l :
  tree_opt f (TApp o l) = option_map (TApp o) (opt_map (tree_opt f) l).
Proof. reflexivity. Qed.
Lemma tree_opt_blk {V W} (f : V -> option W) l :
  tree_opt f (TBlk l) = option_map TBlk (opt_map (tree_opt f) l).
Proof. reflexivity. Qed.
Lemma tree_opt_cmd {V W} (f : V -> option W) o l :
  tree_opt f (TCmd o l) = option_map (TCmd o) (opt_map (tree_opt f) l).
Proof. reflexivity. Qed.
Lemma read_val_list n h l :
  read_val (S n) h (HList l) =
  match nth_error h l with
  | Some (OL items) => option_map PList (opt_map (read_val n h) items)
  | _ => None
  end.
Proof. reflexivity. Qed.
Lemma read_val_block n h sts r :
  read_val n h (HBlock sts r) =
  match opt_map (tree_opt (read_val n h)) sts, tree_opt (read_val n h) r with
  | Some sts', Some r' => Some (PBlock sts' r')
  | _, _ => None
  end.
Proof. destruct n; reflexivity. Qed.
Lemma read_val_scal n h l :
  read_val n h (HScal l) =
  match nth_error h l with Some (OS s) => Some (PScal s) | _ => None end.
Proof. destruct n; reflexivity. Qed.

Lemma read_val_den n h : forall v p, read_val n h v = Some p -> den h v p.
Proof.
  assert (F2 : forall (Q : tree hval -> Prop) f l l',
    (forall t, Q t -> forall t', tree_opt f t = Some t' -> dent h t t') ->
    Forall Q l -> opt_map (tree_opt f) l = Some l' -> dents h l l').
  { intros Q f l l' HQ Fl E. apply opt_map_Forall2 in E.
    apply dents_Forall2. revert Fl. induction E; intros Fl; constructor.
    - inversion Fl; subst. eapply HQ; eauto.
    - inversion Fl; subst. auto. }
  induction n as [|n IH].
  - intros v.
    apply (hval_full_ind
             (fun v => forall p, read_val 0 h v = Some p -> den h v p)
             (fun t => forall t', tree_opt (read_val 0 h) t = Some t' -> dent h t t')).
    + intros l p E. rewrite read_val_scal in E.
      destruct (nth_error h l) as [[]|] eqn:N; try discriminate.
      injection E as <-. now constructor.
    + intros r f p E. injection E as <-. constructor.
    + intros l p E. discriminate.
    + intros lo hi p E. injection E as <-. constructor.
    + intros sts r Hs Hr p E. rewrite read_val_block in E.
      destruct (opt_map _ sts) as [sts'|] eqn:E1; try discriminate.
      destruct (tree_opt _ r) as [r'|] eqn:E2; try discriminate.
      injection E as <-. constructor; [|auto].
      eapply F2; [|exact Hs|exact E1]. auto.
    + intros p E. injection E as <-. constructor.
    + intros t t' E. injection E as <-. constructor.
    + intros w Hw t' E. cbn [tree_opt] in E.
      destruct (read_val 0 h w) eqn:N; try discriminate.
      injection E as <-. constructor. auto.
    + intros o t' E. injection E as <-. constructor.
    + intros o l Hl t' E. rewrite tree_opt_app in E.
      destruct (opt_map _ l) as [l'|] eqn:E1; try discriminate.
      injection E as <-. constructor. eapply F2; [|exact Hl|exact E1]. auto.
    + intros l Hl t' E. rewrite tree_opt_blk in E.
      destruct (opt_map _ l) as [l'|] eqn:E1; try discriminate.
      injection E as <-. constructor. eapply F2; [|exact Hl|exact E1]. auto.
    + intros o l Hl t' E. rewrite tree_opt_cmd in E.
      destruct (opt_map _ l) as [l'|] eqn:E1; try discriminate.
      injection E as <-. constructor. eapply F2; [|exact Hl|exact E1]. auto.
  - intros v.
    apply (hval_full_ind
             (fun v => forall p, read_val (S n) h v = Some p -> den h v p)
             (fun t => forall t', tree_opt (read_val (S n) h) t = Some t' ->
                                  dent h t t')).
    + intros l p E. rewrite read_val_scal in E.
      destruct (nth_error h l) as [[]|] eqn:N; try discriminate.
      injection E as <-. now constructor.
    + intros r f p E. injection E as <-. constructor.
    + intros l p E. rewrite read_val_list in E.
      destruct (nth_error h l) as [[|items|]|] eqn:N; try discriminate.
      destruct (opt_map (read_val n h) items) as [ps|] eqn:E1; try discriminate.
      injection E as <-. apply den_list with items; [exact N|].
      apply dens_Forall2. apply opt_map_Forall2 in E1.
      clear N. induction E1; constructor; auto.
    + intros lo hi p E. injection E as <-. constructor.
    + intros sts r Hs Hr p E. rewrite read_val_block in E.
      destruct (opt_map _ sts) as [sts'|] eqn:E1; try discriminate.
      destruct (tree_opt _ r) as [r'|] eqn:E2; try discriminate.
      injection E as <-. constructor; [|auto].
      eapply F2; [|exact Hs|exact E1]. auto.
    + intros p E. injection E as <-. constructor.
    + intros t t' E. injection E as <-. constructor.
    + intros w Hw t' E. cbn [tree_opt] in E.
      destruct (read_val (S n) h w) eqn:N; try discriminate.
      injection E as <-. constructor. auto.
    + intros o t' E. injection E as <-. constructor.
    + intros o l Hl t' E. rewrite tree_opt_app in E.
      destruct (opt_map _ l) as [l'|] eqn:E1; try discriminate.
      injection E as <-. constructor. eapply F2; [|exact Hl|exact E1]. auto.
    + intros l Hl t' E. rewrite tree_opt_blk in E.
      destruct (opt_map _ l) as [l'|] eqn:E1; try discriminate.
      injection E as <-. constructor. eapply F2; [|exact Hl|exact E1]. auto.
    + intros o l Hl t' E. rewrite tree_opt_cmd in E.
      destruct (opt_map _ l) as [l'|] eqn:E1; try discriminate.
      injection E as <-. constructor. eapply F2; [|exact Hl|exact E1]. auto.
Qed.

Lemma den_read_all h :
  (forall v p, den h v p -> forall n, (depth p <= n)%nat -> read_val n h v = Some p) /\
  (forall v p, dens h v p -> forall n, (depths p <= n)%nat ->
     opt_map (read_val n h) v = Some p) /\
  (forall v p, dent h v p -> forall n, (tree_depth depth p <= n)%nat ->
     tree_opt (read_val n h) v = Some p) /\
  (forall v p, dents h v p -> forall n, (tree_depths p <= n)%nat ->
     opt_map (tree_opt (read_val n h)) v = Some p).
Proof.
  apply den_all; intros; try reflexivity; try (destruct n; reflexivity).
  - rewrite read_val_scal, e. reflexivity.
  - rewrite depth_list in H0. destruct n as [|n]; [lia|].
    rewrite read_val_list, e, H by lia. reflexivity.
  - rewrite depth_block in H1. rewrite read_val_block, H, H0 by lia. reflexivity.
  - cbn [depths] in H1. simpl. rewrite H, H0 by lia. reflexivity.
  - cbn [tree_opt]. rewrite H; [reflexivity|]. exact H0.
  - rewrite tree_opt_app, H; [reflexivity|]. rewrite depth_app in H0. exact H0.
  - rewrite tree_opt_blk, H; [reflexivity|]. rewrite depth_blk in H0. exact H0.
  - rewrite tree_opt_cmd, H; [reflexivity|]. rewrite depth_cmd in H0. exact H0.
  - cbn [tree_depths] in H1. simpl. rewrite H, H0 by lia. reflexivity.
Qed.

Lemma den_read h v p : den h v p -> read_val (S (length h)) h v = Some p.
Proof.
  intros D. apply (proj1 (den_read_all h)); [exact D|].
  pose proof (den_depth _ _ _ D). lia.
Qed.

Lemma dread_ok s v p : den (st_heap s) v p -> dread v s = Ok p s.
Proof. intros D. unfold dread. rewrite (den_read _ _ _ D). reflexivity. Qed.
Lemma dread_inv s v p s' : dread v s = Ok p s' -> s' = s /\ den (st_heap s) v p.
Proof.
  unfold dread. destruct (read_val _ _ _) as [q|] eqn:E; [|discriminate].
  intros H. injection H as -> <-. split; [reflexivity|].
  eapply read_val_den. exact E.
Qed.

(** ** Fresh objects *)

(** Everything in the object was made after the first [n] cells. *)
Definition newer (h : heap) (n : nat) (v : hval) : Prop :=
  forall l, reach h v l -> (n <= l)%nat.
Definition newer_tree (h : heap) (n : nat) (t : tree hval) : Prop :=
  forall l, reach_tree h t l -> (n <= l)%nat.

Lemma reach_app_inv h t v l :
  reach (h ++ t) v l -> forall p, den h v p -> reach h v l.
Proof.
  revert v l.
  apply (reach_mut (h ++ t)
    (fun v l _ => forall p, den h v p -> reach h v l)
    (fun tr l _ => forall t', dent h tr t' -> reach_tree h tr l)).
  - intros. constructor.
  - intros. constructor.
  - intros l items v l' E I R IH p D. inversion D; subst.
    assert (L : (l < length h)%nat) by (apply nth_error_Some; congruence).
    rewrite nth_app_old in E by exact L. rewrite H0 in E. injection E as ->.
    destruct (dens_in _ _ _ _ H1 I) as [q Q].
    eapply reach_item; eauto.
  - intros sts r tr l I R IH p D. inversion D; subst.
    destruct (dents_in _ _ _ _ H1 I) as [q Q]. eapply reach_st; eauto.
  - intros sts r l R IH p D. inversion D; subst. apply reach_ret. eauto.
  - intros v l R IH t' D. inversion D; subst. constructor. eauto.
  - intros o args tr l I R IH t' D. inversion D; subst.
    destruct (dents_in _ _ _ _ H2 I) as [q Q]. eapply reach_app; eauto.
  - intros sts tr l I R IH t' D. inversion D; subst.
    destruct (dents_in _ _ _ _ H0 I) as [q Q]. eapply reach_blk; eauto.
  - intros o args tr l I R IH t' D. inversion D; subst.
    destruct (dents_in _ _ _ _ H2 I) as [q Q]. eapply reach_cmd; eauto.
Qed.

Lemma reach_tree_app_inv h t tr l :
  reach_tree (h ++ t) tr l -> forall t', dent h tr t' -> reach_tree h tr l.
Proof.
  intros R t' D.
  assert (reach h (HBlock [] tr) l).
  { eapply reach_app_inv; [apply reach_ret; exact R|].
    apply den_block; [constructor|exact D]. }
  inversion H; subst; [contradiction|assumption].
Qed.

Lemma dent_app_heap h t tr t' : dent h tr t' -> dent (h ++ t) tr t'.
Proof.
  intros D. apply (proj1 (proj2 (proj2 (den_frame_all h (h ++ t)))) _ _ D).
  intros l R. apply nth_app_old.
  assert (reach h (HBlock [] tr) l) by (apply reach_ret; exact R).
  eapply reach_lt; [exact H|]. apply den_block; [constructor|exact D].
Qed.

Lemma dents_app_heap h t ts ts' : dents h ts ts' -> dents (h ++ t) ts ts'.
Proof. induction 1; constructor; auto using dent_app_heap. Qed.

Lemma newer_app h t n v p : den h v p -> newer h n v -> newer (h ++ t) n v.
Proof. intros D N l R. apply N. eapply reach_app_inv; eauto. Qed.
Lemma newer_tree_app h t n tr t' :
  dent h tr t' -> newer_tree h n tr -> newer_tree (h ++ t) n tr.
Proof. intros D N l R. apply N. eapply reach_tree_app_inv; eauto. Qed.

Definition fresh_spec (p : pval) : Prop :=
  forall h, exists v t, alloc_val p h = (v, h ++ t) /\ den (h ++ t) v p /\
                        newer (h ++ t) (length h) v.
Definition fresh_tree_spec (tr : tree pval) : Prop :=
  forall h, exists v t, tree_alloc alloc_val tr h = (v, h ++ t) /\
                        dent (h ++ t) v tr /\ newer_tree (h ++ t) (length h) v.

Lemma alloc_all_spec ps :
  Forall fresh_spec ps ->
  forall h, exists vs t, alloc_all alloc_val ps h = (vs, h ++ t) /\
    dens (h ++ t) vs ps /\ forall v, In v vs -> newer (h ++ t) (length h) v.
Proof.
  induction 1 as [|p ps Hp _ IH]; intros h.
  - exists [], []. rewrite app_nil_r. split; [reflexivity|].
    split; [constructor|intros v []].
  - destruct (Hp h) as (v & t & E & D & N).
    destruct (IH (h ++ t)) as (vs & t' & E' & D' & N').
    exists (v :: vs), (t ++ t'). cbn [alloc_all]. rewrite E, E', app_assoc.
    split; [reflexivity|]. split.
    + constructor; [apply den_app; exact D|exact D'].
    + intros w [<-|I].
      * eapply newer_app; eauto.
      * intros l R. specialize (N' w I l R). rewrite app_length in N'. lia.
Qed.
Lemma alloc_trees_spec ts :
  Forall fresh_tree_spec ts ->
  forall h, exists vs t, alloc_all (tree_alloc alloc_val) ts h = (vs, h ++ t) /\
    dents (h ++ t) vs ts /\ forall v, In v vs -> newer_tree (h ++ t) (length h) v.
Proof.
  induction 1 as [|p ps Hp _ IH]; intros h.
  - exists [], []. rewrite app_nil_r. split; [reflexivity|].
    split; [constructor|intros v []].
  - destruct (Hp h) as (v & t & E & D & N).
    destruct (IH (h ++ t)) as (vs & t' & E' & D' & N').
    exists (v :: vs), (t ++ t'). cbn [alloc_all]. rewrite E, E', app_assoc.
    split; [reflexivity|]. split.
    + constructor; [apply dent_app_heap; exact D|exact D'].
    + intros w [<-|I].
      * eapply newer_tree_app; eauto.
      * intros l R. specialize (N' w I l R). rewrite app_length in N'. lia.
Qed.

Lemma tree_alloc_inner {V W} (f : V -> heap -> W * heap) l h :
  (fix all (l : list (tree V)) (h : heap) : list (tree W) * heap :=
      match l with
      | [] => ([], h)
      | x :: l' => let '(y, h1) := tree_alloc f x h in
                   let '(ys, h2) := all l' h1 in (y :: ys, h2)
      end) l h = alloc_all (tree_alloc f) l h.
Proof.
  revert h. induction l as [|x l IH]; intros h; [reflexivity|].
  cbn [alloc_all]. destruct (tree_alloc f x h) as [y h1]. rewrite IH. reflexivity.
Qed.

Lemma alloc_val_spec : forall p, fresh_spec p.
Proof.
  apply (pval_full_ind fresh_spec fresh_tree_spec).
  - intros s h. exists (HScal (length h)), [OS s]. split; [reflexivity|]. split.
    + constructor. rewrite nth_error_app2, Nat.sub_diag by lia. reflexivity.
    + intros l R. inversion R; subst. lia.
  - intros r f h. exists (HPat r f), []. rewrite app_nil_r. split; [reflexivity|].
    split; [constructor|]. intros l R. inversion R.
  - intros ps Hps h. destruct (alloc_all_spec ps Hps h) as (vs & t & E & D & N).
    exists (HList (length (h ++ t))), (t ++ [OL vs]).
    cbn [alloc_val]. unfold hnew. rewrite E, app_assoc. split; [reflexivity|].
    assert (NE : nth_error ((h ++ t) ++ [OL vs]) (length (h ++ t)) = Some (OL vs))
      by (rewrite nth_error_app2, Nat.sub_diag by lia; reflexivity).
    split.
    + apply den_list with vs; [exact NE|]. apply dens_app. exact D.
    + intros l R. inversion R; subst.
      * rewrite app_length. lia.
      * match goal with
        | A : In _ ?is, B : nth_error _ _ = Some (OL ?is) |- _ =>
          rewrite NE in B; injection B as <-;
          destruct (dens_in _ _ _ _ D A) as [q Q]
        end.
        eapply newer_app; eauto.
  - intros lo hi h. exists (HRange lo hi), []. rewrite app_nil_r.
    split; [reflexivity|]. split; [constructor|]. intros l R. inversion R.
  - intros sts r Hs Hr h.
    destruct (alloc_trees_spec sts Hs h) as (vs & t & E & D & N).
    destruct (Hr (h ++ t)) as (v & t' & E' & D' & N').
    exists (HBlock vs v), (t ++ t'). cbn [alloc_val]. rewrite E, E', app_assoc.
    split; [reflexivity|]. split.
    + constructor; [|exact D']. apply dents_app_heap. exact D.
    + intros l R. inversion R; subst.
      * match goal with
        | A : In _ vs |- _ => destruct (dents_in _ _ _ _ D A) as [q Q]
        end.
        eapply newer_tree_app; eauto.
      * match goal with A : reach_tree _ v l |- _ => specialize (N' l A) end.
        rewrite app_length in N'. lia.
  - intros h. exists HNil, []. rewrite app_nil_r. split; [reflexivity|].
    split; [constructor|]. intros l R. inversion R.
  - intros k h. exists (TTok k), []. rewrite app_nil_r. split; [reflexivity|].
    split; [constructor|]. intros l R. inversion R.
  - intros v Hv h. destruct (Hv h) as (w & t & E & D & N).
    exists (TVal w), t. cbn [tree_alloc]. rewrite E. split; [reflexivity|].
    split; [constructor; exact D|]. intros l R. inversion R; subst. auto.
  - intros o h. exists (TOpr o), []. rewrite app_nil_r. split; [reflexivity|].
    split; [constructor|]. intros l R. inversion R.
  - intros o l Hl h. destruct (alloc_trees_spec l Hl h) as (vs & t & E & D & N).
    exists (TApp o vs), t. cbn [tree_alloc]. rewrite tree_alloc_inner, E.
    split; [reflexivity|]. split; [constructor; exact D|].
    intros k R. inversion R; subst. eapply N; eauto.
  - intros l Hl h. destruct (alloc_trees_spec l Hl h) as (vs & t & E & D & N).
    exists (TBlk vs), t. cbn [tree_alloc]. rewrite tree_alloc_inner, E.
    split; [reflexivity|]. split; [constructor; exact D|].
    intros k R. inversion R; subst. eapply N; eauto.
  - intros o l Hl h. destruct (alloc_trees_spec l Hl h) as (vs & t & E & D & N).
    exists (TCmd o vs), t. cbn [tree_alloc]. rewrite tree_alloc_inner, E.
    split; [reflexivity|]. split; [constructor; exact D|].
    intros k R. inversion R; subst. eapply N; eauto.
Qed.

Definition grow (t : heap) (s : state) : state := set_heap (st_heap s ++ t) s.
Lemma grow_heap t s : st_heap (grow t s) = st_heap s ++ t.
Proof. reflexivity. Qed.
Lemma grow_grow t t' s : grow t' (grow t s) = grow (t ++ t') s.
Proof. unfold grow, set_heap. simpl. rewrite app_assoc. reflexivity. Qed.
Lemma grow_nil s : grow [] s = s.
Proof. unfold grow, set_heap. rewrite app_nil_r. destruct s; reflexivity. Qed.

Lemma fresh_ok p s :
  exists v t, fresh p s = Ok v (grow t s) /\ den (st_heap s ++ t) v p /\
              newer (st_heap s ++ t) (length (st_heap s)) v.
Proof.
  destruct (alloc_val_spec p (st_heap s)) as (v & t & E & D & N).
  exists v, t. unfold fresh. rewrite E. auto.
Qed.

(** ** Copies *)

(** Everything that can be changed through the object is newer. *)
Definition own (h : heap) (n : nat) (v : hval) : Prop :=
  forall l, part h v l -> (n <= l)%nat.

Lemma part_reach h v l : part h v l -> reach h v l.
Proof. induction 1; [constructor|constructor|eapply reach_item; eauto]. Qed.
Lemma part_app_inv h t v l :
  part (h ++ t) v l -> forall p, den h v p -> part h v l.
Proof.
  induction 1 as [l|l|l items v l' E I R IH]; intros p D; [constructor|constructor|].
  inversion D; subst.
  assert (L : (l < length h)%nat) by (apply nth_error_Some; congruence).
  rewrite nth_app_old in E by exact L. rewrite H0 in E. injection E as ->.
  destruct (dens_in _ _ _ _ H1 I) as [q Q]. eapply part_item; eauto.
Qed.
Lemma own_app h t n v p : den h v p -> own h n v -> own (h ++ t) n v.
Proof. intros D N l R. apply N. eapply part_app_inv; eauto. Qed.
Lemma newer_own h n v : newer h n v -> own h n v.
Proof. intros H l R. apply H. apply part_reach. exact R. Qed.

Lemma copy_val_spec_all h0 :
  (forall v p, den h0 v p -> forall t0 n, (depth p <= n)%nat ->
     exists v' t, copy_val n v (h0 ++ t0) = Some (v', (h0 ++ t0) ++ t) /\
       den ((h0 ++ t0) ++ t) v' p /\ own ((h0 ++ t0) ++ t) (length (h0 ++ t0)) v') /\
  (forall vs ps, dens h0 vs ps -> forall t0 n, (depths ps <= n)%nat ->
     exists vs' t, copy_all (copy_val n) vs (h0 ++ t0) = Some (vs', (h0 ++ t0) ++ t) /\
       dens ((h0 ++ t0) ++ t) vs' ps /\
       forall v', In v' vs' -> own ((h0 ++ t0) ++ t) (length (h0 ++ t0)) v') /\
  (forall v p, dent h0 v p -> True) /\
  (forall v p, dents h0 v p -> True).
Proof.
  assert (K : forall v p t0 n,
    den h0 v p -> copy_val n v (h0 ++ t0) = Some (v, h0 ++ t0) ->
    (forall l, ~ part ((h0 ++ t0) ++ []) v l) ->
    exists v' t, copy_val n v (h0 ++ t0) = Some (v', (h0 ++ t0) ++ t) /\
       den ((h0 ++ t0) ++ t) v' p /\ own ((h0 ++ t0) ++ t) (length (h0 ++ t0)) v').
  { intros v p t0 n D E N. exists v, []. rewrite E, app_nil_r.
    split; [reflexivity|]. split; [apply den_app; exact D|].
    intros l Q. destruct (N l). rewrite app_nil_r. exact Q. }
  apply den_all; auto.
  - intros l s E t0 n L.
    assert (Lh : (l < length h0)%nat) by (apply nth_error_Some; congruence).
    exists (HScal (length (h0 ++ t0))), [OS s].
    destruct n; cbn [copy_val]; rewrite (nth_app_old h0 t0 l Lh), E; unfold hnew.
    all: split; [reflexivity|]; split;
      [constructor; rewrite nth_error_app2, Nat.sub_diag by lia; reflexivity
      |intros k Q; inversion Q; subst; lia].
  - intros r fl t0 n L. apply K; [constructor|destruct n; reflexivity|].
    intros l Q. inversion Q.
  - intros l items ps E D IH t0 n L. rewrite depth_list in L.
    destruct n as [|n]; [lia|]. destruct (IH t0 n) as (vs' & t & E' & D' & N'); [lia|].
    assert (Lh : (l < length h0)%nat) by (apply nth_error_Some; congruence).
    exists (HList (length ((h0 ++ t0) ++ t))), (t ++ [OL vs']).
    cbn [copy_val]. rewrite (nth_app_old h0 t0 l Lh), E, E'. unfold hnew.
    rewrite (app_assoc _ t). split; [reflexivity|].
    assert (NE : nth_error (((h0 ++ t0) ++ t) ++ [OL vs']) (length ((h0 ++ t0) ++ t))
                 = Some (OL vs'))
      by (rewrite nth_error_app2, Nat.sub_diag by lia; reflexivity).
    split.
    + apply den_list with vs'; [exact NE|]. apply dens_app. exact D'.
    + intros k Q. inversion Q; subst.
      * rewrite !app_length. lia.
      * match goal with
        | A : In _ ?is, B : nth_error _ _ = Some (OL ?is) |- _ =>
          rewrite NE in B; injection B as <-;
          destruct (dens_in _ _ _ _ D' A) as [q Dq]
        end.
        eapply own_app; eauto.
  - intros lo hi t0 n L. apply K; [constructor|destruct n; reflexivity|].
    intros l Q. inversion Q.
  - intros sts r sts' r' D1 _ D2 _ t0 n L.
    apply K; [constructor; auto|destruct n; reflexivity|].
    intros l Q. inversion Q.
  - intros t0 n L. apply K; [constructor|destruct n; reflexivity|].
    intros l Q. inversion Q.
  - intros t0 n L. exists [], []. rewrite app_nil_r. split; [reflexivity|].
    split; [constructor|intros v []].
  - intros v p vs ps D IHv Ds IHs t0 n L. cbn [depths] in L.
    destruct (IHv t0 n) as (v' & t & E & D' & N'); [lia|].
    destruct (IHs (t0 ++ t) n) as (vs' & t' & E' & Ds' & Ns'); [lia|].
    rewrite app_assoc in *.
    exists (v' :: vs'), (t ++ t'). cbn [copy_all]. rewrite E, E', !app_assoc.
    split; [reflexivity|]. split.
    + constructor; [apply den_app; exact D'|exact Ds'].
    + intros w [<-|I].
      * eapply own_app; eauto.
      * intros l Q. specialize (Ns' w I l Q). rewrite app_length in Ns'. lia.
Qed.

Lemma copy_ok v s p :
  den (st_heap s) v p ->
  exists v' t, copy v s = Ok v' (grow t s) /\ den (st_heap s ++ t) v' p /\
               own (st_heap s ++ t) (length (st_heap s)) v'.
Proof.
  intros D.
  destruct (proj1 (copy_val_spec_all (st_heap s)) v p D [] (S (length (st_heap s))))
    as (v' & t & E & D' & N).
  { pose proof (den_depth _ _ _ D). lia. }
  rewrite app_nil_r in *. exists v', t. unfold copy. rewrite E. auto.
Qed.

Lemma copies_ok vs : forall s ps,
  dens (st_heap s) vs ps ->
  exists vs' t, copies vs s = Ok vs' (grow t s) /\ dens (st_heap s ++ t) vs' ps /\
    forall v', In v' vs' -> own (st_heap s ++ t) (length (st_heap s)) v'.
Proof.
  induction vs as [|v vs IH]; intros s ps D; inversion D; subst; unfold copies; cbn [mmap].
  - exists [], []. rewrite grow_nil, app_nil_r. split; [reflexivity|].
    split; [constructor|intros v []].
  - destruct (copy_ok v s p H1) as (v' & t & E & D' & N').
    destruct (IH (grow t s) ps0) as (vs' & t' & E' & Ds & Ns).
    { simpl. apply dens_app. exact H3. }
    unfold copies in E'. unfold mbind. rewrite E, E'. simpl in Ds, Ns.
    exists (v' :: vs'), (t ++ t'). unfold mret. rewrite grow_grow, app_assoc.
    split; [reflexivity|]. split.
    + constructor; [apply den_app; exact D'|exact Ds].
    + intros w [<-|I].
      * eapply own_app; eauto.
      * intros l Q. specialize (Ns w I l Q). rewrite app_length in Ns. lia.
Qed.

Lemma fresh_all_ok ps : forall s,
  exists vs t, fresh_all ps s = Ok vs (grow t s) /\ dens (st_heap s ++ t) vs ps /\
    forall v, In v vs -> newer (st_heap s ++ t) (length (st_heap s)) v.
Proof.
  induction ps as [|p ps IH]; intros s; unfold fresh_all; cbn [mmap].
  - exists [], []. rewrite grow_nil, app_nil_r. split; [reflexivity|].
    split; [constructor|intros v []].
  - destruct (fresh_ok p s) as (v & t & E & D & N).
    destruct (IH (grow t s)) as (vs & t' & E' & Ds & Ns).
    unfold fresh_all in E'. unfold mbind. rewrite E, E'. simpl in Ds, Ns.
    exists (v :: vs), (t ++ t'). unfold mret. rewrite grow_grow, app_assoc.
    split; [reflexivity|]. split.
    + constructor; [apply den_app; exact D|exact Ds].
    + intros w [<-|I].
      * eapply newer_app; eauto.
      * intros l Q. specialize (Ns w I l Q). rewrite app_length in Ns. lia.
Qed.

Lemma new_list_ok vs s ps :
  dens (st_heap s) vs ps ->
  exists v t, new_list vs s = Ok v (grow t s) /\ den (st_heap s ++ t) v (PList ps) /\
    nth_error (st_heap s ++ t) (length (st_heap s)) = Some (OL vs) /\
    v = HList (length (st_heap s)) /\ t = [OL vs].
Proof.
  intros D. exists (HList (length (st_heap s))), [OL vs].
  assert (NE : nth_error (st_heap s ++ [OL vs]) (length (st_heap s)) = Some (OL vs))
    by (rewrite nth_error_app2, Nat.sub_diag by lia; reflexivity).
  split; [reflexivity|]. split; [|auto].
  apply den_list with vs; [exact NE|]. apply dens_app. exact D.
Qed.
