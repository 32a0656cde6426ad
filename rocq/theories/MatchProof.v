(** * The match variables *)

From Coq Require Import String List NArith ZArith Bool Arith Lia.
From Verif Require Import PyStr PyRe PyNum Tokens OpFun OpTable Unparse
                          PTypes Ops UserRe OpsSeq Apply Spec StrFacts PFacts SeqProof RunOp
                          Heap Exec SpecHeap HeapProof ExecRel ExecInv EvalProof
                          SpecScan SpecVars VarProof PureProof MutProof
                          SpecRegex SpecMatch ReSound ReScan ReShift RegexScan.
Import ListNotations.
Local Open Scope string_scope.
Local Open Scope list_scope.

(** ** States with more variables and more objects *)

Definition upd (bs : env) (t : heap) (s : state) : state := set_vars (bs ++ st_vars s) (grow t s).
Lemma upd_nil s : upd [] [] s = s.
Proof. unfold upd. rewrite grow_nil. destruct s; reflexivity. Qed.
Lemma upd_upd b2 t2 b1 t1 s : upd b2 t2 (upd b1 t1 s) = upd (b2 ++ b1) (t1 ++ t2) s.
Proof. unfold upd, grow, set_vars, set_heap. cbn. rewrite <- !app_assoc. reflexivity. Qed.
Lemma upd_heap bs t s : st_heap (upd bs t s) = st_heap s ++ t.
Proof. reflexivity. Qed.
Lemma upd_vars bs t s : st_vars (upd bs t s) = bs ++ st_vars s.
Proof. reflexivity. Qed.

Lemma fresh_upd p s bs t : exists v t', fresh p (upd bs t s) = Ok v (upd bs (t ++ t') s)
  /\ den (st_heap s ++ t ++ t') v p.
Proof.
  destruct (fresh_ok p (upd bs t s)) as (v & t' & E & D & _). exists v, t'.
  rewrite upd_heap, <- app_assoc in D. split; [|exact D]. rewrite E. f_equal.
  unfold upd, grow, set_vars, set_heap. cbn. rewrite <- !app_assoc. reflexivity.
Qed.
Lemma list_upd vs ps s bs t : dens (st_heap s ++ t) vs ps ->
  exists v t', new_list vs (upd bs t s) = Ok v (upd bs (t ++ t') s) /\ den (st_heap s ++ t ++ t') v (PList ps).
Proof.
  intros Ds. destruct (new_list_ok vs (upd bs t s) ps) as (v & t' & E & D & _); [rewrite upd_heap; exact Ds|].
  exists v, t'. rewrite upd_heap, <- app_assoc in D. split; [|exact D]. rewrite E. f_equal.
  unfold upd, grow, set_vars, set_heap. cbn. rewrite <- !app_assoc. reflexivity.
Qed.
Lemma set_upd x v s bs t : local_name x = false -> set_var x v (upd bs t s) = Ok tt (upd ((x, v) :: bs) t s).
Proof. intros L. unfold set_var. rewrite L. reflexivity. Qed.
Lemma sets_upd l : forall s bs t, Forall (fun p => local_name (fst p) = false) l ->
  mfor (fun p => set_var (fst p) (snd p)) l (upd bs t s) = Ok tt (upd (rev l ++ bs) t s).
Proof.
  induction l as [|[x v] l IH]; intros s bs t F; [reflexivity|]. inversion F as [|? ? L F']; subst.
  cbn [mfor]. rewrite (bind_step _ _ _ _ _ (set_upd x v s bs t L)). rewrite IH by exact F'.
  cbn [rev]. rewrite <- app_assoc. reflexivity.
Qed.

Definition place_of (h : hit) (k : nat) : place := cap k (fd_caps (ht_found h)).
Lemma group_text_place h k : match group_text (ht_text h) (ht_found h) k with Some x => PScal x | None => PNil end
  = place_text (ht_text h) (place_of h k).
Proof. unfold group_text, place_of, place_text, span. destruct (cap k _) as [[a b]|]; reflexivity. Qed.
Lemma groups_upd h l : forall s bs t, exists vs t',
  mmap (group_value h) l (upd bs t s) = Ok vs (upd bs (t ++ t') s)
  /\ dens (st_heap s ++ t ++ t') vs (map (fun k => place_text (ht_text h) (place_of h k)) l).
Proof.
  induction l as [|k l IH]; intros s bs t.
  - exists [], []. rewrite app_nil_r. split; [reflexivity|constructor].
  - assert (exists v t1, group_value h k (upd bs t s) = Ok v (upd bs (t ++ t1) s)
              /\ den (st_heap s ++ t ++ t1) v (place_text (ht_text h) (place_of h k))) as (v & t1 & E1 & D1).
    { rewrite <- group_text_place. unfold group_value. destruct (group_text _ _ k) as [x|].
      - apply fresh_upd.
      - exists HNil, []. rewrite app_nil_r. split; [reflexivity|constructor]. }
    destruct (IH s bs (t ++ t1)) as (vs & t2 & E2 & D2). exists (v :: vs), (t1 ++ t2). cbn [mmap map].
    rewrite (bind_step _ _ _ _ _ E1), (bind_step _ _ _ _ _ E2). rewrite app_assoc. split; [reflexivity|].
    constructor; [|exact D2]. rewrite app_assoc, app_assoc. rewrite <- (app_assoc (st_heap s)). apply den_app. exact D1.
Qed.

(** ** After one match *)

Definition says (s : state) (x : str) (p : pval) : Prop :=
  exists v, lookup (st_vars s) x = Some v /\ den (st_heap s) v p.

Record told (s : state) (h : hit) : Prop := {
  t_starts : says s (s_ "$(") (scal_Z (Z.of_nat (fd_start (ht_found h))));
  t_ends : says s (s_ "$)") (scal_Z (Z.of_nat (fd_end (ht_found h))));
  t_before : says s (s_ "$`") (PScal (firstn (fd_start (ht_found h)) (ht_text h)));
  t_after : says s (s_ "$'") (PScal (skipn (fd_end (ht_found h)) (ht_text h)));
  t_gs : says s (s_ "$$") (PList (map (fun k => place_text (ht_text h) (place_of h k)) (seq 2 (ht_groups h - 1))));
  t_ga : says s (s_ "$[") (PList (map (fun k => place_bound fst (place_of h k)) (seq 2 (ht_groups h - 1))));
  t_gb : says s (s_ "$]") (PList (map (fun k => place_bound snd (place_of h k)) (seq 2 (ht_groups h - 1))));
  t_digit : forall k c, nth_error (s_ "0123456789") k = Some c ->
    says s [36%N; c] (nth k (map (fun k => place_text (ht_text h) (place_of h k)) (seq 1 (ht_groups h))) PNil) }.

Lemma dens_nth h vs ps k : dens h vs ps -> den h (nth k vs HNil) (nth k ps PNil).
Proof.
  intros D. revert k. induction D as [|v p vs ps Dv _ IH]; intros [|k]; cbn [nth]; try constructor; auto.
Qed.
Lemma dens_tl h vs ps : dens h vs ps -> dens h (tl vs) (tl ps).
Proof. intros D. inversion D; subst; [constructor|assumption]. Qed.
Lemma digits_bound (l : list hval) :
  combine digit_vars (l ++ repeat HNil 10) = map (fun k => (nth k digit_vars [], nth k l HNil)) (seq 0 10).
Proof. do 10 (destruct l as [|? l]; [reflexivity|]). reflexivity. Qed.

Lemma den_more h t t' v p : den (h ++ t) v p -> den (h ++ t ++ t') v p.
Proof. intros D. rewrite app_assoc. apply den_app. exact D. Qed.
Lemma dens_more h t t' vs ps : dens (h ++ t) vs ps -> dens (h ++ t ++ t') vs ps.
Proof. intros D. rewrite app_assoc. apply dens_app. exact D. Qed.

Lemma tl_map {A B} (g : A -> B) l : map g (tl l) = tl (map g l).
Proof. destruct l; reflexivity. Qed.
Definition match_only (bs : env) : Prop := forall x v, In (x, v) bs -> In x match_names.

Lemma assign_ok h s : exists bs t gs, assign_match h s = Ok gs (upd bs t s)
  /\ dens (st_heap s ++ t) gs (map (fun k => place_text (ht_text h) (place_of h k)) (seq 1 (ht_groups h)))
  /\ told (upd bs t s) h /\ match_only bs.
Proof.
  enough (H : exists bs t gs, assign_match h (upd [] [] s) = Ok gs (upd bs t s)
    /\ dens (st_heap s ++ t) gs (map (fun k => place_text (ht_text h) (place_of h k)) (seq 1 (ht_groups h)))
    /\ told (upd bs t s) h /\ match_only bs) by (rewrite upd_nil in H; exact H).
  unfold assign_match. cbv zeta.
  destruct (groups_upd h (seq 1 (ht_groups h)) s [] []) as (gs & t1 & E1 & D1).
  rewrite (bind_step _ _ _ _ _ E1). clear E1. cbn [app] in *.
  destruct (list_upd (tl gs) _ s [] t1 (dens_tl _ _ _ D1)) as (l & t2 & E2 & D2).
  rewrite (bind_step _ _ _ _ _ E2). clear E2.
  rewrite (bind_step _ _ _ _ _ (set_upd (s_ "$$") l s [] (t1 ++ t2) eq_refl)).
  rewrite digits_bound.
  assert (Fd : Forall (fun p : str * hval => local_name (fst p) = false)
                      (map (fun k => (nth k digit_vars [], nth k gs HNil)) (seq 0 10))).
  { repeat (constructor; [reflexivity|]). constructor. }
  rewrite (bind_step _ _ _ _ _ (sets_upd _ _ _ _ Fd)). clear Fd.
  remember (rev (map (fun k => (nth k digit_vars [], nth k gs HNil)) (seq 0 10)) ++ [(s_ "$$", l)]) as b0 eqn:Eb.
  destruct (fresh_upd (scal_Z (Z.of_nat (fd_start (ht_found h)))) s b0 (t1 ++ t2)) as (va & t3 & E3 & D3).
  rewrite (bind_step _ _ _ _ _ E3). rewrite (bind_step _ _ _ _ _ (set_upd (s_ "$(") va s _ _ eq_refl)). clear E3.
  destruct (fresh_upd (scal_Z (Z.of_nat (fd_end (ht_found h)))) s ((s_ "$(", va) :: b0) ((t1 ++ t2) ++ t3))
    as (vb & t4 & E4 & D4).
  rewrite (bind_step _ _ _ _ _ E4). rewrite (bind_step _ _ _ _ _ (set_upd (s_ "$)") vb s _ _ eq_refl)). clear E4.
  match goal with |- context [mbind (fresh ?p) _ (upd ?b ?t s)] => destruct (fresh_upd p s b t) as (vc & t5 & E5 & D5) end.
  rewrite (bind_step _ _ _ _ _ E5). rewrite (bind_step _ _ _ _ _ (set_upd (s_ "$`") vc s _ _ eq_refl)). clear E5.
  match goal with |- context [mbind (fresh (PScal ?p)) _ (upd ?b ?t s)] =>
    destruct (fresh_upd (PScal p) s b t) as (vd & t6 & E6 & D6) end.
  rewrite (bind_step _ _ _ _ _ E6). rewrite (bind_step _ _ _ _ _ (set_upd (s_ "$'") vd s _ _ eq_refl)). clear E6.
  match goal with |- context [mbind (fresh ?p) _ (upd ?b ?t s)] => destruct (fresh_upd p s b t) as (vx & t7 & E7 & D7) end.
  rewrite (bind_step _ _ _ _ _ E7). rewrite (bind_step _ _ _ _ _ (set_upd (s_ "$[") vx s _ _ eq_refl)). clear E7.
  match goal with |- context [mbind (fresh ?p) _ (upd ?b ?t s)] => destruct (fresh_upd p s b t) as (vy & t8 & E8 & D8) end.
  rewrite (bind_step _ _ _ _ _ E8). rewrite (bind_step _ _ _ _ _ (set_upd (s_ "$]") vy s _ _ eq_refl)). clear E8.
  match goal with |- context [upd ?b ?t s] => exists b, t, gs end.
  assert (Dg : forall t', dens (st_heap s ++ (t1 ++ t2) ++ t')
                 gs (map (fun k => place_text (ht_text h) (place_of h k)) (seq 1 (ht_groups h)))).
  { intros t'. apply dens_more, dens_more. exact D1. }
  split; [reflexivity|]. split.
  { rewrite <- !app_assoc, (app_assoc t1 t2). apply Dg. }
  split.
  - assert (Sq : seq 2 (ht_groups h - 1) = tl (seq 1 (ht_groups h))).
    { destruct (ht_groups h) as [|n]; [reflexivity|]. cbn [seq tl]. rewrite Nat.sub_succ, Nat.sub_0_r. reflexivity. }
    constructor; unfold says.
    + exists va. split; [subst b0; reflexivity|]. repeat (exact D3 || apply den_more).
    + exists vb. split; [subst b0; reflexivity|]. repeat (exact D4 || apply den_more).
    + exists vc. split; [subst b0; reflexivity|]. repeat (exact D5 || apply den_more).
    + exists vd. split; [subst b0; reflexivity|]. repeat (exact D6 || apply den_more).
    + exists l. split; [subst b0; reflexivity|].
      rewrite Sq, tl_map. repeat (exact D2 || apply den_more).
    + exists vx. split; [subst b0; reflexivity|]. repeat (exact D7 || apply den_more).
    + exists vy. split; [subst b0; reflexivity|]. repeat (exact D8 || apply den_more).
    + intros k c Ek. exists (nth k gs HNil).
      split; [|rewrite upd_heap, <- !app_assoc, (app_assoc t1 t2); apply dens_nth, Dg].
      subst b0. do 10 (destruct k as [|k]; [injection Ek as <-; reflexivity|]). destruct k; discriminate.
  - intros x v I. subst b0. cbn in I.
    repeat (destruct I as [I|I]; [injection I as <- _; cbn; tauto|]). contradiction.
Qed.
Print Assumptions assign_ok.

Lemma says_grow t s x p : says s x p -> says (grow t s) x p.
Proof. intros (v & L & D). exists v. split; [exact L|]. rewrite grow_heap. apply den_app. exact D. Qed.
Lemma told_grow t s h : told s h -> told (grow t s) h.
Proof. intros []. constructor; intros; apply says_grow; auto. Qed.
Lemma grow_upd t' bs t s : grow t' (upd bs t s) = upd bs (t ++ t') s.
Proof. unfold upd, grow, set_vars, set_heap. cbn. rewrite <- !app_assoc. reflexivity. Qed.
Lemma match_only_app a b : match_only a -> match_only b -> match_only (a ++ b).
Proof. intros A B x v I. apply in_app_or in I. destruct I; eauto. Qed.

Lemma assigns_ok hs : forall s, exists bs t, mfor assign_hit hs s = Ok tt (upd bs t s) /\ match_only bs
  /\ (hs = [] -> bs = []) /\ (forall hs' h, hs = hs' ++ [h] -> told (upd bs t s) h).
Proof.
  induction hs as [|h hs IH]; intros s.
  - exists [], []. rewrite upd_nil. split; [reflexivity|]. split; [intros x v []|]. split; [reflexivity|].
    intros hs1 h1 E; destruct hs1; discriminate.
  - destruct (assign_ok h s) as (b1 & t1 & gs & E1 & _ & T1 & M1).
    destruct (IH (upd b1 t1 s)) as (b2 & t2 & E2 & M2 & N2 & T2). exists (b2 ++ b1), (t1 ++ t2).
    rewrite upd_upd in E2, T2. split; [|split; [apply match_only_app; assumption|split; [discriminate|]]].
    + cbn [mfor]. assert (E0 : assign_hit h s = Ok tt (upd b1 t1 s)).
      { unfold assign_hit. rewrite (bind_step _ _ _ _ _ E1). reflexivity. }
      rewrite (bind_step _ _ _ _ _ E0). exact E2.
    + intros hs' g E. destruct hs' as [|g' hs'].
      * injection E as -> ->. specialize (N2 eq_refl). subst b2. cbn [app].
        rewrite <- grow_upd. apply told_grow. exact T1.
      * injection E as _ E. exact (T2 hs' g E).
Qed.

(** ** The operators *)

Definition searching (text : string) (f : opfun) : Prop :=
  exists o, op_by_arity 2 (s_ text) = Some o /\ o_fun o = f /\ o_assign o = false /\ o_map o = false
    /\ o_fold o = false /\ o_scan o = false /\ f_rvals (o_flags o) = true
    /\ match f with F_FIND | F_FINDALL | F_IN | F_FIRSTMATCH | F_FULLMATCH => True | _ => False end.

Definition lone (p : pval) : bool := match p with PScal _ | PPat _ _ => true | _ => false end.
Lemma lone_expands fl h v p : lone p = true -> den h v p -> expands_x fl (XR v) = false /\ h_block v = false.
Proof. intros L D. inversion D; subst; try discriminate; split; reflexivity. Qed.

Lemma searched text f fmt es s v1 v2 s1 p1 p2 p :
  searching text f -> length es = 2 -> operands s es [v1; v2] s1 -> dens (st_heap s1) [v1; v2] [p1; p2] ->
  lone p1 = true -> lone p2 = true -> fmt = st_fmt s ->
  pure_fun fmt f [p1; p2] = Some (ret p) ->
  exists v bs t, gives s (app text es) v (upd bs t s1) /\ den (st_heap s1 ++ t) v p
    /\ match_only bs /\ (regex_hits f [p1; p2] = [] -> bs = [])
    /\ (forall hs h, regex_hits f [p1; p2] = hs ++ [h] -> told (upd bs t s1) h).
Proof.
  intros (o & F & Ef & O1 & O2 & O3 & O4 & O5 & Of) Len Os Ds L1 L2 -> Ep.
  destruct (operands_fuel _ _ _ _ Os) as [k K].
  destruct (assigns_ok (regex_hits f [p1; p2]) s1) as (bs & t & E & M & Nn & T).
  destruct (fresh_upd p s1 bs t) as (v & t' & E' & D). exists v, bs, (t ++ t').
  split; [|split; [exact D|split; [exact M|split; [exact Nn|]]]].
  2:{ intros hs h Q. rewrite <- grow_upd. apply told_grow. exact (T hs h Q). }
  apply gives_evals. exists (XR v), (upd bs (t ++ t') s1). split; [|reflexivity].
  exists (S (S k)). unfold app. rewrite Len, F. rewrite eval_app_eq. unfold eval_op.
  rewrite O1, O2, O3, O4.
  rewrite (bind_step _ _ _ _ _ (prepare_trees _ _ _ _ _ _ O5 (K k (le_n _)))).
  inversion Ds as [|? ? ? ? D1 Ds']; subst. inversion Ds' as [|? ? ? ? D2 _]; subst.
  destruct (lone_expands (o_flags o) _ _ _ L1 D1) as [X1 B1].
  destruct (lone_expands (o_flags o) _ _ _ L2 D2) as [X2 B2].
  cbn [map fst snd existsb]. rewrite B1, B2, andb_false_r. cbn [orb].
  apply catch_ok. unfold apply_x, arg_of. rewrite X1, X2. cbn [andb].
  assert (P : pure_call (o_fun o) [AVal (XR v1); AVal (XR v2)] s1 = Ok (XR v) (upd bs (t ++ t') s1)).
  { unfold pure_call.
    rewrite (bind_step _ _ _ _ _ (args_r_of [v1; v2] s1)).
    assert (R : mmap dread [v1; v2] s1 = Ok [p1; p2] s1).
    { cbn [mmap]. rewrite (bind_step _ _ _ _ _ (dread_ok _ _ _ D1)).
      rewrite (bind_step _ _ s1 [p2] s1); [reflexivity|].
      rewrite (bind_step _ _ _ _ _ (dread_ok _ _ _ D2)). reflexivity. }
    rewrite (bind_step _ _ _ _ _ R).
    rewrite (bind_step get_fmt _ s1 (st_fmt s1) s1 eq_refl).
    rewrite (operands_fmt _ _ _ _ Os), Ep.
    rewrite (bind_step (of_pm (ret p)) _ s1 p s1 eq_refl).
    rewrite (bind_step _ _ _ _ _ E), (bind_step _ _ _ _ _ E'). reflexivity. }
  destruct (o_fun o); try contradiction Of; exact P.
Qed.

(** ** From the match to the description *)

Lemma place_first t m n : place_of (mkhit t (bracketed m) n) 1 = Some (fd_start m, fd_end m).
Proof. reflexivity. Qed.
Lemma place_next t m n k : place_of (mkhit t (bracketed m) n) (S (S k)) = cap (S k) (fd_caps m).
Proof.
  unfold place_of. cbn [ht_found bracketed fd_caps]. rewrite <- (cap_shift (S k) (fd_caps m)). reflexivity.
Qed.
Lemma match_name x : In x match_names -> name_text x /\ local_name x = false.
Proof.
  intros I. cbn in I.
  repeat (destruct I as [<-|I]; [split; [apply (name_special _); cbn; tauto|reflexivity]|]). contradiction.
Qed.
Lemma says_var s x p : In x match_names -> says s x p -> var s x p.
Proof.
  intros I (v & L & D). destruct (match_name x I) as [Nt Lc]. exists (Some v). split; [|exact D].
  rewrite <- L. apply binding_global. rewrite <- local_spec by exact Nt. rewrite Lc. discriminate.
Qed.
Definition places (m : found) (n : nat) : list place := map (fun k => cap k (fd_caps m)) (seq 1 n).
Lemma places_next {A} (g : place -> A) t m n :
  map (fun k => g (place_of (mkhit t (bracketed m) (S n)) k)) (seq 2 n) = map g (places m n).
Proof.
  unfold places. rewrite map_map, <- seq_shift, map_map. apply map_ext_in. intros k I. apply in_seq in I.
  destruct k as [|k]; [lia|]. rewrite place_next. reflexivity.
Qed.
Lemma cap_in k l a b : cap k l = Some (a, b) -> In (k, (a, b)) l.
Proof.
  induction l as [|[j p] l IH]; cbn [cap]; [discriminate|]. destruct (Nat.eqb k j) eqn:E.
  - intros Q. injection Q as ->. apply Nat.eqb_eq in E. subst. left. reflexivity.
  - intros Q. right. auto.
Qed.
Lemma cut_text t m : in_text t m ->
  firstn (fd_start m) t ++ match_text t m ++ skipn (fd_end m) t = t
  /\ length (firstn (fd_start m) t) = fd_start m
  /\ length (firstn (fd_start m) t ++ match_text t m) = fd_end m.
Proof.
  intros (I1 & I2 & _). unfold match_text.
  assert (L1 : length (firstn (fd_start m) t) = fd_start m) by (rewrite firstn_length; unfold str, char in *; lia).
  split; [|split; [exact L1|]].
  - rewrite span_skipn by exact I1. apply firstn_skipn.
  - rewrite app_length, L1, span_length by lia. lia.
Qed.

Lemma told_describe s t m n : in_text t m -> told s (mkhit t (bracketed m) (S n)) ->
  describe s (firstn (fd_start m) t) (match_text t m) (skipn (fd_end m) t) (places m n).
Proof.
  intros I T. destruct (cut_text t m I) as (Ec & L1 & L2).
  destruct T as [T1 T2 T3 T4 T5 T6 T7 T8]. cbn [ht_text ht_found ht_groups bracketed fd_start fd_end] in *.
  rewrite Nat.sub_succ, Nat.sub_0_r in *. rewrite places_next in T5, T6, T7.
  assert (V : forall x p, In x match_names -> says s x p -> var s x p) by (intros; apply says_var; assumption).
  constructor.
  - apply V; [cbn; tauto|]. specialize (T8 0 48%N eq_refl). cbn [seq map nth] in T8. rewrite place_first in T8.
    exact T8.
  - apply V; [cbn; tauto|exact T3].
  - apply V; [cbn; tauto|exact T4].
  - apply V; [cbn; tauto|]. rewrite L1. exact T1.
  - apply V; [cbn; tauto|]. rewrite L2. exact T2.
  - apply V; [cbn; tauto|]. rewrite Ec. exact T5.
  - intros k c Ek. assert (Ic : In [36%N; c] match_names).
    { apply nth_error_In in Ek. cbn in Ek. repeat (destruct Ek as [<-|Ek]; [cbn; tauto|]). contradiction. }
    apply V; [exact Ic|]. rewrite Ec. specialize (T8 (S k) c Ek). cbn [seq map nth] in T8.
    rewrite places_next in T8. exact T8.
  - apply V; [cbn; tauto|exact T6].
  - apply V; [cbn; tauto|exact T7].
  - rewrite Ec. apply Forall_forall. intros g Ig. unfold places in Ig. apply in_map_iff in Ig.
    destruct Ig as (k & <- & _). destruct (cap k (fd_caps m)) as [[a b]|] eqn:Eg; [|exact Logic.I].
    apply cap_in in Eg. destruct I as (_ & I2 & I3). rewrite Forall_forall in I3. specialize (I3 _ Eg). cbn in I3.
    cbn [place_in]. unfold str, char in *. lia.
Qed.

Lemma sound_compiles fmt raw f t : sound_pattern fmt raw f t ->
  exists r n, compile f raw = Some (r, n) /\ compile f (as_regex raw) = Some (bracket r, S n)
    /\ (raw <> [] -> run_op fmt "^" [PScal t; PPat raw f]
        = ret (PList (map (fun o => PScal (text_or_None o)) (split_from t n 0 (matches f r t))))).
Proof.
  intros [->|(G & Ad & u & E)].
  - exists XEps, 0. split; [reflexivity|]. split; [reflexivity|]. congruence.
  - destruct raw as [|c raw]; [exists XEps, 0; split; [reflexivity|]; split; [reflexivity|congruence]|].
    destruct (defined_SPLIT fmt (c :: raw) f t u ltac:(discriminate) E) as (r & n & Co & ->). exists r, n.
    split; [exact Co|]. split; [|intros _; exact E].
    apply compile_as_regex; [exact Co| |apply okd_all; exact Ad]. apply compile_count in Co.
    unfold str, char in *. lia.
Qed.

Lemma upd_matches bs t s : match_only bs -> only_matches s (upd bs t s).
Proof.
  intros M. exists bs. split; [exact M|]. unfold only_adds, upd. cbn. repeat split; eauto.
  exists []. rewrite app_nil_r. reflexivity.
Qed.
Lemma upd_adds t s : only_adds s (upd [] t s).
Proof.
  unfold only_adds, upd. cbn. repeat split; eauto. exists []. rewrite app_nil_r. reflexivity.
Qed.
Lemma split_first t n m ms :
  exists rest, map (fun o => PScal (text_or_None o)) (split_from t n 0 (m :: ms))
             = PScal (firstn (fd_start m) t) :: map (written t) (places m n) ++ rest.
Proof.
  cbn [split_from map]. rewrite map_app. eexists. f_equal.
  - unfold span. cbn [text_or_None skipn]. rewrite Nat.sub_0_r. reflexivity.
  - f_equal. unfold places. rewrite !map_map. apply map_ext. intros k. unfold group_text, written.
    destruct (cap k (fd_caps m)) as [[a b]|]; reflexivity.
Qed.

Lemma order_in t : forall ms pos, in_order t pos ms -> Forall (in_text t) ms.
Proof. induction ms as [|m ms IH]; intros pos Q; [constructor|]. inversion Q; subst. constructor; eauto. Qed.
Lemma matches_in f r t : Forall (in_text t) (matches f r t).
Proof. eapply order_in, matches_order. Qed.
Lemma search_in f r t m : search f r t = Some m -> exists ms, matches f r t = m :: ms /\ in_text t m.
Proof.
  rewrite matches_search. intros E. pose proof (matches_in f r t) as I.
  destruct (matches f r t) as [|m0 ms]; [discriminate|]. injection E as ->. inversion I; subst. eauto.
Qed.
Lemma fullmatch_in f r t m : fullmatch f r t = Some m -> in_text t m /\ fd_start m = 0 /\ fd_end m = length t.
Proof.
  intros E. unfold fullmatch in E.
  destruct (match_here_in f t r _ 0 m ltac:(lia) E) as (I & S0 & s' & R & O & En & _).
  split; [exact I|]. split; [exact S0|].
  destruct (run_good f t _ _ _ R (good_start t 0 ltac:(lia))) as [G _].
  rewrite En. destruct (ms_rest s') eqn:Er; [|discriminate]. destruct G as [G1 G2 G3 G4].
  rewrite Er in G2. apply (f_equal (@length _)) in G2. rewrite skipn_length in G2. cbn [length] in G2.
  unfold str, char in *. lia.
Qed.

Section Found.
  Variables (fmt : ofmt) (raw : str) (f : N) (t : str) (r : rx) (n : nat).
  Hypothesis Us : usable f (as_regex raw) t = true.
  Hypothesis Co : compile f (as_regex raw) = Some (bracket r, S n).

  Lemma hits_search_eq : hits_search raw f t
    = match search f r t with Some m => [mkhit t (bracketed m) (S n)] | None => [] end.
  Proof.
    unfold hits_search, re_search, with_regex. rewrite Us, Co, search_bracket.
    destruct (search f r t); reflexivity.
  Qed.
  Lemma hits_full_eq : hits_full raw f t
    = match fullmatch f r t with Some m => [mkhit t (bracketed m) (S n)] | None => [] end.
  Proof.
    unfold hits_full, re_fullmatch, with_regex. rewrite Us, Co, fullmatch_bracket.
    destruct (fullmatch f r t); reflexivity.
  Qed.
  Lemma hits_iter_eq : hits_iter raw f t = map (fun m => mkhit t (bracketed m) (S n)) (matches f r t).
  Proof.
    unfold hits_iter, re_finditer, with_regex. rewrite Us, Co, matches_bracket, map_map. reflexivity.
  Qed.
End Found.

(** The operators on a text and a Pattern. *)
Lemma op_first fmt t raw f : run_op fmt "~" [PScal t; PPat raw f] = op_FIRSTMATCH (PScal t) (PPat raw f).
Proof. run_plain. reflexivity. Qed.
Lemma op_find fmt t raw f : run_op fmt "@?" [PScal t; PPat raw f] = op_FIND (PScal t) (PPat raw f).
Proof. run_plain. reflexivity. Qed.
Lemma op_full fmt t raw f : run_op fmt "~=" [PScal t; PPat raw f] = op_FULLMATCH (PScal t) (PPat raw f).
Proof. run_plain. reflexivity. Qed.
Lemma op_findall fmt t raw f : run_op fmt "@*" [PScal t; PPat raw f] = op_FINDALL (PScal t) (PPat raw f).
Proof. run_plain. reflexivity. Qed.
Lemma op_in fmt t raw f : run_op fmt "N" [PPat raw f; PScal t] = op_IN (PPat raw f) (PScal t).
Proof. run_plain. reflexivity. Qed.

Ltac usable_from E := unfold re_search, re_fullmatch, re_finditer, with_regex in E;
  match type of E with context [usable ?f ?r ?t] => destruct (usable f r t) eqn:?Us; [reflexivity|discriminate E] end.
Lemma usable_first fmt t raw f p : run_op fmt "~" [PScal t; PPat raw f] = ret p -> usable f (as_regex raw) t = true.
Proof. rewrite op_first. unfold op_FIRSTMATCH. cbn [match_args]. intros E. usable_from E. Qed.
Lemma usable_find fmt t raw f p : run_op fmt "@?" [PScal t; PPat raw f] = ret p -> usable f (as_regex raw) t = true.
Proof. rewrite op_find. unfold op_FIND. cbn [is_scalar_or_range each_item find1]. intros E. usable_from E. Qed.
Lemma usable_full fmt t raw f p : run_op fmt "~=" [PScal t; PPat raw f] = ret p -> usable f (as_regex raw) t = true.
Proof. rewrite op_full. unfold op_FULLMATCH. cbn [match_args full_match]. intros E. usable_from E. Qed.
Lemma usable_at fmt t raw f p : run_op fmt "@" [PScal t; PPat raw f] = ret p -> usable f (as_regex raw) t = true.
Proof. intros E. apply (defined_AT _ _ _ _ _ E). Qed.

(** [@] assigns every match and keeps the first group of each. *)
Lemma at_matches hs : forall s,
  Forall (fun h => ht_groups h <> 0 /\ exists p, place_of h 1 = Some p) hs ->
  exists vs bs t,
    mmap (fun h => gs <- assign_match h;; mret (hd HNil gs)) hs s = Ok vs (upd bs t s)
    /\ dens (st_heap s ++ t) vs (map (fun h => place_text (ht_text h) (place_of h 1)) hs)
    /\ match_only bs /\ (hs = [] -> bs = []) /\ (forall hs' h, hs = hs' ++ [h] -> told (upd bs t s) h).
Proof.
  induction hs as [|h hs IH]; intros s F.
  - exists [], [], []. rewrite upd_nil. split; [reflexivity|]. split; [constructor|]. split; [intros x v []|].
    split; [reflexivity|]. intros hs1 h1 E; destruct hs1; discriminate.
  - inversion F as [|? ? [Ng Pl] F']; subst.
    destruct (assign_ok h s) as (b1 & t1 & gs & E1 & D1 & T1 & M1).
    destruct (IH (upd b1 t1 s) F') as (vs & b2 & t2 & E2 & D2 & M2 & N2 & T2).
    exists (hd HNil gs :: vs), (b2 ++ b1), (t1 ++ t2).
    rewrite upd_upd in E2, T2. rewrite upd_heap, <- app_assoc in D2.
    split; [|split; [|split; [apply match_only_app; assumption|split; [discriminate|]]]].
    + cbn [mmap]. assert (E0 : (gs <- assign_match h;; mret (hd HNil gs)) s = Ok (hd HNil gs) (upd b1 t1 s)).
      { rewrite (bind_step _ _ _ _ _ E1). reflexivity. }
      rewrite (bind_step _ _ _ _ _ E0), (bind_step _ _ _ _ _ E2). reflexivity.
    + cbn [map]. constructor; [|exact D2]. apply den_more.
      destruct (ht_groups h) as [|n]; [congruence|]. cbn [seq map] in D1. inversion D1; subst. assumption.
    + intros hs' g E. destruct hs' as [|g' hs'].
      * injection E as -> ->. specialize (N2 eq_refl). subst b2. cbn [app].
        rewrite <- grow_upd. apply told_grow. exact T1.
      * injection E as _ E. exact (T2 hs' g E).
Qed.

Lemma at_run s e1 e2 t raw f r n :
  usable f (as_regex raw) t = true -> compile f (as_regex raw) = Some (bracket r, S n) ->
  means s e1 (PScal t) -> means s e2 (PPat raw f) ->
  exists s1 v bs h, adv s s1 /\ gives s (app "@" [e1; e2]) v (upd bs h s1)
    /\ den (st_heap s1 ++ h) v (PList (map (fun m => PScal (match_text t m)) (matches f r t)))
    /\ match_only bs /\ (matches f r t = [] -> bs = [])
    /\ (forall ms m, matches f r t = ms ++ [m] -> told (upd bs h s1) (mkhit t (bracketed m) (S n))).
Proof.
  intros Us Co M1 M2.
  assert (exists o, op_by_arity 2 (s_ "@") = Some o /\ lambda_vals o = true /\ o_fun o = F_AT) as (o & Fo & Lo & Fn)
    by (eexists; repeat split; reflexivity).
  destruct (means_reads _ _ _ M1 s (adv_refl _)) as (x & s1 & E1 & A1 & R1).
  destruct (evals_lam2 s o e1 e2 x s1 (PScal t) Lo E1 R1 eq_refl) as (s2 & A2 & K).
  destruct (means_reads _ _ _ M2 s2 (adv_trans _ _ _ A1 A2)) as (y & s3 & E3 & A3 & R3).
  destruct (K y s3 (PPat raw f) E3 R3 eq_refl) as (s4 & A4 & K4).
  destruct (R3 s4 A4) as (w & s5 & E5 & A5 & D5).
  assert (A15 : adv s1 s5) by eauto 6 using adv_trans.
  destruct (R1 s5 A15) as (u & s6 & E6 & A6 & D6).
  inversion D5; subst. inversion D6 as [l t0 Hl| | | | |]; subst u t0.
  set (hs := map (fun m => mkhit t (bracketed m) (S n)) (matches f r t)).
  destruct (at_matches hs s6) as (vs & bs & h & E7 & D7 & Mo & Nn & T).
  { apply Forall_forall. intros g Ig. unfold hs in Ig. apply in_map_iff in Ig. destruct Ig as (m & <- & _).
    split; [discriminate|]. eexists. apply place_first. }
  destruct (list_upd vs _ s6 bs h D7) as (v & h' & E8 & D8).
  exists s6, v, bs, (h ++ h'). split; [eauto 6 using adv_trans|].
  split; [|split; [|split; [exact Mo|split]]].
  - apply gives_evals. exists (XR v), (upd bs (h ++ h') s6). split; [|reflexivity].
    unfold app. cbn [length]. rewrite Fo. apply (K4 _ _ 0). rewrite Fn. unfold call_fun, AT.
    rewrite (bind_step _ _ _ _ _ E5), (bind_step _ _ _ _ _ E6).
    rewrite (bind_step _ _ s6 t s6); [|unfold load_str, load, mbind; rewrite Hl; reflexivity].
    unfold re_finditer, with_regex. rewrite Us, Co. cbn [of_re].
    rewrite (bind_step _ _ s6 (matches f (bracket r) t, S n) s6); [|reflexivity]. cbn [fst snd].
    rewrite matches_bracket.
    assert (E7' : mmap (fun m => gs <- assign_match (mkhit t m (S n));; mret (hd HNil gs))
                       (map bracketed (matches f r t)) s6 = Ok vs (upd bs h s6)).
    { rewrite <- E7. unfold hs. clear. generalize s6. induction (matches f r t) as [|m ms IH]; intros s; [reflexivity|].
      cbn [map mmap]. unfold mbind in *. destruct (assign_match _ s); [|reflexivity|reflexivity].
      cbn [mret]. unfold mret in *. rewrite IH. reflexivity. }
    rewrite (bind_step _ _ _ _ _ E7'), (bind_step _ _ _ _ _ E8). reflexivity.
  - unfold hs in D8. rewrite map_map in D8. exact D8.
  - intros Em. apply Nn. unfold hs. rewrite Em. reflexivity.
  - intros ms m Em. rewrite <- grow_upd. apply told_grow.
    apply (T (map (fun m => mkhit t (bracketed m) (S n)) ms)). unfold hs. rewrite Em, map_app. reflexivity.
Qed.
Lemma usable_findall fmt t raw f p : run_op fmt "@*" [PScal t; PPat raw f] = ret p -> usable f (as_regex raw) t = true.
Proof. rewrite op_findall. unfold op_FINDALL. cbn [is_scalar_or_range each_item find_all1]. intros E. usable_from E. Qed.
Lemma usable_in fmt t raw f p : run_op fmt "N" [PPat raw f; PScal t] = ret p -> usable f (as_regex raw) t = true.
Proof. rewrite op_in. cbn [op_IN]. intros E. usable_from E. Qed.
Lemma adv_matches bs h s s1 : adv s s1 -> match_only bs -> only_matches s (upd bs h s1).
Proof.
  intros (t & d & ->) M. exists bs. split; [exact M|]. unfold only_adds, upd, grow. cbn.
  repeat split; eauto. exists (t ++ h). rewrite app_assoc. reflexivity.
Qed.
Lemma adv_adds h s s1 : adv s s1 -> only_adds s (upd [] h s1).
Proof.
  intros (t & d & ->). unfold only_adds, upd, grow. cbn.
  repeat split; eauto. exists (t ++ h). rewrite app_assoc. reflexivity.
Qed.
