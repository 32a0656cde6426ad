(** * PK *)

From Coq Require Import String List NArith ZArith Bool Arith Lia Permutation.
From Verif Require Import PyStr PyRe PyNum Tokens OpFun OpTable Unparse
                          PTypes Ops OpsSeq Apply Spec StrFacts PFacts NumFacts SeqProof ItemProof RunOp
                          NumProof
                          Heap Exec SpecHeap HeapProof ExecRel ExecInv EvalProof
                          SpecScan SpecVars SpecAlias SpecPick VarProof PureProof MutProof AliasProof.
Import ListNotations.
Local Open Scope string_scope.
Local Open Scope list_scope.
Local Open Scope Z_scope.

Lemma dens_split h vs before a after :
  dens h vs (before ++ a :: after) ->
  exists vb v va, vs = vb ++ v :: va /\ dens h vb before /\ den h v a /\ dens h va after
    /\ length vb = length before.
Proof.
  revert vs. induction before as [|q ps IH]; intros vs D; inversion D as [|v q' vs' qs Dv Dr]; subst.
  - exists [], v, vs'. repeat (split; [solve [reflexivity|constructor|assumption]|]). reflexivity.
  - destruct (IH _ Dr) as (vb & w & va & -> & Db & Dw & Da & L). exists (v :: vb), w, va.
    split; [reflexivity|]. split; [constructor; assumption|]. split; [exact Dw|]. split; [exact Da|].
    cbn [length]. rewrite L. reflexivity.
Qed.
Lemma dens_join h vs ws ps qs : dens h vs ps -> dens h ws qs -> dens h (vs ++ ws) (ps ++ qs).
Proof. induction 1; intros D; [exact D|]. cbn. constructor; auto. Qed.
Lemma nth_middle {A} (b : list A) x a : nth_error (b ++ x :: a) (length b) = Some x.
Proof. rewrite nth_error_app2, Nat.sub_diag by lia. reflexivity. Qed.
Lemma cut_middle {A} (b : list A) x a :
  firstn (length b) (b ++ x :: a) ++ skipn (S (length b)) (b ++ x :: a) = b ++ a.
Proof.
  rewrite firstn_app, Nat.sub_diag, firstn_all, firstn_O, app_nil_r. f_equal.
  replace (S (length b)) with (length (b ++ [x])) by (rewrite app_length; cbn; lia).
  change (b ++ x :: a) with (b ++ [x] ++ a). rewrite app_assoc, skipn_app, skipn_all, Nat.sub_diag. reflexivity.
Qed.

Lemma ints_len n : forall z, length (ints_from z n) = n.
Proof. induction n as [|n IH]; intros z; [reflexivity|]. cbn [ints_from length]. rewrite IH. reflexivity. Qed.

(** Storing what is left and returning the item. *)
Lemma back_ok w (m : M hval) item s x q a :
  ordinary s x -> st_scopes s <> [] -> yields m s (fun v s' => den (st_heap s') v q) ->
  den (st_heap s) item a ->
  exists s', (r <- m;; put_back w (XL (LName x [] None)) r item) s = Ok (XR item) s' /\
    chg x s s' /\ var s' x q /\ den (st_heap s') item a.
Proof.
  intros O NS Y D.
  destruct (store_ok m (xret item) s x (XR item) q O NS Y) as (s' & E & C & V); [reflexivity|].
  exists s'. split; [exact E|]. split; [exact C|]. split; [exact V|exact (chg_den _ _ _ _ _ C D)].
Qed.

Lemma pick_items s x items before a after i :
  ordinary s x -> st_scopes s <> [] -> dens (st_heap s) items (before ++ a :: after) ->
  i mod zlen items = Z.of_nat (length before) ->
  exists item s', pick_list (XL (LName x [] None)) items i s = Ok (XR item) s' /\
    chg x s s' /\ var s' x (PList (before ++ after)) /\ den (st_heap s') item a.
Proof.
  intros O NS Ds I. destruct (dens_split _ _ _ _ _ Ds) as (vb & v & va & -> & Db & Dv & Da & L).
  unfold pick_list. rewrite I, Nat2Z.id, <- L, nth_middle, cut_middle.
  assert (Y : yields (rest <- copies (vb ++ va);; new_list rest) s
                (fun u s' => den (st_heap s') u (PList (before ++ after)))).
  { eapply yields_bind; [apply yields_copies, dens_join; eassumption|]. intros vs s1 A1 D1.
    apply yields_new_list. exact D1. }
  destruct (back_ok "PICK" _ v s x _ a O NS Y Dv) as (s' & E & R). exists v, s'.
  split; [|exact R]. rewrite <- E, bind_assoc. reflexivity.
Qed.
Lemma pick_fresh s x a r q :
  ordinary s x -> st_scopes s <> [] -> (forall h, den h r q) ->
  exists item s', (item <- fresh a;; put_back "PICK" (XL (LName x [] None)) r item) s = Ok (XR item) s' /\
    chg x s s' /\ var s' x q /\ den (st_heap s') item a.
Proof.
  intros O NS Dr. destruct (yields_fresh a s) as (v & s1 & E1 & A1 & D1).
  destruct (back_ok "PICK" (mret r) v s1 x q a) as (s' & E & C & R).
  { exact (adv_ordinary _ _ _ A1 O). }
  { rewrite (adv_scopes _ _ A1). exact NS. }
  { apply yields_ret. apply Dr. }
  { exact D1. }
  exists v, s'. rewrite (bind_step _ _ _ _ _ E1). split; [exact E|].
  split; [eapply chg_trans; [apply adv_chg; exact A1|exact C]|exact R].
Qed.

Lemma PICK_ok s x y li si s1 p i a q :
  rval_h y s = Ok (HScal li) s1 -> nth_error (st_heap s1) li = Some (OS si) -> scalar_int si = i ->
  ordinary s1 x -> st_scopes s1 <> [] -> var s1 x p -> picked p i a q ->
  exists item s', PICK (XL (LName x [] None)) y s = Ok (XR item) s' /\
    chg x s1 s' /\ var s' x q /\ den (st_heap s') item a.
Proof.
  intros Ey Ni Ei O NS V P. unfold PICK. rewrite (bind_step _ _ _ _ _ Ey).
  destruct (yields_load_str li si s1 Ni) as (x1 & sx & El & _ & -> & ->).
  rewrite (bind_step _ _ _ _ _ El). cbv zeta. rewrite Ei.
  destruct (get_name_ok s1 x _ O V) as (v & s2 & E2 & A2 & D2 & _). cbn [rval_h].
  rewrite (bind_step _ _ _ _ _ E2).
  pose proof (adv_ordinary _ _ _ A2 O) as O2.
  assert (NS2 : st_scopes s2 <> []) by (rewrite (adv_scopes _ _ A2); exact NS).
  assert (Back : forall m, (exists item s', m s2 = Ok (XR item) s' /\ chg x s2 s' /\ var s' x q /\
             den (st_heap s') item a) ->
     exists item s', m s2 = Ok (XR item) s' /\ chg x s1 s' /\ var s' x q /\ den (st_heap s') item a).
  { intros m (item & s' & E & C & R). exists item, s'. split; [exact E|]. split; [|exact R].
    eapply chg_trans; [apply adv_chg; exact A2|exact C]. }
  apply Back. clear Back.
  destruct P as [i before b after I|i before c after I|i lo u L I|i lo u before b after El' NE I|lo].
  - inversion D2 as [| |l0 items ps0 N Ds| | |]; subst.
    destruct (yields_load_list l0 items s2 N) as (x1 & sx & El2 & _ & -> & ->).
    rewrite (bind_step _ _ _ _ _ El2).
    assert (Q : exists it its, items = it :: its).
    { destruct (dens_split _ _ _ _ _ Ds) as ([|w vb] & w0 & va & -> & _); cbn; eauto. }
    destruct Q as (it & its & ->). apply pick_items; try assumption. rewrite <- I. f_equal.
    unfold zlen. f_equal. exact (dens_length _ _ _ Ds).
  - inversion D2 as [l0 t N| | | | |]; subst.
    destruct (yields_load_str l0 _ s2 N) as (x1 & sx & El2 & _ & -> & ->).
    rewrite (bind_step _ _ _ _ _ El2).
    destruct (before ++ c :: after) as [|d ds] eqn:Et; [destruct before; discriminate|]. rewrite <- Et in *.
    replace (scalar_int si mod zlen (before ++ c :: after)) with (Z.of_nat (length before)) by (symmetry; exact I).
    rewrite Nat2Z.id, nth_middle, cut_middle.
    destruct (yields_fresh (PScal [c]) s2) as (v & s3 & E3 & A3 & D3).
    rewrite (bind_step _ _ _ _ _ E3).
    destruct (back_ok "PICK" (fresh (PScal (before ++ after))) v s3 x (PScal (before ++ after)) (PScal [c]))
      as (s' & E & C & R).
    { exact (adv_ordinary _ _ _ A3 O2). }
    { rewrite (adv_scopes _ _ A3). exact NS2. }
    { apply yields_fresh. }
    { exact D3. }
    exists v, s'. split; [exact E|]. split; [eapply chg_trans; [apply adv_chg; exact A3|exact C]|exact R].
  - inversion D2; subst. cbv zeta.
    change (match lo with Some z => z | None => 0 end) with (start lo).
    change (lower0 lo) with (start lo).
    replace (Z.max 0 (u - start lo)) with (u - start lo) by lia.
    destruct (Z.eqb_spec (u - start lo) 0); [lia|]. rewrite I. cbn [Z.eqb].
    apply pick_fresh; try assumption. intros h. constructor.
  - inversion D2; subst. cbv zeta. change (lower0 lo) with (start lo).
    assert (Lu : Z.of_nat (length (before ++ b :: after)) = u - start lo /\ start lo < u).
    { assert (Hl : length (before ++ b :: after) = Z.to_nat (u - start lo)).
      { inversion El' as [| |lo' u' z Eq Hl]. rewrite map_length, ints_len. reflexivity. }
      rewrite Hl. rewrite app_length in Hl. cbn [length] in Hl. lia. }
    destruct Lu as [Lu Lt].
    replace (Z.max 0 (u - start lo)) with (u - start lo) by lia.
    destruct (Z.eqb_spec (u - start lo) 0); [lia|]. rewrite I.
    destruct (Z.eqb_spec (Z.of_nat (length before)) 0) as [Z0|_]; [destruct before; [contradiction|discriminate]|].
    destruct (yields_iter (HRange lo (Some u)) (PRange lo (Some u)) _ s2 D2 (elems_p_iter _ _ El'))
      as (vs & s3 & E3 & A3 & D3).
    rewrite (bind_step _ _ _ _ _ E3).
    destruct (pick_items s3 x vs before b after (scalar_int si)) as (item & s' & E & C & R).
    { exact (adv_ordinary _ _ _ A3 O2). }
    { rewrite (adv_scopes _ _ A3). exact NS2. }
    { exact D3. }
    { unfold zlen. rewrite (dens_length _ _ _ D3), Lu. exact I. }
    exists item, s'. split; [exact E|]. split; [eapply chg_trans; [apply adv_chg; exact A3|exact C]|exact R].
  - inversion D2; subst. change (lower0 lo) with (start lo).
    match goal with H : scalar_int _ = 0 |- _ => rewrite H | _ => idtac end. cbn [Z.eqb].
    apply pick_fresh; try assumption. intros h. constructor.
Qed.

(** ** The operator *)
Definition pick_op : oper := the_op 2 "PK".
Lemma app_PK a b : app "PK" [a; b] = TApp pick_op [a; b].
Proof. reflexivity. Qed.
Lemma call_PK R a b : call_fun R (o_fun pick_op) [AVal a; AVal b] = PICK a b.
Proof. reflexivity. Qed.

Lemma picked_not_block p i a q : picked p i a q -> is_block p = false.
Proof. destruct 1; reflexivity. Qed.

(** Evaluating the operands: [m] is what remains to be done. *)
Lemma pick_operands s x e p pi i :
  ordinary s x -> var s x p -> is_block p = false -> means s e pi -> index_value pi i ->
  exists y s2 li si s3, adv s s3 /\ rval_h y s2 = Ok (HScal li) s3 /\
    nth_error (st_heap s3) li = Some (OS si) /\ scalar_int si = i /\
    forall r s', PICK (XL (LName x [] None)) y s2 = Ok r s' -> evals s (app "PK" [name x; e]) r s'.
Proof.
  intros O V NB Me Ix. destruct (index_scalar_int _ _ Ix) as (t & -> & Et).
  destruct (evals_lam2 s pick_op (name x) e (XL (LName x [] None)) s p eq_refl) as (s0 & A0 & K).
  { apply evals_name; auto. }
  { apply name_readable; assumption. }
  { exact NB. }
  destruct (means_reads s e _ Me s0 A0) as (y & s1 & Ee & A1 & Rd).
  destruct (K y s1 _ Ee Rd eq_refl) as (s2 & A2 & K2).
  destruct (Rd s2 A2) as (v & s3 & Ey & A3 & D).
  inversion D as [li t0 N| | | | |]; subst.
  exists y, s2, li, t, s3. split; [eauto using adv_trans|]. split; [exact Ey|]. split; [exact N|].
  split; [reflexivity|]. intros r s' E. rewrite app_PK. apply (K2 _ _ 0%nat). rewrite call_PK. exact E.
Qed.

Theorem pick_does s x e p pi i a q :
  ordinary s x -> st_scopes s <> [] -> var s x p ->
  means s e pi -> index_value pi i -> picked p i a q ->
  exists v s', gives s (app "PK" [name x; e]) v s' /\ den (st_heap s') v a /\
    var s' x q /\ changes_only x s s' /\ st_scopes s' <> [].
Proof.
  intros O NS V Me Ix P.
  destruct (pick_operands s x e p pi i O V (picked_not_block _ _ _ _ P) Me Ix)
    as (y & s2 & li & si & s3 & A & Ey & N & Ei & K).
  destruct (PICK_ok s2 x y li si s3 p i a q Ey N Ei) as (item & s' & E & C & V' & D); try assumption.
  { exact (adv_ordinary _ _ _ A O). }
  { rewrite (adv_scopes _ _ A). exact NS. }
  { exact (adv_var _ _ _ _ A V). }
  assert (C0 : chg x s s') by (eapply chg_trans; [apply adv_chg; exact A|exact C]).
  exists item, s'. split; [apply gives_evals; exists (XR item), s'; split; [exact (K _ _ E)|reflexivity]|].
  split; [exact D|]. split; [exact V'|]. split; [apply moved_changes; exact C0|exact (chg_scopes _ _ _ C0 NS)].
Qed.

(** Every sequence with items allows it. *)
Lemma mod_place {A} (l : list A) i : l <> [] ->
  exists before a after, l = before ++ a :: after /\ i mod Z.of_nat (length l) = Z.of_nat (length before).
Proof.
  intros NE. assert (L : 0 < Z.of_nat (length l)) by (destruct l; [contradiction|cbn [length]; lia]).
  pose proof (Z.mod_pos_bound i _ L) as B.
  destruct (nth_error l (Z.to_nat (i mod Z.of_nat (length l)))) as [a|] eqn:E.
  2: { apply nth_error_None in E. lia. }
  destruct (nth_error_split _ _ E) as (b & c & -> & Hb). exists b, a, c. split; [reflexivity|].
  rewrite Hb. lia.
Qed.
Theorem pick_exists p l i :
  elems p l -> l <> [] ->
  exists before a after q, picked p i a q /\ l = before ++ a :: after /\ elems q (before ++ after) /\
    i mod Z.of_nat (length l) = Z.of_nat (length before).
Proof.
  intros E NE. destruct (mod_place l i NE) as (before & a & after & El & I).
  destruct E as [t|l|lo u z].
  - destruct t as [|c0 t0]; [contradiction|]. rewrite map_length in I.
    destruct (mod_place (c0 :: t0) i ltac:(discriminate)) as (b & c & d & Et & It).
    rewrite Et in *. exists (map (fun c => PScal [c]) b), (PScal [c]), (map (fun c => PScal [c]) d), (PScal (b ++ d)).
    split; [constructor; exact It|]. split; [rewrite map_app; reflexivity|].
    split; [rewrite <- map_app; constructor|]. rewrite !map_length. exact It.
  - subst l. exists before, a, after, (PList (before ++ after)).
    split; [constructor; exact I|]. split; [reflexivity|]. split; [constructor|exact I].
  - change z with (start lo) in *. clear z.
    assert (Ll : Z.of_nat (Z.to_nat (u - start lo)) = u - start lo /\ start lo < u).
    { destruct (Z.to_nat (u - start lo)) eqn:Q; [contradiction|]. lia. }
    destruct Ll as [Ll Lt]. rewrite map_length, ints_len, Ll in I.
    assert (El' : elems (PRange lo (Some u)) (before ++ a :: after)) by (rewrite <- El; constructor).
    destruct before as [|b0 before].
    + exists [], a, after, (PRange (Some (start lo + 1)) (Some u)).
      assert (Q : a = scal_Z (start lo) /\ after = map (fun i => PScal (str_of_Z i)) (ints_from (start lo + 1) (Z.to_nat (u - (start lo + 1))))).
      { replace (Z.to_nat (u - start lo)) with (S (Z.to_nat (u - (start lo + 1)))) in El by lia.
        cbn [ints_from map app] in El. injection El as <- <-. split; reflexivity. }
      destruct Q as [-> ->]. split; [constructor; [exact Lt|exact I]|]. split; [exact El|].
      split; [exact (elems_range (Some (start lo + 1)) u)|]. rewrite map_length, ints_len, Ll. exact I.
    + exists (b0 :: before), a, after, (PList ((b0 :: before) ++ after)).
      split; [apply picked_inside; [exact El'|discriminate|exact I]|]. split; [exact El|].
      split; [constructor|]. rewrite map_length, ints_len, Ll. exact I.
Qed.

(** Nothing can be taken from an empty sequence. *)
Theorem pick_empty s x e p pi i :
  ordinary s x -> var s x p -> means s e pi -> index_value pi i -> elems p [] ->
  exists s', gives s (app "PK" [name x; e]) HNil s' /\ only_adds s s'.
Proof.
  intros O V Me Ix El.
  destruct (pick_operands s x e p pi i O V) as (y & s2 & li & si & s3 & A & Ey & N & Ei & K); try assumption.
  { inversion El; reflexivity. }
  destruct (get_name_ok s3 x _ (adv_ordinary _ _ _ A O) (adv_var _ _ _ _ A V)) as (v & s4 & E4 & A4 & D4 & _).
  assert (E : PICK (XL (LName x [] None)) y s2 = xwarn "PICK" s4).
  { unfold PICK. rewrite (bind_step _ _ _ _ _ Ey).
    destruct (yields_load_str li si s3 N) as (x1 & sx & El1 & _ & -> & ->).
    rewrite (bind_step _ _ _ _ _ El1). cbv zeta. cbn [rval_h]. rewrite (bind_step _ _ _ _ _ E4).
    inversion El as [t Hp Hl|Hp|lo u z Hp Hl]; subst p.
    - destruct t; [|discriminate]. inversion D4 as [l0 t0 N0| | | | |]; subst.
      destruct (yields_load_str l0 _ s4 N0) as (x1 & sx & El2 & _ & -> & ->).
      rewrite (bind_step _ _ _ _ _ El2). reflexivity.
    - inversion D4 as [| |l0 items ps0 N0 Ds| | |]; subst. inversion Ds; subst.
      destruct (yields_load_list l0 [] s4 N0) as (x1 & sx & El2 & _ & -> & ->).
      rewrite (bind_step _ _ _ _ _ El2). reflexivity.
    - inversion D4; subst. cbv zeta. change z with (lower0 lo) in Hl. 
      apply (f_equal (@length _)) in Hl. rewrite map_length, ints_len in Hl. cbn [length] in Hl.
      replace (Z.max 0 (u - lower0 lo)) with 0 by lia. reflexivity. }
  destruct (yields_warn "PICK" s4) as (r & s5 & E5 & A5 & _).
  assert (E6 : xwarn "PICK" s4 = Ok (XR HNil) s5).
  { unfold xwarn. rewrite (bind_step _ _ _ _ _ E5). reflexivity. }
  exists s5. split.
  - apply gives_evals. exists (XR HNil), s5. split; [|reflexivity]. apply K. rewrite E. exact E6.
  - apply adv_only_adds. eauto using adv_trans.
Qed.

(** Whatever the indices, the items taken and those left are the items there
    were. *)
Theorem pick_order x s outs s2 q :
  pick_use x s outs s2 -> ordinary s x -> st_scopes s <> [] -> var s x (PList q) ->
  (length outs <= length q)%nat ->
  exists rest, var s2 x (PList rest) /\ Permutation q (outs ++ rest).
Proof.
  intros U. revert q. induction U as [s|s e pi i w p s1 outs s2 Me Ix G D U IH]; intros q O NS V L.
  - exists q. split; [exact V|apply Permutation_refl].
  - destruct q as [|q0 q1]; [cbn [length] in L; lia|].
    destruct (pick_exists (PList (q0 :: q1)) (q0 :: q1) i (elems_list _) ltac:(discriminate))
      as (before & a & after & r & P & Eq & Er & _).
    assert (Hr : r = PList (before ++ after)) by (inversion P; subst; inversion Er; reflexivity). subst r.
    destruct (pick_does s x e _ pi i a _ O NS V Me Ix P) as (w' & s1' & G' & D' & V1 & _ & NS1).
    destruct (gives_same _ _ _ _ _ _ G G') as [<- <-].
    pose proof (den_fun _ _ _ _ D D') as ->.
    destruct (IH (before ++ after)) as (rest & V2 & Pm).
    { exact (io_ordinary _ _ _ _ (gives_io _ _ _ _ G) O). }
    { exact NS1. }
    { exact V1. }
    { rewrite Eq in L. rewrite app_length in *. cbn [length] in L. lia. }
    exists rest. split; [exact V2|]. rewrite Eq. cbn [app].
    eapply Permutation_trans; [apply Permutation_sym, Permutation_middle|]. constructor. exact Pm.
Qed.
