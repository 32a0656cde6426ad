(** * Pattern.asRegex: the bracket around a regex and the shifted references *)

From Coq Require Import String List NArith ZArith Bool Arith Lia.
From Verif Require Import PyStr PyNum UserRe ReSound ReScan ReParse.
Import ListNotations.
Local Open Scope list_scope.

Fixpoint shift (r : rx) : rx :=
  match r with
  | XSeq a b => XSeq (shift a) (shift b)
  | XAlt a b => XAlt (shift a) (shift b)
  | XRep g lo hi a => XRep g lo hi (shift a)
  | XGrp n a => XGrp (S n) (shift a)
  | XRef n => XRef (S n)
  | r => r
  end.

(** ** What the parser leaves over is an end of the text, and groups are counted *)

Definition tail_of (s s' : str) : Prop := exists p, s = p ++ s'.
Lemma tail_refl s : tail_of s s.
Proof. exists []. reflexivity. Qed.
Lemma tail_cons c s s' : tail_of s s' -> tail_of (c :: s) s'.
Proof. intros [p ->]. exists (c :: p). reflexivity. Qed.
Lemma tail_trans a b c : tail_of a b -> tail_of b c -> tail_of a c.
Proof. intros [p ->] [q ->]. exists (p ++ q). rewrite app_assoc. reflexivity. Qed.
Lemma tail_uncons c s s' : tail_of s (c :: s') -> tail_of s s'.
Proof. intros [p ->]. exists (p ++ [c]). rewrite <- app_assoc. reflexivity. Qed.
Lemma tail_skipn n s : tail_of s (skipn n s).
Proof. exists (firstn n s). symmetry. apply firstn_skipn. Qed.
Lemma tail_forallb p s s' : tail_of s s' -> forallb p s = true -> forallb p s' = true.
Proof. intros [q ->] H. rewrite forallb_app in H. apply andb_prop in H. apply H. Qed.
Lemma tail_length s s' : tail_of s s' -> length s' <= length s.
Proof. intros [p ->]. rewrite app_length. lia. Qed.

Lemma digits_tail s : forall acc n s', digits_from acc s = (n, s') -> tail_of s s'.
Proof.
  induction s as [|c s IH]; intros acc n s' E; cbn [digits_from] in E.
  - injection E as _ <-. apply tail_refl.
  - destruct (is_ascii_digit c); [apply tail_cons; eapply IH; exact E|].
    injection E as _ <-. apply tail_refl.
Qed.
Lemma lazy_tail lo hi s q s' : lazy_mark lo hi s = Some (q, s') -> tail_of s s'.
Proof.
  intros E. rewrite lazy_mark_eq in E. cbv zeta in E. destruct s as [|c s].
  - injection E as _ <-. apply tail_refl.
  - destruct (N.eqb c 63).
    + destruct s as [|d s]; [injection E as _ <-; apply tail_cons, tail_refl|].
      destruct (existsb (N.eqb d) (s_ "*+?{")); [discriminate|].
      injection E as _ <-. apply tail_cons, tail_refl.
    + destruct (existsb (N.eqb c) (s_ "*+?{")); [discriminate|]. injection E as _ <-. apply tail_refl.
Qed.
Lemma repetition_tail s q s' : repetition s = Some (q, s') -> tail_of s s'.
Proof.
  intros E. rewrite repetition_eq in E. destruct s as [|c s]; [injection E as _ <-; apply tail_refl|].
  destruct (N.eqb c 42); [apply tail_cons; eapply lazy_tail; exact E|].
  destruct (N.eqb c 43); [apply tail_cons; eapply lazy_tail; exact E|].
  destruct (N.eqb c 63); [apply tail_cons; eapply lazy_tail; exact E|].
  destruct (N.eqb c 123); [|injection E as _ <-; apply tail_refl].
  apply tail_cons. unfold brace in E.
  match type of E with (if ?b then _ else _) = _ => destruct b; [|discriminate] end.
  destruct (digits_from 0 s) as [lo s1] eqn:D. apply digits_tail in D.
  destruct s1 as [|d s2]; [discriminate|]. apply tail_uncons in D. eapply tail_trans; [exact D|].
  destruct (N.eqb d 125); [eapply lazy_tail; exact E|]. destruct (N.eqb d 44); [|discriminate].
  destruct (digits_from 0 s2) as [hi s3] eqn:D2. apply digits_tail in D2.
  destruct s3 as [|e s4]; [discriminate|]. apply tail_uncons in D2. eapply tail_trans; [exact D2|].
  destruct (N.eqb e 125); [|discriminate]. destruct (starts_digit s2); [|eapply lazy_tail; exact E].
  destruct (hi <? lo); [discriminate|eapply lazy_tail; exact E].
Qed.
Lemma set_member_tail f s a s' : set_member f s = Some (a, s') -> tail_of s s'.
Proof.
  intros E. rewrite set_member_eq in E. destruct s as [|c s]; [discriminate|]. apply tail_cons.
  destruct (N.eqb c 92); [|injection E as _ <-; apply tail_refl].
  destruct s as [|d s]; [discriminate|]. apply tail_cons.
  destruct (class_escape f d); [injection E as _ <-; apply tail_refl|].
  destruct (letter_escape d); [injection E as _ <-; apply tail_refl|].
  destruct (N.eqb d 98); [injection E as _ <-; apply tail_refl|].
  destruct (ascii_alnum d); [discriminate|injection E as _ <-; apply tail_refl].
Qed.
Lemma set_members_tail f : forall n first s p s', set_members n f first s = Some (p, s') -> tail_of s s'.
Proof.
  induction n as [|n IH]; intros first s p s' E; [discriminate|]. rewrite set_members_eq in E.
  destruct s as [|c0 s0]; [discriminate|].
  destruct (N.eqb c0 93 && negb first); [injection E as _ <-; apply tail_cons, tail_refl|].
  destruct (set_member f (c0 :: s0)) as [[a s1]|] eqn:M; [|discriminate].
  apply set_member_tail in M. eapply tail_trans; [exact M|]. cbv zeta in E.
  assert (Si : forall x, match set_members n f false s1 with
            | Some (p, s') => Some (match a with inl c => fun x => N.eqb c x || p x | inr q => fun x => q x || p x end, s')
            | None => None end = Some x -> tail_of s1 (snd x)).
  { intros x Ex. destruct (set_members n f false s1) as [[p1 s2]|] eqn:R; [|discriminate].
    injection Ex as <-. eapply IH. exact R. }
  destruct s1 as [|c1 [|c2 s2]]; [exact (Si (p, s') E)|exact (Si (p, s') E)|].
  destruct (N.eqb c1 45); [|exact (Si (p, s') E)]. destruct (N.eqb c2 93); [exact (Si (p, s') E)|].
  destruct a as [lo|]; [|discriminate].
  destruct (set_member f (c2 :: s2)) as [[[hi|] s3]|] eqn:M2; try discriminate.
  apply set_member_tail in M2. apply tail_cons. eapply tail_trans; [exact M2|].
  destruct (N.ltb hi lo); [discriminate|].
  destruct (set_members n f false s3) as [[p1 s4]|] eqn:R; [|discriminate].
  injection E as _ <-. eapply IH. exact R.
Qed.
Lemma parse_set_tail f s a s' : parse_set f s = Some (a, s') -> tail_of s s'.
Proof.
  intros E. rewrite parse_set_eq in E. destruct s as [|c s].
  - rewrite set_members_eq in E. discriminate.
  - destruct (N.eqb c 94).
    + destruct (set_members (S (length s)) f true s) as [[p r]|] eqn:M; [|discriminate].
      injection E as _ <-. apply tail_cons. eapply set_members_tail. exact M.
    + destruct (set_members (S (length (c :: s))) f true (c :: s)) as [[p r]|] eqn:M; [|discriminate].
      injection E as _ <-. eapply set_members_tail. exact M.
Qed.
Lemma parse_escape_tail f st s a s' : parse_escape f st s = Some (a, s') -> tail_of s s'.
Proof.
  intros E. unfold parse_escape in E. destruct s as [|c s]; [discriminate|]. apply tail_cons.
  destruct (is_ascii_digit c).
  - destruct (N.eqb c 48); [discriminate|]. cbv zeta in E. destruct s as [|d s].
    + match type of E with (if ?b then _ else _) = _ => destruct b; [|discriminate] end.
      injection E as _ <-. apply tail_refl.
    + destruct (is_ascii_digit d);
        match type of E with (if ?b then _ else _) = _ => destruct b; [|discriminate] end;
        injection E as _ <-; [apply tail_cons|]; apply tail_refl.
  - destruct (class_escape f c); [injection E as _ <-; apply tail_refl|].
    destruct (anchor_escape f c); [injection E as _ <-; apply tail_refl|].
    destruct (letter_escape c); [injection E as _ <-; apply tail_refl|].
    destruct (is_ascii_letter c); [discriminate|injection E as _ <-; apply tail_refl].
Qed.

Definition counted (st : pstate) : Prop := Forall (fun n => 1 <= n <= fst st) (snd st).
Lemma counted_le (g g' : nat) (cl : list nat) : g <= g' -> counted (g, cl) -> counted (g', cl).
Proof. unfold counted. intros L. apply Forall_impl. cbn [fst]. lia. Qed.

Lemma parse_tail f : forall n,
  (forall st s x st' s', parse_alt n f st s = Some (x, st', s') ->
     tail_of s s' /\ fst st <= fst st' /\ (counted st -> counted st'))
  /\ (forall st s x st' s', parse_seq n f st s = Some (x, st', s') ->
     tail_of s s' /\ fst st <= fst st' /\ (counted st -> counted st'))
  /\ (forall st s x st' s', parse_atom n f st s = Some (x, st', s') ->
     tail_of s s' /\ fst st <= fst st' /\ (counted st -> counted st')).
Proof.
  induction n as [|n (IHal & IHse & IHat)]; [split; [|split]; intros; discriminate|].
  split; [|split]; intros st s x st' s' E.
  - rewrite parse_alt_eq in E. destruct (parse_seq n f st s) as [[[a st1] s1]|] eqn:Es; [|discriminate].
    destruct (IHse _ _ _ _ _ Es) as (T1 & L1 & C1).
    destruct s1 as [|c s1]; [injection E as _ <- <-; auto|].
    destruct (N.eqb c 124); [|injection E as _ <- <-; auto].
    destruct (parse_alt n f st1 s1) as [[[b st2] s2]|] eqn:Ea; [|discriminate].
    destruct (IHal _ _ _ _ _ Ea) as (T2 & L2 & C2). injection E as _ <- <-.
    split; [eapply tail_trans; [eapply tail_uncons; exact T1|exact T2]|]. split; [lia|auto].
  - rewrite parse_seq_eq in E. destruct s as [|c s].
    { injection E as _ <- <-. split; [apply tail_refl|]. split; [lia|auto]. }
    destruct (N.eqb c 41 || N.eqb c 124).
    { injection E as _ <- <-. split; [apply tail_refl|]. split; [lia|auto]. }
    destruct (parse_atom n f st (c :: s)) as [[[a st1] s1]|] eqn:Ea; [|discriminate].
    destruct (IHat _ _ _ _ _ Ea) as (T1 & L1 & C1).
    destruct (repetition s1) as [[q s2]|] eqn:Eq; [|discriminate]. apply repetition_tail in Eq.
    destruct (repeated a q) as [a'|]; [|discriminate].
    destruct (parse_seq n f st1 s2) as [[[b st2] s3]|] eqn:Es; [|discriminate].
    destruct (IHse _ _ _ _ _ Es) as (T2 & L2 & C2). injection E as _ <- <-.
    split; [eapply tail_trans; [exact T1|eapply tail_trans; [exact Eq|exact T2]]|]. split; [lia|auto].
  - rewrite parse_atom_eq in E. destruct s as [|c s]; [discriminate|].
    assert (Plain : forall w : rx, Some (w, st, s) = Some (x, st', s') ->
      tail_of (c :: s) s' /\ fst st <= fst st' /\ (counted st -> counted st')).
    { intros w Q. injection Q as _ <- <-. split; [apply tail_cons, tail_refl|]. split; [lia|auto]. }
    destruct (N.eqb c 40).
    + destruct (startswith (s_ "?:") s) eqn:S1.
      * destruct (parse_alt n f st (skipn 2 s)) as [[[a st1] [|d s1]]|] eqn:Ea; try discriminate.
        destruct (IHal _ _ _ _ _ Ea) as (T1 & L1 & C1). destruct (N.eqb d 41); [|discriminate].
        injection E as _ <- <-. split; [|split; [lia|auto]].
        apply tail_cons. eapply tail_trans; [apply (tail_skipn 2)|]. eapply tail_uncons. exact T1.
      * cbv zeta in E.
        assert (B : forall s1,
          (if startswith group_name s then Some (skipn (length group_name) s)
            else match s with d :: _ => if N.eqb d 63 then None else Some s | [] => Some s end) = Some s1 ->
          tail_of s s1).
        { intros s1 E1. destruct (startswith group_name s); [injection E1 as <-; apply (tail_skipn 7)|].
          destruct s as [|d s]; [injection E1 as <-; apply tail_refl|].
          destruct (N.eqb d 63); [discriminate|]. injection E1 as <-. apply tail_refl. }
        match type of E with match ?e with _ => _ end = _ => destruct e as [s1|] eqn:Eb; [|discriminate] end.
        specialize (B s1 eq_refl).
        destruct (parse_alt n f (S (fst st), snd st) s1) as [[[a [m cl]] [|d s2]]|] eqn:Ea; try discriminate.
        destruct (IHal _ _ _ _ _ Ea) as (T1 & L1 & C1). cbn [fst] in L1.
        destruct (N.eqb d 41); [|discriminate]. injection E as _ <- <-. cbn [fst].
        split; [|split; [lia|]].
        -- apply tail_cons. eapply tail_trans; [exact B|]. eapply tail_uncons. exact T1.
        -- intros C. destruct st as [g cl0]. cbn [fst snd] in *.
           specialize (C1 (counted_le _ _ _ (Nat.le_succ_diag_r g) C)).
           constructor; [cbn [fst]; lia|exact C1].
    + destruct (N.eqb c 91).
      { destruct (parse_set f s) as [[a s1]|] eqn:Ep; [|discriminate]. apply parse_set_tail in Ep.
        injection E as _ <- <-. split; [apply tail_cons; exact Ep|]. split; [lia|auto]. }
      destruct (N.eqb c 92).
      { destruct (parse_escape f st s) as [[a s1]|] eqn:Ep; [|discriminate]. apply parse_escape_tail in Ep.
        injection E as _ <- <-. split; [apply tail_cons; exact Ep|]. split; [lia|auto]. }
      destruct (N.eqb c 46); [eapply Plain; exact E|].
      destruct (N.eqb c 94); [eapply Plain; exact E|].
      destruct (N.eqb c 36); [eapply Plain; exact E|].
      destruct (existsb (N.eqb c) (s_ "*+?{")); [discriminate|eapply Plain; exact E].
Qed.

(** ** Shifting the references in the text *)

Notation B := (bump_refs false).

Lemma B_cons c s : N.eqb c 92 = false -> B (c :: s) = c :: B s.
Proof. intros E. cbn [bump_refs]. rewrite E. reflexivity. Qed.
Definition ref_digit (c : char) : bool := is_ascii_digit c && negb (N.eqb c 48).
Lemma B_esc c s : ref_digit c = false -> B (92%N :: c :: s) = 92%N :: c :: B s.
Proof.
  intros E. cbn [bump_refs negb]. change (N.eqb 92 92) with true. cbv iota.
  destruct (N.eqb_spec c 92) as [->|Ne]; [reflexivity|].
  unfold ref_digit in E. cbn [andb]. rewrite E. reflexivity.
Qed.
Lemma B_head c s : exists u, B (c :: s) = c :: u.
Proof.
  destruct (N.eqb c 92) eqn:E; [|eexists; apply B_cons; exact E].
  apply N.eqb_eq in E. subst c. eexists. reflexivity.
Qed.
Lemma B_nil : B [] = [].
Proof. reflexivity. Qed.

Definition okd (c : char) : bool := negb (is_digit c) || is_ascii_digit c.
Definition ten : list char := [48; 49; 50; 51; 52; 53; 54; 55; 56; 57]%N.
Lemma ascii_digit_ten c : is_ascii_digit c = true -> In c ten.
Proof.
  intros E. unfold is_ascii_digit in E. apply andb_prop in E. destruct E as [E1 E2].
  apply N.leb_le in E1. apply N.leb_le in E2.
  assert (c = 48 \/ c = 49 \/ c = 50 \/ c = 51 \/ c = 52 \/ c = 53 \/ c = 54 \/ c = 55
          \/ c = 56 \/ c = 57)%N by lia.
  unfold ten. cbn [In]. intuition auto.
Qed.
Lemma ref_digit_nine c : ref_digit c = true -> In c (tl ten).
Proof.
  intros E. unfold ref_digit in E. apply andb_prop in E. destruct E as [E1 E2].
  destruct (ascii_digit_ten c E1) as [<-|I]; [discriminate|exact I].
Qed.
Lemma okd_digit d : okd d = true -> is_digit d = is_ascii_digit d.
Proof.
  unfold okd. destruct (is_digit d) eqn:E; cbn [negb orb]; [auto|]. intros _.
  destruct (is_ascii_digit d) eqn:E2; [|reflexivity]. exfalso. apply ascii_digit_ten in E2.
  unfold ten in E2. cbn [In] in E2.
  repeat (destruct E2 as [<-|E2]; [vm_compute in E; discriminate|]). contradiction.
Qed.
Lemma bump_one c : ref_digit c = true -> 1 <= length (bump c None).
Proof.
  intros E. apply ref_digit_nine in E. cbn [ten tl In] in E.
  repeat (destruct E as [<-|E]; [vm_compute; lia|]). contradiction.
Qed.
Lemma bump_two c d : ref_digit c = true -> is_ascii_digit d = true -> length (bump c (Some d)) >= 2.
Proof.
  intros E F. apply ref_digit_nine in E. apply ascii_digit_ten in F.
  assert (Q : forallb (fun c => forallb (fun d => Nat.leb 2 (length (bump c (Some d)))) ten) (tl ten) = true)
    by (vm_compute; reflexivity).
  rewrite forallb_forall in Q. specialize (Q c E). rewrite forallb_forall in Q. specialize (Q d F).
  apply Nat.leb_le in Q. exact Q.
Qed.
Lemma B_grows : forall n s odd, length s <= n -> forallb okd s = true ->
  length s <= length (bump_refs odd s).
Proof.
  induction n as [|n IH]; intros s odd L F; [destruct s; cbn [length] in *; lia|].
  destruct s as [|c s]; [cbn; lia|]. cbn [length forallb] in L, F. apply andb_prop in F. destruct F as [_ F].
  cbn [bump_refs]. destruct (N.eqb c 92); [cbn [length]; specialize (IH s (negb odd) ltac:(lia) F); lia|].
  destruct (odd && is_ascii_digit c && negb (N.eqb c 48)) eqn:R.
  - assert (Rc : ref_digit c = true) by (destruct odd; [exact R|discriminate]).
    destruct s as [|d s]; [cbn [length]; pose proof (bump_one c Rc); lia|].
    cbn [length forallb] in L, F |- *. pose proof F as F0. apply andb_prop in F. destruct F as [Fd F].
    rewrite (okd_digit d Fd). destruct (is_ascii_digit d) eqn:Ed.
    + rewrite app_length. specialize (IH s false ltac:(lia) F). pose proof (bump_two c d Rc Ed). lia.
    + rewrite app_length. specialize (IH (d :: s) false ltac:(cbn [length]; lia) F0).
      pose proof (bump_one c Rc). cbn [length] in IH. lia.
  - cbn [length]. specialize (IH s false ltac:(lia) F). lia.
Qed.

Lemma B_digits : forall s acc n s', digits_from acc s = (n, s') -> digits_from acc (B s) = (n, B s').
Proof.
  induction s as [|c s IH]; intros acc n s' E; cbn [digits_from] in E.
  - injection E as <- <-. reflexivity.
  - destruct (is_ascii_digit c) eqn:D.
    + rewrite B_cons. 2:{ destruct (N.eqb_spec c 92) as [->|]; [discriminate|reflexivity]. }
      cbn [digits_from]. rewrite D. apply IH. exact E.
    + injection E as <- <-. destruct (B_head c s) as [u Eu]. rewrite Eu. cbn [digits_from].
      rewrite D. reflexivity.
Qed.
Lemma B_starts_digit s : starts_digit (B s) = starts_digit s.
Proof. destruct s as [|c s]; [reflexivity|]. destruct (B_head c s) as [u ->]. reflexivity. Qed.
Lemma B_lazy lo hi s q s' : lazy_mark lo hi s = Some (q, s') -> lazy_mark lo hi (B s) = Some (q, B s').
Proof.
  intros E. rewrite lazy_mark_eq in *. cbv zeta in *. destruct s as [|c s].
  - injection E as <- <-. reflexivity.
  - destruct (N.eqb_spec c 63) as [->|Ne].
    + rewrite B_cons by reflexivity. change (N.eqb 63 63) with true. cbv iota.
      destruct s as [|d s]; [injection E as <- <-; reflexivity|].
      destruct (B_head d s) as [u Eu]. rewrite Eu.
      destruct (existsb (N.eqb d) (s_ "*+?{")); [discriminate|]. injection E as <- <-.
      rewrite Eu. reflexivity.
    + destruct (B_head c s) as [u Eu]. rewrite Eu.
      destruct (N.eqb_spec c 63); [contradiction|].
      destruct (existsb (N.eqb c) (s_ "*+?{")); [discriminate|]. injection E as <- <-.
      rewrite Eu. reflexivity.
Qed.
Lemma B_brace s q s' : brace s = Some (q, s') -> brace (B s) = Some (q, B s').
Proof.
  intros E. unfold brace in *. rewrite B_starts_digit.
  replace (match B s with c :: _ => N.eqb c 44 | [] => false end)
    with (match s with c :: _ => N.eqb c 44 | [] => false end)
    by (destruct s as [|c s]; [reflexivity|destruct (B_head c s) as [u ->]; reflexivity]).
  match goal with |- (if ?b then _ else _) = _ => destruct b; [|discriminate] end.
  destruct (digits_from 0 s) as [lo s1] eqn:D. rewrite (B_digits _ _ _ _ D).
  destruct s1 as [|d s2]; [discriminate|].
  destruct (N.eqb_spec d 125) as [->|N1].
  { rewrite B_cons by reflexivity. change (N.eqb 125 125) with true. apply B_lazy. exact E. }
  destruct (N.eqb_spec d 44) as [->|N2]; [|discriminate].
  rewrite B_cons by reflexivity. change (N.eqb 44 125) with false. change (N.eqb 44 44) with true. cbv iota.
  destruct (digits_from 0 s2) as [hi s3] eqn:D2. rewrite (B_digits _ _ _ _ D2).
  destruct s3 as [|e s4]; [discriminate|]. rewrite B_starts_digit.
  destruct (N.eqb_spec e 125) as [->|N3]; [|discriminate].
  rewrite B_cons by reflexivity. change (N.eqb 125 125) with true. cbv iota.
  destruct (starts_digit s2); [|apply B_lazy; exact E].
  destruct (hi <? lo); [discriminate|apply B_lazy; exact E].
Qed.
Lemma B_repetition s q s' : repetition s = Some (q, s') -> repetition (B s) = Some (q, B s').
Proof.
  intros E. rewrite repetition_eq in *. destruct s as [|c s]; [injection E as <- <-; reflexivity|].
  destruct (N.eqb_spec c 42) as [->|N1].
  { rewrite B_cons by reflexivity. change (N.eqb 42 42) with true. apply B_lazy. exact E. }
  destruct (N.eqb_spec c 43) as [->|N2].
  { rewrite B_cons by reflexivity. change (N.eqb 43 42) with false. change (N.eqb 43 43) with true.
    apply B_lazy. exact E. }
  destruct (N.eqb_spec c 63) as [->|N3].
  { rewrite B_cons by reflexivity. change (N.eqb 63 42) with false. change (N.eqb 63 43) with false.
    change (N.eqb 63 63) with true. apply B_lazy. exact E. }
  destruct (N.eqb_spec c 123) as [->|N4].
  { rewrite B_cons by reflexivity. change (N.eqb 123 42) with false. change (N.eqb 123 43) with false.
    change (N.eqb 123 63) with false. change (N.eqb 123 123) with true. apply B_brace. exact E. }
  injection E as <- <-. destruct (B_head c s) as [u Eu]. rewrite Eu.
  apply N.eqb_neq in N1, N2, N3, N4. rewrite N1, N2, N3, N4. reflexivity.
Qed.
Lemma class_not_ref f c p : class_escape f c = Some p -> ref_digit c = false.
Proof.
  intros E. destruct (ref_digit c) eqn:R; [|reflexivity]. exfalso.
  apply ref_digit_nine in R. cbn [ten tl In] in R.
  repeat (destruct R as [<-|R]; [discriminate E|]). contradiction.
Qed.
Lemma letter_not_ref c d : letter_escape c = Some d -> ref_digit c = false.
Proof.
  intros E. destruct (ref_digit c) eqn:R; [|reflexivity]. exfalso.
  apply ref_digit_nine in R. cbn [ten tl In] in R.
  repeat (destruct R as [<-|R]; [discriminate E|]). contradiction.
Qed.
Lemma B_set_member f s a s' : set_member f s = Some (a, s') -> set_member f (B s) = Some (a, B s').
Proof.
  intros E. rewrite set_member_eq in E. destruct s as [|c s]; [discriminate|].
  destruct (N.eqb c 92) eqn:Ec.
  - apply N.eqb_eq in Ec. subst c. destruct s as [|d s]; [discriminate|].
    assert (R : ref_digit d = false).
    { destruct (class_escape f d) eqn:E1; [eapply class_not_ref; exact E1|].
      destruct (letter_escape d) eqn:E2; [eapply letter_not_ref; exact E2|].
      destruct (N.eqb d 98) eqn:E3; [apply N.eqb_eq in E3; subst d; reflexivity|].
      destruct (ascii_alnum d) eqn:E4; [discriminate|].
      destruct (ref_digit d) eqn:R; [|reflexivity]. exfalso.
      apply ref_digit_nine in R. cbn [ten tl In] in R.
      repeat (destruct R as [<-|R]; [discriminate E4|]). contradiction. }
    rewrite (B_esc _ _ R), set_member_eq. change (N.eqb 92 92) with true. cbv iota.
    destruct (class_escape f d); [injection E as <- <-; reflexivity|].
    destruct (letter_escape d); [injection E as <- <-; reflexivity|].
    destruct (N.eqb d 98); [injection E as <- <-; reflexivity|].
    destruct (ascii_alnum d); [discriminate|injection E as <- <-; reflexivity].
  - rewrite (B_cons _ _ Ec), set_member_eq, Ec. injection E as <- <-. reflexivity.
Qed.
Lemma B_set_members f : forall n first s p s', set_members n f first s = Some (p, s') ->
  forall n', n <= n' -> set_members n' f first (B s) = Some (p, B s').
Proof.
  induction n as [|n IH]; intros first s p s' E n' L; [discriminate|].
  destruct n' as [|n']; [lia|]. apply le_S_n in L. rewrite set_members_eq in *.
  destruct s as [|c0 s0]; [discriminate|]. destruct (B_head c0 s0) as [u0 Eu0]. rewrite Eu0.
  destruct (N.eqb c0 93 && negb first) eqn:Q.
  { apply andb_prop in Q. destruct Q as [Q _]. apply N.eqb_eq in Q. subst c0.
    rewrite B_cons in Eu0 by reflexivity. injection Eu0 as <-. injection E as <- <-. reflexivity. }
  rewrite <- Eu0.
  destruct (set_member f (c0 :: s0)) as [[a s1]|] eqn:M; [|discriminate].
  rewrite (B_set_member _ _ _ _ M). cbv zeta in *.
  assert (Si : forall x, match set_members n f false s1 with
            | Some (p, s') => Some (match a with inl c => fun x => N.eqb c x || p x | inr q => fun x => q x || p x end, s')
            | None => None end = Some x ->
            match set_members n' f false (B s1) with
            | Some (p, s') => Some (match a with inl c => fun x => N.eqb c x || p x | inr q => fun x => q x || p x end, s')
            | None => None end = Some (fst x, B (snd x))).
  { intros x Ex. destruct (set_members n f false s1) as [[p1 s2]|] eqn:R; [|discriminate].
    rewrite (IH _ _ _ _ R n' L). injection Ex as <-. reflexivity. }
  destruct s1 as [|c1 s1].
  { exact (Si (p, s') E). }
  destruct (N.eqb c1 45) eqn:Q1.
  - apply N.eqb_eq in Q1. subst c1. rewrite B_cons in * by reflexivity.
    destruct s1 as [|c2 s2]; [exact (Si (p, s') E)|].
    destruct (B_head c2 s2) as [u2 Eu2]. rewrite Eu2 in *. change (N.eqb 45 45) with true in *. cbv iota in *.
    destruct (N.eqb c2 93); [exact (Si (p, s') E)|].
    destruct a as [lo|]; [|discriminate].
    destruct (set_member f (c2 :: s2)) as [[[hi|] s3]|] eqn:M2; try discriminate.
    rewrite <- Eu2, (B_set_member _ _ _ _ M2).
    destruct (N.ltb hi lo); [discriminate|].
    destruct (set_members n f false s3) as [[p1 s4]|] eqn:R; [|discriminate].
    rewrite (IH _ _ _ _ R n' L). injection E as <- <-. reflexivity.
  - destruct (B_head c1 s1) as [u1 Eu1]. rewrite Eu1 in *. rewrite Q1.
    destruct s1 as [|c2 s2]; [destruct u1; exact (Si (p, s') E)|].
    destruct u1; exact (Si (p, s') E).
Qed.
Lemma B_parse_set f s a s' : forallb okd s = true ->
  parse_set f s = Some (a, s') -> parse_set f (B s) = Some (a, B s').
Proof.
  intros K E. rewrite parse_set_eq in *. destruct s as [|c s].
  - rewrite set_members_eq in E. discriminate.
  - destruct (N.eqb c 94) eqn:Q.
    + apply N.eqb_eq in Q. subst c. rewrite B_cons by reflexivity. change (N.eqb 94 94) with true. cbv iota.
      cbn [forallb] in K. apply andb_prop in K. destruct K as [_ K].
      destruct (set_members (S (length s)) f true s) as [[p r]|] eqn:M; [|discriminate].
      pose proof (B_grows (length s) s false (le_n _) K).
      rewrite (B_set_members _ _ _ _ _ _ M) by lia.
      injection E as <- <-. reflexivity.
    + pose proof (B_grows (length (c :: s)) (c :: s) false (le_n _) K) as Lg.
      destruct (set_members (S (length (c :: s))) f true (c :: s)) as [[p r]|] eqn:M; [|discriminate].
      pose proof (B_set_members _ _ _ _ _ _ M (S (length (B (c :: s)))) (le_n_S _ _ Lg)) as M'.
      destruct (B_head c s) as [u Eu]. rewrite Eu in *. rewrite Q, M'.
      injection E as <- <-. reflexivity.
Qed.

Lemma existsb_shift n cl : existsb (Nat.eqb (S n)) (map S cl) = existsb (Nat.eqb n) cl.
Proof. induction cl as [|m cl IH]; cbn [existsb map]; [reflexivity|]. rewrite IH. reflexivity. Qed.
Lemma existsb_bound n cl : Forall (fun m => 1 <= m <= 18) cl -> existsb (Nat.eqb n) cl = true -> 1 <= n <= 18.
Proof.
  intros F E. apply existsb_exists in E. destruct E as (m & I & Q). apply Nat.eqb_eq in Q. subst m.
  rewrite Forall_forall in F. apply F. exact I.
Qed.

Definition no_digit (s : str) : bool := negb (starts_digit s).
Definition octal_next (s : str) : bool :=
  match s with e :: _ => is_ascii_digit e && N.ltb e 56 | [] => false end.
Lemma esc_one f st c u : ref_digit c = true -> no_digit u = true ->
  parse_escape f st (c :: u)
  = if existsb (Nat.eqb (N.to_nat c - 48)) (snd st) then Some (XRef (N.to_nat c - 48), u) else None.
Proof.
  intros R D. unfold ref_digit in R. apply andb_prop in R. destruct R as [R1 R2].
  unfold parse_escape. rewrite R1. destruct (N.eqb c 48); [discriminate|]. cbv zeta.
  destruct u as [|d u]; [reflexivity|]. unfold no_digit in D. cbn [starts_digit] in D.
  destruct (is_ascii_digit d); [discriminate|].
  replace (match u with [] => false | e :: _ => N.ltb c 56 && false && N.ltb d 56
            && is_ascii_digit e && N.ltb e 56 end) with false
    by (destruct u; [reflexivity|]; rewrite andb_false_r; reflexivity).
  reflexivity.
Qed.
Lemma esc_two f st c d u : ref_digit c = true -> is_ascii_digit d = true ->
  parse_escape f st (c :: d :: u)
  = if negb (N.ltb c 56 && N.ltb d 56 && octal_next u)
       && existsb (Nat.eqb (10 * (N.to_nat c - 48) + (N.to_nat d - 48))) (snd st)
    then Some (XRef (10 * (N.to_nat c - 48) + (N.to_nat d - 48)), u) else None.
Proof.
  intros R D. unfold ref_digit in R. apply andb_prop in R. destruct R as [R1 R2].
  unfold parse_escape. rewrite R1, D. destruct (N.eqb c 48); [discriminate|]. cbv zeta.
  replace (match u with [] => false | e :: _ => N.ltb c 56 && true && N.ltb d 56
            && is_ascii_digit e && N.ltb e 56 end)
    with (N.ltb c 56 && N.ltb d 56 && octal_next u); [reflexivity|].
  destruct u as [|e u]; cbn [octal_next]; [rewrite andb_false_r; reflexivity|].
  rewrite andb_true_r, andb_assoc. reflexivity.
Qed.
Lemma B_octal s : octal_next (B s) = octal_next s.
Proof. destruct s as [|c s]; [reflexivity|]. destruct (B_head c s) as [u ->]. reflexivity. Qed.
Lemma bump_one_nine c : In c (tl ten) ->
  (c = 57%N /\ bump c None = [49; 48]%N)
  \/ (ref_digit (c + 1)%N = true /\ N.to_nat (c + 1) - 48 = S (N.to_nat c - 48) /\ bump c None = [c + 1]%N).
Proof.
  cbn [tl ten In]. intros I.
  repeat (destruct I as [<-|I]; [first [left; split; vm_compute; reflexivity
                                       |right; split; [|split]; vm_compute; reflexivity]|]).
  contradiction.
Qed.
Lemma bump_teen d : In d ten -> d <> 57%N ->
  bump 49%N (Some d) = [49; d + 1]%N /\ is_ascii_digit (d + 1)%N = true
  /\ N.to_nat (d + 1) - 48 = S (N.to_nat d - 48) /\ (N.ltb (d + 1) 56 = true -> N.ltb d 56 = true).
Proof.
  cbn [ten In]. intros I Ne.
  repeat (destruct I as [<-|I];
          [first [contradiction Ne; reflexivity
                 |split; [|split; [|split]]; try (vm_compute; reflexivity); vm_compute; intros Q; first [reflexivity|discriminate Q]]|]).
  contradiction.
Qed.

Lemma B_parse_escape f g cl s a s' : forallb okd s = true -> Forall (fun m => 1 <= m <= 18) cl ->
  parse_escape f (g, cl) s = Some (a, s') ->
  exists u, B (92%N :: s) = 92%N :: u /\ parse_escape f (S g, map S cl) u = Some (shift a, B s').
Proof.
  intros K F E. destruct s as [|c s]; [discriminate|].
  destruct (is_ascii_digit c) eqn:Dc.
  - destruct (N.eqb c 48) eqn:Z0.
    { exfalso. unfold parse_escape in E. rewrite Dc, Z0 in E. discriminate. }
    assert (R : ref_digit c = true) by (unfold ref_digit; rewrite Dc, Z0; reflexivity).
    cbn [forallb] in K. apply andb_prop in K. destruct K as [_ K].
    eexists. split; [reflexivity|].
    cbn [bump_refs]. change (N.eqb 92 92) with true. cbv iota. cbn [negb].
    replace (N.eqb c 92) with false
      by (symmetry; apply N.eqb_neq; intros ->; discriminate).
    pose proof (ref_digit_nine c R) as I9.
    assert (One : no_digit s = true ->
      parse_escape f (S g, map S cl) (bump c None ++ B s) = Some (shift a, B s')).
    { intros Nd. rewrite (esc_one _ _ _ _ R Nd) in E. cbn [snd] in E.
      destruct (existsb (Nat.eqb (N.to_nat c - 48)) cl) eqn:Ex; [|discriminate].
      injection E as <- <-. rewrite <- existsb_shift in Ex.
      assert (Nd' : no_digit (B s) = true) by (unfold no_digit in *; rewrite B_starts_digit; exact Nd).
      destruct (bump_one_nine c I9) as [[-> ->]|(R' & Ev & ->)].
      - cbn [app]. rewrite esc_two by reflexivity. cbn [snd].
        replace (octal_next (B s)) with false.
        2:{ unfold no_digit in Nd'. destruct (B s) as [|e w]; [reflexivity|].
            cbn [starts_digit octal_next] in *. destruct (is_ascii_digit e); [discriminate|reflexivity]. }
        rewrite andb_false_r. cbn [negb andb].
        change (10 * (N.to_nat 49 - 48) + (N.to_nat 48 - 48)) with (S (N.to_nat 57 - 48)).
        rewrite Ex. reflexivity.
      - cbn [app]. rewrite (esc_one _ _ _ _ R' Nd'). cbn [snd]. rewrite Ev, Ex. reflexivity. }
    unfold ref_digit in R. cbn [andb]. rewrite R. fold (ref_digit c) in R.
    destruct s as [|d s].
    + specialize (One eq_refl). cbn [bump_refs] in One. rewrite app_nil_r in One. exact One.
    + cbn [forallb] in K. apply andb_prop in K. destruct K as [Kd K]. rewrite (okd_digit d Kd).
      destruct (is_ascii_digit d) eqn:Dd.
      * clear One. rewrite (esc_two _ _ _ _ _ R Dd) in E. cbn [snd] in E.
        destruct (existsb (Nat.eqb (10 * (N.to_nat c - 48) + (N.to_nat d - 48))) cl) eqn:Ex;
          [|rewrite andb_false_r in E; discriminate].
        rewrite andb_true_r in E.
        destruct (N.ltb c 56 && N.ltb d 56 && octal_next s) eqn:Oc; [discriminate|].
        cbn [negb] in E. injection E as <- <-.
        pose proof (existsb_bound _ _ F Ex) as Bd.
        assert (c = 49%N) as ->.
        { cbn [tl ten In] in I9. destruct I9 as [<-|I9]; [reflexivity|].
          repeat (destruct I9 as [<-|I9]; [exfalso; cbn in Bd; lia|]). contradiction. }
        assert (Nd : d <> 57%N) by (intros ->; cbn in Bd; lia).
        destruct (bump_teen d (ascii_digit_ten d Dd) Nd) as (-> & D1 & Ev & Lt).
        cbn [app]. rewrite esc_two by (auto; reflexivity). cbn [snd]. rewrite Ev, B_octal.
        rewrite <- existsb_shift in Ex.
        replace (10 * (N.to_nat 49 - 48) + S (N.to_nat d - 48))
          with (S (10 * (N.to_nat 49 - 48) + (N.to_nat d - 48))) by lia.
        rewrite Ex, andb_true_r. change (N.ltb 49 56) with true in *. cbn [andb] in *.
        destruct (N.ltb (d + 1) 56) eqn:L1.
        -- rewrite (Lt eq_refl) in Oc. cbn [andb] in *. rewrite Oc. reflexivity.
        -- reflexivity.
      * apply One. unfold no_digit. cbn [starts_digit]. rewrite Dd. reflexivity.
  - assert (R : ref_digit c = false) by (unfold ref_digit; rewrite Dc; reflexivity).
    exists (c :: B s). split; [apply B_esc; exact R|].
    unfold parse_escape in *. rewrite Dc in *.
    destruct (class_escape f c); [injection E as <- <-; reflexivity|].
    destruct (anchor_escape f c); [injection E as <- <-; reflexivity|].
    destruct (letter_escape c); [injection E as <- <-; reflexivity|].
    destruct (is_ascii_letter c); [discriminate|injection E as <- <-; reflexivity].
Qed.

Lemma B_startswith p : forallb (fun c => negb (N.eqb c 92)) p = true -> forall s,
  startswith p (B s) = startswith p s
  /\ (startswith p s = true -> skipn (length p) (B s) = B (skipn (length p) s)).
Proof.
  induction p as [|c p IH]; intros F s; [split; reflexivity|].
  cbn [forallb] in F. apply andb_prop in F. destruct F as [F1 F2].
  destruct s as [|d s]; [split; [reflexivity|discriminate]|].
  destruct (B_head d s) as [u Eu]. rewrite Eu. cbn [startswith length skipn].
  destruct (N.eqb_spec c d) as [->|Ne]; [|split; [reflexivity|discriminate]].
  rewrite B_cons in Eu by (destruct (N.eqb d 92); [discriminate|reflexivity]).
  injection Eu as <-. cbn [andb]. apply IH. exact F2.
Qed.

Lemma shift_repeated a q : repeated (shift a) q = option_map shift (repeated a q).
Proof. destruct q as [[[g lo] hi]|]; [|reflexivity]. destruct a; reflexivity. Qed.

Definition shift_st (st : pstate) : pstate := (S (fst st), map S (snd st)).

Lemma parse_shift f : forall n,
  (forall st s x st' s', parse_alt n f st s = Some (x, st', s') ->
     forallb okd s = true -> counted st -> fst st' <= 18 ->
     parse_alt n f (shift_st st) (B s) = Some (shift x, shift_st st', B s'))
  /\ (forall st s x st' s', parse_seq n f st s = Some (x, st', s') ->
     forallb okd s = true -> counted st -> fst st' <= 18 ->
     parse_seq n f (shift_st st) (B s) = Some (shift x, shift_st st', B s'))
  /\ (forall st s x st' s', parse_atom n f st s = Some (x, st', s') ->
     forallb okd s = true -> counted st -> fst st' <= 18 ->
     parse_atom n f (shift_st st) (B s) = Some (shift x, shift_st st', B s')).
Proof.
  induction n as [|n (IHal & IHse & IHat)]; [split; [|split]; intros; discriminate|].
  destruct (parse_tail f n) as (Tal & Tse & Tat).
  split; [|split]; intros st s x st' s' E K C L.
  - rewrite parse_alt_eq in *. destruct (parse_seq n f st s) as [[[a st1] s1]|] eqn:Es; [|discriminate].
    destruct (Tse _ _ _ _ _ Es) as (T1 & L1 & C1).
    assert (Q : fst st1 <= 18 -> parse_seq n f (shift_st st) (B s) = Some (shift a, shift_st st1, B s1))
      by (intros; eapply IHse; eassumption).
    destruct s1 as [|c s1].
    { injection E as <- <- <-. rewrite (Q L). reflexivity. }
    destruct (N.eqb c 124) eqn:Ec.
    + apply N.eqb_eq in Ec. subst c.
      destruct (parse_alt n f st1 s1) as [[[b st2] s2]|] eqn:Ea; [|discriminate].
      destruct (Tal _ _ _ _ _ Ea) as (T2 & L2 & C2). injection E as <- <- <-.
      rewrite Q by lia. rewrite B_cons by reflexivity. change (N.eqb 124 124) with true. cbv iota.
      rewrite (IHal _ _ _ _ _ Ea); [reflexivity| |auto|exact L].
      apply (tail_forallb okd s); [eapply tail_uncons; exact T1|exact K].
    + injection E as <- <- <-. rewrite (Q L). destruct (B_head c s1) as [u ->]. rewrite Ec. reflexivity.
  - rewrite parse_seq_eq in *. destruct s as [|c s].
    { injection E as <- <- <-. reflexivity. }
    destruct (B_head c s) as [u Eu]. rewrite Eu.
    destruct (N.eqb c 41 || N.eqb c 124).
    { injection E as <- <- <-. rewrite Eu. reflexivity. }
    rewrite <- Eu.
    destruct (parse_atom n f st (c :: s)) as [[[a st1] s1]|] eqn:Ea; [|discriminate].
    destruct (Tat _ _ _ _ _ Ea) as (T1 & L1 & C1).
    destruct (repetition s1) as [[q s2]|] eqn:Eq; [|discriminate]. pose proof (repetition_tail _ _ _ Eq) as T2.
    destruct (repeated a q) as [a'|] eqn:Er; [|discriminate].
    destruct (parse_seq n f st1 s2) as [[[b st2] s3]|] eqn:Es; [|discriminate].
    destruct (Tse _ _ _ _ _ Es) as (T3 & L3 & C3). injection E as <- <- <-.
    rewrite (IHat _ _ _ _ _ Ea K C) by lia. rewrite (B_repetition _ _ _ Eq).
    rewrite shift_repeated, Er. cbn [option_map].
    rewrite (IHse _ _ _ _ _ Es); [reflexivity| |auto|exact L].
    apply (tail_forallb okd (c :: s)); [eapply tail_trans; eassumption|exact K].
  - rewrite parse_atom_eq in *. destruct s as [|c s]; [discriminate|].
    pose proof K as K0. cbn [forallb] in K. apply andb_prop in K. destruct K as [_ K].
    destruct (N.eqb c 40) eqn:E40.
    + apply N.eqb_eq in E40. subst c. rewrite B_cons by reflexivity. change (N.eqb 40 40) with true. cbv iota.
      destruct (B_startswith (s_ "?:") eq_refl s) as [Sw Sk]. rewrite Sw.
      destruct (startswith (s_ "?:") s) eqn:S1.
      * pose proof (Sk eq_refl) as Sk'. change (length (s_ "?:")) with 2 in Sk'. rewrite Sk'.
        destruct (parse_alt n f st (skipn 2 s)) as [[[a st1] [|d s1]]|] eqn:Ea; try discriminate.
        destruct (Tal _ _ _ _ _ Ea) as (T1 & L1 & C1).
        destruct (N.eqb d 41) eqn:E41; [|discriminate]. apply N.eqb_eq in E41. subst d.
        injection E as <- <- <-.
        rewrite (IHal _ _ _ _ _ Ea); [|apply (tail_forallb okd s); [apply tail_skipn|exact K]|exact C|exact L].
        rewrite B_cons by reflexivity. reflexivity.
      * clear Sw Sk. destruct (B_startswith group_name eq_refl s) as [Sw Sk]. rewrite Sw. cbv zeta in *.
        assert (Bo : forall s1,
          (if startswith group_name s then Some (skipn (length group_name) s)
            else match s with d :: _ => if N.eqb d 63 then None else Some s | [] => Some s end) = Some s1 ->
          tail_of s s1 /\
          (if startswith group_name s then Some (skipn (length group_name) (B s))
            else match B s with d :: _ => if N.eqb d 63 then None else Some (B s) | [] => Some (B s) end)
          = Some (B s1)).
        { intros s1 E1. destruct (startswith group_name s).
          - injection E1 as <-. split; [apply (tail_skipn 7)|]. exact (f_equal Some (Sk eq_refl)).
          - destruct s as [|d s]; [injection E1 as <-; split; [apply tail_refl|reflexivity]|].
            destruct (B_head d s) as [u Eu]. rewrite Eu.
            destruct (N.eqb d 63); [discriminate|]. injection E1 as <-.
            split; [apply tail_refl|]. rewrite Eu. reflexivity. }
        match type of E with match ?e with _ => _ end = _ => destruct e as [s1|] eqn:Eb; [|discriminate] end.
        destruct (Bo s1 eq_refl) as [T0 Bo'].
        match goal with |- match ?e with _ => _ end = _ =>
          assert (Q : e = Some (B s1)) by exact Bo'; rewrite Q; clear Q Bo' end.
        destruct (parse_alt n f (S (fst st), snd st) s1) as [[[a [m cl]] [|d s2]]|] eqn:Ea; try discriminate.
        destruct (Tal _ _ _ _ _ Ea) as (T1 & L1 & C1). cbn [fst] in L1.
        destruct (N.eqb d 41) eqn:E41; [|discriminate]. apply N.eqb_eq in E41. subst d.
        injection E as <- <- <-. cbn [fst] in L.
        assert (Cc : counted (S (fst st), snd st)).
        { destruct st as [g c0]. apply (counted_le g); [cbn; lia|exact C]. }
        assert (Kk : forallb okd s1 = true) by (apply (tail_forallb okd s); assumption).
        pose proof (IHal _ _ _ _ _ Ea Kk Cc L) as H. unfold shift_st in H |- *. cbn [fst snd map] in *.
        rewrite H. rewrite B_cons by reflexivity. reflexivity.
    + destruct (N.eqb c 91) eqn:E91.
      { apply N.eqb_eq in E91. subst c. rewrite B_cons by reflexivity.
        change (N.eqb 91 40) with false. change (N.eqb 91 91) with true. cbv iota.
        destruct (parse_set f s) as [[a s1]|] eqn:Ep; [|discriminate].
        rewrite (B_parse_set _ _ _ _ K Ep). injection E as <- <- <-.
        rewrite parse_set_eq in Ep.
        match type of Ep with (let '(_, _) := ?e in _) = _ => destruct e as [neg s0] end.
        destruct (set_members (S (length s0)) f true s0) as [[p r]|]; [|discriminate].
        injection Ep as <- _. reflexivity. }
      destruct (N.eqb c 92) eqn:E92.
      { apply N.eqb_eq in E92. subst c.
        destruct (parse_escape f st s) as [[a s1]|] eqn:Ep; [|discriminate]. injection E as <- <- <-.
        destruct st as [g cl]. cbn [fst] in L.
        assert (Fc : Forall (fun m => 1 <= m <= 18) cl).
        { eapply Forall_impl; [|exact C]. cbn [fst]. intros m Hm. cbn beta in Hm. lia. }
        destruct (B_parse_escape f g cl s a s1 K Fc Ep) as (u & Hu & Eu).
        match goal with |- match ?e with _ => _ end = _ =>
          assert (Q : e = 92%N :: u) by exact Hu; rewrite Q; clear Q end.
        change (N.eqb 92 40) with false. change (N.eqb 92 91) with false. change (N.eqb 92 92) with true.
        cbv iota. unfold shift_st. cbn [fst snd]. rewrite Eu. reflexivity. }
      rewrite (B_cons _ _ E92), E40, E91, E92.
      destruct (N.eqb c 46); [injection E as <- <- <-; reflexivity|].
      destruct (N.eqb c 94); [injection E as <- <- <-; reflexivity|].
      destruct (N.eqb c 36); [injection E as <- <- <-; reflexivity|].
      destruct (existsb (N.eqb c) (s_ "*+?{")); [discriminate|injection E as <- <- <-; reflexivity].
Qed.

(** The regex that is matched: the whole of the Pattern's regex is group 1. *)
Lemma compile_as_regex f raw r n : compile f raw = Some (r, n) -> n <= 18 -> forallb okd raw = true ->
  compile f (as_regex raw) = Some (XSeq (XGrp 1 (shift r)) XEps, S n).
Proof.
  intros E L K. unfold compile in E.
  destruct (parse_alt (4 * length raw + 4) f (0, []) raw) as [[[a [m cl]] [|]]|] eqn:P; try discriminate.
  injection E as <- <-.
  pose proof (parse_alt_app (s_ ")") f _ _ _ _ _ _ (4 * length raw + 4) eq_refl P (le_n _)) as P2.
  pose proof (proj1 (parse_shift f (4 * length raw + 4)) _ _ _ _ _ P2) as P3.
  assert (K2 : forallb okd (raw ++ s_ ")") = true) by (rewrite forallb_app, K; reflexivity).
  specialize (P3 K2 (Forall_nil _) L). unfold shift_st in P3. cbn [fst snd map app] in P3.
  change (B [41%N]) with [41%N] in P3.
  assert (As : as_regex raw = s_ "(?P<all>" ++ B (raw ++ s_ ")")) by reflexivity.
  assert (Lg : length raw + 1 <= length (B (raw ++ s_ ")"))).
  { pose proof (B_grows _ _ false (le_n _) K2). rewrite app_length in H. exact H. }
  unfold compile. rewrite As, app_length. change (length (s_ "(?P<all>")) with 8.
  generalize dependent (B (raw ++ s_ ")")). intros body P3 _ Lg.
  assert (exists k, 4 * (8 + length body) + 4 = S (S (S (4 * length raw + 4 + k)))) as [k ->].
  { exists (4 * (8 + length body) + 4 - (4 * length raw + 4) - 3). lia. }
  assert (At : parse_atom (S (4 * length raw + 4 + k)) f (0, []) (s_ "(?P<all>" ++ body)
               = Some (XGrp 1 (shift a), (S m, 1 :: map S cl), [])).
  { rewrite parse_atom_eq. change (s_ "(?P<all>" ++ body) with (40%N :: group_name ++ body).
    change (N.eqb 40 40) with true. cbv iota.
    change (startswith (s_ "?:") (group_name ++ body)) with false. cbv iota zeta.
    change (startswith group_name (group_name ++ body)) with true. cbv iota.
    change (skipn (length group_name) (group_name ++ body)) with body. cbn [fst snd].
    rewrite (parse_alt_mono _ _ _ _ _ _ _ (4 * length raw + 4 + k) P3) by lia. reflexivity. }
  assert (Sq : parse_seq (S (S (4 * length raw + 4 + k))) f (0, []) (s_ "(?P<all>" ++ body)
               = Some (XSeq (XGrp 1 (shift a)) XEps, (S m, 1 :: map S cl), [])).
  { rewrite parse_seq_eq, At. reflexivity. }
  rewrite parse_alt_eq, Sq. reflexivity.
Qed.

(** ** Matching with the bracket and without *)

Lemma xmatch_map {X Y} (h : X -> Y) f t r : forall s (k : mstate -> option X),
  xmatch f t r s (fun s' => option_map h (k s')) = option_map h (xmatch f t r s k).
Proof.
  induction r as [|p|a IHa b IHb|a IHa b IHb|g lo hi a IHa|n a IHa|n|p]; intros s k.
  - reflexivity.
  - cbn [xmatch]. destruct (ms_rest s); [reflexivity|]. destruct (p c); reflexivity.
  - cbn [xmatch]. rewrite <- IHa. apply xmatch_ext. intros s'. apply IHb.
  - cbn [xmatch]. rewrite IHa, IHb. destruct (xmatch f t a s k); reflexivity.
  - rewrite !xmatch_rep.
    assert (Q : forall m s0,
      need_rounds (fun s k => xmatch f t a s k) g lo hi (fun s' => option_map h (k s')) m s0
      = option_map h (need_rounds (fun s k => xmatch f t a s k) g lo hi k m s0)); [|apply Q].
    induction m as [|m IH]; intros s0; cbn [need_rounds].
    + generalize (S (S (length (ms_rest s0)))) (option_map (fun h => h - lo) hi) (@None nat).
      intros n. revert s0. induction n as [|n IHn]; intros s0 l z; cbn [more_rounds]; [reflexivity|].
      rewrite (xmatch_ext f t a s0 _ (fun s' => option_map h
        (more_rounds (fun s k => xmatch f t a s k) g k n (dec l) (Some (ms_pos s0)) s')))
        by (intros s'; apply IHn).
      rewrite IHa. destruct (none_left l || at_pos z s0); destruct g; destruct (k s0); cbn [option_map];
        try reflexivity;
        match goal with |- context [xmatch f t a s0 ?kk] => destruct (xmatch f t a s0 kk); reflexivity end.
    + rewrite <- IHa. apply xmatch_ext. intros s'. apply IH.
  - cbn [xmatch]. apply IHa.
  - cbn [xmatch]. destruct (cap n (ms_caps s)) as [[a b]|]; [|reflexivity].
    destruct (eat (same_char f) (span t a b) s); reflexivity.
  - cbn [xmatch]. destruct (p (ms_prev s) (ms_rest s)); reflexivity.
Qed.

Definition shift_caps (l : list (nat * (nat * nat))) : list (nat * (nat * nat)) :=
  map (fun c => (S (fst c), snd c)) l.
Definition shift_ms (s : mstate) : mstate :=
  mkms (ms_prev s) (ms_rest s) (ms_pos s) (shift_caps (ms_caps s)).
Lemma cap_shift n l : cap (S n) (shift_caps l) = cap n l.
Proof.
  induction l as [|[m p] l IH]; [reflexivity|]. cbn [shift_caps map fst snd cap Nat.eqb].
  fold (shift_caps l). rewrite IH. reflexivity.
Qed.
Lemma eat_shift eq u : forall s, eat eq u (shift_ms s) = option_map shift_ms (eat eq u s).
Proof.
  induction u as [|c u IH]; intros s; [reflexivity|]. cbn [eat]. unfold shift_ms at 1. cbn [ms_rest].
  destruct (ms_rest s) as [|d r] eqn:E; [reflexivity|]. destruct (eq c d); [|reflexivity].
  rewrite <- IH. reflexivity.
Qed.
Lemma xmatch_shift {X} f t r : forall s (k : mstate -> option X),
  xmatch f t (shift r) (shift_ms s) k = xmatch f t r s (fun s' => k (shift_ms s')).
Proof.
  induction r as [|p|a IHa b IHb|a IHa b IHb|g lo hi a IHa|n a IHa|n|p]; intros s k; cbn [shift].
  - reflexivity.
  - cbn [xmatch]. unfold shift_ms at 1. cbn [ms_rest]. destruct (ms_rest s); [reflexivity|].
    destruct (p c); reflexivity.
  - cbn [xmatch]. rewrite IHa. apply xmatch_ext. intros s'. apply IHb.
  - cbn [xmatch]. rewrite IHa, IHb. reflexivity.
  - rewrite !xmatch_rep.
    assert (Q : forall m s0,
      need_rounds (fun s k => xmatch f t (shift a) s k) g lo hi k m (shift_ms s0)
      = need_rounds (fun s k => xmatch f t a s k) g lo hi (fun s' => k (shift_ms s')) m s0); [|apply Q].
    induction m as [|m IH]; intros s0; cbn [need_rounds].
    + change (ms_rest (shift_ms s0)) with (ms_rest s0).
      generalize (S (S (length (ms_rest s0)))) (option_map (fun h => h - lo) hi) (@None nat).
      intros n. revert s0. induction n as [|n IHn]; intros s0 l z; cbn [more_rounds]; [reflexivity|].
      change (ms_pos (shift_ms s0)) with (ms_pos s0).
      rewrite IHa. rewrite (xmatch_ext f t a s0 _
        (more_rounds (fun s k => xmatch f t a s k) g (fun s' => k (shift_ms s')) n (dec l) (Some (ms_pos s0))))
        by (intros s'; apply IHn).
      reflexivity.
    + rewrite IHa. apply xmatch_ext. intros s'. apply IH.
  - cbn [xmatch]. rewrite IHa. apply xmatch_ext. intros s'. reflexivity.
  - cbn [xmatch]. unfold shift_ms at 1. cbn [ms_caps]. rewrite cap_shift.
    destruct (cap n (ms_caps s)) as [[a b]|]; [|reflexivity]. rewrite eat_shift.
    destruct (eat (same_char f) (span t a b) s); reflexivity.
  - cbn [xmatch]. reflexivity.
Qed.

(** The match of the bracketed regex: the whole is group 1. *)
Definition bracketed (m : found) : found :=
  mkfound (fd_start m) (fd_end m) ((1, (fd_start m, fd_end m)) :: shift_caps (fd_caps m)).
Definition bracket (r : rx) : rx := XSeq (XGrp 1 (shift r)) XEps.

Lemma match_here_bracket f t r ok prev rest pos :
  (forall s s', ms_pos s = ms_pos s' -> ms_rest s = ms_rest s' -> ok s = ok s') ->
  match_here f (bracket r) t ok prev rest pos = option_map bracketed (match_here f r t ok prev rest pos).
Proof.
  intros O. unfold match_here, bracket. cbn [xmatch].
  change (mkms prev rest pos []) with (shift_ms (mkms prev rest pos [])). rewrite xmatch_shift.
  change (shift_ms (mkms prev rest pos [])) with (mkms prev rest pos []).
  rewrite <- xmatch_map. apply xmatch_ext. intros s. cbn [ms_pos].
  rewrite (O (set_cap 1 pos (ms_pos (shift_ms s)) (shift_ms s)) s eq_refl eq_refl).
  destruct (ok s); reflexivity.
Qed.
Lemma search_from_bracket f t r ok :
  (forall s s', ms_pos s = ms_pos s' -> ms_rest s = ms_rest s' -> ok s = ok s') ->
  forall rest prev pos,
  search_from f (bracket r) t ok prev rest pos = option_map bracketed (search_from f r t ok prev rest pos).
Proof.
  intros O. induction rest as [|c rest IH]; intros prev pos; cbn [search_from];
    rewrite match_here_bracket by exact O; destruct (match_here f r t ok prev _ pos); try reflexivity.
  cbn [option_map]. apply IH.
Qed.
Lemma find_matches_bracket f t r : forall n e pos,
  find_matches n f (bracket r) t e pos = map bracketed (find_matches n f r t e pos).
Proof.
  induction n as [|n IH]; intros e pos; [reflexivity|]. cbn [find_matches].
  rewrite search_from_bracket by (intros s s' E _; rewrite E; reflexivity).
  match goal with |- context [option_map bracketed ?x] => destruct x as [m|]; [|reflexivity] end.
  cbn [option_map map]. rewrite IH. reflexivity.
Qed.
Lemma matches_bracket f t r : matches f (bracket r) t = map bracketed (matches f r t).
Proof. apply find_matches_bracket. Qed.
Lemma search_bracket f t r : search f (bracket r) t = option_map bracketed (search f r t).
Proof. apply search_from_bracket. reflexivity. Qed.
Lemma fullmatch_bracket f t r : fullmatch f (bracket r) t = option_map bracketed (fullmatch f r t).
Proof. apply match_here_bracket. intros s s' _ E. rewrite E. reflexivity. Qed.
