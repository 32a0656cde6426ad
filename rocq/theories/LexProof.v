(** * The scanner's token regex against the specified token texts *)

From Coq Require Import String List NArith Bool Arith Lia.
From Verif Require Import PyStr PyRe ReFacts ReLang StrFacts Tokens OpTable Scan SpecScan.
Import ListNotations.

Lemma rmatch_alt {X} : forall a b s (k : str -> option X),
  rmatch (RAlt a b) s k = match rmatch a s k with Some x => Some x | None => rmatch b s k end.
Proof. reflexivity. Qed.
Lemma rmatch_seq {X} : forall a b s (k : str -> option X),
  rmatch (RSeq a b) s k = rmatch a s (fun s' => rmatch b s' k).
Proof. reflexivity. Qed.
Lemma rmatch_fail {X} : forall r s (k : str -> option X), (forall t, ~ lang r s t) -> rmatch r s k = None.
Proof.
  intros r s k H. destruct (rmatch r s k) eqn:E; [|reflexivity].
  apply rmatch_sound in E. destruct E as (t & L & _). destruct (H t L).
Qed.
Lemma match_re_lang : forall r s t, match_re r s = Some t -> lang r s t.
Proof.
  intros r s t H. apply rmatch_sound in H. destruct H as (u & L & E). congruence.
Qed.
Lemma match_re_none : forall r s, match_re r s = None <-> forall t, ~ lang r s t.
Proof.
  intros r s. split.
  - intros H t L. assert (X : match_re r s <> None) by (apply match_re_some; eauto). congruence.
  - apply rmatch_fail.
Qed.
Lemma fullmatch_lang : forall r s, fullmatch_re r s = true <-> lang r s [].
Proof.
  intros r s. unfold fullmatch_re. split.
  - destruct (rmatch r s _) eqn:E; [|discriminate]. intros _. apply rmatch_sound in E.
    destruct E as ([|c t] & L & E); [exact L|discriminate].
  - intro L. destruct (rmatch r s _) eqn:E; [reflexivity|]. exfalso. revert E.
    eapply rmatch_complete; [exact L|discriminate].
Qed.

Lemma lang_eps : forall s t, lang REps s t <-> s = t.
Proof. intros. split; [intro H; inversion H; reflexivity|intros ->; constructor]. Qed.
Lemma lang_lit : forall l s t, lang (RLit l) s t <-> s = l ++ t.
Proof.
  induction l as [|c [|d l] IH]; intros s t.
  - apply lang_eps.
  - apply lang_char.
  - change (RLit (c :: d :: l)) with (RSeq (RChar c) (RLit (d :: l))). rewrite lang_seq. split.
    + intros (u & H1 & H2). apply lang_char in H1. apply IH in H2. subst. reflexivity.
    + intros ->. exists ((d :: l) ++ t). split; [apply lang_char; reflexivity|apply IH; reflexivity].
Qed.
Lemma lang_alts : forall l s t, lang (RAlts l) s t <-> exists r, In r l /\ lang r s t.
Proof.
  induction l as [|r [|r' l] IH]; intros s t.
  - split; [|intros (r & [] & _)]. intro H. inversion H; subst. discriminate.
  - split; [intro H; exists r; split; [left; reflexivity|exact H]|].
    intros (r' & [<-|[]] & H). exact H.
  - change (RAlts (r :: r' :: l)) with (RAlt r (RAlts (r' :: l))). rewrite lang_alt, IH. split.
    + intros [H|(q & I & H)]; [exists r|exists q]; split; auto; [left; reflexivity|right; exact I].
    + intros (q & [<-|I] & H); [left; exact H|right; eauto].
Qed.
Lemma lang_star_inv : forall a s u, lang (RStar a) s u ->
  s = u \/ exists t, lang a s t /\ length t < length s /\ lang (RStar a) t u.
Proof. intros a s u H. inversion H; subst; eauto. Qed.

Lemma cls_in_In : forall l c, cls_in l c = true <-> In c l.
Proof.
  intros l c. unfold cls_in. rewrite existsb_exists. split.
  - intros (x & I & E). apply N.eqb_eq in E. rewrite E. exact I.
  - intro I. exists c. split; [exact I|apply N.eqb_refl].
Qed.

(** ** The languages of the alternatives *)

Lemma lang_string : forall s t, lang string_re s t <->
  exists b, s = (c_dquote :: b ++ [c_dquote]) ++ t /\ ~ In c_dquote b.
Proof.
  intros s t. unfold string_re. rewrite lang_seq. split.
  - intros (u & H1 & H2). apply lang_char in H1. apply lang_seq in H2. destruct H2 as (v & H2 & H3).
    apply lang_char in H3. apply lang_star_cls in H2. destruct H2 as (b & E & F). subst.
    exists b. split; [simpl; rewrite <- app_assoc; reflexivity|].
    intro I. rewrite forallb_forall in F. specialize (F _ I). rewrite N.eqb_refl in F. discriminate.
  - intros (b & -> & F). simpl. rewrite <- app_assoc. eexists. split; [apply lang_char; reflexivity|].
    apply lang_seq. eexists. split; [apply lang_star_cls; exists b; split; [reflexivity|]|apply lang_char; reflexivity].
    apply forallb_forall. intros c I. apply negb_true_iff, N.eqb_neq. intros ->. exact (F I).
Qed.

Lemma lang_pattern_body : forall b t,
  lang (RStar (RAlt (RCls (fun c => negb (N.eqb c c_backtick) && negb (N.eqb c c_backslash)))
                    (RSeq (RChar c_backslash) RDot))) b t <->
  exists p, b = p ++ t /\ pattern_body p.
Proof.
  intros b t. split.
  - intro H. remember (RStar _) as r eqn:E. induction H; try discriminate.
    + exists []. split; [reflexivity|constructor].
    + inversion E; subst. destruct (IHlang2 eq_refl) as (p & -> & P).
      apply lang_alt in H. destruct H as [H|H].
      * apply lang_cls in H. destruct H as (c & -> & C). apply andb_prop in C. destruct C as [C1 C2].
        apply negb_true_iff, N.eqb_neq in C1. apply negb_true_iff, N.eqb_neq in C2.
        exists (c :: p). split; [reflexivity|constructor; assumption].
      * apply lang_seq in H. destruct H as (v & H2 & H3). apply lang_char in H2.
        apply lang_cls in H3. destruct H3 as (c & -> & C). apply negb_true_iff, N.eqb_neq in C.
        exists (c_backslash :: c :: p). subst. split; [reflexivity|]. apply pb_esc; assumption.
  - intros (p & -> & P). induction P as [|c p C1 C2 P IH|c p C P IH]; simpl; [constructor| |].
    + eapply LStarS; [apply LAltL; constructor|simpl; lia|exact IH].
      apply andb_true_intro. split; apply negb_true_iff, N.eqb_neq; assumption.
    + eapply LStarS; [apply LAltR; eapply LSeq; constructor|simpl; lia|exact IH].
      * reflexivity.
      * apply negb_true_iff, N.eqb_neq. exact C.
Qed.

Lemma lang_pattern : forall s t, lang pattern_re s t <->
  exists b, s = (c_backtick :: b ++ [c_backtick]) ++ t /\ pattern_body b.
Proof.
  intros s t. unfold pattern_re. rewrite lang_seq. split.
  - intros (u & H1 & H2). apply lang_char in H1. apply lang_seq in H2. destruct H2 as (v & H2 & H3).
    apply lang_char in H3. apply lang_pattern_body in H2. destruct H2 as (b & E & F). subst.
    exists b. split; [simpl; rewrite <- app_assoc; reflexivity|exact F].
  - intros (b & -> & F). simpl. rewrite <- app_assoc. eexists. split; [apply lang_char; reflexivity|].
    apply lang_seq. eexists. split; [apply lang_pattern_body; exists b; auto|apply lang_char; reflexivity].
Qed.

Lemma lang_charlit : forall s t, lang char_re s t <-> exists c, s = [c_squote; c] ++ t.
Proof.
  intros s t. unfold char_re. rewrite lang_seq. split.
  - intros (u & H1 & H2). apply lang_char in H1. apply lang_alt in H2. subst.
    destruct H2 as [H|H]; [apply lang_cls in H; destruct H as (c & -> & _)|apply lang_char in H; subst]; eexists; reflexivity.
  - intros (c & ->). simpl. eexists. split; [apply lang_char; reflexivity|]. apply lang_alt.
    destruct (N.eq_dec c c_nl) as [->|N]; [right; apply lang_char; reflexivity|].
    left. apply lang_cls. exists c. split; [reflexivity|]. apply negb_true_iff, N.eqb_neq, N.
Qed.

Lemma lang_esc_body : forall b t,
  lang (RStar (RAlt (RSeq (RChar c_backslash) (RCls (fun c => negb (N.eqb c c_dquote))))
                    (RCls (fun c => negb (N.eqb c c_backslash))))) b t <->
  exists p, b = p ++ t /\ esc_body p.
Proof.
  intros b t. split.
  - intro H. remember (RStar _) as r eqn:E. induction H; try discriminate.
    + exists []. split; [reflexivity|constructor].
    + inversion E; subst. destruct (IHlang2 eq_refl) as (p & -> & P).
      apply lang_alt in H. destruct H as [H|H].
      * apply lang_seq in H. destruct H as (v & H2 & H3). apply lang_char in H2.
        apply lang_cls in H3. destruct H3 as (c & -> & C). apply negb_true_iff, N.eqb_neq in C.
        exists (c_backslash :: c :: p). subst. split; [reflexivity|]. apply eb_esc; assumption.
      * apply lang_cls in H. destruct H as (c & -> & C). apply negb_true_iff, N.eqb_neq in C.
        exists (c :: p). split; [reflexivity|]. apply eb_plain; assumption.
  - intros (p & -> & P). induction P as [|c p C P IH|c p C P IH]; simpl; [constructor| |].
    + eapply LStarS; [apply LAltR; constructor|simpl; lia|exact IH].
      apply negb_true_iff, N.eqb_neq. assumption.
    + eapply LStarS; [apply LAltL; eapply LSeq; constructor|simpl; lia|exact IH].
      * reflexivity.
      * apply negb_true_iff, N.eqb_neq. exact C.
Qed.

Lemma lang_esc : forall s t, lang esc_string_re s t <->
  exists b, s = ([c_backslash; c_dquote] ++ b ++ [c_backslash; c_dquote]) ++ t /\ esc_body b.
Proof.
  intros s t. unfold esc_string_re. rewrite lang_seq. split.
  - intros (u & H1 & H2). apply lang_lit in H1. apply lang_seq in H2. destruct H2 as (v & H2 & H3).
    apply lang_lit in H3. apply lang_esc_body in H2. destruct H2 as (b & E & F). subst.
    exists b. split; [simpl; rewrite <- app_assoc; reflexivity|exact F].
  - intros (b & -> & F). rewrite <- !app_assoc. eexists. split; [apply lang_lit; reflexivity|].
    apply lang_seq. eexists. split; [apply lang_esc_body; exists b; auto|apply lang_lit; reflexivity].
Qed.

Lemma digits_iff : forall a, digits a <-> a <> [] /\ forallb is_digit a = true.
Proof.
  intro a. unfold digits. rewrite forallb_forall, Forall_forall. tauto.
Qed.

Lemma lang_number : forall s t, lang number_re s t <->
  exists n, s = n ++ t /\ (digits n \/ exists a b, n = a ++ s_ "." ++ b /\ digits a /\ digits b).
Proof.
  intros s t. unfold number_re. rewrite lang_seq. split.
  - intros (u & H1 & H2). apply lang_plus_cls in H1. destruct H1 as (a & N & -> & F).
    apply lang_opt in H2. destruct H2 as [->|H2].
    + exists a. split; [reflexivity|]. left. apply digits_iff. auto.
    + apply lang_seq in H2. destruct H2 as (v & H2 & H3). apply lang_char in H2.
      apply lang_plus_cls in H3. destruct H3 as (b & N2 & -> & F2). subst.
      exists (a ++ s_ "." ++ b). split; [rewrite <- !app_assoc; reflexivity|].
      right. exists a, b. rewrite !digits_iff. auto.
  - intros (n & -> & [D|(a & b & -> & D1 & D2)]).
    + apply digits_iff in D. exists t. split; [apply lang_plus_cls; exists n; tauto|apply lang_opt; auto].
    + apply digits_iff in D1, D2. rewrite <- !app_assoc. exists (s_ "." ++ b ++ t).
      split; [apply lang_plus_cls; exists a; tauto|]. apply lang_opt. right. apply lang_seq.
      exists (b ++ t). split; [apply lang_char; reflexivity|]. apply lang_plus_cls. exists b. tauto.
Qed.

Definition symbol_list : list str := map s_ ["]"; "["; "("; ")"; "{"; "}"; ";"; "$"; "\$"; "EL"]%string.

Lemma lang_symbols : forall s t, lang symbols_re s t <-> exists n, s = n ++ t /\ In n symbol_list.
Proof.
  intros s t. unfold symbols_re. rewrite lang_alts. split.
  - intros (r & I & H). cbn [In] in I. destruct I as [<-|[<-|[<-|[]]]].
    + apply lang_cls in H. destruct H as (c & -> & C). apply cls_in_In in C.
      exists [c]. split; [reflexivity|]. simpl in C.
      repeat (destruct C as [<-|C]; [simpl; tauto|]). destruct C.
    + apply lang_lit in H. exists (s_ "\$"). split; [exact H|simpl; tauto].
    + apply lang_lit in H. exists (s_ "EL"). split; [exact H|simpl; tauto].
  - intros (n & -> & I).
    assert (D : (exists c, n = [c] /\ cls_in (s_ "][(){};$") c = true) \/ n = s_ "\$" \/ n = s_ "EL").
    { simpl in I. repeat (destruct I as [<-|I]; [first [left; eexists; split; [reflexivity|reflexivity]|tauto]|]). destruct I. }
    destruct D as [(c & -> & C)|[->| ->]].
    + eexists. split; [left; reflexivity|]. apply lang_cls. exists c. auto.
    + eexists. split; [right; left; reflexivity|]. apply lang_lit. reflexivity.
    + eexists. split; [right; right; left; reflexivity|]. apply lang_lit. reflexivity.
Qed.

Lemma ops_same : forall s, In s sorted_ops <-> operator_text s.
Proof.
  assert (A : forallb (fun x => existsb (fun o => str_eqb (o_text o) x) all_ops) sorted_ops = true)
    by (vm_compute; reflexivity).
  assert (B : forallb (fun o => existsb (str_eqb (o_text o)) sorted_ops) all_ops = true)
    by (vm_compute; reflexivity).
  intro s. split.
  - intro I. rewrite forallb_forall in A. specialize (A s I). apply existsb_exists in A.
    destruct A as (o & I2 & E). apply str_eqb_eq in E. exists o. auto.
  - intros (o & I & <-). rewrite forallb_forall in B. specialize (B o I). apply existsb_exists in B.
    destruct B as (x & I2 & E). apply str_eqb_eq in E. rewrite E. exact I2.
Qed.

Lemma lang_oper : forall s t, lang oper_re s t <-> exists n, s = n ++ t /\ operator_text n.
Proof.
  intros s t. unfold oper_re. rewrite lang_alts. split.
  - intros (r & I & H). apply in_map_iff in I. destruct I as (n & <- & I). apply lang_lit in H.
    exists n. split; [exact H|]. apply ops_same, I.
  - intros (n & -> & O). exists (RLit n). split; [|apply lang_lit; reflexivity].
    apply in_map, ops_same, O.
Qed.

(** Names as the regex sees them: upper-case runs of any length. *)
Inductive name_lang : str -> Prop :=
| nl_upper : forall u, u <> [] -> Forall (fun c => is_upper c = true) u -> name_lang u
| nl_name : forall n, name_text n -> name_lang n.

Lemma special_cls : forall c, cls_in (s_ "][()$`'") c || is_ascii_digit c = true <-> In c (s_ "][()$`'0123456789").
Proof.
  intro c. split.
  - intro H. apply orb_prop in H. destruct H as [H|H].
    + apply cls_in_In in H. simpl in *. tauto.
    + unfold is_ascii_digit in H. apply andb_prop in H. destruct H as [H1 H2].
      apply N.leb_le in H1, H2.
      assert (E : (c = 48 \/ c = 49 \/ c = 50 \/ c = 51 \/ c = 52 \/ c = 53 \/ c = 54 \/ c = 55 \/ c = 56 \/ c = 57)%N) by lia.
      simpl. repeat (destruct E as [->|E]; [tauto|]). subst. tauto.
  - intro H. simpl in H. repeat (destruct H as [<-|H]; [reflexivity|]). destruct H.
Qed.

Lemma lower_cls : forall s, forallb cls_lower_digit_us s = true <->
  Forall (fun d => is_lower d = true \/ is_ascii_digit d = true \/ d = 95%N) s.
Proof.
  intro s. rewrite forallb_forall, Forall_forall. unfold cls_lower_digit_us.
  split; intros H c I; specialize (H c I).
  - apply orb_prop in H. destruct H as [H|H]; [apply orb_prop in H; tauto|]. apply N.eqb_eq in H. auto.
  - destruct H as [H|[H|H]]; [rewrite H; reflexivity|rewrite H, orb_true_r; reflexivity|subst; reflexivity].
Qed.

Lemma lang_name : forall s t, lang name_re s t <-> exists n, s = n ++ t /\ name_lang n.
Proof.
  intros s t. unfold name_re. rewrite lang_alts. split.
  - intros (r & I & H). cbn [In] in I. destruct I as [<-|[<-|[<-|[<-|[<-|[<-|[]]]]]]].
    + apply lang_plus_cls in H. destruct H as (u & N & -> & F). exists u. split; [reflexivity|].
      apply nl_upper; [exact N|]. apply Forall_forall. rewrite forallb_forall in F. exact F.
    + apply lang_cls in H. destruct H as (c & -> & C). exists [c]. split; [reflexivity|]. apply nl_name.
      apply orb_prop in C. destruct C as [C|C].
      * apply andb_prop in C. destruct C as [C1 C2]. apply negb_true_iff, N.eqb_neq in C2. apply name_lower; assumption.
      * apply N.eqb_eq in C. subst. apply name_under.
    + apply lang_seq in H. destruct H as (u & H1 & H2). apply lang_char in H1. apply lang_cls in H2.
      destruct H2 as (c & -> & C). subst. exists [36%N; c]. split; [reflexivity|]. apply nl_name, name_special.
      apply special_cls, C.
    + apply lang_seq in H. destruct H as (u & H1 & H2). apply lang_char in H1. apply lang_seq in H2.
      destruct H2 as (v & H2 & H3). apply lang_cls in H2. destruct H2 as (c & -> & C).
      apply lang_star_cls in H3. destruct H3 as (w & -> & F). subst.
      exists (36%N :: c :: w). split; [reflexivity|]. apply nl_name, name_long; [exact C|]. apply lower_cls, F.
    + apply lang_seq in H. destruct H as (u & H1 & H2). apply lang_char in H1. apply lang_seq in H2.
      destruct H2 as (v & H2 & H3). apply lang_char in H2. subst. apply lang_opt in H3.
      destruct H3 as [->|H3].
      { exists (36%N :: repeat 95%N 1). split; [reflexivity|]. apply nl_name, name_match. lia. }
      apply lang_seq in H3. destruct H3 as (w & H3 & H4). apply lang_char in H3. apply lang_opt in H4. subst.
      destruct H4 as [->|H4].
      { exists (36%N :: repeat 95%N 2). split; [reflexivity|]. apply nl_name, name_match. lia. }
      apply lang_char in H4. subst.
      exists (36%N :: repeat 95%N 3). split; [reflexivity|]. apply nl_name, name_match. lia.
    + apply lang_seq in H. destruct H as (u & H1 & H2). apply lang_char in H1. apply lang_cls in H2.
      destruct H2 as (c & -> & C). subst. exists [c_backslash; c]. split; [reflexivity|]. apply nl_name, name_args.
      apply andb_prop in C. destruct C as [C1 C2]. apply N.leb_le in C1, C2.
      assert (E : (c = 97 \/ c = 98 \/ c = 99 \/ c = 100 \/ c = 101 \/ c = 102 \/ c = 103)%N) by lia.
      simpl. repeat (destruct E as [->|E]; [tauto|]). subst. tauto.
  - intros (n & -> & [u N F|n' [u N F L|c C J| |c I|c w C F|k K|c I]]); simpl.
    1,2: eexists; split; [left; reflexivity|]; apply lang_plus_cls; exists u;
         (split; [exact N|split; [reflexivity|]]); apply forallb_forall; rewrite Forall_forall in F; exact F.
    + eexists. split; [right; left; reflexivity|]. apply lang_cls. exists c. split; [reflexivity|].
      rewrite C. simpl. assert (J2 : N.eqb c 106 = false) by (apply N.eqb_neq; exact J). rewrite J2. reflexivity.
    + eexists. split; [right; left; reflexivity|]. apply lang_cls. exists 95%N. auto.
    + eexists. split; [right; right; left; reflexivity|]. apply lang_seq. eexists. split; [apply lang_char; reflexivity|].
      apply lang_cls. exists c. split; [reflexivity|]. apply special_cls, I.
    + eexists. split; [right; right; right; left; reflexivity|]. apply lang_seq. eexists.
      split; [apply lang_char; reflexivity|]. apply lang_seq. eexists. split; [apply lang_cls; exists c; split; [reflexivity|exact C]|].
      apply lang_star_cls. exists w. split; [reflexivity|]. apply lower_cls, F.
    + eexists. split; [right; right; right; right; left; reflexivity|]. apply lang_seq. eexists.
      split; [apply lang_char; reflexivity|]. apply lang_seq.
      assert (E : k = 1 \/ k = 2 \/ k = 3) by lia. destruct E as [->|[->| ->]]; simpl; eexists; (split; [apply lang_char; reflexivity|]); apply lang_opt; [left; reflexivity|right|right];
        apply lang_seq; eexists; (split; [apply lang_char; reflexivity|]); apply lang_opt; [left; reflexivity|right].
      apply lang_char. reflexivity.
    + eexists. split; [right; right; right; right; right; left; reflexivity|]. apply lang_seq. eexists.
      split; [apply lang_char; reflexivity|]. apply lang_cls. exists c. split; [reflexivity|].
      simpl in I. repeat (destruct I as [<-|I]; [reflexivity|]). destruct I.
Qed.
