(** * What the backtracking matcher accepts

    [lang r s t]: the regex [r] can consume [s] down to the rest [t].  The
    matcher succeeds with a continuation exactly when some such rest satisfies
    the continuation. *)

From Coq Require Import List NArith Bool Arith Lia.
From Verif Require Import PyStr PyRe ReFacts.
Import ListNotations.

Inductive lang : re -> str -> str -> Prop :=
| LEps : forall s, lang REps s s
| LCls : forall p c s, p c = true -> lang (RCls p) (c :: s) s
| LSeq : forall a b s t u, lang a s t -> lang b t u -> lang (RSeq a b) s u
| LAltL : forall a b s t, lang a s t -> lang (RAlt a b) s t
| LAltR : forall a b s t, lang b s t -> lang (RAlt a b) s t
| LStar0 : forall a s, lang (RStar a) s s
| LStarS : forall a s t u, lang a s t -> length t < length s ->
    lang (RStar a) t u -> lang (RStar a) s u
| LLazy0 : forall a s, lang (RLazy a) s s
| LLazyS : forall a s t u, lang a s t -> length t < length s ->
    lang (RLazy a) t u -> lang (RLazy a) s u
| LOpt0 : forall a s, lang (ROpt a) s s
| LOptS : forall a s t, lang a s t -> lang (ROpt a) s t
| LEol0 : lang REol [] []
| LEol1 : lang REol [c_nl] [c_nl].

Lemma rmatch_sound {X} : forall r s (k : str -> option X) x,
  rmatch r s k = Some x -> exists t, lang r s t /\ k t = Some x.
Proof.
  induction r; intros s k x H.
  - exists s. split; [constructor|exact H].
  - simpl in H. destruct s as [|c s]; [discriminate|].
    destruct (p c) eqn:E; [|discriminate]. exists s. split; [constructor; exact E|exact H].
  - simpl in H. apply IHr1 in H. destruct H as (t & Ht & H).
    apply IHr2 in H. destruct H as (u & Hu & H). exists u. split; [|exact H].
    econstructor; eassumption.
  - simpl in H. destruct (rmatch r1 s k) eqn:E.
    + injection H as ->. apply IHr1 in E. destruct E as (t & Ht & E).
      exists t. split; [apply LAltL; exact Ht|exact E].
    + apply IHr2 in H. destruct H as (t & Ht & H).
      exists t. split; [apply LAltR; exact Ht|exact H].
  - rewrite rmatch_star in H. revert H. generalize (S (length s)) as n. intro n. revert s.
    induction n as [|n IHn]; intros s H; cbn [star_loop] in H.
    + exists s. split; [constructor|exact H].
    + destruct (rmatch r s _) eqn:E.
      * injection H as ->. apply IHr in E. destruct E as (t & Ht & E).
        destruct (Nat.ltb_spec (length t) (length s)); [|discriminate].
        apply IHn in E. destruct E as (u & Hu & E). exists u.
        split; [eapply LStarS; eassumption|exact E].
      * exists s. split; [constructor|exact H].
  - rewrite rmatch_lazy in H. revert H. generalize (S (length s)) as n. intro n. revert s.
    induction n as [|n IHn]; intros s H; cbn [lazy_loop] in H.
    + exists s. split; [constructor|exact H].
    + destruct (k s) eqn:E.
      * injection H as ->. exists s. split; [constructor|exact E].
      * apply IHr in H. destruct H as (t & Ht & H).
        destruct (Nat.ltb_spec (length t) (length s)); [|discriminate].
        apply IHn in H. destruct H as (u & Hu & H). exists u.
        split; [eapply LLazyS; eassumption|exact H].
  - simpl in H. destruct (rmatch r s k) eqn:E.
    + injection H as ->. apply IHr in E. destruct E as (t & Ht & E).
      exists t. split; [apply LOptS; exact Ht|exact E].
    + exists s. split; [constructor|exact H].
  - simpl in H. destruct s as [|c [|d s]]; [| |discriminate].
    + exists []. split; [constructor|exact H].
    + destruct (N.eqb_spec c c_nl) as [->|]; [|discriminate].
      exists [c_nl]. split; [constructor|exact H].
Qed.

Lemma rmatch_complete {X} : forall r s t, lang r s t ->
  forall (k : str -> option X), k t <> None -> rmatch r s k <> None.
Proof.
  intros r s t H. induction H; intros k Hk.
  - exact Hk.
  - cbn [rmatch]. rewrite H. exact Hk.
  - cbn [rmatch]. apply IHlang1. apply IHlang2, Hk.
  - cbn [rmatch]. specialize (IHlang k Hk). destruct (rmatch a s k); congruence.
  - cbn [rmatch]. specialize (IHlang k Hk). destruct (rmatch a s k); congruence.
  - rewrite rmatch_star. cbn [star_loop]. destruct (rmatch a s _); congruence.
  - rewrite rmatch_star. cbn [star_loop]. specialize (IHlang2 k Hk).
    rewrite rmatch_star in IHlang2.
    match goal with |- match ?m with _ => _ end <> None => destruct m eqn:E end;
      [congruence|]. exfalso. revert E. apply IHlang1.
    destruct (Nat.ltb_spec (length t) (length s)); [|lia].
    assert (Hf : forall n m s', length s' < n -> length s' < m ->
              star_loop (rmatch a) k n s' = star_loop (rmatch a) k m s').
    { induction n as [|n IHn]; intros [|m] s' Hn Hm; try lia. cbn [star_loop].
      rewrite (rmatch_ext a s' _
        (fun s'' => if length s'' <? length s' then star_loop (rmatch a) k m s''
                    else None)); [reflexivity|].
      intro u0. destruct (Nat.ltb_spec (length u0) (length s')); [|reflexivity].
      apply IHn; lia. }
    rewrite (Hf (length s) (S (length t))) by lia. exact IHlang2.
  - rewrite rmatch_lazy. cbn [lazy_loop]. destruct (k s); congruence.
  - rewrite rmatch_lazy. cbn [lazy_loop]. destruct (k s); [congruence|].
    specialize (IHlang2 k Hk). rewrite rmatch_lazy in IHlang2.
    apply IHlang1.
    destruct (Nat.ltb_spec (length t) (length s)); [|lia].
    assert (Hf : forall n m s', length s' < n -> length s' < m ->
              lazy_loop (rmatch a) k n s' = lazy_loop (rmatch a) k m s').
    { induction n as [|n IHn]; intros [|m] s' Hn Hm; try lia. cbn [lazy_loop].
      destruct (k s'); [reflexivity|].
      apply rmatch_ext.
      intro u0. destruct (Nat.ltb_spec (length u0) (length s')); [|reflexivity].
      apply IHn; lia. }
    rewrite (Hf (length s) (S (length t))) by lia. exact IHlang2.
  - cbn [rmatch]. destruct (rmatch a s k); congruence.
  - cbn [rmatch]. specialize (IHlang k Hk). destruct (rmatch a s k); congruence.
  - exact Hk.
  - cbn [rmatch]. rewrite N.eqb_refl. exact Hk.
Qed.

Lemma match_re_some : forall r s,
  match_re r s <> None <-> exists t, lang r s t.
Proof.
  intros r s. unfold match_re. split.
  - destruct (rmatch r s Some) as [x|] eqn:E; [|congruence]. intros _.
    apply rmatch_sound in E. destruct E as (t & H & _). eauto.
  - intros [t H]. eapply rmatch_complete; [exact H|discriminate].
Qed.

Lemma lang_cls : forall p s t,
  lang (RCls p) s t <-> exists c, s = c :: t /\ p c = true.
Proof.
  intros p s t. split.
  - intro H. inversion H; subst. eauto.
  - intros (c & -> & H). constructor. exact H.
Qed.
Lemma lang_char : forall x s t, lang (RChar x) s t <-> s = x :: t.
Proof.
  intros x s t. unfold RChar. rewrite lang_cls. split.
  - intros (c & -> & H). apply N.eqb_eq in H. congruence.
  - intros ->. exists x. split; [reflexivity|apply N.eqb_refl].
Qed.
Lemma lang_seq : forall a b s u,
  lang (RSeq a b) s u <-> exists t, lang a s t /\ lang b t u.
Proof.
  intros. split.
  - intro H. inversion H; subst. eauto.
  - intros (t & H1 & H2). econstructor; eassumption.
Qed.
Lemma lang_alt : forall a b s t,
  lang (RAlt a b) s t <-> lang a s t \/ lang b s t.
Proof.
  intros. split.
  - intro H. inversion H; subst; auto.
  - intros [H|H]; [apply LAltL|apply LAltR]; exact H.
Qed.
Lemma lang_opt : forall a s t, lang (ROpt a) s t <-> s = t \/ lang a s t.
Proof.
  intros. split.
  - intro H. inversion H; subst; auto.
  - intros [->|H]; [apply LOpt0|apply LOptS; exact H].
Qed.
Lemma lang_eol : forall s t, lang REol s t <-> s = t /\ (s = [] \/ s = [c_nl]).
Proof.
  intros. split.
  - intro H. inversion H; subst; auto.
  - intros [-> [-> | ->]]; constructor.
Qed.

(** Consuming a class repeatedly. *)
Lemma lang_star_cls : forall p s t,
  lang (RStar (RCls p)) s t <-> exists u, s = u ++ t /\ forallb p u = true.
Proof.
  intros p s t. split.
  - intro H. remember (RStar (RCls p)) as r eqn:E. induction H; try discriminate.
    + exists []. auto.
    + injection E as ->. destruct (IHlang2 eq_refl) as (v & -> & Hv).
      apply lang_cls in H. destruct H as (c & -> & Hc).
      exists (c :: v). split; [reflexivity|].
      cbn [forallb]. rewrite Hc. exact Hv.
  - intros (v & -> & H). induction v as [|c v IH]; cbn [app]; [constructor|].
    cbn [forallb] in H. apply andb_prop in H. destruct H as [H1 H2].
    eapply LStarS; [constructor; exact H1|simpl; lia|apply IH, H2].
Qed.

Lemma lang_plus_cls : forall p s t,
  lang (RPlus (RCls p)) s t
  <-> exists u, u <> [] /\ s = u ++ t /\ forallb p u = true.
Proof.
  intros p s t. unfold RPlus. rewrite lang_seq. split.
  - intros (s' & H1 & H2). apply lang_cls in H1. destruct H1 as (c & -> & Hc).
    apply lang_star_cls in H2. destruct H2 as (u & -> & Hu).
    exists (c :: u). split; [discriminate|]. split; [reflexivity|].
    cbn [forallb]. rewrite Hc. exact Hu.
  - intros ([|c u] & Hne & -> & Hu); [congruence|].
    cbn [forallb] in Hu. apply andb_prop in Hu. destruct Hu as [Hc Hu].
    exists (u ++ t). split; [apply lang_cls; exists c; auto|].
    apply lang_star_cls. exists u. auto.
Qed.
