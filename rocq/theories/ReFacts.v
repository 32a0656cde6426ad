(** * Facts about the regex matcher *)

From Coq Require Import List NArith Bool Arith Lia.
From Verif Require Import PyStr PyRe.
Import ListNotations.

Lemma rmatch_star_cls {X} : forall p s (k : str -> option X),
  rmatch (RStar (RCls p)) s k =
  match s with
  | c :: s' => if p c then match rmatch (RStar (RCls p)) s' k with
                           | Some x => Some x
                           | None => k s
                           end
               else k s
  | [] => k s
  end.
Proof.
  intros p s k. destruct s as [|c s']; [reflexivity|].
  simpl. destruct (p c) eqn:E; [|reflexivity].
  replace (length s' <? S (length s')) with true
    by (symmetry; apply Nat.ltb_lt; lia).
  reflexivity.
Qed.

(** Greedy: if the continuation accepts after the longest run, that wins. *)
Lemma rmatch_star_greedy {X} : forall p s (k : str -> option X) x,
  k (drop_while p s) = Some x -> rmatch (RStar (RCls p)) s k = Some x.
Proof.
  induction s as [|c s IH]; intros k x H; rewrite rmatch_star_cls.
  - exact H.
  - simpl in H. destruct (p c); [|exact H]. rewrite (IH k x H). reflexivity.
Qed.

(** No backtracking success: if the continuation rejects every suffix that
    starts inside the run, the result is that of the longest run. *)
Lemma rmatch_star_exact {X} : forall p s (k : str -> option X),
  (forall c t, p c = true -> k (c :: t) = None) ->
  rmatch (RStar (RCls p)) s k = k (drop_while p s).
Proof.
  induction s as [|c s IH]; intros k H; rewrite rmatch_star_cls; cbn [drop_while].
  - reflexivity.
  - destruct (p c) eqn:E; [|reflexivity].
    rewrite (IH k H). destruct (k (drop_while p s)); [reflexivity|].
    apply H, E.
Qed.

(** The loops of [rmatch] as functions of their own. *)
Section Loops.
  Context {X : Type}.
  Variable m : str -> (str -> option X) -> option X.
  Variable k : str -> option X.
  Fixpoint star_loop (n : nat) (s : str) : option X :=
    match n with
    | O => k s
    | S n' =>
        match m s (fun s' => if length s' <? length s
                             then star_loop n' s' else None) with
        | Some x => Some x
        | None => k s
        end
    end.
  Fixpoint lazy_loop (n : nat) (s : str) : option X :=
    match n with
    | O => k s
    | S n' =>
        match k s with
        | Some x => Some x
        | None => m s (fun s' => if length s' <? length s
                                 then lazy_loop n' s' else None)
        end
    end.
End Loops.

Lemma rmatch_star {X} : forall r s (k : str -> option X),
  rmatch (RStar r) s k = star_loop (rmatch r) k (S (length s)) s.
Proof. reflexivity. Qed.
Lemma rmatch_lazy {X} : forall r s (k : str -> option X),
  rmatch (RLazy r) s k = lazy_loop (rmatch r) k (S (length s)) s.
Proof. reflexivity. Qed.

Lemma rmatch_ext {X} : forall r s (k k' : str -> option X),
  (forall t, k t = k' t) -> rmatch r s k = rmatch r s k'.
Proof.
  induction r; intros s k k' H.
  - apply H.
  - simpl. destruct s; [reflexivity|]. destruct (p c); auto.
  - simpl. apply IHr1. intro t. apply IHr2, H.
  - simpl. rewrite (IHr1 s k k' H), (IHr2 s k k' H). reflexivity.
  - rewrite !rmatch_star. generalize (S (length s)) as n. intro n. revert s.
    induction n as [|n IHn]; intro s; [apply H|]. cbn [star_loop].
    erewrite IHr.
    + rewrite H. reflexivity.
    + intro t. cbv beta. destruct (length t <? length s); [apply IHn|reflexivity].
  - rewrite !rmatch_lazy. generalize (S (length s)) as n. intro n. revert s.
    induction n as [|n IHn]; intro s; [apply H|]. cbn [lazy_loop].
    rewrite H. destruct (k' s); [reflexivity|].
    apply IHr. intro t. destruct (length t <? length s); [apply IHn|reflexivity].
  - simpl. rewrite (IHr s k k' H), H. reflexivity.
  - simpl. destruct s as [|c [|d s]]; auto. destruct (N.eqb c c_nl); auto.
Qed.

Lemma drop_while_all : forall {A} (p : A -> bool) l,
  forallb p l = true -> drop_while p l = [].
Proof.
  induction l as [|x l IH]; simpl; intro H; [reflexivity|].
  apply andb_prop in H. destruct H as [H1 H2]. rewrite H1. apply IH, H2.
Qed.

Lemma drop_while_app : forall {A} (p : A -> bool) l r,
  forallb p l = true -> drop_while p (l ++ r) = drop_while p r.
Proof.
  induction l as [|x l IH]; simpl; intros r H; [reflexivity|].
  apply andb_prop in H. destruct H as [H1 H2]. rewrite H1. apply IH, H2.
Qed.

Lemma drop_while_stop : forall {A} (p : A -> bool) x r,
  p x = false -> drop_while p (x :: r) = x :: r.
Proof. intros A p x r H. simpl. rewrite H. reflexivity. Qed.

Lemma take_drop_while : forall {A} (p : A -> bool) l,
  take_while p l ++ drop_while p l = l.
Proof.
  induction l as [|x l IH]; simpl; [reflexivity|].
  destruct (p x); simpl; [rewrite IH|]; reflexivity.
Qed.

Lemma take_while_all : forall {A} (p : A -> bool) l,
  forallb p (take_while p l) = true.
Proof.
  induction l as [|x l IH]; simpl; [reflexivity|].
  destruct (p x) eqn:E; simpl; [rewrite E|]; auto.
Qed.

Lemma drop_while_head : forall {A} (p : A -> bool) l x r,
  drop_while p l = x :: r -> p x = false.
Proof.
  induction l as [|y l IH]; simpl; intros x r H; [discriminate|].
  destruct (p y) eqn:E; [eapply IH, H|]. inversion H; subst; exact E.
Qed.

Lemma matched_app : forall s t, matched (s ++ t) t = s.
Proof.
  intros. unfold matched. rewrite app_length.
  replace (length s + length t - length t) with (length s) by lia.
  rewrite firstn_app, firstn_all, Nat.sub_diag. simpl. apply app_nil_r.
Qed.

Lemma matched_nil : forall s, matched s [] = s.
Proof.
  intros. unfold matched. simpl. rewrite Nat.sub_0_r. apply firstn_all.
Qed.
