(** * Induction on values, equality, the warning monad *)

From Coq Require Import String List NArith ZArith Bool Arith Lia.
From Verif Require Import PyStr PyRe PyNum Tokens OpFun OpTable Unparse PTypes
                          Ops OpsSeq StrFacts Spec.
Import ListNotations.
Local Open Scope Z_scope.

Section PvalInd.
  Variable P : pval -> Prop.
  Hypothesis Hscal : forall s, P (PScal s).
  Hypothesis Hpat : forall r f, P (PPat r f).
  Hypothesis Hlist : forall l, Forall P l -> P (PList l).
  Hypothesis Hrange : forall lo hi, P (PRange lo hi).
  Hypothesis Hblock : forall sts r, P (PBlock sts r).
  Hypothesis Hnil : P PNil.
  Fixpoint pval_list_ind (v : pval) : P v :=
    match v with
    | PScal s => Hscal s
    | PPat r f => Hpat r f
    | PList l => Hlist l ((fix go (l : list pval) : Forall P l :=
                             match l with
                             | [] => Forall_nil P
                             | x :: l' => Forall_cons x (pval_list_ind x) (go l')
                             end) l)
    | PRange lo hi => Hrange lo hi
    | PBlock sts r => Hblock sts r
    | PNil => Hnil
    end.
End PvalInd.

Lemma optZ_eqb_eq : forall a b, optZ_eqb a b = true <-> a = b.
Proof.
  intros [x|] [y|]; simpl; split; intro H; try discriminate; try reflexivity.
  - apply Z.eqb_eq in H. congruence.
  - injection H as ->. apply Z.eqb_refl.
Qed.

(** On values without Blocks, Python's [==] is identity of values. *)
Lemma p_eqb_plain : forall a b, plain a = true -> (p_eqb a b = true <-> a = b).
Proof.
  induction a as [s|r f|l IH|lo hi|sts r|] using pval_list_ind; intros b Hp;
    destruct b; simpl in Hp |- *; try (split; discriminate); try discriminate;
    try (split; reflexivity).
  - rewrite str_eqb_eq. split; congruence.
  - rewrite andb_true_iff, str_eqb_eq, N.eqb_eq.
    split; [intros [-> ->]; reflexivity|intro H; injection H; auto].
  - revert l0. induction IH as [|x l Hx _ IHl]; intros [|y l0]; simpl in Hp |- *;
      try (split; discriminate); try (split; reflexivity).
    apply andb_true_iff in Hp. destruct Hp as [Hp1 Hp2].
    rewrite andb_true_iff, (Hx y Hp1), (IHl Hp2 l0).
    split; [intros [-> E]; injection E as ->; reflexivity|].
    intro H. injection H as -> ->. auto.
  - rewrite andb_true_iff, !optZ_eqb_eq.
    split; [intros [-> ->]; reflexivity|intro H; injection H; auto].
Qed.

Lemma bind_ret : forall {A B} (a : A) (f : A -> pm B), bind (ret a) f = f a.
Proof. intros. unfold bind, ret. destruct (f a) as [w r]. reflexivity. Qed.

Lemma bind_lift_val : forall {A B} (a : A) (f : A -> pm B),
  bind (lift (Val a)) f = f a.
Proof. intros. apply bind_ret. Qed.

Lemma p_eqb_plain_r : forall a b, plain b = true -> (p_eqb a b = true <-> a = b).
Proof.
  induction a as [s|r f|l IH|lo hi|sts r|] using pval_list_ind; intros b Hp;
    try (apply p_eqb_plain; reflexivity);
    destruct b; simpl in Hp |- *; try (split; discriminate); try discriminate.
  revert l0 Hp. induction IH as [|x l Hx _ IHl]; intros [|y l0] Hp; simpl in Hp |- *;
      try (split; discriminate); try (split; reflexivity).
  apply andb_true_iff in Hp. destruct Hp as [Hp1 Hp2].
  rewrite andb_true_iff, (Hx y Hp1), (IHl l0 Hp2).
  split; [intros [-> E]; injection E as ->; reflexivity|].
  intro H. injection H as -> ->. auto.
Qed.
