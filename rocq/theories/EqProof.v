(** * == *)

From Coq Require Import String List NArith ZArith Bool.
From Verif Require Import PyStr Tokens OpFun OpTable Unparse PTypes Ops Apply Spec StrFacts PFacts RunOp.
From Verif Require NumProof2.
Import ListNotations.
Local Open Scope string_scope.
Local Open Scope list_scope.

Lemma run_same fmt a b : run_op fmt "==" [a; b] = ret (PScal (s_ (if p_eqb a b then "1" else "0"))).
Proof. transitivity (op_OBJEQUAL a b); [destruct a, b; run_plain; reflexivity|]. unfold op_OBJEQUAL. destruct (p_eqb a b); reflexivity. Qed.

Lemma optZ_refl o : optZ_eqb o o = true.
Proof. apply optZ_eqb_eq. reflexivity. Qed.
Lemma str_refl s : str_eqb s s = true.
Proof. apply str_eqb_eq. reflexivity. Qed.

Lemma p_eqb_refl : forall a, p_eqb a a = true.
Proof.
  intro a. pattern a.
  apply NumProof2.pval_full_ind with (Q := fun t => tree_eqb p_eqb t t = true); clear a.
  - intros s. apply str_refl.
  - intros r f. cbn. rewrite str_refl, N.eqb_refl. reflexivity.
  - intros l IH. cbn. induction IH as [|x l Hx _ IHl]; [reflexivity|]. rewrite Hx. exact IHl.
  - intros lo hi. cbn. rewrite !optZ_refl. reflexivity.
  - intros sts r Hs Hr. cbn. rewrite Hr, andb_true_r.
    induction Hs as [|x l Hx _ IHl]; [reflexivity|]. rewrite Hx. exact IHl.
  - reflexivity.
  - intros t. apply str_refl.
  - intros v Hv. exact Hv.
  - intros o. apply str_refl.
  - intros o l IH. cbn. rewrite str_refl. cbn [andb]. induction IH as [|x l Hx _ IHl]; [reflexivity|]. rewrite Hx. exact IHl.
  - intros l IH. cbn. induction IH as [|x l Hx _ IHl]; [reflexivity|]. rewrite Hx. exact IHl.
  - intros o l IH. cbn. rewrite str_refl. cbn [andb]. induction IH as [|x l Hx _ IHl]; [reflexivity|]. rewrite Hx. exact IHl.
Qed.

Section Lists.
  Context {A : Type}.
  Variable e : A -> A -> bool.
  Definition all_same := fix go (l1 l2 : list A) : bool :=
    match l1, l2 with
    | [], [] => true
    | x :: l1', y :: l2' => e x y && go l1' l2'
    | _, _ => false
    end.
  Lemma all_same_trans l : Forall (fun x => forall y z, e x y = true -> e y z = true -> e x z = true) l ->
    forall l2 l3, all_same l l2 = true -> all_same l2 l3 = true -> all_same l l3 = true.
  Proof.
    induction 1 as [|x l Hx _ IH]; intros [|y l2] [|z l3]; cbn; try discriminate; try reflexivity.
    rewrite !andb_true_iff. intros [A1 A2] [B1 B2]. split; [eapply Hx; eassumption|eapply IH; eassumption].
  Qed.
End Lists.

Lemma str_trans a b c : str_eqb a b = true -> str_eqb b c = true -> str_eqb a c = true.
Proof. rewrite !str_eqb_eq. congruence. Qed.

Lemma p_eqb_trans : forall a b c, p_eqb a b = true -> p_eqb b c = true -> p_eqb a c = true.
Proof.
  intro a. pattern a.
  apply NumProof2.pval_full_ind with (Q := fun t => forall u w,
    tree_eqb p_eqb t u = true -> tree_eqb p_eqb u w = true -> tree_eqb p_eqb t w = true); clear a.
  - intros s [t| | | | |] [u| | | | |]; try discriminate. apply str_trans.
  - intros r f [|r' f'| | | |] [|r2 f2| | | |]; try discriminate. cbn. rewrite !andb_true_iff, !str_eqb_eq, !N.eqb_eq.
    intuition congruence.
  - intros l IH [ | |l2| | |] [ | |l3| | |]; try discriminate. cbn. fold (all_same p_eqb).
    apply all_same_trans. exact IH.
  - intros lo hi [ | | |lo' hi'| |] [ | | |lo2 hi2| |]; try discriminate. cbn.
    rewrite !andb_true_iff, !optZ_eqb_eq. intuition congruence.
  - intros sts r Hs Hr [ | | | |sts' r'|] [ | | | |sts2 r2|]; try discriminate. cbn. fold (all_same (tree_eqb p_eqb)).
    rewrite !andb_true_iff. intros [A1 A2] [B1 B2]. split; [|eapply Hr; eassumption].
    eapply all_same_trans; eassumption.
  - intros [| | | | |] [| | | | |]; try discriminate. reflexivity.
  - intros t [u|u|u|o l|l|c l] [w|w|w|o' l'|l'|c' l']; try discriminate; apply str_trans.
  - intros v Hv [u|u|u|o l|l|c l] [w|w|w|o' l'|l'|c' l']; try discriminate. cbn. apply Hv.
  - intros t [u|u|u|o l|l|c l] [w|w|w|o' l'|l'|c' l']; try discriminate; apply str_trans.
  - intros o l IH [u|u|u|o2 l2|l2|c l2] [w|w|w|o' l'|l'|c' l']; try discriminate. cbn.
    fold (all_same (tree_eqb p_eqb)). rewrite !andb_true_iff. intros [A1 A2] [B1 B2].
    split; [eapply str_trans; eassumption|eapply all_same_trans; eassumption].
  - intros l IH [u|u|u|o2 l2|l2|c l2] [w|w|w|o' l'|l'|c' l']; try discriminate. cbn.
    fold (all_same (tree_eqb p_eqb)). apply all_same_trans. exact IH.
  - intros o l IH [u|u|u|o2 l2|l2|c l2] [w|w|w|o' l'|l'|c' l']; try discriminate. cbn.
    fold (all_same (tree_eqb p_eqb)). rewrite !andb_true_iff. intros [A1 A2] [B1 B2].
    split; [eapply str_trans; eassumption|eapply all_same_trans; eassumption].
Qed.

Definition says (fmt : ofmt) (a b : pval) (t : string) : Prop := run_op fmt "==" [a; b] = ret (PScal (s_ t)).
Lemma says_one fmt a b : says fmt a b "1" <-> p_eqb a b = true.
Proof. unfold says. rewrite run_same. destruct (p_eqb a b); split; try reflexivity; discriminate. Qed.
Lemma says_zero fmt a b : says fmt a b "0" <-> p_eqb a b = false.
Proof. unfold says. rewrite run_same. destruct (p_eqb a b); split; try reflexivity; discriminate. Qed.

Theorem same_plain fmt a b : plain a = true \/ plain b = true ->
  (a = b -> says fmt a b "1") /\ (a <> b -> says fmt a b "0").
Proof.
  intros P. rewrite says_one, says_zero.
  assert (I : p_eqb a b = true <-> a = b) by (destruct P as [P|P]; [apply p_eqb_plain|apply p_eqb_plain_r]; exact P).
  split; [apply I|]. intros N. destruct (p_eqb a b); [destruct N; apply I; reflexivity|reflexivity].
Qed.
Theorem same_equiv fmt :
  (forall a, says fmt a a "1") /\ (forall a b t, says fmt a b t -> says fmt b a t)
  /\ (forall a b c, says fmt a b "1" -> says fmt b c "1" -> says fmt a c "1")
  /\ (forall a b, says fmt a b "1" \/ says fmt a b "0").
Proof.
  split; [intros a; apply says_one, p_eqb_refl|].
  split; [intros a b t; unfold says; rewrite !run_same, (NumProof2.p_eqb_sym b a); auto|].
  split; [intros a b c; rewrite !says_one; apply p_eqb_trans|].
  intros a b. rewrite says_one, says_zero. destruct (p_eqb a b); auto.
Qed.
