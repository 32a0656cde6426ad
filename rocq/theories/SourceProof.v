(** * Programs given in several ways: proofs *)

From Coq Require Import List NArith Bool.
From Verif Require Import PyStr Heap Exec Main SpecMain Source SpecSource.
From Verif Require MainProof.
Import ListNotations.

Lemma read_from lines : forall acc,
  fold_left (fun program l => program ++ (l ++ [10%N])) lines acc
  = acc ++ match lines with [] => [] | _ => program_text lines ++ [10%N] end.
Proof.
  induction lines as [|l lines IH]; intros acc; [symmetry; apply app_nil_r|].
  cbn [fold_left]. rewrite IH, <- app_assoc. f_equal.
  destruct lines as [|l2 lines]; [rewrite app_nil_r; reflexivity|].
  change (program_text (l :: l2 :: lines)) with (l ++ 10%N :: program_text (l2 :: lines)).
  rewrite <- !app_assoc. reflexivity.
Qed.
Theorem read_text lines : read_program lines = program_text lines.
Proof.
  unfold read_program. rewrite read_from. cbn [app]. destruct lines as [|l lines]; [reflexivity|].
  set (t := program_text (l :: lines)).
  destruct (t ++ [10%N]) eqn:E; [destruct t; discriminate|]. rewrite <- E. apply removelast_last.
Qed.
Theorem any_text t : exists lines, Forall is_line lines /\ program_text lines = t.
Proof.
  assert (H : exists l lines, Forall is_line (l :: lines) /\ program_text (l :: lines) = t).
  { induction t as [|c t (l & lines & F & E)].
    - exists [], []. split; [constructor; [intros []|constructor]|reflexivity].
    - inversion F as [|? ? Hl Hs]; subst. destruct (N.eq_dec c 10) as [->|N].
      + exists [], (l :: lines). split; [constructor; [intros []|exact F]|reflexivity].
      + exists (c :: l), lines. split; [|destruct lines; reflexivity].
        constructor; [|exact Hs]. intros [X|X]; [congruence|contradiction]. }
  destruct H as (l & lines & F & E). eauto.
Qed.
Theorem stdin_program n o files input :
  pip_command n None SStdin o files input
  = pip_command n None (SExecute (program_text (w_in input))) o files (mkworld [] (w_rand input)).
Proof. cbn [pip_command]. rewrite read_text. reflexivity. Qed.
Theorem stdin_readlines n o files input sts :
  op_readlines o = true -> complete (program_text (w_in input)) sts ->
  pip_command n None SStdin o files input
  = Ran (pip_main n (given o []) (mkworld [] (w_rand input)) (program_text (w_in input))).
Proof.
  intros R C. rewrite stdin_program. cbn [pip_command]. f_equal.
  exact (MainProof.readlines_eq n o (mkworld [] (w_rand input)) _ sts R C).
Qed.
