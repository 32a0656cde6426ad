(** * Facts about numerals: reading back what was printed *)

From Coq Require Import List NArith ZArith Bool Arith Lia.
From Verif Require Import PyStr PyRe PyNum ReFacts.
Import ListNotations.

(** ** Digits in a base *)

Section Digits.
  Variable b : N.
  Hypothesis Hb : (2 <= b)%N.

  Lemma digits_aux_acc : forall fuel n acc,
    digits_aux fuel b n acc = digits_aux fuel b n [] ++ acc.
  Proof.
    induction fuel as [|f IH]; intros n acc; simpl; [reflexivity|].
    destruct (N.eqb n 0); [reflexivity|].
    rewrite IH, (IH _ [N.modulo n b]), <- app_assoc. reflexivity.
  Qed.

  Lemma value_app : forall l a,
    fold_left (fun acc d => acc * b + d)%N l a =
    (a * b ^ N.of_nat (length l) + value_of_digits b l)%N.
  Proof.
    unfold value_of_digits.
    induction l as [|d l IH]; intro a.
    - simpl. rewrite N.mul_1_r, N.add_0_r. reflexivity.
    - cbn [fold_left length]. rewrite IH, (IH (0 * b + d)%N).
      rewrite Nat2N.inj_succ, N.pow_succ_r'. lia.
  Qed.

  Lemma value_snoc : forall l d,
    value_of_digits b (l ++ [d]) = (value_of_digits b l * b + d)%N.
  Proof. intros. unfold value_of_digits. rewrite fold_left_app. reflexivity. Qed.

  Lemma value_cons : forall l d,
    value_of_digits b (d :: l) =
    (d * b ^ N.of_nat (length l) + value_of_digits b l)%N.
  Proof.
    intros. unfold value_of_digits at 1. cbn [fold_left].
    rewrite value_app. lia.
  Qed.

  Lemma digits_aux_value : forall fuel n,
    (n < 2 ^ N.of_nat fuel)%N ->
    value_of_digits b (digits_aux fuel b n []) = n.
  Proof.
    induction fuel as [|f IH]; intros n Hn.
    - simpl in Hn. replace n with 0%N by lia. reflexivity.
    - cbn [digits_aux]. destruct (N.eqb_spec n 0) as [->|Hz]; [reflexivity|].
      rewrite digits_aux_acc, value_snoc, IH.
      + rewrite N.mul_comm. symmetry. apply N.div_mod. lia.
      + rewrite Nat2N.inj_succ, N.pow_succ_r' in Hn.
        apply N.div_lt_upper_bound; [lia|]. nia.
  Qed.

  Lemma size_bound : forall n, (n < 2 ^ N.of_nat (N.size_nat n))%N.
  Proof.
    intros [|p]; [vm_compute; reflexivity|]. cbn [N.size_nat].
    induction p as [p IH|p IH|]; cbn [Pos.size_nat];
      rewrite ?Nat2N.inj_succ, ?N.pow_succ_r'; [lia|lia|vm_compute; reflexivity].
  Qed.

  Lemma digits_of_value : forall n, value_of_digits b (digits_of b n) = n.
  Proof. intro n. apply digits_aux_value, size_bound. Qed.

  Lemma digits_aux_lt : forall fuel n,
    Forall (fun d => (d < b)%N) (digits_aux fuel b n []).
  Proof.
    induction fuel as [|f IH]; intro n; simpl; [constructor|].
    destruct (N.eqb n 0); [constructor|].
    rewrite digits_aux_acc. apply Forall_app. split; [apply IH|].
    constructor; [|constructor]. apply N.mod_lt. lia.
  Qed.
  Lemma digits_of_lt : forall n, Forall (fun d => (d < b)%N) (digits_of b n).
  Proof. intro n. apply digits_aux_lt. Qed.

  (** No leading zero. *)
  Lemma digits_aux_head : forall fuel n d l,
    (n < 2 ^ N.of_nat fuel)%N -> digits_aux fuel b n [] = d :: l -> d <> 0%N.
  Proof.
    induction fuel as [|f IH]; intros n d l Hn H; [discriminate|].
    cbn [digits_aux] in H. destruct (N.eqb_spec n 0) as [->|Hz]; [discriminate|].
    rewrite digits_aux_acc in H.
    assert (Hd : (n / b < 2 ^ N.of_nat f)%N).
    { rewrite Nat2N.inj_succ, N.pow_succ_r' in Hn.
      apply N.div_lt_upper_bound; [lia|]. nia. }
    destruct (digits_aux f b (n / b) []) as [|d' l'] eqn:E.
    - inversion H; subst. intro Hm.
      assert (n / b = 0)%N.
      { rewrite <- (digits_aux_value f (n / b) Hd), E. reflexivity. }
      pose proof (N.div_mod n b ltac:(lia)). nia.
    - inversion H; subst. eapply IH; [exact Hd|exact E].
  Qed.
  Lemma digits_of_head : forall n d l, digits_of b n = d :: l -> d <> 0%N.
  Proof. intros n d l. apply digits_aux_head, size_bound. Qed.

  Lemma digits_of_nil : forall n, digits_of b n = [] <-> n = 0%N.
  Proof.
    intro n. split.
    - intro H. rewrite <- (digits_of_value n), H. reflexivity.
    - intros ->. reflexivity.
  Qed.
End Digits.

(** ** Decimal text *)

Lemma digit_value_ascii : forall d, (d < 10)%N -> digit_value (48 + d)%N = Some d.
Proof.
  intros d H. unfold digit_value, zero_table. cbn [digit_value_in].
  replace (48 <=? 48 + d)%N with true by (symmetry; apply N.leb_le; lia).
  replace (48 + d <? 48 + 10)%N with true by (symmetry; apply N.ltb_lt; lia).
  cbn [andb]. f_equal. lia.
Qed.

Lemma is_digit_ascii : forall d, (d < 10)%N -> is_digit (48 + d)%N = true.
Proof. intros d H. unfold is_digit. rewrite digit_value_ascii; auto. Qed.

Lemma digit_val0_ascii : forall d, (d < 10)%N -> digit_val0 (48 + d)%N = d.
Proof. intros d H. unfold digit_val0. rewrite digit_value_ascii; auto. Qed.

Definition ascii_digits (s : str) : Prop :=
  Forall (fun c => (48 <= c < 58)%N) s.

Lemma str_of_N_digits : forall n, ascii_digits (str_of_N n).
Proof.
  intro n. unfold str_of_N, ascii_digits.
  destruct (N.eqb n 0); [repeat constructor; lia|].
  apply Forall_map. eapply Forall_impl; [|apply digits_of_lt; lia].
  intros d Hd. cbv beta in *. lia.
Qed.

Lemma str_of_N_cons : forall n, exists c r, str_of_N n = c :: r.
Proof.
  intro n. unfold str_of_N. destruct (N.eqb_spec n 0) as [->|H]; [eauto|].
  destruct (digits_of 10 n) as [|d l] eqn:E; [|simpl; eauto].
  apply digits_of_nil in E; [contradiction|lia].
Qed.

Lemma ascii_is_digit : forall c, (48 <= c < 58)%N -> is_digit c = true.
Proof.
  intros c H. replace c with (48 + (c - 48))%N by lia.
  apply is_digit_ascii. lia.
Qed.

Lemma ascii_digits_forallb : forall s,
  ascii_digits s -> forallb is_digit s = true.
Proof.
  intros s H. apply forallb_forall. intros c Hc.
  apply ascii_is_digit. unfold ascii_digits in H. rewrite Forall_forall in H.
  apply H, Hc.
Qed.

Lemma N_of_digits_str : forall n, N_of_digits (str_of_N n) = n.
Proof.
  intro n. unfold N_of_digits, str_of_N.
  destruct (N.eqb_spec n 0) as [->|Hz]; [reflexivity|].
  rewrite map_map, (map_ext_in _ (fun d => d)), map_id.
  - apply digits_of_value. lia.
  - intros d Hd. apply digit_val0_ascii.
    assert (H10 : (2 <= 10)%N) by lia.
    pose proof (digits_of_lt 10 H10 n) as H. rewrite Forall_forall in H. auto.
Qed.

(** Characters that are neither digits nor blank; numerals start with a digit
    or a minus sign. *)
Lemma minus_not_digit : is_digit c_minus = false. Proof. reflexivity. Qed.
Lemma dot_not_digit : is_digit c_dot = false. Proof. reflexivity. Qed.
Lemma minus_not_space : is_space c_minus = false. Proof. reflexivity. Qed.

Lemma ascii_not_space : forall c, (48 <= c < 58)%N -> is_space c = false.
Proof.
  intros c H. unfold is_space, space_table. cbn [existsb].
  repeat match goal with
  | |- context [N.eqb c ?n] =>
      replace (N.eqb c n) with false by (symmetry; apply N.eqb_neq; lia)
  end. reflexivity.
Qed.

Lemma ascii_not_minus : forall c, (48 <= c < 58)%N -> N.eqb c_minus c = false.
Proof. intros c H. apply N.eqb_neq. unfold c_minus. lia. Qed.

(** ** Matching numerals *)

Lemma match_plus_digits : forall {X} s (k : str -> option X),
  (forall c t, is_digit c = true -> k (c :: t) = None) ->
  rmatch (RPlus RDigit) s k =
  match s with
  | c :: s' => if is_digit c then k (drop_while is_digit s') else None
  | [] => None
  end.
Proof.
  intros X s k H. unfold RPlus, RDigit. cbn [rmatch].
  destruct s as [|c s']; [reflexivity|]. destruct (is_digit c); [|reflexivity].
  apply (rmatch_star_exact is_digit s' k H).
Qed.

Lemma match_plus_digits_some : forall s,
  rmatch (RPlus RDigit) s Some =
  match s with
  | c :: s' => if is_digit c then Some (drop_while is_digit s') else None
  | [] => None
  end.
Proof.
  intro s. unfold RPlus, RDigit. cbn [rmatch].
  destruct s as [|c s']; [reflexivity|]. destruct (is_digit c); [|reflexivity].
  apply (rmatch_star_greedy is_digit s' Some). reflexivity.
Qed.

Lemma match_int_unsigned : forall c s,
  is_digit c = true -> match_re int_re (c :: s) = Some (drop_while is_digit s).
Proof.
  intros c s H. unfold match_re, int_re.
  assert (Hm : N.eqb c_minus c = false).
  { apply N.eqb_neq. intros <-. discriminate H. }
  unfold RChar. cbn [rmatch]. rewrite Hm.
  change (rmatch (RPlus RDigit) (c :: s) Some = Some (drop_while is_digit s)).
  rewrite match_plus_digits_some, H. reflexivity.
Qed.

Lemma match_int_signed : forall c s,
  is_digit c = true ->
  match_re int_re (c_minus :: c :: s) = Some (drop_while is_digit s).
Proof.
  intros c s H. unfold match_re, int_re, RChar. cbn [rmatch].
  rewrite N.eqb_refl.
  change (match rmatch (RPlus RDigit) (c :: s) Some with
          | Some x => Some x
          | None => rmatch (RPlus RDigit) (c_minus :: c :: s) Some
          end = Some (drop_while is_digit s)).
  rewrite match_plus_digits_some, H. reflexivity.
Qed.

(** An integer numeral not followed by a dot or an exponent is not a float. *)
Lemma no_exp_nil : forall {X} (k : str -> option X), rmatch exp_re [] k = None.
Proof. reflexivity. Qed.

Lemma match_float_digits : forall c s,
  is_digit c = true -> forallb is_digit s = true ->
  rmatch (RAlts [RSeq (RPlus RDigit)
                    (RSeq (RChar c_dot) (RSeq (RStar RDigit) (ROpt exp_re)));
               RSeq (RPlus RDigit) exp_re;
               RSeq (RChar c_dot) (RSeq (RPlus RDigit) (ROpt exp_re))])
         (c :: s) (@Some str) = None.
Proof.
  intros c s Hc Hs. cbn [RAlts].
  set (A := RSeq (RPlus RDigit) (RSeq (RChar c_dot) (RSeq (RStar RDigit) (ROpt exp_re)))).
  set (B := RSeq (RPlus RDigit) exp_re).
  set (C := RSeq (RChar c_dot) (RSeq (RPlus RDigit) (ROpt exp_re))).
  cbn [rmatch].
  assert (HA : rmatch A (c :: s) (@Some str) = None).
  { unfold A. change (rmatch (RPlus RDigit) (c :: s)
      (fun s' => rmatch (RSeq (RChar c_dot) (RSeq (RStar RDigit) (ROpt exp_re))) s' (@Some str)) = None).
    rewrite match_plus_digits.
    - rewrite Hc, drop_while_all by exact Hs. reflexivity.
    - intros d t Hd. unfold RChar. cbn [rmatch].
      destruct (N.eqb_spec c_dot d) as [<-|]; [discriminate Hd|reflexivity]. }
  assert (HB : rmatch B (c :: s) (@Some str) = None).
  { unfold B. change (rmatch (RPlus RDigit) (c :: s)
      (fun s' => rmatch exp_re s' (@Some str)) = None).
    rewrite match_plus_digits.
    - rewrite Hc, drop_while_all by exact Hs. reflexivity.
    - intros d t Hd. unfold exp_re, RChar. cbn [rmatch].
      destruct (N.eqb_spec 101 d) as [<-|]; [discriminate Hd|reflexivity]. }
  assert (HC : rmatch C (c :: s) (@Some str) = None).
  { unfold C, RChar. cbn [rmatch].
    destruct (N.eqb_spec c_dot c) as [<-|]; [discriminate Hc|reflexivity]. }
  rewrite HA, HB, HC. reflexivity.
Qed.

Lemma match_float_minus : forall s,
  rmatch (RAlts [RSeq (RPlus RDigit)
                    (RSeq (RChar c_dot) (RSeq (RStar RDigit) (ROpt exp_re)));
               RSeq (RPlus RDigit) exp_re;
               RSeq (RChar c_dot) (RSeq (RPlus RDigit) (ROpt exp_re))])
         (c_minus :: s) (@Some str) = None.
Proof. reflexivity. Qed.

Lemma match_float_unsigned : forall c s,
  is_digit c = true -> forallb is_digit s = true ->
  match_re py_float_re (c :: s) = None.
Proof.
  intros c s Hc Hs.
  pose proof (match_float_digits c s Hc Hs) as H.
  unfold match_re, py_float_re.
  set (Q := RAlts _) in *. unfold RChar. cbn [rmatch].
  assert (Hm : N.eqb c_minus c = false).
  { apply N.eqb_neq. intros <-. discriminate Hc. }
  rewrite Hm. exact H.
Qed.

Lemma match_float_signed : forall c s,
  is_digit c = true -> forallb is_digit s = true ->
  match_re py_float_re (c_minus :: c :: s) = None.
Proof.
  intros c s Hc Hs.
  pose proof (match_float_digits c s Hc Hs) as H.
  pose proof (match_float_minus (c :: s)) as H'.
  unfold match_re, py_float_re.
  set (Q := RAlts _) in *. unfold RChar. cbn [rmatch].
  rewrite N.eqb_refl, H. exact H'.
Qed.

(** ** [int(str(z)) = z] and the number of an integer Scalar *)

Lemma str_of_Z_shape : forall z,
  exists c r, forallb is_digit (c :: r) = true /\ ascii_digits (c :: r)
    /\ N_of_digits (c :: r) = Z.abs_N z
    /\ str_of_Z z = (if (z <? 0)%Z then [c_minus] else []) ++ c :: r.
Proof.
  intro z. destruct (str_of_N_cons (Z.abs_N z)) as [c [r E]].
  exists c, r. pose proof (str_of_N_digits (Z.abs_N z)) as H. rewrite E in H.
  split; [apply ascii_digits_forallb, H|]. split; [exact H|].
  split; [rewrite <- E; apply N_of_digits_str|].
  unfold str_of_Z. rewrite E. destruct (z <? 0)%Z; reflexivity.
Qed.

Lemma Z_of_numeral_unsigned : forall c s,
  is_digit c = true -> Z_of_numeral (c :: s) = Z.of_N (N_of_digits (c :: s)).
Proof.
  intros c s H. unfold Z_of_numeral.
  destruct (N.eqb_spec c c_minus) as [->|]; [discriminate H|reflexivity].
Qed.

Lemma Z_of_numeral_str : forall z, Z_of_numeral (str_of_Z z) = z.
Proof.
  intro z. destruct (str_of_Z_shape z) as (c & r & Hd & _ & Hv & E).
  rewrite E. simpl in Hd. apply andb_prop in Hd. destruct Hd as [Hc _].
  destruct (Z.ltb_spec z 0); cbn [app].
  - unfold Z_of_numeral. rewrite N.eqb_refl, Hv. lia.
  - rewrite Z_of_numeral_unsigned, Hv by exact Hc. lia.
Qed.

Lemma lstrip_numeral : forall z, lstrip is_space (str_of_Z z) = str_of_Z z.
Proof.
  intro z. destruct (str_of_Z_shape z) as (c & r & _ & Ha & _ & E).
  rewrite E. unfold lstrip. destruct (z <? 0)%Z; cbn [app].
  - reflexivity.
  - apply drop_while_stop. inversion Ha; subst. apply ascii_not_space; auto.
Qed.

Lemma match_int_str : forall z, match_re int_re (str_of_Z z) = Some [].
Proof.
  intro z. destruct (str_of_Z_shape z) as (c & r & Hd & _ & _ & E).
  rewrite E. simpl in Hd. apply andb_prop in Hd. destruct Hd as [Hc Hr].
  destruct (z <? 0)%Z; cbn [app].
  - rewrite match_int_signed, drop_while_all; auto.
  - rewrite match_int_unsigned, drop_while_all; auto.
Qed.

Lemma match_float_str : forall z, match_re py_float_re (str_of_Z z) = None.
Proof.
  intro z. destruct (str_of_Z_shape z) as (c & r & Hd & _ & _ & E).
  rewrite E. simpl in Hd. apply andb_prop in Hd. destruct Hd as [Hc Hr].
  destruct (z <? 0)%Z; cbn [app].
  - apply match_float_signed; auto.
  - apply match_float_unsigned; auto.
Qed.

Lemma scalar_int_str : forall z, scalar_int (str_of_Z z) = z.
Proof.
  intro z. unfold scalar_int. cbv zeta. rewrite lstrip_numeral, match_int_str.
  rewrite matched_nil. apply Z_of_numeral_str.
Qed.

Lemma to_number_str : forall z, to_number (str_of_Z z) = NI z.
Proof.
  intro z. unfold to_number. cbv zeta.
  rewrite lstrip_numeral, match_float_str, match_int_str.
  rewrite matched_nil, Z_of_numeral_str. reflexivity.
Qed.

Lemma str_of_Z_inj : forall a b, str_of_Z a = str_of_Z b -> a = b.
Proof.
  intros a b H. rewrite <- (scalar_int_str a), H. apply scalar_int_str.
Qed.
