(** * Proofs for the number properties: integers, bases, bits, truth *)

From Coq Require Import String List NArith ZArith Bool Arith Lia.
From Verif Require Import PyStr PyRe PyNum Tokens OpFun OpTable Unparse PTypes
                          Ops OpsSeq Apply ReFacts StrFacts NumFacts NumCmp Spec
                          SpecRun
                          PFacts RunOp.
Import ListNotations.
Local Open Scope string_scope.
Local Open Scope list_scope.
Local Open Scope Z_scope.

(** ** Numerals *)

Lemma value_of_digits_Z : forall b ds acc,
  Z.of_N (fold_left (fun acc d => acc * b + d)%N ds acc)
  = fold_left (fun acc d => Z.of_N b * acc + Z.of_N d) ds (Z.of_N acc).
Proof.
  intros b. induction ds as [|d ds IH]; intro acc; [reflexivity|].
  cbn [fold_left]. rewrite IH. f_equal. lia.
Qed.

Lemma numeral_digits : forall ds, Forall (fun d => (d < 10)%N) ds ->
  map digit_val0 (map (fun d => (48 + d)%N) ds) = ds.
Proof.
  induction 1 as [|d ds Hd _ IH]; [reflexivity|].
  cbn [map]. rewrite digit_val0_ascii, IH by exact Hd. reflexivity.
Qed.

Lemma numeral_N : forall ds, Forall (fun d => (d < 10)%N) ds ->
  Z.of_N (N_of_digits (map (fun d => (48 + d)%N) ds)) = numeral_value false ds.
Proof.
  intros ds H. unfold N_of_digits, value_of_digits.
  rewrite numeral_digits, value_of_digits_Z by exact H. reflexivity.
Qed.

Lemma numeral_chars : forall ds, Forall (fun d => (d < 10)%N) ds ->
  forallb is_digit (map (fun d => (48 + d)%N) ds) = true.
Proof.
  induction 1 as [|d ds Hd _ IH]; [reflexivity|].
  cbn [map forallb]. rewrite is_digit_ascii by exact Hd. exact IH.
Qed.

Lemma numeral_shape : forall neg ds, decimal ds ->
  exists d r, ds = d :: r /\ is_digit (48 + d)%N = true
    /\ forallb is_digit (map (fun d => (48 + d)%N) r) = true
    /\ numeral neg ds = (if neg then [c_minus] else [])
                        ++ (48 + d)%N :: map (fun d => (48 + d)%N) r
    /\ (d < 10)%N.
Proof.
  intros neg [|d r] [H0 H]; [congruence|]. inversion H; subst.
  exists d, r. split; [reflexivity|]. split; [apply is_digit_ascii; auto|].
  split; [apply numeral_chars; auto|]. split; [|assumption].
  destruct neg; reflexivity.
Qed.

Lemma Z_of_numeral_numeral : forall neg ds, decimal ds ->
  Z_of_numeral (numeral neg ds) = numeral_value neg ds.
Proof.
  intros neg ds H. destruct (numeral_shape neg ds H) as (d & r & -> & Hd & Hr & E & _).
  rewrite E. destruct H as [_ H]. pose proof (numeral_N (d :: r) H) as HN.
  cbn [map] in HN. destruct neg; cbn [app].
  - unfold Z_of_numeral. rewrite N.eqb_refl, HN. reflexivity.
  - rewrite Z_of_numeral_unsigned by exact Hd. exact HN.
Qed.

Lemma lstrip_numeral' : forall neg ds t, decimal ds ->
  lstrip is_space (numeral neg ds ++ t) = numeral neg ds ++ t.
Proof.
  intros neg ds t H.
  destruct (numeral_shape neg ds H) as (d & r & -> & Hd & Hr & E & Hlt).
  rewrite E. unfold lstrip. destruct neg; cbn [app]; [reflexivity|].
  apply drop_while_stop, ascii_not_space. lia.
Qed.

Lemma match_int_numeral : forall neg ds t, decimal ds ->
  match t with c :: _ => is_digit c = false | [] => True end ->
  match_re int_re (numeral neg ds ++ t) = Some t.
Proof.
  intros neg ds t H Ht.
  destruct (numeral_shape neg ds H) as (d & r & -> & Hd & Hr & E & _).
  assert (Hdrop : drop_while is_digit (map (fun d => (48 + d)%N) r ++ t) = t).
  { clear -Hr Ht. induction (map (fun d => (48 + d)%N) r) as [|c l IH]; cbn [app].
    - destruct t as [|c t]; [reflexivity|]. apply drop_while_stop, Ht.
    - cbn [forallb] in Hr. apply andb_prop in Hr. destruct Hr as [H1 H2].
      cbn [drop_while]. rewrite H1. auto. }
  rewrite E. destruct neg; cbn [app].
  - refine (eq_trans (match_int_signed _ _ Hd) _). f_equal. exact Hdrop.
  - refine (eq_trans (match_int_unsigned _ _ Hd) _). f_equal. exact Hdrop.
Qed.

Lemma matched_app : forall a t, matched (a ++ t) t = a.
Proof.
  intros a t. unfold matched. rewrite app_length.
  replace (length a + length t - length t)%nat with (length a) by lia.
  rewrite firstn_app, Nat.sub_diag, firstn_all, firstn_O. apply app_nil_r.
Qed.

Lemma scalar_int_numeral : forall neg ds t, decimal ds ->
  match t with c :: _ => is_digit c = false | [] => True end ->
  scalar_int (numeral neg ds ++ t) = numeral_value neg ds.
Proof.
  intros neg ds t H Ht. unfold scalar_int. cbv zeta.
  rewrite lstrip_numeral', match_int_numeral, matched_app by assumption.
  apply Z_of_numeral_numeral, H.
Qed.

Lemma to_number_numeral : forall neg ds, decimal ds ->
  to_number (numeral neg ds) = NI (numeral_value neg ds).
Proof.
  intros neg ds H. unfold to_number. cbv zeta.
  rewrite <- (app_nil_r (numeral neg ds)).
  rewrite lstrip_numeral', match_int_numeral, matched_app by (auto; exact I).
  rewrite app_nil_r.
  assert (E : match_re py_float_re (numeral neg ds) = None).
  { destruct (numeral_shape neg ds H) as (d & r & -> & Hd & Hr & E & _).
    rewrite E. destruct neg; cbn [app].
    - apply match_float_signed; assumption.
    - apply match_float_unsigned; assumption. }
  rewrite E, Z_of_numeral_numeral by exact H. reflexivity.
Qed.

(** The text of an integer is its canonical numeral. *)
Lemma str_of_Z_numeral : forall z, exists ds, decimal ds
  /\ str_of_Z z = numeral (z <? 0) ds
  /\ numeral_value (z <? 0) ds = z
  /\ (hd 1%N ds = 0%N -> ds = [0%N]).
Proof.
  intro z.
  assert (HN : forall n, exists ds, decimal ds
     /\ str_of_N n = map (fun d => (48 + d)%N) ds
     /\ numeral_value false ds = Z.of_N n
     /\ (hd 1%N ds = 0%N -> ds = [0%N] /\ n = 0%N)).
  { intro n. unfold str_of_N. destruct (N.eqb_spec n 0) as [->|Hn].
    - exists [0%N]. repeat split; [discriminate|repeat constructor; lia].
    - exists (digits_of 10 n).
      assert (H2 : (2 <= 10)%N) by lia. split; [split|].
      + intro E. apply digits_of_nil in E; [contradiction|lia].
      + apply digits_of_lt, H2.
      + split; [apply map_ext; intro; lia|]. split.
        * rewrite <- (digits_of_value 10 H2 n) at 2.
          unfold value_of_digits. rewrite value_of_digits_Z. reflexivity.
        * destruct (digits_of 10 n) as [|d l] eqn:E; cbn [hd]; [discriminate|].
          intros ->. apply (digits_of_head 10 H2) in E. congruence. }
  destruct (HN (Z.abs_N z)) as (ds & Hd & Hs & Hv & Hh).
  exists ds. split; [exact Hd|]. split; [|split].
  - unfold str_of_Z, numeral. rewrite Hs. destruct (z <? 0); reflexivity.
  - unfold numeral_value in *. cbv zeta. destruct (Z.ltb_spec z 0); lia.
  - intro H. apply Hh, H.
Qed.

Lemma scal_num_NI : forall z, scal_num (NI z) = scal_Z z.
Proof. reflexivity. Qed.

(** ** C06 *)

Lemma plus_numeral : forall fmt na a nb b, decimal a -> decimal b ->
  run_op fmt "+" [PScal (numeral na a); PScal (numeral nb b)]
  = ret (scal_Z (numeral_value na a + numeral_value nb b)).
Proof.
  intros. run_plain. unfold op_ADD. rewrite !to_number_numeral by assumption.
  reflexivity.
Qed.
Lemma minus_numeral : forall fmt na a nb b, decimal a -> decimal b ->
  run_op fmt "-" [PScal (numeral na a); PScal (numeral nb b)]
  = ret (scal_Z (numeral_value na a - numeral_value nb b)).
Proof.
  intros. run_plain. unfold op_SUB. rewrite !to_number_numeral by assumption.
  reflexivity.
Qed.
Lemma times_numeral : forall fmt na a nb b, decimal a -> decimal b ->
  run_op fmt "*" [PScal (numeral na a); PScal (numeral nb b)]
  = ret (scal_Z (numeral_value na a * numeral_value nb b)).
Proof.
  intros. run_plain. unfold op_MUL. rewrite !to_number_numeral by assumption.
  reflexivity.
Qed.
Lemma round_trip : forall fmt na a, decimal a ->
  run_op fmt "+" [PScal (numeral na a)] = ret (scal_Z (numeral_value na a))
  /\ run_op fmt "-" [PScal (numeral na a)] = ret (scal_Z (- numeral_value na a)).
Proof.
  intros. split; run_plain; unfold op_POS, op_NEG;
    rewrite to_number_numeral by assumption; reflexivity.
Qed.

(** ** C07 *)

Lemma int_divmod : forall fmt a b, b <> 0 ->
  exists q r, run_op fmt "//" [scal_Z a; scal_Z b] = ret (scal_Z q)
    /\ run_op fmt "%" [scal_Z a; scal_Z b] = ret (scal_Z r)
    /\ a = q * b + r
    /\ (0 < b -> 0 <= r < b) /\ (b < 0 -> b < r <= 0).
Proof.
  intros fmt a b Hb. exists (a / b), (a mod b).
  split; [|split; [|split; [|split]]].
  - run_plain. unfold scal_Z. cbn [op_INTDIV]. rewrite !to_number_str.
    unfold num_floordiv. cbn [lift2].
    destruct (Z.eqb_spec b 0); [contradiction|reflexivity].
  - run_plain. unfold scal_Z. cbn [op_MOD]. rewrite !to_number_str.
    unfold num_mod. cbn [lift2].
    destruct (Z.eqb_spec b 0); [contradiction|reflexivity].
  - rewrite Z.mul_comm. apply Z.div_mod, Hb.
  - intro. apply Z.mod_pos_bound. assumption.
  - intro. apply Z.mod_neg_bound. assumption.
Qed.

Lemma int_div_zero : forall fmt a,
  (exists w, run_op fmt "//" [scal_Z a; scal_Z 0] = ([w], Val PNil))
  /\ (exists w, run_op fmt "%" [scal_Z a; scal_Z 0] = ([w], Val PNil)).
Proof.
  intros. split; eexists; run_plain; unfold scal_Z; cbn [op_INTDIV op_MOD];
    rewrite !to_number_str; reflexivity.
Qed.

(** ** C13: bases *)

Lemma base_char_spec : forall d, (d < 36)%N -> base_char d = digit_char d.
Proof.
  intros d H.
  assert (E : forallb (fun d => N.eqb (base_char d) (digit_char d))
                      (map N.of_nat (seq 0 36)) = true) by (vm_compute; reflexivity).
  rewrite forallb_forall in E. apply N.eqb_eq, E.
  rewrite in_map_iff. exists (N.to_nat d). split; [lia|]. apply in_seq. lia.
Qed.

Lemma base_digit_char : forall d, (d < 36)%N -> base_digit (digit_char d) = Some d.
Proof.
  intros d H.
  assert (E : forallb (fun d => match base_digit (digit_char d) with
                                | Some e => N.eqb d e | None => false end)
                      (map N.of_nat (seq 0 36)) = true) by (vm_compute; reflexivity).
  rewrite forallb_forall in E. specialize (E d).
  destruct (base_digit (digit_char d)).
  - apply f_equal. symmetry. apply N.eqb_eq, E.
    rewrite in_map_iff. exists (N.to_nat d). split; [lia|]. apply in_seq. lia.
  - discriminate E. rewrite in_map_iff. exists (N.to_nat d). split; [lia|].
    apply in_seq. lia.
Qed.

Lemma digit_char_range : forall d, (d < 36)%N ->
  (48 <= digit_char d < 58 \/ 65 <= digit_char d < 91)%N.
Proof.
  intros d H. unfold digit_char. destruct (N.ltb_spec d 10); lia.
Qed.

Lemma base_digits_all : forall b ds, (b <= 36)%N ->
  Forall (fun d => (d < b)%N) ds ->
  base_digits b (map digit_char ds) = (ds, []).
Proof.
  intros b ds Hb. induction 1 as [|d ds Hd _ IH]; [reflexivity|].
  cbn [map base_digits]. rewrite base_digit_char by lia.
  replace (d <? b)%N with true by (symmetry; apply N.ltb_lt; lia).
  rewrite IH. reflexivity.
Qed.

Lemma replace_ne_absent : forall c new s,
  ~ In c s -> replace_ne [c] new 0 s = s.
Proof.
  intros c new. induction s as [|d s IH]; intro H; [reflexivity|].
  cbn [replace_ne]. replace (startswith [c] (d :: s)) with false.
  - rewrite IH; [reflexivity|]. intro; apply H; right; assumption.
  - symmetry. cbn [startswith]. destruct (N.eqb_spec c d) as [->|]; [|reflexivity].
    exfalso. apply H. left. reflexivity.
Qed.

Lemma skip_prefix_canonical : forall b c s, c <> 48%N ->
  skip_prefix b (c :: s) = c :: s.
Proof.
  intros b c [|x s] H; [reflexivity|]. unfold skip_prefix.
  destruct (N.eqb_spec c 48); [contradiction|reflexivity].
Qed.

Lemma py_int_base_digits : forall neg ds b, (2 <= b <= 36)%N ->
  Forall (fun d => (d < b)%N) ds -> hd 0%N ds <> 0%N ->
  py_int_base ((if neg : bool then [c_minus] else []) ++ map digit_char ds) b
  = Some (let v := Z.of_N (value_of_digits b ds) in if neg then - v else v).
Proof.
  intros neg [|d ds] b Hb H Hh; [contradiction|]. cbn [hd] in Hh.
  assert (Hd : (d < b)%N) by (inversion H; assumption).
  assert (Hr : (48 <= digit_char d < 58 \/ 65 <= digit_char d < 91)%N)
    by (apply digit_char_range; lia).
  assert (H48 : digit_char d <> 48%N).
  { intro E. unfold digit_char in E. destruct (N.ltb_spec d 10); lia. }
  assert (Hm : (digit_char d =? c_minus)%N = false)
    by (apply N.eqb_neq; unfold c_minus; lia).
  assert (Hp : (digit_char d =? 43)%N = false) by (apply N.eqb_neq; lia).
  assert (Hsp : int_space (digit_char d) = false).
  { unfold int_space. destruct (N.ltb_spec (digit_char d) 127); [|lia].
    apply orb_false_iff. split; [apply N.eqb_neq; lia|].
    apply andb_false_iff. right. apply N.leb_gt. lia. }
  unfold py_int_base. destruct neg; cbn [app map].
  - replace (drop_while int_space (c_minus :: digit_char d :: map digit_char ds))
      with (c_minus :: digit_char d :: map digit_char ds) by reflexivity.
    cbv beta iota zeta. rewrite N.eqb_refl. rewrite skip_prefix_canonical by exact H48.
    change (digit_char d :: map digit_char ds) with (map digit_char (d :: ds)).
    rewrite base_digits_all by (tauto || lia || exact H). reflexivity.
  - rewrite drop_while_stop by exact Hsp. cbv beta iota zeta.
    rewrite Hm, Hp, skip_prefix_canonical by exact H48.
    change (digit_char d :: map digit_char ds) with (map digit_char (d :: ds)).
    rewrite base_digits_all by (tauto || lia || exact H). reflexivity.
Qed.

Lemma to_base : forall fmt n b, 2 <= b <= 36 ->
  exists ds, run_op fmt "TB" [scal_Z n; scal_Z b]
             = ret (PScal ((if n <? 0 then s_ "-" else []) ++ map digit_char ds))
    /\ canonical_in b ds
    /\ Z.abs n = positional b (map Z.of_N ds).
Proof.
  intros fmt n b Hb.
  assert (Hrun : run_op fmt "TB" [scal_Z n; scal_Z b]
    = if n =? 0 then ret (scal_Z 0)
      else ret (PScal ((if n <? 0 then [c_minus] else [])
                       ++ map base_char (digits_of (Z.to_N b) (Z.abs_N n))))).
  { run_plain. unfold scal_Z. unfold op_TOBASE, base_of.
    rewrite bind_ret, !scalar_int_str.
    replace ((b <? 2) || (36 <? b)) with false by lia. reflexivity. }
  rewrite Hrun. destruct (Z.eqb_spec n 0) as [->|Hn].
  - exists [0%N]. split; [reflexivity|].
    split; [|unfold positional; cbn [map fold_left]; lia].
    split; [discriminate|]. split; [constructor; [lia|constructor]|reflexivity].
  - exists (digits_of (Z.to_N b) (Z.abs_N n)).
    assert (H2 : (2 <= Z.to_N b)%N) by lia.
    pose proof (digits_of_lt (Z.to_N b) H2 (Z.abs_N n)) as Hl.
    split; [|split; [split; [|split]|]].
    + rewrite (map_ext_in base_char digit_char); [reflexivity|].
      intros d Hd. apply base_char_spec. rewrite Forall_forall in Hl.
      specialize (Hl d Hd). lia.
    + intro E. apply digits_of_nil in E; lia.
    + eapply Forall_impl; [|exact Hl]. cbv beta. intros. lia.
    + destruct (digits_of (Z.to_N b) (Z.abs_N n)) as [|d l] eqn:E.
      * apply digits_of_nil in E; lia.
      * cbn [hd]. intros ->. apply (digits_of_head _ H2) in E. congruence.
    + pose proof (digits_of_value (Z.to_N b) H2 (Z.abs_N n)) as Hv.
      unfold value_of_digits in Hv. apply (f_equal Z.of_N) in Hv.
      rewrite value_of_digits_Z in Hv. unfold positional.
      replace (Z.of_N (Z.to_N b)) with b in Hv by lia.
      rewrite N2Z.inj_abs_N in Hv. rewrite <- Hv. clear.
      generalize (digits_of (Z.to_N b) (Z.abs_N n)) as l. intro l.
      change (Z.of_N 0) with 0. generalize 0 as acc.
      induction l as [|d l IH]; intro acc; [reflexivity|].
      cbn [fold_left map]. apply IH.
Qed.

Lemma fold_map_of_N : forall b l acc,
  fold_left (fun acc d => b * acc + d) (map Z.of_N l) acc
  = fold_left (fun acc d => b * acc + Z.of_N d) l acc.
Proof.
  intro b. induction l as [|d l IH]; intro acc; [reflexivity|].
  cbn [fold_left map]. apply IH.
Qed.

Lemma no_underscore : forall neg ds, Forall (fun d => (d < 36)%N) ds ->
  ~ In 95%N ((if neg : bool then [c_minus] else []) ++ map digit_char ds).
Proof.
  intros neg ds H. rewrite in_app_iff. intros [Hi|Hi].
  - destruct neg; [destruct Hi as [Hi|[]]; discriminate Hi|exact Hi].
  - rewrite in_map_iff in Hi. destruct Hi as (d & E & Hd).
    rewrite Forall_forall in H. pose proof (digit_char_range d (H d Hd)). lia.
Qed.

Lemma from_base_canonical : forall fmt neg ds b, 2 <= b <= 36 ->
  canonical_in b ds ->
  run_op fmt "FB" [PScal ((if neg : bool then s_ "-" else []) ++ map digit_char ds);
                   scal_Z b]
  = ret (scal_Z (let v := positional b (map Z.of_N ds) in if neg then - v else v)).
Proof.
  intros fmt neg ds b Hb (Hne & Hl & Hh).
  assert (Hl' : Forall (fun d => (d < Z.to_N b)%N) ds).
  { eapply Forall_impl; [|exact Hl]. cbv beta. intros. lia. }
  run_plain. unfold scal_Z at 1. unfold op_FROMBASE, base_of.
  rewrite bind_ret, scalar_int_str.
  replace ((b <? 2) || (36 <? b)) with false by lia.
  set (t := (if neg then s_ "-" else []) ++ map digit_char ds).
  assert (Ht : match t with [] => s_ "0" | _ => t end = t).
  { unfold t. destruct neg; [reflexivity|]. destruct ds; [congruence|reflexivity]. }
  cbv zeta. rewrite Ht. unfold str_replace. cbn [s_].
  change (match s_ "_" with [] => _ | _ => ?x end) with x.
  assert (Hr : replace_ne (s_ "_") (s_ " ") 0 t = t).
  { change (s_ "_") with [95%N]. apply replace_ne_absent.
    unfold t. change (s_ "-") with [c_minus]. apply no_underscore.
    eapply Forall_impl; [|exact Hl']. cbv beta. intros. lia. }
  change (replace_ne (s_ "_") (s_ " ") 0 t = t) in Hr.
  rewrite Hr.
  assert (Hp : py_int_base t (Z.to_N b)
               = Some (let v := positional b (map Z.of_N ds) in
                       if neg then - v else v)).
  { unfold t. change (s_ "-") with [c_minus].
    assert (Hv : Z.of_N (value_of_digits (Z.to_N b) ds)
                 = positional b (map Z.of_N ds)).
    { unfold value_of_digits. rewrite value_of_digits_Z. unfold positional.
      rewrite fold_map_of_N. replace (Z.of_N (Z.to_N b)) with b by lia.
      reflexivity. }
    destruct (N.eq_dec (hd 0%N ds) 0) as [E|E].
    - rewrite (Hh E). unfold positional. cbn [map fold_left].
      assert (Hsp : forall b', skip_prefix b' [48%N] = [48%N]) by reflexivity.
      destruct neg; unfold py_int_base; cbn; rewrite ?Hsp; 
        (replace (0 <? Z.to_N b)%N with true by (symmetry; apply N.ltb_lt; lia));
        rewrite Z.mul_0_r; reflexivity.
    - rewrite py_int_base_digits by (auto; lia). rewrite Hv. reflexivity. }
  rewrite Hp. reflexivity.
Qed.

Lemma base_inverse : forall fmt n b, 2 <= b <= 36 ->
  exists s, run_op fmt "TB" [scal_Z n; scal_Z b] = ret (PScal s)
    /\ run_op fmt "FB" [PScal s; scal_Z b] = ret (scal_Z n).
Proof.
  intros fmt n b Hb. destruct (to_base fmt n b Hb) as (ds & Hrun & Hc & Hv).
  eexists. split; [exact Hrun|].
  rewrite (from_base_canonical fmt (n <? 0) ds b Hb Hc). cbv zeta.
  rewrite <- Hv. destruct (Z.ltb_spec n 0); do 2 f_equal; lia.
Qed.

Lemma base_default : forall fmt v,
  match v with PScal _ => True | _ => False end ->
  run_op fmt "TB" [v] = run_op fmt "TB" [v; scal_Z 2]
  /\ run_op fmt "FB" [v] = run_op fmt "FB" [v; scal_Z 2].
Proof.
  intros fmt [s| | | | |] []. split.
  - run_plain. run_plain. unfold op_TOBASE, base_of, scal_Z.
    rewrite scalar_int_str. reflexivity.
  - run_plain. run_plain. unfold op_FROMBASE, base_of, scal_Z.
    rewrite scalar_int_str. reflexivity.
Qed.

(** ** C14: digit lists *)

Lemma positional_snoc : forall b l d,
  positional b (l ++ [d]) = b * positional b l + d.
Proof. intros. unfold positional. rewrite fold_left_app. reflexivity. Qed.

Lemma from_digits_ints : forall b l k acc, 0 <= k ->
  from_digits (NI b) k (NI acc) (map scal_Z (rev l))
  = ret (scal_Z (acc + b ^ k * positional b l)).
Proof.
  intros b l. induction l as [|d l IH] using rev_ind; intros k acc Hk.
  - cbn [rev map from_digits]. rewrite Z.mul_0_r, Z.add_0_r. reflexivity.
  - rewrite rev_app_distr. cbn [rev app map]. unfold scal_Z at 1.
    cbn [from_digits]. rewrite to_number_str. unfold num_pow.
    replace (0 <=? k) with true by lia. cbn [rbind]. unfold num_mul, num_add.
    cbn [lift2 rbind lift2]. rewrite bind_lift_val.
    rewrite IH by lia. rewrite positional_snoc.
    replace (acc + d * b ^ k + b ^ (k + 1) * positional b l)
      with (acc + b ^ k * (b * positional b l + d)); [reflexivity|].
    rewrite Z.pow_add_r by lia. ring.
Qed.

Lemma from_digits_run : forall fmt b l,
  run_op fmt "FD" [PList (map scal_Z l); scal_Z b]
  = ret (scal_Z (positional b l)).
Proof.
  intros fmt b l. run_plain. change (scal_Z b) with (PScal (str_of_Z b)).
  unfold op_FROMDIGITS. rewrite bind_ret. rewrite to_number_str. cbn [is_iterable].
  change (p_list (PList (map scal_Z l))) with (@Val (list pval) (map scal_Z l)).
  rewrite bind_lift_val, <- map_rev, from_digits_ints by lia.
  rewrite Z.pow_0_r, Z.mul_1_l. reflexivity.
Qed.

Lemma positional_opp : forall b l,
  positional b (map Z.opp l) = - positional b l.
Proof.
  intros b l. induction l as [|d l IH] using rev_ind; [reflexivity|].
  rewrite map_app. cbn [map]. rewrite !positional_snoc, IH. ring.
Qed.

Lemma to_digits : forall fmt n b, 2 <= b ->
  exists ds, run_op fmt "TD" [scal_Z n; scal_Z b] = ret (PList (map scal_Z ds))
    /\ positional b ds = n
    /\ (0 <= n -> Forall (fun d => 0 <= d < b) ds)
    /\ (n <= 0 -> Forall (fun d => - b < d <= 0) ds)
    /\ hd 1 ds <> 0.
Proof.
  intros fmt n b Hb.
  set (sign := if n <? 0 then -1 else 1).
  set (ns := digits_of (Z.to_N b) (Z.abs_N n)).
  exists (map (fun d => sign * Z.of_N d) ns).
  assert (H2 : (2 <= Z.to_N b)%N) by lia.
  pose proof (digits_of_lt (Z.to_N b) H2 (Z.abs_N n)) as Hl. fold ns in Hl.
  assert (Hv : positional b (map Z.of_N ns) = Z.abs n).
  { pose proof (digits_of_value (Z.to_N b) H2 (Z.abs_N n)) as Hv.
    fold ns in Hv. unfold value_of_digits in Hv. apply (f_equal Z.of_N) in Hv.
    rewrite value_of_digits_Z in Hv. unfold positional.
    rewrite fold_map_of_N. replace (Z.of_N (Z.to_N b)) with b in Hv by lia.
    rewrite N2Z.inj_abs_N in Hv. exact Hv. }
  split; [|split; [|split; [|split]]].
  - run_plain. change (scal_Z n) with (PScal (str_of_Z n)).
    change (scal_Z b) with (PScal (str_of_Z b)). cbn [op_TODIGITS base_of].
    rewrite bind_ret, !scalar_int_str. replace (b <? 2) with false by lia.
    rewrite map_map. reflexivity.
  - unfold sign. destruct (Z.ltb_spec n 0).
    + replace (map (fun d => -1 * Z.of_N d) ns) with (map Z.opp (map Z.of_N ns)).
      * rewrite positional_opp, Hv. lia.
      * rewrite map_map. apply map_ext. intro. lia.
    + replace (map (fun d => 1 * Z.of_N d) ns) with (map Z.of_N ns).
      * rewrite Hv. lia.
      * apply map_ext. intro. lia.
  - intro Hn. unfold sign. replace (n <? 0) with false by lia.
    apply Forall_map. eapply Forall_impl; [|exact Hl]. cbv beta. intros. lia.
  - intro Hn. apply Forall_map. unfold sign.
    destruct (Z.ltb_spec n 0).
    + eapply Forall_impl; [|exact Hl]. cbv beta. intros. lia.
    + assert (n = 0) by lia. subst n. constructor.
  - destruct ns as [|d l] eqn:E; cbn [map hd]; [lia|].
    apply (digits_of_head _ H2) in E. unfold sign. destruct (n <? 0); lia.
Qed.

Lemma digits_inverse : forall fmt n b, 2 <= b ->
  exists l, run_op fmt "TD" [scal_Z n; scal_Z b] = ret (PList l)
    /\ run_op fmt "FD" [PList l; scal_Z b] = ret (scal_Z n).
Proof.
  intros fmt n b Hb. destruct (to_digits fmt n b Hb) as (ds & Hrun & Hv & _).
  eexists. split; [exact Hrun|]. rewrite from_digits_run, Hv. reflexivity.
Qed.

(** ** C15: bits *)

Lemma bit_and : forall fmt a b,
  exists c, run_op fmt "BA" [scal_Z a; scal_Z b] = ret (scal_Z c)
    /\ forall i, 0 <= i -> Z.testbit c i = Z.testbit a i && Z.testbit b i.
Proof.
  intros fmt a b. exists (Z.land a b). split.
  - run_plain. unfold scal_Z, op_BITWISEAND, on_ints2.
    rewrite !scalar_int_str. reflexivity.
  - intros. apply Z.land_spec.
Qed.
Lemma bit_or : forall fmt a b,
  exists c, run_op fmt "BO" [scal_Z a; scal_Z b] = ret (scal_Z c)
    /\ forall i, 0 <= i -> Z.testbit c i = Z.testbit a i || Z.testbit b i.
Proof.
  intros fmt a b. exists (Z.lor a b). split.
  - run_plain. unfold scal_Z, op_BITWISEOR, on_ints2.
    rewrite !scalar_int_str. reflexivity.
  - intros. apply Z.lor_spec.
Qed.
Lemma bit_xor : forall fmt a b,
  exists c, run_op fmt "BX" [scal_Z a; scal_Z b] = ret (scal_Z c)
    /\ forall i, 0 <= i -> Z.testbit c i = xorb (Z.testbit a i) (Z.testbit b i).
Proof.
  intros fmt a b. exists (Z.lxor a b). split.
  - run_plain. unfold scal_Z, op_BITWISEXOR, on_ints2.
    rewrite !scalar_int_str. reflexivity.
  - intros. apply Z.lxor_spec.
Qed.
Lemma bit_not : forall fmt a,
  exists c, run_op fmt "BN" [scal_Z a] = ret (scal_Z c)
    /\ forall i, 0 <= i -> Z.testbit c i = negb (Z.testbit a i).
Proof.
  intros fmt a. exists (Z.lnot a). split.
  - run_plain. unfold scal_Z. cbn [op_BITWISENOT].
    rewrite !scalar_int_str. reflexivity.
  - intros. apply Z.lnot_spec. assumption.
Qed.
Lemma bit_xor_twice : forall fmt a b c,
  run_op fmt "BX" [scal_Z a; scal_Z b] = ret c ->
  run_op fmt "BX" [c; scal_Z b] = ret (scal_Z a).
Proof.
  intros fmt a b c. run_plain. unfold scal_Z, op_BITWISEXOR, on_ints2.
  rewrite !scalar_int_str. intro H. injection H as <-. run_plain.
  unfold scal_Z, op_BITWISEXOR, on_ints2. rewrite !scalar_int_str.
  rewrite Z.lxor_assoc, Z.lxor_nilpotent, Z.lxor_0_r. reflexivity.
Qed.
Lemma bit_not_twice : forall fmt a c,
  run_op fmt "BN" [scal_Z a] = ret c -> run_op fmt "BN" [c] = ret (scal_Z a).
Proof.
  intros fmt a c. run_plain. unfold scal_Z. cbn [op_BITWISENOT].
  rewrite scalar_int_str. intro H. injection H as <-. run_plain.
  unfold scal_Z. cbn [op_BITWISENOT]. rewrite scalar_int_str, Z.lnot_involutive.
  reflexivity.
Qed.
Lemma bit_length : forall fmt a,
  exists n, run_op fmt "BL" [scal_Z a] = ret (scal_Z n)
    /\ 0 <= n /\ Z.abs a < 2 ^ n /\ (n <> 0 -> 2 ^ (n - 1) <= Z.abs a).
Proof.
  intros fmt a. exists (Z.of_N (N.size (Z.abs_N a))). split.
  - run_plain. unfold scal_Z. cbn [op_BITLENGTH]. rewrite scalar_int_str. reflexivity.
  - split; [lia|]. destruct (Z.eq_dec a 0) as [->|Ha]; [simpl; lia|].
    assert (Hs : N.size (Z.abs_N a) = N.succ (N.log2 (Z.abs_N a)))
      by (apply N.size_log2; lia).
    rewrite Hs.
    pose proof (N.log2_spec (Z.abs_N a) ltac:(lia)) as [H1 H2].
    split.
    + apply N2Z.inj_lt in H2. rewrite N2Z.inj_pow in H2. lia.
    + intros _. apply N2Z.inj_le in H1. rewrite N2Z.inj_pow in H1.
      replace (Z.of_N (N.succ (N.log2 (Z.abs_N a))) - 1)
        with (Z.of_N (N.log2 (Z.abs_N a))) by lia. lia.
Qed.
