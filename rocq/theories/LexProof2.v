(** * Token texts by first character; the longest token is taken *)

From Coq Require Import String List NArith ZArith Bool Arith Lia.
From Verif Require Import PyStr PyRe ReFacts ReLang StrFacts Tokens OpTable Scan SpecScan LexProof.
Import ListNotations.

Definition punct (c : char) : Prop := In c (s_ ":=<>!#~^@|/*+-?&.,%").

Lemma op_shape : forall s, operator_text s ->
  (s <> [] /\ length s <= 2 /\ Forall (fun c => is_upper c = true) s)
  \/ (exists d, s = [92%N; d] /\ In d (s_ "?|&!,"))
  \/ (exists c s', s = c :: s' /\ punct c /\ length s' <= 1).
Proof.
  assert (C : forallb (fun o =>
     match o_text o with
     | [] => false
     | c :: s' =>
       ((length (o_text o) <=? 2)%nat && forallb is_upper (o_text o))
       || (N.eqb c 92 && match s' with [d] => cls_in (s_ "?|&!,") d | _ => false end)
       || (cls_in (s_ ":=<>!#~^@|/*+-?&.,%") c && (length s' <=? 1)%nat)
     end) all_ops = true) by (vm_compute; reflexivity).
  intros s (o & I & <-). rewrite forallb_forall in C. specialize (C o I). cbv beta in C.
  destruct (o_text o) as [|c s']; [discriminate|].
  apply orb_prop in C. destruct C as [C|C]; [apply orb_prop in C; destruct C as [C|C]|].
  - left. apply andb_prop in C. destruct C as [C1 C2]. apply Nat.leb_le in C1.
    split; [discriminate|]. split; [exact C1|]. apply Forall_forall. rewrite forallb_forall in C2. exact C2.
  - right. left. apply andb_prop in C. destruct C as [C1 C2]. apply N.eqb_eq in C1.
    destruct s' as [|d [|e s']]; try discriminate. apply cls_in_In in C2. exists d. subst. auto.
  - right. right. apply andb_prop in C. destruct C as [C1 C2]. apply cls_in_In in C1. apply Nat.leb_le in C2.
    exists c, s'. auto.
Qed.

Lemma cmd_shape : forall s, command_text s ->
  s <> [] /\ length s <= 2 /\ Forall (fun c => is_upper c = true) s.
Proof.
  intros s (c & I & <-). simpl in I.
  repeat (destruct I as [<-|I]; [split; [discriminate|split; [simpl; lia|repeat constructor]]|]). destruct I.
Qed.

Lemma digit_value_block : forall tbl c v, digit_value_in tbl c = Some v ->
  exists z, In z tbl /\ (z <= c < z + 10)%N.
Proof.
  induction tbl as [|z tbl IH]; intros c v H; [discriminate|]. cbn [digit_value_in] in H.
  destruct (N.leb z c && N.ltb c (z + 10))%bool eqn:E.
  - apply andb_prop in E. destruct E as [E1 E2]. apply N.leb_le in E1. apply N.ltb_lt in E2.
    exists z. split; [left; reflexivity|split; assumption].
  - apply IH in H. destruct H as (y & I & H). exists y. split; [right; exact I|exact H].
Qed.

Lemma digit_range : forall c, is_digit c = true -> (48 <= c <= 57 \/ 1632 <= c)%N.
Proof.
  assert (C : forallb (fun z => N.eqb z 48 || N.leb 1632 z) zero_table = true) by (vm_compute; reflexivity).
  intros c H. unfold is_digit, digit_value in H.
  destruct (digit_value_in zero_table c) as [v|] eqn:E; [|discriminate].
  apply digit_value_block in E. destruct E as (z & I & L1 & L2).
  rewrite forallb_forall in C. specialize (C z I). apply orb_prop in C. destruct C as [C|C].
  - apply N.eqb_eq in C. subst z. left. change (48 + 10)%N with 58%N in L2. lia.
  - apply N.leb_le in C. right. lia.
Qed.

Lemma upper_range : forall c, is_upper c = true <-> (65 <= c <= 90)%N.
Proof. intro c. unfold is_upper. rewrite andb_true_iff, !N.leb_le. tauto. Qed.
Lemma lower_range : forall c, is_lower c = true <-> (97 <= c <= 122)%N.
Proof. intro c. unfold is_lower. rewrite andb_true_iff, !N.leb_le. tauto. Qed.
Lemma ascii_digit_range : forall c, is_ascii_digit c = true <-> (48 <= c <= 57)%N.
Proof. intro c. unfold is_ascii_digit. rewrite andb_true_iff, !N.leb_le. tauto. Qed.

(** Tokens sorted by their first character. *)
Inductive tok_at : char -> str -> token -> Prop :=
| ta_upper : forall k c s, (65 <= c <= 90)%N -> Forall (fun c => is_upper c = true) s ->
    length s <= 1 \/ c :: s = s_ "PIP" -> tok_at c s (Tok k (c :: s))
| ta_letter : forall c, (97 <= c <= 122 /\ c <> 106 \/ c = 95)%N -> tok_at c [] (Tok KName [c])
| ta_dollar : tok_at 36%N [] (Tok KSymbol (s_ "$"))
| ta_special : forall d, In d (s_ "][()$`'0123456789") -> tok_at 36%N [d] (Tok KName [36%N; d])
| ta_long : forall d s, is_lower d = true -> forallb cls_lower_digit_us s = true ->
    tok_at 36%N (d :: s) (Tok KName (36%N :: d :: s))
| ta_match : forall n, 1 <= n <= 3 -> tok_at 36%N (repeat 95%N n) (Tok KName (36%N :: repeat 95%N n))
| ta_args : forall d, In d (s_ "abcdefg") -> tok_at 92%N [d] (Tok KName [92%N; d])
| ta_scan : tok_at 92%N [36%N] (Tok KSymbol (s_ "\$"))
| ta_bsop : forall d, In d (s_ "?|&!,") -> operator_text [92%N; d] -> tok_at 92%N [d] (Tok KOperator [92%N; d])
| ta_esc : forall b, esc_body b ->
    tok_at 92%N (34%N :: b ++ [92%N; 34%N]) (Tok KEscString (92%N :: 34%N :: b ++ [92%N; 34%N]))
| ta_string : forall b, ~ In 34%N b -> tok_at 34%N (b ++ [34%N]) (Tok KString (34%N :: b ++ [34%N]))
| ta_pattern : forall b, pattern_body b -> tok_at 96%N (b ++ [96%N]) (Tok KPattern (96%N :: b ++ [96%N]))
| ta_char : forall d, tok_at 39%N [d] (Tok KChar [39%N; d])
| ta_number : forall c s, is_digit c = true ->
    (digits (c :: s) \/ exists a b, c :: s = a ++ s_ "." ++ b /\ digits a /\ digits b) ->
    tok_at c s (Tok KNumber (c :: s))
| ta_symbol : forall c, In c (s_ "][(){};") -> tok_at c [] (Tok KSymbol [c])
| ta_op : forall c s, punct c -> length s <= 1 -> operator_text (c :: s) ->
    tok_at c s (Tok KOperator (c :: s)).

Lemma tok_cases : forall t, token_text t -> exists c s, t_text t = c :: s /\ tok_at c s t.
Proof.
  intros [k s] T. unfold token_text in T. cbn [t_kind t_text] in *.
  assert (UP : forall k0, s <> [] -> length s <= 2 \/ s = s_ "PIP" -> Forall (fun c => is_upper c = true) s ->
    exists c s', s = c :: s' /\ tok_at c s' (Tok k0 s)).
  { intros k0 N L F. destruct s as [|c s']; [congruence|]. inversion F; subst. exists c, s'. split; [reflexivity|].
    apply ta_upper; [apply upper_range; assumption|assumption|]. simpl in L. destruct L as [L|L]; [left; lia|right; exact L]. }
  destruct k.
  - (* command *) destruct (cmd_shape s T) as (N & L & F). apply UP; auto.
  - (* operator *) destruct (op_shape s T) as [(N & L & F)|[(d & -> & I)|(c & s' & -> & P & L)]].
    + apply UP; auto.
    + eexists _, _. split; [reflexivity|]. apply ta_bsop; assumption.
    + eexists _, _. split; [reflexivity|]. apply ta_op; assumption.
  - (* symbol *)
    assert (D : (exists c, s = [c] /\ In c (s_ "][(){};")) \/ s = s_ "$" \/ s = s_ "\$" \/ s = s_ "EL").
    { cbn [In map] in T. repeat (destruct T as [<-|T]; [first [left; eexists; split; [reflexivity|simpl; tauto]|tauto]|]). destruct T. }
    destruct D as [(c & -> & C)|[->|[->| ->]]].
    + eexists _, _. split; [reflexivity|]. apply ta_symbol, C.
    + eexists _, _. split; [reflexivity|]. apply ta_dollar.
    + eexists _, _. split; [reflexivity|]. apply ta_scan.
    + apply UP; [discriminate|left; simpl; lia|repeat constructor].
  - (* name *) destruct T as (T & _). destruct T as [u N F L|c C J| |c I|c w C F|n K|c I].
    + apply UP; auto.
    + eexists _, _. split; [reflexivity|]. apply ta_letter. left. split; [apply lower_range, C|exact J].
    + eexists _, _. split; [reflexivity|]. apply ta_letter. right. reflexivity.
    + eexists _, _. split; [reflexivity|]. apply ta_special, I.
    + eexists _, _. split; [reflexivity|]. apply ta_long; [exact C|]. apply lower_cls, F.
    + eexists _, _. split; [reflexivity|]. apply ta_match, K.
    + eexists _, _. split; [reflexivity|]. apply ta_args, I.
  - (* number *)
    assert (D : exists c s', s = c :: s' /\ is_digit c = true).
    { destruct T as [(N & F)|(a & b & -> & (N & F) & _)].
      - destruct s as [|c s']; [congruence|]. inversion F; subst. eauto.
      - destruct a as [|c a]; [congruence|]. inversion F; subst. simpl. eauto. }
    destruct D as (c & s' & -> & D). eexists _, _. split; [reflexivity|]. apply ta_number; assumption.
  - (* string *) destruct T as (b & -> & B). eexists _, _. split; [reflexivity|]. apply ta_string, B.
  - (* pattern *) destruct T as (b & -> & B). eexists _, _. split; [reflexivity|]. apply ta_pattern, B.
  - (* char *) destruct T as (c & ->). eexists _, _. split; [reflexivity|]. apply ta_char.
  - (* escaped string *) destruct T as (b & -> & B). eexists _, _. split; [reflexivity|]. apply ta_esc, B.
  - destruct T.
Qed.

(** ** newToken recognises every token text *)

Lemma is_op_iff : forall s, is_op_text s = true <-> operator_text s.
Proof.
  intro s. unfold is_op_text. rewrite existsb_exists. split.
  - intros (o & I & E). apply str_eqb_eq in E. exists o. auto.
  - intros (o & I & <-). exists o. split; [exact I|apply str_eqb_refl].
Qed.
Lemma not_op_iff : forall s, is_op_text s = false <-> ~ operator_text s.
Proof.
  intro s. rewrite <- is_op_iff. destruct (is_op_text s); split; intro H; try congruence; try (destruct H; reflexivity).
Qed.
Lemma command_iff : forall s, command_of s <> None <-> command_text s.
Proof.
  intro s. unfold command_of. split.
  - destruct (find _ cmd_table) eqn:E; [|congruence]. intros _. apply find_some in E.
    destruct E as [I E]. apply str_eqb_eq in E. exists c. auto.
  - intros (c & I & <-) F. pose proof (find_none _ _ F c I) as E. cbv beta in E.
    rewrite str_eqb_refl in E. discriminate.
Qed.
Lemma not_command_iff : forall s, command_of s = None <-> ~ command_text s.
Proof.
  intro s. rewrite <- command_iff. destruct (command_of s); split; intro H; try congruence; try (destruct H; discriminate).
Qed.

Lemma cmd_not_op : forall s, command_text s -> ~ operator_text s.
Proof.
  assert (C : forallb (fun c => negb (is_op_text (c_text c))) cmd_table = true) by (vm_compute; reflexivity).
  intros s (c & I & <-) O. apply is_op_iff in O. rewrite forallb_forall in C. specialize (C c I).
  cbv beta in C. rewrite O in C. discriminate.
Qed.

(** Texts whose first character rules out operators and commands. *)
Lemma head_not_op : forall (c : char) s, ~ (65 <= c <= 90)%N -> c <> 92%N -> ~ punct c ->
  is_op_text (c :: s) = false /\ command_of (c :: s) = None.
Proof.
  intros c s U B P. split.
  - apply not_op_iff. intro O. destruct (op_shape _ O) as [(_ & _ & F)|[(d & E & _)|(d & s' & E & Q & _)]].
    + inversion F; subst. apply upper_range in H1. tauto.
    + inversion E. tauto.
    + inversion E; subst. tauto.
  - apply not_command_iff. intro O. destruct (cmd_shape _ O) as (_ & _ & F).
    inversion F; subst. apply upper_range in H1. tauto.
Qed.

Lemma head_not_op' : forall w (c : char) s, w = c :: s -> ~ (65 <= c <= 90)%N -> c <> 92%N -> ~ punct c ->
  is_op_text w = false /\ command_of w = None.
Proof. intros w c s ->. apply head_not_op. Qed.

Lemma not_punct : forall (c : char), (c = 34 \/ c = 96 \/ c = 39 \/ 48 <= c <= 57 \/ 1632 <= c)%N -> ~ punct c.
Proof.
  intros c H P. unfold punct in P. simpl in P.
  repeat (destruct P as [<-|P]; [lia|]). destruct P.
Qed.

Lemma new_token_ok : forall t, token_text t -> new_token (t_text t) = Some t.
Proof.
  intros [k s] T. pose proof T as T0. unfold token_text in T. cbn [t_kind t_text] in *. unfold new_token.
  destruct k.
  - (* command *) destruct (command_of s) eqn:E; [|apply command_iff in T; congruence].
    apply cmd_not_op, not_op_iff in T. rewrite T. reflexivity.
  - apply is_op_iff in T. rewrite T. reflexivity.
  - cbn [In map] in T. repeat (destruct T as [<-|T]; [vm_compute; reflexivity|]). destruct T.
  - (* name *) destruct T as (T & O & C & L). apply not_op_iff in O. apply not_command_iff in C. rewrite O, C.
    assert (FN : fullmatch_re name_re s = true).
    { apply fullmatch_lang, lang_name. exists s. rewrite app_nil_r. split; [reflexivity|apply nl_name, T]. }
    assert (FS : fullmatch_re symbols_re s = false).
    { apply not_true_is_false. intro F. apply fullmatch_lang, lang_symbols in F. destruct F as (n & E & I).
      rewrite app_nil_r in E. subst n. cbn [In map symbol_list] in I.
      repeat (destruct I as [I|I]; [subst s; clear -T L; try (destruct L; reflexivity); inversion T; subst; try discriminate;
        try (match goal with H : Forall _ _ |- _ => inversion H; subst; discriminate end);
        try (match goal with H : 1 <= ?n <= 3 |- _ => destruct n as [|[|n]]; simpl in *; try lia; discriminate end);
        try (match goal with H : In _ _ |- _ => simpl in H; repeat (destruct H as [H|H]; [discriminate H|]); destruct H end)|]).
      destruct I. }
    rewrite FN, FS.
    assert (H : exists c s', s = c :: s' /\ c <> 39%N /\ c <> 34%N /\ c <> 96%N /\ (c = 92%N -> exists d, s' = [d] /\ d <> 34%N)).
    { clear -T. destruct T as [u N F L|c C J| |c I|c w C F|n K|c I].
      - destruct u as [|c u]; [congruence|]. inversion F; subst. apply upper_range in H1.
        exists c, u. repeat split; lia.
      - apply lower_range in C. exists c, []. repeat split; lia.
      - eexists _, _. repeat split; discriminate.
      - eexists _, _. repeat split; discriminate.
      - eexists _, _. repeat split; discriminate.
      - eexists _, _. repeat split; discriminate.
      - eexists _, _. repeat split; try discriminate. intros _. exists c. split; [reflexivity|].
        simpl in I. repeat (destruct I as [<-|I]; [discriminate|]). destruct I. }
    destruct H as (c & s' & -> & H1 & H2 & H3 & H4).
    assert (E1 : N.eqb c c_squote = false) by (apply N.eqb_neq; exact H1).
    assert (E2 : N.eqb c c_dquote = false) by (apply N.eqb_neq; exact H2).
    assert (E3 : N.eqb c c_backtick = false) by (apply N.eqb_neq; exact H3).
    rewrite E1, E2, E3.
    assert (E4 : startswith [c_backslash; c_dquote] (c :: s') = false).
    { cbn [startswith]. destruct (N.eqb c_backslash c) eqn:E; [|reflexivity]. apply N.eqb_eq in E.
      destruct (H4 (eq_sym E)) as (d & -> & D). cbn [startswith andb].
      assert (X : N.eqb c_dquote d = false) by (apply N.eqb_neq; intro Y; apply D; symmetry; exact Y).
      rewrite X. reflexivity. }
    rewrite E4. reflexivity.
  - (* number *)
    assert (D : exists c s', s = c :: s' /\ is_digit c = true).
    { destruct T as [(N & F)|(a & b & -> & (N & F) & _)].
      - destruct s as [|c s']; [congruence|]. inversion F; subst. eauto.
      - destruct a as [|c a]; [congruence|]. inversion F; subst. simpl. eauto. }
    destruct D as (c & s' & -> & D). pose proof (digit_range c D) as R.
    destruct (head_not_op c s') as [O C]; [lia|lia|apply not_punct; lia|]. rewrite O, C.
    assert (E1 : N.eqb c c_squote = false) by (apply N.eqb_neq; unfold c_squote; lia).
    assert (E2 : N.eqb c c_dquote = false) by (apply N.eqb_neq; unfold c_dquote; lia).
    assert (E3 : N.eqb c c_backtick = false) by (apply N.eqb_neq; unfold c_backtick; lia).
    rewrite E1, E2, E3.
    assert (E4 : startswith [c_backslash; c_dquote] (c :: s') = false).
    { cbn [startswith]. destruct (N.eqb c_backslash c) eqn:E; [|reflexivity]. apply N.eqb_eq in E.
      unfold c_backslash in E. lia. }
    rewrite E4.
    assert (FS : fullmatch_re symbols_re (c :: s') = false).
    { apply not_true_is_false. intro F. apply fullmatch_lang, lang_symbols in F. destruct F as (n & E & I).
      rewrite app_nil_r in E. subst n. cbn [In map symbol_list] in I.
      repeat (destruct I as [I|I]; [inversion I; subst; lia|]). destruct I. }
    assert (FN : fullmatch_re name_re (c :: s') = false).
    { apply not_true_is_false. intro F. apply fullmatch_lang, lang_name in F. destruct F as (n & E & I).
      rewrite app_nil_r in E. subst n.
      assert (X : (65 <= c <= 90 \/ 97 <= c <= 122 \/ c = 95 \/ c = 36 \/ c = 92)%N).
      { clear -I. inversion I as [u N F E|n' I' E]; subst.
        - inversion F as [|? ? U ?]; subst. apply upper_range in U. lia.
        - inversion I' as [u N F L E|d D J E|E|d D E|d w D F E|n K E|d D E]; subst; try lia.
          + inversion F as [|? ? U ?]; subst. apply upper_range in U. lia.
          + apply lower_range in D. lia. }
      lia. }
    assert (FD : fullmatch_re number_re (c :: s') = true).
    { apply fullmatch_lang, lang_number. exists (c :: s'). rewrite app_nil_r. auto. }
    rewrite FS, FN, FD. reflexivity.
  - destruct T as (b & -> & B). match goal with |- context [is_op_text ?w] => destruct (head_not_op' w _ _ eq_refl) as [O C] end; [lia|lia|apply not_punct; lia|].
    rewrite O, C. reflexivity.
  - destruct T as (b & -> & B). match goal with |- context [is_op_text ?w] => destruct (head_not_op' w _ _ eq_refl) as [O C] end; [lia|lia|apply not_punct; lia|].
    rewrite O, C. reflexivity.
  - destruct T as (c & ->). match goal with |- context [is_op_text ?w] => destruct (head_not_op' w _ _ eq_refl) as [O C] end; [lia|lia|apply not_punct; lia|].
    rewrite O, C. reflexivity.
  - destruct T as (b & -> & B).
    assert (O : is_op_text ([92%N; 34%N] ++ b ++ [92%N; 34%N]) = false).
    { apply not_op_iff. intro O. destruct (op_shape _ O) as [(_ & L & _)|[(d & E & _)|(d & s' & E & Q & _)]].
      - simpl in L. rewrite app_length in L. simpl in L. lia.
      - simpl in E. inversion E. destruct b; discriminate.
      - inversion E; subst. unfold punct in Q. simpl in Q. repeat (destruct Q as [Q|Q]; [discriminate|]). destruct Q. }
    assert (C : command_of ([92%N; 34%N] ++ b ++ [92%N; 34%N]) = None).
    { apply not_command_iff. intro C. apply cmd_shape in C. destruct C as (_ & _ & F). inversion F; discriminate. }
    rewrite O, C. reflexivity.
  - destruct T.
Qed.
