(** * The token regex takes the longest token *)

From Coq Require Import String List NArith ZArith Bool Arith Lia Sorted.
From Verif Require Import PyStr PyRe ReFacts ReLang StrFacts Tokens OpTable Scan SpecScan LexProof LexProof2.
Import ListNotations.

(** ** Texts at which two different tokens cannot start *)

Lemma string_unique : forall a b r s, ~ In 34%N a -> ~ In 34%N b ->
  (a ++ [34%N]) ++ r = (b ++ [34%N]) ++ s -> a = b.
Proof.
  induction a as [|x a IH]; intros [|y b] r s A B E; simpl in *.
  - reflexivity.
  - inversion E; subst. tauto.
  - inversion E; subst. tauto.
  - inversion E; subst. f_equal. apply (IH b r s); tauto.
Qed.

Lemma pattern_unique : forall a, pattern_body a -> forall b r s, pattern_body b ->
  (a ++ [96%N]) ++ r = (b ++ [96%N]) ++ s -> a = b.
Proof.
  intros a A. induction A as [|c a C1 C2 A IH|c a C A IH]; intros b r s B E.
  - destruct B as [|d b D1 D2 B|d b D B]; [reflexivity| |]; simpl in E; inversion E; subst; congruence.
  - destruct B as [|d b D1 D2 B|d b D B]; simpl in E.
    + inversion E; subst. congruence.
    + inversion E; subst. f_equal. eapply IH; eassumption.
    + inversion E; subst. congruence.
  - destruct B as [|d b D1 D2 B|d b D B]; simpl in E.
    + inversion E.
    + inversion E; subst. congruence.
    + inversion E; subst. do 2 f_equal. eapply IH; eassumption.
Qed.

Lemma esc_unique : forall a, esc_body a -> forall b r s, esc_body b ->
  (a ++ [92%N; 34%N]) ++ r = (b ++ [92%N; 34%N]) ++ s -> a = b.
Proof.
  intros a A. induction A as [|c a C A IH|c a C A IH]; intros b r s B E.
  - destruct B as [|d b D B|d b D B]; [reflexivity| |]; simpl in E; inversion E; subst; congruence.
  - destruct B as [|d b D B|d b D B]; simpl in E.
    + inversion E; subst. congruence.
    + inversion E; subst. f_equal. eapply IH; eassumption.
    + inversion E; subst. congruence.
  - destruct B as [|d b D B|d b D B]; simpl in E.
    + inversion E; subst. congruence.
    + inversion E; subst. congruence.
    + inversion E; subst. do 2 f_equal. eapply IH; eassumption.
Qed.

Lemma In_cases : forall (c : N) l, In c l -> existsb (N.eqb c) l = true.
Proof. intros c l H. apply existsb_exists. exists c. split; [exact H|apply N.eqb_refl]. Qed.

(** Facts of the form "c is one of these characters" as inequalities. *)
Ltac chars := repeat match goal with
  | H : In _ (s_ _) |- _ => simpl in H
  | H : punct _ |- _ => unfold punct in H; simpl in H
  | H : is_digit _ = true |- _ => apply digit_range in H
  | H : is_lower _ = true |- _ => apply lower_range in H
  end.

(** First characters at which tokens do not nest. *)
Definition fixed_head (c : char) : Prop :=
  (97 <= c <= 122 \/ c = 95 \/ c = 34 \/ c = 96 \/ c = 39 \/ c = 92 \/ c = 93 \/ c = 91 \/ c = 40 \/ c = 41 \/ c = 123 \/ c = 125 \/ c = 59)%N.

Lemma fixed_unique : forall c a b t u r s, fixed_head c -> tok_at c a t -> tok_at c b u ->
  a ++ r = b ++ s -> a = b.
Proof.
  intros c a b t u r s F A B E. unfold fixed_head in F.
  destruct A; inversion B; subst; try reflexivity; try (exfalso; chars; lia);
    try (simpl in E; inversion E; subst; exfalso; chars; lia);
    try (simpl in E; inversion E; subst; reflexivity).
  all: try (simpl in E; inversion E; subst; f_equal).
  - f_equal. eapply esc_unique; eassumption.
  - f_equal. eapply string_unique; eassumption.
  - f_equal. eapply pattern_unique; eassumption.
Qed.

(** ** What the regex matches is a token text or an upper-case run *)

Lemma token_alts : token_re = RAlt name_re (RAlt string_re (RAlt pattern_re (RAlt char_re
  (RAlt esc_string_re (RAlt number_re (RAlt symbols_re oper_re)))))).
Proof. reflexivity. Qed.

Lemma lang_token : forall s r, lang token_re s r <->
  lang name_re s r \/ lang string_re s r \/ lang pattern_re s r \/ lang char_re s r
  \/ lang esc_string_re s r \/ lang number_re s r \/ lang symbols_re s r \/ lang oper_re s r.
Proof. intros. rewrite token_alts, !lang_alt. tauto. Qed.

Lemma name_token : forall n, name_text n -> ~ starts_upper n -> token_text (Tok KName n).
Proof.
  intros n N U. unfold token_text. cbn [t_text t_kind]. split; [exact N|].
  assert (NU : forall m, m <> [] -> Forall (fun c => is_upper c = true) m -> n = m -> False).
  { intros m M F ->. destruct m as [|c m]; [congruence|]. inversion F; subst. apply U. exists c, m. auto. }
  repeat split.
  - intro O. destruct (op_shape _ O) as [(M & _ & F)|[(d & -> & I)|(c & s' & -> & P & L)]].
    + eapply NU; eauto.
    + inversion N; subst; chars; try lia.
      inversion H0; subst. discriminate.
    + inversion N as [u M F L'|d D J| |d D|d w D F|k K|d D]; subst; chars; try lia.
      inversion F; subst. apply U. eexists _, _. split; [reflexivity|assumption].
  - intro C. apply cmd_shape in C. destruct C as (M & _ & F). eapply NU; eauto.
  - intro E. eapply (NU (s_ "EL")); [discriminate|repeat constructor|exact E].
Qed.

Lemma token_sound : forall s r, lang token_re s r -> ~ starts_upper s ->
  exists t, token_text t /\ s = t_text t ++ r.
Proof.
  intros s r H U. apply lang_token in H.
  destruct H as [H|[H|[H|[H|[H|[H|[H|H]]]]]]].
  - apply lang_name in H. destruct H as (n & -> & N).
    assert (NT : name_text n).
    { destruct N as [u M F|n N]; [|exact N]. exfalso. destruct u as [|c u]; [congruence|].
      inversion F; subst. apply U. eexists _, _. split; [reflexivity|assumption]. }
    exists (Tok KName n). split; [|reflexivity]. apply name_token; [exact NT|].
    intros (c & n' & -> & C). apply U. eexists _, _. split; [reflexivity|exact C].
  - apply lang_string in H. destruct H as (b & -> & B). exists (Tok KString (34%N :: b ++ [34%N])).
    split; [|reflexivity]. exists b. split; [reflexivity|exact B].
  - apply lang_pattern in H. destruct H as (b & -> & B). exists (Tok KPattern (96%N :: b ++ [96%N])).
    split; [|reflexivity]. exists b. split; [reflexivity|exact B].
  - apply lang_charlit in H. destruct H as (c & ->). exists (Tok KChar [39%N; c]). split; [|reflexivity]. exists c. reflexivity.
  - apply lang_esc in H. destruct H as (b & -> & B). exists (Tok KEscString ([92%N; 34%N] ++ b ++ [92%N; 34%N])).
    split; [|reflexivity]. exists b. split; [reflexivity|exact B].
  - apply lang_number in H. destruct H as (n & -> & D). exists (Tok KNumber n). split; [exact D|reflexivity].
  - apply lang_symbols in H. destruct H as (n & -> & D). exists (Tok KSymbol n). split; [exact D|reflexivity].
  - apply lang_oper in H. destruct H as (n & -> & D). exists (Tok KOperator n). split; [exact D|reflexivity].
Qed.

Lemma token_complete : forall t r, token_text t -> lang token_re (t_text t ++ r) r.
Proof.
  intros [k s] r T. apply lang_token. unfold token_text in T. cbn [t_kind t_text] in *. destruct k.
  - left. apply lang_name. exists s. split; [reflexivity|]. apply cmd_shape in T. apply nl_upper; tauto.
  - do 7 right. apply lang_oper. eauto.
  - do 6 right. left. apply lang_symbols. eauto.
  - left. apply lang_name. exists s. split; [reflexivity|]. apply nl_name, T.
  - do 5 right. left. apply lang_number. eauto.
  - right. left. apply lang_string. destruct T as (b & -> & B). eauto.
  - do 2 right. left. apply lang_pattern. destruct T as (b & -> & B). eauto.
  - do 3 right. left. apply lang_charlit. destruct T as (b & ->). eauto.
  - do 4 right. left. apply lang_esc. destruct T as (b & -> & B). eauto.
  - destruct T.
Qed.

(** ** Where tokens nest: after [$], in numbers and in operators *)

Lemma take_while_prefix : forall (p : char -> bool) a r, forallb p a = true ->
  length (drop_while p (a ++ r)) <= length r.
Proof.
  intros p a r H. rewrite drop_while_app by (apply forallb_forall; rewrite forallb_forall in H; exact H).
  rewrite <- (take_drop_while p r) at 2. rewrite app_length. lia.
Qed.

Lemma name_alts : name_re = RAlt (RPlus (RCls is_upper))
  (RAlt (RCls (fun c => (is_lower c && negb (N.eqb c 106)) || N.eqb c 95))
  (RAlt (RSeq (RChar 36%N) (RCls (fun c => cls_in (s_ "][()$`'") c || is_ascii_digit c)))
  (RAlt (RSeq (RChar 36%N) (RSeq (RCls is_lower) (RStar (RCls cls_lower_digit_us))))
  (RAlt (RSeq (RChar 36%N) (RSeq (RChar 95%N) (ROpt (RSeq (RChar 95%N) (ROpt (RChar 95%N))))))
        (RSeq (RChar c_backslash) (RCls (fun c => N.leb 97 c && N.leb c 103))))))).
Proof. reflexivity. Qed.

Lemma match_name_first : forall s r, match_re name_re s = Some r -> match_re token_re s = Some r.
Proof. intros s r H. unfold match_re in *. rewrite token_alts, rmatch_alt, H. reflexivity. Qed.

Lemma rmatch_char {X} : forall c s (k : str -> option X), rmatch (RChar c) (c :: s) k = k s.
Proof. intros. cbn [rmatch RChar]. rewrite N.eqb_refl. reflexivity. Qed.

Lemma match_special : forall d r, In d (s_ "][()$`'0123456789") -> match_re name_re (36%N :: d :: r) = Some r.
Proof.
  intros d r I. unfold match_re. rewrite name_alts, rmatch_alt.
  change (rmatch (RPlus (RCls is_upper)) (36%N :: d :: r) Some) with (@None str). cbv iota.
  rewrite rmatch_alt. change (rmatch (RCls (fun c => (is_lower c && negb (N.eqb c 106)) || N.eqb c 95)) (36%N :: d :: r) Some) with (@None str).
  cbv iota. rewrite rmatch_alt, rmatch_seq, rmatch_char. cbn [rmatch].
  apply special_cls in I. rewrite I. reflexivity.
Qed.

Lemma match_long : forall d r, is_lower d = true ->
  match_re name_re (36%N :: d :: r) = Some (drop_while cls_lower_digit_us r).
Proof.
  intros d r D. unfold match_re. rewrite name_alts, rmatch_alt.
  change (rmatch (RPlus (RCls is_upper)) (36%N :: d :: r) Some) with (@None str). cbv iota.
  rewrite rmatch_alt. change (rmatch (RCls (fun c => (is_lower c && negb (N.eqb c 106)) || N.eqb c 95)) (36%N :: d :: r) Some) with (@None str).
  cbv iota. rewrite rmatch_alt, rmatch_seq, rmatch_char.
  assert (S : cls_in (s_ "][()$`'") d || is_ascii_digit d = false).
  { apply not_true_is_false. intro S. apply special_cls in S. chars. lia. }
  cbn [rmatch]. rewrite S. cbv iota. fold (@rmatch str).
  change (rmatch (RAlt (RSeq (RChar 36%N) (RSeq (RCls is_lower) (RStar (RCls cls_lower_digit_us))))
  (RAlt (RSeq (RChar 36%N) (RSeq (RChar 95%N) (ROpt (RSeq (RChar 95%N) (ROpt (RChar 95%N))))))
        (RSeq (RChar c_backslash) (RCls (fun c => N.leb 97 c && N.leb c 103))))) (36%N :: d :: r) Some = Some (drop_while cls_lower_digit_us r)).
  rewrite rmatch_alt, rmatch_seq, rmatch_char, rmatch_seq.
  assert (X : rmatch (RCls is_lower) (d :: r) (fun s' => rmatch (RStar (RCls cls_lower_digit_us)) s' Some)
              = Some (drop_while cls_lower_digit_us r)).
  { cbn [rmatch]. rewrite D. apply (rmatch_star_greedy cls_lower_digit_us r Some). reflexivity. }
  rewrite X. reflexivity.
Qed.

Lemma match_under : forall n (r : str), 1 <= n <= 3 -> exists r', match_re name_re (36%N :: repeat 95%N n ++ r) = Some r'
  /\ length r' <= length r.
Proof.
  intros n r L.
  assert (M : forall r : str, match_re name_re (36%N :: 95%N :: r) =
     Some (match r with
           | c :: r1 => if N.eqb 95 c then match r1 with d :: r2 => if N.eqb 95 d then r2 else r1 | [] => r1 end else r
           | [] => r end)).
  { clear. intro r. unfold match_re. rewrite name_alts. destruct r as [|c [|d r]]; cbn -[N.eqb is_upper is_lower cls_in];
    change (is_upper 36%N) with false; cbv iota.
    - reflexivity.
    - destruct (N.eqb 95 c); reflexivity.
    - destruct (N.eqb 95 c); [|reflexivity]. destruct (N.eqb 95 d); reflexivity. }
  assert (E : n = 1 \/ n = 2 \/ n = 3) by lia. destruct E as [->|[->| ->]]; cbn [repeat app]; rewrite M; eexists; (split; [reflexivity|]).
  - destruct r as [|c r]; [simpl; lia|]. destruct (N.eqb 95 c); [|simpl; lia]. destruct r as [|d r]; [simpl; lia|]. destruct (N.eqb 95 d); simpl; lia.
  - change (N.eqb 95 95) with true. cbv iota. destruct r as [|d r]; [simpl; lia|]. destruct (N.eqb 95 d); simpl; lia.
  - change (N.eqb 95 95) with true. cbv iota. lia.
Qed.

(** Numbers: the longest run of digits, then a point and digits if any. *)
Lemma match_number : forall s r, lang number_re s r -> exists r',
  match_re number_re s = Some r' /\ length r' <= length r.
Proof.
  intros s r L. apply lang_number in L. destruct L as (n & -> & D).
  set (k := fun s' => rmatch (ROpt (RSeq (RChar c_dot) (RPlus RDigit))) s' (@Some str)).
  assert (KT : forall s', exists x, k s' = Some x /\ length x <= length s').
  { intro s'. unfold k. cbn [rmatch]. fold (@rmatch str).
    destruct (rmatch (RSeq (RChar c_dot) (RPlus RDigit)) s' Some) as [x|] eqn:E.
    - exists x. change (rmatch (RSeq (RChar c_dot) (RPlus RDigit)) s' Some = Some x) in E.
      split; [match goal with |- match ?m with _ => _ end = _ => change m with (rmatch (RSeq (RChar c_dot) (RPlus RDigit)) s' (@Some str)); rewrite E; reflexivity end|].
      apply (match_re_lang _ _ _) in E. apply lang_seq in E. destruct E as (u & E1 & E2).
      apply lang_char in E1. apply lang_plus_cls in E2. destruct E2 as (v & _ & -> & _). subst.
      simpl. rewrite app_length. lia.
    - exists s'. split; [|lia].
      match goal with |- match ?m with _ => _ end = _ => change m with (rmatch (RSeq (RChar c_dot) (RPlus RDigit)) s' (@Some str)); rewrite E; reflexivity end. }
  assert (M : forall c s', is_digit c = true -> match_re number_re (c :: s') = k (drop_while is_digit s')).
  { intros c s' C. unfold match_re, number_re. rewrite rmatch_seq. unfold RPlus at 1. rewrite rmatch_seq.
    change (rmatch RDigit (c :: s') (fun s'0 => rmatch (RStar RDigit) s'0 k) = k (drop_while is_digit s')).
    unfold RDigit at 1. cbn [rmatch]. rewrite C. fold (@rmatch str).
    change (rmatch (RStar (RCls is_digit)) s' k = k (drop_while is_digit s')).
    destruct (KT (drop_while is_digit s')) as (x & E & _). rewrite E.
    apply rmatch_star_greedy. exact E. }
  destruct D as [D|(a & b & -> & Da & Db)].
  - apply digits_iff in D. destruct D as (N & F). destruct n as [|c n]; [congruence|].
    cbn [forallb] in F. apply andb_prop in F. destruct F as [C F]. simpl. rewrite M by exact C.
    destruct (KT (drop_while is_digit (n ++ r))) as (x & E & Lx). exists x. split; [exact E|].
    pose proof (take_while_prefix is_digit n r F). lia.
  - apply digits_iff in Da, Db. destruct Da as (Na & Fa). destruct Db as (Nb & Fb).
    destruct a as [|c a]; [congruence|].
    cbn [forallb] in Fa. apply andb_prop in Fa. destruct Fa as [C Fa]. rewrite <- !app_assoc. simpl. rewrite M by exact C.
    rewrite drop_while_app by (apply forallb_forall; rewrite forallb_forall in Fa; exact Fa).
    change (drop_while is_digit (46%N :: b ++ r)) with (46%N :: b ++ r).
    destruct b as [|d b]; [congruence|]. cbn [forallb] in Fb. apply andb_prop in Fb. destruct Fb as [Dd Fb].
    exists (drop_while is_digit (b ++ r)). split; [|apply take_while_prefix, Fb].
    unfold k.
    assert (X : rmatch (RSeq (RChar c_dot) (RPlus RDigit)) (46%N :: (d :: b) ++ r) Some = Some (drop_while is_digit (b ++ r))).
    { rewrite rmatch_seq. change 46%N with c_dot. rewrite rmatch_char. unfold RPlus. rewrite rmatch_seq.
      unfold RDigit at 1. cbn [rmatch app]. rewrite Dd.
      apply (rmatch_star_greedy is_digit (b ++ r) Some). reflexivity. }
    change (match rmatch (RSeq (RChar c_dot) (RPlus RDigit)) (46%N :: (d :: b) ++ r) Some with
            | Some x => Some x | None => Some (46%N :: (d :: b) ++ r) end = Some (drop_while is_digit (b ++ r))).
    rewrite X. reflexivity.
Qed.

(** Operators: the table is sorted by length. *)
Lemma match_lits : forall l s o r, Sorted.StronglySorted (fun x y : str => length y <= length x) l ->
  In o l -> s = o ++ r -> exists r', match_re (RAlts (map RLit l)) s = Some r' /\ length r' <= length r.
Proof.
  intros l s o r H. induction H as [|x l S IH F]; intros I E; [destruct I|].
  destruct (match_re (RLit x) s) as [r1|] eqn:M.
  - exists r1. split.
    + destruct l as [|y l]; [exact M|].
      change (match match_re (RLit x) s with Some z => Some z | None => match_re (RAlts (map RLit (y :: l))) s end = Some r1).
      rewrite M. reflexivity.
    + apply match_re_lang, lang_lit in M. rewrite M in E.
      assert (Lx : length o <= length x).
      { destruct I as [->|I]; [lia|]. rewrite Forall_forall in F. apply F, I. }
      apply (f_equal (@length _)) in E. rewrite !app_length in E. lia.
  - assert (I' : In o l).
    { destruct I as [->|I]; [|exact I]. exfalso. apply match_re_none with (t := r) in M. apply M, lang_lit, E. }
    destruct (IH I' E) as (r' & M' & L). exists r'. split; [|exact L].
    destruct l as [|y l]; [destruct I'|].
    change (match match_re (RLit x) s with Some z => Some z | None => match_re (RAlts (map RLit (y :: l))) s end = Some r').
    rewrite M. exact M'.
Qed.

Lemma ops_sorted : Sorted.StronglySorted (fun x y : str => length y <= length x) sorted_ops.
Proof.
  apply Sorted.Sorted_StronglySorted; [intros x y z; lia|].
  assert (C : (fix go (l : list str) := match l with
               | x :: (y :: _) as l' => (length y <=? length x) && go l'
               | _ => true end) sorted_ops = true) by (vm_compute; reflexivity).
  revert C. generalize sorted_ops. induction l as [|x [|y l] IH]; intro C; [constructor|repeat constructor|].
  apply andb_prop in C. destruct C as [C1 C2]. apply Nat.leb_le in C1.
  constructor; [apply IH; exact C2|]. constructor. exact C1.
Qed.

(** ** The longest token at the start of a text *)

Lemma not_starts_upper : forall c s, ~ (65 <= c <= 90)%N -> ~ starts_upper (c :: s).
Proof. intros c s H (d & s' & E & U). inversion E; subst. apply upper_range in U. tauto. Qed.

Lemma lang_head : forall r c s t,
  (lang string_re (c :: s) t -> c = 34%N) /\ (lang pattern_re (c :: s) t -> c = 96%N)
  /\ (lang char_re (c :: s) t -> c = 39%N) /\ (lang esc_string_re (c :: s) t -> c = 92%N)
  /\ (lang symbols_re (c :: s) t -> In c (s_ "][(){};$\E"))
  /\ (lang name_re (c :: s) t -> (65 <= c <= 90 \/ 97 <= c <= 122 \/ c = 95 \/ c = 36 \/ c = 92)%N)
  /\ (lang number_re (c :: s) t -> is_digit c = true)
  /\ lang r s t = lang r s t.
Proof.
  intros r c s t. repeat split.
  - intro H. apply lang_string in H. destruct H as (b & E & _). inversion E. reflexivity.
  - intro H. apply lang_pattern in H. destruct H as (b & E & _). inversion E. reflexivity.
  - intro H. apply lang_charlit in H. destruct H as (b & E). inversion E. reflexivity.
  - intro H. apply lang_esc in H. destruct H as (b & E & _). inversion E. reflexivity.
  - intro H. apply lang_symbols in H. destruct H as (n & E & I). cbn [In map symbol_list] in I.
    repeat (destruct I as [<-|I]; [inversion E; subst; simpl; tauto|]). destruct I.
  - intro H. apply lang_name in H. destruct H as (n & E & I).
    inversion I as [u N F E'|n' I' E']; subst.
    + destruct n as [|d n]; [congruence|]. inversion E; subst. inversion F as [|? ? U ?]; subst. apply upper_range in U. lia.
    + inversion I' as [u N F L E'|d D J E'|E'|d D E'|d w D F E'|k K E'|d D E']; subst; inversion E; subst; try lia.
      * destruct n as [|d n]; [congruence|]. inversion E; subst. inversion F as [|? ? U ?]; subst. apply upper_range in U. lia.
      * apply lower_range in D. lia.
  - intro H. apply lang_number in H. destruct H as (n & E & [(N & F)|(a & b & -> & (N & F) & _)]).
    + destruct n as [|d n]; [congruence|]. inversion E; subst. inversion F; subst. assumption.
    + destruct a as [|d a]; [congruence|]. inversion E; subst. inversion F; subst. assumption.
Qed.

Lemma skip_alt : forall a b s, (forall t, ~ lang a s t) -> match_re (RAlt a b) s = match_re b s.
Proof. intros a b s H. unfold match_re. rewrite rmatch_alt, rmatch_fail by exact H. reflexivity. Qed.

(** If a token starts the text then the regex matches at least as much. *)
Lemma match_longest : forall c s t u r, tok_at c s t -> token_text t -> ~ (65 <= c <= 90)%N ->
  c :: u = (c :: s) ++ r -> exists r', match_re token_re (c :: u) = Some r' /\ length r' <= length r.
Proof.
  intros c s t u r A T NU E.
  assert (TE : t_text t = c :: s) by (destruct A; reflexivity).
  assert (SOME : exists r', match_re token_re (c :: u) = Some r').
  { destruct (match_re token_re (c :: u)) eqn:M; [eauto|]. exfalso.
    apply match_re_none with (t := r) in M. apply M. rewrite E, <- TE. apply token_complete, T. }
  assert (FIX : fixed_head c -> exists r', match_re token_re (c :: u) = Some r' /\ length r' <= length r).
  { intro F. destruct SOME as (r' & M). exists r'. split; [exact M|].
    apply match_re_lang in M. apply token_sound in M; [|apply not_starts_upper, NU].
    destruct M as (t' & T' & E'). destruct (tok_cases t' T') as (c' & s' & TE' & A').
    rewrite TE' in E'. inversion E'; subst c'. 
    assert (ES : s = s').
    { apply (fixed_unique c s s' t t' r r' F A A'). inversion E. congruence. }
    subst s'. inversion E. assert (X : s ++ r = s ++ r') by congruence. apply app_inv_head in X. subst. lia. }
  destruct A as [k c s U F L|c C| |d I|d s D F|n K|d I| |d I O|b B|b B|b B|d|c s D N|c I|c s P L O];
    try (exfalso; lia); try (apply FIX; unfold fixed_head; chars; lia).
  - (* $ *) destruct SOME as (r' & M). exists r'. split; [exact M|].
    apply match_re_lang in M. apply token_sound in M; [|apply not_starts_upper; lia].
    destruct M as (t' & T' & E'). destruct (tok_cases t' T') as (c' & s' & TE' & A').
    rewrite TE' in E'. inversion E'. inversion E. subst. rewrite app_length. simpl. lia.
  - inversion E; subst. exists r. split; [|lia]. apply match_name_first, match_special, I.
  - inversion E; subst. eexists. split; [apply match_name_first, match_long, D|]. apply take_while_prefix, F.
  - inversion E; subst. destruct (match_under n r K) as (r' & M & Lr). exists r'. split; [|exact Lr].
    apply match_name_first, M.
  - (* number *) pose proof (digit_range c D) as R.
    assert (NI : ~ In c (s_ "][(){};$\E")) by (intro I; chars; lia).
    rewrite token_alts.
    rewrite skip_alt by (intros t H; apply (lang_head REps) in H; lia).
    rewrite skip_alt by (intros t H; apply (lang_head REps) in H; lia).
    rewrite skip_alt by (intros t H; apply (lang_head REps) in H; lia).
    rewrite skip_alt by (intros t H; apply (lang_head REps) in H; lia).
    rewrite skip_alt by (intros t H; apply (lang_head REps) in H; lia).
    destruct (match_number (c :: u) r) as (r' & M & Lr).
    { apply lang_number. exists (c :: s). auto. }
    exists r'. split; [|exact Lr]. unfold match_re in *. rewrite rmatch_alt, M. reflexivity.
  - (* operator *)
    assert (NI : ~ In c (s_ "][(){};$\E")) by (intro I; chars; lia).
    rewrite token_alts.
    rewrite skip_alt by (intros t H; apply (lang_head REps) in H; chars; lia).
    rewrite skip_alt by (intros t H; apply (lang_head REps) in H; chars; lia).
    rewrite skip_alt by (intros t H; apply (lang_head REps) in H; chars; lia).
    rewrite skip_alt by (intros t H; apply (lang_head REps) in H; chars; lia).
    rewrite skip_alt by (intros t H; apply (lang_head REps) in H; chars; lia).
    rewrite skip_alt by (intros t H; apply (lang_head REps) in H; chars; lia).
    rewrite skip_alt by (intros t H; apply (lang_head REps) in H; exact (NI H)).
    apply (match_lits sorted_ops (c :: u) (c :: s) r ops_sorted); [apply ops_same, O|exact E].
Qed.

Lemma token_match : forall s, ~ starts_upper s ->
  match match_re token_re s with
  | Some rest => exists t, s = t_text t ++ rest /\ token_text t
      /\ forall t', starts_with_token s t' -> length (t_text t') <= length (t_text t)
  | None => forall t', ~ starts_with_token s t'
  end.
Proof.
  intros s U. destruct (match_re token_re s) as [rest|] eqn:M.
  - pose proof M as M'. apply match_re_lang in M. apply token_sound in M; [|exact U].
    destruct M as (t & T & E). exists t. split; [exact E|]. split; [exact T|].
    intros t' (T' & r & E'). destruct (tok_cases t' T') as (c & s' & TE & A).
    rewrite TE in E'. subst s. destruct (t_text t ++ rest) as [|c0 u] eqn:EU; [discriminate|].
    assert (c0 = c) by (simpl in E'; inversion E'; reflexivity). subst c0.
    destruct (match_longest c s' t' u r A T') as (r' & M2 & Lr).
    + intro R. apply U. exists c, u. split; [reflexivity|]. apply upper_range, R.
    + exact E'.
    + rewrite M' in M2. inversion M2; subst r'.
      rewrite TE. apply (f_equal (@length _)) in E'. rewrite <- EU in E'. rewrite !app_length in E'. lia.
  - intros t' (T' & r & E). apply match_re_none with (t := r) in M. apply M. rewrite E. apply token_complete, T'.
Qed.
