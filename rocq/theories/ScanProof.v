(** * The scanner reads a text exactly as specified *)

From Coq Require Import String List NArith ZArith Bool Arith Lia.
From Verif Require Import PyStr PyRe ReFacts ReLang StrFacts Tokens OpTable Scan SpecSyntax SpecScan.
From Verif Require Import LexProof LexProof2 LexProof3.
Import ListNotations.

(** ** White space and comments *)

Definition not_nl (c : char) : bool := negb (N.eqb c c_nl).

Lemma drop_line : forall s, at_line_end (drop_while not_nl s).
Proof.
  induction s as [|c s IH]; [left; reflexivity|]. simpl. unfold not_nl at 1.
  destruct (N.eqb_spec c c_nl) as [->|N]; [right; exists s; reflexivity|exact IH].
Qed.
Lemma take_line : forall s, ~ In 10%N (take_while not_nl s).
Proof.
  induction s as [|c s IH]; [intros []|]. simpl. destruct (not_nl c) eqn:E; [|intros []].
  intros [H|H]; [subst; discriminate|exact (IH H)].
Qed.
Lemma drop_body : forall body s, ~ In 10%N body -> at_line_end s -> drop_while not_nl (body ++ s) = s.
Proof.
  induction body as [|c body IH]; intros s N L; simpl.
  - destruct L as [->|(s' & ->)]; reflexivity.
  - assert (X : not_nl c = true).
    { apply negb_true_iff, N.eqb_neq. intros ->. apply N. left. reflexivity. }
    rewrite X. apply IH; [|exact L]. intro I. apply N. right. exact I.
Qed.

Definition lead : re := RSeq (RStar RSpace) (RSeq (RChar c_nl) (RSeq (RStar RSpace) (RChar 59%N))).

Lemma line_re : line_comment_re = RSeq (RAlt lead (RLit [c_space; c_space])) (RStar RDot).
Proof. reflexivity. Qed.

Lemma blank_forallb : forall w, blank w <-> forallb is_space w = true.
Proof. intro w. unfold blank. rewrite forallb_forall, Forall_forall. tauto. Qed.

Lemma lang_lead : forall s t, lang lead s t <-> exists w, blank w /\ In 10%N w /\ s = w ++ 59%N :: t.
Proof.
  intros s t. unfold lead. rewrite lang_seq. split.
  - intros (u & H1 & H2). apply lang_star_cls in H1. destruct H1 as (a & -> & A).
    apply lang_seq in H2. destruct H2 as (v & H2 & H3). apply lang_char in H2.
    apply lang_seq in H3. destruct H3 as (x & H3 & H4). apply lang_char in H4.
    apply lang_star_cls in H3. destruct H3 as (b & -> & B). subst.
    exists (a ++ c_nl :: b). split; [|split].
    + apply blank_forallb. rewrite forallb_app, A. simpl. exact B.
    + apply in_or_app. right. left. reflexivity.
    + rewrite <- app_assoc. reflexivity.
  - intros (w & B & I & ->). apply in_split in I. destruct I as (a & b & ->).
    apply blank_forallb in B. rewrite forallb_app in B. apply andb_prop in B. destruct B as [A B].
    simpl in B. rewrite <- app_assoc. exists (10%N :: b ++ 59%N :: t).
    split; [apply lang_star_cls; exists a; split; [reflexivity|exact A]|].
    apply lang_seq. exists (b ++ 59%N :: t). split; [apply lang_char; reflexivity|].
    apply lang_seq. exists (59%N :: t). split; [apply lang_star_cls; exists b; split; [reflexivity|exact B]|].
    apply lang_char. reflexivity.
Qed.

Lemma lead_unique : forall s t u, lang lead s t -> lang lead s u -> t = u.
Proof.
  intros s t u H1 H2. apply lang_lead in H1, H2. destruct H1 as (w & B & _ & E). destruct H2 as (v & C & _ & F).
  subst s. revert v C F. induction w as [|x w IH]; intros [|y v] C F; simpl in F.
  - inversion F. reflexivity.
  - inversion F; subst. inversion C; subst. discriminate.
  - inversion F; subst. inversion B; subst. discriminate.
  - inversion F; subst. inversion B; subst. inversion C; subst. eapply IH; eassumption.
Qed.

Lemma line_comment_match : forall s,
  (exists t, lang lead s t /\ match_re line_comment_re s = Some (drop_while not_nl t))
  \/ (forall t, ~ lang lead s t) /\
     ((exists t, s = s_ "  " ++ t /\ match_re line_comment_re s = Some (drop_while not_nl t))
      \/ (forall t, s <> s_ "  " ++ t) /\ match_re line_comment_re s = None).
Proof.
  intro s.
  assert (K : forall t, rmatch (RStar RDot) t (@Some str) = Some (drop_while not_nl t)).
  { intro t. apply (rmatch_star_greedy not_nl t Some). reflexivity. }
  assert (E : match_re line_comment_re s = rmatch (RAlt lead (RLit [c_space; c_space])) s (fun t => Some (drop_while not_nl t))).
  { unfold match_re. rewrite line_re, rmatch_seq. apply rmatch_ext. exact K. }
  rewrite rmatch_alt in E.
  destruct (rmatch lead s (fun t => Some (drop_while not_nl t))) as [x|] eqn:M.
  - apply rmatch_sound in M. destruct M as (t & L & X). left. exists t. split; [exact L|].
    rewrite E. symmetry. exact X.
  - assert (NL : forall t, ~ lang lead s t).
    { intros t L. revert M. eapply rmatch_complete; [exact L|discriminate]. }
    right. split; [exact NL|].
    destruct (rmatch (RLit [c_space; c_space]) s (fun t => Some (drop_while not_nl t))) as [x|] eqn:M2.
    + apply rmatch_sound in M2. destruct M2 as (t & L & X). apply lang_lit in L. left. exists t.
      split; [exact L|]. rewrite E. symmetry. exact X.
    + right. split; [|exact E]. intros t ->. revert M2.
      eapply rmatch_complete; [apply lang_lit; reflexivity|discriminate].
Qed.

Lemma rmatch_lazy_any {X} : forall s (k : str -> option X),
  rmatch (RLazy RAny) s k = match k s with
                            | Some x => Some x
                            | None => match s with [] => None | c :: s' => rmatch (RLazy RAny) s' k end
                            end.
Proof.
  intros s k. rewrite rmatch_lazy. cbn [lazy_loop]. destruct (k s); [reflexivity|].
  destruct s as [|c s']; [reflexivity|]. unfold RAny. cbn [rmatch].
  replace (length s' <? length (c :: s')) with true by (symmetry; apply Nat.ltb_lt; simpl; lia).
  reflexivity.
Qed.

Lemma block_re : block_comment_re = RSeq (RLit (s_ "{;")) (RSeq (RLazy RAny) (RLit (s_ ";}"))).
Proof. reflexivity. Qed.

Lemma lazy_first : forall s,
  match rmatch (RLazy RAny) s (fun s' => rmatch (RLit (s_ ";}")) s' (@Some str)) with
  | Some r => exists body, s = body ++ s_ ";}" ++ r
              /\ forall a b, body ++ s_ ";}" = a ++ s_ ";}" ++ b -> b = []
  | None => forall a b, s <> a ++ s_ ";}" ++ b
  end.
Proof.
  induction s as [|c s IH]; rewrite rmatch_lazy_any.
  - cbn. intros a b E. destruct a; discriminate.
  - destruct (rmatch (RLit (s_ ";}")) (c :: s) Some) as [r|] eqn:M.
    + apply match_re_lang, lang_lit in M. exists []. split; [exact M|].
      intros a b E. apply (f_equal (@length _)) in E. rewrite !app_length in E. simpl in E.
      destruct b; [reflexivity|simpl in E; lia].
    + destruct (rmatch (RLazy RAny) s _) as [r|].
      * destruct IH as (body & -> & F). exists (c :: body). split; [reflexivity|].
        intros a b E. destruct a as [|x a].
        -- exfalso. apply match_re_none with (t := tl (body ++ s_ ";}" ++ r)) in M. apply M. apply lang_lit.
           destruct body as [|y body].
           ++ simpl in E. inversion E.
           ++ simpl in E. inversion E. reflexivity.
        -- simpl in E. inversion E. eapply F. eassumption.
      * intros a b E. destruct a as [|x a].
        -- apply match_re_none with (t := b) in M. apply M, lang_lit. exact E.
        -- simpl in E. injection E as E1 E2. exact (IH a b E2).
Qed.

Lemma startswith_iff : forall p s, startswith p s = true <-> exists r, s = p ++ r.
Proof.
  induction p as [|x p IH]; intro s.
  - split; [intros _; exists s; reflexivity|reflexivity].
  - destruct s as [|y s]; simpl.
    + split; [discriminate|intros (r & E); discriminate].
    + rewrite andb_true_iff, N.eqb_eq, IH. split.
      * intros (-> & r & ->). exists r. reflexivity.
      * intros (r & E). inversion E. split; [reflexivity|]. exists r. reflexivity.
Qed.

Lemma block_comment_match : forall s,
  (exists body r, s = (s_ "{;" ++ body ++ s_ ";}") ++ r /\ match_re block_comment_re s = Some r
     /\ forall a b, body ++ s_ ";}" = a ++ s_ ";}" ++ b -> b = [])
  \/ match_re block_comment_re s = None
     /\ ((exists r, s = s_ "{;" ++ r /\ forall a b, r <> a ++ s_ ";}" ++ b) \/ startswith (s_ "{;") s = false).
Proof.
  intro s. destruct (startswith (s_ "{;") s) eqn:E.
  - apply startswith_iff in E. destruct E as (r & ->).
    assert (M : match_re block_comment_re (s_ "{;" ++ r)
                = rmatch (RLazy RAny) r (fun s' => rmatch (RLit (s_ ";}")) s' (@Some str))).
    { unfold match_re. rewrite block_re, rmatch_seq. cbn [s_ RLit app]. reflexivity. }
    rewrite M. pose proof (lazy_first r) as F.
    destruct (rmatch (RLazy RAny) r _) as [q|].
    + destruct F as (body & -> & F). left. exists body, q. split; [rewrite <- !app_assoc; reflexivity|]. auto.
    + right. split; [reflexivity|]. left. exists r. auto.
  - right. split; [|right; reflexivity]. apply match_re_none. intros t L.
    rewrite block_re in L. apply lang_seq in L. destruct L as (u & L & _). apply lang_lit in L.
    assert (X : startswith (s_ "{;") s = true) by (apply startswith_iff; eauto). congruence.
Qed.

Lemma whitespace_match : forall s, match_re whitespace_re s =
  match s with c :: _ => if is_space c then Some (drop_while is_space s) else None | [] => None end.
Proof.
  intro s. unfold match_re, whitespace_re, RPlus. rewrite rmatch_seq. destruct s as [|c s]; [reflexivity|].
  unfold RSpace at 1. cbn [rmatch drop_while]. destruct (is_space c) eqn:E; [|reflexivity].
  apply (rmatch_star_greedy is_space s Some). reflexivity.
Qed.

Lemma upper_match : forall s, starts_upper s -> match_re token_re s = Some (drop_while is_upper s).
Proof.
  intros s (c & s' & -> & U). apply match_name_first. unfold match_re. rewrite name_alts, rmatch_alt.
  assert (X : rmatch (RPlus (RCls is_upper)) (c :: s') (@Some str) = Some (drop_while is_upper (c :: s'))).
  { unfold RPlus. rewrite rmatch_seq. cbn [rmatch drop_while]. rewrite U.
    apply (rmatch_star_greedy is_upper s' Some). reflexivity. }
  rewrite X. reflexivity.
Qed.

Lemma head_not_space : forall c s t, tok_at c s t -> is_space c = false.
Proof.
  assert (D : forall c, is_space c = true -> is_digit c = false).
  { assert (C : forallb (fun c => negb (is_digit c)) space_table = true) by (vm_compute; reflexivity).
    intros c H. apply existsb_exists in H. destruct H as (x & I & E). apply N.eqb_eq in E.
    rewrite forallb_forall in C. specialize (C x I). rewrite E. destruct (is_digit x); [discriminate|reflexivity]. }
  assert (R : forall c, is_space c = true -> (c <= 32 \/ 133 <= c)%N).
  { assert (C : forallb (fun c => N.leb c 32 || N.leb 133 c) space_table = true) by (vm_compute; reflexivity).
    intros c H. apply existsb_exists in H. destruct H as (x & I & E). apply N.eqb_eq in E.
    rewrite forallb_forall in C. specialize (C x I). rewrite E. apply orb_prop in C. rewrite !N.leb_le in C. exact C. }
  intros c s t A. apply not_true_is_false. intro S. pose proof (R c S) as R'. pose proof (D c S) as D'.
  destruct A; try congruence; chars; try lia.
Qed.

(** ** One round of the loop *)

Inductive next : Type :=
| NStep (t : list (option token)) (i : list char) (rest : str)
| NStop.

Definition next_token (code rest : str) : next :=
  let text := matched code rest in
  let '(text, index) :=
    if is_upper_run text then (firstn (upper_index text) text, upper_index text)
    else (text, length text) in
  let '(text, index) :=
    if str_eqb text (s_ "EI") then (s_ "EL", (index - 1)%nat) else (text, index) in
  NStep [new_token text] [] (skipn index code).

Definition nextf (code : str) : next :=
  match code with
  | [] => NStop
  | c :: code' =>
    match match_re line_comment_re code with
    | Some rest => NStep [] [] rest
    | None =>
    match match_re block_comment_re code with
    | Some rest => NStep [] [] rest
    | None =>
    if startswith (s_ "{;") code then NStop
    else
    match match_re whitespace_re code with
    | Some rest => NStep [] [] rest
    | None =>
    match match_re token_re code with
    | Some rest => next_token code rest
    | None =>
        if cls_in [c_dquote; c_backtick; c_squote] c
           || startswith [c_backslash; c_dquote] code
        then NStop
        else NStep [] [c] code'
    end end end end
  end.

Definition add (t : list (option token)) (i : list char) (r : scanres) : scanres :=
  match r with ScanOk ts ig => ScanOk (t ++ ts) (i ++ ig) | _ => r end.

Lemma loop_next : forall f s, s <> [] -> tokenize_loop (S f) s =
  match nextf s with NStep t i s' => add t i (tokenize_loop f s') | NStop => ScanIncomplete end.
Proof.
  intros f s N. destruct s as [|c s]; [congruence|]. cbn [tokenize_loop]. unfold nextf.
  assert (A0 : forall r, r = add [] [] r) by (intros []; reflexivity).
  destruct (match_re line_comment_re (c :: s)); [apply A0|].
  destruct (match_re block_comment_re (c :: s)); [apply A0|].
  destruct (startswith (s_ "{;") (c :: s)); [reflexivity|].
  destruct (match_re whitespace_re (c :: s)); [apply A0|].
  destruct (match_re token_re (c :: s)) as [rest|].
  - unfold next_token. cbv zeta.
    destruct (if is_upper_run (matched (c :: s) rest) then _ else _) as [text index].
    destruct (if str_eqb text (s_ "EI") then _ else _) as [text' index'].
    destruct (tokenize_loop f (skipn index' (c :: s))); reflexivity.
  - destruct (_ || _); [reflexivity|]. destruct (tokenize_loop f s); reflexivity.
Qed.

Lemma upper_text : forall u, u <> [] -> Forall (fun c => is_upper c = true) u -> is_upper_run u = true.
Proof.
  intros [|c u] N F; [congruence|]. unfold is_upper_run. apply forallb_forall. rewrite Forall_forall in F. exact F.
Qed.

Lemma tok_nonempty : forall t, token_text t -> exists c s, t_text t = c :: s /\ is_space c = false.
Proof.
  intros t T. destruct (tok_cases t T) as (c & s & E & A). exists c, s. split; [exact E|].
  eapply head_not_space, A.
Qed.

(** Upper-case texts of one or two letters, and PIP, are tokens. *)
Lemma upper_token : forall u, u <> [] -> Forall (fun c => is_upper c = true) u -> length u <= 2 \/ u = s_ "PIP" ->
  exists t, token_text t /\ t_text t = u.
Proof.
  intros u N F L.
  destruct (is_op_text u) eqn:O.
  { apply is_op_iff in O. exists (Tok KOperator u). split; [exact O|reflexivity]. }
  apply not_op_iff in O. destruct (command_of u) eqn:C.
  { exists (Tok KCommand u). split; [|reflexivity]. change (command_text u). apply command_iff. rewrite C. discriminate. }
  apply not_command_iff in C. destruct (str_eqb u (s_ "EL")) eqn:E.
  { apply str_eqb_eq in E. subst. exists (Tok KSymbol (s_ "EL")). split; [|reflexivity]. unfold token_text. cbn [t_kind t_text map In]. tauto. }
  exists (Tok KName u). split; [|reflexivity]. split; [apply name_upper; assumption|].
  split; [exact O|]. split; [exact C|]. cbn [t_text]. intro X. apply str_eqb_eq in X. congruence.
Qed.

Lemma run_split : forall s, exists u, Forall (fun c => is_upper c = true) u /\ s = u ++ drop_while is_upper s
  /\ ~ starts_upper (drop_while is_upper s) /\ matched s (drop_while is_upper s) = u.
Proof.
  intro s. exists (take_while is_upper s). split; [|split; [|split]].
  - apply Forall_forall. intros c I.
    assert (X : forallb is_upper (take_while is_upper s) = true).
    { clear. induction s as [|c s IH]; [reflexivity|]. simpl. destruct (is_upper c) eqn:E; [|reflexivity]. simpl. rewrite E. exact IH. }
    rewrite forallb_forall in X. apply X, I.
  - symmetry. apply take_drop_while.
  - intros (c & s' & E & U). pose proof (drop_while_head is_upper s c s' E). congruence.
  - rewrite <- (take_drop_while is_upper s) at 1. apply matched_app.
Qed.

Lemma next_plain : forall c s, is_space c = false -> startswith (s_ "{;") (c :: s) = false ->
  nextf (c :: s) =
    match match_re token_re (c :: s) with
    | Some rest => next_token (c :: s) rest
    | None =>
        if cls_in [c_dquote; c_backtick; c_squote] c
           || startswith [c_backslash; c_dquote] (c :: s)
        then NStop
        else NStep [] [c] s
    end.
Proof.
  intros c s SP ST. unfold nextf. rewrite ST.
  destruct (line_comment_match (c :: s)) as [(t & L & M)|(NL & [(t & E & M)|(NE & M)])].
  - exfalso. apply lang_lead in L. destruct L as ([|d w] & B & I & E); [destruct I|].
    inversion E; subst. inversion B; subst. congruence.
  - exfalso. inversion E; subst. discriminate.
  - rewrite M. destruct (block_comment_match (c :: s)) as [(body & r & E & _)|(MB & _)].
    + exfalso. rewrite E in ST. discriminate.
    + rewrite MB, whitespace_match, SP. reflexivity.
Qed.

Lemma upper_not_space : forall c, is_upper c = true -> is_space c = false.
Proof.
  intros c C. destruct (upper_token [c]) as (t & T & E); [discriminate|constructor; auto|left; simpl; lia|].
  destruct (tok_nonempty t T) as (c' & s' & E' & S). rewrite E in E'. injection E' as E1 E2. rewrite E1. exact S.
Qed.

Lemma next_upper : forall u s, u <> [] -> Forall (fun c => is_upper c = true) u -> ~ starts_upper s ->
  nextf (u ++ s) = next_token (u ++ s) s.
Proof.
  intros u s N F U. destruct u as [|c u]; [congruence|]. inversion F as [|? ? C F']; subst.
  cbn [app]. rewrite next_plain.
  - rewrite upper_match by (exists c, (u ++ s); auto).
    change (c :: u ++ s) with ((c :: u) ++ s).
    rewrite drop_while_app.
    2: { apply forallb_forall. rewrite Forall_forall in F. exact F. }
    assert (X : drop_while is_upper s = s).
    { destruct s as [|d s]; [reflexivity|]. simpl. destruct (is_upper d) eqn:D; [|reflexivity].
      destruct U. exists d, s. auto. }
    rewrite X. reflexivity.
  - apply upper_not_space, C.
  - apply not_true_is_false. intro X. apply startswith_iff in X. destruct X as (r & E). inversion E; subst. discriminate.
Qed.

Definition chunk (u : str) : nat := if Nat.odd (length u) then 1 else 2.

Lemma skipn_app_le : forall {A} n (a b : list A), n <= length a -> skipn n (a ++ b) = skipn n a ++ b.
Proof. intros A n a b L. rewrite skipn_app. replace (n - length a) with 0 by lia. reflexivity. Qed.

Lemma chunk_len : forall u : str, u <> [] -> 1 <= chunk u <= 2 /\ chunk u <= length u.
Proof.
  intros u N. unfold chunk. destruct u as [|a [|b u]]; [congruence|simpl; lia|].
  destruct (Nat.odd _); simpl; lia.
Qed.

Lemma next_upper_token : forall u s, u <> [] -> Forall (fun c => is_upper c = true) u ->
  next_token (u ++ s) s =
  if str_eqb u (s_ "PIP") then NStep [new_token u] [] s
  else if str_eqb (firstn (chunk u) u) (s_ "EI")
       then NStep [Some (Tok KSymbol (s_ "EL"))] [] (skipn 1 u ++ s)
       else NStep [new_token (firstn (chunk u) u)] [] (skipn (chunk u) u ++ s).
Proof.
  intros u s N F. unfold next_token. rewrite matched_app, (upper_text u N F). unfold upper_index.
  destruct (str_eqb u (s_ "PIP")) eqn:E.
  - apply str_eqb_eq in E. subst. vm_compute. reflexivity.
  - fold (chunk u). destruct (chunk_len u N) as [L1 L2].
    destruct (str_eqb (firstn (chunk u) u) (s_ "EI")) eqn:X.
    + apply str_eqb_eq in X.
      assert (C : chunk u = 2).
      { apply (f_equal (@length _)) in X. rewrite firstn_length in X. cbn in X. lia. }
      rewrite C. rewrite skipn_app_le by lia. f_equal.
    + rewrite skipn_app_le by lia. reflexivity.
Qed.

Lemma next_plain_token : forall t s, token_text t -> ~ starts_upper (t_text t) ->
  next_token (t_text t ++ s) s = NStep [Some t] [] s.
Proof.
  intros t s T U. unfold next_token. rewrite matched_app.
  destruct (tok_nonempty t T) as (c & b & E & _).
  assert (X : is_upper_run (t_text t) = false).
  { rewrite E. cbn. destruct (is_upper c) eqn:C; [|reflexivity]. destruct U. exists c, b. auto. }
  rewrite X.
  assert (Y : str_eqb (t_text t) (s_ "EI") = false).
  { apply not_true_is_false. intro Y. apply str_eqb_eq in Y. apply U. rewrite Y. exists 69%N, (s_ "I"). auto. }
  rewrite Y, (new_token_ok t T). rewrite skipn_app, skipn_all, Nat.sub_diag. reflexivity.
Qed.

Definition quote_start (c : char) (s : str) : bool :=
  cls_in [c_dquote; c_backtick; c_squote] c || startswith [c_backslash; c_dquote] (c :: s).

Lemma quote_iff : forall c s, quote_start c s = true <->
  c = 34%N \/ c = 96%N \/ c = 39%N \/ exists s', c :: s = [92%N; 34%N] ++ s'.
Proof.
  intros c s. unfold quote_start. rewrite orb_true_iff, cls_in_In, startswith_iff. cbn [In].
  unfold c_dquote, c_backtick, c_squote, c_backslash. intuition.
Qed.

Lemma tok_head_blank : forall c s t, is_space c = true -> ~ starts_with_token (c :: s) t.
Proof.
  intros c s t S (T & r & E). destruct (tok_nonempty t T) as (d & b & E' & D). rewrite E' in E.
  injection E as E1 E2. congruence.
Qed.

Lemma firstn_upper : forall n u, Forall (fun c => is_upper c = true) u -> Forall (fun c => is_upper c = true) (firstn n u).
Proof. intros n u F. rewrite Forall_forall in *. intros c I. apply F. rewrite <- (firstn_skipn n u). apply in_or_app. auto. Qed.
Lemma skipn_upper : forall n u, Forall (fun c => is_upper c = true) u -> Forall (fun c => is_upper c = true) (skipn n u).
Proof. intros n u F. rewrite Forall_forall in *. intros c I. apply F. rewrite <- (firstn_skipn n u). apply in_or_app. auto. Qed.

Lemma next_ok : forall s, s <> [] ->
  match nextf s with
  | NStep t i s' => length s' < length s /\ exists ts, t = map Some ts /\ step s ts i s'
  | NStop => unterminated s
  end.
Proof.
  intros s N. destruct s as [|c s]; [congruence|]. clear N.
  assert (G : forall g r, g <> [] -> c :: s = g ++ r -> gap g r ->
     length r < length (c :: s) /\ exists ts, @nil (option token) = map Some ts /\ step (c :: s) ts [] r).
  { intros g r N E X. rewrite E. split.
    - rewrite app_length. destruct g; [congruence|]. simpl. lia.
    - exists []. split; [reflexivity|]. apply step_gap, X. }
  destruct (line_comment_match (c :: s)) as [(t & L & M)|(NL & [(t & E & M)|(NE & M)])].
  - unfold nextf. rewrite M. apply lang_lead in L. destruct L as (w & B & I & E).
    apply (G (w ++ s_ ";" ++ take_while not_nl t)).
    + intro X. destruct w; discriminate.
    + rewrite E, <- !app_assoc, take_drop_while. reflexivity.
    + apply gap_semicolon; auto. apply take_line. apply drop_line.
  - unfold nextf. rewrite M. apply (G (s_ "  " ++ take_while not_nl t)).
    + discriminate.
    + rewrite E, <- !app_assoc, take_drop_while. reflexivity.
    + apply gap_two_spaces; [apply take_line|apply drop_line|].
      intros w s' E' B I. rewrite take_drop_while in E'. apply (NL s'). rewrite E, E'.
      apply lang_lead. exists w. auto.
  - destruct (block_comment_match (c :: s)) as [(body & r & E & MB & FB)|(MB & ST)].
    { unfold nextf. rewrite M, MB. apply (G (s_ "{;" ++ body ++ s_ ";}")); [discriminate|exact E|].
      apply gap_block, FB. }
    destruct ST as [(r & E & FB)|ST].
    { unfold nextf. rewrite M, MB. replace (startswith (s_ "{;") (c :: s)) with true
        by (symmetry; apply startswith_iff; eauto). left. exists r. auto. }
    destruct (is_space c) eqn:SP.
    { unfold nextf. rewrite M, MB, ST, whitespace_match, SP.
      apply (G (take_while is_space (c :: s))).
      - simpl. rewrite SP. discriminate.
      - symmetry. apply take_drop_while.
      - apply gap_blank.
        + simpl. rewrite SP. discriminate.
        + apply blank_forallb, take_while_all.
        + intros (d & s' & E & D). pose proof (drop_while_head is_space (c :: s) d s' E). congruence.
        + intros w' E. apply (NE (w' ++ drop_while is_space (c :: s))).
          rewrite <- (take_drop_while is_space (c :: s)) at 1. rewrite E, <- app_assoc. reflexivity.
        + intros I s' E. apply (NL s'). apply lang_lead. exists (take_while is_space (c :: s)).
          split; [apply blank_forallb, take_while_all|]. split; [exact I|].
          rewrite <- (take_drop_while is_space (c :: s)) at 1. rewrite E. reflexivity. }
    destruct (is_upper c) eqn:UP.
    { destruct (run_split (c :: s)) as (u & F & E & U & _). set (r := drop_while is_upper (c :: s)) in *.
      assert (N : u <> []).
      { intros ->. simpl in E. apply U. rewrite <- E. exists c, s. auto. }
      rewrite E, next_upper, next_upper_token by assumption.
      destruct (str_eqb u (s_ "PIP")) eqn:P.
      - apply str_eqb_eq in P. destruct (upper_token u N F (or_intror P)) as (t & T & TU). rewrite <- TU in *.
        rewrite (new_token_ok t T). split; [rewrite app_length; destruct (t_text t); [congruence|simpl; lia]|].
        exists [t]. split; [reflexivity|]. apply step_pip; auto.
      - destruct (chunk_len u N) as [L1 L2].
        assert (LR : forall n, 1 <= n <= length u -> length (skipn n u ++ r) < length (u ++ r)).
        { intros n Ln. rewrite !app_length, skipn_length. lia. }
        destruct (str_eqb (firstn (chunk u) u) (s_ "EI")) eqn:X.
        + split; [apply LR; lia|]. exists [Tok KSymbol (s_ "EL")]. split; [reflexivity|].
          apply str_eqb_eq in X.
          assert (C : chunk u = 2).
          { apply (f_equal (@length _)) in X. rewrite firstn_length in X. cbn in X. lia. }
          rewrite C in X. pose proof (firstn_skipn 2 u) as E2. rewrite X in E2. rewrite <- E2.
          rewrite <- app_assoc. apply step_elseif; [apply skipn_upper, F| |exact U].
          unfold chunk in C. destruct (Nat.odd (length u)) eqn:O; [discriminate|].
          rewrite <- E2 in O. rewrite app_length in O. unfold Nat.odd in O. apply negb_false_iff in O. exact O.
        + split; [apply LR; lia|].
          destruct (upper_token (firstn (chunk u) u)) as (t & T & TU).
          { intro Z. apply (f_equal (@length _)) in Z. rewrite firstn_length in Z. simpl in Z. lia. }
          { apply firstn_upper, F. }
          { left. rewrite firstn_length. lia. }
          rewrite <- TU in *. rewrite (new_token_ok t T). exists [t]. split; [reflexivity|].
          pose proof (firstn_skipn (chunk u) u) as E2. rewrite <- TU in E2. rewrite <- E2 at 1.
          rewrite <- app_assoc. apply step_upper; auto.
          * rewrite E2. exact F.
          * rewrite E2. intro Z. rewrite Z in P. discriminate.
          * intro Z. rewrite Z in X. discriminate.
          * rewrite E2, TU, firstn_length. fold (chunk u). lia. }
    rewrite next_plain by assumption.
    assert (U : ~ starts_upper (c :: s)).
    { intros (d & s' & E & D). injection E as E1 E2. congruence. }
    pose proof (token_match (c :: s) U) as TM.
    destruct (match_re token_re (c :: s)) as [rest|].
    + destruct TM as (t & E & T & MX). rewrite E. destruct (tok_nonempty t T) as (d & b & E' & _).
      assert (U' : ~ starts_upper (t_text t)).
      { intros (d' & s' & E2 & D). apply U. rewrite E, E2. exists d', (s' ++ rest). auto. }
      rewrite next_plain_token by assumption. split; [rewrite app_length, E'; simpl; lia|].
      exists [t]. split; [reflexivity|]. apply step_token; auto.
      * intros t' H. apply MX. rewrite E. exact H.
      * intros s' E2. assert (startswith (s_ "{;") (c :: s) = true) by (apply startswith_iff; exists s'; congruence).
        congruence.
    + fold (quote_start c s). destruct (quote_start c s) eqn:Q.
      * right. apply quote_iff in Q. destruct Q as [Q|[Q|[Q|(s' & Q)]]].
        -- exists s. split; [left; rewrite Q; reflexivity|exact TM].
        -- exists s. split; [right; left; rewrite Q; reflexivity|exact TM].
        -- exists s. split; [right; right; left; rewrite Q; reflexivity|exact TM].
        -- exists s'. split; [right; right; right; exact Q|exact TM].
      * split; [simpl; lia|]. exists []. split; [reflexivity|].
        assert (NQ : ~ (c = 34%N \/ c = 96%N \/ c = 39%N \/ exists s', c :: s = [92%N; 34%N] ++ s')).
        { rewrite <- quote_iff, Q. discriminate. }
        apply step_ignore; [exact TM|exact SP| | | |].
        -- intro X. apply NQ. left. exact X.
        -- intro X. apply NQ. right. left. exact X.
        -- intro X. apply NQ. right. right. left. exact X.
        -- intros s' X. apply NQ. right. right. right. exists s'. exact X.
Qed.

Lemma nextf_block : forall s r, s <> [] -> match_re line_comment_re s = None -> match_re block_comment_re s = Some r ->
  nextf s = NStep [] [] r.
Proof. intros [|c s] r N L M; [congruence|]. unfold nextf. rewrite L, M. reflexivity. Qed.
Lemma nextf_open : forall s, s <> [] -> match_re line_comment_re s = None -> match_re block_comment_re s = None ->
  startswith (s_ "{;") s = true -> nextf s = NStop.
Proof. intros [|c s] N L M S; [congruence|]. unfold nextf. rewrite L, M, S. reflexivity. Qed.

Lemma no_lead_blank : forall w s, blank w -> ~ starts_blank s ->
  (In 10%N w -> forall s', s <> s_ ";" ++ s') -> forall t, ~ lang lead (w ++ s) t.
Proof.
  intros w s B S H t L. apply lang_lead in L. destruct L as (v & C & I & E).
  assert (X : v = w /\ s = 59%N :: t).
  { clear I H. revert v C E. induction w as [|x w IH]; intros [|y v] C E; simpl in E.
    - auto.
    - exfalso. apply S. inversion C; subst. exists y, (v ++ 59%N :: t). auto.
    - exfalso. injection E as E1 E2. inversion B; subst. discriminate.
    - injection E as E1 E2. inversion B as [|? ? B1 B2]; subst. inversion C as [|? ? C1 C2]; subst.
      destruct (IH B2 v C2 E2) as [-> ->]. auto. }
  destruct X as [-> ->]. exact (H I t eq_refl).
Qed.

Lemma not_block : forall c s, startswith (s_ "{;") (c :: s) = false -> match_re block_comment_re (c :: s) = None.
Proof.
  intros c s ST. destruct (block_comment_match (c :: s)) as [(body & r & E & _)|(MB & _)]; [|exact MB].
  exfalso. rewrite E in ST. discriminate.
Qed.

Lemma space_not_brace : forall c s, is_space c = true -> startswith (s_ "{;") (c :: s) = false.
Proof.
  intros c s S. apply not_true_is_false. intro X. apply startswith_iff in X. destruct X as (r & E).
  injection E as E1 E2. rewrite E1 in S. discriminate.
Qed.

Lemma brace_no_line : forall s, match_re line_comment_re (s_ "{;" ++ s) = None.
Proof.
  intro s. destruct (line_comment_match (s_ "{;" ++ s)) as [(t & L & M)|(NL & [(t & E & M)|(NE & M)])]; [| |exact M].
  - exfalso. apply lang_lead in L. destruct L as ([|d w] & B & I & E); [destruct I|].
    injection E as E1 E2. inversion B; subst. discriminate.
  - discriminate.
Qed.

Lemma block_first : forall body s r q,
  (forall a b, body ++ s_ ";}" = a ++ s_ ";}" ++ b -> b = []) ->
  (forall a b, r ++ s_ ";}" = a ++ s_ ";}" ++ b -> b = []) ->
  body ++ s_ ";}" ++ s = r ++ s_ ";}" ++ q -> s = q.
Proof.
  induction body as [|c body IH]; intros s r q F1 F2 E.
  - destruct r as [|d r]; [simpl in E; congruence|]. exfalso.
    destruct r as [|e r].
    + cbn in E. discriminate.
    + cbn in E. injection E as E1 E2 E3. subst d e.
      specialize (F2 [] (r ++ s_ ";}") eq_refl). destruct r; discriminate.
  - destruct r as [|d r].
    + exfalso. destruct body as [|e body].
      * cbn in E. discriminate.
      * cbn in E. injection E as E1 E2 E3. subst c e.
        specialize (F1 [] (body ++ s_ ";}") eq_refl). destruct body; discriminate.
    + cbn [app] in E. injection E as E1 E2. eapply IH; [| |exact E2].
      * intros a b X. apply (F1 (c :: a) b). cbn [app]. rewrite X. reflexivity.
      * intros a b X. apply (F2 (d :: a) b). cbn [app]. rewrite X. reflexivity.
Qed.

Lemma upper_max : forall a b u r, a ++ b = u ++ r -> Forall (fun c => is_upper c = true) a ->
  ~ starts_upper b -> Forall (fun c => is_upper c = true) u -> ~ starts_upper r -> a = u /\ b = r.
Proof.
  induction a as [|x a IH]; intros b [|y u] r E A B U R; cbn [app] in E; auto.
  - exfalso. apply B. inversion U; subst. exists y, (u ++ r). auto.
  - exfalso. apply R. inversion A; subst. exists x, (a ++ b). auto.
  - injection E as E1 E2. inversion A; subst. inversion U; subst.
    destruct (IH b u r E2) as [-> ->]; auto.
Qed.

Lemma next_gap : forall g s, gap g s -> g <> [] /\ nextf (g ++ s) = NStep [] [] s.
Proof.
  intros g s G.
  assert (NF : forall x r, x <> [] -> match_re line_comment_re x = Some r -> nextf x = NStep [] [] r).
  { intros [|c x] r N M; [congruence|]. unfold nextf. rewrite M. reflexivity. }
  destruct G as [w body s B I NB L|body s NB L X|body s FB|w s N B S D H].
  - split; [destruct w; discriminate|].
    assert (LL : lang lead ((w ++ s_ ";" ++ body) ++ s) (body ++ s)).
    { apply lang_lead. exists w. rewrite <- !app_assoc. auto. }
    destruct (line_comment_match ((w ++ s_ ";" ++ body) ++ s)) as [(t & L' & M)|(NL & _)]; [|destruct (NL _ LL)].
    apply NF; [destruct w; discriminate|]. rewrite M, (lead_unique _ _ _ L' LL), drop_body by assumption. reflexivity.
  - split; [discriminate|]. apply NF; [discriminate|].
    destruct (line_comment_match ((s_ "  " ++ body) ++ s)) as [(t & L' & M)|(_ & [(t & E & M)|(NE & _)])].
    + rewrite M. apply lang_lead in L'. destruct L' as (w & B & I & E).
      exfalso. rewrite <- app_assoc in E. exact (X w t E B I).
    + rewrite M. rewrite <- app_assoc in E. apply app_inv_head in E. rewrite <- E, drop_body by assumption. reflexivity.
    + exfalso. apply (NE (body ++ s)). rewrite <- app_assoc. reflexivity.
  - split; [discriminate|].
    assert (E0 : (s_ "{;" ++ body ++ s_ ";}") ++ s = s_ "{;" ++ body ++ s_ ";}" ++ s)
      by (rewrite <- !app_assoc; reflexivity).
    rewrite E0.
    destruct (block_comment_match (s_ "{;" ++ body ++ s_ ";}" ++ s)) as [(b & r & E & M & FB')|(_ & [(r & E & F)|F])].
    + rewrite <- !app_assoc in E. apply app_inv_head in E.
      pose proof (block_first _ _ _ _ FB FB' E) as ->.
      pose proof (brace_no_line (body ++ s_ ";}" ++ r)) as BL.
      apply nextf_block; [discriminate|exact BL|exact M].
    + exfalso. apply app_inv_head in E. apply (F body s). symmetry. exact E.
    + discriminate.
  - split; [exact N|]. destruct w as [|c w]; [congruence|]. inversion B as [|? ? C B']; subst.
    destruct (line_comment_match ((c :: w) ++ s)) as [(t & L & M)|(NL & [(t & E & M)|(NE & M)])].
    + destruct (no_lead_blank _ _ B S H _ L).
    + exfalso. destruct w as [|d w].
      * cbn in E. injection E as E1 E2. apply S. rewrite E2. exists 32%N, t. split; reflexivity.
      * cbn in E. injection E as E1 E2 E3. apply (D w). rewrite E1, E2. reflexivity.
    + unfold nextf. cbn [app] in *. rewrite M, not_block, space_not_brace, whitespace_match, C by auto using space_not_brace.
      change (c :: w ++ s) with ((c :: w) ++ s). rewrite drop_while_app by (apply blank_forallb, B).
      f_equal. destruct s as [|d s]; [reflexivity|]. apply drop_while_stop. apply not_true_is_false. intro X.
      apply S. exists d, s. auto.
Qed.

Lemma next_complete : forall s ts i s', step s ts i s' -> s <> [] /\ nextf s = NStep (map Some ts) i s'.
Proof.
  intros s ts i s' S. destruct S as [g s G|t s T U MX NB|t v s T F U P X L|t s T E U|v s F EV U|c s NT SP Q1 Q2 Q3 Q4].
  - destruct (next_gap g s G) as [N E]. split; [|exact E]. destruct g; [congruence|discriminate].
  - destruct (tok_nonempty t T) as (c & b & E & SP).
    split; [rewrite E; discriminate|].
    assert (EC : t_text t ++ s = c :: b ++ s) by (rewrite E; reflexivity).
    assert (ST : startswith (s_ "{;") (c :: b ++ s) = false).
    { apply not_true_is_false. intro X. apply startswith_iff in X. destruct X as (r & X). apply (NB r). rewrite EC. exact X. }
    assert (U' : ~ starts_upper (t_text t ++ s)).
    { intros (d & r & D & I). rewrite EC in D. injection D as D1 D2. apply U. rewrite E. exists c, b. split; [reflexivity|].
      rewrite D1. exact I. }
    pose proof (token_match _ U') as TM. rewrite EC at 1. rewrite next_plain by assumption. rewrite <- EC.
    destruct (match_re token_re (t_text t ++ s)) as [rest|].
    + destruct TM as (t' & E' & T' & MX').
      assert (L : length (t_text t') = length (t_text t)).
      { apply Nat.le_antisymm; [apply MX; split; eauto|apply MX'; split; eauto]. }
      assert (XX : t_text t' = t_text t /\ rest = s).
      { clear - E' L. revert L E'. generalize (t_text t') (t_text t). induction s0 as [|x a IH]; intros [|y b] L E'; try discriminate L.
        - auto.
        - cbn [app] in E'. injection E' as E1 E2. injection L as L. destruct (IH b L E2) as [-> ->]. rewrite E1. auto. }
      destruct XX as [E1 ->]. apply next_plain_token; assumption.
    + exfalso. apply (TM t). split; [exact T|]. exists s. reflexivity.
  - assert (N : t_text t ++ v <> []) by (destruct (tok_nonempty t T) as (c & b & E & _); rewrite E; discriminate).
    assert (EV : t_text t ++ v ++ s = (t_text t ++ v) ++ s) by (apply app_assoc).
    rewrite EV. split; [intro Z; apply app_eq_nil in Z; destruct Z; congruence|].
    rewrite next_upper, next_upper_token by assumption.
    destruct (str_eqb (t_text t ++ v) (s_ "PIP")) eqn:P'; [apply str_eqb_eq in P'; congruence|].
    fold (chunk (t_text t ++ v)) in L.
    assert (FN : firstn (chunk (t_text t ++ v)) (t_text t ++ v) = t_text t).
    { rewrite <- L. rewrite firstn_app, Nat.sub_diag, firstn_all. apply app_nil_r. }
    assert (SN : skipn (chunk (t_text t ++ v)) (t_text t ++ v) = v).
    { rewrite <- L. rewrite skipn_app, Nat.sub_diag, skipn_all. reflexivity. }
    rewrite FN, SN. destruct (str_eqb (t_text t) (s_ "EI")) eqn:X'; [apply str_eqb_eq in X'; congruence|].
    rewrite (new_token_ok t T). reflexivity.
  - rewrite E in *. split; [discriminate|]. rewrite next_upper, next_upper_token; try assumption; try discriminate; try (repeat constructor).
    change (str_eqb (s_ "PIP") (s_ "PIP")) with true. cbv iota. rewrite <- E, (new_token_ok t T). reflexivity.
  - split; [discriminate|].
    assert (FE : Forall (fun c => is_upper c = true) (s_ "EI" ++ v)) by (repeat constructor; exact F).
    assert (E2 : s_ "EI" ++ v ++ s = (s_ "EI" ++ v) ++ s) by (apply app_assoc).
    rewrite E2, next_upper, next_upper_token; try assumption; try discriminate.
    assert (P' : str_eqb (s_ "EI" ++ v) (s_ "PIP") = false) by reflexivity.
    assert (C : chunk (s_ "EI" ++ v) = 2).
    { unfold chunk. rewrite app_length. unfold Nat.odd. change (Nat.even (length (s_ "EI") + length v)) with (Nat.even (length v)).
      rewrite EV. reflexivity. }
    rewrite P', C. change (firstn 2 (s_ "EI" ++ v)) with (s_ "EI"). change (str_eqb (s_ "EI") (s_ "EI")) with true. reflexivity.
  - split; [discriminate|].
    destruct (is_upper c) eqn:UP.
    { exfalso. destruct (upper_token [c]) as (t & T & E); [discriminate|constructor; auto|left; simpl; lia|].
      apply (NT t). split; [exact T|]. exists s. rewrite E. reflexivity. }
    assert (U' : ~ starts_upper (c :: s)).
    { intros (d & r & D & I). injection D as D1 D2. congruence. }
    assert (ST : startswith (s_ "{;") (c :: s) = false).
    { apply not_true_is_false. intro X. apply startswith_iff in X. destruct X as (r & X).
      apply (NT (Tok KSymbol (s_ "{"))). split; [|exists (s_ ";" ++ r); exact X].
      unfold token_text. cbn [t_kind t_text map In]. tauto. }
    rewrite next_plain by assumption. pose proof (token_match _ U') as TM.
    destruct (match_re token_re (c :: s)) as [rest|].
    + exfalso. destruct TM as (t & E & T & _). apply (NT t). split; [exact T|]. exists rest. exact E.
    + fold (quote_start c s). destruct (quote_start c s) eqn:Q; [|reflexivity].
      apply quote_iff in Q. destruct Q as [Q|[Q|[Q|(s' & Q)]]]; [destruct (Q1 Q)|destruct (Q2 Q)|destruct (Q3 Q)|destruct (Q4 s' Q)].
Qed.

(** ** The whole loop *)

Lemma loop_ok : forall f s, length s <= f ->
  (exists ts ig, tokenize_loop f s = ScanOk (map Some ts) ig /\ reads s ts ig [])
  \/ (tokenize_loop f s = ScanIncomplete /\ exists ts ig s', reads s ts ig s' /\ unterminated s').
Proof.
  induction f as [|f IH]; intros s L.
  - destruct s; [|simpl in L; lia]. left. exists [], []. split; [reflexivity|constructor].
  - destruct (list_eq_dec N.eq_dec s []) as [->|N].
    { left. exists [], []. split; [reflexivity|constructor]. }
    rewrite loop_next by exact N. pose proof (next_ok s N) as OK.
    destruct (nextf s) as [t i s'|].
    + destruct OK as (LT & t' & -> & S).
      destruct (IH s' ltac:(lia)) as [(ts & ig & E & R)|(E & ts & ig & r & R & X)].
      * left. exists (t' ++ ts), (i ++ ig). rewrite E. split; [cbn [add]; rewrite map_app; reflexivity|].
        eapply reads_step; eassumption.
      * right. rewrite E. split; [reflexivity|]. exists (t' ++ ts), (i ++ ig), r. split; [|exact X].
        eapply reads_step; eassumption.
    + right. split; [reflexivity|]. exists [], [], s. split; [constructor|exact OK].
Qed.

Lemma loop_fuel : forall f g s, length s <= f -> length s <= g -> tokenize_loop f s = tokenize_loop g s.
Proof.
  induction f as [|f IH]; intros g s L1 L2.
  - destruct s; [|simpl in L1; lia]. destruct g; reflexivity.
  - destruct g as [|g].
    + destruct s; [|simpl in L2; lia]. reflexivity.
    + destruct (list_eq_dec N.eq_dec s []) as [->|N]; [reflexivity|].
      rewrite !loop_next by exact N. pose proof (next_ok s N) as OK.
      destruct (nextf s) as [t i s'|]; [|reflexivity].
      destruct OK as (LT & _). rewrite (IH g s') by lia. reflexivity.
Qed.

Definition tloop (s : str) : scanres := tokenize_loop (length s) s.

Lemma add_add : forall t1 i1 t2 i2 r, add t1 i1 (add t2 i2 r) = add (t1 ++ t2) (i1 ++ i2) r.
Proof. intros t1 i1 t2 i2 []; [cbn; rewrite !app_assoc|..]; reflexivity. Qed.

Lemma loop_reads : forall s ts ig s', reads s ts ig s' -> tloop s = add (map Some ts) ig (tloop s').
Proof.
  intros s ts ig s' R. induction R as [s|s s' s'' t1 ts i1 ig S R IH].
  - destruct (tloop s); reflexivity.
  - destruct (next_complete _ _ _ _ S) as [N E]. pose proof (next_ok s N) as OK. rewrite E in OK. destruct OK as (LT & _).
    unfold tloop at 1. destruct (length s) as [|n] eqn:LS; [lia|]. rewrite loop_next, E by exact N.
    rewrite (loop_fuel n (length s') s') by lia. fold (tloop s'). rewrite IH, add_add, map_app. reflexivity.
Qed.

Lemma unterminated_stop : forall s, unterminated s -> tloop s = ScanIncomplete.
Proof.
  intros s U. unfold tloop.
  assert (N : s <> []) by (destruct U as [(s' & -> & _)|(s' & [ ->|[ ->|[ ->| ->]]] & _)]; discriminate).
  destruct (length s) as [|n] eqn:LS; [destruct s; [congruence|discriminate]|].
  rewrite loop_next by exact N. pose proof (next_ok s N) as OK.
  enough (X : nextf s = NStop) by (rewrite X; reflexivity).
  destruct (nextf s) as [t i s'|] eqn:E; [|reflexivity]. exfalso.
  destruct OK as (_ & ts & -> & S).
  destruct U as [(r & -> & F)|(r & Q & F)].
  - pose proof (brace_no_line r) as BL.
    destruct (block_comment_match (s_ "{;" ++ r)) as [(body & q & E' & M & _)|(MB & _)].
    + rewrite <- !app_assoc in E'. apply app_inv_head in E'. apply (F body q). exact E'.
    + rewrite nextf_open in E; [discriminate|discriminate|exact BL|exact MB|reflexivity].
  - destruct s as [|c s]; [congruence|].
    assert (QS : quote_start c s = true).
    { apply quote_iff. destruct Q as [Q|[Q|[Q|Q]]]; injection Q as Q1 Q2; auto.
      right. right. right. exists r. rewrite Q1, Q2. reflexivity. }
    assert (CC : c = 34%N \/ c = 96%N \/ c = 39%N \/ c = 92%N).
    { destruct Q as [Q|[Q|[Q|Q]]]; injection Q as Q1 Q2; auto. }
    assert (SP : is_space c = false) by (destruct CC as [ ->|[ ->|[ ->| ->]]]; reflexivity).
    assert (UP : is_upper c = false) by (destruct CC as [ ->|[ ->|[ ->| ->]]]; reflexivity).
    assert (ST : startswith (s_ "{;") (c :: s) = false) by (destruct CC as [ ->|[ ->|[ ->| ->]]]; reflexivity).
    rewrite next_plain in E by assumption.
    assert (U' : ~ starts_upper (c :: s)).
    { intros (d & r' & D & I). injection D as D1 D2. congruence. }
    pose proof (token_match _ U') as TM.
    destruct (match_re token_re (c :: s)) as [rest|].
    + destruct TM as (t & E' & T & _). apply (F t). split; [exact T|]. exists rest. exact E'.
    + fold (quote_start c s) in E. rewrite QS in E. discriminate.
Qed.

(** ** Whole programs *)

Lemma scan_loop : forall code, scan code =
  match tloop (framed code) with ScanOk ts ig => ScanOk (ts ++ [None]) ig | r => r end.
Proof. reflexivity. Qed.

Lemma scan_total : forall code,
  (exists ts ig, scan code = ScanOk (program ts) ig /\ reads (framed code) ts ig [])
  \/ (scan code = ScanIncomplete /\ exists ts ig s, reads (framed code) ts ig s /\ unterminated s).
Proof.
  intro code. rewrite scan_loop. destruct (loop_ok _ (framed code) (le_n _)) as [(ts & ig & E & R)|(E & X)].
  - left. exists ts, ig. unfold tloop. rewrite E. auto.
  - right. unfold tloop. rewrite E. auto.
Qed.

Lemma map_some_inj : forall {A} (a b : list A), map Some a = map Some b -> a = b.
Proof.
  induction a as [|x a IH]; intros [|y b] E; try discriminate; [reflexivity|]. cbn [map] in E. injection E as -> E.
  rewrite (IH b E). reflexivity.
Qed.
Lemma program_inj : forall a b, program a = program b -> a = b.
Proof. intros a b E. unfold program in E. apply app_inj_tail in E. destruct E as [E _]. apply map_some_inj, E. Qed.

Lemma scan_reads : forall code ts ig, reads (framed code) ts ig [] <-> scan code = ScanOk (program ts) ig.
Proof.
  intros code ts ig. split.
  - intro R. rewrite scan_loop, (loop_reads _ _ _ _ R). cbn. rewrite !app_nil_r. reflexivity.
  - intro E. destruct (scan_total code) as [(ts' & ig' & E' & R)|(E' & _)]; [|congruence].
    rewrite E in E'. injection E' as P I. apply program_inj in P. subst. exact R.
Qed.

Lemma scan_open : forall code ts ig s, reads (framed code) ts ig s -> unterminated s -> scan code = ScanIncomplete.
Proof. intros code ts ig s R U. rewrite scan_loop, (loop_reads _ _ _ _ R), unterminated_stop by exact U. reflexivity. Qed.

Lemma step_tokens : forall s ts ig s', step s ts ig s' -> Forall token_text ts.
Proof.
  intros s ts ig s' S. destruct S; (apply Forall_nil || (apply Forall_cons; [|apply Forall_nil])); try assumption.
  unfold token_text. cbn [t_kind t_text map In]. tauto.
Qed.
Lemma reads_tokens : forall s ts ig s', reads s ts ig s' -> Forall token_text ts.
Proof.
  intros s ts ig s' R. induction R; [constructor|]. apply Forall_app. split; [eapply step_tokens; eassumption|assumption].
Qed.

Lemma token_proper : forall t, token_text t -> proper t.
Proof.
  intros [k s] T. split; cbn [t_kind t_text].
  - intros ->. apply command_iff. exact T.
  - intro E. pose proof (new_token_ok _ T) as X. cbn [t_text] in X.
    destruct E as [ -> | -> ]; vm_compute in X; injection X as <-; reflexivity.
Qed.

Lemma ignored_starts_no_token : forall s ts ig s', reads s ts ig s' -> forall c, In c ig ->
  exists a b, s = a ++ c :: b /\ is_space c = false /\ forall t, ~ starts_with_token (c :: b) t.
Proof.
  intros s ts ig s' R. induction R as [s|s s' s'' t1 ts i1 ig S R IH]; intros c I; [destruct I|].
  apply in_app_or in I. destruct I as [I|I].
  - destruct S; try destruct I. exists [], s. subst. auto. destruct H5.
  - destruct (IH c I) as (a & b & E & X).
    assert (SUF : exists p, s = p ++ s' \/ exists v, s = s_ "EI" ++ v /\ s' = s_ "I" ++ v).
    { destruct S; try (eexists; left; reflexivity).
      - exists []. right. exists (v ++ s). auto.
      - exists [c0]. left. reflexivity. }
    destruct SUF as (p & [ -> |(v & -> & ->)]).
    + exists (p ++ a), b. rewrite E, <- app_assoc. auto.
    + exists (s_ "E" ++ a), b. rewrite <- app_assoc. cbn. cbn in E. rewrite <- E. auto.
Qed.

(** ** Runs *)

Lemma pairs_even : forall n u, length u = 2 * n -> Forall (fun c => is_upper c = true) u ->
  ~ In (s_ "EI") (pairs u) ->
  forall s, ~ starts_upper s -> exists ts, map t_text ts = pairs u /\ reads (u ++ s) ts [] s.
Proof.
  induction n as [|n IH]; intros u L F NE s U.
  - destruct u; [|discriminate]. exists []. split; [reflexivity|constructor].
  - destruct u as [|a [|b u]]; [discriminate|simpl in L; lia|]. simpl in L.
    inversion F as [|? ? A F1]; subst. inversion F1 as [|? ? B F2]; subst.
    cbn [pairs] in NE.
    destruct (IH u ltac:(lia) F2 (fun i => NE (or_intror i)) s U) as (ts & M & R).
    destruct (upper_token [a; b]) as (t & T & E); [discriminate|repeat constructor; auto|left; simpl; lia|].
    exists (t :: ts). split; [cbn [map pairs]; rewrite E, M; reflexivity|].
    change (t :: ts) with ([t] ++ ts). change (@nil char) with (@nil char ++ []).
    eapply reads_step; [|exact R].
    change ((a :: b :: u) ++ s) with ([a; b] ++ u ++ s). rewrite <- E.
    apply step_upper; auto.
    + rewrite E. repeat constructor; auto.
    + rewrite E. intro X. apply (f_equal (@length _)) in X. cbn [app length] in X. change (length (s_ "PIP")) with 3 in X. lia.
    + rewrite E. intro X. apply NE. left. exact X.
    + rewrite E. cbn [app length].
      replace (Nat.odd (S (S (length u)))) with false; [reflexivity|].
      symmetry. rewrite <- Nat.negb_even. apply negb_false_iff, Nat.even_spec. exists (S n). lia.
Qed.

Lemma run_reads : forall u, u <> [] -> Forall (fun c => is_upper c = true) u -> u <> s_ "PIP" ->
  ~ In (s_ "EI") (pieces u) ->
  forall s, ~ starts_upper s -> exists ts, map t_text ts = pieces u /\ reads (u ++ s) ts [] s.
Proof.
  intros u N F P NE s U. unfold pieces in *. destruct (Nat.odd (length u)) eqn:O.
  - destruct u as [|a u]; [congruence|]. inversion F as [|? ? A F1]; subst.
    assert (EV : exists n, length u = 2 * n).
    { simpl in O. rewrite Nat.odd_succ in O. apply Nat.even_spec in O. exact O. }
    destruct EV as (n & L).
    destruct (pairs_even n u L F1 (fun i => NE (or_intror i)) s U) as (ts & M & R).
    destruct (upper_token [a]) as (t & T & E); [discriminate|repeat constructor; auto|left; simpl; lia|].
    exists (t :: ts). split; [cbn [map]; rewrite E, M; reflexivity|].
    change (t :: ts) with ([t] ++ ts). change (@nil char) with (@nil char ++ []).
    eapply reads_step; [|exact R].
    change ((a :: u) ++ s) with ([a] ++ u ++ s). rewrite <- E.
    apply step_upper; auto.
    + rewrite E. exact F.
    + rewrite E. exact P.
    + rewrite E. discriminate.
    + rewrite E. change ([a] ++ u) with (a :: u). rewrite O. reflexivity.
  - assert (EV : exists n, length u = 2 * n).
    { rewrite <- Nat.negb_even in O. apply negb_false_iff, Nat.even_spec in O. exact O. }
    destruct EV as (n & L). apply (pairs_even n); assumption.
Qed.

Lemma reads_app : forall s1 t1 i1 s2 t2 i2 s3, reads s1 t1 i1 s2 -> reads s2 t2 i2 s3 -> reads s1 (t1 ++ t2) (i1 ++ i2) s3.
Proof.
  intros s1 t1 i1 s2 t2 i2 s3 R. induction R; intro R2; [exact R2|].
  rewrite <- !app_assoc. eapply reads_step; [eassumption|]. apply IHR, R2.
Qed.

Lemma run_scan : forall a u b ts1 ig1, u <> [] -> Forall (fun c => is_upper c = true) u -> u <> s_ "PIP" ->
  ~ In (s_ "EI") (pieces u) -> ~ starts_upper b ->
  reads (framed (a ++ u ++ b)) ts1 ig1 (u ++ b ++ [10%N]) ->
  forall ts ig, scan (a ++ u ++ b) = ScanOk (program ts) ig ->
  exists run ts2 ig2, ts = ts1 ++ run ++ ts2 /\ ig = ig1 ++ ig2 /\ map t_text run = pieces u
    /\ reads (b ++ [10%N]) ts2 ig2 [].
Proof.
  intros a u b ts1 ig1 N F P NE U R ts ig S.
  destruct (run_reads u N F P NE (b ++ [10%N])) as (run & M & R2).
  { destruct b as [|c b]; intros (d & s' & E & D).
    - injection E as E1 E2. rewrite <- E1 in D. discriminate.
    - cbn [app] in E. injection E as E1 E2. apply U. exists c, b. split; [reflexivity|]. rewrite E1. exact D. }
  pose proof (reads_app _ _ _ _ _ _ _ R R2) as R3.
  destruct (loop_ok _ (b ++ [10%N]) (le_n _)) as [(ts2 & ig2 & E & R4)|(_ & ts2 & ig2 & r & R4 & X)].
  - pose proof (reads_app _ _ _ _ _ _ _ R3 R4) as R5. apply scan_reads in R5. rewrite S in R5.
    injection R5 as E1 E2. apply program_inj in E1. exists run, ts2, ig2. rewrite app_nil_r in E2.
    rewrite E1, <- app_assoc. auto.
  - pose proof (reads_app _ _ _ _ _ _ _ R3 R4) as R5. rewrite (scan_open _ _ _ _ R5 X) in S. discriminate.
Qed.

Lemma run_alone : forall u, u <> [] -> Forall (fun c => is_upper c = true) u -> u <> s_ "PIP" ->
  ~ In (s_ "EI") (pieces u) ->
  exists run, scan u = ScanOk (program run) [] /\ map t_text run = pieces u.
Proof.
  intros u N F P NE.
  assert (U1 : ~ starts_upper [10%N]) by (intros (d & s' & E & D); injection E as E1 E2; rewrite <- E1 in D; discriminate).
  destruct (run_reads u N F P NE [10%N] U1) as (run & M & R).
  exists run. split; [|exact M]. apply scan_reads.
  assert (SB : forall s, ~ starts_blank s -> (forall s', s <> s_ ";" ++ s') -> step ([10%N] ++ s) [] [] s).
  { intros s SB SS. apply step_gap, gap_blank; [discriminate|repeat constructor|exact SB|discriminate|auto]. }
  destruct u as [|c u]; [congruence|]. inversion F as [|? ? C _]; subst.
  change run with ([] ++ run). change (@nil char) with (@nil char ++ []).
  eapply reads_step.
  - change (framed (c :: u)) with ([10%N] ++ (c :: u) ++ [10%N]). apply SB.
    + intros (d & s' & E & D). injection E as E1 E2. rewrite <- E1 in D. rewrite (upper_not_space c C) in D. discriminate.
    + intros s' E. injection E as E1 E2. rewrite E1 in C. discriminate.
  - rewrite <- (app_nil_r run). change (@nil char) with (@nil char ++ []). eapply reads_app; [exact R|].
    change (@nil token) with (@nil token ++ []). change (@nil char) with (@nil char ++ []).
    eapply reads_step; [|constructor]. apply (SB []); [intros (d & s' & E & _); discriminate|discriminate].
Qed.

(** ** Removing gaps *)

Lemma same_rest : forall code1 code2 ts ig s, reads (framed code1) ts ig s -> reads (framed code2) ts ig s ->
  scan code1 = scan code2.
Proof.
  intros code1 code2 ts ig s R1 R2. rewrite !scan_loop, (loop_reads _ _ _ _ R1), (loop_reads _ _ _ _ R2). reflexivity.
Qed.

Lemma gap_removed : forall a g b ts ig, gap g (b ++ [10%N]) ->
  reads (framed (a ++ g ++ b)) ts ig (g ++ b ++ [10%N]) ->
  reads (framed (a ++ b)) ts ig (b ++ [10%N]) ->
  scan (a ++ g ++ b) = scan (a ++ b).
Proof.
  intros a g b ts ig G R1 R2. apply (same_rest _ _ ts ig (b ++ [10%N])); [|exact R2].
  rewrite <- (app_nil_r ts), <- (app_nil_r ig). eapply reads_app; [exact R1|].
  change (@nil token) with (@nil token ++ []). change (@nil char) with (@nil char ++ []).
  eapply reads_step; [apply step_gap, G|constructor].
Qed.

Lemma gap_exchanged : forall a g h b ts ig, gap g (b ++ [10%N]) -> gap h (b ++ [10%N]) ->
  reads (framed (a ++ g ++ b)) ts ig (g ++ b ++ [10%N]) ->
  reads (framed (a ++ h ++ b)) ts ig (h ++ b ++ [10%N]) ->
  scan (a ++ g ++ b) = scan (a ++ h ++ b).
Proof.
  intros a g h b ts ig G H R1 R2. apply (same_rest _ _ ts ig (b ++ [10%N])).
  all: rewrite <- (app_nil_r ts), <- (app_nil_r ig); eapply reads_app; [eassumption|].
  all: change (@nil token) with (@nil token ++ []); change (@nil char) with (@nil char ++ []).
  all: eapply reads_step; [apply step_gap; eassumption|constructor].
Qed.

(** ** Reading concrete texts, for the examples *)

Fixpoint first_steps (n : nat) (s : str) : option (list (option token) * list char * str) :=
  match n with
  | O => Some ([], [], s)
  | S n => match s with
           | [] => None
           | _ => match nextf s with
                  | NStop => None
                  | NStep t i s' =>
                      match first_steps n s' with
                      | Some (ts, ig, r) => Some (t ++ ts, i ++ ig, r)
                      | None => None
                      end
                  end
           end
  end.

Lemma first_steps_reads : forall n s ts ig s', first_steps n s = Some (map Some ts, ig, s') -> reads s ts ig s'.
Proof.
  induction n as [|n IH]; intros s ts ig s' E.
  - cbn [first_steps] in E. injection E as E1 E2 E3. destruct ts; [|discriminate]. subst. constructor.
  - cbn [first_steps] in E. destruct s as [|c s]; [discriminate|].
    pose proof (next_ok (c :: s) ltac:(discriminate)) as OK. destruct (nextf (c :: s)) as [t i r|]; [|discriminate].
    destruct OK as (_ & t1 & -> & S). destruct (first_steps n r) as [[[ts2 ig2] r2]|] eqn:E2; [|discriminate].
    injection E as E1 <- <-.
    assert (X : exists t2, ts2 = map Some t2 /\ ts = t1 ++ t2).
    { clear - E1. revert ts E1. induction t1 as [|x t1 IH]; intros ts E1; cbn [map app] in E1.
      - exists ts. auto.
      - destruct ts as [|y ts]; [discriminate|]. cbn [map] in E1. injection E1 as -> E1.
        destruct (IH ts E1) as (t2 & -> & ->). exists t2. auto. }
    destruct X as (t2 & -> & ->). eapply reads_step; [exact S|]. apply IH. exact E2.
Qed.

Lemma stop_unterminated : forall s, s <> [] -> nextf s = NStop -> unterminated s.
Proof. intros s N E. pose proof (next_ok s N) as OK. rewrite E in OK. exact OK. Qed.
