(** * Properties of Patterns *)

From Coq Require Import String List NArith ZArith Bool Arith Lia.
From Verif Require Import PyStr PyRe PyNum Unparse PTypes Ops UserRe OpsSeq Apply RunOp PFacts StrFacts
                          SpecRegex ReSound ReScan ReShift ReLit ReAlg RegexProof RegexScan RegexStrip.
Import ListNotations.
Local Open Scope string_scope.
Local Open Scope list_scope.

(** ** C71: a Pattern made of a text acts like the text *)

Theorem C71_literal_pattern fmt s :
  exists p, run_op fmt "X" [PScal s] = ret p /\ forall t,
    run_op fmt "N" [p; PScal t] = run_op fmt "N" [PScal s; PScal t]
    /\ run_op fmt "NI" [p; PScal t] = run_op fmt "NI" [PScal s; PScal t]
    /\ run_op fmt "@?" [PScal t; p] = run_op fmt "@?" [PScal t; PScal s]
    /\ run_op fmt "^" [PScal t; p] = run_op fmt "^" [PScal t; PScal s]
    /\ run_op fmt "RM" [PScal t; p] = run_op fmt "RM" [PScal t; PScal s]
    /\ (forall new, is_block new = false ->
          run_op fmt "R" [PScal t; p; new] = run_op fmt "R" [PScal t; PScal s; new])
    /\ (s = t -> run_op fmt "~=" [PScal t; p] = ret (PScal (s_ "1")))
    /\ (s <> t -> run_op fmt "~=" [PScal t; p] = ret (PScal (s_ "0")))
    /\ ((exists a b, t = a ++ s ++ b) -> run_op fmt "~" [PScal t; p] = ret (PScal s))
    /\ (~ (exists a b, t = a ++ s ++ b) -> run_op fmt "~" [PScal t; p] = ret PNil)
    /\ (exists n, run_op fmt "N" [p; PScal t] = ret (scal_Z (Z.of_nat n))
                  /\ run_op fmt "@" [PScal t; p] = ret (PList (repeat (PScal s) n))).
Proof.
  exists (PPat (literal_regex s) 0). split; [apply literal_X|]. intros t.
  split; [apply literal_IN|]. split; [apply literal_NI|]. split; [apply literal_FIND|].
  split; [apply literal_SPLIT|]. split; [apply literal_REMOVE|]. split; [apply literal_REPLACE|].
  rewrite literal_FULL. split; [|split].
  - intros ->. rewrite str_eqb_refl. reflexivity.
  - intros Ne. destruct (str_eqb s t) eqn:E; [apply str_eqb_eq in E; contradiction|reflexivity].
  - rewrite literal_FIRST. unfold str_contains. pose proof (str_find_spec s t) as F.
    split; [|split].
    + intros Q. destruct (str_find s t); [reflexivity|]. exfalso. destruct Q as (a & b & E). apply (F (length a)). exists a, b. auto.
    + intros Q. destruct (str_find s t); [|reflexivity]. exfalso. apply Q. destruct F as [(a & b & E & _) _]. eauto.
    + pose proof (proj2 (compile_literal s)) as Co.
      exists (length (matches 0 (bracket (lit_rx s)) t)).
      rewrite (run_IN fmt (literal_regex s) 0 t _ _ eq_refl Co).
      rewrite (run_AT fmt (literal_regex s) 0 t _ _ eq_refl Co). split; [reflexivity|]. do 2 f_equal.
      destruct (literal_part s) as (k & (Ca & H) & _).
      destruct (part_compiles _ _ (literal_part s)) as (r & k' & Co' & M). rewrite Co in Co'. injection Co' as <- <-.
      pose proof (matches_means _ _ t M) as F2. clear -F2.
      induction F2 as [|m ms (a & b & _ & _ & E) _ IH]; cbn [map length repeat]; [reflexivity|].
      rewrite E, IH. reflexivity.
Qed.
Print Assumptions C71_literal_pattern.
(** All places: the Pattern's do not overlap, the text's do. *)
Theorem C71_find_all_refuted : exists s t p,
  run_op FmtNone "X" [PScal s] = ret p
  /\ run_op FmtNone "@*" [PScal t; p] <> run_op FmtNone "@*" [PScal t; PScal s].
Proof.
  exists (s_ "aa"), (s_ "aaa"). eexists. split; [vm_compute; reflexivity|]. vm_compute. discriminate.
Qed.
Print Assumptions C71_find_all_refuted.

(** A text full of special characters. *)
Definition odd_text : str := s_ "a.b*(c|d)\1".
Example C71_e1 : run_op FmtNone "X" [PScal odd_text] = ret (PPat (s_ "(?:a\.b\*\(c\|d\)\\1)") 0).
Proof. vm_compute. reflexivity. Qed.
Example C71_e2 :
  run_op FmtNone "N" [PPat (s_ "(?:a\.b\*\(c\|d\)\\1)") 0; PScal (s_ "xa.b*(c|d)\1ya.b*(c|d)\1")]
  = ret (PScal (s_ "2")).
Proof. vm_compute. reflexivity. Qed.

(** ** C72: one scan *)

Theorem C72_one_scan fmt raw f t v :
  run_op fmt "@" [PScal t; PPat raw f] = ret v ->
  exists gm last,
    rebuilt (fun g m => g ++ m) gm last = t
    /\ v = PList (map (fun p => PScal (snd p)) gm)
    /\ run_op fmt "N" [PPat raw f; PScal t] = ret (scal_Z (Z.of_nat (length gm)))
    /\ run_op fmt "@*" [PScal t; PPat raw f] = ret (PList (map (fun i => scal_Z (Z.of_nat i)) (starts 0 gm)))
    /\ run_op fmt "@?" [PScal t; PPat raw f]
       = ret (match gm with [] => PNil | (g, _) :: _ => scal_Z (Z.of_nat (length g)) end)
    /\ run_op fmt "~" [PScal t; PPat raw f] = ret (match gm with [] => PNil | (_, m) :: _ => PScal m end)
    /\ run_op fmt "NI" [PPat raw f; PScal t]
       = ret (PScal (match gm with [] => s_ "1" | _ => s_ "0" end))
    /\ run_op fmt "RM" [PScal t; PPat raw f] = ret (PScal (rebuilt (fun g _ => g) gm last))
    /\ (forall u, run_op fmt "R" [PScal t; PPat raw f; PScal u]
                  = ret (PScal (rebuilt (fun g _ => g ++ u) gm last)))
    /\ (forall w, run_op fmt "^" [PScal t; PPat raw f] = ret w -> raw <> [] ->
          group_count raw <= 18 -> ascii_digits_only raw ->
          exists n groups, n <= group_count raw /\ Forall (fun l => length l = n) groups
            /\ length groups = length gm
            /\ w = PList (map PScal (concat (map (fun gl => fst (fst gl) :: snd gl) (combine gm groups)) ++ [last]))).
Proof.
  intros E. destruct (defined_AT _ _ _ _ _ E) as (Us & r & k & Co).
  rewrite (run_AT fmt raw f t r k Us Co) in E. injection E as <-.
  pose proof (matches_order f r t) as O.
  exists (cuts t 0 (matches f r t)), (skipn (last_end 0 (matches f r t)) t).
  split; [symmetry; exact (cuts_text t _ 0 O)|].
  split. { f_equal. rewrite <- map_map with (f := snd) (g := PScal), cuts_matched, map_map. reflexivity. }
  rewrite (run_IN fmt raw f t r k Us Co), (run_FINDALL fmt raw f t r k Us Co), (run_FIND fmt raw f t r k Us Co),
    (run_FIRST fmt raw f t r k Us Co), (run_NI fmt raw f t r k Us Co), (run_REMOVE fmt raw f t r k Us Co).
  rewrite cuts_length, (starts_cuts t _ 0 O), map_map, matches_search.
  split; [reflexivity|]. split; [reflexivity|].
  split. { inversion O as [|? m ms L I O' Q]; [reflexivity|]. cbn [hd_error cuts]. do 2 f_equal.
           rewrite span_length by (destruct I as (I1 & I2 & _); lia). rewrite Nat.sub_0_r. reflexivity. }
  split; [destruct (matches f r t); reflexivity|].
  split; [destruct (matches f r t); reflexivity|].
  split. { rewrite sub_from_const. do 2 f_equal. unfold rebuilt. f_equal. f_equal.
           apply map_ext. intros. apply app_nil_r. }
  split. { intros u. rewrite (run_REPLACE fmt raw f t r k Us Co), sub_from_const. reflexivity. }
  intros w Ew Ne Gc Ad. destruct (defined_SPLIT _ _ _ _ _ Ne Ew) as (r0 & n & Co0 & ->).
  pose proof (compile_count _ _ _ _ Co0) as Ln.
  pose proof (compile_as_regex f raw r0 n Co0 ltac:(lia) (okd_all _ Ad)) as Q.
  rewrite Co in Q. injection Q as -> ->. change (XSeq (XGrp 1 (shift r0)) XEps) with (bracket r0).
  rewrite matches_bracket, cuts_bracketed, last_end_bracketed.
  exists n, (map (fun m => map (fun i => text_or_None (group_text t m i)) (seq 1 n)) (matches f r0 t)).
  split; [exact Ln|]. split; [|split].
  - apply Forall_map, Forall_forall. intros m _. rewrite map_length, seq_length. reflexivity.
  - rewrite !map_length. reflexivity.
  - f_equal. rewrite <- split_cuts. rewrite map_map. reflexivity.
Qed.
Print Assumptions C72_one_scan.

Definition words : str := s_ "one, two;  three".
Definition separator : pval := PPat (s_ "[,;] *") 0.
Example C72_e1 : run_op FmtNone "@" [PScal words; separator]
  = ret (PList [PScal (s_ ", "); PScal (s_ ";  ")]).
Proof. vm_compute. reflexivity. Qed.
Example C72_e2 : run_op FmtNone "^" [PScal words; separator]
  = ret (PList [PScal (s_ "one"); PScal (s_ "two"); PScal (s_ "three")]).
Proof. vm_compute. reflexivity. Qed.

(** Group 1 followed by an Arabic digit three: renumbered as if it were group
    13. *)
Definition arabic_digit : str := s_ "(a)" ++ concat (repeat (s_ "()") 11) ++ s_ "(b)\1" ++ [1635%N].
Theorem C72_digits_refuted : exists t,
  run_op FmtNone "@" [PScal t; PPat arabic_digit 0] = ret (PList [])
  /\ run_op FmtNone "^" [PScal t; PPat arabic_digit 0]
     = ret (PList (PScal [] :: PScal (s_ "a") :: repeat (PScal []) 11 ++ [PScal (s_ "b"); PScal []])).
Proof. exists (s_ "aba" ++ [1635%N]). split; vm_compute; reflexivity. Qed.
Print Assumptions C72_digits_refuted.

(** ** C73: operators on Patterns are operations on languages *)

Theorem C73_operators fmt p L t : denotes fmt p L ->
  (exists b : bool, run_op fmt "~=" [PScal t; p] = ret (PScal (if b then s_ "1" else s_ "0")) /\ (b = true <-> L t))
  /\ ((exists i m, run_op fmt "@?" [PScal t; p] = ret (scal_Z (Z.of_nat i))
                   /\ run_op fmt "~" [PScal t; p] = ret (PScal m)
                   /\ part_at L t i m /\ forall j x, part_at L t j x -> i <= j)
      \/ (run_op fmt "@?" [PScal t; p] = ret PNil /\ run_op fmt "~" [PScal t; p] = ret PNil
          /\ forall i m, ~ part_at L t i m))
  /\ (exists ms, run_op fmt "@" [PScal t; p] = ret (PList (map PScal ms)) /\ Forall L ms).
Proof.
  intros D. destruct (denotes_part _ _ _ D) as (raw & -> & P).
  destruct (part_compiles raw L P) as (r & k & Co & M).
  split; [|split].
  - rewrite (run_FULL fmt raw 0 t r k eq_refl Co). pose proof (full_means r L t M) as F.
    destruct (fullmatch 0 r t); [exists true|exists false]; (split; [reflexivity|]).
    + split; [intros _; apply F; discriminate|reflexivity].
    + split; [discriminate|]. intros A. apply F in A. contradiction.
  - rewrite (run_FIND fmt raw 0 t r k eq_refl Co), (run_FIRST fmt raw 0 t r k eq_refl Co).
    pose proof (search_means r L t M) as S0. destruct (search 0 r t) as [m|].
    + left. exists (fd_start m), (match_text t m). destruct S0 as [A B]. auto.
    + right. auto.
  - exists (map (match_text t) (matches 0 r t)).
    rewrite (run_AT fmt raw 0 t r k eq_refl Co), map_map. split; [reflexivity|].
    apply Forall_map. eapply Forall_impl; [|exact (matches_means r L t M)].
    intros m (a & b & _ & _ & A). exact A.
Qed.
Print Assumptions C73_operators.

(** [(X["ab" "c"] + XL * 2) , K(X".")]. *)
Definition made : pval := PPat (s_ "(?:(?:(?:(?:ab)|c))(?:(?:[a-z]){2}))|(?:(?:(?:\.))*)") 0.
Example C73_e1 : exists L, denotes FmtNone made L
  /\ (forall t, L t <-> ((exists a c d, t = a ++ [c; d] /\ In a [s_ "ab"; s_ "c"] /\ between 97 122 c /\ between 97 122 d)
                         \/ exists n, t = repeat 46%N n)).
Proof.
  eexists. split.
  - refine (D_or _ _ _ _ _ _ (D_then _ _ _ _ _ _ (D_texts _ [s_ "ab"; s_ "c"] _ _ _ _)
                                     (D_times _ _ _ (s_ "2") 2 _ (D_char _ (s_ "[a-z]") (between 97 122) _) _ _ _ _) _)
                 (D_star _ _ _ _ (D_text _ (s_ ".") _ _) _ _) _ _); try (vm_compute; reflexivity); try discriminate.
    left. split; reflexivity.
  - intros t. unfold either, followed, repeated_by, one_char. split.
    + intros [(a & b & -> & Ia & ts & Ln & F & ->)|(ts & _ & F & ->)].
      * left. destruct ts as [|x [|y [|]]]; try discriminate. inversion F as [|? ? (c & -> & Hc) F2]; subst.
        inversion F2 as [|? ? (d & -> & Hd) _]; subst. exists a, c, d. auto.
      * right. exists (length ts). clear -F. induction F as [|x ts -> _ IH]; [reflexivity|].
        cbn [concat length repeat]. rewrite IH. reflexivity.
    + intros [(a & c & d & -> & Ia & Hc & Hd)|(n & ->)].
      * left. exists a, [c; d]. split; [reflexivity|]. split; [exact Ia|]. exists [[c]; [d]].
        split; [reflexivity|]. split; [|reflexivity].
        constructor; [exists c; auto|constructor; [exists d; auto|constructor]].
      * right. exists (repeat [46%N] n). split; [exact I|]. split.
        -- apply Forall_forall. intros x Hx. apply repeat_spec in Hx. exact Hx.
        -- induction n as [|n IH]; [reflexivity|]. cbn [repeat concat]. rewrite <- IH. reflexivity.
Qed.
Example C73_e2 : run_op FmtNone "~=" [PScal (s_ "abxy"); made] = ret (PScal (s_ "1"))
  /\ run_op FmtNone "~=" [PScal (s_ "abx"); made] = ret (PScal (s_ "0"))
  /\ run_op FmtNone "@" [PScal (s_ "cow..abba"); made]
     = ret (PList (map PScal [s_ "cow"; s_ ".."; s_ "abba"; s_ ""])).
Proof. vm_compute. auto. Qed.

(** The alternative of two empty Patterns has the regex [|], which is not put in
    brackets: followed by a it matches the empty text. *)
Theorem C73_empty_alternatives_refuted : exists e o a p,
  run_op FmtNone "X" [PScal []] = ret e
  /\ run_op FmtNone "," [e; e] = ret o
  /\ run_op FmtNone "X" [PScal (s_ "a")] = ret a
  /\ run_op FmtNone "+" [o; a] = ret p
  /\ run_op FmtNone "~=" [PScal []; p] = ret (PScal (s_ "1"))
  /\ ~ followed (either (fun t => t = []) (fun t => t = [])) (fun t => t = s_ "a") [].
Proof.
  do 4 eexists. repeat (split; [vm_compute; reflexivity|]).
  intros (a & b & E & _ & Eb). rewrite Eb in E. destruct a; discriminate.
Qed.
Print Assumptions C73_empty_alternatives_refuted.
(** The flags of one Pattern are those of the whole: XL followed by the
    case-insensitive b matches AB, although neither XL matches A. *)
Theorem C73_flags_refuted : exists b p,
  run_op FmtNone "-" [PPat (s_ "b") 0] = ret b
  /\ run_op FmtNone "+" [PPat (s_ "[a-z]") 0; b] = ret p
  /\ run_op FmtNone "~=" [PScal (s_ "AB"); p] = ret (PScal (s_ "1"))
  /\ run_op FmtNone "~=" [PScal (s_ "A"); PPat (s_ "[a-z]") 0] = ret (PScal (s_ "0")).
Proof. do 2 eexists. repeat (split; [vm_compute; reflexivity|]). vm_compute. reflexivity. Qed.
Print Assumptions C73_flags_refuted.

(** ** C74: the ampersand in a replacement is the match *)

Theorem C74_ampersand fmt raw f t v u w wf :
  run_op fmt "@" [PScal t; PPat raw f] = ret v ->
  run_op fmt "^" [PScal t; PPat raw f] = ret u -> raw <> [] ->
  group_count raw <= 18 -> ascii_digits_only raw -> ~ In 92%N w ->
  exists gm last,
    rebuilt (fun g m => g ++ m) gm last = t
    /\ v = PList (map (fun p => PScal (snd p)) gm)
    /\ run_op fmt "R" [PScal t; PPat raw f; PPat w wf]
       = ret (PScal (rebuilt (fun g m => g ++ flat_map (fun c => if N.eqb c 38 then m else [c]) w) gm last)).
Proof.
  intros E Ew Ne Gc Ad Nb. destruct (defined_AT _ _ _ _ _ E) as (Us & r & k & Co).
  rewrite (run_AT fmt raw f t r k Us Co) in E. injection E as <-.
  pose proof (matches_order f r t) as O.
  exists (cuts t 0 (matches f r t)), (skipn (last_end 0 (matches f r t)) t).
  split; [symmetry; exact (cuts_text t _ 0 O)|].
  split. { f_equal. rewrite <- map_map with (f := snd) (g := PScal), cuts_matched, map_map. reflexivity. }
  destruct (defined_SPLIT _ _ _ _ _ Ne Ew) as (r0 & n & Co0 & ->).
  pose proof (compile_count _ _ _ _ Co0) as Ln.
  pose proof (compile_as_regex f raw r0 n Co0 ltac:(lia) (okd_all _ Ad)) as Q.
  rewrite Co in Q. injection Q as -> ->. change (XSeq (XGrp 1 (shift r0)) XEps) with (bracket r0) in *.
  rewrite (run_REPLACE_pattern fmt raw f t _ _ Us Co), (replacement_amps w Nb).
  unfold parse_template. rewrite (template_amps _ w Nb) by lia. cbn [of_re]. rewrite bind_ret. do 2 f_equal.
  rewrite (sub_from_ext t _ (fun m => with_match w (match_text t m))).
  - rewrite sub_from_cuts. unfold rebuilt. f_equal. f_equal. clear O. generalize 0 as pos.
    induction (matches f (bracket r0) t) as [|m ms IH]; intros pos; cbn [cuts combine map]; [reflexivity|].
    rewrite IH. reflexivity.
  - intros m I. rewrite matches_bracket in I. apply in_map_iff in I. destruct I as (m0 & <- & _).
    apply expand_amps. reflexivity.
Qed.
Print Assumptions C74_ampersand.
Example C74_e1 : run_op FmtNone "R" [PScal (s_ "one two"); PPat (s_ "[aeiou]") 0; PPat (s_ "<&&>") 0]
  = ret (PScal (s_ "<oo>n<ee> tw<oo>")).
Proof. vm_compute. reflexivity. Qed.
(** A regex that is not well bracketed by itself breaks out of the bracket that
    is put around it; the ampersand is a part of the match then. *)
Theorem C74_brackets_refuted : exists t raw,
  run_op FmtNone "@" [PScal t; PPat raw 0] = ret (PList [PScal t])
  /\ run_op FmtNone "R" [PScal t; PPat raw 0; PPat (s_ "&") 0] <> ret (PScal t).
Proof.
  exists (s_ "ab"), (s_ "a)(b"). split; [vm_compute; reflexivity|]. vm_compute. discriminate.
Qed.
Print Assumptions C74_brackets_refuted.

(** ** C75: stripping removes matches at the ends *)

Theorem C75_left fmt p L t : joined fmt p L -> exists u ms,
  run_op fmt "|>" [PScal t; p] = ret (PScal u)
  /\ t = concat ms ++ u /\ Forall (fun m => L m /\ m <> []) ms
  /\ forall a b, u = a ++ b -> L a -> a = [].
Proof.
  intros J. destruct (joined_glue _ _ _ J) as (raw & k & -> & G). rewrite run_LSTRIP. destruct raw as [|c raw].
  - exists t, []. split; [reflexivity|]. split; [reflexivity|]. split; [constructor|].
    intros a b _ A. exact (glue_empty L k G a A).
  - destruct (strip_left _ L k G (S (length t)) t ltac:(lia)) as (u & ms & E & H). exists u, ms.
    split; [|exact H]. cbn [strip_pattern]. unfold strip_regex. rewrite E, bind_ret. reflexivity.
Qed.
Print Assumptions C75_left.
Theorem C75_right fmt p L (t : str) : joined fmt p L -> ~ In 10%N t -> exists u ms,
  run_op fmt "<|" [PScal t; p] = ret (PScal u)
  /\ t = u ++ concat ms /\ Forall (fun m => L m /\ m <> []) ms
  /\ forall a b, u = a ++ b -> L b -> b = [].
Proof.
  intros J Nl. destruct (joined_glue _ _ _ J) as (raw & k & -> & G). rewrite run_RSTRIP. destruct raw as [|c raw].
  - exists t, []. split; [reflexivity|]. split; [symmetry; apply app_nil_r|]. split; [constructor|].
    intros a b _ A. exact (glue_empty L k G b A).
  - destruct (strip_right _ L k G (S (length t)) t Nl ltac:(lia)) as (u & ms & E & H). exists u, ms.
    split; [|exact H]. cbn [strip_pattern]. unfold strip_regex. rewrite E, bind_ret. reflexivity.
Qed.
Print Assumptions C75_right.
Theorem C75_both fmt p L (t : str) : joined fmt p L -> ~ In 10%N t -> exists u ms ms',
  run_op fmt "||" [PScal t; p] = ret (PScal u)
  /\ t = concat ms ++ u ++ concat ms' /\ Forall (fun m => L m /\ m <> []) (ms ++ ms')
  /\ (forall a b, u = a ++ b -> L a -> a = []) /\ (forall a b, u = a ++ b -> L b -> b = []).
Proof.
  intros J Nl. destruct (joined_glue _ _ _ J) as (raw & k & -> & G). rewrite run_STRIP. destruct raw as [|c raw].
  - exists t, [], []. split; [reflexivity|]. split; [symmetry; apply app_nil_r|]. split; [constructor|].
    split; intros a b _ A; [exact (glue_empty L k G a A)|exact (glue_empty L k G b A)].
  - destruct (strip_left _ L k G (S (length t)) t ltac:(lia)) as (v & ms & E & Et & P & F).
    destruct (strip_right _ L k G (S (length v)) v) as (u & ms' & E' & Et' & P' & F').
    { intros I. apply Nl. rewrite Et. apply in_or_app. right. exact I. }
    { lia. }
    exists u, ms, ms'. split; [|split; [rewrite <- Et'; exact Et|split; [apply Forall_app; split; assumption|split; [|exact F']]]].
    + cbn [strip_pattern]. unfold strip_regex. rewrite E, bind_ret, E', bind_ret. reflexivity.
    + intros a b Eu A. apply (F a (b ++ concat ms')); [|exact A]. rewrite app_assoc, <- Eu. exact Et'.
Qed.
Print Assumptions C75_both.

(** A sign and a letter. *)
Definition marked : pval := PPat (s_ "(?:(?:\-))(?:[a-z])") 0.
Example C75_e1 : joined FmtNone marked (followed (fun t => t = s_ "-") (one_char (between 97 122))).
Proof.
  eapply J_then; [apply (D_text _ (s_ "-")); vm_compute; reflexivity|apply (D_char _ (s_ "[a-z]"));
    left; split; reflexivity|vm_compute; reflexivity].
Qed.
Example C75_e2 : run_op FmtNone "||" [PScal (s_ "-a-b-c+d-Q-x-y"); marked] = ret (PScal (s_ "+d-Q")).
Proof. vm_compute. reflexivity. Qed.

(** The caret belongs to the first alternative only. *)
Theorem C75_alternatives_refuted : exists a b p L t,
  run_op FmtNone "X" [PScal (s_ "a")] = ret a /\ run_op FmtNone "X" [PScal (s_ "b")] = ret b
  /\ run_op FmtNone "," [a; b] = ret p /\ denotes FmtNone p L
  /\ run_op FmtNone "|>" [PScal t; p] = ret (PScal (s_ "ca"))
  /\ ~ exists ms, t = concat ms ++ s_ "ca".
Proof.
  do 3 eexists. exists (either (fun t => t = s_ "a") (fun t => t = s_ "b")), (s_ "cab").
  split; [vm_compute; reflexivity|]. split; [vm_compute; reflexivity|]. split; [vm_compute; reflexivity|].
  split; [|split; [vm_compute; reflexivity|]].
  - eapply D_or; [apply (D_text _ (s_ "a")); vm_compute; reflexivity|apply (D_text _ (s_ "b")); vm_compute; reflexivity
                 |vm_compute; reflexivity|discriminate].
  - intros (ms & E). apply (f_equal (@rev _)) in E. rewrite rev_app_distr in E. vm_compute in E. discriminate.
Qed.
Print Assumptions C75_alternatives_refuted.
(** The dollar sign also matches before a newline at the end. *)
Theorem C75_newline_refuted : exists p t,
  run_op FmtNone "X" [PScal (s_ "b")] = ret p
  /\ run_op FmtNone "<|" [PScal t; p] = ret (PScal [97%N; 10%N])
  /\ ~ exists ms, t = [97%N; 10%N] ++ concat ms.
Proof.
  eexists. exists [97%N; 98%N; 10%N]. split; [vm_compute; reflexivity|]. split; [vm_compute; reflexivity|].
  intros (ms & E). discriminate E.
Qed.
Print Assumptions C75_newline_refuted.
(** Flags are ignored. *)
Theorem C75_flags_refuted : exists p,
  run_op FmtNone "-" [PPat (s_ "b") 0] = ret p
  /\ run_op FmtNone "~=" [PScal (s_ "B"); p] = ret (PScal (s_ "1"))
  /\ run_op FmtNone "|>" [PScal (s_ "Bc"); p] = ret (PScal (s_ "Bc")).
Proof. eexists. split; [vm_compute; reflexivity|]. split; vm_compute; reflexivity. Qed.
Print Assumptions C75_flags_refuted.
