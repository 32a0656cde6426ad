(** * Reading a text that goes on with more lines (C69) *)

From Coq Require Import String List NArith ZArith Bool Arith Lia.
From Verif Require Import PyStr StrFacts Tokens OpTable Scan SpecSyntax SpecScan.
From Verif Require Import LexProof LexProof2 LexProof3 ScanProof.
From Verif Require ReprProof UnparseProof GrammarOpen.
Import ListNotations.
Local Open Scope list_scope.

Local Notation nl := 10%N.

(** ** Texts that end in a newline *)

Definition ended (s : str) : Prop := exists a, s = a ++ [nl].

Lemma ended_app a b : b <> [] -> ended (a ++ b) -> ended b.
Proof.
  intros N (c & E). destruct (exists_last N) as (b' & x & ->). rewrite app_assoc in E.
  apply app_inj_tail in E. destruct E as [_ ->]. exists b'. reflexivity.
Qed.
Lemma ended_in s : ended s -> In nl s.
Proof. intros (a & ->). apply in_or_app. right. left. reflexivity. Qed.

(** A text without newline at the start of [s ++ e] is one at the start of [s]. *)
Lemma prefix_inside : forall s e t r, ended s -> ~ In nl t -> s ++ e = t ++ r -> exists r', s = t ++ r'.
Proof.
  induction s as [|c s IH]; intros e t r (a & E) N H; [destruct a; discriminate E|].
  destruct t as [|d t]; [exists (c :: s); reflexivity|]. cbn in H. injection H as <- H.
  destruct a as [|c' a].
  - cbn in E. injection E as -> ->. exfalso. apply N. left. reflexivity.
  - cbn in E. injection E as <- E. destruct (IH e t r) as (r' & ->).
    + exists a. exact E.
    + intros I. apply N. right. exact I.
    + exact H.
    + exists r'. reflexivity.
Qed.

(** Tokens without newline, or with a quote at the start. *)
Definition quoted (c : char) (b : str) : Prop :=
  c = 34%N \/ c = 96%N \/ c = 39%N \/ (c = 92%N /\ exists b', b = 34%N :: b').
Lemma token_line c b t : tok_at c b t -> quoted c b \/ ~ In nl (c :: b).
Proof.
  intros A. unfold quoted.
  assert (U : forall u, Forall (fun x => is_upper x = true) u -> ~ In nl u).
  { intros u F I. rewrite Forall_forall in F. specialize (F _ I). discriminate F. }
  destruct A as [k c s H F L|c C| |d I|d s D F|n K|d I| |d I O|b B|b B|b B|d|c s D Nm|c I|c s P L O];
    try (left; tauto); try (left; right; right; right; split; [reflexivity|eexists; reflexivity]); right.
  - intros [E|E]; [chars; lia|exact (U s F E)].
  - intros [E|[]]. lia.
  - intros [E|[]]. discriminate E.
  - intros [E|[E|[]]]; [discriminate E|subst d; chars; lia].
  - intros [E|[E|E]]; [discriminate E|subst d; discriminate D|].
    rewrite forallb_forall in F. specialize (F _ E). discriminate F.
  - intros [E|E]; [discriminate E|]. apply repeat_spec in E. discriminate E.
  - intros [E|[E|[]]]; [discriminate E|subst d; chars; lia].
  - intros [E|[E|[]]]; discriminate E.
  - intros [E|[E|[]]]; [discriminate E|subst d; chars; lia].
  - intros E. destruct (ReprProof.unsigned_chars _ Nm) as (G & _). rewrite forallb_forall in G.
    specialize (G _ E). discriminate G.
  - intros [E|[]]. subst c. chars. lia.
  - intros E. destruct E as [E|E]; [subst c; chars; lia|].
    destruct s as [|d [|? ?]]; [destruct E| |cbn in L; lia]. destruct E as [->|[]].
    assert (X : forallb (fun o => negb (existsb (N.eqb 10) (o_text o))) all_ops = true) by (vm_compute; reflexivity).
    destruct O as (o & IN & Eo). rewrite forallb_forall in X. specialize (X o IN). cbv beta in X. rewrite Eo in X.
    cbn [existsb] in X. rewrite N.eqb_refl, orb_true_r in X. discriminate X.
Qed.

(** ** One step *)

Definition all_blank (s : str) : Prop := blank s.

Lemma blank_app a b : blank (a ++ b) <-> blank a /\ blank b.
Proof. apply Forall_app. Qed.

Lemma blank_inside : forall s e w r, ~ blank s -> blank w -> s ++ e = w ++ r -> exists r', s = w ++ r'.
Proof.
  induction s as [|c s IH]; intros e w r N W H; [exfalso; apply N; constructor|].
  destruct w as [|d w]; [exists (c :: s); reflexivity|]. cbn in H. injection H as <- H.
  inversion W as [|? ? D W']; subst. destruct (IH e w r) as (r' & ->); auto.
  - intros B. apply N. constructor; auto.
  - exists r'. reflexivity.
Qed.

Lemma gap_extend g s e : ended (g ++ s) -> ~ blank (g ++ s) -> gap g s -> gap g (s ++ e).
Proof.
  intros E NB G. inversion G as [w body s0 W I NI A|body s0 NI A NC|body s0 B|w s0 W0 W NS N2 NC]; subst.
  - apply gap_semicolon; auto. destruct A as [->|(s' & ->)]; [|right; exists (s' ++ e); reflexivity].
    exfalso. rewrite app_nil_r in E. rewrite app_assoc in E.
    destruct body as [|c body].
    + destruct E as (a & E). rewrite app_nil_r in E. apply app_inj_tail in E. destruct E as [_ E]. discriminate E.
    + apply ended_app in E; [|discriminate]. apply NI, ended_in, E.
  - assert (SN : exists s', s = nl :: s').
    { destruct A as [->|X]; [|exact X]. exfalso. rewrite app_nil_r in E. destruct body as [|c body].
      - destruct E as (a & E). change (s_ "  ") with ([32%N] ++ [32%N]) in E. rewrite app_nil_r in E.
        apply app_inj_tail in E. destruct E as [_ E]. discriminate E.
      - apply ended_app in E; [|discriminate]. apply NI, ended_in, E. }
    destruct SN as (s' & ->). apply gap_two_spaces; [exact NI|right; exists (s' ++ e); reflexivity|].
    intros w r H W. 
    assert (H0 : ((s_ "  " ++ body) ++ nl :: s') ++ e = w ++ s_ ";" ++ r) by (rewrite <- H, <- !app_assoc; reflexivity).
    destruct (blank_inside _ _ _ _ NB W H0) as (r' & H').
    destruct r' as [|c r'].
    + exfalso. apply NB. rewrite H', app_nil_r. exact W.
    + rewrite H', <- app_assoc in H0. apply app_inv_head in H0. cbn in H0. injection H0 as -> H0.
      apply (NC w r'); [|exact W]. rewrite <- app_assoc in H'. exact H'.
  - apply gap_block. exact B.
  - assert (SN : s <> []).
    { intros ->. apply NB. rewrite app_nil_r. exact W. }
    destruct s as [|c s]; [congruence|]. apply gap_blank; auto.
    + intros (x & y & Q & X). injection Q as <- _. apply NS. exists c, s. auto.
    + intros I s' Q. injection Q as -> _. apply (NC I s). reflexivity.
Qed.

Lemma step_extend s e t i s' : ended s -> ~ blank s -> step s t i s' -> step (s ++ e) t i (s' ++ e).
Proof.
  intros E NB S. inversion S as [g s0 G|k s0 T NU M NB'|k v s0 T F NU NP NE L|k s0 T P NU|v s0 F EV NU|c s0 NT SP N1 N2 N3 N4]; subst.
  - rewrite <- app_assoc. apply step_gap, gap_extend; assumption.
  - rewrite <- app_assoc. apply step_token; auto.
    + intros t' (T' & r & H). rewrite app_assoc in H.
      destruct (tok_cases k T) as (c & a & Ea & TA). destruct (tok_cases t' T') as (c' & b & Eb & TB).
      assert (C : c' = c) by (rewrite Ea, Eb in H; cbn in H; congruence). subst c'.
      destruct (token_line c b t' TB) as [Q|Q].
      * assert (FX : fixed_head c) by (unfold fixed_head, quoted in *; intuition).
        rewrite Ea, Eb in H. cbn in H. injection H as H. rewrite <- app_assoc in H.
        rewrite Ea, Eb, (fixed_unique _ _ _ _ _ _ _ FX TA TB H). auto.
      * rewrite <- Eb in Q. destruct (prefix_inside _ _ _ _ E Q H) as (r' & Hr).
        apply M. split; [exact T'|]. exists r'. exact Hr.
    + intros s1 H. rewrite app_assoc in H.
      assert (Q : ~ In nl (s_ "{;")) by (cbn; intros [X|[X|[]]]; discriminate X).
      destruct (prefix_inside _ _ _ _ E Q H) as (r' & Hr). exact (NB' _ Hr).
  - rewrite <- !app_assoc. apply step_upper; auto.
    intros (x & y & Q & X). destruct s0 as [|x' s0].
    + rewrite app_nil_r in E. apply ended_in in E. rewrite Forall_forall in F. specialize (F _ E). discriminate F.
    + cbn in Q. injection Q as -> _. apply NU. eexists _, _. split; [reflexivity|exact X].
  - rewrite <- app_assoc. apply step_pip; auto.
    intros (x & y & Q & X). destruct s' as [|x' s'].
    + rewrite app_nil_r, P in E. apply ended_in in E. cbn in E. intuition discriminate.
    + cbn in Q. injection Q as -> _. apply NU. eexists _, _. split; [reflexivity|exact X].
  - rewrite <- !app_assoc. apply step_elseif; auto.
    intros (x & y & Q & X). destruct s0 as [|x' s0].
    + rewrite app_nil_r in E. apply ended_in in E. apply in_app_or in E. destruct E as [E|E].
      * cbn in E. intuition discriminate.
      * rewrite Forall_forall in F. specialize (F _ E). discriminate F.
    + cbn in Q. injection Q as -> _. apply NU. eexists _, _. split; [reflexivity|exact X].
  - cbn [Datatypes.app]. apply step_ignore; auto.
    + intros t (T & r & H). destruct (tok_cases t T) as (c' & b & Eb & TB).
      assert (C : c' = c) by (rewrite Eb in H; cbn in H; congruence). subst c'.
      destruct (token_line c b t TB) as [Q|Q].
      * unfold quoted in Q. destruct Q as [Q|[Q|[Q|(Q & b' & ->)]]]; try congruence.
        rewrite Eb in H. cbn in H. injection H as H. destruct s' as [|d s'].
        -- destruct E as ([|? [|? ?]] & E); cbn in E; [|discriminate E..]. injection E as ->. discriminate SP.
        -- cbn in H. injection H as -> _. apply (N4 s'). subst c. reflexivity.
      * rewrite <- Eb in Q. change (c :: s' ++ e) with ((c :: s') ++ e) in H.
        destruct (prefix_inside _ _ _ _ E Q H) as (r' & Hr). apply (NT t). split; [exact T|]. exists r'. exact Hr.
    + intros s1 H. destruct s' as [|d s'].
      * destruct E as ([|? [|? ?]] & E); cbn in E; [|discriminate E..]. injection E as ->. discriminate SP.
      * cbn in H. injection H as -> -> _. apply (N4 s'). reflexivity.
Qed.

(** ** Whole texts *)

Lemma blank_step s t i s' : blank s -> step s t i s' -> t = [] /\ i = [] /\ blank s'.
Proof.
  intros B S. assert (N : forall k r, token_text k -> s = t_text k ++ r -> False).
  { intros k r T E. destruct (tok_cases k T) as (c & a & Ea & TA). rewrite Ea in E. subst s. cbn in B.
    inversion B as [|? ? C _]; subst. apply (tok_head_blank c (a ++ r) k C). split; [exact T|]. exists r. rewrite Ea. reflexivity. }
  inversion S as [g s0 G|k s0 T NU M NB'|k v s0 T F NU NP NE L|k s0 T P NU|v s0 F EV NU|c s0 NT SP N1 N2 N3 N4]; subst.
  - apply blank_app in B. tauto.
  - exfalso. apply (N k s' T eq_refl).
  - exfalso. apply (N k (v ++ s0) T eq_refl).
  - exfalso. apply (N k s' T eq_refl).
  - exfalso. inversion B as [|? ? C _]; subst. discriminate C.
  - exfalso. inversion B as [|? ? C _]; subst. congruence.
Qed.
Lemma blank_reads s ts ig s' : reads s ts ig s' -> blank s -> ts = [] /\ ig = [].
Proof.
  intros R. induction R as [s|s s' s'' t1 ts i1 ig S R IH]; intros B; [auto|].
  destruct (blank_step _ _ _ _ B S) as (-> & -> & B'). destruct (IH B') as (-> & ->). auto.
Qed.
Lemma step_split s t i s' : step s t i s' -> exists a, s = a ++ s' \/ s' = s_ "I" ++ a /\ s = s_ "EI" ++ a.
Proof.
  intros S. destruct S as [g s0 G|k s0 T NU M NB'|k v s0 T F NU NP NE L|k s0 T P NU|v s0 F EV NU|c s0 NT SP N1 N2 N3 N4];
    try (eexists; left; reflexivity).
  - exists (v ++ s0). right. auto.
  - exists [c]. left. reflexivity.
Qed.

Lemma step_ended s t i s' : ended s -> step s t i s' -> s' = [] \/ ended s'.
Proof.
  intros E S. destruct s' as [|c s']; [auto|right].
  destruct (step_split _ _ _ _ S) as (a & [->|(Q & ->)]); [apply ended_app in E; [exact E|discriminate]|].
  rewrite Q. destruct E as (b & E). destruct b as [|x b]; [discriminate E|]. cbn in E. injection E as _ E.
  exists b. exact E.
Qed.

(** What is left of an extended text when all of the first part is read:
    white space of it at most. *)
Definition left_over (y e : str) : Prop := exists x, y = x ++ e /\ (x = [] \/ blank x /\ ended x).

Lemma reads_extend s ts ig : reads s ts ig [] -> ended s -> forall e,
  exists y, reads (s ++ e) ts ig y /\ left_over y e.
Proof.
  intros R E e. remember (@nil char) as n eqn:N. revert N E.
  induction R as [s|s s' s'' t1 ts i1 ig S R IH]; intros -> E.
  - destruct E as ([|? ?] & E); discriminate E.
  - destruct (Forall_dec _ (fun c => bool_dec (is_space c) true) s) as [B|B].
    + destruct (blank_reads _ _ _ _ (reads_step _ _ _ _ _ _ _ S R) B) as (-> & ->).
      exists (s ++ e). split; [constructor|]. exists s. auto.
    + pose proof (step_extend s e t1 i1 s' E B S) as S'.
      destruct (step_ended _ _ _ _ E S) as [->|E'].
      * assert (X : ts = [] /\ ig = []) by (apply (blank_reads _ _ _ _ R); constructor). destruct X as (-> & ->).
        exists e. split; [|exists []; split; [reflexivity|auto]].
        eapply reads_step; [exact S'|constructor].
      * destruct (IH eq_refl E') as (y & RY & L). exists y. split; [|exact L].
        eapply reads_step; [exact S'|exact RY].
Qed.

(** White space before something that is neither white space nor a comment. *)
Definition solid (e : str) : Prop := ~ starts_blank e /\ forall s', e <> s_ ";" ++ s'.

Lemma split_line : forall b : str, (exists a c, b = a ++ nl :: c /\ ~ In nl a) \/ ~ In nl b.
Proof.
  induction b as [|x b [(a & c & -> & N)|N]]; [right; intros []|..].
  - left. destruct (N.eq_dec x nl) as [->|X].
    + exists [], (a ++ nl :: c). split; [reflexivity|intros []].
    + exists (x :: a), c. split; [reflexivity|]. intros [I|I]; auto.
  - destruct (N.eq_dec x nl) as [->|X].
    + left. exists [], b. split; [reflexivity|intros []].
    + right. intros [I|I]; auto.
Qed.

Lemma blank_left n : forall b e, length b <= n -> blank b -> ended b -> solid e -> reads (b ++ e) [] [] e.
Proof.
  induction n as [|n IH]; intros b e L B E (S1 & S2).
  - destruct b; [|cbn in L; lia]. destruct E as ([|? ?] & E); discriminate E.
  - assert (D : (exists w', b = s_ "  " ++ w') \/ forall w', b <> s_ "  " ++ w').
    { destruct b as [|x [|y b]]; [right; intros w' Q; discriminate Q..|].
      destruct (N.eq_dec x 32) as [->|X]; [|right; intros w' Q; injection Q as Q _; auto].
      destruct (N.eq_dec y 32) as [->|Y]; [|right; intros w' Q; injection Q as Q _; auto].
      left. exists b. reflexivity. }
    destruct D as [(w & ->)|D].
    + destruct (split_line w) as [(a & c & -> & NA)|N0].
      * replace ((s_ "  " ++ a ++ nl :: c) ++ e) with ((s_ "  " ++ a) ++ (nl :: c ++ e)) by (rewrite <- !app_assoc; reflexivity).
        apply blank_app in B. destruct B as [_ B]. apply blank_app in B. destruct B as [BA BC].
        change (@nil token) with (@nil token ++ []). change (@nil char) with (@nil char ++ []).
        eapply (reads_step _ (nl :: c ++ e)).
        -- apply step_gap, gap_two_spaces; [exact NA|right; eexists; reflexivity|].
           intros w' r H W I.
           assert (ALL : blank (s_ "  " ++ a ++ nl :: c)).
           { apply blank_app. split; [repeat constructor|]. apply blank_app. auto. }
           assert (H' : (s_ "  " ++ a ++ nl :: c) ++ e = w' ++ s_ ";" ++ r) by (rewrite <- H, <- !app_assoc; reflexivity).
           clear H. revert ALL H'. generalize (s_ "  " ++ a ++ nl :: c) as u. clear - W S1 S2. revert w' W.
           intros w' W u. revert w' W. induction u as [|x u IHu]; intros w' W ALL H.
           ++ destruct w' as [|y w']; [exact (S2 _ H)|]. inversion W; subst. apply S1. exists y, (w' ++ s_ ";" ++ r). auto.
           ++ inversion ALL as [|? ? X ALL']; subst. destruct w' as [|y w'].
              ** cbn in H. injection H as -> _. discriminate X.
              ** inversion W; subst. cbn in H. injection H as _ H. exact (IHu w' ltac:(assumption) ALL' H).
        -- change (nl :: c ++ e) with ((nl :: c) ++ e). apply IH.
           ++ cbn [length]. clear - L. change (S (S (length (a ++ nl :: c))) <= S n) in L. rewrite app_length in L. cbn [length] in L. unfold str, char in *. lia.
           ++ exact BC.
           ++ rewrite app_assoc in E. apply ended_app in E; [exact E|discriminate].
           ++ split; assumption.
      * exfalso. destruct w as [|x w].
        -- destruct E as (a & E). change (s_ "  " ++ []) with ([32%N] ++ [32%N]) in E. apply app_inj_tail in E. destruct E as [_ E]. discriminate E.
        -- apply ended_app in E; [|discriminate]. apply N0, ended_in, E.
    + change (@nil token) with (@nil token ++ []). change (@nil char) with (@nil char ++ []).
      eapply reads_step; [|constructor]. apply step_gap, gap_blank; auto.
      intros ->. destruct E as ([|? ?] & E); discriminate E.
Qed.

Lemma framed_more text e : framed (text ++ nl :: e) = framed text ++ e ++ [nl].
Proof. unfold framed. cbn. f_equal. rewrite <- !app_assoc. reflexivity. Qed.
Lemma framed_ended text : ended (framed text).
Proof. exists (nl :: text). reflexivity. Qed.

(** The tokens of a text are the first tokens of the text with more lines. *)
Lemma scan_more text l ig e : scan text = ScanOk (program l) ig ->
  exists y, reads (framed (text ++ nl :: e)) l ig y /\ left_over y (e ++ [nl]).
Proof.
  intros H. apply scan_reads in H. rewrite framed_more. apply reads_extend; [exact H|apply framed_ended].
Qed.
Lemma scan_starts text l ig e ts ig' : scan text = ScanOk (program l) ig ->
  scan (text ++ nl :: e) = ScanOk ts ig' -> exists m, ts = program (l ++ m) /\ Forall token_text m.
Proof.
  intros H H'. destruct (scan_more text l ig e H) as (y & R & _).
  rewrite scan_loop, (loop_reads _ _ _ _ R) in H'.
  destruct (loop_ok _ y (le_n _)) as [(m & i & E & RY)|(E & _)]; fold (tloop y) in E; rewrite E in H'; [|discriminate H'].
  cbn in H'. injection H' as <- _. exists m. split; [|exact (reads_tokens _ _ _ _ RY)].
  unfold program. rewrite map_app. reflexivity.
Qed.

(** ** Writing the completion *)

Definition spaced (m : list token) : str := flat_map (fun t => t_text t ++ [32%N]) m.

Lemma closer_head t : In t GrammarOpen.closers -> exists c, t_text t = [c] /\ is_space c = false /\ c <> 59%N.
Proof.
  intros I. unfold GrammarOpen.closers in I. cbn [In] in I.
  destruct I as [<-|[<-|[<-|[<-|[<-|[]]]]]]; (eexists; split; [reflexivity|split; [reflexivity|discriminate]]).
Qed.
Lemma spaced_solid m : Forall (fun t => In t GrammarOpen.closers) m -> m <> [] -> solid (spaced m ++ [nl]).
Proof.
  intros F N. destruct m as [|t m]; [congruence|]. inversion F as [|? ? I _]; subst.
  destruct (closer_head t I) as (c & E & S & C). cbn [spaced flat_map]. rewrite E. split.
  - intros (d & r & Q & D). cbn in Q. injection Q as <- _. congruence.
  - intros s' Q. cbn in Q. injection Q as Q _. exact (C Q).
Qed.
Lemma reads_closer t s : In t GrammarOpen.closers -> reads (t_text t ++ 32%N :: s) [t] [] (32%N :: s).
Proof.
  intros I. pose proof (GrammarOpen.closer_text t I) as T. unfold GrammarOpen.closers in I. cbn [In] in I.
  destruct I as [<-|[<-|[<-|[<-|[<-|[]]]]]].
  - apply (ReprProof.reads_fixed _ _ 120%N []); [exact T|reflexivity|unfold fixed_head; lia|discriminate].
  - apply (ReprProof.reads_fixed _ _ 41%N []); [exact T|reflexivity|unfold fixed_head; lia|discriminate].
  - apply (ReprProof.reads_fixed _ _ 93%N []); [exact T|reflexivity|unfold fixed_head; lia|discriminate].
  - apply (ReprProof.reads_fixed _ _ 125%N []); [exact T|reflexivity|unfold fixed_head; lia|discriminate].
  - apply UnparseProof.reads_op_token; [exact T|discriminate|vm_compute; reflexivity].
Qed.
Lemma reads_spaced : forall m, Forall (fun t => In t GrammarOpen.closers) m -> m <> [] ->
  reads (spaced m ++ [nl]) m [] [].
Proof.
  induction m as [|t m IH]; intros F N; [congruence|]. inversion F as [|? ? I F']; subst.
  cbn [spaced flat_map]. fold (spaced m). rewrite <- !app_assoc. cbn [Datatypes.app].
  apply (ReprProof.reads_cons _ t (32%N :: spaced m ++ [nl])); [apply reads_closer, I|].
  destruct m as [|u m].
  - change (reads ([32%N; nl] ++ []) [] [] []). apply (blank_left 2); [cbn; lia|repeat constructor|exists [32%N]; reflexivity|].
    split; [intros (c & r & Q & _); discriminate Q|intros s' Q; discriminate Q].
  - assert (NE : u :: m <> []) by discriminate. destruct (spaced_solid _ F' NE) as (S1 & S2).
    change (reads (32%N :: spaced (u :: m) ++ [nl]) ([] ++ u :: m) ([] ++ []) []).
    eapply reads_app; [apply UnparseProof.reads_space; exact S1|apply IH; [exact F'|exact NE]].
Qed.

Lemma scan_completed text l ig m : scan text = ScanOk (program l) ig ->
  Forall (fun t => In t GrammarOpen.closers) m -> m <> [] ->
  scan (text ++ nl :: spaced m) = ScanOk (program (l ++ m)) ig.
Proof.
  intros H F N. apply scan_reads. destruct (scan_more text l ig (spaced m) H) as (y & R & (x & -> & X)).
  rewrite <- (app_nil_r ig). eapply reads_app; [exact R|].
  assert (RM := reads_spaced m F N). destruct X as [->|(B & E)]; [exact RM|].
  change (reads (x ++ spaced m ++ [nl]) ([] ++ m) ([] ++ []) []).
  eapply reads_app; [apply (blank_left (length x)); auto; apply spaced_solid; auto|exact RM].
Qed.

(** ** A final newline does not matter *)

Lemma blank_reads_blank s ts ig s' : reads s ts ig s' -> blank s -> blank s'.
Proof.
  intros R. induction R as [s|s s' s'' t1 ts i1 ig S R IH]; intros B; [auto|].
  destruct (blank_step _ _ _ _ B S) as (_ & _ & B'). auto.
Qed.
Lemma reads_extend_open s ts ig u : reads s ts ig u -> ended s -> ~ blank u -> forall e,
  reads (s ++ e) ts ig (u ++ e).
Proof.
  intros R E NB e. induction R as [s|s s' s'' t1 ts i1 ig S R IH]; [constructor|].
  assert (B : ~ blank s).
  { intros B. apply NB. apply (blank_reads_blank _ _ _ _ (reads_step _ _ _ _ _ _ _ S R) B). }
  eapply reads_step; [exact (step_extend _ e _ _ _ E B S)|]. apply IH; [|exact NB].
  destruct (step_ended _ _ _ _ E S) as [->|E']; [|exact E'].
  exfalso. apply NB. apply (blank_reads_blank _ _ _ _ R). constructor.
Qed.
Lemma reads_ended s ts ig u : reads s ts ig u -> ended s -> u = [] \/ ended u.
Proof.
  intros R. induction R as [s|s s' s'' t1 ts i1 ig S R IH]; intros E; [auto|].
  destruct (step_ended _ _ _ _ E S) as [->|E']; [|auto].
  left. assert (N : forall s ts ig u, reads s ts ig u -> s = [] -> u = []).
  { clear. intros s ts ig u R. induction R as [s|s s' s'' t1 ts i1 ig S R IH]; intros E; [exact E|].
    exfalso. destruct (next_complete _ _ _ _ S) as [N _]. exact (N E). }
  exact (N _ _ _ _ R eq_refl).
Qed.

Lemma unterminated_more u : ended u -> unterminated u -> unterminated (u ++ [nl]).
Proof.
  intros E [(s' & -> & N)|(s' & Q & N)].
  - left. exists (s' ++ [nl]). split; [reflexivity|]. intros a b H.
    destruct (list_eq_dec N.eq_dec b []) as [->|NB].
    + rewrite app_nil_r in H. change (s_ ";}") with ([59%N] ++ [125%N]) in H. rewrite app_assoc in H.
      apply app_inj_tail in H. destruct H as [_ H]. discriminate H.
    + destruct (exists_last NB) as (b' & x & ->). rewrite !app_assoc in H. apply app_inj_tail in H. destruct H as [H _].
      apply (N a b'). rewrite H, <- app_assoc. reflexivity.
  - right. exists (s' ++ [nl]). split.
    { destruct Q as [->|[->|[->| ->]]]; auto. }
    intros t (T & r & H). destruct (list_eq_dec N.eq_dec r []) as [->|NR].
    + rewrite app_nil_r in H. destruct (tok_cases t T) as (c & b & Eb & TB). rewrite Eb in H.
      assert (LAST : forall p q, c :: b = p ++ [q] -> q = nl).
      { intros p q P. rewrite P in H. apply app_inj_tail in H. destruct H as [_ H]. congruence. }
      destruct (token_line _ _ _ TB) as [K|K].
      * destruct TB as [k c s U F L|c C| |d I|d s D F|n Kn|d I| |d I O|b B|b B|b B|d|c s D Nm|c I|c s P L O];
          unfold quoted in K;
          try (exfalso; destruct K as [K|[K|[K|(K & b' & K')]]]; try discriminate K; try discriminate K'; chars; lia).
        -- exfalso. destruct K as [K|[K|[K|(K & b' & K')]]]; try discriminate K. injection K' as -> _. chars. lia.
        -- exfalso. destruct K as [K|[K|[K|(K & b' & K')]]]; try discriminate K. injection K' as -> _. chars. lia.
        -- discriminate (LAST ([92%N; 34%N] ++ b ++ [92%N]) 34%N ltac:(cbn; rewrite <- app_assoc; reflexivity)).
        -- discriminate (LAST (34%N :: b) 34%N eq_refl).
        -- discriminate (LAST (96%N :: b) 96%N eq_refl).
        -- (* a character *) destruct Q as [->|[->|[->| ->]]]; try discriminate H.
           destruct s' as [|d' s']; [destruct E as ([|? [|? ?]] & E); discriminate E|].
           apply (N (Tok KChar [39%N; d'])). split; [exists d'; reflexivity|]. exists s'. reflexivity.
      * apply K. rewrite <- H. apply in_or_app. right. left. reflexivity.
    + destruct (exists_last NR) as (r' & x & ->). rewrite app_assoc in H. apply app_inj_tail in H. destruct H as [H _].
      apply (N t). split; [exact T|]. exists r'. exact H.
Qed.

Lemma unterminated_solid u : unterminated u -> ~ blank u.
Proof.
  intros [(s' & -> & _)|(s' & Q & _)] B; [|destruct Q as [->|[->|[->| ->]]]]; inversion B; discriminate.
Qed.

Lemma scan_newline text : scan (text ++ [nl]) = scan text.
Proof.
  destruct (scan_total text) as [(ts & ig & E & R)|(E & ts & ig & u & R & U)]; rewrite E.
  - destruct (scan_more text ts ig [] E) as (y & RY & (x & -> & X)). apply scan_reads.
    rewrite <- (app_nil_r ts), <- (app_nil_r ig). eapply reads_app; [exact RY|].
    assert (SN : solid []) by (split; [intros (c & r & Q & _); discriminate Q|intros s' Q; discriminate Q]).
    cbn [Datatypes.app]. rewrite <- (app_nil_r (x ++ [nl])). apply (blank_left (length (x ++ [nl]))); auto.
    + apply blank_app. split; [|repeat constructor]. destruct X as [->|(B & _)]; [constructor|exact B].
    + exists x. reflexivity.
  - apply (scan_open _ ts ig (u ++ [nl])).
    + change (text ++ [nl]) with (text ++ nl :: []). rewrite framed_more. cbn [Datatypes.app].
      apply reads_extend_open; [exact R|apply framed_ended|apply unterminated_solid, U].
    + apply unterminated_more; [|exact U]. destruct (reads_ended _ _ _ _ R (framed_ended _)) as [->|X]; [|exact X].
      exfalso. apply (unterminated_solid _ U). constructor.
Qed.
