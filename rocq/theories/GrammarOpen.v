(** * Incomplete programs can be completed (C69) *)

From Coq Require Import String List NArith ZArith Bool Arith Lia.
From Verif Require Import PyStr StrFacts Tokens OpFun OpTable Parse ParseEq ParseMono SpecScan SpecRepr.
From Verif Require Import SpecGrammar TemplateProof GrammarProof GrammarSound.
From Verif Require SpecSyntax ParseProof ScanProof.
Import ListNotations.
Local Open Scope string_scope.
Local Open Scope list_scope.
Local Open Scope Z_scope.

(** A name that completes an expression. *)
Definition filler : token := Tok KName (s_ "x").

Lemma filler_text : token_text filler.
Proof.
  assert (C : (forallb (fun o => negb (str_eqb (o_text o) (s_ "x"))) all_ops
               && forallb (fun c => negb (str_eqb (c_text c) (s_ "x"))) cmd_table) = true) by (vm_compute; reflexivity).
  apply andb_prop in C. destruct C as [C1 C2]. rewrite forallb_forall in C1, C2.
  unfold token_text, filler. cbn [t_kind t_text]. split; [|split; [|split]].
  - vm_compute. apply name_lower; [reflexivity|discriminate].
  - intros (o & I & E). specialize (C1 o I). cbv beta in C1. rewrite E, str_eqb_refl in C1. discriminate C1.
  - intros (c & I & E). specialize (C2 c I). cbv beta in C2. rewrite E, str_eqb_refl in C2. discriminate C2.
  - vm_compute. discriminate.
Qed.

Lemma sym_text w : In w symbols -> token_text (sym w).
Proof. intros I. unfold token_text, sym. cbn [t_kind t_text]. apply in_map. exact I. Qed.

(** The tokens that are enough to complete any program. *)
Definition closers : list token := [filler; sym ")"; sym "]"; sym "}"; mark "+"].
Notation closing := (Forall (fun t => In t closers)).

Lemma closer_text t : In t closers -> token_text t.
Proof.
  unfold closers. intros I. cbn [In] in I. destruct I as [<-|[<-|[<-|[<-|[<-|[]]]]]].
  - exact filler_text.
  - apply sym_text. cbn. auto 10.
  - apply sym_text. cbn. auto 10.
  - apply sym_text. cbn. auto 10.
  - destruct (op_by_arity 2 (s_ "+")) as [o|] eqn:P; [|vm_compute in P; discriminate P].
    unfold op_by_arity in P. apply find_some in P. destruct P as (IN & E). apply andb_prop in E. destruct E as [_ E].
    apply str_eqb_eq in E. exists o. split; [apply in_rev, IN|exact E].
Qed.
Lemma filler_closer : In filler closers.
Proof. left. reflexivity. Qed.

Definition calm_tok (t : token) : Prop := t <> sym ";" /\ t <> sym "EL" /\ t_kind t <> KOperator.
(** What cannot continue an expression or a statement. *)
Definition calm (l : list token) : Prop := forall t, hd_error l = Some t -> calm_tok t.

Lemma calm_filler l : calm (filler :: l).
Proof. intros t E. injection E as <-. repeat split; discriminate. Qed.
Lemma calm_sym w l : In w [")"; "]"; "}"] -> calm (sym w :: l).
Proof.
  intros I t E. injection E as <-. cbn in I. destruct I as [<-|[<-|[<-|[]]]]; repeat split; discriminate.
Qed.
Lemma calm_nil : calm [].
Proof. intros t E. discriminate E. Qed.

Section Open.
  Context {V : Type}.
  Local Notation tr := (tree V).

  Lemma calm_semi s l : semi s [] -> calm l -> semi s l.
  Proof.
    intros H C. inversion H; subst; constructor. intros E. destruct (C _ E) as (X & _). apply X. reflexivity.
  Qed.

  Lemma calm_ahead l : calm l -> ~ operator_ahead l.
  Proof. intros C (t & o & r & -> & _). destruct (C _ eq_refl) as (_ & _ & X). apply X. reflexivity. Qed.

  Lemma calm_closed (e : tr) ts l : closed e ts [] -> calm l -> closed e ts l.
  Proof.
    intros H C. inversion H as [e' ts' s r X S N]; subst. constructor; [exact X|apply calm_semi; auto|].
    intros _. apply calm_ahead, C.
  Qed.

  Lemma closed_on (e : tr) ts r l : closed e ts r -> (r = [] -> calm l) -> closed e ts (r ++ l).
  Proof.
    intros H C. destruct r as [|t r]; [apply calm_closed; auto|]. eapply closed_hd; [exact H|reflexivity].
  Qed.

  Definition steady (P : list token -> Prop) (a : list token) : Prop := a = [] -> forall l, calm l -> P l.

  Lemma app_nil_both (a b : list token) : a ++ b = [] -> a = [] /\ b = [].
  Proof. apply app_eq_nil. Qed.

  Lemma code_calm_all :
    (forall (sts : list tr) ts a, code sts ts a -> steady (code sts ts) a)
    /\ (forall (st : tr) ts a, statement st ts a -> steady (statement st ts) a)
    /\ (forall ty (xs : list tr) ts a, arguments ty xs ts a -> steady (arguments ty xs ts) a)
    /\ (forall ty (x : tr) ts a, argument ty x ts a -> steady (argument ty x ts) a)
    /\ (forall (sts : list tr) ts a, body sts ts a -> steady (body sts ts) a).
  Proof.
    assert (HD : forall (P : list token -> Prop) (ts a l : list token), a = [] -> calm l ->
      (forall b, hd_error (ts ++ a) = hd_error b -> P b) -> steady P (ts ++ a) -> P (ts ++ l)).
    { intros P ts a l -> C H S. destruct ts as [|t ts].
      - apply S; auto.
      - apply H. reflexivity. }
    apply code_all; unfold steady.
    - intros; constructor.
    - intros st sts tst ts a S IS C IC -> l CL. constructor; [|apply IC; auto].
      apply (HD _ ts [] l eq_refl CL); [|exact IS]. intros b E.
      destruct (@code_hd_all V) as (_ & X & _). apply (X _ _ _ S b E).
    - intros e ts s a C S -> l CL. constructor; [|apply calm_semi; auto].
      apply (HD (closed e ts) s [] l eq_refl CL); [intros b E; eapply closed_hd; eassumption|].
      intros E l' CL'. rewrite E in C. apply calm_closed; auto.
    - intros c args ts s a I AR IA S -> l CL. constructor; [exact I| |apply calm_semi; auto].
      apply (HD _ s [] l eq_refl CL); [|exact IA]. intros b E.
      destruct (@code_hd_all V) as (_ & _ & X & _). apply (X _ _ _ _ AR b E).
    - intros; constructor.
    - intros ty tys x xs tx ts a AR IA AS IS -> l CL. constructor; [|apply IS; auto].
      apply (HD _ ts [] l eq_refl CL); [|exact IA]. intros b E.
      destruct (@code_hd_all V) as (_ & _ & _ & X & _). apply (X _ _ _ _ AR b E).
    - intros x ts a VX -> l CL. constructor. inversion VX; subst; constructor; auto; apply calm_semi; auto.
    - intros e ts a C -> l CL. constructor. apply calm_closed; auto.
    - intros sts ts a B IB -> l CL. constructor. apply IB; auto.
    - intros sts ts a B IB -> l CL. constructor. apply IB; auto.
    - intros a N -> l CL. constructor. intros E. destruct (CL _ E) as (_ & X & _). apply X. reflexivity.
    - intros sts ts a C IC -> l CL. constructor. exact C.
    - intros st ts a S IS N -> l CL. constructor; [apply IS; auto|exact N].
  Qed.

  Lemma code_on (sts : list tr) ts r l : code sts ts r -> (r = [] -> calm l) -> code sts ts (r ++ l).
  Proof.
    intros H C. destruct r as [|t r].
    - apply (proj1 code_calm_all _ _ _ H eq_refl). auto.
    - eapply code_hd; [exact H|reflexivity].
  Qed.
  Lemma statement_on (st : tr) ts r l : statement st ts r -> (r = [] -> calm l) -> statement st ts (r ++ l).
  Proof.
    intros H C. destruct r as [|t r].
    - apply (proj1 (proj2 code_calm_all) _ _ _ H eq_refl). auto.
    - apply (proj1 (proj2 code_hd_all) _ _ _ H). reflexivity.
  Qed.
  Lemma argument_on ty (x : tr) ts r l : argument ty x ts r -> (r = [] -> calm l) -> argument ty x ts (r ++ l).
  Proof.
    intros H C. destruct r as [|t r].
    - apply (proj1 (proj2 (proj2 (proj2 code_calm_all))) _ _ _ _ H eq_refl). auto.
    - apply (proj1 (proj2 (proj2 (proj2 code_hd_all))) _ _ _ _ H). reflexivity.
  Qed.
  Lemma variable_on (x : tr) ts r l : variable x ts r -> (r = [] -> calm l) -> variable x ts (r ++ l).
  Proof.
    intros H C. assert (A : argument A_LOOPVAR x ts (r ++ l)) by (apply argument_on; [constructor; exact H|exact C]).
    inversion A; subst. assumption.
  Qed.

  (** ** Completions *)

  Definition Incomplete {A} : pres A := PErr IncompleteSyntax.

  (** [c] completes [l]; it starts calmly if [l] is empty. *)
  Definition more (l c : list token) : Prop := closing c /\ (l = [] -> c <> [] /\ calm c).

  Definition open_operand f := forall l, toks l -> @parse_operand V f (program l) = Incomplete ->
    exists c x, more l c /\ @expr V x (l ++ c) /\ forall p, ~ rooted x p.
  Definition open_expr f := forall m l, toks l -> @parse_expr V f m (program l) = Incomplete ->
    exists c x, more l c /\ @expr V x (l ++ c) /\ at_least m x.
  Definition open_infix f := forall m (e : tr) te l, toks l -> expr e te -> at_least m e -> edges_stop e l ->
    parse_infix f m e (program l) = Incomplete ->
    exists c e', more l c /\ @expr V e' (te ++ l ++ c) /\ at_least m e'.
  Definition open_until f := forall w l, In w [")"; "]"] -> toks l -> @parse_until V f w (program l) = Incomplete ->
    exists c es, more l (c ++ [sym w]) /\ @items V es (l ++ c) [sym w].
  Definition open_parse f := forall l, toks l -> @parse V f (program l) = Incomplete ->
    exists c sts, more l c /\ forall rest, calm rest -> @code V sts (l ++ c) rest.
  Definition open_statement f := forall l, toks l -> @parse_statement V f (program l) = Incomplete ->
    exists c st, more l c /\ forall rest, calm rest -> @statement V st (l ++ c) rest.
  Definition open_args f := forall ty l, toks l -> @parse_args V f ty (program l) = Incomplete ->
    exists c xs, more l c /\ forall rest, calm rest -> @arguments V ty xs (l ++ c) rest.
  Definition open_block f := forall l, toks l -> @parse_block V f (program l) = Incomplete ->
    exists c sts, more l c /\ forall rest, calm rest -> @body V sts (l ++ c) rest.
  Definition open_names f := 
    (forall l, toks l -> @parse_name_list V f (program l) = Incomplete ->
       exists c x, more l c /\ forall rest, calm rest -> @variable V x (l ++ c) rest)
    /\ (forall l, toks l -> @parse_names V f (program l) = Incomplete ->
       exists c x xs, more l (c ++ [sym "]"]) /\ @variables V (x :: xs) (l ++ c) [sym "]"]).

  Ltac bindopen H :=
    match type of H with
    | pbind ?x ?k = _ =>
        let a := fresh "a" in let r := fresh "r" in let E := fresh "E" in
        destruct x as [a r|[| | | |]] eqn:E; cbn [pbind] in H; try discriminate H
    end.

  Lemma no_semi_open {A} (x : A) l :
    match program l with
    | [] => PErr PIndexError
    | _ :: ts' => if head_is (program l) ";" then POk x ts' else POk x (program l)
    end <> Incomplete.
  Proof. destruct (program l); [discriminate|]. destruct (head_is _ _); discriminate. Qed.

  Lemma more_end l c w : closing c -> In w [")"; "]"; "}"] -> (l = [] -> calm c) -> more l (c ++ [sym w]).
  Proof.
    intros T I C. split.
    - apply Forall_app. split; [exact T|]. constructor; [|constructor]. cbn [In] in I. destruct I as [<-|[<-|[<-|[]]]]; cbn; auto 10.
    - intros E. split; [destruct c; discriminate|]. destruct c as [|t c]; [apply calm_sym, I|].
      intros k K. apply (C E). exact K.
  Qed.

  Lemma more_cons t l c : more l c -> more (t :: l) c.
  Proof. intros (T & _). split; [exact T|discriminate]. Qed.
  Lemma more_app t u l c : more l c -> more ((t :: u) ++ l) c.
  Proof. intros (T & _). split; [exact T|discriminate]. Qed.
  Lemma more_filler l : more l [filler].
  Proof. split; [constructor; [exact filler_closer|constructor]|]. intros _. split; [discriminate|apply calm_filler]. Qed.

  Lemma filler_expr : @expr V (TTok filler) [filler].
  Proof. constructor. cbn. auto. Qed.
  Lemma filler_closed rest : calm rest -> @closed V (TTok filler) [filler] rest.
  Proof.
    intros C. apply (closed_expr _ [filler] []); [exact filler_expr| |intros _; apply calm_ahead, C].
    constructor. intros E. destruct (C _ E) as (X & _). apply X. reflexivity.
  Qed.
  Lemma semi_calm rest : calm rest -> semi [] rest.
  Proof. intros C. constructor. intros E. destruct (C _ E) as (X & _). apply X. reflexivity. Qed.
  Lemma filler_statement rest : calm rest -> @statement V (TTok filler) [filler] rest.
  Proof. intros C. apply (st_expr _ [filler] []); [apply filler_closed, C|apply semi_calm, C]. Qed.
  Lemma filler_body rest : calm rest -> @body V [TTok filler] [filler] rest.
  Proof. intros C. apply body_statement; [apply filler_statement, C|discriminate]. Qed.

  Lemma filler_args tys : exists ts xs, closing ts /\ (ts = [] \/ exists t, ts = filler :: t)
    /\ forall rest, calm rest -> @arguments V tys xs ts rest.
  Proof.
    induction tys as [|a tys (ts & xs & T & S & IH)].
    - exists [], []. split; [constructor|]. split; [auto|]. intros; constructor.
    - assert (CA : forall rest, calm rest -> calm (ts ++ rest)).
      { intros rest C. destruct S as [->|(t & ->)]; [exact C|apply calm_filler]. }
      assert (TF : closing (filler :: ts)) by (constructor; [exact filler_closer|exact T]).
      destruct a.
      + exists (filler :: ts), (TTok filler :: xs). split; [exact TF|]. split; [right; eauto|].
        intros rest C. apply (args_cons _ _ _ _ [filler] ts); [|auto]. constructor.
        apply (var_name filler []); [reflexivity|apply semi_calm; auto].
      + exists (filler :: ts), (TTok filler :: xs). split; [exact TF|]. split; [right; eauto|].
        intros rest C. apply (args_cons _ _ _ _ [filler] ts); [|auto]. constructor. apply filler_closed; auto.
      + exists (filler :: ts), (TBlk [TTok filler] :: xs). split; [exact TF|]. split; [right; eauto|].
        intros rest C. apply (args_cons _ _ _ _ [filler] ts); [|auto]. constructor. apply filler_body; auto.
      + exists ts, (TBlk [] :: xs). split; [exact T|]. split; [exact S|].
        intros rest C. apply (args_cons _ _ _ _ [] ts); [|auto]. constructor. intros E.
        destruct (CA rest C _ E) as (_ & X & _). apply X. reflexivity.
  Qed.

  Lemma names_open : forall f, open_names f.
  Proof.
    induction f as [|f (IH1 & IH2)]; [split; intros; discriminate|]. split.
    - intros l T H. destruct l as [|t l].
      { exists [filler], (TTok filler). split; [apply more_filler|]. intros rest C.
        apply (var_name filler []); [reflexivity|apply semi_calm, C]. }
      inversion T as [|? ? Tt Tl]; subst.
      cbn [parse_name_list] in H. change (program (t :: l)) with (Some t :: program l) in H. cbv iota beta in H.
      destruct (tkind_eqb (t_kind t) KName) eqn:K.
      + assert (K' : t_kind t = KName) by (destruct (t_kind t); try discriminate K; reflexivity).
        rewrite K' in H. exfalso. exact (no_semi_open _ _ H).
      + assert (H' : (if str_eqb (t_text t) (s_ "[")
          then pbind (parse_names f (program l)) (fun names ts2 =>
               match names with
               | [] => PErr BadSyntax
               | _ => match ts2 with
                      | [] => PErr PIndexError
                      | _ :: ts' => if head_is ts2 ";" then POk (TApp op_enlist names) ts' else POk (TApp op_enlist names) ts2
                      end
               end)
          else PErr BadSyntax) = @Incomplete tr) by (destruct (t_kind t); try discriminate K; exact H).
        clear H. destruct (str_eqb _ _) eqn:E; [|discriminate H']. apply str_eqb_eq in E.
        pose proof (symbol_tok t "[" Tt ltac:(cbn; auto) E) as ->.
        bindopen H'.
        * destruct a as [|a as_]; [discriminate H'|]. destruct r; [discriminate H'|].
          destruct (head_is _ _); discriminate H'.
        * destruct (IH2 _ Tl E0) as (c & x & xs & M & VS).
          exists (c ++ [sym "]"]), (TApp op_enlist (x :: xs)). split; [apply more_cons, M|].
          intros rest C. cbn [app]. rewrite app_assoc. apply var_list; [exact VS|apply semi_calm, C].
    - intros l T H. destruct l as [|t l].
      { exists [filler], (TTok filler), []. split; [apply (more_end [] [filler] "]")|].
        - apply (more_filler []).
        - cbn; auto.
        - intros _. apply calm_filler.
        - apply (vars_cons _ [] [filler] []); [|constructor]. apply (var_name filler []); [reflexivity|].
          apply semi_calm. apply (calm_sym "]"). cbn; auto. }
      inversion T as [|? ? Tt Tl]; subst.
      cbn [parse_names] in H. change (program (t :: l)) with (Some t :: program l) in H. cbv iota beta in H.
      rewrite ParseProof.head_is_some in H. destruct (str_eqb _ _) eqn:E; [discriminate H|].
      change (Some t :: program l) with (program (t :: l)) in H. bindopen H.
      + bindopen H.
        destruct (proj1 (names_sound f) _ _ _ T E0) as (u & r1 & EQ & -> & VX).
        assert (u <> []) as U by (inversion VX; discriminate).
        rewrite EQ in T. apply toks_app in T.
        destruct (IH2 _ (proj2 T) E1) as (c & x & xs & (M1 & M2) & VS).
        exists c, a, (x :: xs). split.
        * split; [exact M1|discriminate].
        * rewrite EQ, <- app_assoc. apply vars_cons; [|exact VS]. rewrite <- app_assoc. apply variable_on; [exact VX|].
          intros ->. apply M2. reflexivity.
      + destruct (IH1 _ T E0) as (c & x & (M1 & M2) & VX). exists c, x, []. split.
        * apply more_end; [exact M1|cbn; auto|discriminate].
        * rewrite <- (app_nil_r ((t :: l) ++ c)). apply (vars_cons x [] ((t :: l) ++ c) []); [|constructor].
          apply VX, (calm_sym "]"). cbn; auto.
  Qed.

  Lemma infix_step_open f m (e : tr) te ot o l : @sound_operand V f -> @sound_expr V f ->
    open_operand f -> open_expr f -> open_infix f ->
    toks l -> expr e te -> at_least m e -> (forall p, edge e p -> o_prec o <= o_prec p) -> m <= o_prec o ->
    infix ot o \/ (exists t, ot = [Tok KOperator t] /\ comparison t o) ->
    (let is_c := assoc_eqb (o_assoc o) AChain in
     let '(spine, (aop, aargs)) := bubble (if is_c then op_chain else o) e in
     let middle : pres (list tr) :=
       if is_c then POk [TOpr o] (program l)
       else if (o_arity o =? 3)%nat
            then pbind (@parse_expr V f (-1) (program l)) (fun m ts3 => POk [m] ts3)
            else POk [] (program l) in
     pbind middle (fun mid ts3 =>
     pbind (parse_operand f ts3) (fun x ts4 =>
     parse_infix f m (rebuild spine (TApp aop (aargs ++ mid ++ [x]))) ts4))) = Incomplete ->
    exists c e', closing c /\ @expr V e' (te ++ ot ++ l ++ c) /\ at_least m e'.
  Proof.
    intros SO SE OO OE OI T E AL ED MO OT H.
    (* the operation once its operands are known *)
    assert (INS : forall o' mid tm (x : tr) tx, joins o' -> infixy o' \/ o' = op_chain -> o_prec o' = o_prec o ->
      expr x tx ->
      (forall (y : tr) ty, expr y ty -> left_ok o' y -> expr (TApp o' (y :: mid ++ [x])) (ty ++ ot ++ tm ++ tx)) ->
      (o' = op_chain -> forall args ty, expr (TApp op_chain args) ty ->
         (forall p, edge (TApp op_chain args) p -> o_prec op_chain <= o_prec p) ->
         expr (TApp op_chain (args ++ mid ++ [x])) (ty ++ ot ++ tm ++ tx)) ->
      let '(spine, (aop, aargs)) := bubble o' e in
      let e' := rebuild spine (TApp aop (aargs ++ mid ++ [x])) in
      expr e' (te ++ ot ++ tm ++ tx) /\ at_least m e' /\ forall p, edge e' p -> edge x p).
    { intros o' mid tm x tx J J2 PO X K1 K2. unfold bubble.
      pose proof (insert_sound o' mid x (ot ++ tm ++ tx) J J2 K1 K2 (spine_depth e) e te E
                    ltac:(intros p Ep; rewrite PO; auto) (le_n _)) as INS.
      destruct (bubble_fuel (spine_depth e) o' e) as [spine [aop aargs]]. cbv zeta in *.
      destruct INS as (I1 & I2 & I3). split; [exact I1|]. split; [|exact I3].
      intros p Rp. destruct (I2 p Rp) as [->|Rp']; [lia|apply AL, Rp']. }
    (* the operand or what follows it is incomplete *)
    assert (FIN : forall o' mid tm l2, joins o' -> infixy o' \/ o' = op_chain -> o_prec o' = o_prec o ->
      toks l2 -> l = tm ++ l2 ->
      (forall (x : tr) tx r c, expr x tx -> (forall p, ~ rooted x p) -> l2 ++ c = tx ++ r ->
         (l2 = [] -> calm c) ->
         (forall (y : tr) ty, expr y ty -> left_ok o' y -> expr (TApp o' (y :: mid ++ [x])) (ty ++ ot ++ tm ++ tx))
         /\ (o' = op_chain -> forall args ty, expr (TApp op_chain args) ty ->
              (forall p, edge (TApp op_chain args) p -> o_prec op_chain <= o_prec p) ->
              expr (TApp op_chain (args ++ mid ++ [x])) (ty ++ ot ++ tm ++ tx))) ->
      (let '(spine, (aop, aargs)) := bubble o' e in
       pbind (parse_operand f (program l2)) (fun x ts4 =>
         parse_infix f m (rebuild spine (TApp aop (aargs ++ mid ++ [x]))) ts4)) = Incomplete ->
      exists c e', closing c /\ @expr V e' (te ++ ot ++ l ++ c) /\ at_least m e').
    { intros o' mid tm l2 J J2 PO T2 EL K H2.
      destruct (bubble o' e) as [spine [aop aargs]] eqn:B. bindopen H2.
      - destruct (SO _ _ _ T2 E0) as (tx & r2 & EQ & -> & X & XR & XE).
        destruct (K a tx r2 [] X XR ltac:(rewrite app_nil_r; exact EQ) (fun _ => calm_nil)) as (K1 & K2).
        pose proof (INS o' mid tm a tx J J2 PO X K1 K2) as I. rewrite B in I. cbv zeta in I. destruct I as (I1 & I2 & I3).
        rewrite EQ in T2. apply toks_app in T2.
        assert (ED2 : edges_stop (rebuild spine (TApp aop (aargs ++ mid ++ [a]))) r2).
        { intros p Ep. apply XE, I3, Ep. }
        destruct (OI _ _ _ _ (proj2 T2) I1 I2 ED2 H2) as (c & e' & (M1 & _) & E' & AL').
        exists c, e'. split; [exact M1|]. split; [|exact AL']. rewrite EL, EQ, <- !app_assoc. rewrite <- !app_assoc in E'. exact E'.
      - destruct (OO _ T2 E0) as (c & x & (M1 & M2) & X & XR).
        destruct (K x (l2 ++ c) [] c X XR ltac:(rewrite app_nil_r; reflexivity) (fun Q => proj2 (M2 Q))) as (K1 & K2).
        pose proof (INS o' mid tm x (l2 ++ c) J J2 PO X K1 K2) as I. rewrite B in I. cbv zeta in I. destruct I as (I1 & I2 & I3).
        exists c. eexists. split; [exact M1|]. split; [|exact I2]. rewrite EL, <- !app_assoc. exact I1. }
    assert (ROK : forall o' (x : tr), (forall p, ~ rooted x p) -> right_ok o' x).
    { intros o' x N p R. destruct (N p R). }
    cbv zeta in H. destruct OT as [OT|(t & -> & CO)].
    - destruct (infix_joins _ _ OT) as (J & C & S).
      assert (NC : assoc_eqb (o_assoc o) AChain = false).
      { apply not_true_iff_false. rewrite assoc_eqb_eq. intros X. rewrite X in S. destruct S; discriminate. }
      rewrite NC in H. destruct (o_arity o =? 3)%nat eqn:A3.
      + apply Nat.eqb_eq in A3. destruct (bubble o e) as [spine [aop aargs]] eqn:B. bindopen H.
        * destruct (@parse_expr V f (-1) (program l)) as [mid r3|] eqn:E1; [|discriminate E0]. injection E0 as <- <-.
          destruct (expr_closed f SE _ _ _ T E1) as (tm & l2 & -> & -> & CL & NE).
          apply toks_app in T.
          apply (FIN o [mid] tm l2 J (or_introl (conj C S)) eq_refl (proj2 T) eq_refl); [|rewrite B; exact H].
          intros x tx r c X XR EQ CC. split.
          -- intros y ty Y LY. apply ex_ternary; auto.
             apply (closed_hd mid tm (l2 ++ c)); [apply closed_on; assumption|].
             rewrite EQ. destruct (expr_starts _ _ X) as (k & q & -> & _). reflexivity.
          -- intros EC. subst o. discriminate C.
        * bindopen E0. destruct (OE _ _ T E1) as (c & mid & (M1 & M2) & X & AL0).
          assert (CL : closed mid (l ++ c) [filler]).
          { rewrite <- (app_nil_r (l ++ c)). apply closed_expr; [exact X| |].
            - apply semi_calm, calm_filler.
            - intros _. apply calm_ahead, calm_filler. }
          pose proof (INS o [mid] (l ++ c) (TTok filler) [filler] J (or_introl (conj C S)) eq_refl filler_expr) as I.
          rewrite B in I. cbv zeta in I. destruct I as (I1 & I2 & _).
          -- intros y ty Y LY. apply ex_ternary; auto; [exact filler_expr|]. apply ROK. intros p (a & Q & _). discriminate Q.
          -- intros EC. subst o. discriminate C.
          -- exists (c ++ [filler]). eexists. split; [|split; [|exact I2]].
             ++ apply Forall_app. split; [exact M1|]. constructor; [exact filler_closer|constructor].
             ++ rewrite <- app_assoc in I1. exact I1.
      + assert (A2 : o_arity o = 2%nat).
        { apply Nat.eqb_neq in A3. destruct (j_arity o J); [assumption|contradiction]. }
        destruct (bubble o e) as [spine [aop aargs]] eqn:B.
        apply (FIN o [] [] l J (or_introl (conj C S)) eq_refl T eq_refl); [|rewrite B; exact H].
        intros x tx r c X XR _ _. split.
        * intros y ty Y LY. apply ex_infix; auto.
        * intros EC. subst o. discriminate C.
    - destruct (comparison_facts _ _ CO) as (_ & P & S & A & _). rewrite S in H. cbn [assoc_eqb] in H.
      destruct (bubble op_chain e) as [spine [aop aargs]] eqn:B.
      apply (FIN op_chain [TOpr o] [] l chain_joins (or_intror eq_refl) (eq_sym P) T eq_refl); [|rewrite B; exact H].
      intros x tx r c X XR _ _. split.
      + intros y ty Y LY. apply (ex_chain y [TOpr o; x]); auto. constructor; auto.
      + intros _ args ty Y LY. apply chain_app; auto.
  Qed.

  Lemma prefix_open f base op l : open_expr f -> bare base op -> toks l ->
    match program l with
    | [] => PErr PIndexError
    | _ :: ts2' =>
      let '(op, ts3) := if head_is (program l) "*" then (op_set_map op, ts2') else (op, program l) in
      match ts3 with
      | [] => PErr PIndexError
      | _ :: ts3' =>
        let '(op, ts4) :=
          if head_is ts3 ":" then (op_set_assign op (o_prec assign_op) (o_assoc op), ts3') else (op, ts3) in
        pbind (@parse_expr V f (o_prec op + 1) ts4) (fun x ts5 => POk (TApp op [x]) ts5)
      end
    end = Incomplete ->
    exists c x, closing c /\ @expr V x (base ++ l ++ c) /\ (forall p, ~ rooted x p).
  Proof.
    intros OE B T H.
    assert (FIN : forall ot o l2, prefix (base ++ ot) o -> toks l2 -> l = ot ++ l2 ->
      pbind (@parse_expr V f (o_prec o + 1) (program l2)) (fun x ts5 => POk (TApp o [x]) ts5) = Incomplete ->
      exists c x, closing c /\ @expr V x (base ++ l ++ c) /\ (forall p, ~ rooted x p)).
    { intros ot o l2 P T2 EL H2. bindopen H2.
      destruct (prefix_facts _ _ P) as (A & PR & C & NB).
      destruct (OE _ _ T2 E) as (c & x & (M1 & _) & X & AL).
      exists c, (TApp o [x]). split; [exact M1|]. split.
      - rewrite EL, <- app_assoc, app_assoc. apply ex_prefix; auto. intros p Rp. specialize (AL p Rp). lia.
      - intros p (args & X1 & X2). injection X1 as <- _. lia. }
    destruct (head_is (program l) "*") eqn:HS.
    - destruct (head_mark l "*" T eq_refl HS) as (l1 & ->). cbn [program map app] in H.
      change (map Some l1 ++ [None]) with (program l1) in H.
      inversion T as [|? ? _ T1]; subst.
      destruct (program l1) as [|k ts3'] eqn:P1; [destruct l1; discriminate P1|]. rewrite <- P1 in *.
      destruct (head_is (program l1) ":") eqn:HC.
      + destruct (head_mark l1 ":" T1 eq_refl HC) as (l2 & ->). inversion T1 as [|? ? _ T2]; subst.
        change (program (mark ":" :: l2)) with (Some (mark ":") :: program l2) in P1. injection P1 as <- <-.
        apply (FIN [mark "*"; mark ":"] (storing (mapping op) (o_assoc op)) l2); [apply prefix_both; exact B|exact T2|reflexivity|exact H].
      + apply (FIN [mark "*"] (mapping op) l1); auto. apply prefix_map. exact B.
    - destruct (program l) as [|k ts3'] eqn:P1; [destruct l; discriminate P1|]. cbv iota in H.
      destruct (head_is (k :: ts3') ":") eqn:HC; rewrite <- P1 in HC.
      + destruct (head_mark l ":" T eq_refl HC) as (l2 & ->). inversion T as [|? ? _ T2]; subst.
        change (program (mark ":" :: l2)) with (Some (mark ":") :: program l2) in P1. injection P1 as <- <-.
        apply (FIN [mark ":"] (storing op (o_assoc op)) l2); [apply prefix_store; exact B|exact T2|reflexivity|exact H].
      + rewrite <- P1 in H. apply (FIN [] op l); auto. rewrite app_nil_r. apply prefix_bare. exact B.
  Qed.

  Lemma until_end f w l (es : list tr) rest : parse_until f w (program l) = POk es rest -> l <> [].
  Proof. intros H ->. destruct f; discriminate H. Qed.

  Lemma parse_open : forall f, open_parse f /\ open_statement f /\ open_args f /\ open_block f
    /\ open_expr f /\ open_infix f /\ open_operand f /\ open_until f.
  Proof.
    induction f as [|f (IHp & IHs & IHa & IHb & IHe & IHi & IHo & IHu)].
    { repeat split; repeat intro; discriminate. }
    destruct (@parse_sound V f) as (SP & SS & SA & SB & SE & SI & SO & SU).
    split; [|split; [|split; [|split; [|split; [|split; [|split]]]]]].
    - (* parse *)
      intros l T H. rewrite parse_eq in H. destruct l as [|t l]; [discriminate H|].
      change (program (t :: l)) with (Some t :: program l) in H. cbv iota in H.
      change (Some t :: program l) with (program (t :: l)) in H.
      destruct (str_eqb _ _) eqn:E; [discriminate H|]. bindopen H.
      + bindopen H. destruct (SS _ _ _ T E0) as (u & r1 & EQ & -> & ST). rewrite EQ in T. apply toks_app in T.
        destruct (IHp _ (proj2 T) E1) as (c & sts & (M1 & M2) & CO).
        exists c, (a :: sts). split; [split; [exact M1|discriminate]|]. intros rest C.
        rewrite EQ, <- app_assoc. apply code_cons; [|auto]. rewrite <- app_assoc. apply statement_on; [exact ST|].
        intros ->. destruct (M2 eq_refl) as (NE & CC). intros k K. apply CC. destruct c; [destruct NE; reflexivity|exact K].
      + destruct (IHs _ T E0) as (c & st & (M1 & M2) & ST). exists c, [st].
        split; [split; [exact M1|discriminate]|]. intros rest C. rewrite <- (app_nil_r (_ ++ c)).
        apply code_cons; [|constructor]. apply ST, C.
    - (* statement *)
      intros l T H. rewrite parse_statement_eq in H. destruct l as [|t l].
      { exists [filler], (TTok filler). split; [apply more_filler|]. intros rest C. apply filler_statement, C. }
      inversion T as [|? ? Tt Tl]; subst. cbv zeta in H.
      assert (X : pbind (@parse_expr V f (-1) (program (t :: l))) (fun st ts0 =>
          match ts0 with
          | [] => PErr PIndexError
          | _ :: ts' => if head_is ts0 ";" then POk st ts' else POk st ts0
          end) = Incomplete -> exists c st, more (t :: l) c /\ forall rest, calm rest -> @statement V st ((t :: l) ++ c) rest).
      { clear H. intros H. bindopen H.
        - destruct (SE _ _ _ _ T E) as (u & s & r3 & _ & -> & _). exfalso. exact (no_semi_open _ _ H).
        - destruct (IHe _ _ T E) as (c & x & M & X & _). exists c, x. split; [exact M|]. intros rest C.
          rewrite <- (app_nil_r (_ ++ c)). apply st_expr; [|apply semi_calm, C].
          rewrite <- (app_nil_r (_ ++ c)). apply closed_expr; [exact X|apply semi_calm, C|]. intros _. apply calm_ahead, C. }
      change (program (t :: l)) with (Some t :: program l) in H. cbv iota in H.
      destruct (tkind_eqb (t_kind t) KCommand) eqn:K.
      + assert (K' : t_kind t = KCommand) by (destruct (t_kind t); try discriminate K; reflexivity).
        rewrite K' in H. destruct (command_of (t_text t)) as [c|] eqn:C; [|discriminate H].
        destruct (command_in _ _ C) as (I & CT). bindopen H.
        * destruct (SA _ _ _ _ Tl E) as (u & r1 & _ & -> & _). exfalso. exact (no_semi_open _ _ H).
        * destruct (IHa _ _ Tl E) as (c2 & xs & M & AR). exists c2, (TCmd c xs). split; [apply more_cons, M|].
          intros rest CA. assert (t = Tok KCommand (c_text c)) as -> by (destruct t; cbn in *; congruence).
          cbn [app]. rewrite <- (app_nil_r (l ++ c2)). apply st_cmd; [exact I|apply AR, CA|apply semi_calm, CA].
      + apply X. destruct (t_kind t); try discriminate K; exact H.
    - (* arguments *)
      intros ty l T H. rewrite parse_args_eq in H. destruct ty as [|a ty]; [discriminate H|].
      cbv zeta in H. bindopen H.
      + bindopen H.
        assert (X : exists u r1, l = u ++ r1 /\ r = program r1 /\ argument a a0 u r1).
        { destruct a.
          - destruct (proj1 (names_sound f) _ _ _ T E) as (u & r1 & -> & -> & VX). exists u, r1. repeat split. constructor; auto.
          - destruct (expr_closed f SE _ _ _ T E) as (u & r1 & EQ & -> & CL & _). exists u, r1. repeat split; auto. constructor; auto.
          - destruct (parse_block f (program l)) as [b r2|] eqn:E1; [|discriminate E]. injection E as <- <-.
            destruct (SB _ _ _ T E1) as (u & r3 & -> & -> & B). exists u, r3. repeat split. constructor; auto.
          - destruct (head_is (program l) "EL") eqn:HE.
            + destruct (head_sym l "EL" T ltac:(cbn; auto 12) HE) as (l' & ->). inversion T as [|? ? _ Tl]; subst.
              change (program (sym "EL" :: l')) with (Some (sym "EL") :: program l') in E. cbv iota in E.
              destruct (parse_block f (program l')) as [b r2|] eqn:E1; [|discriminate E]. injection E as <- <-.
              destruct (SB _ _ _ Tl E1) as (u & r3 & -> & -> & B).
              exists (sym "EL" :: u), r3. repeat split. constructor; auto.
            + assert (Y : a0 = TBlk [] /\ r = program l).
              { destruct (program l); [discriminate E|]. injection E as <- <-. auto. }
              destruct Y as [-> ->]. exists [], l. repeat split. constructor. apply head_not, HE. }
        destruct X as (u & r2 & -> & -> & AX). apply toks_app in T.
        destruct (IHa _ _ (proj2 T) E0) as (c & xs & (M1 & M2) & AS).
        exists c, (a0 :: xs). split.
        * split; [exact M1|]. intros Q. apply app_eq_nil in Q. destruct Q as [_ ->]. auto.
        * intros rest C. rewrite <- app_assoc. apply args_cons; [|auto]. rewrite <- app_assoc. apply argument_on; [exact AX|].
          intros ->. destruct (M2 eq_refl) as (NE & CC). intros k K. apply CC. destruct c; [destruct NE; reflexivity|exact K].
      + assert (X : exists c x, more l c /\ forall rest, calm rest -> @argument V a x (l ++ c) rest).
        { destruct a.
          - destruct (proj1 (names_open f) _ T E) as (c & x & M & VX). exists c, x. split; [exact M|]. intros. constructor. auto.
          - destruct (IHe _ _ T E) as (c & x & M & X & _). exists c, x. split; [exact M|]. intros rest C. constructor.
            rewrite <- (app_nil_r (_ ++ c)). apply closed_expr; [exact X|apply semi_calm, C|]. intros _. apply calm_ahead, C.
          - bindopen E. destruct (IHb _ T E0) as (c & sts & M & B). exists c, (TBlk sts). split; [exact M|]. intros. constructor. auto.
          - destruct (head_is (program l) "EL") eqn:HE.
            + destruct (head_sym l "EL" T ltac:(cbn; auto 12) HE) as (l' & ->). inversion T as [|? ? _ Tl]; subst.
              change (program (sym "EL" :: l')) with (Some (sym "EL") :: program l') in E. cbv iota in E. bindopen E.
              destruct (IHb _ Tl E0) as (c & sts & M & B). exists c, (TBlk sts). split; [apply more_cons, M|].
              intros. cbn [app]. constructor. auto.
            + destruct (program l); discriminate E. }
        destruct X as (c & x & (M1 & M2) & AX). destruct (filler_args ty) as (ts & xs & T2 & S2 & AS).
        exists (c ++ ts), (x :: xs). split.
        * split; [apply Forall_app; auto|]. intros Q. destruct (M2 Q) as (NE & CC).
          destruct c as [|k c]; [destruct NE; reflexivity|]. split; [discriminate|exact CC].
        * intros rest C. rewrite app_assoc. apply args_cons; [|auto]. apply AX.
          destruct S2 as [->|(q & ->)]; [exact C|apply calm_filler].
    - (* block *)
      intros l T H. rewrite parse_block_eq in H.
      assert (H' : (if head_is (program l) "{"
        then pbind (@parse V f (tl (program l))) (fun sts ts2 =>
             match ts2 with
             | [] => PErr PIndexError
             | None :: _ => PErr IncompleteSyntax
             | Some _ :: ts3 => if head_is ts2 "}" then POk sts ts3 else PErr BadSyntax
             end)
        else pbind (parse_statement f (program l)) (fun st ts2 => POk [st] ts2)) = Incomplete).
      { destruct (program l); [discriminate H|exact H]. }
      clear H. destruct (head_is (program l) "{") eqn:HB.
      + destruct (head_sym l "{" T ltac:(cbn; auto 10) HB) as (l' & ->). inversion T as [|? ? _ Tl]; subst.
        change (tl (program (sym "{" :: l'))) with (program l') in H'. bindopen H'.
        * destruct (SP _ _ _ Tl E) as (u & r2 & -> & -> & CO & EN).
          destruct EN as [->|EN].
          -- exists [sym "}"], a. split; [apply (more_end _ []); [constructor|cbn; auto|discriminate]|].
             intros rest C. cbn [app]. rewrite app_nil_r. constructor.
             apply (code_on a u [] [sym "}"] CO). intros _. apply (calm_sym "}"). cbn; auto.
          -- destruct r2 as [|k r2]; [discriminate EN|]. injection EN as ->. discriminate H'.
        * destruct (IHp _ Tl E) as (c & sts & (M1 & M2) & CO). exists (c ++ [sym "}"]), sts.
          split; [apply more_end; [exact M1|cbn; auto|discriminate]|]. intros rest C. cbn [app]. rewrite app_assoc.
          constructor. apply CO, (calm_sym "}"). cbn; auto.
      + destruct l as [|t l].
        { exists [filler], [TTok filler]. split; [apply more_filler|]. intros rest C. apply filler_body, C. }
        bindopen H'. destruct (IHs _ T E) as (c & st & M & ST). exists c, [st]. split; [exact M|].
        intros rest C. constructor; [apply ST, C|]. intros Q. apply (head_not _ _ HB). exact Q.
    - (* expr *)
      intros m l T H. rewrite parse_expr_eq in H. bindopen H.
      + destruct (SO _ _ _ T E) as (u & r2 & -> & -> & X & XR & XE). apply toks_app in T. bindopen H.
        * exfalso. match type of H with match ?q with _ => _ end = _ => destruct q end; [discriminate H|].
          destruct (_ && _); discriminate H.
        * assert (AL0 : at_least m a) by (intros p Rp; destruct (XR p Rp)).
          destruct (IHi _ _ _ _ (proj2 T) X AL0 XE E0) as (c & e' & (M1 & M2) & X2 & AL).
          exists c, e'. split; [|split; [rewrite <- app_assoc; exact X2|exact AL]].
          split; [exact M1|]. intros Q. apply app_eq_nil in Q. destruct Q as [_ Q]. auto.
      + destruct (IHo _ T E) as (c & x & M & X & XR). exists c, x. split; [exact M|]. split; [exact X|].
        intros p Rp. destruct (XR p Rp).
    - (* infix *)
      intros m e te l T X AL ED H. rewrite parse_infix_eq in H.
      destruct l as [|t l]; [discriminate H|].
      inversion T as [|? ? Tt Tl]; subst.
      change (program (t :: l)) with (Some t :: program l) in H. cbv iota in H.
      destruct (tkind_eqb (t_kind t) KOperator) eqn:K.
      2:{ destruct (t_kind t); try discriminate K; discriminate H. }
      assert (K' : t_kind t = KOperator) by (destruct (t_kind t); try discriminate K; reflexivity).
      rewrite K' in H. destruct (infix_op t) as [o|] eqn:IO; [|discriminate H].
      apply infix_between in IO.
      assert (AP : forall o' r, stops o' (t :: l) -> r = ahead_prec o l -> r < o').
      { intros o' r S ->. apply (S (t_text t) o l); auto. destruct t; cbn in *; congruence. }
      destruct (program l) as [|k ts'] eqn:PL; [destruct l; discriminate PL|]. cbv zeta in H.
      change (second_is (Some t :: k :: ts') ":") with (head_is (k :: ts') ":") in H. rewrite <- PL in H.
      destruct ((if head_is (program l) ":" then o_prec assign_op else o_prec o) <? m) eqn:LT; [discriminate H|].
      apply Z.ltb_ge in LT.
      assert (TT : t = Tok KOperator (t_text t)) by (destruct t; cbn in *; congruence).
      assert (EDP : forall p, edge e p -> ahead_prec o l <= o_prec p).
      { intros p Ep. specialize (AP _ _ (ED p Ep) eq_refl). lia. }
      destruct (head_is (program l) ":") eqn:HC.
      + destruct (head_mark l ":" Tl eq_refl HC) as (l2 & ->). inversion Tl as [|? ? _ T2]; subst.
        change (program (mark ":" :: l2)) with (Some (mark ":") :: program l2) in PL. injection PL as _ <-.
        destruct (infix_step_open f m e te [t; mark ":"] (storing o (o_assoc assign_op)) l2
                    SO SE IHo IHe IHi T2 X AL) as (c & e' & M1 & R1 & R2).
        * intros p Ep. specialize (EDP p Ep). unfold ahead_prec in EDP. rewrite HC in EDP. exact EDP.
        * exact LT.
        * left. rewrite TT. apply infix_store. exact IO.
        * exact H.
        * exists c, e'. split; [split; [exact M1|discriminate]|]. auto.
      + assert (EDQ : forall p, edge e p -> o_prec o <= o_prec p).
        { intros p Ep. specialize (EDP p Ep). unfold ahead_prec in EDP. rewrite HC in EDP. exact EDP. }
        destruct (infix_step_open f m e te [t] o l SO SE IHo IHe IHi Tl X AL EDQ LT) as (c & e' & M1 & R1 & R2).
        * destruct (assoc_eqb (o_assoc o) AChain) eqn:AC.
          -- right. exists (t_text t). split; [congruence|]. split; [exact IO|apply assoc_eqb_eq, AC].
          -- left. rewrite TT. apply infix_plain; [exact IO|]. intros Q. rewrite Q in AC. discriminate AC.
        * exact H.
        * exists c, e'. split; [split; [exact M1|discriminate]|]. auto.
    - (* operand *)
      intros l T H. rewrite parse_operand_eq in H. destruct l as [|t l].
      { exists [filler], (TTok filler). split; [apply more_filler|]. split; [exact filler_expr|].
        intros p (a & Q & _). discriminate Q. }
      inversion T as [|? ? Tt Tl]; subst. cbv zeta in H.
      change (program (t :: l)) with (Some t :: program l) in H. cbv iota in H.
      change (Some t :: program l) with (program (t :: l)) in H.
      assert (NR : forall o (args : list tr), o_arity o = 1%nat -> forall p, ~ rooted (TApp o args) p).
      { intros o args A p (a & Q & Y). injection Q as -> _. lia. }
      destruct (str_eqb (t_text t) (s_ "(")) eqn:E1.
      { apply str_eqb_eq in E1. pose proof (symbol_tok t "(" Tt ltac:(cbn; auto 10) E1) as ->. cbn [sym t_kind] in H.
        bindopen H.
        - destruct a as [|e1 [|e2 es]]; discriminate H.
        - destruct (IHu ")" _ ltac:(cbn; auto) Tl E) as (c & es & M & IT).
          exists (c ++ [sym ")"]). destruct es as [|e1 [|e2 es]].
          + exists (TTok (Tok KNil (s_ "()"))). split; [apply more_cons, M|].
            assert (Q : l ++ c = []) by (inversion IT; reflexivity). cbn [app]. rewrite app_assoc, Q. split; [constructor|].
            intros p (a & X & _). discriminate X.
          + exists (TApp op_paren [e1]). split; [apply more_cons, M|]. cbn [app]. rewrite app_assoc.
            split; [apply ex_paren, items_one, IT|apply NR; reflexivity].
          + exists (TApp op_send (e1 :: e2 :: es)). split; [apply more_cons, M|]. cbn [app]. rewrite app_assoc.
            split; [apply ex_send, IT|apply NR; reflexivity]. }
      destruct (str_eqb (t_text t) (s_ "[")) eqn:E2.
      { apply str_eqb_eq in E2. pose proof (symbol_tok t "[" Tt ltac:(cbn; auto 10) E2) as ->. cbn [sym t_kind] in H.
        bindopen H. destruct (IHu "]" _ ltac:(cbn; auto) Tl E) as (c & es & M & IT).
        exists (c ++ [sym "]"]), (TApp op_enlist es). split; [apply more_cons, M|]. cbn [app]. rewrite app_assoc.
        split; [apply ex_list, IT|apply NR; reflexivity]. }
      destruct (str_eqb (t_text t) (s_ "{")) eqn:E3.
      { apply str_eqb_eq in E3. pose proof (symbol_tok t "{" Tt ltac:(cbn; auto 10) E3) as ->. cbn [sym t_kind] in H.
        bindopen H. destruct (IHb _ T E) as (c & sts & M & BD).
        exists c, (TApp op_block [TBlk sts]). split; [exact M|]. split; [|apply NR; reflexivity].
        specialize (BD [] calm_nil). inversion BD as [sts' ts rest' CO Q1 Q2|st ts rest' ST NB]; subst.
        - cbn [app]. rewrite <- Q2. apply ex_block, CO.
        - exfalso. apply NB. reflexivity. }
      destruct (str_eqb (t_text t) (s_ "$") || str_eqb (t_text t) (s_ "\$")) eqn:E4.
      { assert (D : t = sym "$" \/ t = sym "\$").
        { apply orb_prop in E4. destruct E4 as [E4|E4]; apply str_eqb_eq in E4; [left|right]; apply symbol_tok; auto; cbn; auto 12. }
        assert (H' : match program l with
               | [] => PErr PIndexError
               | None :: _ => PErr IncompleteSyntax
               | Some t1 :: ts2 =>
                 match op_by_arity 2 (t_text t1) with
                 | Some op =>
                   match ts2 with
                   | [] => PErr PIndexError
                   | _ :: ts2' =>
                     let '(op, ts3) := if head_is ts2 "*" then
                       (op_set_map (if str_eqb (t_text t) (s_ "$") then op_set_fold op else op_set_scan op), ts2')
                       else (if str_eqb (t_text t) (s_ "$") then op_set_fold op else op_set_scan op, ts2) in
                     match ts3 with
                     | [] => PErr PIndexError
                     | _ :: ts3' =>
                       let '(op, ts4) :=
                         if head_is ts3 ":" then (op_set_assign op (o_prec assign_op) (o_assoc op), ts3') else (op, ts3) in
                       pbind (@parse_expr V f (o_prec op + 1) ts4) (fun x ts5 => POk (TApp op [x]) ts5)
                     end
                   end
                 | None => PErr BadSyntax
                 end
               end = Incomplete) by (destruct D; subst t; exact H).
        clear H. destruct l as [|t1 l1].
        - (* an operator is missing *)
          destruct (op_by_arity 2 (s_ "+")) as [o|] eqn:P; [|vm_compute in P; discriminate P].
          destruct (in_table _ _ _ P) as (IN & TX & _).
          assert (B : exists o', bare [t; mark "+"] o').
          { destruct D; subst t; eexists; [apply bare_fold|apply bare_scan]; exact P. }
          destruct B as (o' & B). pose proof (prefix_facts _ _ (prefix_bare _ _ B)) as (A & _).
          exists [mark "+"; filler], (TApp o' [TTok filler]). split; [split; [|discriminate]|split; [|apply NR, A]].
          + constructor; [|constructor; [exact filler_closer|constructor]]. cbn. auto 10.
          + apply (ex_prefix o' (TTok filler) [t; mark "+"] [filler]); [apply prefix_bare, B|exact filler_expr|].
            intros p (a & Q & _). discriminate Q.
        - inversion Tl as [|? ? Tt1 Tl1]; subst.
          change (program (t1 :: l1)) with (Some t1 :: program l1) in H'. cbv iota in H'.
          destruct (op_by_arity 2 (t_text t1)) as [op|] eqn:O2; [|discriminate H'].
          destruct (in_table _ _ _ O2) as (IN & TX & _).
          pose proof (operator_tok t1 op Tt1 IN (eq_sym TX)) as E5. rewrite TX in E5.
          assert (B : bare [t; t1] (if str_eqb (t_text t) (s_ "$") then folding op else scanning op)).
          { rewrite E5. destruct D; subst t; [apply bare_fold|apply bare_scan]; exact O2. }
          destruct (prefix_open f _ _ l1 IHe B Tl1) as (c & x & M & X & XR); [exact H'|].
          exists c, x. split; [split; [exact M|discriminate]|]. auto. }
      assert (H' : match op_by_arity 1 (t_text t) with
               | Some op =>
                   match program l with
                   | [] => PErr PIndexError
                   | _ :: ts2' =>
                     let '(op, ts3) := if head_is (program l) "*" then (op_set_map op, ts2') else (op, program l) in
                     match ts3 with
                     | [] => PErr PIndexError
                     | _ :: ts3' =>
                       let '(op, ts4) :=
                         if head_is ts3 ":" then (op_set_assign op (o_prec assign_op) (o_assoc op), ts3') else (op, ts3) in
                       pbind (@parse_expr V f (o_prec op + 1) ts4) (fun x ts5 => POk (TApp op [x]) ts5)
                     end
                   end
               | None => PErr BadSyntax
               end = Incomplete) by (destruct (t_kind t); first [discriminate H|exact H]).
      clear H. destruct (op_by_arity 1 (t_text t)) as [op|] eqn:O1; [|discriminate H'].
      destruct (in_table _ _ _ O1) as (IN & TX & _).
      pose proof (operator_tok t op Tt IN (eq_sym TX)) as E5. rewrite TX in E5.
      assert (B : bare [t] op) by (rewrite E5; apply bare_unary; exact O1).
      destruct (prefix_open f _ _ l IHe B Tl H') as (c & x & M & X & XR).
      exists c, x. split; [split; [exact M|discriminate]|]. auto.
    - (* until *)
      intros w l IW T H. rewrite parse_until_eq in H. destruct l as [|t l].
      { exists [], []. split; [|constructor]. apply (more_end [] []); [constructor|cbn in *; intuition|]. intros _. exact calm_nil. }
      change (program (t :: l)) with (Some t :: program l) in H. cbv iota in H.
      change (Some t :: program l) with (program (t :: l)) in H.
      assert (CW : calm [sym w]) by (apply calm_sym; cbn in *; intuition).
      destruct (head_is (program (t :: l)) w) eqn:HC; [discriminate H|]. bindopen H.
      + bindopen H. destruct (expr_closed f SE _ _ _ T E) as (u & r1 & EQ & -> & CL & _). rewrite EQ in T. apply toks_app in T.
        destruct (IHu _ _ IW (proj2 T) E0) as (c & es & (M1 & M2) & IT).
        exists c, (a :: es). split; [split; [exact M1|discriminate]|].
        rewrite EQ, <- app_assoc. constructor; [|exact IT]. rewrite <- app_assoc. apply closed_on; [exact CL|].
        intros ->. apply M2. reflexivity.
      + destruct (IHe _ _ T E) as (c & x & (M1 & _) & X & _). exists c, [x]. split.
        * apply more_end; [exact M1|cbn in *; intuition|discriminate].
        * rewrite <- (app_nil_r ((t :: l) ++ c)). constructor; [|constructor]. cbn [app].
          rewrite <- (app_nil_r (t :: l ++ c)). apply closed_expr; [exact X|apply semi_calm, CW|].
          intros _. apply calm_ahead, CW.
  Qed.
End Open.
