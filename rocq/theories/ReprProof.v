(** * Reading a printed value back (C39) *)

From Coq Require Import String List NArith ZArith Bool Arith Lia.
From Verif Require Import PyStr PyRe PyNum Tokens OpFun OpTable Scan Parse Unparse PTypes Ops OpsSeq Apply
                          Heap Exec StrFacts ReFacts ReLang NumFacts ParseEq SpecScan SpecSyntax SpecHeap SpecVars SpecRepr.
From Verif Require Import LexProof LexProof2 LexProof3.
From Verif Require ScanProof PureProof PFacts RunOp VarProof LoopProof ExecRel ExecInv MainProof.
Import ListNotations.
Local Open Scope string_scope.
Local Open Scope list_scope.
Local Open Scope nat_scope.

(** ** The tokens and the tree of a printed value *)

Definition sym (t : string) : token := Tok KSymbol (s_ t).
Definition opt (t : string) : token := Tok KOperator (s_ t).

Inductive spelled : pval -> list token -> tree hval -> Prop :=
| sp_literal k s : (k = KNumber \/ k = KString \/ k = KEscString) ->
    token_text (Tok k s) -> 
    (k = KEscString -> @parse_escaped hval (Tok k s) = TTok (Tok k s)) ->
    forall v, p_repr v = s -> of_token (Tok k s) = Val v ->
    spelled v [Tok k s] (TTok (Tok k s))
| sp_negative u : unsigned u ->
    (forall fmt, snd (run_op fmt "-" [PScal u]) = Val (PScal (s_ "-" ++ u))) ->
    spelled (PScal (s_ "-" ++ u)) [opt "-"; Tok KNumber u] (SpecVars.app "-" [TTok (Tok KNumber u)])
| sp_nil : spelled PNil [sym "("; sym ")"] (TTok (Tok KNil (s_ "()")))
| sp_range lo hi l r tl tr el er :
    bound_of l = Some lo -> bound_of r = Some hi ->
    p_repr l = bound_str lo -> p_repr r = bound_str hi ->
    spelled l tl el -> spelled r tr er ->
    spelled (PRange lo hi) (sym "(" :: tl ++ opt "," :: tr ++ [sym ")"])
      (TApp op_paren [SpecVars.app "," [el; er]])
| sp_list l ts es : spelled_all l ts es ->
    spelled (PList l) (sym "[" :: ts ++ [sym "]"]) (display es)
with spelled_all : list pval -> list token -> list (tree hval) -> Prop :=
| sp_none : spelled_all [] [] []
| sp_one v ts e : spelled v ts e -> spelled_all [v] ts [e]
| sp_more v ts e l tl es : spelled v ts e -> spelled_all l tl es -> l <> [] ->
    spelled_all (v :: l) (ts ++ sym ";" :: tl) (e :: es).

Scheme spelled_mind := Induction for spelled Sort Prop
  with spelled_all_mind := Induction for spelled_all Sort Prop.
Combined Scheme spelled_both from spelled_mind, spelled_all_mind.

(** ** Reading *)

Definition stops (s : str) : Prop :=
  exists c r, s = c :: r /\ In c (s_ ";]),
").

Lemma reads_one t s :
  token_text t -> ~ starts_upper (t_text t) ->
  (forall t', starts_with_token (t_text t ++ s) t' -> length (t_text t') <= length (t_text t)) ->
  (forall s', t_text t ++ s <> s_ "{;" ++ s') ->
  reads (t_text t ++ s) [t] [] s.
Proof.
  intros A B C D. change [t] with ([t] ++ []). change (@nil char) with (@nil char ++ []).
  eapply reads_step; [apply step_token; assumption|constructor].
Qed.

Lemma text_head t c a : t_text t = c :: a -> tok_at c a t -> t_text t = c :: a.
Proof. auto. Qed.

Lemma reads_fixed t s c a :
  token_text t -> t_text t = c :: a -> fixed_head c -> c <> 123%N ->
  reads (t_text t ++ s) [t] [] s.
Proof.
  intros T E F NB. apply reads_one; [exact T| | |].
  - intros (d & r & E' & U). rewrite E in E'. injection E' as -> ->.
    unfold fixed_head in F. unfold is_upper in U. apply andb_prop in U. destruct U as [U1 U2].
    apply N.leb_le in U1, U2. lia.
  - intros t' (T' & r & E').
    destruct (tok_cases t T) as (c1 & a1 & E1 & A1). destruct (tok_cases t' T') as (c2 & a2 & E2 & A2).
    rewrite E1, E2 in *. injection E as -> ->. cbn [Datatypes.app] in E'. injection E' as -> E'.
    rewrite (fixed_unique _ _ _ _ _ _ _ F A1 A2 E'). auto.
  - intros s' E'. rewrite E in E'. injection E' as E' _. congruence.
Qed.

Lemma reads_sym (t : string) c s : s_ t = [c] -> In c (s_ "][();") ->
  reads (c :: s) [sym t] [] s.
Proof.
  intros E I. change (c :: s) with ([c] ++ s). rewrite <- E. change (s_ t) with (t_text (sym t)).
  apply (reads_fixed (sym t) s c []).
  - unfold token_text, sym. cbn [t_kind t_text].
    cbn [In s_ map] in I. rewrite E. 
    repeat (destruct I as [<-|I]; [cbn; tauto|]). destruct I.
  - exact E.
  - unfold fixed_head. cbn in I. repeat (destruct I as [<-|I]; [lia|]). destruct I.
  - cbn in I. repeat (destruct I as [<-|I]; [discriminate|]). destruct I.
Qed.

Definition numch (c : char) : bool := is_digit c || N.eqb c 46.
Lemma unsigned_chars u : unsigned u -> forallb numch u = true /\ exists c r, u = c :: r /\ is_digit c = true.
Proof.
  assert (D : forall a, digits a -> forallb numch a = true).
  { intros a H. apply digits_iff in H. destruct H as [_ F]. rewrite forallb_forall in *. intros x I.
    unfold numch. rewrite (F x I). reflexivity. }
  assert (Hd : forall a, digits a -> exists c r, a = c :: r /\ is_digit c = true).
  { intros a [N0 F]. destruct a as [|c r]; [congruence|]. inversion F; subst. eauto. }
  intros [H|(a & b & -> & Ha & Hb)].
  - split; [apply D, H|apply Hd, H].
  - split.
    + rewrite !forallb_app, (D a Ha), (D b Hb). reflexivity.
    + destruct (Hd a Ha) as (c & r & -> & E). cbn. eauto.
Qed.

Lemma not_upper_digit c : is_digit c = true -> is_upper c = false.
Proof.
  intros D. apply digit_range in D. apply not_true_is_false. intros U. unfold is_upper in U.
  apply andb_prop in U. destruct U as [U1 U2]. apply N.leb_le in U1, U2. lia.
Qed.

Lemma prefix_length p (a b r s : str) : forallb p a = true -> (exists c q, s = c :: q /\ p c = false) ->
  b ++ s = a ++ r -> length a <= length b.
Proof.
  revert b. induction a as [|x a IH]; intros b F (c & q & -> & P) E; [cbn; lia|].
  cbn [forallb] in F. apply andb_prop in F. destruct F as [Fx F].
  destruct b as [|y b]; cbn in E; injection E as E1 E2.
  - subst. congruence.
  - cbn [length]. apply le_n_S. apply (IH b); eauto.
Qed.

Lemma reads_number u s : unsigned u -> stops s -> reads (u ++ s) [Tok KNumber u] [] s.
Proof.
  intros U (c & r & -> & I). destruct (unsigned_chars u U) as (F & d & q & E & D).
  apply (reads_one (Tok KNumber u)); cbn [t_text].
  - exact U.
  - intros (d' & q' & E' & U'). rewrite E in E'. injection E' as <- <-.
    rewrite (not_upper_digit d D) in U'. discriminate.
  - intros t' (T' & r' & E').
    destruct (tok_cases t' T') as (c2 & a2 & E2 & A2). rewrite E2 in *.
    apply (prefix_length numch (c2 :: a2) u r' (c :: r)).
    + assert (H : is_digit c2 = true) by (rewrite E in E'; injection E' as <- _; exact D).
      pose proof (digit_range _ H) as R.
      destruct A2; try (exfalso; chars; lia).
      apply (proj1 (unsigned_chars _ H1)).
    + exists c, r. split; [reflexivity|]. cbn in I.
      repeat (destruct I as [<-|I]; [reflexivity|]). destruct I.
    + exact E'.
  - intros s' E'. rewrite E in E'. injection E' as -> _. discriminate D.
Qed.

Lemma op_lengths c : In c (s_ "-,") -> forall s, operator_text (c :: s) -> s = [] \/ c = 45%N /\ s = [45%N].
Proof.
  assert (C : forallb (fun o => match o_text o with
                | c :: s => negb (N.eqb c 45 || N.eqb c 44)
                            || match s with [] => true | [d] => N.eqb c 45 && N.eqb d 45 | _ => false end
                | [] => true end) all_ops = true) by (vm_compute; reflexivity).
  intros I s (o & Io & E). rewrite forallb_forall in C. specialize (C o Io). rewrite E in C.
  assert (X : N.eqb c 45 || N.eqb c 44 = true) by (cbn in I; destruct I as [<-|[<-|[]]]; reflexivity).
  rewrite X in C. cbn in C. destruct s as [|d [|? ?]]; [left; reflexivity| |discriminate].
  right. apply andb_prop in C. destruct C as [C1 C2]. apply N.eqb_eq in C1, C2. subst. auto.
Qed.

Lemma reads_op (t : string) c d s : s_ t = [c] -> In c (s_ "-,") -> (c = 45%N -> d <> 45%N) ->
  reads (c :: d :: s) [opt t] [] (d :: s).
Proof.
  intros E I ND. change (c :: d :: s) with ([c] ++ d :: s). rewrite <- E.
  change (s_ t) with (t_text (opt t)). apply reads_one.
  - unfold token_text, opt. cbn [t_kind t_text]. rewrite E. cbn in I. apply is_op_iff.
    destruct I as [<-|[<-|[]]]; vm_compute; reflexivity.
  - cbn [opt t_text]. rewrite E. intros (d' & q' & E' & U'). injection E' as <- <-.
    cbn in I. destruct I as [<-|[<-|[]]]; discriminate.
  - intros t' (T' & r' & E').
    destruct (tok_cases t' T') as (c2 & a2 & E2 & A2). rewrite E2 in *. cbn [opt t_text] in *. rewrite E in *.
    cbn [Datatypes.app] in E'. injection E' as <- E'. cbn [length]. apply le_n_S.
    assert (Z : a2 = [] -> length a2 <= 0) by (intros ->; cbn; lia).
    destruct A2; try (exfalso; cbn in I; chars; lia); try (cbn; lia).
    destruct (op_lengths c I s0 H1) as [->|(-> & ->)]; [cbn; lia|].
    cbn [Datatypes.app] in E'. injection E' as E' _. exfalso. apply ND; [reflexivity|exact E'].
  - cbn [opt t_text]. rewrite E. intros s' E'. injection E' as E' _. cbn in I. destruct I as [<-|[<-|[]]]; discriminate.
Qed.

(** How a printed value starts. *)
Lemma bound_head b : exists c r, bound_str b = c :: r /\ (c = 40%N \/ c = 45%N \/ is_digit c = true).
Proof.
  destruct b as [z|]; cbn [bound_str].
  - destruct (str_of_Z_shape z) as (c & r & Hd & _ & _ & E). rewrite E.
    destruct (z <? 0)%Z; cbn [Datatypes.app].
    + eexists _, _. split; [reflexivity|]. right. left. reflexivity.
    + exists c, r. split; [reflexivity|]. right. right.
      cbn in Hd. apply andb_prop in Hd. tauto.
  - exists 40%N, [41%N]. auto.
Qed.

(** ** When a text is printed as a number *)

Definition as_number (s : str) : option str :=
  match match_re pip_float_re s with Some r => Some r | None => match_re int_re s end.

Lemma float_part c s : is_digit c = true ->
  rmatch (RSeq (RPlus RDigit) (RSeq (RChar c_dot) (RPlus RDigit))) (c :: s) (@Some str) =
  match drop_while is_digit s with
  | x :: d :: t => if N.eqb c_dot x && is_digit d then Some (drop_while is_digit t) else None
  | _ => None
  end.
Proof.
  intros C.
  change (rmatch (RPlus RDigit) (c :: s) (fun s' => rmatch (RSeq (RChar c_dot) (RPlus RDigit)) s' (@Some str)) =
    match drop_while is_digit s with
    | x :: d :: t => if N.eqb c_dot x && is_digit d then Some (drop_while is_digit t) else None
    | _ => None
    end).
  rewrite match_plus_digits.
  - rewrite C. destruct (drop_while is_digit s) as [|x q]; [reflexivity|].
    change (rmatch (RSeq (RChar c_dot) (RPlus RDigit)) (x :: q) (@Some str))
      with (if N.eqb c_dot x then rmatch (RPlus RDigit) q (@Some str) else None).
    destruct (N.eqb c_dot x); [|destruct q; reflexivity]. 
    destruct q as [|d t]; [reflexivity|].
    rewrite match_plus_digits_some. cbn [andb]. reflexivity.
  - intros d t Hd. 
    change (rmatch (RSeq (RChar c_dot) (RPlus RDigit)) (d :: t) (@Some str))
      with (if N.eqb c_dot d then rmatch (RPlus RDigit) t (@Some str) else None).
    destruct (N.eqb_spec c_dot d) as [<-|]; [discriminate Hd|reflexivity].
Qed.

Lemma opt_sign c s (r : re) : is_digit c = true -> (forall t, rmatch r (c_minus :: t) (@Some str) = None) ->
  rmatch (RSeq (ROpt (RChar c_minus)) r) (c :: s) Some = rmatch r (c :: s) Some
  /\ rmatch (RSeq (ROpt (RChar c_minus)) r) (c_minus :: c :: s) Some = rmatch r (c :: s) Some.
Proof.
  intros D M.
  assert (Hm : N.eqb c_minus c = false) by (apply N.eqb_neq; intros <-; discriminate D).
  split.
  - change (match (if N.eqb c_minus c then rmatch r s Some else None) with
            | Some x => Some x | None => rmatch r (c :: s) Some end = rmatch r (c :: s) Some).
    rewrite Hm. reflexivity.
  - change (match (if N.eqb c_minus c_minus then rmatch r (c :: s) Some else None) with
            | Some x => Some x | None => rmatch r (c_minus :: c :: s) Some end = rmatch r (c :: s) Some).
    rewrite N.eqb_refl, M. destruct (rmatch r (c :: s) Some); reflexivity.
Qed.

Lemma as_number_unsigned u : unsigned u -> as_number u = Some [] /\ as_number (c_minus :: u) = Some [].
Proof.
  intros U. destruct (unsigned_chars u U) as (_ & c & s & -> & D).
  unfold as_number, match_re, pip_float_re, int_re.
  destruct (opt_sign c s (RSeq (RPlus RDigit) (RSeq (RChar c_dot) (RPlus RDigit))) D) as [F1 F2];
    [reflexivity|].
  destruct (opt_sign c s (RPlus RDigit) D) as [I1 I2]; [reflexivity|].
  rewrite F1, F2, I1, I2, (float_part c s D), match_plus_digits_some, D.
  enough (X : match (match drop_while is_digit s with
                     | x :: d :: t => if N.eqb c_dot x && is_digit d then Some (drop_while is_digit t) else None
                     | _ => None end) with
              | Some r => Some r | None => Some (drop_while is_digit s) end = Some []) by (split; exact X).
  destruct U as [U|(a & b & E & Ha & Hb)].
  - apply digits_iff in U. destruct U as [_ F]. cbn [forallb] in F. apply andb_prop in F. destruct F as [_ F].
    rewrite drop_while_all by exact F. reflexivity.
  - apply digits_iff in Ha, Hb. destruct Ha as [Na Fa], Hb as [Nb Fb].
    destruct a as [|c' a]; [congruence|]. cbn [Datatypes.app] in E. injection E as <- ->.
    cbn [forallb] in Fa. apply andb_prop in Fa. destruct Fa as [_ Fa].
    rewrite drop_while_app by exact Fa. destruct b as [|d b]; [congruence|].
    cbn [forallb] in Fb. apply andb_prop in Fb. destruct Fb as [Dd Fb].
    change (s_ "." ++ d :: b) with (46%N :: d :: b). rewrite (drop_while_stop is_digit 46%N) by reflexivity.
    assert (Y : N.eqb c_dot 46 && is_digit d = true) by (rewrite Dd; reflexivity).
    rewrite Y, drop_while_all by exact Fb. reflexivity.
Qed.

Lemma as_number_numeric s : as_number s = Some [] <-> numeric s.
Proof.
  split.
  - assert (P : forall a t, lang (RPlus RDigit) a t -> exists d, a = d ++ t /\ digits d).
    { intros a t L. apply lang_plus_cls in L. destruct L as (d & N0 & -> & F). exists d.
      split; [reflexivity|]. apply digits_iff. auto. }
    assert (Sg : forall r, lang (RSeq (ROpt (RChar c_minus)) r) s [] ->
              lang r s [] \/ exists u, s = c_minus :: u /\ lang r u []).
    { intros r L. apply lang_seq in L. destruct L as (t & L1 & L2). apply lang_opt in L1.
      destruct L1 as [->|L1]; [left; exact L2|]. apply lang_char in L1. right. eauto. }
    unfold as_number. intros H.
    assert (G : forall u, lang (RSeq (RPlus RDigit) (RSeq (RChar c_dot) (RPlus RDigit))) u [] -> unsigned u).
    { intros u L. apply lang_seq in L. destruct L as (t & L1 & L2). apply P in L1. destruct L1 as (a & -> & Ha).
      apply lang_seq in L2. destruct L2 as (t2 & L2 & L3). apply lang_char in L2. apply P in L3.
      destruct L3 as (b & -> & Hb). subst t. right. exists a, b. rewrite app_nil_r. split; [reflexivity|auto]. }
    assert (G' : forall u, lang (RPlus RDigit) u [] -> unsigned u).
    { intros u L. apply P in L. destruct L as (a & -> & Ha). left. rewrite app_nil_r. exact Ha. }
    assert (K : forall r, (forall u, lang r u [] -> unsigned u) ->
               lang (RSeq (ROpt (RChar c_minus)) r) s [] -> numeric s).
    { intros r Hr L. destruct (Sg r L) as [L'|(u & -> & L')]; [left; auto|]. right. exists u. split; [reflexivity|auto]. }
    destruct (match_re pip_float_re s) as [r|] eqn:E.
    + injection H as ->. apply match_re_lang in E. exact (K _ G E).
    + apply match_re_lang in H. exact (K _ G' H).
  - intros [U|(u & -> & U)]; apply as_number_unsigned in U; tauto.
Qed.

Lemma repr_numeric s : numeric s -> scalar_repr s = s.
Proof.
  intros H. apply as_number_numeric in H. unfold scalar_repr. fold (as_number s). rewrite H. reflexivity.
Qed.
Lemma repr_text s : ~ numeric s -> scalar_repr s =
  if existsb (N.eqb c_dquote) s
  then s_ "\""" ++ str_replace [c_backslash] [c_backslash; c_backslash] s ++ s_ "\"""
  else [c_dquote] ++ s ++ [c_dquote].
Proof.
  intros H. rewrite <- as_number_numeric in H. unfold scalar_repr. fold (as_number s).
  cbv zeta. destruct (as_number s) as [[|x r]|]; [destruct (H eq_refl)|reflexivity|reflexivity].
Qed.

(** ** Escaped text *)

Definition doubled (s : str) : str := flat_map (fun c => if N.eqb c 92 then [92; 92]%N else [c]) s.

Lemma replace_double s : str_replace [c_backslash] [c_backslash; c_backslash] s = doubled s.
Proof.
  unfold str_replace. induction s as [|c s IH]; [reflexivity|].
  cbn [replace_ne length Nat.sub startswith doubled flat_map]. fold (doubled s).
  rewrite (N.eqb_sym c_backslash c). unfold c_backslash in *. rewrite IH. destruct (N.eqb c 92); [|reflexivity].
  rewrite andb_true_r. reflexivity.
Qed.
Lemma replace_undouble s : str_replace [c_backslash; c_backslash] [c_backslash] (doubled s) = s.
Proof.
  unfold str_replace. induction s as [|c s IH]; [reflexivity|].
  cbn [doubled flat_map]. fold (doubled s). unfold c_backslash in *.
  destruct (N.eqb_spec c 92) as [->|NE].
  - cbn [Datatypes.app replace_ne startswith length Nat.sub]. cbn [N.eqb Pos.eqb andb].
    cbn [Datatypes.app]. rewrite IH. reflexivity.
  - cbn [Datatypes.app replace_ne startswith].
    assert (X : N.eqb 92 c = false) by (apply N.eqb_neq; congruence).
    rewrite X. cbn [andb]. rewrite IH. reflexivity.
Qed.
Lemma doubled_body s : esc_body (doubled s).
Proof.
  induction s as [|c s IH]; cbn [doubled flat_map]; [constructor|]. fold (doubled s).
  destruct (N.eqb_spec c 92) as [->|NE]; cbn [Datatypes.app].
  - apply eb_esc; [discriminate|exact IH].
  - apply eb_plain; assumption.
Qed.

Definition no_name (s : str) : Prop := forall a c b, s = a ++ 92%N :: c :: b -> name_letter c = false.
Lemma interp_doubled s : no_name s -> forall cur, interp_split cur (doubled s) = (cur ++ doubled s, []).
Proof.
  assert (K : forall n s, length s <= n -> no_name s ->
    (forall cur, interp_split cur (doubled s) = (cur ++ doubled s, []))
    /\ (no_name (92%N :: s) -> forall cur, interp_split cur (92%N :: doubled s) = (cur ++ 92%N :: doubled s, []))).
  { induction n as [|n IH]; intros t L NN.
    - destruct t; [|cbn in L; lia]. split; intros; cbn; [rewrite app_nil_r|]; reflexivity.
    - destruct t as [|c t]; [split; intros; cbn; [rewrite app_nil_r|]; reflexivity|].
      assert (Nt : no_name t) by (intros a d b E; apply (NN (c :: a) d b); rewrite E; reflexivity).
      cbn [length] in L. destruct (IH t ltac:(lia) Nt) as [IH1 IH2].
      cbn [doubled flat_map]. fold (doubled t).
      assert (F : forall cur, interp_split cur ((if N.eqb c 92 then [92; 92]%N else [c]) ++ doubled t)
                  = (cur ++ (if N.eqb c 92 then [92; 92]%N else [c]) ++ doubled t, [])).
      { intros cur. destruct (N.eqb_spec c 92) as [->|NE]; cbn [Datatypes.app].
        - change (interp_split cur (92%N :: 92%N :: doubled t)) with (interp_split (cur ++ [92%N]) (92%N :: doubled t)).
          rewrite IH2 by exact NN. rewrite <- app_assoc. reflexivity.
        - cbn [interp_split]. unfold c_backslash. rewrite (proj2 (N.eqb_neq c 92) NE), IH1, <- app_assoc. reflexivity. }
      split; [exact F|]. intros N2 cur.
      assert (LC : name_letter c = false) by (apply (N2 [] c t); reflexivity).
      assert (H : interp_split cur (92%N :: (if N.eqb c 92 then [92; 92]%N else [c]) ++ doubled t) =
                  interp_split (cur ++ [92%N]) ((if N.eqb c 92 then [92; 92]%N else [c]) ++ doubled t)).
      { destruct (N.eqb_spec c 92) as [->|NE]; [reflexivity|]. cbn [Datatypes.app].
        unfold name_letter in LC. apply orb_false_iff in LC. destruct LC as [LC1 LC2].
        apply orb_false_iff in LC1. destruct LC1 as [LC0 LC1].
        cbn [interp_split]. unfold c_backslash. cbn [N.eqb Pos.eqb]. rewrite LC0, LC1, LC2. reflexivity. }
      etransitivity; [exact H|]. etransitivity; [exact (F _)|]. rewrite <- app_assoc. reflexivity. }
  intros NN. exact (proj1 (K _ s (le_n _) NN)).
Qed.

Lemma slice_inner {A} (p q l : list A) : (0 < length q) ->
  py_slice (Some (Z.of_nat (length p))) (Some (- Z.of_nat (length q))%Z) (p ++ l ++ q) = l.
Proof.
  intros Lq. unfold py_slice, clamp_bound, zlen. cbv zeta. rewrite !app_length.
  assert (E1 : forall a : Z, (a = Z.of_nat (length p)) -> skipn (Z.to_nat a) (p ++ l ++ q) = l ++ q).
  { intros a ->. rewrite Nat2Z.id, skipn_app, skipn_all, Nat.sub_diag. reflexivity. }
  rewrite E1.
  - match goal with |- firstn ?k _ = _ => replace k with (length l) end.
    + rewrite firstn_app, Nat.sub_diag, firstn_all. apply app_nil_r.
    + repeat match goal with |- context[Z.ltb ?a ?b] => destruct (Z.ltb_spec a b) end; lia.
  - repeat match goal with |- context[Z.ltb ?a ?b] => destruct (Z.ltb_spec a b) end; lia.
Qed.
Lemma slice_string s : py_slice (Some 1%Z) (Some (-1)%Z) (c_dquote :: s ++ [c_dquote]) = s.
Proof. exact (slice_inner [c_dquote] [c_dquote] s ltac:(cbn; lia)). Qed.
Lemma slice_escaped s :
  py_slice (Some 2%Z) (Some (-2)%Z) (s_ "\""" ++ s ++ s_ "\""") = s.
Proof. exact (slice_inner (s_ "\""") (s_ "\""") s ltac:(cbn; lia)). Qed.

(** ** Every readable value has tokens and a tree *)

Lemma spelled_scalar s : readable_text s -> exists ts t, spelled (PScal s) ts t.
Proof.
  assert (NUM : forall u, unsigned u -> exists ts t, spelled (PScal u) ts t).
  { intros u U. exists [Tok KNumber u], (TTok (Tok KNumber u)). apply sp_literal; auto.
    - discriminate.
    - cbn [p_repr]. apply repr_numeric. left. exact U. }
  intros [t U|z L|u U E|t N0 Q|t Q NN]; [exact (NUM t U)| | | |].
  - destruct (str_of_Z_shape z) as (c & r & Hd & Ha & Hv & E).
    apply Z.ltb_lt in L. rewrite L in E.
    assert (U : unsigned (c :: r)) by (left; apply digits_iff; split; [discriminate|exact Hd]).
    rewrite E. eexists _, _. apply (sp_negative (c :: r)); [exact U|]. intros fmt.
    assert (Ez : c :: r = str_of_Z (- z)).
    { apply Z.ltb_lt in L. unfold str_of_Z in E |- *. rewrite (proj2 (Z.ltb_lt z 0) L) in E.
      destruct (Z.ltb_spec (- z) 0); [lia|]. injection E as E. rewrite <- E. f_equal. lia. }
    rewrite Ez. RunOp.run_plain. unfold op_NEG. rewrite to_number_str. cbn [snd ret num_neg].
    unfold scal_num. cbn [str_of_num]. rewrite Z.opp_involutive, E, <- Ez. reflexivity.
  - eexists _, _. apply sp_negative; assumption.
  - assert (R : scalar_repr t = c_dquote :: t ++ [c_dquote]).
    { rewrite repr_text by exact N0.
      assert (X : existsb (N.eqb c_dquote) t = false).
      { apply not_true_is_false. intros H. apply existsb_exists in H. destruct H as (x & I & H).
        apply N.eqb_eq in H. subst x. exact (Q I). }
      rewrite X. reflexivity. }
    eexists _, _. apply (sp_literal KString (c_dquote :: t ++ [c_dquote])); auto.
    + exists t. auto.
    + discriminate.
    + cbn [of_token t_kind t_text]. rewrite slice_string. reflexivity.
  - assert (NNum : ~ numeric t).
    { intros [U|(u & -> & U)]; apply unsigned_chars in U; destruct U as (F & _);
        rewrite forallb_forall in F.
      - specialize (F 34%N Q). discriminate F.
      - destruct Q as [Q|Q]; [discriminate Q|]. specialize (F 34%N Q). discriminate F. }
    assert (R : scalar_repr t = s_ "\""" ++ doubled t ++ s_ "\""").
    { rewrite repr_text by exact NNum.
      assert (X : existsb (N.eqb c_dquote) t = true).
      { apply existsb_exists. exists 34%N. split; [exact Q|reflexivity]. }
      rewrite X, replace_double. reflexivity. }
    eexists _, _. apply (sp_literal KEscString (s_ "\""" ++ doubled t ++ s_ "\""")); auto.
    + exists (doubled t). split; [reflexivity|apply doubled_body].
    + intros _. unfold parse_escaped. cbn [t_text]. rewrite slice_escaped, interp_doubled by exact NN.
      reflexivity.
    + cbn [of_token t_kind t_text]. rewrite slice_escaped, replace_undouble. reflexivity.
Qed.

Lemma bound_spelled b : exists v ts t, bound_of v = Some b /\ p_repr v = bound_str b /\ spelled v ts t.
Proof.
  destruct b as [z|].
  - assert (R : readable_text (str_of_Z z)).
    { destruct (Z.ltb_spec z 0) as [L|L]; [apply text_integer; exact L|].
      apply text_number. left. destruct (str_of_Z_shape z) as (c & r & Hd & _ & _ & E).
      rewrite (proj2 (Z.ltb_ge z 0) L) in E. cbn [Datatypes.app] in E. rewrite E.
      apply digits_iff. split; [discriminate|exact Hd]. }
    destruct (spelled_scalar _ R) as (ts & t & Sp). exists (PScal (str_of_Z z)), ts, t.
    cbn [bound_of p_repr bound_str]. rewrite scalar_int_str. split; [reflexivity|]. split; [|exact Sp].
    apply repr_numeric. destruct (str_of_Z_shape z) as (c & r & Hd & _ & _ & E). rewrite E.
    assert (U : unsigned (c :: r)) by (left; apply digits_iff; split; [discriminate|exact Hd]).
    destruct (z <? 0)%Z; [right; exists (c :: r); auto|left; exact U].
  - exists PNil, [sym "("; sym ")"], (TTok (Tok KNil (s_ "()"))). repeat split; constructor.
Qed.

Theorem readable_spelled v : readable v -> exists ts t, spelled v ts t.
Proof.
  induction v as [s|r fl|l IH|lo hi|sts ret|] using PFacts.pval_list_ind; intros R; inversion R; subst.
  - apply spelled_scalar. assumption.
  - enough (X : exists ts es, spelled_all l ts es).
    { destruct X as (ts & es & X). eexists _, _. apply sp_list. exact X. }
    clear R. rename H0 into F. induction l as [|v l IHl].
    + exists [], []. constructor.
    + inversion F; subst. inversion IH; subst. destruct (H3 H1) as (ts & t & Sp).
      destruct l as [|w l].
      * exists ts, [t]. constructor. exact Sp.
      * destruct (IHl H4 H2) as (tl & es & Sl). eexists _, _. apply sp_more; [exact Sp|exact Sl|discriminate].
  - destruct (bound_spelled lo) as (a & tl & el & B1 & R1 & S1).
    destruct (bound_spelled hi) as (b & tr & er & B2 & R2 & S2).
    eexists _, _. eapply sp_range; eassumption.
  - eexists _, _. apply sp_nil.
Qed.

(** ** The text is read as these tokens *)

Lemma text_first : forall v ts t, spelled v ts t ->
  exists c r, p_repr v = c :: r /\ is_space c = false /\ c <> 59%N.
Proof.
  intros v ts t Sp. destruct Sp as [k s K T E v R Ev|u U E| |lo hi l r tl tr el er B1 B2 R1 R2 S1 S2|l ts es Sl].
  - rewrite R. destruct (ScanProof.tok_nonempty _ T) as (c & q & Eq & NS). cbn [t_text] in Eq.
    exists c, q. split; [exact Eq|]. split; [exact NS|].
    intros ->. subst s. destruct K as [->|[->| ->]]; cbn in T.
    + destruct (unsigned_chars _ T) as (_ & d & q' & Eq' & D).
      rewrite Eq in Eq'. injection Eq' as <- _. discriminate D.
    + destruct T as (b & Eb & _). rewrite Eq in Eb. discriminate.
    + destruct T as (b & Eb & _). rewrite Eq in Eb. discriminate.
  - cbn [p_repr]. rewrite repr_numeric by (right; exists u; auto).
    exists 45%N, u. repeat split; discriminate.
  - exists 40%N, [41%N]. repeat split; discriminate.
  - cbn [p_repr]. unfold range_repr. eexists _, _. split; [reflexivity|]. split; [reflexivity|discriminate].
  - cbn [p_repr]. eexists _, _. split; [reflexivity|]. split; [reflexivity|discriminate].
Qed.

Lemma reads_app' s1 t1 s2 t2 s3 :
  reads s1 t1 [] s2 -> reads s2 t2 [] s3 -> reads s1 (t1 ++ t2) [] s3.
Proof. intros A B. exact (ScanProof.reads_app _ _ _ _ _ _ _ A B). Qed.
Lemma reads_cons s1 t1 s2 t2 s3 :
  reads s1 [t1] [] s2 -> reads s2 t2 [] s3 -> reads s1 (t1 :: t2) [] s3.
Proof. intros A B. exact (ScanProof.reads_app _ _ _ _ _ _ _ A B). Qed.

Lemma stops_in c r : In c (s_ ";]),
") -> stops (c :: r).
Proof. intros I. exists c, r. auto. Qed.

Lemma spelled_reads :
  (forall v ts t, spelled v ts t -> forall s, stops s -> reads (p_repr v ++ s) ts [] s)
  /\ (forall l ts es, spelled_all l ts es -> forall s,
        reads (str_join (s_ ";") (map p_repr l) ++ s_ "]" ++ s) ts [] (s_ "]" ++ s)).
Proof.
  apply (spelled_both (fun v ts t _ => forall s, stops s -> reads (p_repr v ++ s) ts [] s)
           (fun l ts es _ => forall s,
              reads (str_join (s_ ";") (map p_repr l) ++ s_ "]" ++ s) ts [] (s_ "]" ++ s))).
  - intros k s K T E v R Ev s0 St. rewrite R.
    destruct K as [->|[->| ->]].
    + apply reads_number; [exact T|exact St].
    + pose proof T as T'. destruct T' as (b & Eb & _). cbn [t_text] in Eb.
      change s with (t_text (Tok KString s)) at 1. eapply reads_fixed; [exact T|exact Eb| |discriminate].
      unfold fixed_head. lia.
    + pose proof T as T'. destruct T' as (b & Eb & _). cbn [t_text] in Eb.
      change s with (t_text (Tok KEscString s)) at 1. eapply reads_fixed; [exact T|exact Eb| |discriminate].
      unfold fixed_head. lia.
  - intros u U E s St. cbn [p_repr]. rewrite repr_numeric by (right; exists u; auto).
    destruct (unsigned_chars u U) as (_ & c & r & Eu & D).
    eapply reads_cons; [|apply reads_number; [exact U|exact St]].
    rewrite Eu. cbn [Datatypes.app s_]. apply reads_op; [reflexivity|cbn; auto|].
    intros _ ->. discriminate D.
  - intros s St. eapply reads_cons; [apply (reads_sym "("); [reflexivity|cbn; tauto]|].
    apply (reads_sym ")"); [reflexivity|cbn; tauto].
  - intros lo hi l r tl tr el er B1 B2 R1 R2 S1 IH1 S2 IH2 s St.
    cbn [p_repr]. unfold range_repr. rewrite <- !app_assoc.
    eapply reads_cons; [apply (reads_sym "("); [reflexivity|cbn; tauto]|].
    rewrite <- R1, <- R2.
    eapply reads_app'; [apply IH1; apply stops_in; cbn; tauto|].
    destruct (bound_head hi) as (c & q & Eb & _). rewrite <- R2 in Eb.
    eapply reads_cons.
    + instantiate (1 := p_repr r ++ s_ ")" ++ s). rewrite Eb.
      apply (reads_op ","); [reflexivity|cbn; tauto|discriminate].
    + eapply reads_app'; [apply IH2; apply stops_in; cbn; tauto|].
      apply (reads_sym ")"); [reflexivity|cbn; tauto].
  - intros l ts es Sl IH s St. cbn [p_repr]. rewrite <- !app_assoc.
    eapply reads_cons; [apply (reads_sym "["); [reflexivity|cbn; tauto]|].
    eapply reads_app'; [apply IH|]. apply (reads_sym "]"); [reflexivity|cbn; tauto].
  - intros s. constructor.
  - intros v ts e Sp IH s. cbn [map str_join]. apply IH. apply stops_in. cbn; tauto.
  - intros v ts e l tl es Sp IH Sl IHl N0 s. cbn [map].
    destruct l as [|w l]; [congruence|]. cbn [map str_join] in *. rewrite <- !app_assoc.
    eapply reads_app'; [apply IH; apply stops_in; cbn; tauto|].
    eapply reads_cons; [apply (reads_sym ";"); [reflexivity|cbn; tauto]|].
    rewrite app_assoc. specialize (IHl s). destruct l; rewrite <- ?app_assoc in *; exact IHl.
Qed.

Lemma gap_newlines w : w <> [] -> Forall (fun c => c = 10%N) w -> forall s,
  (forall c r, s = c :: r -> is_space c = false /\ c <> 59%N) -> reads (w ++ s) [] [] s.
Proof.
  intros N0 F s H. change (@nil token) with (@nil token ++ []). change (@nil char) with (@nil char ++ []).
  eapply reads_step; [|constructor]. apply step_gap, gap_blank.
  - exact N0.
  - unfold blank. eapply Forall_impl; [|exact F]. intros c ->. reflexivity.
  - intros (c & r & E & B). destruct (H c r E). congruence.
  - intros w' E. destruct w as [|x w]; [congruence|]. inversion F; subst. discriminate E.
  - intros _ s' E. destruct (H _ _ E) as [_ X]. apply X. reflexivity.
Qed.

Lemma spelled_scan v ts t (w : str) : spelled v ts t -> Forall (fun c => c = 10%N) w ->
  scan (p_repr v ++ w) = ScanOk (program ts) [].
Proof.
  intros Sp F. apply ScanProof.scan_reads. unfold framed.
  destruct (text_first v ts t Sp) as (c & r & E & NS & NC).
  change (10%N :: (p_repr v ++ w) ++ [10%N]) with ([10%N] ++ (p_repr v ++ w) ++ [10%N]).
  change ts with (@nil token ++ ts). rewrite <- app_assoc.
  eapply reads_app'.
  - apply gap_newlines; [discriminate|repeat constructor|]. intros d q E'. rewrite E in E'.
    injection E' as <- _. auto.
  - rewrite <- (app_nil_r ts).
    assert (Sw : stops (w ++ [10%N])).
    { destruct w as [|x q]; [|inversion F; subst]; apply stops_in; cbn; tauto. }
    assert (Nw : w ++ [10%N] <> []) by (destruct w; discriminate).
    assert (Fw : Forall (fun c => c = 10%N) (w ++ [10%N])) by (apply Forall_app; split; [exact F|repeat constructor]).
    eapply reads_app'.
    + apply (proj1 spelled_reads v ts t Sp). exact Sw.
    + rewrite <- (app_nil_r (w ++ [10%N])). apply gap_newlines; [exact Nw|exact Fw|discriminate].
Qed.

(** ** These tokens are parsed as this tree *)

(** What may follow an operand. *)
Definition ends (ts : toklist) : Prop :=
  exists k r, ts = k :: r /\
    (k = None \/ (exists x, In x [";"; "]"; ")"] /\ k = Some (sym x)) \/ (k = Some (opt ",") /\ r <> [])).

Lemma ends_sym x r : In x [";"; "]"; ")"] -> ends (Some (sym x) :: r).
Proof. intros I. eexists _, _. split; [reflexivity|]. right. left. eauto. Qed.

Lemma infix_stops f m (e : tree hval) ts : (33 <= m)%Z -> ends ts -> parse_infix (S f) m e ts = POk e ts.
Proof.
  intros L (k & r & -> & H). rewrite parse_infix_eq. destruct H as [->|[(x & I & ->)|(-> & N0)]].
  - reflexivity.
  - reflexivity.
  - change (t_kind (opt ",")) with KOperator. cbv iota.
    destruct (infix_op (opt ",")) as [o|] eqn:E; [|discriminate E].
    vm_compute in E. injection E as <-. destruct r as [|k r]; [congruence|].
    cbv zeta. match goal with |- (if ?b then _ else _) = _ => replace b with true end; [reflexivity|].
    symmetry. apply Z.ltb_lt.
    match goal with |- ((if ?b then ?x else ?y) < m)%Z => assert (x < 33 /\ y < 33)%Z by (split; vm_compute; reflexivity); destruct b; lia end.
Qed.
Lemma infix_end f m (e : tree hval) ts k r : ts = k :: r -> k = None \/ (exists x, k = Some (sym x)) ->
  parse_infix (S f) m e ts = POk e ts.
Proof. intros -> [->|(x & ->)]; reflexivity. Qed.

Lemma first_token : forall v ts t, spelled v ts t -> exists k r, ts = k :: r
  /\ t_kind k <> KCommand /\ forall x, In x ["]"; ")"; "}"] -> t_text k <> s_ x.
Proof.
  intros v ts t Sp. destruct Sp as [k s K T E v R Ev|u U E| |lo hi l r tl tr el er B1 B2 R1 R2 S1 S2|l ts es Sl].
  - exists (Tok k s), []. split; [reflexivity|]. split; [destruct K as [->|[->| ->]]; discriminate|].
    intros x I Ex. cbn [t_text] in Ex. clear E Ev R. subst s.
    destruct K as [->|[->| ->]]; cbn [token_text t_kind t_text] in T.
    + destruct (unsigned_chars _ T) as (_ & d & q' & Eq' & D).
      cbn in I. repeat (destruct I as [<-|I]; [injection Eq' as <- _; discriminate D|]). destruct I.
    + destruct T as (b & Eb & _). cbn in I. repeat (destruct I as [<-|I]; [discriminate|]). destruct I.
    + destruct T as (b & Eb & _). cbn in I. repeat (destruct I as [<-|I]; [discriminate|]). destruct I.
  - eexists _, _. split; [reflexivity|]. split; [discriminate|].
    intros x I. cbn in I. repeat (destruct I as [<-|I]; [discriminate|]). destruct I.
  - eexists _, _. split; [reflexivity|]. split; [discriminate|].
    intros x I. cbn in I. repeat (destruct I as [<-|I]; [discriminate|]). destruct I.
  - eexists _, _. split; [reflexivity|]. split; [discriminate|].
    intros x I. cbn in I. repeat (destruct I as [<-|I]; [discriminate|]). destruct I.
  - eexists _, _. split; [reflexivity|]. split; [discriminate|].
    intros x I. cbn in I. repeat (destruct I as [<-|I]; [discriminate|]). destruct I.
Qed.

Lemma head_not v ts t x rest : spelled v ts t -> In x ["]"; ")"; "}"] ->
  head_is (map Some ts ++ rest) x = false.
Proof.
  intros Sp I. destruct (first_token v ts t Sp) as (k & r & -> & _ & H). cbn [map Datatypes.app head_is].
  destruct (str_eqb (t_text k) (s_ x)) eqn:E; [|reflexivity]. apply str_eqb_eq in E. destruct (H x I E).
Qed.

(** Not an application with two operands. *)
Definition simple (t : tree hval) : Prop :=
  (exists k, t = TTok k) \/ exists o x, t = TApp o [x] /\ o_arity o = 1%nat /\ is_chain o = false.
Lemma bubble_simple o t : simple t -> is_chain o = false -> bubble o t = ([], (o, [t])).
Proof.
  intros [(k & ->)|(p & x & -> & A & C)] Co; [reflexivity|].
  unfold bubble. cbn [spine_depth bubble_fuel]. rewrite A, Co. reflexivity.
Qed.
Lemma bound_simple v ts t b : spelled v ts t -> bound_of v = Some b -> simple t.
Proof.
  intros Sp B. destruct Sp as [k s K T E v R Ev|u U E| |lo hi l r tl tr el er B1 B2 R1 R2 S1 S2|l ts es Sl];
    try discriminate B.
  - left. eauto.
  - right. eexists _, _. split; [vm_compute; reflexivity|]. split; reflexivity.
  - left. eauto.
Qed.

Lemma expr_end f m ts (t : tree hval) k r :
  (forall f', f <= f' -> parse_operand f' (map Some ts ++ k :: r) = POk t (k :: r)) ->
  m <> (-1)%Z -> ends (k :: r) -> (33 <= m)%Z -> forall f', S (S f) <= f' ->
  parse_expr f' m (map Some ts ++ k :: r) = POk t (k :: r).
Proof.
  intros H Nm En Lm f' Lf. destruct f' as [|[|f']]; try lia. rewrite parse_expr_eq, H by lia.
  cbn [pbind]. rewrite infix_stops by assumption. cbn [pbind].
  destruct (Z.eqb_spec m (-1)); [congruence|]. reflexivity.
Qed.

(** One item of a list display, up to its separator. *)
Lemma item_end f ts (t : tree hval) k r :
  (forall f', f <= f' -> parse_operand f' (map Some ts ++ k :: r) = POk t (k :: r)) ->
  k = None \/ (exists x, k = Some (sym x)) -> forall f', S (S f) <= f' ->
  parse_expr f' (-1) (map Some ts ++ k :: r) = POk t (if head_is (k :: r) ";" then r else k :: r).
Proof.
  intros H E f' Lf. destruct f' as [|[|f']]; try lia. rewrite parse_expr_eq, H by lia.
  cbn [pbind]. rewrite (infix_end f' _ t _ k r eq_refl E). cbn [pbind].
  rewrite Z.eqb_refl. cbn [andb]. destruct (head_is (k :: r) ";"); reflexivity.
Qed.

Lemma number_not u x : unsigned u -> In x ["*"; ":"] -> str_eqb u (s_ x) = false.
Proof.
  intros U I. destruct (unsigned_chars u U) as (_ & c & r & -> & D).
  apply not_true_is_false. intros E. apply str_eqb_eq in E. cbn in I.
  destruct I as [<-|[<-|[]]]; injection E as -> _; discriminate D.
Qed.

Lemma spelled_parses :
  (forall v ts t, spelled v ts t -> forall rest, ends rest -> forall f, 10 * length ts <= f ->
     parse_operand f (map Some ts ++ rest) = POk t rest)
  /\ (forall l ts es, spelled_all l ts es -> forall rest f, 10 * length ts + 5 <= f ->
     parse_until f "]" (map Some ts ++ Some (sym "]") :: rest) = POk es rest).
Proof.
  apply (spelled_both
    (fun v ts t _ => forall rest, ends rest -> forall f, 10 * length ts <= f ->
       parse_operand f (map Some ts ++ rest) = POk t rest)
    (fun l ts es _ => forall rest f, 10 * length ts + 5 <= f ->
     parse_until f "]" (map Some ts ++ Some (sym "]") :: rest) = POk es rest)).
  - intros k s K T E v R Ev rest En f L. cbn [length] in L. destruct f as [|f]; [lia|].
    cbn [map Datatypes.app]. rewrite parse_operand_eq. cbn [t_kind].
    destruct K as [->|[->| ->]]; try reflexivity. rewrite (E eq_refl). reflexivity.
  - intros u U E rest En f L. cbn [length] in L. destruct f as [|f]; [lia|].
    assert (Ex : parse_expr (V := hval) f 39 (map Some [Tok KNumber u] ++ rest) = POk (TTok (Tok KNumber u)) rest).
    { pose proof En as En'. destruct En' as (k & r & -> & _). apply (expr_end 1); try lia; [|exact En].
      intros f' Lf. destruct f' as [|f']; [lia|]. reflexivity. }
    cbn [map Datatypes.app] in Ex |- *. rewrite parse_operand_eq.
    change (t_kind (opt "-")) with KOperator. change (t_text (opt "-")) with (s_ "-").
    destruct (op_by_arity 1 (s_ "-")) as [o|] eqn:Eo; [|discriminate Eo].
    change (str_eqb (s_ "-") (s_ "(")) with false. change (str_eqb (s_ "-") (s_ "[")) with false.
    change (str_eqb (s_ "-") (s_ "{")) with false. change (str_eqb (s_ "-") (s_ "$")) with false.
    change (str_eqb (s_ "-") (s_ "\$")) with false. cbv iota zeta. cbn [orb head_is t_text].
    rewrite (number_not u "*") by (cbn; auto).
    cbn [head_is t_text]. rewrite (number_not u ":") by (cbn; auto).
    assert (P : (o_prec o + 1 = 39)%Z) by (vm_compute in Eo; injection Eo as <-; reflexivity).
    rewrite P, Ex. cbn [pbind]. unfold SpecVars.app. cbn [length]. rewrite Eo. reflexivity.
  - intros rest En f L. cbn [length] in L. do 3 (destruct f as [|f]; [lia|]). reflexivity.
  - intros lo hi l r tl tr el er B1 B2 R1 R2 S1 IH1 S2 IH2 rest En f L.
    cbn [length] in L. rewrite app_length in L. cbn [length] in L. rewrite app_length in L. cbn [length] in L.
    destruct f as [|f]; [lia|]. cbn [map Datatypes.app]. rewrite parse_operand_eq.
    change (t_kind (sym "(")) with KSymbol. change (str_eqb (t_text (sym "(")) (s_ "(")) with true. cbv iota.
    rewrite map_app. cbn [map]. rewrite map_app. cbn [map]. rewrite <- app_assoc. cbn [Datatypes.app].
    rewrite <- app_assoc. cbn [Datatypes.app].
    set (after := Some (sym ")") :: rest).
    set (body := map Some tl ++ Some (opt ",") :: map Some tr ++ after).
    assert (Er : ends after) by (apply ends_sym; cbn; auto).
    assert (Ec : ends (Some (opt ",") :: map Some tr ++ after)).
    { eexists _, _. split; [reflexivity|]. right. right. split; [reflexivity|]. destruct (map Some tr); discriminate. }
    assert (Ex : forall g, 10 * length tl + 10 * length tr + 4 <= g ->
              parse_expr g (-1) body = POk (SpecVars.app "," [el; er]) after).
    { intros g Lg. do 2 (destruct g as [|g]; [lia|]). rewrite parse_expr_eq. unfold body.
      rewrite (IH1 _ Ec) by lia. cbn [pbind].
      assert (I : parse_infix (S g) (-1) el (Some (opt ",") :: map Some tr ++ after) = POk (SpecVars.app "," [el; er]) after).
      { rewrite parse_infix_eq. change (t_kind (opt ",")) with KOperator. cbv iota.
        unfold SpecVars.app. cbn [length].
        destruct (op_by_arity 2 (s_ ",")) as [o|] eqn:Eo; [|discriminate Eo].
        assert (F : infix_op (opt ",") = Some o).
        { unfold infix_op. change (t_text (opt ",")) with (s_ ","). rewrite Eo. reflexivity. }
        rewrite F.
        destruct (first_token _ _ _ S2) as (k & q & Etr & _ & _).
        assert (HC : head_is (map Some tr ++ after) ":" = false).
        { clear -S2. destruct S2 as [k s K T E v R Ev|u U E| |lo' hi' l' r' tl' tr' el' er' B1' B2' R1' R2' S1' S2'|l' ts es Sl];
            try reflexivity. cbn [map Datatypes.app head_is t_text].
          apply not_true_is_false. intros X. apply str_eqb_eq in X. clear E Ev R. subst s.
          destruct K as [->|[->| ->]]; cbn [token_text t_kind t_text] in T.
          - destruct (unsigned_chars _ T) as (_ & d & q' & Eq' & D). injection Eq' as <- _. discriminate D.
          - destruct T as (b & Eb & _). discriminate.
          - destruct T as (b & Eb & _). discriminate. }
        destruct (map Some tr ++ after) as [|k0 q0] eqn:Em; [rewrite Etr in Em; discriminate Em|].
        cbv zeta. unfold second_is. rewrite HC.
        assert (Pr : (o_prec o <? -1)%Z = false /\ assoc_eqb (o_assoc o) AChain = false
                     /\ (o_arity o =? 3)%nat = false /\ is_chain o = false).
        { vm_compute in Eo. injection Eo as <-. vm_compute. auto. }
        destruct Pr as (P1 & P2 & P3 & P4). rewrite P1, P2.
        rewrite (bubble_simple o el (bound_simple _ _ _ _ S1 B1) P4). rewrite P3. cbn [pbind].
        rewrite <- Em, (IH2 _ Er) by lia. cbn [pbind rebuild fold_right Datatypes.app].
        destruct g as [|g]; [lia|]. apply (infix_end g _ _ after (Some (sym ")")) rest eq_refl). right. eauto. }
      rewrite I. reflexivity. }
    assert (U : parse_until f ")" body = POk [SpecVars.app "," [el; er]] rest).
    { do 2 (destruct f as [|f]; [lia|]). rewrite parse_until_eq.
      assert (Hb : head_is body ")" = false) by (apply (head_not _ _ _ _ _ S1); cbn; auto).
      destruct (first_token _ _ _ S1) as (k & q & Etl & _ & _).
      destruct body as [|k0 q0] eqn:Eb; [unfold body in Eb; rewrite Etl in Eb; discriminate Eb|].
      destruct k0 as [k0|]; [|unfold body in Eb; rewrite Etl in Eb; discriminate Eb].
      rewrite Hb, Ex by lia. cbn [pbind]. reflexivity. }
    rewrite U. reflexivity.
  - intros l ts es Sl IH rest En f L. cbn [length] in L. rewrite app_length in L. cbn [length] in L.
    destruct f as [|f]; [lia|]. cbn [map Datatypes.app]. rewrite parse_operand_eq.
    rewrite map_app, <- app_assoc. cbn [map Datatypes.app].
    change (t_kind (sym "[")) with KSymbol. change (str_eqb (t_text (sym "[")) (s_ "(")) with false.
    change (str_eqb (t_text (sym "[")) (s_ "[")) with true. cbv iota.
    rewrite IH by lia. reflexivity.
  - intros rest f L. destruct f as [|f]; [cbn in L; lia|]. reflexivity.
  - intros v ts e Sp IH rest f L. do 2 (destruct f as [|f]; [lia|]). rewrite parse_until_eq.
    rewrite (head_not _ _ _ "]" _ Sp) by (cbn; auto).
    assert (Ex : parse_expr (S f) (-1) (map Some ts ++ Some (sym "]") :: rest) = POk e (Some (sym "]") :: rest)).
    { apply (item_end (10 * length ts) ts e (Some (sym "]")) rest); [|right; eauto|lia].
      intros f' Lf. apply IH; [apply ends_sym; cbn; auto|exact Lf]. }
    destruct (first_token _ _ _ Sp) as (k & q & -> & _ & _). cbn [map Datatypes.app] in *.
    rewrite Ex. cbn [pbind]. reflexivity.
  - intros v ts e l tl es Sp IH Sl IHl N0 rest f L. rewrite app_length in L. cbn [length] in L.
    do 2 (destruct f as [|f]; [lia|]). rewrite parse_until_eq.
    rewrite map_app, <- app_assoc. cbn [map Datatypes.app].
    rewrite (head_not _ _ _ "]" _ Sp) by (cbn; auto).
    assert (Ex : parse_expr (S f) (-1) (map Some ts ++ Some (sym ";") :: map Some tl ++ Some (sym "]") :: rest)
                 = POk e (map Some tl ++ Some (sym "]") :: rest)).
    { apply (item_end (10 * length ts) ts e (Some (sym ";")) (map Some tl ++ Some (sym "]") :: rest)); [|right; eauto|lia].
      intros f' Lf. apply IH; [apply ends_sym; cbn; auto|exact Lf]. }
    destruct (first_token _ _ _ Sp) as (k & q & -> & _ & _). cbn [map Datatypes.app] in *.
    rewrite Ex. cbn [pbind]. rewrite IHl by lia. reflexivity.
Qed.

Lemma spelled_program v ts t : spelled v ts t ->
  parse_program (V := hval) (program ts) = POk [t] [None].
Proof.
  intros Sp. unfold parse_program, parse_fuel, program. rewrite app_length, map_length. cbn [length].
  assert (Ex : forall f, 10 * length ts + 2 <= f ->
            parse_expr f (-1) (map Some ts ++ [None]) = POk t [None]).
  { intros f L. apply (item_end (10 * length ts) ts t None []); [|left; reflexivity|lia].
    intros f' Lf. apply (proj1 spelled_parses v ts t Sp); [|exact Lf].
    eexists _, _. split; [reflexivity|left; reflexivity]. }
  destruct (first_token _ _ _ Sp) as (k & q & Ets & NC & NT).
  replace (10 * (length ts + 1) + 10)%nat with (S (S (10 * length ts + 18))) by lia.
  assert (EL : map Some ts ++ [None] = Some k :: map Some q ++ [None]) by (rewrite Ets; reflexivity).
  rewrite EL in Ex |- *. rewrite parse_eq.
  destruct (str_eqb (t_text k) (s_ "}")) eqn:Eb; [apply str_eqb_eq in Eb; destruct (NT "}" ltac:(cbn; auto) Eb)|].
  replace (10 * length ts + 18)%nat with (S (10 * length ts + 17)) by lia.
  rewrite parse_statement_eq. cbv zeta.
  assert (X : forall A (x y : A), match t_kind k with KCommand => x | _ => y end = y)
    by (intros; destruct (t_kind k); congruence).
  rewrite X. rewrite Ex by lia. cbn [pbind head_is]. reflexivity.
Qed.

(** ** Meaning *)

Lemma spelled_meanings s :
  (forall v ts t, spelled v ts t -> means s t v)
  /\ (forall l ts es, spelled_all l ts es -> Forall2 (means s) es l).
Proof.
  apply (spelled_both (fun v ts t _ => means s t v) (fun l ts es _ => Forall2 (means s) es l)).
  - intros k x K T E v R Ev. apply means_literal; [|cbn|exact Ev].
    + destruct K as [->|[->| ->]]; reflexivity.
    + destruct K as [->|[->| ->]]; discriminate.
  - intros u U E. apply (means_app s "-" [TTok (Tok KNumber u)] [PScal u]).
    + eexists. split; [vm_compute; reflexivity|]. constructor; vm_compute; reflexivity.
    + constructor; [|constructor]. apply means_literal; [reflexivity|discriminate|reflexivity].
    + apply E.
  - apply means_literal; [reflexivity|discriminate|reflexivity].
  - intros lo hi l r tl tr el er B1 B2 R1 R2 S1 M1 S2 M2. apply means_parens.
    apply (means_app s "," [el; er] [l; r]).
    + eexists. split; [vm_compute; reflexivity|]. constructor; vm_compute; reflexivity.
    + constructor; [exact M1|]. constructor; [exact M2|constructor].
    + clear -B1 B2.
      destruct l as [x| | | | |]; try discriminate B1; destruct r as [y| | | | |]; try discriminate B2;
      RunOp.run_plain; unfold op_RANGE; cbn [bound_of] in *; congruence || (injection B1 as <-; injection B2 as <-; reflexivity).
  - intros l ts es Sl M. apply means_display. exact M.
  - constructor.
  - intros v ts e Sp M. constructor; [exact M|constructor].
  - intros v ts e l tl es Sp M Sl Ml N0. constructor; assumption.
Qed.

Lemma spelled_expr v ts t : spelled v ts t -> tree_is_expr t = true.
Proof.
  intros Sp. destruct Sp as [k s K T E v R Ev|u U E| |lo hi l r tl tr el er B1 B2 R1 R2 S1 S2|l ts es Sl];
    try reflexivity.
  destruct K as [->|[->| ->]]; reflexivity.
Qed.

(** ** The operators RP and V *)

Lemma tree_text text ts ig (t : tree hval) s :
  scan (text ++ [c_nl]) = ScanOk ts ig -> parse_program (V := hval) ts = POk [t] [None] ->
  tree_of_text text s = Ok [t] s.
Proof. intros E P. unfold tree_of_text. rewrite E, P. reflexivity. Qed.

(** A text that is one expression is evaluated as if the expression stood in
    its place. *)
Lemma eval_text s e w s1 text ts ig b v s2 :
  gives s e w s1 -> den (st_heap s1) w (PScal text) ->
  scan (text ++ [c_nl]) = ScanOk ts ig -> parse_program (V := hval) ts = POk [b] [None] ->
  tree_is_expr b = true -> gives s1 b v s2 -> gives s (SpecVars.app "V" [e]) v s2.
Proof.
  intros [n E] D Sc P X G. apply VarProof.gives_evals in G. destruct G as (x & s3 & [m Eb] & Er).
  apply VarProof.gives_evals. exists x, s3. split; [|exact Er].
  unfold SpecVars.app. cbn [length]. destruct (op_by_arity 1 (s_ "V")) as [o|] eqn:Eo; [|discriminate Eo].
  assert (F : o_fun o = F_EVAL /\ MainProof.plain_rvals o = true)
    by (vm_compute in Eo; injection Eo as <-; split; reflexivity).
  destruct F as [F Pl]. exists (S (S (max n m))). rewrite VarProof.eval_app_eq. cbn [map].
  rewrite (MainProof.eval_op_read (run (max n m)) o e s w s1 Pl).
  - apply VarProof.catch_ok. rewrite F.
    change (EVAL (run (max n m)) w None s1 = Ok x s3).
    inversion D as [l t' El Et| | | | |]; subst. unfold EVAL.
    assert (Ls : load_str l s1 = Ok text s1).
    { unfold load_str, load, mbind. rewrite El. reflexivity. }
    assert (L2 : (sx <- load_str l;; sts <- tree_of_text sx;; mret (mk_block sts)) s1 = Ok (HBlock [] b) s1).
    { rewrite (VarProof.bind_step _ _ _ _ _ Ls). rewrite (VarProof.bind_step _ _ _ _ _ (tree_text _ _ _ _ _ Sc P)).
      unfold mk_block. cbn [rev Datatypes.app]. rewrite X. reflexivity. }
    rewrite (VarProof.bind_step _ _ _ _ _ L2).
    apply (VarProof.more_eval m); [lia|exact Eb|discriminate].
  - apply (VarProof.more_rval n); [lia|exact E|discriminate].
Qed.

Lemma repr_scanned v w : readable v -> Forall (fun c => c = 10%N) w ->
  exists ts t, scan (p_repr v ++ w) = ScanOk (program ts) []
    /\ parse_program (V := hval) (program ts) = POk [t] [None]
    /\ tree_is_expr t = true /\ forall s, means s t v.
Proof.
  intros Rv F. destruct (readable_spelled v Rv) as (ts & t & Sp). exists ts, t.
  split; [apply (spelled_scan v ts t w Sp F)|]. split; [apply (spelled_program v ts t Sp)|].
  split; [apply (spelled_expr v ts t Sp)|]. intros s. apply (proj1 (spelled_meanings s) v ts t Sp).
Qed.

Lemma repr_means s e v : means s e v -> means s (SpecVars.app "RP" [e]) (PScal (p_repr v)).
Proof.
  intros M. apply (means_app s "RP" [e] [v]).
  - eexists. split; [vm_compute; reflexivity|]. constructor; vm_compute; reflexivity.
  - constructor; [exact M|constructor].
  - RunOp.run_plain; destruct v; reflexivity.
Qed.

Lemma adds_trans s1 s2 s3 : only_adds s1 s2 -> only_adds s2 s3 -> only_adds s1 s3.
Proof.
  intros (A1 & A2 & A3 & A4 & A5 & A6 & A7 & A8 & A9 & A10 & A10r & (t & A11) & (w & A12))
         (B1 & B2 & B3 & B4 & B5 & B6 & B7 & B8 & B9 & B10 & B10r & (t' & B11) & (w' & B12)).
  repeat split; try congruence.
  - exists (t ++ t'). rewrite B11, A11, app_assoc. reflexivity.
  - exists (w ++ w'). rewrite B12, A12, app_assoc. reflexivity.
Qed.

Lemma repr_evaluated s e v : means s e v -> readable v ->
  exists w s', gives s (SpecVars.app "V" [SpecVars.app "RP" [e]]) w s'
    /\ den (st_heap s') w v /\ only_adds s s'.
Proof.
  intros M Rv. destruct (repr_scanned v [c_nl] Rv ltac:(constructor; [reflexivity|constructor]))
    as (ts & t & Sc & P & X & Mt).
  destruct (PureProof.means_gives _ _ _ (repr_means s e v M)) as (w1 & s1 & G1 & D1 & A1).
  destruct (PureProof.means_gives _ _ _ (Mt s1)) as (w & s2 & G2 & D2 & A2).
  exists w, s2. split; [apply (eval_text s _ w1 s1 (p_repr v) (program ts) [] t w s2 G1 D1 Sc P X G2)|].
  split; [exact D2|]. apply (adds_trans _ _ _ A1 A2).
Qed.

(** ** V in general *)

Lemma expression_expr b : expression b -> tree_is_expr b = true.
Proof.
  intros [(o & args & ->)|(k & -> & I)]; [reflexivity|]. cbn.
  cbn in I. repeat (destruct I as [<-|I]; [reflexivity|]). destruct I.
Qed.
Lemma block_expression front b : expression b -> mk_block (front ++ [b]) = HBlock front b.
Proof.
  intros X. unfold mk_block. rewrite rev_app_distr. cbn [rev Datatypes.app].
  rewrite (expression_expr b X), rev_involutive. reflexivity.
Qed.
Lemma block_command sts : sts = [] \/ (exists front b, sts = front ++ [b] /\ a_command b) ->
  mk_block sts = HBlock sts (TVal HNil).
Proof.
  intros [->|(front & b & -> & c & args & ->)]; [reflexivity|].
  unfold mk_block. rewrite rev_app_distr. reflexivity.
Qed.

Lemma eval_read s e w s1 text :
  gives s e w s1 -> den (st_heap s1) w (PScal text) -> forall sts, tree_of_text text s1 = Ok sts s1 ->
  forall x s', VarProof.evals s (SpecVars.app "V" [e]) x s'
  <-> exists st b, mk_block sts = HBlock st b
      /\ LoopProof.ends (fun R => mfor (i_stmt R) st;; i_eval R b) s1 x s'.
Proof.
  intros [n E] D sts T x s'. unfold SpecVars.app. cbn [length].
  destruct (op_by_arity 1 (s_ "V")) as [o|] eqn:Eo; [|discriminate Eo].
  assert (F : o_fun o = F_EVAL /\ MainProof.plain_rvals o = true)
    by (vm_compute in Eo; injection Eo as <-; split; reflexivity).
  destruct F as [F Pl]. rewrite VarProof.evals_app.
  assert (Eq : forall R, call_fun R (o_fun o) [AVal (XR w)] s1
               = match mk_block sts with HBlock st b => (mfor (i_stmt R) st;; i_eval R b) s1 | _ => xwarn "EVAL" s1 end).
  { intros R. rewrite F. change (call_fun R F_EVAL [AVal (XR w)] s1) with (EVAL R w None s1).
    inversion D as [l t' El Et| | | | |]; subst. unfold EVAL.
    assert (Ls : load_str l s1 = Ok text s1) by (unfold load_str, load, mbind; rewrite El; reflexivity).
    assert (L2 : (sx <- load_str l;; sts <- tree_of_text sx;; mret (mk_block sts)) s1 = Ok (mk_block sts) s1).
    { rewrite (VarProof.bind_step _ _ _ _ _ Ls). rewrite (VarProof.bind_step _ _ _ _ _ T). reflexivity. }
    rewrite (VarProof.bind_step _ _ _ _ _ L2). destruct (mk_block sts); reflexivity. }
  assert (B : exists st b, mk_block sts = HBlock st b).
  { unfold mk_block. destruct (rev sts) as [|y r]; [eauto|]. destruct (tree_is_expr y); eauto. }
  destruct B as (st & b & B). rewrite B in Eq.
  assert (St : LoopProof.steady (fun R => mfor (i_stmt R) st;; i_eval R b)).
  { apply (LoopProof.steady_bind (fun R => mfor (i_stmt R) st) (fun R _ => i_eval R b)).
    - apply LoopProof.steady_body.
    - intros _. apply LoopProof.steady_eval. }
  split.
  - intros [m Ev]. exists st, b. split; [exact B|]. exists (max n m).
    assert (Ev' : eval_op (run (max n m)) o (map ATree [e]) s = Ok x s').
    { apply (LoopProof.more_ends (fun R => eval_op R o (map ATree [e])) m); [|lia|exact Ev].
      intros R R' H. apply (ExecRel.r_eval_op _ ExecInv.le_fuel_closed _ _ H). }
    cbn [map] in Ev'. rewrite (MainProof.eval_op_read (run (max n m)) o e s w s1 Pl) in Ev'.
    + apply (proj1 (VarProof.catch_ok _ _ _ _)) in Ev'. rewrite Eq in Ev'. exact Ev'.
    + apply (VarProof.more_rval n); [lia|exact E|discriminate].
  - intros (st' & b' & B' & [m Ev]). rewrite B in B'. injection B' as <- <-.
    exists (max n m). cbn [map]. rewrite (MainProof.eval_op_read (run (max n m)) o e s w s1 Pl).
    + apply VarProof.catch_ok. rewrite Eq. apply (LoopProof.more_ends _ m _ _ _ _ St); [lia|exact Ev].
    + apply (VarProof.more_rval n); [lia|exact E|discriminate].
Qed.

Lemma eval_value s e w s1 text :
  gives s e w s1 -> den (st_heap s1) w (PScal text) -> forall sts, tree_of_text text s1 = Ok sts s1 ->
  Forall (fun t => expression t \/ a_command t) sts ->
  forall v s', gives s (SpecVars.app "V" [e]) v s' <-> value_of_code s1 sts v s'.
Proof.
  intros G D sts T Fs v s'. rewrite VarProof.gives_evals.
  assert (Split : forall st b x s3, LoopProof.ends (fun R => mfor (i_stmt R) st;; i_eval R b) s1 x s3
           <-> exists s2, does st s1 s2 /\ VarProof.evals s2 b x s3).
  { intros st b x s3.
    rewrite (LoopProof.ends_bind (fun R => mfor (i_stmt R) st) (fun R _ => i_eval R b));
      [|apply LoopProof.steady_body|intros _; apply LoopProof.steady_eval].
    split.
    - intros ([] & s2 & E1 & E2). exists s2. split; [apply LoopProof.ends_body; exact E1|exact E2].
    - intros (s2 & E1 & E2). exists tt, s2. split; [apply LoopProof.ends_body; exact E1|exact E2]. }
  assert (Hn : forall st x s3, LoopProof.ends (fun R => mfor (i_stmt R) st;; i_eval R (TVal HNil)) s1 x s3
           <-> x = XR HNil /\ does st s1 s3).
  { intros st x s3. rewrite Split. split.
    - intros (s2 & Ds & [[|n] E]); [discriminate E|]. injection E as <- <-. auto.
    - intros [-> Ds]. exists s3. split; [exact Ds|]. exists 1%nat. reflexivity. }
  split.
  - intros (x & s3 & Ev & Rx). apply (eval_read s e w s1 text G D sts T) in Ev.
    destruct Ev as (st & b & B & En).
    destruct (rev sts) as [|y r] eqn:Er.
    + assert (Es : sts = []) by (rewrite <- (rev_involutive sts), Er; reflexivity).
      rewrite (block_command sts (or_introl Es)) in B. injection B as <- <-. apply Hn in En.
      destruct En as [-> Ds]. injection Rx as <- <-. right. auto.
    + assert (Es : sts = rev r ++ [y]) by (rewrite <- (rev_involutive sts), Er; reflexivity).
      assert (Y : expression y \/ a_command y).
      { rewrite Forall_forall in Fs. apply Fs. rewrite Es. apply in_or_app. right. left. reflexivity. }
      destruct Y as [Y|Y].
      * rewrite Es, (block_expression _ _ Y) in B. injection B as <- <-. apply Split in En.
        destruct En as (s2 & Ds & Eb). left. exists (rev r), y, s2. split; [exact Es|]. split; [exact Y|].
        split; [exact Ds|]. apply VarProof.gives_evals. eauto.
      * assert (Z0 : sts = [] \/ exists front b, sts = front ++ [b] /\ a_command b) by (right; eauto).
        rewrite (block_command sts Z0) in B. injection B as <- <-. apply Hn in En.
        destruct En as [-> Ds]. injection Rx as <- <-. right. auto.
  - intros [(front & b & s2 & -> & X & Ds & Gb)|(Z0 & -> & Ds)].
    + apply VarProof.gives_evals in Gb. destruct Gb as (x & s3 & Eb & Rx). exists x, s3. split; [|exact Rx].
      apply (eval_read s e w s1 text G D _ T). exists front, b. split; [apply block_expression; exact X|].
      apply Split. eauto.
    + exists (XR HNil), s'. split; [|reflexivity].
      apply (eval_read s e w s1 text G D _ T). exists sts, (TVal HNil). split; [apply block_command; exact Z0|].
      apply Hn. auto.
Qed.

(** Every statement the parser produces is an expression or a command. *)
Lemma escaped_expression t : t_kind t = KEscString -> expression (parse_escaped t).
Proof.
  intros K. unfold parse_escaped. destruct (interp_split _ _) as [lit more].
  assert (T : expression (TTok t)) by (right; exists t; rewrite K; cbn; auto 10).
  destruct more; [exact T|].
  destruct (op_by_arity 1 (s_ "ST")); [|exact T]. destruct (op_by_arity 1 (s_ "J")); [|exact T].
  left. eauto.
Qed.
Lemma operand_expression f ts (t : tree hval) r : parse_operand f ts = POk t r -> expression t.
Proof.
  destruct f as [|f]; [discriminate|]. rewrite parse_operand_eq.
  destruct ts as [|[k|] ts]; try discriminate.
  assert (U : forall op (a b : toklist) (x : tree hval) r',
    pbind (parse_expr f (o_prec op + 1) a) (fun x ts5 => POk (TApp op [x]) ts5) = POk x r' -> expression x).
  { intros op a b x r' H. destruct (parse_expr f (o_prec op + 1) a) as [y q|]; [|discriminate].
    injection H as <- _. left. eauto. }
  destruct (t_kind k) eqn:K;
    try (intros H; injection H as <- _; right; exists k; rewrite K; cbn; auto 10; fail);
    try (intros H; injection H as <- _; apply escaped_expression; exact K).
  all: (destruct (str_eqb (t_text k) (s_ "("));
    [destruct (parse_until f ")" ts) as [[|x [|y l]] q|]; cbn [pbind]; intros H; try discriminate;
     injection H as <- _; [right; eexists; split; [reflexivity|cbn; auto 10]|left; eauto|left; eauto]|]).
  all: (destruct (str_eqb (t_text k) (s_ "["));
    [destruct (parse_until f "]" ts) as [l q|]; cbn [pbind]; intros H; try discriminate;
     injection H as <- _; left; eauto|]).
  all: (destruct (str_eqb (t_text k) (s_ "{"));
    [match goal with |- pbind ?m _ = _ -> _ => destruct m as [l q|] end; cbn [pbind]; intros H; try discriminate;
     injection H as <- _; left; eauto|]).
  all: cbv zeta; destruct (str_eqb (t_text k) (s_ "$") || str_eqb (t_text k) (s_ "\$")).
  all: try (destruct ts as [|[k1|] ts]; try discriminate; destruct (op_by_arity 2 (t_text k1)) as [op|]; [|discriminate]);
       try (destruct (op_by_arity 1 (t_text k)) as [op|]; [|discriminate]).
  all: cbv iota.
  all: match goal with |- context [match ?l with [] => PErr PIndexError | _ :: _ => _ end] => destruct l as [|k2 ts2]; [discriminate|] end.
  all: destruct (head_is _ "*"); cbv iota beta.
  all: match goal with |- context [match ?l with [] => PErr PIndexError | _ :: _ => _ end] => destruct l as [|k3 ts3]; [discriminate|] end || idtac.
  all: destruct (head_is _ ":"); cbv iota beta.
  all: intros H; apply U in H; [exact H|exact []].
Qed.
Lemma infix_expression f : forall m e ts (t : tree hval) r,
  expression e -> parse_infix f m e ts = POk t r -> expression t.
Proof.
  induction f as [|f IH]; intros m e ts t r X; [discriminate|]. rewrite parse_infix_eq.
  assert (Done : forall r', POk e r' = POk t r -> expression t) by (intros r' H; injection H as <- _; exact X).
  destruct ts as [|[k|] ts]; [discriminate| |apply Done].
  destruct (t_kind k); try apply Done.
  destruct (infix_op k) as [op|]; [|apply Done]. destruct ts as [|k1 ts]; [discriminate|].
  cbv zeta. match goal with |- (if ?b then _ else _) = _ -> _ => destruct b; [apply Done|] end.
  match goal with |- (let '(_, _) := ?p in _) = _ -> _ => destruct p as [op' ts2] end.
  match goal with |- (let '(_, _) := ?p in _) = _ -> _ => destruct p as [spine [aop aargs]] end.
  match goal with |- pbind ?m _ = _ -> _ => destruct m as [mid ts3|]; [|discriminate] end. cbn [pbind].
  destruct (parse_operand f ts3) as [x ts4|]; [|discriminate]. cbn [pbind]. intros H.
  apply (IH _ _ _ _ _) in H; [exact H|].
  destruct spine as [|[o front] spine]; left; cbn; eauto.
Qed.
Lemma statement_kind f ts (t : tree hval) r : parse_statement f ts = POk t r -> expression t \/ a_command t.
Proof.
  destruct f as [|f]; [discriminate|]. rewrite parse_statement_eq. cbv zeta.
  destruct ts as [|[k|] ts]; try discriminate.
  assert (E : forall F, pbind (parse_expr f (-1) (Some k :: ts)) F = POk t r ->
     (forall a b, F a b = POk t r -> t = a) -> expression t).
  { intros F H HF. destruct (parse_expr f (-1) (Some k :: ts)) as [e q|] eqn:Ee; [|discriminate].
    cbn [pbind] in H. apply HF in H. subst e. destruct f as [|f]; [discriminate|]. rewrite parse_expr_eq in Ee.
    destruct (parse_operand f (Some k :: ts)) as [e1 q1|] eqn:E1; [|discriminate]. cbn [pbind] in Ee.
    destruct (parse_infix f (-1) e1 q1) as [e2 q2|] eqn:E2; [|discriminate]. cbn [pbind] in Ee.
    assert (e2 = t) as -> by (destruct q2; [discriminate|]; destruct (_ && _); injection Ee as <- _; reflexivity).
    apply (infix_expression _ _ _ _ _ _ (operand_expression _ _ _ _ E1) E2). }
  destruct (t_kind k);
    try (intros H; left; apply (E _ H); intros a b Hab; destruct b; [discriminate|];
         destruct (head_is _ _); injection Hab as <- _; reflexivity).
  destruct (command_of (t_text k)) as [c|]; [|discriminate].
  destruct (parse_args f (c_args c) ts) as [args q|]; [|discriminate]. cbn [pbind].
  destruct q; [discriminate|]. intros H. right. exists c, args.
  destruct (head_is _ _); injection H as <- _; reflexivity.
Qed.
Lemma statements_kind f : forall ts (sts : list (tree hval)) r, parse f ts = POk sts r ->
  Forall (fun t => expression t \/ a_command t) sts.
Proof.
  induction f as [|f IH]; intros ts sts r; [discriminate|]. rewrite parse_eq.
  destruct ts as [|[k|] ts]; [discriminate| |intros H; injection H as <- _; constructor].
  destruct (str_eqb _ _); [intros H; injection H as <- _; constructor|].
  destruct (parse_statement f _) as [st q|] eqn:E1; [|discriminate]. cbn [pbind].
  destruct (parse f q) as [l q2|] eqn:E2; [|discriminate]. cbn [pbind]. intros H. injection H as <- _.
  constructor; [exact (statement_kind _ _ _ _ E1)|exact (IH _ _ _ E2)].
Qed.

Theorem eval_code s e w s1 text ts ig sts rest :
  gives s e w s1 -> den (st_heap s1) w (PScal text) ->
  scan (text ++ [c_nl]) = ScanOk ts ig -> parse_program ts = POk sts rest ->
  forall v s', gives s (SpecVars.app "V" [e]) v s' <-> value_of_code s1 sts v s'.
Proof.
  intros G D Sc P. apply (eval_value s e w s1 text G D).
  - unfold tree_of_text. rewrite Sc, P. reflexivity.
  - apply (statements_kind _ _ _ _ P).
Qed.

Lemma eval_bad s e w s1 text :
  gives s e w s1 -> den (st_heap s1) w (PScal text) ->
  (forall ts ig, scan (text ++ [c_nl]) = ScanOk ts ig ->
     exists x, parse_program (V := hval) ts = PErr x /\ x <> PIndexError) ->
  fails s (SpecVars.app "V" [e]) EFatal s1.
Proof.
  intros [n E] D Bad. unfold SpecVars.app. cbn [length].
  destruct (op_by_arity 1 (s_ "V")) as [o|] eqn:Eo; [|discriminate Eo].
  assert (F : o_fun o = F_EVAL /\ MainProof.plain_rvals o = true)
    by (vm_compute in Eo; injection Eo as <-; split; reflexivity).
  destruct F as [F Pl]. apply VarProof.fails_evals; [discriminate|]. left. exists (S (S n)).
  rewrite VarProof.eval_app_eq. cbn [map]. rewrite (MainProof.eval_op_read (run n) o e s w s1 Pl E).
  assert (T : tree_of_text text s1 = Err EFatal s1).
  { unfold tree_of_text. destruct (scan (text ++ [c_nl])) as [ts ig| |] eqn:Sc; try reflexivity.
    destruct (Bad ts ig eq_refl) as (x & -> & NI). destruct x; try reflexivity. destruct (NI eq_refl). }
  assert (Eq : call_fun (run n) (o_fun o) [AVal (XR w)] s1 = Err EFatal s1).
  { rewrite F. change (call_fun (run n) F_EVAL [AVal (XR w)] s1) with (EVAL (run n) w None s1).
    inversion D as [l t' El Et| | | | |]; subst. unfold EVAL.
    assert (Ls : load_str l s1 = Ok text s1) by (unfold load_str, load, mbind; rewrite El; reflexivity).
    assert (L2 : (sx <- load_str l;; sts <- tree_of_text sx;; mret (mk_block sts)) s1 = Err EFatal s1).
    { rewrite (VarProof.bind_step _ _ _ _ _ Ls). rewrite (VarProof.bind_err _ _ _ _ _ T). reflexivity. }
    rewrite (VarProof.bind_err _ _ _ _ _ L2). reflexivity. }
  unfold catch_type. rewrite Eq. reflexivity.
Qed.

Lemma numeric_dec s : numeric s \/ ~ numeric s.
Proof.
  rewrite <- as_number_numeric. destruct (as_number s) as [[|c r]|].
  - left. reflexivity.
  - right. discriminate.
  - right. discriminate.
Qed.
