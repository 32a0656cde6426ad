(** * Splitting a text at its interpolated names *)

From Coq Require Import String List NArith ZArith Bool Arith Lia.
From Verif Require Import PyStr StrFacts Tokens OpTable Parse SpecRepr SpecGrammar.
Import ListNotations.
Local Open Scope string_scope.
Local Open Scope list_scope.
Local Open Scope N_scope.

Lemma name_letter_false c : name_letter c = false -> is_lower c = false /\ is_upper c = false /\ N.eqb c 95 = false.
Proof. unfold name_letter. intros H. apply orb_false_elim in H. destruct H as [H H2]. apply orb_false_elim in H. tauto. Qed.

Lemma plain_nil : plain_text [].
Proof. intros a c b E. destruct a; discriminate E. Qed.

Lemma plain_tail c s : plain_text (c :: s) -> plain_text s.
Proof. intros P a d b E. apply (P (c :: a) d b). rewrite E. reflexivity. Qed.

(** Adding a character at the end. *)
Lemma plain_snoc s c : plain_text s -> (forall a, s = a ++ [92] -> name_letter c = false) -> plain_text (s ++ [c]).
Proof.
  intros P L a d b E. destruct b as [|x b] using rev_ind.
  - change (s ++ [c] = a ++ [92; d]) in E. change (a ++ [92; d]) with (a ++ [92] ++ [d]) in E.
    rewrite app_assoc in E. apply app_inj_tail in E. destruct E as [-> ->]. apply (L a). reflexivity.
  - clear IHb. apply (P a d b). change (a ++ 92 :: d :: b ++ [x]) with (a ++ (92 :: d :: b) ++ [x]) in E.
    rewrite app_assoc in E. apply app_inj_tail in E. tauto.
Qed.

Lemma split_plain s : plain_text s -> forall cur t, (t = [] \/ exists u, t = 92 :: u) ->
  interp_split cur (s ++ t) = interp_split (cur ++ s) t.
Proof.
  induction s as [|c s IH]; intros P cur t T; [rewrite app_nil_r; reflexivity|].
  specialize (IH (plain_tail _ _ P) (cur ++ [c]) t T). rewrite <- app_assoc in IH. cbn [app] in *.
  rewrite <- IH. clear IH. cbn [interp_split]. unfold c_backslash. destruct (N.eqb c 92) eqn:E; [|reflexivity].
  apply N.eqb_eq in E. subst c. destruct s as [|d s].
  - cbn [app]. destruct T as [->|(u & ->)]; reflexivity.
  - cbn [app]. destruct (name_letter_false d (P [] d s eq_refl)) as (A & B & C).
    rewrite A, B, C. reflexivity.
Qed.

Lemma template_split s lit more : template s lit more -> forall cur, interp_split cur s = (cur ++ lit, more).
Proof.
  induction 1 as [s P|s n s1 lit more P N T IH]; intro cur.
  - pose proof (split_plain s P cur [] (or_introl eq_refl)) as X. rewrite app_nil_r in X. rewrite X. reflexivity.
  - rewrite (split_plain s P cur) by eauto. cbn [interp_split]. unfold c_backslash. rewrite N.eqb_refl.
    destruct N as [c s0 L|c s0 U M|c d s0 U W]; cbn [app].
    + assert (X : is_lower c || N.eqb c 95 = true).
      { apply orb_true_iff. rewrite N.eqb_eq. exact L. }
      rewrite X, (IH []). reflexivity.
    + assert (X : is_lower c || N.eqb c 95 = false).
      { unfold is_lower, is_upper in *. apply andb_prop in U. destruct U as [U1 U2].
        apply N.leb_le in U1, U2. apply orb_false_iff. rewrite andb_false_iff, !N.leb_gt, N.eqb_neq. lia. }
      rewrite X, U. destruct s0 as [|d s0].
      * specialize (IH []). cbn in IH. injection IH as <- <-. reflexivity.
      * rewrite (M d s0 eq_refl), (IH []). reflexivity.
    + assert (X : is_lower c || N.eqb c 95 = false).
      { unfold is_lower, is_upper in *. apply andb_prop in U. destruct U as [U1 U2].
        apply N.leb_le in U1, U2. apply orb_false_iff. rewrite andb_false_iff, !N.leb_gt, N.eqb_neq. lia. }
      rewrite X, U, W, (IH []). reflexivity.
Qed.

Lemma split_template : forall n s cur lit more, (length s <= n)%nat -> plain_text cur ->
  (forall a c s', cur = a ++ [92] -> s = c :: s' -> name_letter c = false) ->
  interp_split cur s = (lit, more) -> template (cur ++ s) lit more.
Proof.
  induction n as [|n IH]; intros s cur lit more L P C H.
  { destruct s; [|cbn in L; lia]. injection H as <- <-. rewrite app_nil_r. constructor. exact P. }
  destruct s as [|c s]; [injection H as <- <-; rewrite app_nil_r; constructor; exact P|].
  cbn [length] in L. cbn [interp_split] in H. unfold c_backslash in H. destruct (N.eqb c 92) eqn:E.
  - apply N.eqb_eq in E. subst c. destruct s as [|d s].
    + injection H as <- <-. constructor. apply plain_snoc; [exact P|]. intros a X. apply (C a 92 [] X eq_refl).
    + assert (NM : forall nm s1, d :: s = nm ++ s1 -> name_before nm s1 -> (length s1 <= n)%nat ->
        (let '(lit, more) := interp_split [] s1 in (cur, (nm, lit) :: more)) = (lit, more) ->
        template (cur ++ 92 :: d :: s) lit more).
      { intros nm s1 EQ NB LL HH. destruct (interp_split [] s1) as [lit1 more1] eqn:S1.
        injection HH as <- <-. rewrite EQ. apply tm_name; auto.
        apply (IH s1 []); auto using plain_nil. intros a x y Z. destruct a; discriminate Z. }
      cbn [length] in L. destruct (is_lower d || N.eqb d 95) eqn:LD.
      { apply (NM [d] s); auto; [|lia]. constructor. apply orb_prop in LD. rewrite N.eqb_eq in LD. exact LD. }
      destruct (is_upper d) eqn:UD.
      { destruct s as [|e s].
        - injection H as <- <-. change (cur ++ [92; d]) with (cur ++ 92 :: [d] ++ []). apply tm_name; auto.
          + apply nb_upper; [exact UD|intros; discriminate].
          + constructor. exact plain_nil.
        - destruct (is_upper e) eqn:UE.
          + apply (NM [d; e] s); auto; [|cbn in L; lia]. apply nb_two; auto.
          + apply (NM [d] (e :: s)); auto; [|lia]. apply nb_upper; [exact UD|]. intros x y Z. injection Z as <- _. exact UE. }
      change (cur ++ 92 :: d :: s) with (cur ++ [92] ++ d :: s). rewrite app_assoc.
      apply IH; auto; [cbn; lia| |].
      * apply plain_snoc; [exact P|]. intros a X. apply (C a 92 (d :: s) X eq_refl).
      * intros a x y _ Z. injection Z as <- _. unfold name_letter. apply orb_false_elim in LD. destruct LD as [-> ->].
        rewrite UD. reflexivity.
  - change (cur ++ c :: s) with (cur ++ [c] ++ s). rewrite app_assoc. apply IH; auto; [lia| |].
    + apply plain_snoc; [exact P|]. intros a X. apply (C a c s X eq_refl).
    + intros a x y X _. apply app_inj_tail in X. destruct X as [_ ->]. discriminate E.
Qed.

Lemma slice_inner {A} (p q l : list A) : (0 < length q)%nat ->
  py_slice (Some (Z.of_nat (length p))) (Some (- Z.of_nat (length q))%Z) (p ++ l ++ q) = l.
Proof.
  intros Lq. unfold py_slice, clamp_bound, zlen. cbv zeta. rewrite !app_length.
  assert (E1 : forall a : Z, (a = Z.of_nat (length p)) -> skipn (Z.to_nat a) (p ++ l ++ q) = l ++ q).
  { intros a ->. rewrite Nat2Z.id, skipn_app, skipn_all, Nat.sub_diag. reflexivity. }
  rewrite E1.
  - match goal with |- firstn ?k _ = _ => replace k with (length l) end.
    + rewrite firstn_app, Nat.sub_diag, firstn_all. apply app_nil_r.
    + repeat match goal with |- context[Z.ltb ?a ?b] => destruct (Z.ltb_spec a b) end; lia.
  - repeat match goal with |- context[Z.ltb ?a ?b] => destruct (Z.ltb_spec a b) end; lia.
Qed.
Lemma slice_escaped s : py_slice (Some 2%Z) (Some (-2)%Z) (t_text (escaped s)) = s.
Proof. exact (slice_inner [92; 34] [92; 34] s ltac:(cbn; lia)). Qed.

Lemma escaped_interpolated {V} s (e : tree V) :
  interpolated (escaped s) e <-> parse_escaped (escaped s) = e.
Proof.
  unfold parse_escaped. rewrite slice_escaped.
  destruct (interp_split [] s) as [lit more] eqn:S.
  assert (T : template s lit more).
  { apply (split_template (length s) s []); auto using plain_nil. intros a c s' X. destruct a; discriminate X. }
  destruct (op_by_arity 1 (s_ "ST")) as [so|] eqn:SO; [|discriminate SO].
  destruct (op_by_arity 1 (s_ "J")) as [jo|] eqn:JO; [|discriminate JO].
  split.
  - intros I. inversion I as [s0 T0 EQ|s0 lit0 n l more0 so' jo' T0 SO' JO' EQ]; subst.
    + assert (s0 = s).
      { apply app_inv_tail in EQ. exact EQ. }
      subst s0. rewrite (template_split _ _ _ T0 []) in S. injection S as <- <-. reflexivity.
    + assert (s0 = s).
      { apply app_inv_tail in EQ. exact EQ. }
      subst s0. rewrite (template_split _ _ _ T0 []) in S. injection S as <- <-.
      assert (so' = so) by congruence. assert (jo' = jo) by congruence. subst. reflexivity.
  - intros <-. destruct more as [|[n l] more].
    + apply ip_plain. assert (lit = s).
      { inversion T; subst; reflexivity. }
      subst lit. exact T.
    + exact (ip_names s lit n l more so jo T SO JO).
Qed.
