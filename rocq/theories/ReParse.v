(** * The regex parser of UserRe.v: texts around a regex *)

From Coq Require Import String List NArith ZArith Bool Arith Lia.
From Verif Require Import PyStr PyNum UserRe.
Import ListNotations.
Local Open Scope list_scope.

(** ** The functions with boolean tests *)

Ltac by_digits c :=
  let p := fresh "p" in
  destruct c as [|p]; [reflexivity|];
  do 8 (try reflexivity; destruct p as [p|p|]); reflexivity.

Lemma lazy_mark_eq lo hi s :
  lazy_mark lo hi s =
  let done greedy (s : str) :=
    match s with
    | c :: _ => if existsb (N.eqb c) (s_ "*+?{") then None
                else Some (Some (greedy, lo, hi), s)
    | [] => Some (Some (greedy, lo, hi), s)
    end in
  match s with
  | [] => done true s
  | c :: s' => if N.eqb c 63 then done false s' else done true s
  end.
Proof. destruct s as [|c s]; [reflexivity|]. by_digits c. Qed.

Definition brace (s' : str) : option (option (bool * nat * option nat) * str) :=
  if starts_digit s' || match s' with c :: _ => N.eqb c 44 | _ => false end
  then let '(lo, s1) := digits_from 0 s' in
       match s1 with
       | [] => None
       | c :: s2 =>
         if N.eqb c 125 then lazy_mark lo (Some lo) s2
         else if N.eqb c 44 then
           let '(hi, s3) := digits_from 0 s2 in
           match s3 with
           | [] => None
           | c :: s4 =>
             if N.eqb c 125
             then if starts_digit s2
                  then if Nat.ltb hi lo then None else lazy_mark lo (Some hi) s4
                  else lazy_mark lo None s4
             else None
           end
         else None
       end
  else None.

Lemma match_44 {A} (c : char) (x y : A) :
  match c with 44%N => x | _ => y end = if N.eqb c 44 then x else y.
Proof. by_digits c. Qed.
Lemma match_125 {A} (c : char) (x y : A) :
  match c with 125%N => x | _ => y end = if N.eqb c 125 then x else y.
Proof. by_digits c. Qed.
Lemma match_41 {A} (c : char) (x y : A) :
  match c with 41%N => x | _ => y end = if N.eqb c 41 then x else y.
Proof. by_digits c. Qed.
Lemma match_63 {A} (c : char) (x y : A) :
  match c with 63%N => x | _ => y end = if N.eqb c 63 then x else y.
Proof. by_digits c. Qed.
Lemma match_124 {A} (c : char) (x y : A) :
  match c with 124%N => x | _ => y end = if N.eqb c 124 then x else y.
Proof. by_digits c. Qed.
Lemma match_45 {A} (c : char) (x y : A) :
  match c with 45%N => x | _ => y end = if N.eqb c 45 then x else y.
Proof. by_digits c. Qed.
Lemma match_94 {A} (c : char) (x y : A) :
  match c with 94%N => x | _ => y end = if N.eqb c 94 then x else y.
Proof. by_digits c. Qed.
Lemma match_92 {A} (c : char) (x y : A) :
  match c with 92%N => x | _ => y end = if N.eqb c 92 then x else y.
Proof. by_digits c. Qed.
Lemma match_125_44 {A} (c : char) (x y z : A) :
  match c with 125%N => x | 44%N => y | _ => z end
  = if N.eqb c 125 then x else if N.eqb c 44 then y else z.
Proof. by_digits c. Qed.
Lemma match_41_124 {A} (c : char) (x y : A) :
  match c with 41%N | 124%N => x | _ => y end
  = if N.eqb c 41 || N.eqb c 124 then x else y.
Proof. by_digits c. Qed.
Lemma match_rep {A} (c : char) (x y z u v : A) :
  match c with 42%N => x | 43%N => y | 63%N => z | 123%N => u | _ => v end
  = if N.eqb c 42 then x else if N.eqb c 43 then y else if N.eqb c 63 then z
    else if N.eqb c 123 then u else v.
Proof. by_digits c. Qed.

Lemma repetition_eq s :
  repetition s =
  match s with
  | [] => Some (None, s)
  | c :: s' => if N.eqb c 42 then lazy_mark 0 None s'
               else if N.eqb c 43 then lazy_mark 1 None s'
               else if N.eqb c 63 then lazy_mark 0 (Some 1) s'
               else if N.eqb c 123 then brace s'
               else Some (None, s)
  end.
Proof.
  destruct s as [|c s]; [reflexivity|]. unfold repetition. rewrite match_rep.
  destruct (N.eqb c 42); [reflexivity|]. destruct (N.eqb c 43); [reflexivity|].
  destruct (N.eqb c 63); [reflexivity|]. destruct (N.eqb c 123); [|reflexivity].
  unfold brace. replace (match s with 44%N :: _ => true | _ => false end)
    with (match s with c :: _ => N.eqb c 44 | _ => false end)
    by (destruct s as [|d s']; [reflexivity|by_digits d]).
  destruct (starts_digit s || _); [|reflexivity]. destruct (digits_from 0 s) as [lo s1].
  destruct s1 as [|d s2]; [reflexivity|]. rewrite match_125_44.
  destruct (N.eqb d 125); [reflexivity|]. destruct (N.eqb d 44); [|reflexivity].
  destruct (digits_from 0 s2) as [hi s3]. destruct s3 as [|e s4]; [reflexivity|].
  rewrite match_125. reflexivity.
Qed.

Lemma set_member_eq f s :
  set_member f s =
  match s with
  | [] => None
  | c :: s0 =>
    if N.eqb c 92 then
      match s0 with
      | [] => None
      | c :: s' =>
        match class_escape f c with
        | Some p => Some (inr p, s')
        | None => match letter_escape c with
                  | Some d => Some (inl d, s')
                  | None => if N.eqb c 98 then Some (inl 8%N, s')
                            else if ascii_alnum c then None else Some (inl c, s')
                  end
        end
      end
    else Some (inl c, s0)
  end.
Proof.
  destruct s as [|c s]; [reflexivity|]. unfold set_member.
  destruct s as [|d s]; [by_digits c|]. rewrite match_92. reflexivity.
Qed.

Lemma set_members_eq n f first s :
  set_members (S n) f first s =
    match s with
    | [] => None
    | c0 :: s0 =>
      if N.eqb c0 93 && negb first then Some (fun _ => false, s0)
      else
        match set_member f s with
        | None => None
        | Some (a, s1) =>
          let single :=
            match set_members n f false s1 with
            | Some (p, s') =>
              Some (match a with
                    | inl c => fun x => N.eqb c x || p x
                    | inr q => fun x => q x || p x
                    end, s')
            | None => None
            end in
          match s1 with
          | c1 :: c2 :: s2 =>
            if N.eqb c1 45 then
              if N.eqb c2 93 then single
              else match a, set_member f (c2 :: s2) with
                   | inl lo, Some (inl hi, s3) =>
                     if N.ltb hi lo then None
                     else match set_members n f false s3 with
                          | Some (p, s') =>
                            Some (fun x => (N.leb lo x && N.leb x hi) || p x, s')
                          | None => None
                          end
                   | _, _ => None
                   end
            else single
          | _ => single
          end
        end
    end.
Proof.
  destruct s as [|c0 s0]; [reflexivity|]. cbn [set_members].
  destruct (N.eqb c0 93 && negb first); [reflexivity|].
  destruct (set_member f (c0 :: s0)) as [[a s1]|]; [|reflexivity].
  destruct s1 as [|c1 [|c2 s2]]; [reflexivity|by_digits c1|]. rewrite match_45. reflexivity.
Qed.

Lemma parse_set_eq f s :
  parse_set f s =
  let '(neg, s') := match s with c :: s' => if N.eqb c 94 then (true, s') else (false, s)
                    | [] => (false, s) end in
  match set_members (S (length s')) f true s' with
  | Some (p, rest) => Some (XChr (fun c => xorb neg (fold_case f p c)), rest)
  | None => None
  end.
Proof.
  unfold parse_set. destruct s as [|c s]; [reflexivity|]. rewrite match_94. reflexivity.
Qed.

Lemma parse_alt_eq n f st s :
  parse_alt (S n) f st s =
    match parse_seq n f st s with
    | Some (a, st1, c :: s1) =>
      if N.eqb c 124 then
        match parse_alt n f st1 s1 with
        | Some (b, st2, s2) => Some (XAlt a b, st2, s2)
        | None => None
        end
      else Some (a, st1, c :: s1)
    | r => r
    end.
Proof.
  cbn [parse_alt]. destruct (parse_seq n f st s) as [[[a st1] [|c s1]]|]; [reflexivity| |reflexivity].
  by_digits c.
Qed.

Definition repeated (a : rx) (q : option (bool * nat * option nat)) : option rx :=
  match q with
  | None => Some a
  | Some (greedy, lo, hi) => match a with XAt _ => None | _ => Some (XRep greedy lo hi a) end
  end.
Lemma parse_seq_eq n f st s :
  parse_seq (S n) f st s =
    match s with
    | [] => Some (XEps, st, s)
    | c :: _ =>
      if N.eqb c 41 || N.eqb c 124 then Some (XEps, st, s)
      else
      match parse_atom n f st s with
      | None => None
      | Some (a, st1, s1) =>
        match repetition s1 with
        | None => None
        | Some (q, s2) =>
          match repeated a q with
          | None => None
          | Some a' =>
            match parse_seq n f st1 s2 with
            | Some (b, st2, s3) => Some (XSeq a' b, st2, s3)
            | None => None
            end
          end
        end
      end
    end.
Proof.
  cbn [parse_seq]. destruct s as [|c s]; [reflexivity|]. rewrite match_41_124.
  destruct (N.eqb c 41 || N.eqb c 124); [reflexivity|].
  destruct (parse_atom n f st (c :: s)) as [[[a st1] s1]|]; [|reflexivity].
  destruct (repetition s1) as [[[[[greedy lo] hi]|] s2]|]; [|reflexivity|reflexivity].
  destruct a; reflexivity.
Qed.

Lemma parse_atom_eq n f st s :
  parse_atom (S n) f st s =
    match s with
    | [] => None
    | c :: s' =>
      if N.eqb c 40 then
        if startswith (s_ "?:") s' then
          match parse_alt n f st (skipn 2 s') with
          | Some (a, st1, d :: s1) => if N.eqb d 41 then Some (a, st1, s1) else None
          | _ => None
          end
        else
          let body :=
            if startswith group_name s' then Some (skipn (length group_name) s')
            else match s' with d :: _ => if N.eqb d 63 then None else Some s' | [] => Some s' end in
          match body with
          | None => None
          | Some s1 =>
            let g := S (fst st) in
            match parse_alt n f (g, snd st) s1 with
            | Some (a, (m, cl), d :: s2) =>
              if N.eqb d 41 then Some (XGrp g a, (m, g :: cl), s2) else None
            | _ => None
            end
          end
      else if N.eqb c 91 then
        match parse_set f s' with Some (a, s1) => Some (a, st, s1) | None => None end
      else if N.eqb c 92 then
        match parse_escape f st s' with Some (a, s1) => Some (a, st, s1) | None => None end
      else if N.eqb c 46 then Some (XChr (any_char f), st, s')
      else if N.eqb c 94 then Some (XAt (at_start f), st, s')
      else if N.eqb c 36 then Some (XAt (at_end f), st, s')
      else if existsb (N.eqb c) (s_ "*+?{") then None
      else Some (XLit f c, st, s')
    end.
Proof.
  cbn [parse_atom]. destruct s as [|c s]; [reflexivity|].
  destruct (N.eqb c 40); [|reflexivity].
  destruct (startswith (s_ "?:") s).
  - destruct (parse_alt n f st (skipn 2 s)) as [[[a st1] [|d s1]]|]; [reflexivity| |reflexivity].
    rewrite match_41. reflexivity.
  - cbv zeta. replace (match s with 63%N :: _ => None | _ => Some s end)
      with (match s with d :: _ => if N.eqb d 63 then None else Some s | [] => Some s end)
      by (destruct s as [|d s']; [reflexivity|rewrite match_63; reflexivity]).
    match goal with |- match ?e with _ => _ end = _ => destruct e as [s1|]; [|reflexivity] end.
    destruct (parse_alt n f (S (fst st), snd st) s1) as [[[a [m cl]] [|d s2]]|]; [reflexivity| |reflexivity].
    rewrite match_41. reflexivity.
Qed.

(** ** A closing bracket ends a regex *)

Definition closes (u : str) : Prop := match u with [] => True | c :: _ => c = 41%N end.

Lemma digits_app u : closes u -> forall s acc n s',
  digits_from acc s = (n, s') -> digits_from acc (s ++ u) = (n, s' ++ u).
Proof.
  intros C. induction s as [|c s IH]; intros acc n s' E; cbn [digits_from app] in *.
  - injection E as <- <-. destruct u as [|c u]; [reflexivity|]. cbn [closes] in C. subst c. reflexivity.
  - destruct (is_ascii_digit c); [apply IH; exact E|]. injection E as <- <-. reflexivity.
Qed.
Lemma starts_digit_app u s : closes u -> s <> [] -> starts_digit (s ++ u) = starts_digit s.
Proof. intros C Ne. destruct s; [contradiction|reflexivity]. Qed.
Lemma starts_digit_app' u s : closes u -> starts_digit (s ++ u) = starts_digit s.
Proof.
  intros C. destruct s; [|reflexivity]. destruct u as [|c u]; [reflexivity|].
  cbn [closes] in C. subst c. reflexivity.
Qed.
Lemma lazy_app u lo hi s q s' : closes u ->
  lazy_mark lo hi s = Some (q, s') -> lazy_mark lo hi (s ++ u) = Some (q, s' ++ u).
Proof.
  intros C E. rewrite lazy_mark_eq in *. cbv zeta in *.
  destruct s as [|c s]; cbn [app].
  - injection E as <- <-. destruct u as [|c u]; [reflexivity|]. cbn [closes] in C. subst c. reflexivity.
  - destruct (N.eqb c 63).
    + destruct s as [|d s]; cbn [app].
      * injection E as <- <-. destruct u as [|e u]; [reflexivity|]. cbn [closes] in C. subst e. reflexivity.
      * destruct (existsb (N.eqb d) (s_ "*+?{")); [discriminate|]. injection E as <- <-. reflexivity.
    + destruct (existsb (N.eqb c) (s_ "*+?{")); [discriminate|]. injection E as <- <-. reflexivity.
Qed.
Lemma brace_app u s q s' : closes u ->
  brace s = Some (q, s') -> brace (s ++ u) = Some (q, s' ++ u).
Proof.
  intros C E. unfold brace in *. rewrite (starts_digit_app' u s C).
  destruct s as [|c s].
  { cbn in E. discriminate. }
  replace (match (c :: s) ++ u with c :: _ => N.eqb c 44 | [] => false end) with (N.eqb c 44) by reflexivity.
  destruct (starts_digit (c :: s) || N.eqb c 44); [|discriminate].
  destruct (digits_from 0 (c :: s)) as [lo s1] eqn:D. rewrite (digits_app u C _ _ _ _ D).
  destruct s1 as [|d s2]; [discriminate|]. cbn [app].
  destruct (N.eqb d 125); [apply lazy_app; assumption|]. destruct (N.eqb d 44); [|discriminate].
  destruct (digits_from 0 s2) as [hi s3] eqn:D2. rewrite (digits_app u C _ _ _ _ D2).
  destruct s3 as [|e s4]; [discriminate|]. cbn [app]. rewrite (starts_digit_app' u s2 C).
  destruct (N.eqb e 125); [|discriminate]. destruct (starts_digit s2); [|apply lazy_app; assumption].
  destruct (hi <? lo); [discriminate|apply lazy_app; assumption].
Qed.
Lemma repetition_app u s q s' : closes u ->
  repetition s = Some (q, s') -> repetition (s ++ u) = Some (q, s' ++ u).
Proof.
  intros C E. rewrite repetition_eq in *. destruct s as [|c s]; cbn [app].
  - injection E as <- <-. destruct u as [|c u]; [reflexivity|]. cbn [closes] in C. subst c. reflexivity.
  - destruct (N.eqb c 42); [apply lazy_app; assumption|].
    destruct (N.eqb c 43); [apply lazy_app; assumption|].
    destruct (N.eqb c 63); [apply lazy_app; assumption|].
    destruct (N.eqb c 123); [apply brace_app; assumption|].
    injection E as <- <-. reflexivity.
Qed.
Lemma set_member_app u f s a s' :
  set_member f s = Some (a, s') -> set_member f (s ++ u) = Some (a, s' ++ u).
Proof.
  intros E. rewrite set_member_eq in *. destruct s as [|c s]; [discriminate|]. cbn [app].
  destruct (N.eqb c 92); [|injection E as <- <-; reflexivity].
  destruct s as [|d s]; [discriminate|]. cbn [app].
  destruct (class_escape f d); [injection E as <- <-; reflexivity|].
  destruct (letter_escape d); [injection E as <- <-; reflexivity|].
  destruct (N.eqb d 98); [injection E as <- <-; reflexivity|].
  destruct (ascii_alnum d); [discriminate|injection E as <- <-; reflexivity].
Qed.
Lemma set_members_app u f : forall n first s p s',
  set_members n f first s = Some (p, s') ->
  forall n', n <= n' -> set_members n' f first (s ++ u) = Some (p, s' ++ u).
Proof.
  induction n as [|n IH]; intros first s p s' E n' L; [discriminate|].
  destruct n' as [|n']; [lia|]. apply le_S_n in L. rewrite set_members_eq in *.
  destruct s as [|c0 s0]; [discriminate|]. cbn [app].
  destruct (N.eqb c0 93 && negb first); [injection E as <- <-; reflexivity|].
  destruct (set_member f (c0 :: s0)) as [[a s1]|] eqn:M; [|discriminate].
  change (c0 :: s0 ++ u) with ((c0 :: s0) ++ u). rewrite (set_member_app u _ _ _ _ M).
  cbv zeta in *.
  assert (Si : forall x, match set_members n f false s1 with
            | Some (p, s') => Some (match a with inl c => fun x => N.eqb c x || p x | inr q => fun x => q x || p x end, s')
            | None => None end = Some x ->
            match set_members n' f false (s1 ++ u) with
            | Some (p, s') => Some (match a with inl c => fun x => N.eqb c x || p x | inr q => fun x => q x || p x end, s')
            | None => None end = Some (fst x, snd x ++ u)).
  { intros x Ex. destruct (set_members n f false s1) as [[p1 s2]|] eqn:R; [|discriminate].
    rewrite (IH _ _ _ _ R n' L). injection Ex as <-. reflexivity. }
  destruct s1 as [|c1 s1].
  - exfalso. destruct n; [discriminate|]. rewrite set_members_eq in E. discriminate.
  - destruct s1 as [|c2 s2].
    + destruct (N.eqb c1 45) eqn:Q.
      * exfalso. apply N.eqb_eq in Q. subst c1. destruct n as [|n]; [discriminate|].
        rewrite set_members_eq in E. cbn in E. destruct n; [discriminate|].
        rewrite set_members_eq in E. discriminate.
      * cbn [app]. rewrite Q. destruct u; exact (Si (p, s') E).
    + cbn [app]. destruct (N.eqb c1 45); [|exact (Si (p, s') E)].
      destruct (N.eqb c2 93); [exact (Si (p, s') E)|].
      destruct a as [lo|]; [|discriminate].
      destruct (set_member f (c2 :: s2)) as [[[hi|] s3]|] eqn:M2; try discriminate.
      change (c2 :: s2 ++ u) with ((c2 :: s2) ++ u). rewrite (set_member_app u _ _ _ _ M2).
      destruct (N.ltb hi lo); [discriminate|].
      destruct (set_members n f false s3) as [[p1 s4]|] eqn:R; [|discriminate].
      rewrite (IH _ _ _ _ R n' L). injection E as <- <-. reflexivity.
Qed.

Lemma parse_set_app u f s a s' :
  parse_set f s = Some (a, s') -> parse_set f (s ++ u) = Some (a, s' ++ u).
Proof.
  intros E. rewrite parse_set_eq in *. destruct s as [|c s].
  - rewrite set_members_eq in E. discriminate.
  - cbn [app]. destruct (N.eqb c 94).
    + destruct (set_members (S (length s)) f true s) as [[p r]|] eqn:M; [|discriminate].
      rewrite (set_members_app u _ _ _ _ _ _ M) by (rewrite app_length; lia).
      injection E as <- <-. reflexivity.
    + destruct (set_members (S (length (c :: s))) f true (c :: s)) as [[p r]|] eqn:M; [|discriminate].
      change (c :: s ++ u) with ((c :: s) ++ u).
      rewrite (set_members_app u _ _ _ _ _ _ M) by (rewrite app_length; lia).
      injection E as <- <-. reflexivity.
Qed.
Lemma parse_escape_app u f st s a s' : closes u ->
  parse_escape f st s = Some (a, s') -> parse_escape f st (s ++ u) = Some (a, s' ++ u).
Proof.
  intros C E. unfold parse_escape in *. destruct s as [|c s]; [discriminate|]. cbn [app].
  destruct (is_ascii_digit c).
  - destruct (N.eqb c 48); [discriminate|]. cbv zeta in *.
    destruct s as [|d s]; cbn [app].
    + destruct u as [|x u]; [rewrite app_nil_r; exact E|]. cbn [closes] in C. subst x.
      change (is_ascii_digit 41%N) with false in *. cbv iota in *.
      replace (match u with [] => false | e :: _ =>
        N.ltb c 56 && false && N.ltb 41%N 56 && is_ascii_digit e && N.ltb e 56 end) with false
        by (destruct u; [reflexivity|]; rewrite andb_false_r; reflexivity).
      cbn [negb andb] in *. destruct (existsb (Nat.eqb (N.to_nat c - 48)) (snd st)); [|discriminate].
      injection E as <- <-. reflexivity.
    + destruct s as [|e s]; cbn [app].
      * replace (match u with [] => false | e :: _ =>
          N.ltb c 56 && is_ascii_digit d && N.ltb d 56 && is_ascii_digit e && N.ltb e 56 end) with false.
        2:{ destruct u as [|x u]; [reflexivity|]. cbn [closes] in C. subst x.
            change (is_ascii_digit 41%N) with false. rewrite andb_false_r. reflexivity. }
        destruct (is_ascii_digit d); cbn [negb andb] in *;
          match goal with |- (if ?b then _ else _) = _ => destruct b; [|discriminate] end;
          injection E as <- <-; reflexivity.
      * destruct (is_ascii_digit d);
          match goal with |- (if ?b then _ else _) = _ => destruct b; [|discriminate] end;
          injection E as <- <-; reflexivity.
  - destruct (class_escape f c); [injection E as <- <-; reflexivity|].
    destruct (anchor_escape f c); [injection E as <- <-; reflexivity|].
    destruct (letter_escape c); [injection E as <- <-; reflexivity|].
    destruct (is_ascii_letter c); [discriminate|injection E as <- <-; reflexivity].
Qed.

Lemma startswith_app_l u p s : startswith p s = true -> startswith p (s ++ u) = true.
Proof.
  revert s. induction p as [|c p IH]; intros s E; [reflexivity|].
  destruct s as [|d s]; [discriminate|]. cbn [startswith app] in *.
  apply andb_prop in E. destruct E as [-> E]. rewrite (IH s E). reflexivity.
Qed.
Lemma startswith_length p s : startswith p s = true -> length p <= length s.
Proof.
  revert s. induction p as [|c p IH]; intros s E; [cbn; lia|].
  destruct s as [|d s]; [discriminate|]. cbn [startswith] in E.
  apply andb_prop in E. destruct E as [_ E]. specialize (IH s E). cbn [length]. lia.
Qed.
(** A closing bracket does not make a longer prefix. *)
Lemma startswith_closes u p s : closes u -> forallb (fun c => negb (N.eqb c 41)) p = true ->
  startswith p s = false -> startswith p (s ++ u) = false.
Proof.
  intros C. revert s. induction p as [|c p IH]; intros s F E; [discriminate|].
  cbn [forallb] in F. apply andb_prop in F. destruct F as [F1 F2].
  destruct s as [|d s]; cbn [startswith app] in *.
  - destruct u as [|d u]; [reflexivity|]. cbn [closes] in C. subst d.
    destruct (N.eqb c 41); [discriminate|reflexivity].
  - destruct (N.eqb c d); [|reflexivity]. cbn [andb] in *. apply IH; assumption.
Qed.
Lemma skipn_app_le {A} n (l u : list A) : n <= length l -> skipn n (l ++ u) = skipn n l ++ u.
Proof. intros L. rewrite skipn_app. replace (n - length l) with 0 by lia. reflexivity. Qed.

Lemma parse_app u f : closes u -> forall n,
  (forall st s x st' s', parse_alt n f st s = Some (x, st', s') ->
     forall n', n <= n' -> parse_alt n' f st (s ++ u) = Some (x, st', s' ++ u))
  /\ (forall st s x st' s', parse_seq n f st s = Some (x, st', s') ->
     forall n', n <= n' -> parse_seq n' f st (s ++ u) = Some (x, st', s' ++ u))
  /\ (forall st s x st' s', parse_atom n f st s = Some (x, st', s') ->
     forall n', n <= n' -> parse_atom n' f st (s ++ u) = Some (x, st', s' ++ u)).
Proof.
  intros C. induction n as [|n (IHal & IHse & IHat)]; [split; [|split]; intros; discriminate|].
  split; [|split]; intros st s x st' s' E n' L; (destruct n' as [|n']; [lia|]); apply le_S_n in L.
  - rewrite parse_alt_eq in *. destruct (parse_seq n f st s) as [[[a st1] s1]|] eqn:Es; [|discriminate].
    rewrite (IHse _ _ _ _ _ Es n' L). destruct s1 as [|c s1]; cbn [app].
    + injection E as <- <- <-. destruct u as [|c u]; [reflexivity|]. cbn [closes] in C. subst c. reflexivity.
    + destruct (N.eqb c 124); [|injection E as <- <- <-; reflexivity].
      destruct (parse_alt n f st1 s1) as [[[b st2] s2]|] eqn:Ea; [|discriminate].
      rewrite (IHal _ _ _ _ _ Ea n' L). injection E as <- <- <-. reflexivity.
  - rewrite parse_seq_eq in *. destruct s as [|c s]; cbn [app].
    + injection E as <- <- <-. destruct u as [|c u]; [reflexivity|]. cbn [closes] in C. subst c. reflexivity.
    + destruct (N.eqb c 41 || N.eqb c 124); [injection E as <- <- <-; reflexivity|].
      change (c :: s ++ u) with ((c :: s) ++ u).
      destruct (parse_atom n f st (c :: s)) as [[[a st1] s1]|] eqn:Ea; [|discriminate].
      rewrite (IHat _ _ _ _ _ Ea n' L).
      destruct (repetition s1) as [[q s2]|] eqn:Eq; [|discriminate].
      rewrite (repetition_app u _ _ _ C Eq). destruct (repeated a q) as [a'|]; [|discriminate].
      destruct (parse_seq n f st1 s2) as [[[b st2] s3]|] eqn:Es; [|discriminate].
      rewrite (IHse _ _ _ _ _ Es n' L). injection E as <- <- <-. reflexivity.
  - rewrite parse_atom_eq in *. destruct s as [|c s]; [discriminate|]. cbn [app].
    destruct (N.eqb c 40).
    + destruct (startswith (s_ "?:") s) eqn:S1.
      * rewrite (startswith_app_l u _ _ S1). rewrite skipn_app_le by (apply (startswith_length _ _ S1)).
        destruct (parse_alt n f st (skipn 2 s)) as [[[a st1] [|d s1]]|] eqn:Ea; try discriminate.
        rewrite (IHal _ _ _ _ _ Ea n' L). cbn [app]. destruct (N.eqb d 41); [|discriminate].
        injection E as <- <- <-. reflexivity.
      * rewrite (startswith_closes u (s_ "?:") s C eq_refl S1). cbv zeta in *.
        assert (B : forall s1,
          (if startswith group_name s then Some (skipn (length group_name) s)
            else match s with d :: _ => if N.eqb d 63 then None else Some s | [] => Some s end) = Some s1 ->
          (if startswith group_name (s ++ u) then Some (skipn (length group_name) (s ++ u))
            else match s ++ u with d :: _ => if N.eqb d 63 then None else Some (s ++ u) | [] => Some (s ++ u) end)
          = Some (s1 ++ u)).
        { intros s1 E1. destruct (startswith group_name s) eqn:S2.
          - rewrite (startswith_app_l u _ _ S2), skipn_app_le by (apply (startswith_length _ _ S2)).
            injection E1 as <-. reflexivity.
          - rewrite (startswith_closes u group_name s C eq_refl S2). destruct s as [|d s]; cbn [app].
            + injection E1 as <-. destruct u as [|d u]; [reflexivity|].
              cbn [closes] in C. subst d. reflexivity.
            + destruct (N.eqb d 63); [discriminate|]. injection E1 as <-. reflexivity. }
        match type of E with match ?e with _ => _ end = _ => destruct e as [s1|] eqn:Eb; [|discriminate] end.
        rewrite (B s1 eq_refl).
        destruct (parse_alt n f (S (fst st), snd st) s1) as [[[a [m cl]] [|d s2]]|] eqn:Ea; try discriminate.
        rewrite (IHal _ _ _ _ _ Ea n' L). cbn [app]. destruct (N.eqb d 41); [|discriminate].
        injection E as <- <- <-. reflexivity.
    + destruct (N.eqb c 91).
      { destruct (parse_set f s) as [[a s1]|] eqn:Ep; [|discriminate].
        rewrite (parse_set_app u _ _ _ _ Ep). injection E as <- <- <-. reflexivity. }
      destruct (N.eqb c 92).
      { destruct (parse_escape f st s) as [[a s1]|] eqn:Ep; [|discriminate].
        rewrite (parse_escape_app u _ _ _ _ _ C Ep). injection E as <- <- <-. reflexivity. }
      destruct (N.eqb c 46); [injection E as <- <- <-; reflexivity|].
      destruct (N.eqb c 94); [injection E as <- <- <-; reflexivity|].
      destruct (N.eqb c 36); [injection E as <- <- <-; reflexivity|].
      destruct (existsb (N.eqb c) (s_ "*+?{")); [discriminate|injection E as <- <- <-; reflexivity].
Qed.
Lemma parse_alt_app u f n st s x st' s' n' : closes u ->
  parse_alt n f st s = Some (x, st', s') -> n <= n' ->
  parse_alt n' f st (s ++ u) = Some (x, st', s' ++ u).
Proof. intros C E L. exact (proj1 (parse_app u f C n) _ _ _ _ _ E n' L). Qed.
Lemma parse_alt_mono f n st s x st' s' n' :
  parse_alt n f st s = Some (x, st', s') -> n <= n' ->
  parse_alt n' f st s = Some (x, st', s').
Proof.
  intros E L. pose proof (parse_alt_app [] f n st s x st' s' n' I E L) as H.
  rewrite !app_nil_r in H. exact H.
Qed.
