(** * Properties C16-C27, C29-C31: sorting, rearranging, cutting, item-wise operators *)

From Coq Require Import String List NArith ZArith Bool Arith Sorted Permutation Factorial.
From Verif Require Import PyStr PyNum Tokens OpTable PTypes Ops Apply Spec SpecRun SpecList.
From Verif Require SortProof ListProof CutProof CombProof ItemProof.
Import ListNotations.
Local Open Scope string_scope.
Local Open Scope list_scope.
Local Open Scope Z_scope.

Definition sc (s : string) : pval := PScal (s_ s).

(** ** C16: sorting *)

Theorem C16_numeric : forall fmt text v l, In text ["SN"; "DN"] -> elems v l ->
  (exists ws x y, run_op fmt text [v] = (ws, Val PNil) /\ In x l /\ In y l
     /\ ~ number_same x y /\ ~ number_before x y /\ ~ number_before y x)
  \/ exists ws r, run_op fmt text [v] = (ws, Val (PList r))
       /\ stably_sorted (directed (String.eqb text "DN") number_before) l r.
Proof. exact SortProof.run_sort_num. Qed.
Print Assumptions C16_numeric.

(** Lists of Scalars are never rejected, and the order is the one tested by
    the operator [<]. *)
Theorem C16_numeric_scalars : forall fmt text v l, In text ["SN"; "DN"] -> elems v l ->
  Forall scalar l ->
  exists r, run_op fmt text [v] = ret (PList r)
    /\ stably_sorted (directed (String.eqb text "DN") (holds fmt "<")) l r.
Proof. exact SortProof.run_sort_scalars. Qed.
Print Assumptions C16_numeric_scalars.

Theorem C16_string_list : forall fmt text v l, In text ["SS"; "DS"] ->
  ~ scalar v -> elems v l ->
  exists r, run_op fmt text [v] = ret (PList r)
    /\ stably_sorted (directed (String.eqb text "DS")
                        (fun x y => lex_lt (p_str fmt x) (p_str fmt y))) l r.
Proof.
  intros fmt text v l Ht N E. destruct (SortProof.run_sort_str fmt text v l Ht E) as (r & S & R).
  exists r. split; [|exact S]. rewrite R. destruct v; try reflexivity. destruct N. exact I.
Qed.
Print Assumptions C16_string_list.

Theorem C16_string_scalar : forall fmt text (s : str), In text ["SS"; "DS"] ->
  exists t, run_op fmt text [PScal s] = ret (PScal t)
    /\ stably_sorted (directed (String.eqb text "DS") lex_lt) (map (fun c => [c]) s)
                     (map (fun c => [c]) t).
Proof. exact ListProof.sort_string_scalar. Qed.
Print Assumptions C16_string_scalar.

(** Ties ("1" and "1.0") keep their order in both directions; text sorts by
    code point; incomparable keys give nil. *)
Example C16_ex :
  run_op FmtNone "SN" [PList [sc "10"; sc "1"; sc "9"; sc "1.0"]]
  = ret (PList [sc "1"; sc "1.0"; sc "9"; sc "10"])
  /\ run_op FmtNone "DN" [PList [sc "10"; sc "1"; sc "9"; sc "1.0"]]
  = ret (PList [sc "10"; sc "9"; sc "1"; sc "1.0"])
  /\ run_op FmtNone "SS" [PList [sc "10"; sc "1"; sc "9"; sc "1.0"]]
  = ret (PList [sc "1"; sc "1.0"; sc "10"; sc "9"])
  /\ run_op FmtNone "DS" [sc "hello"] = ret (sc "ollhe")
  /\ snd (run_op FmtNone "SN" [PList [sc "1"; PList [sc "1"]]]) = Val PNil.
Proof. vm_compute. repeat split. Qed.

(** ** C17: extrema *)

Theorem C17_attained : forall fmt v l, elems v l -> l <> [] -> Forall scalar l ->
  (exists x, run_op fmt "MX" [v] = ret x /\ In x l
             /\ forall y, In y l -> holds fmt ">=" x y)
  /\ (exists x, run_op fmt "MN" [v] = ret x /\ In x l
             /\ forall y, In y l -> holds fmt "<=" x y).
Proof. exact SortProof.extremum. Qed.
Print Assumptions C17_attained.

Theorem C17_empty : forall fmt v, elems v [] ->
  (exists w, run_op fmt "MX" [v] = ([w], Val PNil))
  /\ (exists w, run_op fmt "MN" [v] = ([w], Val PNil)).
Proof. exact SortProof.extremum_empty. Qed.
Print Assumptions C17_empty.

Example C17_ex :
  run_op FmtNone "MX" [PList [sc "3"; sc "-7.5"; sc "20"; sc "x"]] = ret (sc "20")
  /\ run_op FmtNone "MN" [PList [sc "3"; sc "-7.5"; sc "20"; sc "x"]] = ret (sc "-7.5")
  /\ elems (PRange (Some 3) (Some 3)) [].
Proof. vm_compute. repeat split. apply (elems_range (Some 3) 3). Qed.

(** ** C18: unique *)

Theorem C18_first_occurrences : forall fmt v l, not_range v -> elems v l -> plain v = true ->
  exists r lr, run_op fmt "UQ" [v] = ret r /\ not_range r /\ elems r lr
    /\ first_occurrences l lr /\ NoDup lr /\ (forall x, In x lr <-> In x l)
    /\ run_op fmt "UQ" [r] = ret r.
Proof. exact ListProof.unique_op. Qed.
Print Assumptions C18_first_occurrences.

Example C18_ex :
  run_op FmtNone "UQ" [sc "abracadabra"] = ret (sc "abrcd")
  /\ run_op FmtNone "UQ" [PList [sc "1"; PNil; sc "1.0"; PList [sc "1"]; sc "1"; PList [sc "1"]]]
  = ret (PList [sc "1"; PNil; sc "1.0"; PList [sc "1"]]).
Proof. vm_compute. repeat split. Qed.

(** ** C19: unweave and weave *)

Theorem C19_weave_unweave : forall fmt v l k, elems v l -> 1 <= k ->
  exists ps, run_op fmt "UW" [v; scal_Z k] = ret (PList ps)
    /\ Z.of_nat (length ps) = k
    /\ (forall i p, nth_error ps i = Some p ->
         exists lp, elems p lp
           /\ forall j, nth_error lp j = nth_error l (j * Z.to_nat k + i))
    /\ run_op fmt "WV" [PList ps] = ret (match v with PScal _ => v | _ => PList l end).
Proof. exact ListProof.unweave_op. Qed.
Print Assumptions C19_weave_unweave.

Example C19_ex :
  run_op FmtNone "UW" [sc "abcdefgh"; sc "3"] = ret (PList [sc "adg"; sc "beh"; sc "cf"])
  /\ run_op FmtNone "WV" [PList [sc "adg"; sc "beh"; sc "cf"]] = ret (sc "abcdefgh")
  /\ run_op FmtNone "UW" [PRange (Some 2) (Some 5); sc "5"]
     = ret (PList [PList [sc "2"]; PList [sc "3"]; PList [sc "4"]; PList []; PList []]).
Proof. vm_compute. repeat split. Qed.

(** ** C20: grouping *)

Theorem C20_group : forall fmt v l n, elems v l -> n <> 0 ->
  exists cs ls, run_op fmt "<>" [v; scal_Z n] = ret (PList cs)
    /\ Forall2 elems cs ls
    /\ concat (if n <? 0 then rev ls else ls) = l
    /\ Forall (fun c => 1 <= Z.of_nat (length c) <= Z.abs n) ls
    /\ (forall j c, nth_error ls j = Some c -> (S j < length ls)%nat ->
                    Z.of_nat (length c) = Z.abs n).
Proof. exact CutProof.group_op. Qed.
Print Assumptions C20_group.

Example C20_ex :
  run_op FmtNone "<>" [sc "abcdefg"; sc "3"] = ret (PList [sc "abc"; sc "def"; sc "g"])
  /\ run_op FmtNone "<>" [sc "abcdefg"; sc "-3"] = ret (PList [sc "efg"; sc "bcd"; sc "a"])
  /\ run_op FmtNone "<>" [PRange (Some 2) (Some 5); sc "2"]
     = ret (PList [PRange (Some 2) (Some 4); PRange (Some 4) (Some 5)]).
Proof. vm_compute. repeat split. Qed.

(** ** C21: chopping

    The position is advanced by adding a float, so its rounding errors can add
    one more, empty or short, piece: the claim of exactly [n] pieces is false. *)

Theorem C21_pieces_refuted :
  exists cs, run_op FmtNone "CH" [sc "a"; sc "10"] = ret (PList cs) /\ length cs = 11%nat.
Proof.
  exists (repeat (sc "") 10 ++ [sc "a"]).
  vm_compute. split; reflexivity.
Qed.
Print Assumptions C21_pieces_refuted.

(** ** C22: reversal and reflections *)

Theorem C22_reverse : forall fmt v l, not_range v -> elems v l ->
  exists r, run_op fmt "RV" [v] = ret r /\ elems r (rev l) /\ run_op fmt "RV" [r] = ret v.
Proof.
  intros fmt v l N E.
  pose proof (ListProof.mirror_op fmt "RV" _ v l (or_introl eq_refl) E) as R.
  eexists. split; [exact R|]. split.
  - apply (ListProof.mirror_elems (fun A (l : list A) => rev l)); [|exact E]. intros. apply map_rev.
  - destruct E as [s|l|lo u]; [| |destruct N].
    + rewrite (ListProof.mirror_op fmt "RV" _ _ _ (or_introl eq_refl) (elems_scal (rev s))).
      rewrite rev_involutive. reflexivity.
    + rewrite (ListProof.mirror_op fmt "RV" _ _ _ (or_introl eq_refl) (elems_list (rev l))).
      rewrite rev_involutive. reflexivity.
Qed.
Print Assumptions C22_reverse.

Theorem C22_reflect : forall fmt v l, elems v l ->
  exists r lr, run_op fmt "RF" [v] = ret r /\ elems r lr
    /\ rev lr = lr /\ firstn (length l) lr = l /\ length lr = (2 * length l)%nat.
Proof.
  intros fmt v l E. eexists. exists (l ++ rev l).
  split; [apply (ListProof.mirror_op fmt "RF" (fun A (l : list A) => l ++ rev l) v l); auto|].
  split; [apply (ListProof.mirror_elems (fun A (l : list A) => l ++ rev l)); [|exact E];
          intros; rewrite map_app, map_rev; reflexivity|].
  split; [rewrite rev_app_distr, rev_involutive; reflexivity|].
  split; [rewrite firstn_app, Nat.sub_diag, firstn_all, app_nil_r; reflexivity|].
  rewrite app_length, rev_length. simpl. rewrite Nat.add_0_r. reflexivity.
Qed.
Print Assumptions C22_reflect.

Theorem C22_palindromize : forall fmt v l, elems v l ->
  exists r lr, run_op fmt "PZ" [v] = ret r /\ elems r lr
    /\ rev lr = lr /\ firstn (length l) lr = l /\ length lr = (2 * length l - 1)%nat.
Proof.
  intros fmt v l E. eexists. exists (l ++ tl (rev l)).
  split; [apply (ListProof.mirror_op fmt "PZ" (fun A (l : list A) => l ++ tl (rev l)) v l); auto|].
  split; [apply (ListProof.mirror_elems (fun A (l : list A) => l ++ tl (rev l))); [|exact E];
          intros; rewrite map_app, ListProof.map_tl, map_rev; reflexivity|].
  split; [apply ListProof.tl_rev_palin|].
  split; [rewrite firstn_app, Nat.sub_diag, firstn_all, app_nil_r; reflexivity|].
  rewrite app_length, ListProof.length_tl, rev_length. destruct l; [reflexivity|].
  simpl. rewrite Nat.sub_0_r, Nat.add_0_r, <- plus_n_Sm. reflexivity.
Qed.
Print Assumptions C22_palindromize.

Example C22_ex :
  run_op FmtNone "RV" [sc "abc"] = ret (sc "cba")
  /\ run_op FmtNone "RF" [sc "abc"] = ret (sc "abccba")
  /\ run_op FmtNone "PZ" [PList [sc "1"; PNil; sc "2"]]
     = ret (PList [sc "1"; PNil; sc "2"; PNil; sc "1"]).
Proof. vm_compute. repeat split. Qed.

(** ** C23: splitting and joining *)

Theorem C23_split_join : forall fmt (s sep : str), sep <> [] ->
  exists ps, run_op fmt "^" [PScal s; PScal sep] = ret (PList (map PScal ps))
    /\ run_op fmt "J" [PList (map PScal ps); PScal sep] = ret (PScal s)
    /\ ps <> []
    /\ forall p, In p ps -> ~ exists i, occurs_at sep p i.
Proof. exact ListProof.split_then_join. Qed.
Print Assumptions C23_split_join.

Theorem C23_join_split : forall fmt (c : char) (ps : list str), ps <> [] ->
  (forall p, In p ps -> ~ In c p) ->
  exists s, run_op fmt "J" [PList (map PScal ps); PScal [c]] = ret (PScal s)
    /\ run_op fmt "^" [PScal s; PScal [c]] = ret (PList (map PScal ps)).
Proof.
  intros fmt c ps H F. exists (str_join [c] ps). split; [apply ListProof.run_join|].
  rewrite ListProof.run_split by discriminate.
  rewrite ListProof.split_join_char; [reflexivity|exact H|]. apply Forall_forall, F.
Qed.
Print Assumptions C23_join_split.

Example C23_ex :
  run_op FmtNone "^" [sc "aaab,,aa"; sc "aa"] = ret (PList [sc ""; sc "ab,,"; sc ""])
  /\ run_op FmtNone "J" [PList [sc ""; sc "ab,,"; sc ""]; sc "aa"] = ret (sc "aaab,,aa").
Proof. vm_compute. repeat split. Qed.

(** ** C24: stripping *)

Theorem C24_strip : forall fmt text left right (s : str),
  In (text, (left, right)) [("||", (true, true)); ("|>", (true, false)); ("<|", (false, true))] ->
  (exists r, run_op fmt text [PScal s] = ret (PScal r)
     /\ stripped left right (fun c => is_space c = true) s r)
  /\ (forall x : str, exists r, run_op fmt text [PScal s; PScal x] = ret (PScal r)
     /\ stripped left right (fun c => In c x) s r).
Proof. exact ListProof.strip_op. Qed.
Print Assumptions C24_strip.

Example C24_ex :
  run_op FmtNone "||" [sc "  a b  "] = ret (sc "a b")
  /\ run_op FmtNone "|>" [sc "xyxaxy"; sc "xy"] = ret (sc "axy")
  /\ run_op FmtNone "<|" [sc "xyxaxy"; sc "xy"] = ret (sc "xyxa")
  /\ run_op FmtNone "||" [sc "xyxy"; sc "xy"] = ret (sc "").
Proof. vm_compute. repeat split. Qed.

(** ** C25: flattening *)

Theorem C25_leaves : forall fmt l r, leaves (PList l) r ->
  run_op fmt "FA" [PList l] = ret (PList r)
  /\ (forall x, In x r -> match x with PList _ | PRange _ _ => False | _ => True end)
  /\ run_op fmt "FA" [PList r] = ret (PList r).
Proof.
  intros fmt l r H. split; [apply ListProof.flatten_op; [reflexivity|exact H]|].
  pose proof (ListProof.leaves_atoms _ _ H) as A. split.
  - intros x Hx. rewrite Forall_forall in A. apply (A x Hx).
  - apply ListProof.flatten_op; [reflexivity|]. apply ListProof.atoms_leaves, A.
Qed.
Print Assumptions C25_leaves.

(** Every List without an infinite Range inside has leaves. *)
Theorem C25_total : forall l, bounded (PList l) = true -> exists r, leaves (PList l) r.
Proof. intros l H. apply ListProof.bounded_leaves, H. Qed.
Print Assumptions C25_total.

Example C25_ex :
  bounded (PList [PList [sc "1"; PList []]; PNil; PRange (Some 1) (Some 3); PList [PList [sc "x"]]]) = true
  /\ run_op FmtNone "FA"
       [PList [PList [sc "1"; PList []]; PNil; PRange (Some 1) (Some 3); PList [PList [sc "x"]]]]
  = ret (PList [sc "1"; PNil; sc "1"; sc "2"; sc "x"]).
Proof. vm_compute. repeat split. Qed.

(** ** C26: zipping *)

Theorem C26_zip : forall fmt vs, Forall sequence vs ->
  Exists (fun v => exists l, elems v l) vs ->
  exists rows, run_op fmt "Z" [PList vs] = ret (PList (map PList rows))
    /\ (exists v l, In v vs /\ elems v l /\ length l = length rows)
    /\ (forall v l, In v vs -> elems v l -> (length rows <= length l)%nat)
    /\ (forall i row, nth_error rows i = Some row -> Forall2 (fun v x => item_of v i x) vs row).
Proof.
  intros fmt vs F X. destruct (CombProof.zip_op fmt vs F) as (rows & R & (v & Iv & l & E & L) & M & T).
  - eapply Exists_impl; [|exact X]. intros v (l & E). exists (length l), l. auto.
  - exists rows. split; [exact R|]. split; [exists v, l; auto|]. split; [|exact T].
    intros w m Iw Ew. apply (M w); [exact Iw|]. exists m. auto.
Qed.
Print Assumptions C26_zip.

Theorem C26_zip_default : forall fmt vs ls d args fill, vs <> [] -> Forall2 elems vs ls ->
  args = [PList vs] /\ fill = PScal []
  \/ args = [PList vs; d] /\ fill = d /\ not_block d = true ->
  exists rows, run_op fmt "ZD" args = ret (PList (map PList rows))
    /\ (exists l, In l ls /\ length rows = length l)
    /\ (forall l, In l ls -> (length l <= length rows)%nat)
    /\ (forall i row, nth_error rows i = Some row ->
          Forall2 (fun l x => nth_error l i = Some x \/ (length l <= i)%nat /\ x = fill) ls row).
Proof.
  intros fmt vs ls d args fill N F H. apply (CombProof.zip_default_op fmt vs ls d N F).
  destruct H as [H|(H1 & H2 & H3)]; [left; exact H|right].
  split; [exact H1|]. split; [exact H2|]. destruct d; try reflexivity; discriminate.
Qed.
Print Assumptions C26_zip_default.

Theorem C26_zip_twice : forall fmt vs ls n, vs <> [] -> Forall2 elems vs ls ->
  Forall (fun c => length c = n) ls -> (0 < n)%nat ->
  exists w, run_op fmt "Z" [PList vs] = ret w /\ run_op fmt "Z" [w] = ret (PList (map PList ls)).
Proof. exact CombProof.zip_twice. Qed.
Print Assumptions C26_zip_twice.

Example C26_ex :
  run_op FmtNone "Z" [PList [sc "abc"; PList [sc "1"; sc "2"]; PRange None None]]
  = ret (PList [PList [sc "a"; sc "1"; sc "0"]; PList [sc "b"; sc "2"; sc "1"]])
  /\ run_op FmtNone "ZD" [PList [sc "abc"; PList [sc "1"]]; sc "-"]
  = ret (PList [PList [sc "a"; sc "1"]; PList [sc "b"; sc "-"]; PList [sc "c"; sc "-"]]).
Proof. vm_compute. repeat split. Qed.

(** ** C27: products, combinations, permutations *)

Theorem C27_product : forall fmt vs ls, Forall2 elems vs ls ->
  exists rows ixs, run_op fmt "CP" [PList vs] = ret (PList (map PList rows))
    /\ StronglySorted pos_lt ixs
    /\ (forall ix, In ix ixs <-> Forall2 (fun l i => (i < length l)%nat) ls ix)
    /\ Forall2 (choice ls) ixs rows
    /\ length rows = fold_right Nat.mul 1%nat (map (@length pval) ls).
Proof. exact CombProof.cartesian_op. Qed.
Print Assumptions C27_product.

Theorem C27_product2 : forall fmt a b, not_block a = true -> not_block b = true ->
  run_op fmt "CP" [a; b] = run_op fmt "CP" [PList [a; b]].
Proof.
  intros fmt a b Ha Hb. apply CombProof.cartesian2_op.
  - destruct a; try reflexivity; discriminate.
  - destruct b; try reflexivity; discriminate.
Qed.
Print Assumptions C27_product2.

Theorem C27_combinations : forall fmt v l k, elems v l -> 0 <= k ->
  exists cs rows, run_op fmt "CB" [v; scal_Z k] = ret (PList cs)
    /\ Forall2 elems cs rows
    /\ selections (fun ps => Z.of_nat (length ps) = k /\ StronglySorted lt ps
                             /\ Forall (fun i => (i < length l)%nat) ps) l rows
    /\ length rows = binomial (length l) (Z.to_nat k).
Proof. exact CombProof.combinations_op. Qed.
Print Assumptions C27_combinations.

Theorem C27_permutations : forall fmt v l, elems v l ->
  exists cs rows, run_op fmt "PM" [v] = ret (PList cs)
    /\ Forall2 elems cs rows
    /\ selections (fun ps => Permutation ps (seq 0 (length l))) l rows
    /\ length rows = fact (length l).
Proof. exact CombProof.permutations_op. Qed.
Print Assumptions C27_permutations.

Example C27_ex :
  run_op FmtNone "CP" [sc "ab"; PRange None (Some 2)]
  = ret (PList [PList [sc "a"; sc "0"]; PList [sc "a"; sc "1"];
                PList [sc "b"; sc "0"]; PList [sc "b"; sc "1"]])
  /\ run_op FmtNone "CB" [sc "abcd"; sc "2"]
  = ret (PList (map sc ["ab"; "ac"; "ad"; "bc"; "bd"; "cd"]))
  /\ run_op FmtNone "PM" [sc "abc"] = ret (PList (map sc ["abc"; "acb"; "bac"; "bca"; "cab"; "cba"])).
Proof. vm_compute. repeat split. Qed.

(** ** C29: splitting at positions *)

Theorem C29_split_at : forall fmt v l ix ixs, elems v l ->
  (ix = PList (map scal_Z ixs) \/ exists i, ix = scal_Z i /\ ixs = [i]) ->
  exists cs ls, run_op fmt "^@" [v; ix] = ret (PList cs)
    /\ Forall2 elems cs ls /\ concat ls = l
    /\ StronglySorted lt (cuts_from 0 ls)
    /\ length ls = S (length (cuts_from 0 ls))
    /\ (forall c, In c (cuts_from 0 ls) <->
          (c < length l)%nat /\ exists i, In i ixs
             /\ (i = Z.of_nat c \/ i + Z.of_nat (length l) = Z.of_nat c)).
Proof. exact CutProof.split_at_op. Qed.
Print Assumptions C29_split_at.

Example C29_ex :
  run_op FmtNone "^@" [sc "abcdef"; PList [sc "4"; sc "-5"; sc "4"; sc "100"]]
  = ret (PList [sc "a"; sc "bcd"; sc "ef"])
  /\ run_op FmtNone "^@" [sc "abc"; sc "0"] = ret (PList [sc ""; sc "abc"]).
Proof. vm_compute. repeat split. Qed.

(** ** C30: removal *)

Theorem C30_remove_items : forall fmt v l x, ~ scalar v -> elems v l -> plain x = true ->
  exists r, run_op fmt "RM" [v; x] = ret (PList r) /\ without x l r.
Proof.
  intros fmt v l x N E P. apply ListProof.remove_list; [|exact E|exact P].
  destruct E; try reflexivity. destruct N. exact I.
Qed.
Print Assumptions C30_remove_items.

(** One character: nothing is left of it. *)
Theorem C30_remove_char : forall fmt (s : str) (c : char),
  exists r : str, run_op fmt "RM" [PScal s; PScal [c]] = ret (PScal r)
    /\ without c s r /\ ~ In c r.
Proof.
  intros fmt s c. destruct (ListProof.remove_char fmt s c) as (r & R & W).
  exists r. split; [exact R|]. split; [exact W|]. apply (proj1 (ListProof.without_facts c s r W)).
Qed.
Print Assumptions C30_remove_char.

(** Removing a substring joins the pieces between its occurrences... *)
Theorem C30_remove_text_partial : forall fmt (s x : str), x <> [] ->
  exists ps, run_op fmt "^" [PScal s; PScal x] = ret (PList (map PScal ps))
    /\ run_op fmt "RM" [PScal s; PScal x] = ret (PScal (concat ps)).
Proof.
  intros fmt s x H. exists (str_split x s).
  split; [apply ListProof.run_split, H|apply ListProof.run_remove, H].
Qed.
Print Assumptions C30_remove_text_partial.

(** ... and can thereby create a new one: the claim for substrings is false. *)
Theorem C30_remove_text_refuted :
  run_op FmtNone "RM" [sc "aabb"; sc "ab"] = ret (sc "ab").
Proof. vm_compute. reflexivity. Qed.
Print Assumptions C30_remove_text_refuted.

Example C30_ex :
  run_op FmtNone "RM" [PList [sc "1"; sc "2"; sc "1"; sc "1.0"]; sc "1"]
  = ret (PList [sc "2"; sc "1.0"])
  /\ run_op FmtNone "RM" [sc "banana"; sc "a"] = ret (sc "bnn").
Proof. vm_compute. repeat split. Qed.

(** ** C31: item-wise operators *)

Theorem C31_unary : forall fmt text o v l,
  op_by_arity 1 (s_ text) = Some o -> itemwise o v = true -> elems v l ->
  exists out, each_run (fun x => run_op fmt text [x]) l out
    /\ run_op fmt text [v] = listed [] out.
Proof. exact ItemProof.itemwise_unary. Qed.
Print Assumptions C31_unary.

Theorem C31_left : forall fmt text o a b l,
  op_by_arity 2 (s_ text) = Some o -> itemwise o a = true -> itemwise o b = false ->
  not_block b = true -> elems a l ->
  exists out, each_run (fun x => run_op fmt text [x; b]) l out
    /\ run_op fmt text [a; b] = listed [] out.
Proof.
  intros fmt text o a b l Ho Ha Hb Nb E.
  apply (ItemProof.itemwise_left fmt text o); auto. destruct b; try reflexivity; discriminate.
Qed.
Print Assumptions C31_left.

Theorem C31_right : forall fmt text o a b l,
  op_by_arity 2 (s_ text) = Some o -> itemwise o a = false -> itemwise o b = true ->
  not_block a = true -> elems b l ->
  exists out, each_run (fun y => run_op fmt text [a; y]) l out
    /\ run_op fmt text [a; b] = listed [] out.
Proof.
  intros fmt text o a b l Ho Ha Hb Nb E.
  apply (ItemProof.itemwise_right fmt text o); auto. destruct a; try reflexivity; discriminate.
Qed.
Print Assumptions C31_right.

Theorem C31_both : forall fmt text o a b la lb,
  op_by_arity 2 (s_ text) = Some o -> itemwise o a = true -> itemwise o b = true ->
  elems a la -> elems b lb ->
  exists out, each_run (fun p => run_op fmt text [fst p; snd p]) (combine la lb) out
    /\ run_op fmt text [a; b] = listed (skipn (length lb) la ++ skipn (length la) lb) out.
Proof. exact ItemProof.itemwise_both. Qed.
Print Assumptions C31_both.

(** The binary operators expanded over Lists, and one use on nested Lists. *)
Example C31_ex :
  (exists o, op_by_arity 2 (s_ "*") = Some o /\ itemwise o (PList []) = true
             /\ itemwise o (PRange None None) = true)
  /\ run_op FmtNone "*" [PList [sc "1"; PList [sc "2"; sc "3"]; sc "4"];
                         PList [sc "10"; sc "100"]]
  = ret (PList [sc "10"; PList [sc "200"; sc "300"]; sc "4"])
  /\ run_op FmtNone "." [sc "x"; PList [sc "1"; PList [sc "2"]]]
  = ret (PList [sc "x1"; PList [sc "x2"]]).
Proof. vm_compute. repeat split. eexists. repeat split. Qed.
