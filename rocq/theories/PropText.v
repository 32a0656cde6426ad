(** * Properties C82-C85: letter case, editing text, replacing items, grids and Lists *)

From Coq Require Import String List NArith ZArith Bool Arith Lia.
From Verif Require Import PyStr PyNum PTypes Ops OpsSeq Apply Spec SpecRun SpecText.
From Verif Require TextProof RunOp NumProof.
Import ListNotations.
Local Open Scope string_scope.
Local Open Scope list_scope.
Local Open Scope Z_scope.

(** ** C82: letter case *)

(** Every character is treated by itself, and nothing but the case of a letter
    changes. *)
Theorem C82_each : forall fmt s, ascii s ->
  (exists t, run_op fmt "LC" [PScal s] = ret (PScal t) /\ Forall2 lowered s t)
  /\ (exists t, run_op fmt "UC" [PScal s] = ret (PScal t) /\ Forall2 raised s t)
  /\ (exists t, run_op fmt "SC" [PScal s] = ret (PScal t) /\ Forall2 swapped s t).
Proof.
  intros fmt s H. destruct (TextProof.run_case fmt s H) as (L & U & S1 & _).
  split; [|split]; eexists; (split; [eassumption|]); apply TextProof.Forall2_map.
  - exact TextProof.to_lower_lowered.
  - exact TextProof.to_upper_raised.
  - exact TextProof.swap_case_swapped.
Qed.
Print Assumptions C82_each.

(** [IC]: the first character is made a capital, all others small. *)
Theorem C82_initial : forall fmt c s, ascii (c :: s) ->
  exists d t, run_op fmt "IC" [PScal (c :: s)] = ret (PScal (d :: t))
    /\ raised c d /\ Forall2 lowered s t.
Proof.
  intros fmt c s H. destruct (TextProof.run_case fmt _ H) as (_ & _ & _ & I1 & _).
  eexists _, _. split; [exact I1|]. split; [apply TextProof.to_upper_raised|].
  apply TextProof.Forall2_map. exact TextProof.to_lower_lowered.
Qed.
Print Assumptions C82_initial.

(** [TC]: a letter after a letter is made small, the first of a run a capital. *)
Theorem C82_title : forall fmt s, ascii s ->
  exists t, run_op fmt "TC" [PScal s] = ret (PScal t) /\ length t = length s
    /\ (forall c, nth_error s 0 = Some c -> exists d, nth_error t 0 = Some d /\ raised c d)
    /\ (forall i b c, nth_error s i = Some b -> nth_error s (S i) = Some c ->
        exists d, nth_error t (S i) = Some d
          /\ (letter b -> lowered c d) /\ (~ letter b -> raised c d)).
Proof.
  intros fmt s H. destruct (TextProof.run_case fmt s H) as (_ & _ & _ & _ & T1).
  eexists. split; [exact T1|]. split; [apply TextProof.title_length|]. split.
  - intros c Hc. destruct (TextProof.title_nth s false 0 c Hc) as (d & Hd & _ & R).
    exists d. auto.
  - intros i b c Hb Hc. destruct (TextProof.title_nth s false (S i) c Hc) as (d & Hd & L & R).
    exists d. split; [exact Hd|]. split; intro K; [apply L|apply R]; exists b; auto.
Qed.
Print Assumptions C82_title.

(** Swapping the case twice gives the text back. *)
Theorem C82_swap_twice : forall fmt s t, ascii s ->
  run_op fmt "SC" [PScal s] = ret (PScal t) -> run_op fmt "SC" [PScal t] = ret (PScal s).
Proof.
  intros fmt s t H R. destruct (TextProof.run_case fmt s H) as (_ & _ & S1 & _).
  rewrite S1 in R. injection R as <-.
  destruct (TextProof.run_case fmt _ (TextProof.swap_ascii s H)) as (_ & _ & S2 & _).
  rewrite S2, map_map. do 2 f_equal. rewrite <- (map_id s) at 2. apply map_ext.
  exact TextProof.swap_twice.
Qed.
Print Assumptions C82_swap_twice.

(** Ranges and nil have no letters to change. *)
Theorem C82_other : forall fmt text v, In text ["LC"; "UC"; "SC"; "TC"; "IC"] ->
  match v with PRange _ _ | PNil => True | _ => False end ->
  run_op fmt text [v] = ret v.
Proof.
  intros fmt text v Ht Hv. cbn [In] in Ht.
  destruct v; try contradiction; destruct Ht as [<-|[<-|[<-|[<-|[<-|[]]]]]];
    RunOp.run_plain; reflexivity.
Qed.
Print Assumptions C82_other.

Example C82_ex :
  ascii (s_ "it's 2b-or-NOT") /\ letter 98%N /\ ~ letter 50%N
  /\ run_op FmtNone "TC" [PScal (s_ "it's 2b-or-NOT")] = ret (PScal (s_ "It'S 2B-Or-Not"))
  /\ run_op FmtNone "IC" [PScal (s_ "it's 2b-or-NOT")] = ret (PScal (s_ "It's 2b-or-not"))
  /\ run_op FmtNone "SC" [PScal (s_ "it's 2b-or-NOT")] = ret (PScal (s_ "IT'S 2B-OR-not"))
  /\ run_op FmtNone "UC" [PScal (s_ "[a{Z`")] = ret (PScal (s_ "[A{Z`")).
Proof.
  split; [repeat constructor|]. split; [exists 1%N; left; split; reflexivity|].
  split; [intros (k & [[H E]|[H E]]); lia|]. repeat split; vm_compute; reflexivity.
Qed.

(** ** C83: editing text *)

Theorem C83_wrap : forall fmt s o,
  run_op fmt "WR" [PScal s; PScal o] = ret (PScal (o ++ s ++ o)).
Proof. exact TextProof.wrap_text. Qed.
Print Assumptions C83_wrap.

Theorem C83_delete : forall fmt s x, exists t,
  run_op fmt "DC" [PScal s; PScal x] = ret (PScal t) /\ without x s t.
Proof. exact TextProof.delete_chars. Qed.
Print Assumptions C83_delete.

(** [TM n] takes [n] characters off both ends; a negative [n] takes none. *)
Theorem C83_trim : forall fmt s nb b n, decimal b ->
  Z.max 0 (numeral_value nb b) = Z.of_nat n ->
  exists t, run_op fmt "TM" [PScal s; PScal (numeral nb b)] = ret (PScal t) /\ trimmed s n n t.
Proof. exact TextProof.trim_even. Qed.
Print Assumptions C83_trim.

Theorem C83_trim_one : forall fmt s, exists t,
  run_op fmt "TM" [PScal s] = ret (PScal t) /\ trimmed s 1 1 t.
Proof. exact TextProof.trim_one. Qed.
Print Assumptions C83_trim_one.

(** [TM a,b] takes [a] off the start and [b] off the end, if [b] is not more
    than there is. *)
Theorem C83_trim_ends_partial : forall fmt s a b, (b <= length s)%nat ->
  exists t, run_op fmt "TM" [PScal s; PRange (Some (Z.of_nat a)) (Some (Z.of_nat b))] = ret (PScal t)
    /\ trimmed s a b t.
Proof. exact TextProof.trim_range. Qed.
Print Assumptions C83_trim_ends_partial.

(** With [b] too large the end of the slice is negative and counts from the
    other side: some of the text stays. *)
Theorem C83_trim_ends_refuted : exists s a b t,
  run_op FmtNone "TM" [PScal s; PRange (Some (Z.of_nat a)) (Some (Z.of_nat b))] = ret (PScal t)
  /\ ~ trimmed s a b t.
Proof.
  exists (s_ "abc"), O, 5%nat, (s_ "a"). split; [vm_compute; reflexivity|].
  intros [(u & w & E & L1 & L2)|[_ E]]; [|discriminate E].
  apply (f_equal (@length char)) in E. rewrite !app_length, L2 in E. cbn in E. lia.
Qed.
Print Assumptions C83_trim_ends_refuted.

(** [JW] puts the separator before, between and after the items. *)
Theorem C83_join_wrap : forall fmt ss x,
  run_op fmt "JW" [PList (map PScal ss); PScal x]
  = ret (PScal (x ++ concat (map (fun s => s ++ x) ss))).
Proof. exact TextProof.join_wrap. Qed.
Print Assumptions C83_join_wrap.

(** [TR] replaces every character by the one at its last place in the table. *)
Theorem C83_transliterate : forall fmt s old new,
  Forall (fun c => (c <= 1114111)%N) new ->
  exists t, run_op fmt "TR" [PScal s; PScal old; PScal new] = ret (PScal t)
    /\ Forall2 (translated old new) s t.
Proof. exact TextProof.transliterate_text. Qed.
Print Assumptions C83_transliterate.

(** [translated] determines its result. *)
Theorem C83_translated_unique : forall old new c d e,
  translated old new c d -> translated old new c e -> d = e.
Proof.
  intros old new c d e [(i & A1 & A2 & A3)|[A1 ->]] [(j & B1 & B2 & B3)|[B1 ->]]; try reflexivity.
  - assert (Li : (i < length new)%nat) by (apply nth_error_Some; congruence).
    assert (Lj : (j < length new)%nat) by (apply nth_error_Some; congruence).
    destruct (lt_eq_lt_dec i j) as [[H|H]|H].
    + exfalso. eapply A3; eauto.
    + congruence.
    + exfalso. eapply B3; eauto.
  - exfalso. eapply B1; [|exact A1]. apply nth_error_Some. congruence.
  - exfalso. eapply A1; [|exact B1]. apply nth_error_Some. congruence.
Qed.
Print Assumptions C83_translated_unique.

(** [ZJ]: as many lines as the longest line has characters; line [i] is column
    [i]. *)
Theorem C83_columns : forall fmt lines,
  run_op fmt "ZJ" [PList (map PScal lines)]
  = ret (PList (map (fun i => PScal (column lines i))
                    (seq 0 (list_max (map (@length char) lines))))).
Proof. exact TextProof.zip_join. Qed.
Print Assumptions C83_columns.

Example C83_ex :
  run_op FmtNone "WR" [PScal (s_ "b"); PScal (s_ "--")] = ret (PScal (s_ "--b--"))
  /\ run_op FmtNone "DC" [PScal (s_ "banana"); PScal (s_ "nx")] = ret (PScal (s_ "baaa"))
  /\ run_op FmtNone "TM" [PScal (s_ "banana"); PScal (s_ "2")] = ret (PScal (s_ "na"))
  /\ run_op FmtNone "TM" [PScal (s_ "ban"); PScal (s_ "2")] = ret (PScal (s_ ""))
  /\ run_op FmtNone "TM" [PScal (s_ "banana"); PRange (Some 1) (Some 4)] = ret (PScal (s_ "a"))
  /\ run_op FmtNone "JW" [PList [PScal (s_ "a"); PScal (s_ "b")]; PScal (s_ "|")]
     = ret (PScal (s_ "|a|b|"))
  /\ run_op FmtNone "TR" [PScal (s_ "banana"); PScal (s_ "anax"); PScal (s_ "123")]
     = ret (PScal (s_ "b32323"))
  /\ run_op FmtNone "ZJ" [PList [PScal (s_ "abc"); PScal (s_ "d"); PScal (s_ "ef")]]
     = ret (PList [PScal (s_ "ade"); PScal (s_ "b f"); PScal (s_ "c  ")]).
Proof. repeat split; vm_compute; reflexivity. Qed.

(** ** C84: replacing items ([RA]) *)

Theorem C84_index : forall fmt p i z q p', index_text i z -> replaced_at fmt p z q p' ->
  is_block q = false -> run_op fmt "RA" [p; i; q] = ret p'.
Proof. exact TextProof.replace_at. Qed.
Print Assumptions C84_index.

(** There is such a [p'] for every non-empty Scalar or List and every index. *)
Theorem C84_index_total : forall fmt p z q,
  match p with PScal s => s <> [] | PList l => l <> [] | _ => False end ->
  exists p', replaced_at fmt p z q p'.
Proof.
  intros fmt p z q H.
  assert (Split : forall A (l : list A), l <> [] ->
            exists l1 x l2, l = l1 ++ x :: l2 /\ z mod Z.of_nat (length l) = Z.of_nat (length l1)).
  { intros A l Hl. assert (Hn : 0 < Z.of_nat (length l)) by (destruct l; [contradiction|cbn; lia]).
    pose proof (Z.mod_pos_bound z _ Hn) as B.
    destruct (nth_error l (Z.to_nat (z mod Z.of_nat (length l)))) as [x|] eqn:E.
    - destruct (nth_error_split _ _ E) as (l1 & l2 & -> & L). exists l1, x, l2.
      split; [reflexivity|]. lia.
    - apply nth_error_None in E. lia. }
  destruct p as [s| |l| | |]; try contradiction;
    destruct (Split _ _ H) as (l1 & x & l2 & -> & E); eexists; constructor; exact E.
Qed.
Print Assumptions C84_index_total.

(** A List of indices: one after the other, with the same value or with the
    values of a List, which start over when they run out. *)
Theorem C84_indices : forall fmt p ix zs q p', Forall2 index_text ix zs ->
  (forall l, q <> PList l) -> is_block q = false ->
  is_iterable p = true -> is_block p = false ->
  replaced_in_turn fmt (fun _ => q) 0 p zs p' ->
  run_op fmt "RA" [p; PList ix; q] = ret p'.
Proof. exact TextProof.replace_each. Qed.
Print Assumptions C84_indices.

Theorem C84_values : forall fmt p ix zs ns p', Forall2 index_text ix zs ->
  ns <> [] -> is_iterable p = true -> is_block p = false ->
  replaced_in_turn fmt (fun k => nth (k mod length ns) ns PNil) 0 p zs p' ->
  run_op fmt "RA" [p; PList ix; PList ns] = ret p'.
Proof. exact TextProof.replace_pairs. Qed.
Print Assumptions C84_values.

(** A Range of indices: the whole slice is replaced. *)
Theorem C84_slice : forall fmt,
  (forall u m w q, is_block q = false ->
     run_op fmt "RA" [PScal (u ++ m ++ w);
                      PRange (Some (Z.of_nat (length u))) (Some (Z.of_nat (length (u ++ m)))); q]
     = ret (PScal (u ++ p_str fmt q ++ w)))
  /\ (forall u m w q l, elems q l ->
     run_op fmt "RA" [PList (u ++ m ++ w);
                      PRange (Some (Z.of_nat (length u))) (Some (Z.of_nat (length (u ++ m)))); q]
     = ret (PList (u ++ l ++ w))).
Proof. exact TextProof.replace_slice. Qed.
Print Assumptions C84_slice.

(** A Range is an iterable, but replacing in one ends the program with a Python
    exception, as does replacing in an empty Scalar or List. *)
Theorem C84_range_refuted : exists lo hi i q,
  run_op FmtNone "RA" [PRange lo hi; i; q] = raise TypeError
  /\ run_op FmtNone "RA" [PScal []; i; q] = raise ZeroDivisionError
  /\ run_op FmtNone "RA" [PList []; i; q] = raise ZeroDivisionError.
Proof.
  exists (Some 0), (Some 5), (scal_Z 2), (scal_Z 9). repeat split; vm_compute; reflexivity.
Qed.
Print Assumptions C84_range_refuted.

Example C84_ex :
  index_text (PScal (s_ "-02")) (-2)
  /\ run_op FmtNone "RA" [PScal (s_ "banana"); PScal (s_ "-02"); PScal (s_ "XY")]
     = ret (PScal (s_ "banaXYa"))
  /\ run_op FmtNone "RA" [PScal (s_ "abcd"); PList [scal_Z 0; scal_Z 2; scal_Z 3];
                          PList [PScal (s_ "x"); PScal (s_ "y")]]
     = ret (PScal (s_ "xbyx"))
  /\ run_op FmtNone "RA" [PList [scal_Z 1; scal_Z 2; scal_Z 3]; PRange (Some 1) (Some 3);
                          PScal (s_ "xyz")]
     = ret (PList [scal_Z 1; PScal (s_ "x"); PScal (s_ "y"); PScal (s_ "z")]).
Proof.
  split. { exists true, [0; 2]%N. split; [|split; reflexivity]. split; [discriminate|repeat constructor]. }
  repeat split; vm_compute; reflexivity.
Qed.

(** ** C85: grids, Lists built from values, inclusive Ranges, lengths *)

Theorem C85_grids : forall fmt r c zr zc n m, index_text r zr -> index_text c zc ->
  Z.max 0 zr = Z.of_nat n -> Z.max 0 zc = Z.of_nat m ->
  (exists v, run_op fmt "ZG" [r; c] = ret v /\ grid_of n m (fun _ _ p => p = scal_Z 0) v)
  /\ (exists v, run_op fmt "OG" [r; c] = ret v /\ grid_of n m (fun _ _ p => p = scal_Z 1) v)
  /\ (exists v, run_op fmt "CG" [r; c] = ret v
        /\ grid_of n m (fun i j p => p = PList [scal_Z (Z.of_nat i); scal_Z (Z.of_nat j)]) v)
  /\ (exists v, run_op fmt "ZG" [r] = ret v /\ grid_of n n (fun _ _ p => p = scal_Z 0) v)
  /\ (exists v, run_op fmt "OG" [r] = ret v /\ grid_of n n (fun _ _ p => p = scal_Z 1) v)
  /\ (exists v, run_op fmt "CG" [r] = ret v
        /\ grid_of n n (fun i j p => p = PList [scal_Z (Z.of_nat i); scal_Z (Z.of_nat j)]) v)
  /\ (exists v, run_op fmt "EY" [r] = ret v
        /\ grid_of n n (fun i j p => i = j /\ p = scal_Z 1 \/ i <> j /\ p = scal_Z 0) v).
Proof. exact TextProof.grids. Qed.
Print Assumptions C85_grids.

(** [QR] and [QP] mirror the rows and then the List of rows. *)
Theorem C85_reflect : forall fmt,
  (forall ss ts, Forall2 reflected ss ts ->
     run_op fmt "QR" [PList (map PScal ss)] = ret (PList (map PScal (ts ++ rev ts))))
  /\ (forall ls ts, Forall2 reflected ls ts ->
     run_op fmt "QR" [PList (map PList ls)] = ret (PList (map PList (ts ++ rev ts)))).
Proof. exact TextProof.quad_reflect. Qed.
Print Assumptions C85_reflect.

Theorem C85_palindromize : forall fmt,
  (forall ss ts r, Forall2 palindromized ss ts -> palindromized ts r ->
     run_op fmt "QP" [PList (map PScal ss)] = ret (PList (map PScal r)))
  /\ (forall ls ts r, Forall2 palindromized ls ts -> palindromized ts r ->
     run_op fmt "QP" [PList (map PList ls)] = ret (PList (map PList r))).
Proof. exact TextProof.quad_palindromize. Qed.
Print Assumptions C85_palindromize.

Theorem C85_append : forall fmt a l x, listed a l -> is_block x = false ->
  run_op fmt "AE" [a; x] = ret (PList (l ++ [x]))
  /\ run_op fmt "PE" [a; x] = ret (PList (x :: l)).
Proof. exact TextProof.append_elem. Qed.
Print Assumptions C85_append.

Theorem C85_append_list : forall fmt a l b m, listed a l -> listed b m ->
  run_op fmt "AL" [a; b] = ret (PList (l ++ m)).
Proof. exact TextProof.append_list. Qed.
Print Assumptions C85_append_list.

(** [a\,b] has the integers from [a] to [b], both included; [\,b] starts at 1. *)
Theorem C85_inclusive : forall fmt a b za zb, index_text a za -> index_text b zb ->
  (exists v, run_op fmt "\," [a; b] = ret v
    /\ elems v (map (fun i => PScal (str_of_Z i)) (ints_from za (Z.to_nat (zb + 1 - za)))))
  /\ (exists v, run_op fmt "\," [b] = ret v
    /\ elems v (map (fun i => PScal (str_of_Z i)) (ints_from 1 (Z.to_nat zb))))
  /\ run_op fmt "\," [a; PNil] = ret (PRange (Some za) None)
  /\ run_op fmt "\," [PNil] = ret (PRange (Some 1) None).
Proof.
  intros fmt a b za zb Ha Hb. split; [exact (TextProof.incl_range fmt a b za zb Ha Hb)|].
  split; [exact (TextProof.incl_range_to fmt b zb Hb)|exact (TextProof.endless_incl fmt a za Ha)].
Qed.
Print Assumptions C85_inclusive.

Theorem C85_lengths : forall fmt a m b n, has_length a m -> has_length b n ->
  run_op fmt "#<" [a; b] = ret (truth (shorter m n))
  /\ run_op fmt "#>" [a; b] = ret (truth (shorter n m))
  /\ run_op fmt "#=" [a; b] = ret (truth (same_length m n)).
Proof. exact TextProof.compare_lengths. Qed.
Print Assumptions C85_lengths.

Example C85_ex :
  run_op FmtNone "ZG" [PScal (s_ "2"); PScal (s_ "3")]
    = ret (PList [PList [scal_Z 0; scal_Z 0; scal_Z 0]; PList [scal_Z 0; scal_Z 0; scal_Z 0]])
  /\ run_op FmtNone "EY" [scal_Z 2]
     = ret (PList [PList [scal_Z 1; scal_Z 0]; PList [scal_Z 0; scal_Z 1]])
  /\ run_op FmtNone "CG" [scal_Z 1; scal_Z 2]
     = ret (PList [PList [PList [scal_Z 0; scal_Z 0]; PList [scal_Z 0; scal_Z 1]]])
  /\ run_op FmtNone "QR" [PList [PScal (s_ "ab"); PScal (s_ "c")]]
     = ret (PList [PScal (s_ "abba"); PScal (s_ "cc"); PScal (s_ "cc"); PScal (s_ "abba")])
  /\ run_op FmtNone "QP" [PList [PScal (s_ "ab"); PScal (s_ "c")]]
     = ret (PList [PScal (s_ "aba"); PScal (s_ "c"); PScal (s_ "aba")])
  /\ run_op FmtNone "AE" [PScal (s_ "ab"); PList []] = ret (PList [PScal (s_ "ab"); PList []])
  /\ run_op FmtNone "AL" [PRange None (Some 2); PNil] = ret (PList [scal_Z 0; scal_Z 1; PNil])
  /\ run_op FmtNone "\," [scal_Z 3; scal_Z 5] = ret (PRange (Some 3) (Some 6))
  /\ run_op FmtNone "#<" [PScal (s_ "abc"); PRange (Some 7) None] = ret (PScal (s_ "1"))
  /\ run_op FmtNone "#>" [PRange (Some 7) None; PList [PNil]] = ret (PScal (s_ "1")).
Proof. repeat split; vm_compute; reflexivity. Qed.
