(** * Regexes that are put together by the operators *)

From Coq Require Import String List NArith ZArith Bool Arith Lia.
From Verif Require Import PyStr PyRe PyNum PTypes Ops UserRe OpsSeq NumFacts SpecRegex
                          ReSound ReScan ReParse ReShift ReLit.
Import ListNotations.
Local Open Scope list_scope.

Lemma app_cut {A} (a b c d : list A) : length a = length c -> a ++ b = c ++ d -> a = c /\ b = d.
Proof.
  revert c. induction a as [|x a IH]; intros [|y c] L E; try discriminate; cbn [app] in E; [auto|].
  injection E as -> E. injection L as L. destruct (IH _ L E) as [-> ->]. auto.
Qed.

(** ** What a tree means *)

Definition is_at (r : rx) : bool := match r with XAt _ => true | _ => false end.
Definition means (r : rx) (L : language) : Prop :=
  no_ref r = true /\ is_at r = false
  /\ forall t i j, lang t r i j <-> i <= j <= length t /\ L (span t i j).

Lemma means_iff r (L M : language) : (forall t, L t <-> M t) -> means r L -> means r M.
Proof.
  intros E (N & A & H). split; [exact N|]. split; [exact A|]. intros t i j. rewrite H, E. reflexivity.
Qed.
Lemma span_len t i j : i <= j <= length t -> length (span t i j) = j - i.
Proof. intros L. apply span_length. lia. Qed.
Lemma span_cut t i j k : i <= j -> j <= k -> k <= length t -> span t i j ++ span t j k = span t i k.
Proof.
  intros L1 L2 L3. unfold span. replace (k - i) with ((j - i) + (k - j)) by lia.
  assert (E : skipn j t = skipn (j - i) (skipn i t)) by (rewrite <- skipn_add; f_equal; lia).
  rewrite E. generalize (skipn i t). clear.
  generalize (k - j). induction (j - i) as [|n IH]; intros m l; cbn [firstn skipn Nat.add]; [reflexivity|].
  destruct l; cbn [firstn skipn app]; [rewrite firstn_nil; reflexivity|]. f_equal. apply IH.
Qed.
Lemma span_split t i k a b : i <= k <= length t -> span t i k = a ++ b ->
  i <= i + length a <= k /\ span t i (i + length a) = a /\ span t (i + length a) k = b.
Proof.
  intros L E. pose proof (f_equal (@length _) E) as Q. rewrite span_len in Q by exact L.
  rewrite app_length in Q. unfold str, char in *.
  assert (L2 : i + length a <= k) by lia. split; [lia|].
  rewrite <- (span_cut t i (i + length a) k) in E by (unfold str, char in *; lia).
  apply app_cut in E; [exact E|]. rewrite span_len by (unfold str, char in *; lia). lia.
Qed.
Lemma span_one t i c : nth_error t i = Some c -> span t i (S i) = [c] /\ S i <= length t.
Proof.
  intros E. pose proof (proj1 (nth_error_Some t i) ltac:(congruence)) as Li. split; [|lia].
  unfold span. replace (S i - i) with 1 by lia. apply nth_error_split in E.
  destruct E as (a & b & -> & <-). rewrite skipn_app, skipn_all, Nat.sub_diag. reflexivity.
Qed.

Lemma means_eps : means XEps (fun t => t = []).
Proof.
  split; [reflexivity|]. split; [reflexivity|]. intros t i j. split.
  - intros H. inversion H; subst. split; [lia|]. apply span_self.
  - intros (L & E). apply (f_equal (@length _)) in E. rewrite span_len in E by exact L. cbn [length] in E.
    replace j with i by lia. constructor. lia.
Qed.
Lemma means_chr p : means (XChr p) (one_char (fun c => p c = true)).
Proof.
  split; [reflexivity|]. split; [reflexivity|]. intros t i j. split.
  - intros H. inversion H as [|? c ? Hc Hp| | | | | |]; subst.
    destruct (span_one _ _ _ Hc) as [E L]. split; [lia|]. exists c. auto.
  - intros (L & c & E & P). pose proof (f_equal (@length _) E) as Q. rewrite span_len in Q by exact L.
    cbn [length] in Q. replace j with (S i) in * by lia. apply (lang_chr t p c i); [|exact P].
    unfold span in E. replace (S i - i) with 1 in E by lia.
    destruct (skipn i t) as [|d r] eqn:Er; [discriminate|]. cbn [firstn] in E. injection E as ->.
    exact (proj1 (skipn_cons _ _ _ _ Er)).
Qed.
Lemma means_seq a b L M : means a L -> means b M -> means (XSeq a b) (followed L M).
Proof.
  intros (N1 & _ & H1) (N2 & _ & H2). split; [cbn [no_ref]; rewrite N1, N2; reflexivity|].
  split; [reflexivity|]. intros t i k. split.
  - intros H. inversion H as [| |? ? ? j ? La Lb| | | | |]; subst.
    apply H1 in La. apply H2 in Lb. destruct La as [L1 A]. destruct Lb as [L2 B]. split; [lia|].
    exists (span t i j), (span t j k). rewrite span_cut by lia. auto.
  - intros (Lk & x & y & E & A & B). destruct (span_split _ _ _ _ _ Lk E) as (L1 & E1 & E2).
    apply (lang_seq t a b i (i + length x) k).
    + apply H1. rewrite E1. unfold str, char in *. split; [lia|exact A].
    + apply H2. rewrite E2. unfold str, char in *. split; [lia|exact B].
Qed.
Lemma means_alt a b L M : means a L -> means b M -> means (XAlt a b) (either L M).
Proof.
  intros (N1 & _ & H1) (N2 & _ & H2). split; [cbn [no_ref]; rewrite N1, N2; reflexivity|].
  split; [reflexivity|]. intros t i k. split.
  - intros H. inversion H as [| | |? ? ? ? La|? ? ? ? Lb| | |]; subst.
    + apply H1 in La. unfold either. tauto.
    + apply H2 in Lb. unfold either. tauto.
  - intros (Lk & [A|A]); [apply lang_alt1, H1|apply lang_alt2, H2]; auto.
Qed.
Lemma means_grp n a L : means a L -> means (XGrp n a) L.
Proof.
  intros (N1 & _ & H1). split; [exact N1|]. split; [reflexivity|]. intros t i k. rewrite <- H1. split.
  - intros H. inversion H; subst. assumption.
  - intros H. constructor. exact H.
Qed.
Lemma langs_means a L : means a L -> forall n t i j,
  langs t a n i j <-> i <= j <= length t /\ exists ts, length ts = n /\ Forall L ts /\ span t i j = concat ts.
Proof.
  intros (_ & _ & H). induction n as [|n IH]; intros t i j; split.
  - intros Q. inversion Q; subst. split; [lia|]. exists []. repeat split; [constructor|]. apply span_self.
  - intros (Lk & ts & Ln & _ & E). destruct ts; [|discriminate]. cbn [concat] in E.
    apply (f_equal (@length _)) in E. rewrite span_len in E by exact Lk. cbn [length] in E.
    replace j with i by lia. constructor. lia.
  - intros Q. inversion Q as [|? ? ? k ? La Ls]; subst. apply H in La. apply IH in Ls.
    destruct La as [L1 A]. destruct Ls as (L2 & ts & Ln & F & E). split; [lia|].
    exists (span t i k :: ts). cbn [length concat]. rewrite <- E, span_cut by lia.
    repeat split; [congruence|]. constructor; assumption.
  - intros (Lk & ts & Ln & F & E). destruct ts as [|x ts]; [discriminate|]. cbn [length] in Ln.
    injection Ln as Ln. inversion F as [|? ? Fx Fs]; subst. cbn [concat] in E.
    destruct (span_split _ _ _ _ _ Lk E) as (L1 & E1 & E2).
    apply (langs_S t a (length ts) i (i + length x) j).
    + apply H. rewrite E1. unfold str, char in *. split; [lia|exact Fx].
    + apply IH. unfold str, char in *. split; [lia|]. exists ts. rewrite E2. auto.
Qed.
Lemma means_rep a L g lo hi : means a L ->
  means (XRep g lo hi a)
        (repeated_by (fun n => lo <= n /\ match hi with Some h => n <= h \/ n = lo | None => True end) L).
Proof.
  intros Ma. split; [exact (proj1 Ma)|]. split; [reflexivity|]. intros t i j. split.
  - intros Q. inversion Q as [| | | | |? ? ? ? n ? ? Hlo Hhi Lr| |]; subst.
    apply (langs_means a L Ma) in Lr. destruct Lr as (L1 & ts & <- & F & E). split; [exact L1|].
    exists ts. auto.
  - intros (L1 & ts & (H1 & H2) & F & E). apply (lang_rep t g lo hi a (length ts)); [exact H1|exact H2|].
    apply (langs_means a L Ma). split; [exact L1|]. eauto.
Qed.

(** ** Texts of regexes at the levels of the parser *)

Definition stops (u : str) : Prop :=
  match u with [] => True | c :: _ => N.eqb c 41 || N.eqb c 124 = true end.
Definition lead (w : str) : Prop :=
  match w with [] => False | c :: _ => existsb (N.eqb c) (s_ ")|*+?{") = false end.
Definition calm (w : str) : Prop := forall u, B (w ++ u) = w ++ B u.

Definition atom_like (w : str) (L : language) (k : nat) : Prop :=
  lead w /\ calm w /\ forall g cl, exists r cl', means r L /\
    forall u n, 4 * length w <= n -> parse_atom n 0 (g, cl) (w ++ u) = Some (r, (g + k, cl'), u).
Definition seq_like (w : str) (L : language) (k : nat) : Prop :=
  calm w /\ forall g cl, exists r cl', means r L /\
    forall u n, stops u -> 4 * length w + 2 <= n ->
                parse_seq n 0 (g, cl) (w ++ u) = Some (r, (g + k, cl'), u).
Definition alt_like (w : str) (L : language) (k : nat) : Prop :=
  calm w /\ forall g cl, exists r cl', means r L /\
    forall u n, closes u -> 4 * length w + 4 <= n ->
                parse_alt n 0 (g, cl) (w ++ u) = Some (r, (g + k, cl'), u).

Lemma calm_app v w : calm v -> calm w -> calm (v ++ w).
Proof. intros H1 H2 u. rewrite <- !app_assoc, H1, H2. reflexivity. Qed.
Lemma seq_iff w (L M : language) k : (forall t, L t <-> M t) -> seq_like w L k -> seq_like w M k.
Proof.
  intros E (C & H). split; [exact C|]. intros g cl. destruct (H g cl) as (r & cl' & Mr & P).
  exists r, cl'. split; [apply (means_iff r L M E Mr)|exact P].
Qed.
Lemma alt_iff w (L M : language) k : (forall t, L t <-> M t) -> alt_like w L k -> alt_like w M k.
Proof.
  intros E (C & H). split; [exact C|]. intros g cl. destruct (H g cl) as (r & cl' & Mr & P).
  exists r, cl'. split; [apply (means_iff r L M E Mr)|exact P].
Qed.

Lemma lead_facts w u : lead w -> exists c w', w = c :: w'
  /\ N.eqb c 41 || N.eqb c 124 = false /\ repetition (w ++ u) = Some (None, w ++ u).
Proof.
  destruct w as [|c w]; [contradiction|]. cbn [lead]. intros H. exists c, w. split; [reflexivity|].
  change (existsb (N.eqb c) (s_ ")|*+?{"))
    with (N.eqb c 41 || (N.eqb c 124 || (N.eqb c 42 || (N.eqb c 43 || (N.eqb c 63 || (N.eqb c 123 || false)))))) in H.
  apply orb_false_iff in H. destruct H as [H1 H]. apply orb_false_iff in H. destruct H as [H2 H].
  apply orb_false_iff in H. destruct H as [H3 H]. apply orb_false_iff in H. destruct H as [H4 H].
  apply orb_false_iff in H. destruct H as [H5 H]. apply orb_false_iff in H. destruct H as [H6 _].
  split; [rewrite H1, H2; reflexivity|]. cbn [app]. rewrite repetition_eq, H3, H4, H5, H6. reflexivity.
Qed.
Lemma stops_rep u : stops u -> repetition u = Some (None, u).
Proof.
  rewrite repetition_eq. destruct u as [|c u]; [reflexivity|]. cbn [stops]. intros H.
  apply orb_prop in H. destruct H as [H|H]; apply N.eqb_eq in H; subst c; reflexivity.
Qed.

Definition plain (u : str) : Prop :=
  match u with [] => True | c :: _ => existsb (N.eqb c) (s_ "*+?{") = false end.
Lemma stops_plain u : stops u -> plain u.
Proof.
  destruct u as [|c u]; [reflexivity|]. cbn [stops plain]. intros H.
  apply orb_prop in H. destruct H as [H|H]; apply N.eqb_eq in H; subst c; reflexivity.
Qed.

Lemma seq_nil : seq_like [] (fun t => t = []) 0.
Proof.
  split; [intros u; reflexivity|]. intros g cl. exists XEps, cl. split; [apply means_eps|].
  intros u n St Ln. destruct n as [|n]; [lia|]. rewrite parse_seq_eq, Nat.add_0_r. cbn [app].
  destruct u as [|c u]; [reflexivity|]. cbn [stops] in St. rewrite St. reflexivity.
Qed.
(** An item, how often, and what follows. *)
Lemma seq_cons w q v L M K k l :
  atom_like w L k -> seq_like v M l -> calm q ->
  (forall a, means a L -> exists a', means a' K /\ forall u, stops u ->
     exists x, repetition (q ++ v ++ u) = Some (x, v ++ u) /\ repeated a x = Some a') ->
  seq_like (w ++ q ++ v) (followed K M) (k + l).
Proof.
  intros (Hl & Cw & Hw) (Cv & Hv) Cq R. split; [apply calm_app; [exact Cw|apply calm_app; assumption]|].
  intros g cl. destruct (Hw g cl) as (a & cl1 & Ma & Pa). destruct (Hv (g + k) cl1) as (b & cl2 & Mb & Pb).
  destruct (R a Ma) as (a' & Ma' & Ra). exists (XSeq a' b), cl2. split; [apply means_seq; assumption|].
  intros u n St Ln. destruct n as [|n]; [lia|]. destruct (lead_facts w [] Hl) as (c & w' & Ew & Hc & _).
  rewrite parse_seq_eq. rewrite <- !app_assoc. rewrite !app_length in Ln.
  rewrite Pa by lia. destruct (Ra u St) as (x & E1 & E2). rewrite E1, E2.
  rewrite Pb by (auto; unfold str, char in *; subst w; cbn [length] in Ln; lia).
  subst w. cbn [app]. rewrite Hc, Nat.add_assoc. reflexivity.
Qed.
Lemma seq_then w v L M k l : atom_like w L k -> seq_like v M l -> v = [] \/ lead v ->
  seq_like (w ++ v) (followed L M) (k + l).
Proof.
  intros Hw Hv Lv. apply (seq_cons w [] v L M L); [exact Hw|exact Hv|intros u; reflexivity|].
  intros a Ma. exists a. split; [exact Ma|]. intros u St. exists None. split; [|reflexivity]. cbn [app].
  destruct Lv as [->|Lv]; [apply stops_rep; exact St|].
  destruct (lead_facts v u Lv) as (c & v' & _ & _ & E). exact E.
Qed.
Lemma followed_nil (L : language) t : followed L (fun x => x = []) t <-> L t.
Proof.
  split.
  - intros (a & b & -> & A & ->). rewrite app_nil_r. exact A.
  - intros A. exists t, []. rewrite app_nil_r. auto.
Qed.
Lemma seq_atom w L k : atom_like w L k -> seq_like w L k.
Proof.
  intros H. apply (seq_iff _ _ _ _ (followed_nil L)).
  pose proof (seq_then w [] L _ k 0 H seq_nil (or_introl eq_refl)) as Q.
  rewrite app_nil_r, Nat.add_0_r in Q. exact Q.
Qed.
Lemma seq_rep w q L k lo hi : atom_like w L k -> calm q ->
  (forall u, plain u -> repetition (q ++ u) = Some (Some (true, lo, hi), u)) ->
  seq_like (w ++ q)
    (repeated_by (fun n => lo <= n /\ match hi with Some h => n <= h \/ n = lo | None => True end) L) k.
Proof.
  intros Hw Cq R. apply (seq_iff _ _ _ _ (followed_nil _)).
  pose proof (seq_cons w q [] L (fun x => x = [])
    (repeated_by (fun n => lo <= n /\ match hi with Some h => n <= h \/ n = lo | None => True end) L) k 0 Hw
    seq_nil Cq) as Q.
  rewrite app_nil_r, Nat.add_0_r in Q. apply Q.
  intros a Ma. exists (XRep true lo hi a). split; [apply means_rep; exact Ma|].
  intros u St. exists (Some (true, lo, hi)). split; [apply R, stops_plain; exact St|].
  destruct Ma as (_ & A & _). destruct a; try reflexivity. discriminate A.
Qed.
Lemma closes_stops u : closes u -> stops u.
Proof. destruct u as [|c u]; [reflexivity|]. cbn [closes stops]. intros ->. reflexivity. Qed.
Lemma alt_seq w L k : seq_like w L k -> alt_like w L k.
Proof.
  intros (C & H). split; [exact C|]. intros g cl. destruct (H g cl) as (r & cl' & Mr & P).
  exists r, cl'. split; [exact Mr|]. intros u n Cu Ln. destruct n as [|n]; [lia|].
  rewrite parse_alt_eq, P by (auto using closes_stops; lia).
  destruct u as [|c u]; [reflexivity|]. cbn [closes] in Cu. subst c. reflexivity.
Qed.
Lemma calm_char c : N.eqb c 92 = false -> calm [c].
Proof. intros E u. apply B_cons. exact E. Qed.
Lemma alt_or w v L M k l : seq_like w L k -> alt_like v M l ->
  alt_like (w ++ s_ "|" ++ v) (either L M) (k + l).
Proof.
  intros (Cw & Hw) (Cv & Hv).
  split; [apply calm_app; [exact Cw|apply calm_app; [apply calm_char; reflexivity|exact Cv]]|].
  intros g cl. destruct (Hw g cl) as (a & cl1 & Ma & Pa). destruct (Hv (g + k) cl1) as (b & cl2 & Mb & Pb).
  exists (XAlt a b), cl2. split; [apply means_alt; assumption|]. intros u n Cu Ln.
  rewrite !app_length in Ln. change (length (s_ "|")) with 1 in Ln.
  destruct n as [|n]; [lia|]. rewrite parse_alt_eq, <- !app_assoc, Pa by (cbn; auto; lia).
  change ((s_ "|" ++ v ++ u)) with (124%N :: v ++ u). cbv iota.
  change (N.eqb 124 124) with true. cbv iota. rewrite Pb by (auto; lia).
  rewrite Nat.add_assoc. reflexivity.
Qed.
Lemma atom_wrap w L k : alt_like w L k -> atom_like (s_ "(?:" ++ w ++ s_ ")") L k.
Proof.
  intros (C & H). split; [reflexivity|].
  split. { intros u. rewrite <- !app_assoc.
    change (B (s_ "(?:" ++ w ++ s_ ")" ++ u)) with (s_ "(?:" ++ B (w ++ s_ ")" ++ u)). rewrite C. reflexivity. }
  intros g cl. destruct (H g cl) as (r & cl' & Mr & P). exists r, cl'. split; [exact Mr|].
  intros u n Ln. rewrite !app_length in Ln. change (length (s_ "(?:")) with 3 in Ln.
  change (length (s_ ")")) with 1 in Ln. destruct n as [|n]; [lia|].
  rewrite parse_atom_eq, <- !app_assoc.
  change (s_ "(?:" ++ w ++ s_ ")" ++ u) with (40%N :: s_ "?:" ++ w ++ s_ ")" ++ u).
  change (N.eqb 40 40) with true. cbv iota.
  change (startswith (s_ "?:") (s_ "?:" ++ w ++ s_ ")" ++ u)) with true. cbv iota.
  change (skipn 2 (s_ "?:" ++ w ++ s_ ")" ++ u)) with (w ++ s_ ")" ++ u).
  rewrite P by (cbn; auto; lia). reflexivity.
Qed.
Lemma alt_head w L k : alt_like w L k -> match w with 63%N :: _ => False | _ => True end.
Proof.
  intros (_ & H). destruct w as [|c w]; [exact I|].
  destruct (N.eq_dec c 63) as [->|Ne].
  - exfalso. destruct (H 0 []) as (r & cl' & _ & P).
    specialize (P [] (S (S (S (4 * length (63%N :: w) + 4)))) I ltac:(unfold str, char in *; lia)).
    rewrite parse_alt_eq, parse_seq_eq, parse_atom_eq in P. discriminate P.
  - destruct c as [|p]; [exact I|]. repeat (destruct p as [p|p|]; try exact I). contradiction Ne. reflexivity.
Qed.
Lemma atom_group w L k : alt_like w L k -> atom_like (s_ "(" ++ w ++ s_ ")") L (S k).
Proof.
  intros Hw. pose proof (alt_head _ _ _ Hw) as Hh. destruct Hw as (C & H). split; [reflexivity|].
  split. { intros u. rewrite <- !app_assoc.
    change (B (s_ "(" ++ w ++ s_ ")" ++ u)) with (s_ "(" ++ B (w ++ s_ ")" ++ u)). rewrite C. reflexivity. }
  intros g cl. destruct (H (S g) cl) as (r & cl' & Mr & P). exists (XGrp (S g) r), (S g :: cl').
  split; [apply means_grp; exact Mr|].
  intros u n Ln. rewrite !app_length in Ln. change (length (s_ "(")) with 1 in Ln.
  change (length (s_ ")")) with 1 in Ln. destruct n as [|n]; [lia|].
  rewrite parse_atom_eq, <- !app_assoc.
  change (s_ "(" ++ w ++ s_ ")" ++ u) with (40%N :: w ++ s_ ")" ++ u).
  change (N.eqb 40 40) with true. cbv iota.
  assert (Hd : forall p, startswith (63%N :: p) (w ++ s_ ")" ++ u) = false).
  { intros p. destruct w as [|c w]; [reflexivity|]. cbn [app startswith].
    destruct (N.eqb_spec 63 c) as [<-|]; [contradiction|reflexivity]. }
  change (s_ "?:") with (63%N :: s_ ":"). change group_name with (63%N :: s_ "P<all>").
  rewrite !Hd.
  assert (Hb : match w ++ s_ ")" ++ u with d :: _ => if N.eqb d 63 then None else Some (w ++ s_ ")" ++ u)
               | [] => Some (w ++ s_ ")" ++ u) end = Some (w ++ s_ ")" ++ u)).
  { destruct w as [|c w]; [reflexivity|]. cbn [app].
    destruct (N.eqb_spec c 63) as [->|]; [contradiction|reflexivity]. }
  cbv zeta. rewrite Hb. cbn [fst snd]. rewrite P by (cbn; auto; lia).
  replace (S g + k) with (g + S k) by lia. reflexivity.
Qed.

(** ** Patterns *)

(** A regex that can be put together with others after [Pattern.wrap]. *)
Definition part (raw : str) (L : language) : Prop :=
  exists k, alt_like raw L k /\ (length raw = 1 -> atom_like raw L k).
Lemma wrap_part raw L : part raw L -> exists k,
  (raw = [] /\ pat_wrap raw = [] /\ (forall t, t = [] <-> L t)) \/ (raw <> [] /\ atom_like (pat_wrap raw) L k).
Proof.
  intros (k & Ha & H1). exists k. unfold pat_wrap. destruct (Z.ltb_spec 1 (zlen raw)) as [Z1|Z1].
  - right. split; [intros ->; cbn in Z1; lia|]. apply atom_wrap. exact Ha.
  - unfold zlen in Z1. destruct raw as [|c [|d raw]].
    + left. split; [reflexivity|]. split; [reflexivity|]. intros t.
      destruct Ha as (_ & H). destruct (H 0 []) as (r & cl' & Mr & P).
      specialize (P [] 4 I ltac:(cbn; lia)). rewrite parse_alt_eq, parse_seq_eq in P. cbn [app] in P.
      injection P as <- _ _. destruct Mr as (_ & _ & M). destruct means_eps as (_ & _ & M').
      specialize (M t 0 (length t)). specialize (M' t 0 (length t)).
      assert (Sp : span t 0 (length t) = t).
      { unfold span. cbn [skipn]. rewrite Nat.sub_0_r. apply firstn_all. }
      rewrite Sp in M, M'. assert (0 <= length t <= length t) by lia. tauto.
    + right. split; [discriminate|]. apply H1. reflexivity.
    + cbn [length] in Z1. lia.
Qed.
Lemma part_long raw L k : alt_like raw L k -> length raw <> 1 -> part raw L.
Proof. intros H Ne. exists k. split; [exact H|]. intros E. contradiction. Qed.

Lemma atom_iff w (L M : language) k : (forall t, L t <-> M t) -> atom_like w L k -> atom_like w M k.
Proof.
  intros E (Hl & C & H). split; [exact Hl|]. split; [exact C|]. intros g cl.
  destruct (H g cl) as (r & cl' & Mr & P).
  exists r, cl'. split; [apply (means_iff r L M E Mr)|exact P].
Qed.
Lemma part_iff raw (L M : language) : (forall t, L t <-> M t) -> part raw L -> part raw M.
Proof.
  intros E (k & Ha & H1). exists k. split; [apply (alt_iff _ L M k E Ha)|].
  intros L1. apply (atom_iff _ L M k E (H1 L1)).
Qed.
Lemma atom_part w L k : atom_like w L k -> part w L.
Proof. intros H. exists k. split; [apply alt_seq, seq_atom; exact H|]. intros _. exact H. Qed.
Lemma nil_part : part [] (fun t => t = []).
Proof. apply (part_long [] _ 0); [apply alt_seq, seq_nil|discriminate]. Qed.
Lemma part_wrap raw L : part raw L -> part (pat_wrap raw) L.
Proof.
  intros H. destruct (wrap_part raw L H) as (k & [(-> & E & El)|(_ & A)]).
  - exact H.
  - apply (atom_part _ _ k A).
Qed.

(** Texts. *)
Definition esc (c : char) : str := if cls_in re_special c then [c_backslash; c] else [c].
Lemma esc_atom c : atom_like (esc c) (fun t => t = [c]) 0.
Proof.
  unfold esc.
  assert (Mc : means (XLit 0 c) (fun t => t = [c])).
  { refine (means_iff _ _ _ _ (means_chr _)). intros t. unfold one_char.
    change (fold_case 0 (N.eqb c)) with (N.eqb c). split.
    - intros (d & -> & E). apply N.eqb_eq in E. subst d. reflexivity.
    - intros ->. exists c. split; [reflexivity|apply N.eqb_refl]. }
  destruct (cls_in re_special c) eqn:E.
  - split; [reflexivity|]. apply cls_in_spec in E. split.
    + intros u. cbn [app]. change c_backslash with 92%N. apply B_esc.
      vm_compute in E. repeat (destruct E as [<-|E]; [reflexivity|]). contradiction.
    + intros g cl. exists (XLit 0 c), cl. split; [exact Mc|]. intros u n Ln. destruct n as [|n]; [cbn in Ln; lia|].
      rewrite parse_atom_eq, Nat.add_0_r. cbn [app]. change (N.eqb c_backslash 40) with false.
      change (N.eqb c_backslash 91) with false. change (N.eqb c_backslash 92) with true. cbv iota.
      rewrite (special_escape 0 (g, cl) c _ E). reflexivity.
  - split; [|split].
    + cbn [lead]. change (existsb (N.eqb c) (s_ ")|*+?{"))
        with (N.eqb c 41 || (N.eqb c 124 || (N.eqb c 42 || (N.eqb c 43 || (N.eqb c 63 || (N.eqb c 123 || false)))))).
      rewrite !(plain_neq c) by (try exact E; special). reflexivity.
    + apply calm_char. apply (plain_neq c); [exact E|special].
    + intros g cl. exists (XLit 0 c), cl. split; [exact Mc|]. intros u n Ln. destruct n as [|n]; [cbn in Ln; lia|].
      rewrite parse_atom_eq, Nat.add_0_r. cbn [app].
      rewrite !(plain_neq c) by (try exact E; special).
      change (existsb (N.eqb c) (s_ "*+?{"))
        with (N.eqb c 42 || (N.eqb c 43 || (N.eqb c 63 || (N.eqb c 123 || false)))).
      rewrite !(plain_neq c) by (try exact E; special). reflexivity.
Qed.
Lemma escape_seq s : seq_like (re_escape s) (fun t => t = s) 0 /\ (re_escape s = [] \/ lead (re_escape s)).
Proof.
  induction s as [|c s [IH Ld]].
  - split; [apply seq_nil|left; reflexivity].
  - rewrite escape_cons. change (if cls_in re_special c then [c_backslash; c] else [c]) with (esc c). split.
    + refine (seq_iff _ _ _ _ _ (seq_then _ _ _ _ 0 0 (esc_atom c) IH Ld)). intros t. split.
      * intros (a & b & -> & -> & ->). reflexivity.
      * intros ->. exists [c], s. auto.
    + right. destruct (esc_atom c) as (Hl & _). destruct (esc c); [contradiction|exact Hl].
Qed.
Lemma escape_part s : part (re_escape s) (fun t => t = s).
Proof.
  exists 0. split; [apply alt_seq, escape_seq|]. intros L1.
  destruct s as [|c s]; [discriminate|]. rewrite escape_cons in *. rewrite app_length in L1.
  pose proof (escape_length s) as Le. destruct s as [|d s].
  - cbn [re_escape map concat] in *. rewrite app_nil_r. apply esc_atom.
  - exfalso. cbn [length] in Le. destruct (cls_in re_special c); cbn [length] in L1; unfold str, char in *; lia.
Qed.
Lemma literal_part s : part (literal_regex s) (fun t => t = s).
Proof. apply part_wrap, escape_part. Qed.

Lemma part_piece raw L : part raw L -> seq_like (pat_wrap raw) L 0 \/ exists k, seq_like (pat_wrap raw) L k.
Proof.
  intros H. right. destruct (wrap_part raw L H) as (k & [(_ & E & El)|(_ & A)]).
  - exists 0. rewrite E. apply (seq_iff _ _ _ _ El seq_nil).
  - exists k. apply seq_atom. exact A.
Qed.
Lemma lead_length w : lead w -> 1 <= length w.
Proof. destruct w; [contradiction|cbn [length]; lia]. Qed.

(** [Pattern.concat]. *)
Lemma part_then raw raw' L M : part raw L -> part raw' M ->
  part (pat_wrap raw ++ pat_wrap raw') (followed L M).
Proof.
  intros H1 H2.
  destruct (wrap_part raw L H1) as (k & [(_ & E & El)|(_ & A)]);
    destruct (wrap_part raw' M H2) as (k' & [(_ & E' & El')|(_ & A')]); rewrite ?E, ?E'; cbn [app].
  - refine (part_iff _ _ _ _ nil_part). intros t. split.
    + intros ->. exists [], []. rewrite <- El, <- El'. auto.
    + intros (a & b & -> & A & B). apply El in A. apply El' in B. subst. reflexivity.
  - refine (part_iff _ _ _ _ (atom_part _ _ _ A')). intros t. split.
    + intros A. exists [], t. rewrite <- El. auto.
    + intros (a & b & -> & A & B). apply El in A. subst. exact B.
  - rewrite app_nil_r. refine (part_iff _ _ _ _ (atom_part _ _ _ A)). intros t. split.
    + intros B. exists t, []. rewrite <- El', app_nil_r. auto.
    + intros (a & b & -> & B & C). apply El' in C. subst. rewrite app_nil_r. exact B.
  - apply (part_long _ _ (k + k')).
    + apply alt_seq. apply seq_then; [exact A|apply seq_atom; exact A'|right; apply A'].
    + rewrite app_length. pose proof (lead_length _ (proj1 A)). pose proof (lead_length _ (proj1 A')). lia.
Qed.
(** [Pattern.alternate]. *)
Lemma part_or raw raw' L M : part raw L -> part raw' M -> pat_wrap raw ++ s_ "|" ++ pat_wrap raw' <> s_ "|" ->
  part (pat_wrap raw ++ s_ "|" ++ pat_wrap raw') (either L M).
Proof.
  intros H1 H2 Ne. destruct (part_piece raw L H1) as [P1|(k & P1)]; destruct (part_piece raw' M H2) as [P2|(k' & P2)];
    (eapply part_long; [apply alt_or; [exact P1|apply alt_seq; exact P2]|]);
    intros L1; rewrite !app_length in L1; change (length (s_ "|")) with 1 in L1;
    (destruct (pat_wrap raw); [|cbn [length] in L1; lia]); (destruct (pat_wrap raw'); [|cbn [length] in L1; lia]);
    apply Ne; reflexivity.
Qed.
Lemma texts_alt ss : ss <> [] ->
  exists k, alt_like (str_join (s_ "|") (map literal_regex ss)) (fun t => In t ss) k.
Proof.
  induction ss as [|s ss IH]; intros Ne; [contradiction|]. destruct ss as [|s' ss].
  - cbn [map str_join]. destruct (literal_part s) as (k & A & _). exists k.
    refine (alt_iff _ _ _ _ _ A). intros t. split; [intros ->; left; reflexivity|].
    intros [->|[]]. reflexivity.
  - destruct (IH ltac:(discriminate)) as (k & A).
    change (str_join (s_ "|") (map literal_regex (s :: s' :: ss)))
      with (literal_regex s ++ s_ "|" ++ str_join (s_ "|") (map literal_regex (s' :: ss))).
    assert (exists k', seq_like (literal_regex s) (fun t => t = s) k') as (k' & S0).
    { destruct (part_piece _ _ (escape_part s)) as [P|(k' & P)]; [exists 0|exists k']; exact P. }
    exists (k' + k). refine (alt_iff _ _ _ _ _ (alt_or _ _ _ _ _ _ S0 A)).
    intros t. unfold either. cbn [In]. split; intros [E|E]; auto.
Qed.
Lemma texts_inner ss : ss <> [] -> pat_wrap (str_join (s_ "|") (map literal_regex ss)) <> s_ "|" ->
  part (str_join (s_ "|") (map literal_regex ss)) (fun t => In t ss).
Proof.
  intros Ne Np. destruct ss as [|s [|s' ss]]; [contradiction| |].
  - cbn [map str_join]. refine (part_iff _ _ _ _ (literal_part s)).
    intros t. split; [intros ->; left; reflexivity|]. intros [->|[]]. reflexivity.
  - destruct (texts_alt _ Ne) as (k & A). apply (part_long _ _ k A). intros L1. apply Np.
    change (str_join (s_ "|") (map literal_regex (s :: s' :: ss)))
      with (literal_regex s ++ s_ "|" ++ str_join (s_ "|") (map literal_regex (s' :: ss))) in *.
    rewrite !app_length in L1. change (length (s_ "|")) with 1 in L1.
    destruct (literal_regex s); [|cbn [length] in L1; lia].
    destruct (str_join (s_ "|") (map literal_regex (s' :: ss))); [reflexivity|cbn [length] in L1; lia].
Qed.
Lemma texts_part ss : ss <> [] -> pat_wrap (str_join (s_ "|") (map literal_regex ss)) <> s_ "|" ->
  part (pat_wrap (str_join (s_ "|") (map literal_regex ss))) (fun t => In t ss).
Proof. intros Ne Np. apply part_wrap, texts_inner; assumption. Qed.

(** Repetition. *)
Lemma part_rep raw q L lo hi : part raw L -> raw <> [] -> q <> [] -> calm q ->
  (forall u, plain u -> repetition (q ++ u) = Some (Some (true, lo, hi), u)) ->
  part (pat_wrap raw ++ q)
    (repeated_by (fun n => lo <= n /\ match hi with Some h => n <= h \/ n = lo | None => True end) L).
Proof.
  intros H Ne Nq Cq R. destruct (wrap_part raw L H) as (k & [(E & _)|(_ & A)]); [contradiction|].
  apply (part_long _ _ k); [apply alt_seq, seq_rep; assumption|].
  rewrite app_length. pose proof (lead_length _ (proj1 A)). destruct q; [contradiction|cbn [length]; lia].
Qed.
Lemma repeated_iff (n m : nat -> Prop) L t : (forall k, n k <-> m k) ->
  repeated_by n L t <-> repeated_by m L t.
Proof.
  intros E. split; intros (ts & A & F); exists ts; (split; [apply E; exact A|exact F]).
Qed.
Lemma lazy_plain lo hi u : plain u -> lazy_mark lo hi u = Some (Some (true, lo, hi), u).
Proof.
  rewrite lazy_mark_eq. destruct u as [|c u]; [reflexivity|]. cbn [plain]. intros H. rewrite H.
  destruct (N.eqb_spec c 63) as [->|Ne]; [discriminate|reflexivity].
Qed.
Lemma rep_star u : plain u -> repetition (s_ "*" ++ u) = Some (Some (true, 0, None), u).
Proof.
  intros St. rewrite repetition_eq. change (s_ "*" ++ u) with (42%N :: u). cbv iota.
  change (N.eqb 42 42) with true. cbv iota. apply lazy_plain. exact St.
Qed.
Lemma rep_plus u : plain u -> repetition (s_ "+" ++ u) = Some (Some (true, 1, None), u).
Proof.
  intros St. rewrite repetition_eq. change (s_ "+" ++ u) with (43%N :: u). cbv iota.
  change (N.eqb 43 42) with false. change (N.eqb 43 43) with true. cbv iota. apply lazy_plain. exact St.
Qed.
Lemma part_star raw L : part raw L -> raw <> [] ->
  part (pat_wrap raw ++ s_ "*") (repeated_by (fun _ => True) L).
Proof.
  intros H Ne. refine (part_iff _ _ _ _ (part_rep raw (s_ "*") L 0 None H Ne _ _ _)).
  - intros t. apply repeated_iff. intros k. split; [auto|]. intros _. split; [lia|exact I].
  - discriminate.
  - apply calm_char. reflexivity.
  - exact rep_star.
Qed.
Lemma part_plus raw L : part raw L -> raw <> [] ->
  part (pat_wrap raw ++ s_ "+") (repeated_by (fun n => 1 <= n) L).
Proof.
  intros H Ne. refine (part_iff _ _ _ _ (part_rep raw (s_ "+") L 1 None H Ne _ _ _)).
  - intros t. apply repeated_iff. intros k. split; [intros [A _]; exact A|]. intros A. split; [exact A|exact I].
  - discriminate.
  - apply calm_char. reflexivity.
  - exact rep_plus.
Qed.
Lemma calm_plain w : forallb (fun c => negb (N.eqb c 92)) w = true -> calm w.
Proof.
  induction w as [|c w IH]; intros H u; [reflexivity|]. cbn [forallb] in H. apply andb_prop in H.
  destruct H as [H1 H2]. apply negb_true_iff in H1. cbn [app]. rewrite B_cons by exact H1.
  rewrite IH by exact H2. reflexivity.
Qed.
Lemma digits_from_value ds : ascii_digits ds -> forall u acc, starts_digit u = false ->
  digits_from acc (ds ++ u)
  = (N.to_nat (fold_left (fun a d => (a * 10 + d)%N) (map digit_val0 ds) (N.of_nat acc)), u).
Proof.
  induction 1 as [|c ds Hc _ IH]; intros u acc Hu; cbn [app map fold_left].
  - rewrite Nat2N.id. destruct u as [|c u]; [reflexivity|]. cbn [starts_digit] in Hu.
    cbn [digits_from]. rewrite Hu. reflexivity.
  - cbn [digits_from]. assert (is_ascii_digit c = true) as ->.
    { unfold is_ascii_digit. apply andb_true_intro. split; apply N.leb_le; lia. }
    rewrite IH by exact Hu. do 3 f_equal. assert (digit_val0 c = (c - 48)%N) as ->.
    { replace c with (48 + (c - 48))%N at 1 by lia. apply digit_val0_ascii. lia. }
    unfold char in *. lia.
Qed.
Definition times (n : nat) : str := s_ "{" ++ str_of_Z (Z.of_nat n) ++ s_ "}".
Lemma times_shape n : exists c r, str_of_Z (Z.of_nat n) = c :: r /\ ascii_digits (c :: r)
  /\ N_of_digits (c :: r) = N.of_nat n.
Proof.
  destruct (str_of_Z_shape (Z.of_nat n)) as (c & r & _ & Hd & Hv & E).
  replace (Z.of_nat n <? 0)%Z with false in E by (symmetry; apply Z.ltb_ge; lia). cbn [app] in E.
  exists c, r. split; [exact E|]. split; [exact Hd|]. rewrite Hv. lia.
Qed.
Lemma times_calm n : calm (times n).
Proof.
  destruct (times_shape n) as (c & r & E & Hd & _). unfold times. rewrite E.
  apply calm_app; [apply calm_char; reflexivity|]. apply calm_app; [|apply calm_char; reflexivity].
  apply calm_plain. apply forallb_forall. intros x Hx. unfold ascii_digits in Hd. rewrite Forall_forall in Hd.
  specialize (Hd x Hx). apply negb_true_iff, N.eqb_neq. lia.
Qed.
Lemma rep_times n u : plain u -> repetition (times n ++ u) = Some (Some (true, n, Some n), u).
Proof.
  intros St. destruct (times_shape n) as (c & r & E & Hd & Hv). unfold times. rewrite E.
  rewrite repetition_eq. rewrite <- !app_assoc.
  change (s_ "{" ++ (c :: r) ++ s_ "}" ++ u) with (123%N :: (c :: r) ++ s_ "}" ++ u). cbv iota.
  change (N.eqb 123 42) with false. change (N.eqb 123 43) with false. change (N.eqb 123 63) with false.
  change (N.eqb 123 123) with true. cbv iota. unfold brace.
  assert (starts_digit ((c :: r) ++ s_ "}" ++ u) = true) as ->.
  { cbn [app starts_digit]. inversion Hd as [|? ? Hc _]; subst. unfold is_ascii_digit.
    apply andb_true_intro. split; apply N.leb_le; unfold char in *; lia. }
  cbn [orb]. rewrite (digits_from_value (c :: r) Hd (s_ "}" ++ u) 0 eq_refl).
  change (fold_left (fun a d => (a * 10 + d)%N) (map digit_val0 (c :: r)) (N.of_nat 0))
    with (N_of_digits (c :: r)).
  rewrite Hv. replace (N.to_nat (N.of_nat n)) with n by lia.
  change (s_ "}" ++ u) with (125%N :: u). cbv iota. change (N.eqb 125 125) with true. cbv iota.
  apply lazy_plain. exact St.
Qed.
Lemma part_times raw L z n : part raw L -> raw <> [] -> z = Z.of_nat n ->
  part (pat_wrap raw ++ s_ "{" ++ str_of_Z z ++ s_ "}") (repeated_by (eq n) L).
Proof.
  intros H Ne ->.
  refine (part_iff _ _ _ _ (part_rep raw (times n) L n (Some n) H Ne _ (times_calm n) (rep_times n))).
  - intros t. apply repeated_iff. intros k. split; intros; lia.
  - discriminate.
Qed.
Lemma part_group raw L : part raw L -> part (s_ "(" ++ raw ++ s_ ")") L.
Proof. intros (k & A & _). apply (atom_part _ _ (S k)). apply atom_group. exact A. Qed.

(** The Patterns in variables. *)
Lemma class_atom raw (P : char -> Prop) p : lead raw -> calm raw ->
  (forall c, p c = true <-> P c) ->
  (forall n g cl u, parse_atom (S n) 0 (g, cl) (raw ++ u) = Some (XChr p, (g, cl), u)) ->
  atom_like raw (one_char P) 0.
Proof.
  intros Ld Ca Hp Pa. split; [exact Ld|]. split; [exact Ca|].
  intros g cl. exists (XChr p), cl. split.
  - refine (means_iff _ _ _ _ (means_chr p)). intros t. unfold one_char.
    split; intros (c & E & Q); exists c; (split; [exact E|]); apply Hp; exact Q.
  - intros u n Ln. destruct n as [|n].
    + apply lead_length in Ld. lia.
    + rewrite Pa, Nat.add_0_r. reflexivity.
Qed.
Definition mem (s : str) : char -> bool :=
  fold_right (fun (c : char) (p : char -> bool) x => N.eqb c x || p x) (fun _ => false) s.
Lemma mem_spec s c : mem s c = true <-> one_of s c.
Proof.
  unfold one_of. induction s as [|d s IH]; cbn [mem fold_right In].
  - split; [discriminate|contradiction].
  - rewrite orb_true_iff, N.eqb_eq. change (fold_right _ _ s c) with (mem s c). rewrite IH. tauto.
Qed.
Lemma range_class a b raw :
  lead raw -> forallb (fun c => negb (N.eqb c 92)) raw = true ->
  (forall n g cl u, parse_atom (S n) 0 (g, cl) (raw ++ u)
     = Some (XChr (fun c => xorb false (fold_case 0 (fun x => (N.leb a x && N.leb x b) || false) c)), (g, cl), u)) ->
  atom_like raw (one_char (between a b)) 0.
Proof.
  intros Ld Ca Pa. eapply class_atom; [exact Ld|apply calm_plain; exact Ca| |exact Pa].
  intros c. cbn beta. change (xorb false (fold_case 0 (fun x => (N.leb a x && N.leb x b) || false) c))
    with (xorb false ((N.leb a c && N.leb c b) || false)).
  rewrite orb_false_r, xorb_false_l, andb_true_iff, !N.leb_le. reflexivity.
Qed.
Lemma set_class s raw :
  lead raw -> forallb (fun c => negb (N.eqb c 92)) raw = true ->
  (forall n g cl u, parse_atom (S n) 0 (g, cl) (raw ++ u)
     = Some (XChr (fun c => xorb false (fold_case 0 (mem s) c)), (g, cl), u)) ->
  atom_like raw (one_char (one_of s)) 0.
Proof.
  intros Ld Ca Pa. eapply class_atom; [exact Ld|apply calm_plain; exact Ca| |exact Pa].
  intros c. cbn beta. change (xorb false (fold_case 0 (mem s) c)) with (xorb false (mem s c)).
  rewrite xorb_false_l. apply mem_spec.
Qed.
Lemma char_atom raw P : char_pattern raw P -> atom_like raw (one_char P) 0.
Proof.
  intros [[-> ->]|[[-> ->]|[[-> ->]|[[-> ->]|[[-> ->]|[-> ->]]]]]].
  - apply range_class; [reflexivity|reflexivity|]. intros. rewrite parse_atom_eq. reflexivity.
  - apply range_class; [reflexivity|reflexivity|]. intros. rewrite parse_atom_eq. reflexivity.
  - apply set_class; [reflexivity|reflexivity|]. intros. rewrite parse_atom_eq. reflexivity.
  - apply set_class; [reflexivity|reflexivity|]. intros. rewrite parse_atom_eq. reflexivity.
  - apply set_class; [reflexivity|reflexivity|]. intros. rewrite parse_atom_eq. reflexivity.
  - apply (class_atom _ _ (any_char 0)); [reflexivity|apply calm_plain; reflexivity| |].
    + intros c. unfold any_char. change (fl_dotall 0) with false. cbn [orb].
      rewrite negb_true_iff, N.eqb_neq. reflexivity.
    + intros. rewrite parse_atom_eq. reflexivity.
Qed.
Lemma char_part raw P : char_pattern raw P -> part raw (one_char P).
Proof. intros H. exact (atom_part _ _ _ (char_atom _ _ H)). Qed.

(** ** Matching a Pattern *)

Lemma part_compiles raw L : part raw L -> exists r k, compile 0 (as_regex raw) = Some (r, k) /\ means r L.
Proof.
  intros (k & (Ca & H) & _). destruct (H 1 []) as (a & cl & Ma & P).
  exists (XSeq (XGrp 1 a) XEps), (1 + k). split.
  - change (as_regex raw) with (s_ "(?P<all>" ++ B (raw ++ s_ ")")). rewrite Ca.
    change (B (s_ ")")) with (s_ ")").
    apply (compile_bracket 0 raw (4 * length raw + 4) a (1 + k) cl); [|lia].
    apply P; [reflexivity|lia].
  - apply (means_iff _ _ _ (followed_nil L)). apply means_seq; [apply means_grp; exact Ma|apply means_eps].
Qed.
Lemma span_all t : span t 0 (length t) = t.
Proof. unfold span. cbn [skipn]. rewrite Nat.sub_0_r. apply firstn_all. Qed.
Lemma full_means r L t : means r L -> fullmatch 0 r t <> None <-> L t.
Proof.
  intros (NR & _ & H). rewrite (fullmatch_lang 0 t r NR), H, span_all.
  split; [intros [_ A]; exact A|]. intros A. split; [lia|exact A].
Qed.
Lemma part_at_lang r L t i m : means r L ->
  part_at L t i m <-> exists j, lang t r i j /\ m = span t i j.
Proof.
  intros (_ & _ & H). split.
  - intros (a & b & -> & <- & A). exists (length a + length m). rewrite H.
    assert (E : m = span (a ++ m ++ b) (length a) (length a + length m)).
    { unfold span. rewrite skipn_app, skipn_all, Nat.sub_diag. cbn [skipn app].
      replace (length a + length m - length a) with (length m) by lia.
      rewrite firstn_app, firstn_all, Nat.sub_diag. cbn [firstn]. rewrite app_nil_r. reflexivity. }
    rewrite <- E. split; [|reflexivity]. split; [|exact A]. rewrite !app_length. lia.
  - intros (j & Ln & ->). apply H in Ln. destruct Ln as [Lj A]. exists (firstn i t), (skipn j t).
    split; [|split; [apply firstn_length_le; lia|exact A]].
    rewrite span_skipn by lia. symmetry. apply firstn_skipn.
Qed.
Lemma search_means r L t : means r L ->
  match search 0 r t with
  | Some m => part_at L t (fd_start m) (match_text t m)
              /\ forall i x, part_at L t i x -> fd_start m <= i
  | None => forall i x, ~ part_at L t i x
  end.
Proof.
  intros M. pose proof M as (NR & _ & H). unfold search.
  assert (Hh : forall i, i <= length t ->
    match_here 0 r t (fun _ => true) (prev_at t i) (skipn i t) i <> None <-> exists j, lang t r i j).
  { intros i L0. rewrite (match_here_lang 0 t r _ i (fun _ => True) NR L0).
    - split; [intros (l & _ & Q)|intros (l & Q)]; eauto.
    - intros s G. split; [eauto|reflexivity]. }
  change (search_from 0 r t (fun _ => true) None t 0)
    with (search_from 0 r t (fun _ => true) (prev_at t 0) t 0).
  destruct (search_from 0 r t (fun _ => true) (prev_at t 0) t 0) as [m|] eqn:E.
  - destruct (search_from_in 0 t r _ t 0 m (Nat.le_0_l _) eq_refl E) as (I1 & _ & Mh & Lm).
    pose proof I1 as (I2 & I3 & _).
    destruct (match_here_in 0 t r _ (fd_start m) m ltac:(lia) Mh) as (_ & _ & s' & R & _ & En & _).
    pose proof (run_lang _ _ _ _ _ R NR (good_start t (fd_start m) ltac:(lia))) as Ln.
    split.
    + apply (part_at_lang r L t _ _ M). exists (fd_end m). split; [|reflexivity].
      rewrite En. exact Ln.
    + intros i x Pa. apply (part_at_lang r L t _ _ M) in Pa. destruct Pa as (j & Lj & _).
      destruct (Nat.le_gt_cases (fd_start m) i) as [|Lt]; [assumption|]. exfalso.
      pose proof (lang_le _ _ _ _ Lj) as Le. specialize (Lm i ltac:(lia)).
      apply (proj2 (Hh i ltac:(lia))); [eauto|exact Lm].
  - intros i x Pa. apply (part_at_lang r L t _ _ M) in Pa. destruct Pa as (j & Lj & _).
    pose proof (lang_le _ _ _ _ Lj) as Le.
    apply (proj2 (Hh i ltac:(lia))); [eauto|].
    apply (search_from_none 0 t r _ t 0 (Nat.le_0_l _) eq_refl E). lia.
Qed.
Lemma matches_means r L t : means r L ->
  Forall (fun m => part_at L t (fd_start m) (match_text t m)) (matches 0 r t).
Proof.
  intros M. pose proof M as (NR & _ & H). unfold matches. generalize false as e.
  assert (G0 : forall n e pos, pos <= length t ->
    Forall (fun m => part_at L t (fd_start m) (match_text t m)) (find_matches n 0 r t e pos)).
  { induction n as [|n IH]; intros e pos Lp; cbn [find_matches]; [constructor|].
    match goal with |- Forall _ (match ?x with _ => _ end) => destruct x as [m|] eqn:E; [|constructor] end.
    destruct (search_from_in 0 t r _ _ pos m Lp eq_refl E) as (I1 & _ & Mh & _).
    pose proof I1 as (I2 & I3 & _).
    destruct (match_here_in 0 t r _ (fd_start m) m ltac:(lia) Mh) as (_ & _ & s' & R & _ & En & _).
    pose proof (run_lang _ _ _ _ _ R NR (good_start t (fd_start m) ltac:(lia))) as Ln.
    constructor; [|apply IH; lia].
    apply (part_at_lang r L t _ _ M). exists (fd_end m). split; [|reflexivity].
    rewrite En. exact Ln. }
  intros e. apply G0. lia.
Qed.
