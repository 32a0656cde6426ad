(** * All matches of a regex in a text *)

From Coq Require Import String List NArith ZArith Bool Arith Lia.
From Verif Require Import PyStr PyNum UserRe ReSound.
Import ListNotations.
Local Open Scope list_scope.

(** The loops of a repetition, outside of [xmatch]. *)
Section Rounds.
  Context {X : Type}.
  Variables (once : mstate -> (mstate -> option X) -> option X)
            (greedy : bool) (lo : nat) (hi : option nat) (k : mstate -> option X).
  Fixpoint more_rounds (n : nat) (left : option nat) (last : option nat) (s : mstate) : option X :=
    match n with
    | O => k s
    | S n' =>
      let again (_ : unit) :=
        if none_left left || at_pos last s then None
        else once s (fun s' => more_rounds n' (dec left) (Some (ms_pos s)) s') in
      if greedy
      then match again tt with Some x => Some x | None => k s end
      else match k s with Some x => Some x | None => again tt end
    end.
  Fixpoint need_rounds (m : nat) (s : mstate) : option X :=
    match m with
    | O => more_rounds (S (S (length (ms_rest s)))) (option_map (fun h => h - lo) hi) None s
    | S m' => once s (fun s' => need_rounds m' s')
    end.
End Rounds.
Lemma xmatch_rep {X} f t g lo hi a s (k : mstate -> option X) :
  xmatch f t (XRep g lo hi a) s k
  = need_rounds (fun s k => xmatch f t a s k) g lo hi k lo s.
Proof. reflexivity. Qed.

Lemma xmatch_ext {X} f t r : forall s (k k' : mstate -> option X),
  (forall s', k s' = k' s') -> xmatch f t r s k = xmatch f t r s k'.
Proof.
  induction r as [|p|a IHa b IHb|a IHa b IHb|g lo hi a IHa|n a IHa|n|p]; intros s k k' H;
    [cbn [xmatch]|cbn [xmatch]|cbn [xmatch]|cbn [xmatch]|rewrite !xmatch_rep|cbn [xmatch]|idtac|idtac].
  - apply H.
  - destruct (ms_rest s); [reflexivity|]. destruct (p c); [apply H|reflexivity].
  - apply IHa. intros s'. apply IHb. exact H.
  - rewrite (IHa s k k' H). destruct (xmatch f t a s k'); [reflexivity|]. apply IHb. exact H.
  - assert (Q : forall m s0, need_rounds (fun s k => xmatch f t a s k) g lo hi k m s0
                           = need_rounds (fun s k => xmatch f t a s k) g lo hi k' m s0); [|apply Q].
    induction m as [|m IH]; intros s0; cbn [need_rounds].
    + generalize (S (S (length (ms_rest s0)))) (option_map (fun h => h - lo) hi) (@None nat).
      intros n. revert s0. induction n as [|n IHn]; intros s0 l z; cbn [more_rounds]; [apply H|].
      rewrite (IHa s0 _ (fun s' => more_rounds (fun s k => xmatch f t a s k) g k' n (dec l) (Some (ms_pos s0)) s'));
        [|intros s'; apply IHn].
      rewrite (H s0). reflexivity.
    + apply IHa. intros s'. apply IH.
  - apply IHa. intros s'. apply H.
  - cbn [xmatch]. destruct (cap n (ms_caps s)) as [[a b]|]; [|reflexivity].
    destruct (eat (same_char f) (span t a b) s); [apply H|reflexivity].
  - cbn [xmatch]. destruct (p (ms_prev s) (ms_rest s)); [apply H|reflexivity].
Qed.
Lemma match_here_ext f r t ok ok' prev rest pos : (forall s, ok s = ok' s) ->
  match_here f r t ok prev rest pos = match_here f r t ok' prev rest pos.
Proof. intros H. apply xmatch_ext. intros s'. rewrite H. reflexivity. Qed.
Lemma search_from_ext f r t ok ok' : (forall s, ok s = ok' s) -> forall rest prev pos,
  search_from f r t ok prev rest pos = search_from f r t ok' prev rest pos.
Proof.
  intros H. induction rest as [|c rest IH]; intros prev pos; cbn [search_from];
    rewrite (match_here_ext _ _ _ _ _ _ _ _ H); [reflexivity|].
  destruct (match_here f r t ok' prev (c :: rest) pos); [reflexivity|apply IH].
Qed.

(** The matches follow each other: every one starts where the one before it
    ended, or later. *)
Inductive in_order (t : str) : nat -> list found -> Prop :=
| in_order_nil (pos : nat) : pos <= length t -> in_order t pos []
| in_order_cons (pos : nat) m ms :
    pos <= fd_start m -> in_text t m -> in_order t (fd_end m) ms -> in_order t pos (m :: ms).

Lemma find_matches_order f r t : forall n e pos, pos <= length t ->
  in_order t pos (find_matches n f r t e pos).
Proof.
  induction n as [|n IH]; intros e pos L; cbn [find_matches]; [constructor; exact L|].
  match goal with |- context [search_from f r t ?ok ?p ?q pos] =>
    destruct (search_from f r t ok p q pos) as [m|] eqn:E end; [|constructor; exact L].
  destruct (search_from_in f t r _ _ _ _ L eq_refl E) as (I & Ls & _ & _).
  constructor; [exact Ls|exact I|]. apply IH. apply I.
Qed.
Lemma matches_order f r t : in_order t 0 (matches f r t).
Proof. apply find_matches_order. lia. Qed.

(** The fuel is enough: any more of it changes nothing. *)
Lemma find_matches_fuel f r t : forall n n' (e : bool) pos, pos <= length t ->
  2 * (length t - pos) + (if e then 1 else 2) <= n -> n <= n' ->
  find_matches n f r t e pos = find_matches n' f r t e pos.
Proof.
  induction n as [|n IH]; intros n' e pos L Q Q'; [destruct e; lia|].
  destruct n' as [|n']; [lia|]. cbn [find_matches].
  match goal with |- context [search_from f r t ?ok ?p ?q pos] =>
    destruct (search_from f r t ok p q pos) as [m|] eqn:E end; [|reflexivity].
  f_equal. destruct (search_from_in f t r _ _ _ _ L eq_refl E) as (I & Ls & M & _).
  destruct I as (I1 & I2 & I3).
  assert (Me : e = true -> pos < fd_end m).
  { intros ->. destruct (match_here_in f t r _ _ _ (Nat.le_trans _ _ _ I1 I2) M) as (_ & _ & s' & _ & Ok & En & _).
    destruct (Nat.eq_dec (ms_pos s') pos) as [Eq|Ne]; [|lia].
    rewrite Eq, Nat.eqb_refl in Ok. discriminate. }
  apply IH; [exact I2| |lia].
  destruct (Nat.eqb_spec (fd_start m) (fd_end m)) as [Eq|Ne]; destruct e.
  - specialize (Me eq_refl). unfold str, char in *. lia.
  - unfold str, char in *. lia.
  - specialize (Me eq_refl). unfold str, char in *. lia.
  - unfold str, char in *. lia.
Qed.

Lemma matches_search f r t :
  search f r t = hd_error (matches f r t).
Proof.
  unfold matches, search. replace (2 * length t + 2) with (S (2 * length t + 1)) by lia.
  cbn [find_matches skipn prev_at].
  rewrite (search_from_ext f r t (fun _ => true) (fun s => negb (false && Nat.eqb (ms_pos s) 0)));
    [|intros s; reflexivity].
  match goal with |- ?e = _ => destruct e; reflexivity end.
Qed.

(** ** The text between the matches *)

Lemma span_self t a : span t a a = [].
Proof. unfold span. rewrite Nat.sub_diag. reflexivity. Qed.
Lemma skipn_add {A} n m (l : list A) : skipn (n + m) l = skipn m (skipn n l).
Proof.
  revert l. induction n as [|n IH]; intros l; [reflexivity|].
  destruct l; cbn [Nat.add skipn]; [rewrite skipn_nil; reflexivity|apply IH].
Qed.
Lemma span_skipn t a b : a <= b -> span t a b ++ skipn b t = skipn a t.
Proof.
  intros L. unfold span. replace b with (a + (b - a)) at 2 by lia.
  rewrite skipn_add. apply firstn_skipn.
Qed.
Lemma span_length t a b : b <= length t -> length (span t a b) = b - a.
Proof. intros L. unfold span. rewrite firstn_length, skipn_length. unfold str, char in *. lia. Qed.

(** The gap before each match, and the match. *)
Fixpoint cuts (t : str) (pos : nat) (ms : list found) : list (str * str) :=
  match ms with
  | [] => []
  | m :: ms' => (span t pos (fd_start m), match_text t m) :: cuts t (fd_end m) ms'
  end.
Fixpoint last_end (pos : nat) (ms : list found) : nat :=
  match ms with [] => pos | m :: ms' => last_end (fd_end m) ms' end.

Lemma cuts_text t : forall ms pos, in_order t pos ms ->
  skipn pos t = concat (map (fun c => fst c ++ snd c) (cuts t pos ms)) ++ skipn (last_end pos ms) t.
Proof.
  induction ms as [|m ms IH]; intros pos O; cbn [cuts map concat last_end app]; [reflexivity|].
  inversion O as [|? ? ? L I O']; subst. destruct I as (I1 & I2 & _).
  rewrite <- app_assoc, <- (IH _ O'). cbn [fst snd]. unfold match_text.
  rewrite <- app_assoc, (span_skipn t _ _ I1), (span_skipn t _ _ L). reflexivity.
Qed.
Lemma cuts_length t ms : forall pos, length (cuts t pos ms) = length ms.
Proof. induction ms as [|m ms IH]; intros pos; cbn [cuts length]; [reflexivity|]. rewrite IH. reflexivity. Qed.
Lemma cuts_matched t ms : forall pos, map snd (cuts t pos ms) = map (match_text t) ms.
Proof. induction ms as [|m ms IH]; intros pos; cbn [cuts map]; [reflexivity|]. rewrite IH. reflexivity. Qed.
Lemma sub_from_cuts t sub : forall ms pos,
  sub_from t sub pos ms
  = concat (map (fun cm => fst (fst cm) ++ sub (snd cm)) (combine (cuts t pos ms) ms))
    ++ skipn (last_end pos ms) t.
Proof.
  induction ms as [|m ms IH]; intros pos; cbn [cuts combine map concat sub_from last_end app]; [reflexivity|].
  rewrite IH. cbn [fst snd]. rewrite <- !app_assoc. reflexivity.
Qed.
Lemma sub_from_const t (u : str) ms pos :
  sub_from t (fun _ => u) pos ms
  = concat (map (fun c => fst c ++ u) (cuts t pos ms)) ++ skipn (last_end pos ms) t.
Proof.
  rewrite sub_from_cuts. f_equal. f_equal. revert pos.
  induction ms as [|m ms IH]; intros pos; cbn [cuts combine map]; [reflexivity|].
  rewrite IH. reflexivity.
Qed.
Lemma sub_from_ext t sub sub' ms : (forall m, In m ms -> sub m = sub' m) ->
  forall pos, sub_from t sub pos ms = sub_from t sub' pos ms.
Proof.
  induction ms as [|m ms IH]; intros H pos; cbn [sub_from]; [reflexivity|].
  rewrite (H m (or_introl eq_refl)), IH; [reflexivity|]. intros m' I. apply H. right. exact I.
Qed.
