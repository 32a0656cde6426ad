(** * Doing something for each match of a Pattern *)

From Coq Require Import String List NArith ZArith Bool.
From Verif Require Import PyStr PyNum Tokens OpFun OpTable Unparse PTypes Ops Apply Heap Exec SpecHeap
                          SpecScan SpecMain SpecVars SpecMatch SpecMap.
Import ListNotations.
Local Open Scope string_scope.
Local Open Scope list_scope.

(** A match of [oc_match] between [oc_before] and [oc_after]. *)
Record occurrence : Type := Occ {
  oc_before : str; oc_match : str; oc_after : str; oc_groups : list place }.
Definition oc_text (o : occurrence) : str := oc_before o ++ oc_match o ++ oc_after o.
Definition oc_end (o : occurrence) : nat := length (oc_before o ++ oc_match o).

(** The text from [pos] on, cut at the matches, with their groups between. *)
Fixpoint parts (t : str) (pos : nat) (os : list occurrence) : list pval :=
  match os with
  | [] => [PScal (skipn pos t)]
  | o :: os' => PScal (firstn (length (oc_before o) - pos) (skipn pos t))
                :: map (written t) (oc_groups o) ++ parts t (oc_end o) os'
  end.

(** [os] are the matches in [t] that the operators @, @* and ^ find. *)
Record occurrences (fmt : ofmt) (t raw : str) (f : N) (os : list occurrence) : Prop := {
  os_in : Forall (fun o => oc_text o = t) os;
  os_at : run_op fmt "@" [PScal t; PPat raw f] = ret (PList (map (fun o => PScal (oc_match o)) os));
  os_starts : run_op fmt "@*" [PScal t; PPat raw f]
              = ret (PList (map (fun o => scal_Z (Z.of_nat (length (oc_before o)))) os));
  os_split : raw <> [] -> run_op fmt "^" [PScal t; PPat raw f] = ret (PList (parts t 0 os)) }.

(** [tell k] sets the variables for the match number [k] and makes arguments of
    the match and its groups. *)
Definition telling (tell : nat -> state -> list hval * state) (os : list occurrence) : Prop :=
  forall k o s, nth_error os k = Some o ->
    describe (snd (tell k s)) (oc_before o) (oc_match o) (oc_after o) (oc_groups o)
    /\ only_matches s (snd (tell k s))
    /\ dens (st_heap (snd (tell k s))) (fst (tell k s))
            (PScal (oc_match o) :: map (place_text (oc_text o)) (oc_groups o)).

(** A call for each match. *)
Inductive calls_told (tell : nat -> state -> list hval * state) (f : hval)
  : list nat -> state -> list hval -> state -> Prop :=
| calls_told_none s : calls_told tell f [] s [] s
| calls_told_next k ks s v s1 vs s2 :
    calls (snd (tell k s)) f (fst (tell k s)) v s1 -> calls_told tell f ks s1 vs s2 ->
    calls_told tell f (k :: ks) s (v :: vs) s2.

(** The body runs for each match. *)
Inductive does_told (tell : nat -> state -> list hval * state) (body : list (tree hval))
  : list nat -> state -> state -> Prop :=
| does_told_none s : does_told tell body [] s s
| does_told_next k ks s s1 s2 :
    does body (snd (tell k s)) s1 -> does_told tell body ks s1 s2 ->
    does_told tell body (k :: ks) s s2.

(** A call for each match; the text from [pos] on with each match replaced by
    the text of what the call returns. *)
Inductive replaces_told (tell : nat -> state -> list hval * state) (f : hval) (t : str)
  : nat -> nat -> list occurrence -> state -> str -> state -> Prop :=
| replaces_none pos k s : replaces_told tell f t pos k [] s (skipn pos t) s
| replaces_next pos k o os s v s1 p rest s2 :
    calls (snd (tell k s)) f (fst (tell k s)) v s1 -> den (st_heap s1) v p ->
    replaces_told tell f t (oc_end o) (S k) os s1 rest s2 ->
    replaces_told tell f t pos k (o :: os) s
      (firstn (length (oc_before o) - pos) (skipn pos t) ++ listing (st_fmt s1) p ++ rest) s2.

(** The operands of MR: the function and the Pattern may stand anywhere; without
    a Pattern the text that is searched for comes before the one it is searched
    in. *)
Inductive mr_operands (fmt : ofmt) (h : heap) (raw : str) (fl : N) (t : str) (f : hval)
  : list hval -> Prop :=
| mr_pattern p x vs :
    den h p (PPat raw fl) -> den h x (PScal t) ->
    In vs [[f; p; x]; [f; x; p]; [p; f; x]; [x; f; p]; [p; x; f]; [x; p; f]] ->
    mr_operands fmt h raw fl t f vs
| mr_text p x u vs :
    den h p (PScal u) -> run_op fmt "X" [PScal u] = ret (PPat raw fl) -> den h x (PScal t) ->
    In vs [[f; p; x]; [p; f; x]; [x; p; f]] ->
    mr_operands fmt h raw fl t f vs.
(** Likewise for the command LR and the operator R. *)
Inductive lr_operands (fmt : ofmt) (h : heap) (raw : str) (fl : N) (t : str) : hval -> hval -> Prop :=
| lr_pattern p x :
    den h p (PPat raw fl) -> den h x (PScal t) -> lr_operands fmt h raw fl t p x
| lr_swapped p x :
    den h p (PPat raw fl) -> den h x (PScal t) -> lr_operands fmt h raw fl t x p
| lr_text p x u :
    den h p (PScal u) -> run_op fmt "X" [PScal u] = ret (PPat raw fl) -> den h x (PScal t) ->
    lr_operands fmt h raw fl t p x.
Inductive r_operand (fmt : ofmt) (h : heap) (raw : str) (fl : N) : hval -> Prop :=
| r_pattern p : den h p (PPat raw fl) -> r_operand fmt h raw fl p
| r_text p u :
    den h p (PScal u) -> run_op fmt "X" [PScal u] = ret (PPat raw fl) -> r_operand fmt h raw fl p.
