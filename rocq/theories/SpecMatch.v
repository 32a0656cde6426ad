(** * What the match variables say *)

From Coq Require Import String List NArith ZArith Bool.
From Verif Require Import PyStr PyNum Tokens OpFun OpTable Unparse PTypes Ops Apply Heap Exec SpecHeap
                          SpecScan SpecVars SpecRegex.
Import ListNotations.
Local Open Scope string_scope.
Local Open Scope list_scope.

Definition match_names : list str :=
  map s_ ["$0"; "$1"; "$2"; "$3"; "$4"; "$5"; "$6"; "$7"; "$8"; "$9"; "$$"; "$`"; "$'"; "$("; "$)"; "$["; "$]"].

(** Where a group of the Pattern matched, if it did. *)
Definition place : Type := option (nat * nat).
Definition place_text (t : str) (g : place) : pval :=
  match g with Some (a, b) => PScal (firstn (b - a) (skipn a t)) | None => PNil end.
Definition place_bound (pick : nat * nat -> nat) (g : place) : pval :=
  match g with Some p => scal_Z (Z.of_nat (pick p)) | None => scal_Z (-1) end.
Definition place_in (t : str) (g : place) : Prop :=
  match g with Some (a, b) => a <= b /\ b <= length t | None => True end.

(** The variables describe a match of [m] between [before] and [after]. *)
Record describe (s : state) (before m after : str) (groups : list place) : Prop := {
  d_match : var s (s_ "$0") (PScal m);
  d_before : var s (s_ "$`") (PScal before);
  d_after : var s (s_ "$'") (PScal after);
  d_start : var s (s_ "$(") (scal_Z (Z.of_nat (length before)));
  d_end : var s (s_ "$)") (scal_Z (Z.of_nat (length (before ++ m))));
  d_groups : var s (s_ "$$") (PList (map (place_text (before ++ m ++ after)) groups));
  d_group : forall k c, nth_error (s_ "123456789") k = Some c ->
    var s [36%N; c] (nth k (map (place_text (before ++ m ++ after)) groups) PNil);
  d_starts : var s (s_ "$[") (PList (map (place_bound fst) groups));
  d_ends : var s (s_ "$]") (PList (map (place_bound snd) groups));
  d_places : Forall (place_in (before ++ m ++ after)) groups }.

(** Apart from new objects nothing but these variables changes. *)
Definition only_matches (s s' : state) : Prop :=
  exists bs, (forall x v, In (x, v) bs -> In x match_names)
             /\ only_adds (set_vars (bs ++ st_vars s) s) s'.

(** The Pattern is a regex also without the bracket that is put around it, and
    the renumbering of its references is right. *)
Definition sound_pattern (fmt : ofmt) (raw : str) (f : N) (t : str) : Prop :=
  raw = [] \/ (group_count raw <= 18 /\ ascii_digits_only raw
               /\ exists u, run_op fmt "^" [PScal t; PPat raw f] = ret u).
(** A group as [^] writes it between the parts. *)
Definition written (t : str) (g : place) : pval :=
  match g with Some (a, b) => PScal (firstn (b - a) (skipn a t)) | None => PScal (s_ "None") end.
