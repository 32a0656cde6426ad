(** * execution.py: operators on strings, Lists and Ranges *)

From Coq Require Import String List NArith ZArith Bool Arith.
From Coq Require Import Floats.SpecFloat.
From Verif Require Import PyStr PyRe PyNum Tokens OpFun OpTable Unparse PTypes
     Ops UserRe.
Import ListNotations.
Local Open Scope string_scope.
Local Open Scope list_scope.
Local Open Scope Z_scope.

(** ** Concatenation *)

(** CAT (execution.py:1026-1036); [Pattern.concat] (ptypes.py:245-247). *)
Definition op_CAT (lhs rhs : pval) : pm pval :=
  match lhs, rhs with
  | PScal a, PScal b => ret (PScal (a ++ b))
  | PScal a, PPat b f => ret (PPat (a ++ b) f)
  | PPat a f, PScal b => ret (PPat (a ++ b) f)
  | PPat a f, PPat b f' => ret (PPat (a ++ b) (N.lor f f'))
  | _, _ => reject "CAT"
  end.

(** WRAP (execution.py:4235-4243) *)
Definition op_WRAP (string outer : pval) : pm pval :=
  match string, outer with
  | (PScal _ | PPat _ _), (PScal _ | PPat _ _) =>
    do x <- op_CAT outer string; op_CAT x outer
  | _, _ => reject "WRAP"
  end.

(** The item loop of JOIN (execution.py:1949-1978). *)
Section JoinLoop.
  Variable join_item : pval -> pm pval.
  Variable sep : option pval.
  Fixpoint join_loop (acc : option pval) (l : list pval) : pm (option pval) :=
    match l with
    | [] => ret acc
    | x :: l' =>
      do item <- (if is_list_or_range x then join_item x else ret x);
      do acc' <- match acc with
                 | None => ret item
                 | Some r => do r' <- match sep with
                                      | Some s => op_CAT r s
                                      | None => ret r
                                      end;
                             op_CAT r' item
                 end;
      join_loop (Some acc') l'
    end.
End JoinLoop.

(** JOIN with a Scalar, Pattern or no separator (execution.py:1956-1979). *)
Fixpoint join1 (sep : option pval) (iterable : pval) : pm pval :=
  let finish (m : pm (option pval)) : pm pval :=
    do r <- m; ret match r with Some v => v | None => PScal [] end in
  match iterable with
  | PList l => finish (join_loop (join1 sep) sep None l)
  | PRange lo (Some u) =>
    finish (join_loop (fun x => ret x) sep None (map scal_Z (range_ints lo u)))
  | PRange _ None => raise Hang
  | PScal s => finish (join_loop (fun x => ret x) sep None (chars s))
  | _ => reject "JOIN"
  end.

(** JOIN (execution.py:1949-1978): a List or Range of separators gives a List
    of results. *)
Fixpoint join_on (iterable sep : pval) {struct sep} : pm pval :=
  match sep with
  | PList l => do r <- mapM (join_on iterable) l; ret (PList r)
  | PRange lo (Some u) =>
    do r <- mapM (fun z => join1 (Some (scal_Z z)) iterable) (range_ints lo u);
    ret (PList r)
  | PRange _ None => raise Hang
  | PScal _ | PPat _ _ => join1 (Some sep) iterable
  | _ => reject "JOIN: separator"
  end.
Definition op_JOIN (iterable : pval) (sep : option pval) : pm pval :=
  match sep with
  | None => join1 None iterable
  | Some s => join_on iterable s
  end.

(** JOIN of a Python list of values. *)
Definition join_list (sep : option pval) (l : list pval) : pm pval :=
  op_JOIN (PList l) sep.

(** JOINWRAP (execution.py:1980-1998) *)
Definition joinwrap1 (iterable sep : pval) : pm pval :=
  if is_iterable iterable
  then do items <- lift (p_iter iterable);
       foldM (fun acc x =>
                do item <- (if is_list_or_range x then op_JOIN x (Some sep)
                            else ret x);
                do r <- op_CAT acc item;
                op_CAT r sep) sep items
  else reject "JOINWRAP".
Fixpoint op_JOINWRAP (iterable sep : pval) {struct sep} : pm pval :=
  match sep with
  | PList l => do r <- mapM (op_JOINWRAP iterable) l; ret (PList r)
  | PRange lo (Some u) =>
    do r <- mapM (fun z => joinwrap1 iterable (scal_Z z)) (range_ints lo u);
    ret (PList r)
  | PRange _ None => raise Hang
  | PScal _ | PPat _ _ => joinwrap1 iterable sep
  | _ => reject "JOINWRAP: separator"
  end.

(** STRMUL (execution.py:3832-3840) *)
Definition op_STRMUL (lhs rhs : pval) : pm pval :=
  match lhs, rhs with
  | PScal a, PScal n => ret (PScal (py_repeat (scalar_int n) a))
  | PPat a _, PScal n => ret (PPat (py_repeat (scalar_int n) a) 0)
  | _, _ => reject "STRMUL"
  end.

(** DOT (execution.py:1357-1364) *)
Definition op_DOT (rhs : pval) : pm pval :=
  match rhs with
  | PPat r f => ret (PPat r (N.lxor f flag_dotall))
  | _ => ret rhs
  end.

(** [re.escape]. *)
Definition re_special : str :=
  s_ "()[]{}?*+-|^$\.&~# " ++ [9; 10; 13; 11; 12]%N.
Definition re_escape (s : str) : str :=
  concat (map (fun c => if cls_in re_special c then [c_backslash; c] else [c]) s).

(** REGEX (execution.py:3155-3169) *)
Fixpoint op_REGEX (rhs : pval) : pm pval :=
  match rhs with
  | PPat _ _ => ret rhs
  | PScal s => ret (PPat (pat_wrap (re_escape s)) 0)
  | PRange lo (Some u) =>
    ret (PPat (pat_wrap (str_join (s_ "|")
                           (map (fun z => re_escape (str_of_Z z))
                                (range_ints lo u)))) 0)
  | PRange _ None => raise Hang
  | PList l =>
    do rs <- mapM op_REGEX l;
    ret (PPat (pat_wrap (str_join (s_ "|")
                 (map (fun r => match r with PPat x _ => x | _ => [] end) rs))) 0)
  | _ => reject "REGEX"
  end.

(** KLEENESTAR (execution.py:2000-2007) *)
Definition op_KLEENESTAR (rhs : pval) : pm pval :=
  match rhs with
  | PScal _ | PRange _ _ =>
    do r <- op_REGEX rhs;
    match r with
    | PPat x f => ret (PPat (x ++ s_ "*") f)
    | _ => raise AttributeError
    end
  | PPat r f => ret (PPat (pat_wrap r ++ s_ "*") f)
  | _ => reject "KLEENESTAR"
  end.

(** ** Letter case.  Only ASCII text is modelled. *)

Definition ascii_only (s : str) : bool := forallb (fun c => N.ltb c 128) s.
Definition to_lower (c : char) : char := if is_upper c then (c + 32)%N else c.
Definition to_upper (c : char) : char := if is_lower c then (c - 32)%N else c.
Definition swap_case (c : char) : char :=
  if is_upper c then to_lower c else to_upper c.
Definition capitalize (s : str) : str :=
  match s with [] => [] | c :: s' => to_upper c :: map to_lower s' end.
Fixpoint title_from (prev_cased : bool) (s : str) : str :=
  match s with
  | [] => []
  | c :: s' => (if prev_cased then to_lower c else to_upper c)
               :: title_from (is_upper c || is_lower c) s'
  end.

(** LOWERCASE (execution.py:2111-2118), UPPERCASE (4170-4177), SWAPCASE (3921-3928),
    TITLECASE (3937-3944), INITIALCAPS (1916-1923) *)
Definition op_case (w : warning) (f : str -> str) (rhs : pval) : pm pval :=
  match rhs with
  | PScal s => if ascii_only s then ret (PScal (f s)) else raise Unmodelled
  | PRange _ _ | PNil => ret rhs
  | _ => reject w
  end.
Definition op_LOWERCASE := op_case "LOWERCASE" (map to_lower).
Definition op_UPPERCASE := op_case "UPPERCASE" (map to_upper).
Definition op_SWAPCASE := op_case "SWAPCASE" (map swap_case).
Definition op_TITLECASE := op_case "TITLECASE" (title_from false).
Definition op_INITIALCAPS := op_case "INITIALCAPS" capitalize.

(** ** Stripping *)

(** Which ends STRIP (execution.py:3749-3790), LSTRIP (2120-2156) and RSTRIP
    (3425-3461) work on. *)
Inductive ends : Set := Both | LeftEnd | RightEnd.
Definition strip_ends (e : ends) (p : char -> bool) (s : str) : str :=
  match e with
  | Both => strip p s
  | LeftEnd => lstrip p s
  | RightEnd => rstrip p s
  end.

(** A result of the regex engine (UserRe.v); [None] is outside its model. *)
Definition of_re {A} (o : option A) : pm A :=
  match o with Some x => ret x | None => raise Unmodelled end.

(** The loops that remove matches of [re.compile(regex)] until nothing changes.
    A round that changes the text shortens it, so the length is enough fuel. *)
Fixpoint strip_loop (fuel : nat) (regex : str) (t : str) : pm str :=
  match fuel with
  | O => raise Hang
  | S n => do u <- of_re (re_sub regex 0 [] t);
           if str_eqb u t then ret t else strip_loop n regex u
  end.
Definition strip_regex (regex : str) (t : str) : pm str :=
  strip_loop (S (length t)) regex t.
Definition strip_pattern (e : ends) (raw : str) (t : str) : pm str :=
  match e with
  | LeftEnd => strip_regex (s_ "^" ++ raw) t
  | RightEnd => strip_regex (raw ++ s_ "$") t
  | Both => do u <- strip_regex (s_ "^" ++ raw) t; strip_regex (raw ++ s_ "$") u
  end.

(** The case of a Scalar or other non-List [string]. *)
Fixpoint strip1 (e : ends) (string extra : pval) {struct extra} : pm pval :=
  match extra with
  | PNil => ret string
  | PBlock _ _ => reject "STRIP: rhs"
  | PList l =>
    match string with
    | PScal _ => foldM (strip1 e) string l
    | _ => reject "STRIP: lhs"
    end
  | PRange lo hi =>
    match string with
    | PScal s =>
      match hi with
      | Some u =>
        ret (PScal (fold_left (fun t z => strip_ends e (cls_in (str_of_Z z)) t)
                              (range_ints lo u) s))
      | None => raise Hang
      end
    | _ => reject "STRIP: lhs"
    end
  | PScal x =>
    match string with
    | PScal s => ret (PScal (strip_ends e (cls_in x) s))
    | _ => reject "STRIP: lhs"
    end
  | PPat r _ =>
    match string with
    | PScal s => match r with
                 | [] => ret string
                 | _ => do t <- strip_pattern e r s; ret (PScal t)
                 end
    | _ => reject "STRIP: lhs"
    end
  end.

Definition strip_opt (e : ends) (extra : option pval) (string : pval) : pm pval :=
  match extra with
  | None => match string with
            | PScal s => ret (PScal (strip_ends e is_space s))
            | _ => reject "STRIP: lhs"
            end
  | Some x => strip1 e string x
  end.

Fixpoint op_strip (e : ends) (extra : option pval) (string : pval) : pm pval :=
  match extra with
  | Some PNil => ret string
  | Some (PBlock _ _) => reject "STRIP: rhs"
  | _ =>
    match string with
    | PList l => do r <- mapM (op_strip e extra) l; ret (PList r)
    | PRange lo (Some u) =>
      do r <- mapM (fun z => strip_opt e extra (scal_Z z)) (range_ints lo u);
      ret (PList r)
    | PRange _ None => raise Hang
    | _ => strip_opt e extra string
    end
  end.
Definition op_STRIP (string : pval) (extra : option pval) : pm pval :=
  op_strip Both extra string.
Definition op_LSTRIP (string : pval) (extra : option pval) : pm pval :=
  op_strip LeftEnd extra string.
Definition op_RSTRIP (string : pval) (extra : option pval) : pm pval :=
  op_strip RightEnd extra string.

(** TRIM (execution.py:4071-4099) *)
Definition trim1 (extra : option pval) (string : pval) : pm pval :=
  let cut front back :=
    match string with
    | PScal s =>
      let front := Z.max front 0 in
      let back := Z.max back 0 in
      ret (PScal (py_slice (Some front) (Some (zlen s - back)) s))
    | _ => reject "TRIM: lhs"
    end in
  match extra with
  | None => cut 1 1
  | Some (PScal n) => cut (scalar_int n) (scalar_int n)
  | Some (PRange lo hi) => cut (lower0 lo) (lower0 hi)
  | Some PNil => ret string
  | Some _ => reject "TRIM: rhs"
  end.
Definition op_TRIM (string : pval) (extra : option pval) : pm pval :=
  match string with
  | PRange lo (Some u) =>
    do r <- mapM (fun z => trim1 extra (scal_Z z)) (range_ints lo u);
    ret (PList r)
  | PRange _ None => raise Hang
  | _ => trim1 extra string
  end.

(** ** Splitting, replacing, removing text *)

(** SPLIT (execution.py:3609-3637); [Pattern.asSeparator] (ptypes.py:200-207).
    Groups of the Pattern become items too; one without a match is Python's
    None, and [Scalar(None)] is the text None. *)
Definition op_SPLIT (string : pval) (sep : option pval) : pm pval :=
  let go (split : str -> pm (list pval)) :=
    match string with
    | PScal s => do r <- split s; ret (PList r)
    | _ => reject "SPLIT"
    end in
  match sep with
  | None | Some (PScal []) | Some (PPat [] _) => go (fun s => ret (chars s))
  | Some (PScal x) => go (fun s => ret (map PScal (str_split x s)))
  | Some (PPat r f) =>
    go (fun s => do l <- of_re (re_split r f s);
                 ret (map (fun o => PScal (match o with
                                           | Some t => t
                                           | None => s_ "None"
                                           end)) l))
  | Some _ => reject "SPLIT: separator"
  end.

(** DELETECHARS (execution.py:1206-1215) *)
Definition op_DELETECHARS (string chars_ : pval) : pm pval :=
  match string, chars_ with
  | PScal s, PScal x => ret (PScal (filter (fun c => negb (cls_in x c)) s))
  | _, _ => warn "DELETECHARS" (ret string)
  end.

(** [List(range)] conversion of a Range argument. *)
Definition as_list (v : pval) : pm pval :=
  match v with
  | PRange lo (Some u) => ret (PList (map scal_Z (range_ints lo u)))
  | PRange _ None => raise Hang
  | _ => ret v
  end.

(** Replacing the matches of a Pattern (execution.py:3210-3230).  Replacing
    with a Block calls it for each match; that is in Exec.v. *)
Definition replace_regex (fmt : ofmt) (raw : str) (f : N) (new : pval) (s : str)
  : pm pval :=
  let sub templ := do t <- of_re (re_sub (as_regex raw) f templ s);
                   ret (PScal t) in
  match new with
  | PPat w _ => sub (as_replacement w)
  | PBlock _ _ => raise Unmodelled
  | PNil => sub []
  | _ => sub (str_replace [c_backslash] [c_backslash; c_backslash]
                          (p_str fmt new))
  end.
(** [self.REGEX] of a Scalar (execution.py:3155-3170). *)
Definition literal_regex (s : str) : str := pat_wrap (re_escape s).

(** REPLACE on a non-List left argument (execution.py:3196-3239), [new] already
    converted from Range to List. *)
Fixpoint replace1 (fmt : ofmt) (old lhs new : pval) {struct old} : pm pval :=
  match lhs with
  | PScal s =>
    match old with
    | PScal o =>
      match new with
      | PPat _ _ | PBlock _ _ =>
        replace_regex fmt (literal_regex o) 0 new s
      | PNil => ret (PScal (str_replace o [] s))
      | _ => ret (PScal (str_replace o (p_str fmt new) s))
      end
    | PPat r f => replace_regex fmt r f new s
    | PList os =>
      match new with
      | PList ns =>
        (fix go (os : list pval) (ns : list pval) (acc : pval) : pm pval :=
           match os with
           | [] => ret acc
           | o :: os' =>
             let '(n, ns') := match ns with
                              | n :: ns' => (n, ns')
                              | [] => (PNil, [])
                              end in
             do n' <- as_list n;
             do acc' <- replace1 fmt o acc n'; go os' ns' acc'
           end) os ns lhs
      | _ => (fix go (os : list pval) (acc : pval) : pm pval :=
                match os with
                | [] => ret acc
                | o :: os' => do acc' <- replace1 fmt o acc new; go os' acc'
                end) os lhs
      end
    | PRange lo (Some u) =>
      match new with
      | PPat _ _ | PBlock _ _ =>
        foldM (fun acc z =>
                 match acc with
                 | PScal t =>
                   replace_regex fmt (literal_regex (str_of_Z z)) 0 new t
                 | _ => reject "REPLACE"
                 end)
              lhs (range_ints lo u)
      | PList ns =>
        foldM (fun acc zn =>
                 match acc with
                 | PScal t =>
                   do n' <- as_list (snd zn);
                   match n' with
                   | PPat _ _ | PBlock _ _ =>
                     replace_regex fmt (literal_regex (str_of_Z (fst zn))) 0 n' t
                   | PNil => ret (PScal (str_replace (str_of_Z (fst zn)) [] t))
                   | _ => ret (PScal (str_replace (str_of_Z (fst zn))
                                                  (p_str fmt n') t))
                   end
                 | _ => reject "REPLACE"
                 end)
              lhs
              (combine (range_ints lo u)
                       (ns ++ repeat PNil (length (range_ints lo u))))
      | _ => ret (PScal (fold_left
                           (fun t z => str_replace (str_of_Z z)
                                         (match new with
                                          | PNil => []
                                          | _ => p_str fmt new
                                          end) t)
                           (range_ints lo u) s))
      end
    | PRange _ None => raise Hang
    | PBlock _ _ | PNil => reject "REPLACE"
    end
  | _ => match old with
         | PRange _ None => raise Hang
         | _ => reject "REPLACE"
         end
  end.

(** REPLACE (execution.py:3181-3243) *)
Fixpoint replace_items (fmt : ofmt) (old new lhs : pval) {struct lhs} : pm pval :=
  match lhs with
  | PList l =>
    match old with
    | PBlock _ _ | PNil => reject "REPLACE"
    | _ => do r <- mapM (replace_items fmt old new) l; ret (PList r)
    end
  | PRange lo (Some u) =>
    match old with
    | PBlock _ _ | PNil => reject "REPLACE"
    | _ => do r <- mapM (fun z => replace1 fmt old (scal_Z z) new)
                        (range_ints lo u); ret (PList r)
    end
  | PRange _ None => raise Hang
  | _ => replace1 fmt old lhs new
  end.
Definition op_REPLACE (fmt : ofmt) (lhs old new : pval) : pm pval :=
  do _ <- as_list lhs;
  do _ <- as_list old;
  do new' <- as_list new;
  replace_items fmt old new' lhs.

(** REMOVE from a Scalar (execution.py:3278-3296). *)
Fixpoint remove_scalar (lhs rhs : pval) {struct rhs} : pm pval :=
  match lhs with
  | PScal s =>
    match rhs with
    | PScal x => ret (PScal (str_replace x [] s))
    | PPat r f => do t <- of_re (re_sub (as_regex r) f [] s); ret (PScal t)
    | PList l => do r <- foldM remove_scalar lhs l;
                 ret (PScal (match r with PScal t => t | _ => [] end))
    | PRange lo (Some u) =>
      ret (PScal (fold_left (fun t z => str_replace (str_of_Z z) [] t)
                            (range_ints lo u) s))
    | PRange _ None => raise Hang
    | PNil => ret lhs
    | PBlock _ _ => reject "REMOVE"
    end
  | _ => reject "REMOVE"
  end.

(** REMOVE (execution.py:3278-3306): removing the first equal item until none is
    left is filtering. *)
Definition op_REMOVE (lhs rhs : pval) : pm pval :=
  match lhs with
  | PScal _ => remove_scalar lhs rhs
  | PList _ | PRange _ _ =>
    do l <- lift (p_list lhs);
    ret (PList (filter (fun x => negb (p_eqb x rhs)) l))
  | _ => reject "REMOVE"
  end.

(** ** Ranges *)

Definition bound_of (v : pval) : option (option Z) :=
  match v with
  | PScal s => Some (Some (scalar_int s))
  | PNil => Some None
  | _ => None
  end.
(** [Range(lhs, rhs)] on Scalar or nil arguments. *)
Definition range_val (lo hi : option Z) : pval :=
  mk_range lo (match hi with Some u => AInt u | None => ANilVal end).

(** RANGE (execution.py:3107-3118); [Pattern.alternate] (ptypes.py:249-251). *)
Definition op_RANGE (lhs rhs : pval) : pm pval :=
  match bound_of lhs, bound_of rhs with
  | Some lo, Some hi => ret (range_val lo hi)
  | _, _ =>
    match lhs, rhs with
    | PPat r f, PPat r' f' =>
      ret (PPat (pat_wrap r ++ s_ "|" ++ pat_wrap r') (N.lor f f'))
    | _, _ => reject "RANGE"
    end
  end.

(** RANGETO (execution.py:3120-3130) *)
Definition op_RANGETO (rhs : pval) : pm pval :=
  match bound_of rhs with
  | Some hi => ret (range_val None hi)
  | None => match rhs with
            | PPat r f => ret (PPat r (N.lxor f flag_multiline))
            | _ => reject "RANGETO"
            end
  end.

(** INCLRANGE (execution.py:1894-1904): the test mentions [lhs] twice, so an
    unsupported [rhs] falls through and returns Python's None. *)
Definition op_INCLRANGE (lhs rhs : pval) : pm pval :=
  match bound_of lhs with
  | Some lo => match bound_of rhs with
               | Some (Some u) => ret (range_val lo (Some (u + 1)))
               | Some None => ret (range_val lo None)
               | None => raise Unmodelled
               end
  | None => reject "INCLRANGE"
  end.

(** INCLRANGETO (execution.py:1906-1914) *)
Definition op_INCLRANGETO (rhs : pval) : pm pval :=
  match bound_of rhs with
  | Some None => ret (range_val (Some 1) None)
  | Some (Some u) => ret (range_val (Some 1) (Some (u + 1)))
  | None => reject "INCLRANGETO"
  end.

(** ** Building Lists *)

(** [lhs] with Scalar, Pattern and nil wrapped in a List. *)
Definition enlist_atom (v : pval) : pval :=
  match v with
  | PScal _ | PPat _ _ | PNil => PList [v]
  | _ => v
  end.

(** APPENDELEM (execution.py:803-811), APPENDLIST (813-823), PREPENDELEM
    (2991-3000) *)
Definition op_APPENDELEM (lhs rhs : pval) : pm pval :=
  let lhs := enlist_atom lhs in
  if is_list_or_range lhs
  then do l <- lift (p_list lhs); ret (PList (l ++ [rhs]))
  else reject "APPENDELEM".
Definition op_APPENDLIST (lhs rhs : pval) : pm pval :=
  let lhs := enlist_atom lhs in
  let rhs := enlist_atom rhs in
  if is_list_or_range lhs && is_list_or_range rhs
  then do l <- lift (p_list lhs); do r <- lift (p_list rhs); ret (PList (l ++ r))
  else reject "APPENDLIST".
Definition op_PREPENDELEM (lhs rhs : pval) : pm pval :=
  let lhs := enlist_atom lhs in
  if is_list_or_range lhs
  then do l <- lift (p_list lhs); ret (PList (rhs :: l))
  else reject "PREPENDELEM".

(** REPEATLIST (execution.py:3171-3179) *)
Definition op_REPEATLIST (lhs rhs : pval) : pm pval :=
  let lhs := enlist_atom lhs in
  match rhs with
  | PScal n =>
    if is_list_or_range lhs
    then do l <- lift (p_list lhs); ret (PList (py_repeat (scalar_int n) l))
    else reject "REPEATLIST"
  | _ => reject "REPEATLIST"
  end.

(** ENUMERATE (execution.py:1374-1385) *)
Definition number_items (l : list pval) : list (Z * pval) :=
  combine (zseq 0 (zlen l)) l.
Definition op_ENUMERATE (iterable : pval) : pm pval :=
  if is_iterable iterable
  then if infinite iterable then reject "ENUMERATE: infinite"
       else do l <- lift (p_iter iterable);
            ret (PList (map (fun p => PList [scal_Z (fst p); snd p])
                            (number_items l)))
  else reject "ENUMERATE".

(** COORDINATEGRID (execution.py:1144-1156), ZEROGRID (4261-4272), ONEGRID
    (2737-2748), IDENTITYMATRIX (1836-1847) *)
Definition grid (w : warning) (cell : Z -> Z -> pval) (rows cols : pval)
  : pm pval :=
  match rows, cols with
  | PScal r, PScal c =>
    ret (PList (map (fun i => PList (map (cell i) (zseq 0 (scalar_int c))))
                    (zseq 0 (scalar_int r))))
  | _, _ => reject w
  end.
Definition op_COORDINATEGRID :=
  grid "COORDINATEGRID" (fun r c => PList [scal_Z r; scal_Z c]).
Definition op_ZEROGRID := grid "ZEROGRID" (fun _ _ => PScal (s_ "0")).
Definition op_ONEGRID := grid "ONEGRID" (fun _ _ => PScal (s_ "1")).
Definition op_IDENTITYMATRIX (rhs : pval) : pm pval :=
  grid "IDENTITYMATRIX"
       (fun r c => PScal (if r =? c then s_ "1" else s_ "0")) rhs rhs.

(** FLATTEN (execution.py:1661-1672) *)
Definition op_FLATTEN (iterable : pval) : pm pval :=
  if is_list_or_range iterable
  then do l <- lift (p_iter iterable);
       do ll <- mapM (fun x => if is_list_or_range x then lift (p_iter x)
                               else ret [x]) l;
       ret (PList (concat ll))
  else ret iterable.

(** FLATTENALL (execution.py:1674-1685): the items of the result. *)
Fixpoint flatten_items (v : pval) : res (list pval) :=
  match v with
  | PList l => rbind (mapR flatten_items l) (fun ll => Val (concat ll))
  | PRange lo (Some u) => Val (map scal_Z (range_ints lo u))
  | PRange _ None => Exn Hang
  | _ => Val [v]
  end.
Definition op_FLATTENALL (iterable : pval) : pm pval :=
  if is_list_or_range iterable
  then do l <- lift (flatten_items iterable); ret (PList l)
  else ret iterable.

(** REVERSE (execution.py:3311-3324), REFLECT (3137-3153), PALINDROMIZE
    (2766-2791) *)
Definition mirror (w : warning) (f : forall A, list A -> list A) (v : pval)
  : pm pval :=
  match v with
  | PScal s => ret (PScal (f char s))
  | PRange _ None => reject w
  | PList _ | PRange _ _ => do l <- lift (p_list v); ret (PList (f pval l))
  | _ => reject w
  end.
Definition op_REVERSE := mirror "REVERSE" (fun A l => rev l).
Definition op_REFLECT := mirror "REFLECT" (fun A l => l ++ rev l).
(** [l + l[-2::-1]]: the reverse without its first item. *)
Definition op_PALINDROMIZE :=
  mirror "PALINDROMIZE" (fun A l => l ++ tl (rev l)).

(** QUADREFLECT (execution.py:3051-3057), QUADPALINDROMIZE (3059-3065) *)
Definition quad (f : pval -> pm pval) (v : pval) : pm pval :=
  do r <- f v;
  match r with
  | PNil => ret PNil
  | _ => do rows <- lift (p_iter r); do l <- mapM f rows; ret (PList l)
  end.
Definition op_QUADREFLECT := quad op_REFLECT.
Definition op_QUADPALINDROMIZE := quad op_PALINDROMIZE.

(** UNIQUE (execution.py:4101-4129): the set of previous items is looked up by
    hash (of the repr, ptypes.py:22-23) and then by equality; hashes of
    different strings are assumed different. *)
Definition same_item (a b : pval) : bool :=
  str_eqb (p_repr a) (p_repr b) && p_eqb a b.
Fixpoint unique_items (seen : list pval) (l : list pval) : list pval :=
  match l with
  | [] => []
  | x :: l' => if existsb (same_item x) seen then unique_items seen l'
               else x :: unique_items (x :: seen) l'
  end.
Definition op_UNIQUE (iterable : pval) : pm pval :=
  match iterable with
  | PRange _ _ => ret iterable
  | PNil => ret PNil
  | PList l => ret (PList (unique_items [] l))
  | PScal s => join_list None (unique_items [] (chars s))
  | _ => reject "UNIQUE"
  end.

(** UNWEAVE (execution.py:4131-4168) *)
Definition strand {A} (k i : nat) (l : list A) : list A :=
  map snd (filter (fun p => Nat.eqb (fst p mod k) i)
                  (combine (seq 0 (length l)) l)).
Definition op_UNWEAVE (iterable : pval) (strands : option pval) : pm pval :=
  match iterable with
  | PRange _ None => reject "UNWEAVE: infinite"
  | _ =>
    let k := match strands with
             | None => Some 2
             | Some (PScal s) => Some (scalar_int s)
             | Some _ => None
             end in
    match k with
    | None => reject "UNWEAVE"
    | Some k =>
      if negb (is_iterable iterable) then reject "UNWEAVE"
      else if k <? 1 then reject "UNWEAVE: strands"
      else
        do l <- lift (p_iter iterable);
        let parts := map (fun i => strand (Z.to_nat k) i l)
                         (seq 0 (Z.to_nat k)) in
        match iterable with
        | PScal _ => do r <- mapM (join_list None) parts; ret (PList r)
        | _ => ret (PList (map PList parts))
        end
    end
  end.

(** WEAVE (execution.py:4179-4233) *)
Definition weave_items (ls : list (list pval)) : list pval :=
  let n := fold_right (fun l m => Nat.max (length l) m) O ls in
  concat (map (fun i => concat (map (fun l => match nth_error l i with
                                              | Some x => [x]
                                              | None => []
                                              end) ls))
              (seq 0 n)).
(** [Scalar(self.JOIN(result))] *)
Definition join_scalar (l : list pval) : pm pval :=
  do r <- join_list None l; ret (PScal (p_str FmtNone r)).
Definition nil_to_empty (v : pval) : pval :=
  match v with PNil => PScal [] | _ => v end.
Definition is_scalar (v : pval) : bool :=
  match v with PScal _ => true | _ => false end.
Definition op_WEAVE1 (iterables : pval) : pm pval :=
  match iterables with
  | PScal _ => ret iterables
  | PRange _ None => raise Hang
  | PList _ | PRange _ _ =>
    do l <- lift (p_iter iterables);
    let l := map nil_to_empty l in
    if forallb is_iterable l
    then match l with
         | [] => raise ValueError        (* max() of an empty sequence *)
         | _ =>
           do ls <- mapM (fun v => lift (p_list v)) l;
           if forallb is_scalar l then join_scalar (weave_items ls)
           else ret (PList (weave_items ls))
         end
    else reject "WEAVE: item"
  | _ => raise Unmodelled        (* falls through: Python's None *)
  end.
Definition op_WEAVE2 (a b : pval) : pm pval :=
  let a := nil_to_empty a in
  let b := nil_to_empty b in
  if is_iterable a && is_iterable b
  then do la <- lift (p_list a);
       do lb <- lift (p_list b);
       if is_scalar a && is_scalar b then join_scalar (weave_items [la; lb])
       else ret (PList (weave_items [la; lb]))
  else reject "WEAVE".

(** The items of [v] among the first [n] iterations. *)
Definition iter_upto (n : nat) (v : pval) : list pval :=
  match v with
  | PRange lo None => map (fun i => scal_Z (lower0 lo + Z.of_nat i)) (seq 0 n)
  | _ => match p_iter v with Val l => l | Exn _ => [] end
  end.
Definition transpose (n : nat) (cols : list (list pval)) (fill : pval)
  : list (list pval) :=
  map (fun i => map (fun col => nth i col fill) cols) (seq 0 n).
(** Number of rounds of [zip]: the shortest finite argument; [None] if all are
    infinite. *)
Definition zip_rounds (ls : list pval) : option nat :=
  fold_right (fun v acc =>
                if infinite v then acc
                else let k := length (iter_upto 0 v) in
                     Some match acc with None => k | Some m => Nat.min k m end)
             None ls.

(** ZIP (execution.py:4274-4293) *)
Definition zip_lists (lists : list pval) : pm pval :=
  if forallb is_iterable lists
  then match lists with
       | [] => ret (PList [])
       | _ => match zip_rounds lists with
              | None => raise Hang
              | Some n => ret (PList (map PList
                                 (transpose n (map (iter_upto n) lists) PNil)))
              end
       end
  else reject "ZIP: items".
Definition op_ZIP1 (v : pval) : pm pval :=
  if is_iterable v then do l <- lift (p_iter v); zip_lists l
  else reject "ZIP".
Definition op_ZIP2 (a b : pval) : pm pval := zip_lists [a; b].

(** [itertools.zip_longest] *)
Definition zip_longest (lists : list pval) (fill : pval)
  : pm (list (list pval)) :=
  do cols <- lift (mapR p_iter lists);
  let n := fold_right (fun l m => Nat.max (length l) m) O cols in
  ret (transpose n cols fill).

(** ZIPDEFAULT (execution.py:4295-4312): the warning of the last branch
    mentions an undefined name. *)
Definition op_ZIPDEFAULT (lists : pval) (default : option pval) : pm pval :=
  let fill := match default with None => PScal [] | Some d => d end in
  if is_iterable lists
  then do l <- lift (p_iter lists);
       if forallb is_iterable l
       then do rows <- zip_longest l fill; ret (PList (map PList rows))
       else reject "ZIPDEFAULT: items"
  else raise NameError.

(** ZIPJOIN (execution.py:4314-4338) *)
Definition zip_join_lines (lines : list pval) : pm (list pval) :=
  let lines := map (fun v => if is_iterable v then v
                             else PScal (p_str FmtNone v)) lines in
  do rows <- zip_longest lines (PScal [c_space]);
  mapM (join_list None) rows.
Definition op_ZIPJOIN1 (v : pval) : pm pval :=
  match v with
  | PScal s =>
    do r <- zip_join_lines (map PScal (str_split [c_nl] s));
    join_list (Some (PScal [c_nl])) r
  | PList _ | PRange _ _ =>
    do l <- lift (p_iter v); do r <- zip_join_lines l; ret (PList r)
  | _ => reject "ZIPJOIN"
  end.
Definition op_ZIPJOIN2 (a b : pval) : pm pval :=
  do r <- zip_join_lines [a; b]; ret (PList r).

(** CARTESIANPRODUCT (execution.py:1005-1024); [itertools.product] *)
Fixpoint product {A} (ls : list (list A)) : list (list A) :=
  match ls with
  | [] => [[]]
  | l :: ls' => concat (map (fun x => map (cons x) (product ls')) l)
  end.
Definition cartesian (lists : list pval) : pm pval :=
  if forallb is_iterable lists
  then do ls <- mapM (fun v => lift (p_list v)) lists;
       ret (PList (map PList (product ls)))
  else reject "CARTESIANPRODUCT: items".
Definition op_CARTESIANPRODUCT1 (v : pval) : pm pval :=
  if is_iterable v then do l <- lift (p_iter v); cartesian l
  else reject "CARTESIANPRODUCT".
Definition op_CARTESIANPRODUCT2 (a b : pval) : pm pval := cartesian [a; b].

(** COMBINATIONS (execution.py:1131-1142); [itertools.combinations] *)
Fixpoint combinations {A} (l : list A) (r : nat) : list (list A) :=
  match r, l with
  | O, _ => [[]]
  | S _, [] => []
  | S r', x :: l' => map (cons x) (combinations l' r') ++ combinations l' r
  end.
Definition op_COMBINATIONS (iterable num : pval) : pm pval :=
  match num with
  | PScal n =>
    if is_iterable iterable
    then do l <- lift (p_list iterable);
         if scalar_int n <? 0 then raise ValueError
         else
           let cs := combinations l (Z.to_nat (scalar_int n)) in
           if is_scalar iterable
           then do r <- mapM (join_list None) cs; ret (PList r)
           else ret (PList (map PList cs))
    else reject "COMBINATIONS"
  | _ => reject "COMBINATIONS"
  end.

(** PERMUTATIONS (execution.py:2797-2808); [itertools.permutations]: choose each
    item in turn, then permute the others. *)
Fixpoint picks {A} (l : list A) : list (A * list A) :=
  match l with
  | [] => []
  | x :: l' => (x, l') :: map (fun p => (fst p, x :: snd p)) (picks l')
  end.
Fixpoint permutations {A} (fuel : nat) (l : list A) : list (list A) :=
  match fuel with
  | O => [[]]
  | S f => concat (map (fun p => map (cons (fst p)) (permutations f (snd p)))
                       (picks l))
  end.
Definition op_PERMUTATIONS (iterable : pval) : pm pval :=
  if is_iterable iterable
  then do l <- lift (p_list iterable);
       let ps := permutations (length l) l in
       if is_scalar iterable
       then do r <- mapM (join_list None) ps; ret (PList r)
       else ret (PList (map PList ps))
  else reject "PERMUTATIONS".

(** ** Cutting into pieces *)

(** Rounds allowed to the piece loops before the model gives up with [Hang]:
    enough for an integer jump; for a float jump, twice the quotient plus a
    margin, for the rounding of the index. *)
Definition piece_fuel (len : Z) (jump : num) : nat :=
  match jump with
  | NI n => Z.to_nat (len / Z.abs n + 1)
  | NF _ =>
    match num_truediv (NI len) (num_abs jump) with
    | Val q => match num_ceil q with
               | Val z => Z.to_nat (2 * z + 16)
               | Exn _ => 16
               end
    | Exn _ => 16
    end
  end.

(** Left-to-right loop of CHOP and GROUP (execution.py:1094-1099, 1795-1799). *)
Fixpoint pieces_up (fuel : nat) (v : pval) (len : Z) (jump index : num)
         (acc : list pval) : pm pval :=
  if num_ltb index (NI len)
  then match fuel with
       | O => raise Hang
       | S f =>
         do next <- lift (num_add index jump);
         let end_ := if num_ltb (NI len) next then NI len else next in
         do a <- lift (num_floor index);
         do b <- lift (num_floor end_);
         do chunk <- lift (p_getitem v (ISlice (Some a) (Some b)));
         pieces_up f v len jump next (chunk :: acc)
       end
  else ret (PList (rev acc)).

(** Right-to-left loop (execution.py:1104-1109, 1804-1808); [jump < 0]. *)
Fixpoint pieces_down (fuel : nat) (v : pval) (len : Z) (jump index : num)
         (acc : list pval) : pm pval :=
  if num_gtb index (NI 0)
  then match fuel with
       | O => raise Hang
       | S f =>
         do next <- lift (num_add index jump);
         let start := if num_gtb (NI 0) next then NI 0 else next in
         do a <- lift (num_ceil start);
         do b <- lift (num_ceil index);
         do chunk <- lift (p_getitem v (ISlice (Some a) (Some b)));
         pieces_down f v len jump next (chunk :: acc)
       end
  else ret (PList (rev acc)).

(** GROUP by one size (execution.py:1790-1812) *)
Definition group1 (iterable : pval) (size : str) : pm pval :=
  if is_iterable iterable
  then
    let jump := to_number size in
    if num_gtb jump (NI 0)
    then do len <- lift (p_len iterable);
         pieces_up (piece_fuel len jump) iterable len jump (NI 0) []
    else if num_ltb jump (NI 0)
    then do len <- lift (p_len iterable);
         pieces_down (piece_fuel len jump) iterable len jump (NI len) []
    else reject "GROUP: zero"
  else reject "GROUP".

(** CHOP into one number of pieces (execution.py:1090-1113) *)
Definition chop1 (iterable : pval) (count : str) : pm pval :=
  if is_iterable iterable
  then
    let chunks := to_number count in
    if num_gtb chunks (NI 0)
    then do len <- lift (p_len iterable);
         do jump <- lift (num_truediv (NI len) chunks);
         pieces_up (piece_fuel len jump) iterable len jump (NI 0) []
    else if num_ltb chunks (NI 0)
    then do len <- lift (p_len iterable);
         do jump <- lift (num_truediv (NI len) chunks);
         pieces_down (piece_fuel len jump) iterable len jump (NI len) []
    else reject "CHOP: zero"
  else reject "CHOP".

(** A List or Range of sizes gives a List of results
    (execution.py:1087-1089, 1787-1789). *)
Section EachSize.
  Variable f : str -> pm pval.
  Variable w : warning.
  Fixpoint each_size (size : pval) : pm pval :=
    match size with
    | PList l => do r <- mapM each_size l; ret (PList r)
    | PRange lo (Some u) =>
      do r <- mapM (fun z => f (str_of_Z z)) (range_ints lo u); ret (PList r)
    | PRange _ None => raise Hang
    | PScal s => f s
    | _ => reject w
    end.
End EachSize.

(** GROUP (execution.py:1784-1816), CHOP (1084-1118); unary: 2. *)
Definition op_GROUP (iterable rhs : pval) : pm pval :=
  each_size (group1 iterable) "GROUP" rhs.
Definition op_CHOP (iterable rhs : pval) : pm pval :=
  each_size (chop1 iterable) "CHOP" rhs.

(** SPLITAT (execution.py:3639-3668).  [int()] of a non-Scalar raises
    TypeError.  For other types of [indices] nothing is converted and the last
    branch warns. *)
Definition int_of (v : pval) : res Z :=
  match v with PScal s => Val (scalar_int s) | _ => Exn TypeError end.
Definition split_at_loop (v : pval) (len : Z) (ixs : list Z) : pm (list pval) :=
  let hit i := existsb (Z.eqb i) ixs || existsb (Z.eqb (i - len)) ixs in
  do st <- foldM (fun st i =>
                    if hit i
                    then do c <- lift (p_getitem v (ISlice (Some (fst st))
                                                           (Some i)));
                         ret (i, snd st ++ [c])
                    else ret st) (0, []) (zseq 0 len);
  do c <- lift (p_getitem v (ISlice (Some (fst st)) None));
  ret (snd st ++ [c]).
Definition op_SPLITAT (iterable indices : pval) : pm pval :=
  let go ixs :=
    if is_iterable iterable
    then do len <- lift (p_len iterable);
         do r <- split_at_loop iterable len ixs; ret (PList r)
    else reject "SPLITAT" in
  match indices with
  | PScal s => go [scalar_int s]
  | PRange lo (Some u) => go (range_ints lo u)
  | PRange _ None => raise Hang
  | PList l => match mapR int_of l with
               | Val ixs => go ixs
               | Exn _ => reject "SPLITAT: indices"
               end
  | _ => reject "SPLITAT"
  end.

(** ** Searching *)

(** FIND of one item (execution.py:1588-1605). *)
Definition find1 (iterable item : pval) : pm pval :=
  match item, iterable with
  | PPat r f, PScal s =>
    do o <- of_re (re_search r f s);
    ret (match fst o with
         | Some m => scal_Z (Z.of_nat (fd_start m))
         | None => PNil
         end)
  | _, _ =>
    if (is_scalar item && is_iterable iterable)
       || match iterable with PList _ => true | _ => false end
    then match p_index iterable item 0 with
         | Val i => ret (scal_Z i)
         | Exn _ => ret PNil
         end
    else reject "FIND"
  end.

Definition is_scalar_or_range (v : pval) : bool :=
  match v with PScal _ | PRange _ _ => true | _ => false end.

Section EachItem.
  Variable f : pval -> pm pval.
  Variable w : warning.
  Fixpoint each_item (item : pval) : pm pval :=
    match item with
    | PList l => do r <- mapM each_item l; ret (PList r)
    | PRange lo (Some u) =>
      do r <- mapM (fun z => f (scal_Z z)) (range_ints lo u); ret (PList r)
    | PRange _ None => reject w
    | _ => f item
    end.
End EachItem.

(** FIND (execution.py:1578-1605) *)
Definition op_FIND (iterable item : pval) : pm pval :=
  if is_scalar_or_range iterable
  then each_item (find1 iterable) "FIND: infinite" item
  else find1 iterable item.

(** The search loop of FINDALL (execution.py:1607-1642); only ValueError ends
    it. *)
Fixpoint find_all_from (fuel : nat) (iterable item : pval) (start : nat)
  : pm (list pval) :=
  match fuel with
  | O => raise Hang
  | S f => match p_index iterable item start with
           | Val i => do r <- find_all_from f iterable item (S (Z.to_nat i));
                      ret (scal_Z i :: r)
           | Exn ValueError => ret []
           | Exn e => raise e
           end
  end.
Definition find_fuel (v : pval) : nat :=
  match p_len v with Val n => Z.to_nat n + 2 | Exn _ => 3 end.
Definition find_all1 (iterable item : pval) : pm pval :=
  match item, iterable with
  | PPat r f, PScal s =>
    do o <- of_re (re_finditer r f s);
    ret (PList (map (fun m => scal_Z (Z.of_nat (fd_start m))) (fst o)))
  | _, _ =>
    if (is_scalar item && is_iterable iterable)
       || match iterable with PList _ => true | _ => false end
    then do l <- find_all_from (find_fuel iterable) iterable item 0;
         ret (PList l)
    else reject "FINDALL"
  end.

(** FINDALL (execution.py:1607-1642) *)
Definition op_FINDALL (iterable item : pval) : pm pval :=
  if is_scalar_or_range iterable
  then each_item (find_all1 iterable) "FINDALL: infinite" item
  else find_all1 iterable item.

(** IN (execution.py:1857-1880) *)
Fixpoint op_IN (needle haystack : pval) {struct needle} : pm pval :=
  match haystack with
  | PScal s =>
    match needle with
    | PList l => do r <- mapM (fun x => op_IN x haystack) l; ret (PList r)
    | PRange lo (Some u) =>
      do r <- mapM (fun z => lift (p_count haystack (scal_Z z)))
                   (range_ints lo u); ret (PList r)
    | PRange _ None => raise Hang
    | PPat r f => do o <- of_re (re_finditer r f s);
                  ret (scal_Z (zlen (fst o)))
    | PNil => ret PNil
    | _ => lift (p_count haystack needle)
    end
  | PRange _ _ => match needle with
                  | PNil => ret PNil
                  | _ => lift (p_count haystack needle)
                  end
  | PList _ => lift (p_count haystack needle)
  | _ => ret (PScal (s_ "0"))
  end.

(** NOTIN (execution.py:2454-2461) *)
Fixpoint op_NOTIN (needle haystack : pval) {struct needle} : pm pval :=
  let plain x := do b <- lift (p_contains haystack x); b2 (negb b) in
  match haystack with
  | PScal s =>
    match needle with
    | PList l => do r <- mapM (fun x => op_NOTIN x haystack) l; ret (PList r)
    | PRange lo (Some u) =>
      do r <- mapM (fun z => plain (scal_Z z)) (range_ints lo u); ret (PList r)
    | PRange _ None => raise Hang
    | PPat r f => do o <- of_re (re_search r f s);
                  b2 (match fst o with Some _ => false | None => true end)
    | _ => plain needle
    end
  | _ => plain needle
  end.

(** ** Matching *)

(** FIRSTMATCH and FULLMATCH take the Pattern on either side and turn a Scalar
    into a Pattern if there is none. *)
Definition match_args (string regex : pval) : pval * pval :=
  match string, regex with
  | PPat _ _, PScal _ => (regex, string)
  | _, PScal s => (string, PPat (literal_regex s) 0)
  | _, _ => (string, regex)
  end.

(** FIRSTMATCH (execution.py:1644-1659) *)
Definition op_FIRSTMATCH (string regex : pval) : pm pval :=
  match match_args string regex with
  | (PScal s, PPat r f) =>
    do o <- of_re (re_search r f s);
    ret (match fst o with Some m => PScal (match_text s m) | None => PNil end)
  | _ => reject "FIRSTMATCH"
  end.

(** FULLMATCH (execution.py:1764-1782); the items of a List are passed in the
    other position, so only Scalar items are matched. *)
Definition full_match (r : str) (f : N) (item : pval) : pm bool :=
  match item with
  | PScal s => do o <- of_re (re_fullmatch r f s);
               ret (match fst o with Some _ => true | None => false end)
  | _ => warn "FULLMATCH" (ret false)
  end.
Fixpoint full_matches (r : str) (f : N) (items : list pval) : pm bool :=
  match items with
  | [] => ret true
  | x :: items' => do b <- full_match r f x;
                   if b then full_matches r f items' else ret false
  end.
Definition op_FULLMATCH (string regex : pval) : pm pval :=
  match match_args string regex with
  | (PList l, PPat r f) => do b <- full_matches r f l; b2 b
  | (PRange lo (Some u), PPat r f) =>
    do b <- full_matches r f (map scal_Z (range_ints lo u)); b2 b
  | (PRange _ None, PPat _ _) => raise Unmodelled
  | (PScal _ as s, PPat r f) => do b <- full_match r f s; b2 b
  | _ => warn "FULLMATCH" (b2 false)
  end.

(** ** Matches that set the regex variables

    The operators above hand every match they look at to [assignRegexVars]
    (execution.py:442-471).  [hit] is a match object: the text, the match and
    the number of groups. *)

Record hit : Type := mkhit { ht_text : str; ht_found : found; ht_groups : nat }.

Definition hits_search (r : str) (f : N) (s : str) : list hit :=
  match re_search r f s with Some (Some m, n) => [mkhit s m n] | _ => [] end.
Definition hits_full (r : str) (f : N) (s : str) : list hit :=
  match re_fullmatch r f s with Some (Some m, n) => [mkhit s m n] | _ => [] end.
Definition hits_iter (r : str) (f : N) (s : str) : list hit :=
  match re_finditer r f s with
  | Some (l, n) => map (fun m => mkhit s m n) l
  | None => []
  end.

(** The Patterns in an argument of FIND, FINDALL and IN, in order. *)
Fixpoint patterns (v : pval) : list (str * N) :=
  match v with
  | PPat r f => [(r, f)]
  | PList l => flat_map patterns l
  | _ => []
  end.
(** FULLMATCH stops at the first item that does not match. *)
Fixpoint hits_all (r : str) (f : N) (items : list pval) : list hit :=
  match items with
  | PScal s :: items' => match hits_full r f s with
                         | [] => []
                         | h => h ++ hits_all r f items'
                         end
  | _ => []
  end.
Definition pattern_hits (g : str -> N -> str -> list hit) (v : pval) (s : str) : list hit :=
  flat_map (fun p => g (fst p) (snd p) s) (patterns v).

Definition regex_hits (f : opfun) (args : list pval) : list hit :=
  match f, args with
  | F_FIND, [PScal s; v] => pattern_hits hits_search v s
  | F_FINDALL, [PScal s; v] | F_IN, [v; PScal s] => pattern_hits hits_iter v s
  | F_FIRSTMATCH, [a; b] =>
    match match_args a b with
    | (PScal s, PPat r fl) => hits_search r fl s
    | _ => []
    end
  | F_FULLMATCH, [a; b] =>
    match match_args a b with
    | (PScal s, PPat r fl) => hits_full r fl s
    | (PList l, PPat r fl) => hits_all r fl l
    | (PRange lo (Some u), PPat r fl) => hits_all r fl (map scal_Z (range_ints lo u))
    | _ => []
    end
  | _, _ => []
  end.

(** ** Sorting *)

(** Python's comparison of keys: lists compare at the first unequal position;
    a number and a list cannot be ordered ([None]: TypeError). *)
Fixpoint key_eqb (a b : key) {struct a} : bool :=
  match a, b with
  | KNum x, KNum y => num_eqb x y
  | KList l, KList l' =>
    (fix go (l1 l2 : list key) : bool :=
       match l1, l2 with
       | [], [] => true
       | x :: l1', y :: l2' => key_eqb x y && go l1' l2'
       | _, _ => false
       end) l l'
  | _, _ => false
  end.
Fixpoint key_ltb (a b : key) {struct a} : option bool :=
  match a, b with
  | KNum x, KNum y => Some (num_ltb x y)
  | KList l, KList l' =>
    (fix go (l1 l2 : list key) : option bool :=
       match l1, l2 with
       | [], [] => Some false
       | [], _ :: _ => Some true
       | _ :: _, [] => Some false
       | x :: l1', y :: l2' => if key_eqb x y then go l1' l2' else key_ltb x y
       end) l l'
  | _, _ => None
  end.
(** Numbers are never NaN here, so [a > b] is [b < a]. *)
Definition key_gtb (a b : key) : option bool := key_ltb b a.

(** A stable sort by [lt]; Python's [sorted] returns the stable sort. *)
Section StableSort.
  Context {A : Type}.
  Variable lt : A -> A -> bool.
  Fixpoint sinsert (x : A) (l : list A) : list A :=
    match l with
    | [] => [x]
    | y :: l' => if lt y x then y :: sinsert x l' else x :: l
    end.
  Definition stable_sort (l : list A) : list A := fold_right sinsert [] l.
End StableSort.

(** [sorted(..., reverse=True)] keeps equal items in their original order. *)
Definition stable_sort_desc {A} (lt : A -> A -> bool) (l : list A) : list A :=
  rev (stable_sort lt (rev l)).

(** Python's [sorted] raises TypeError if two keys cannot be ordered: every
    comparison sort has to compare neighbours of the result. *)
Fixpoint all_comparable (ks : list key) : bool :=
  match ks with
  | [] => true
  | k :: ks' => forallb (fun k' => match key_ltb k k' with
                                   | Some _ => true
                                   | None => false
                                   end) ks' && all_comparable ks'
  end.
Definition key_lt (a b : key) : bool :=
  match key_ltb a b with Some true => true | _ => false end.

(** [sorted(items, key=..., reverse=...)] on given keys; [None]: TypeError. *)
Definition sorted_by (desc : bool) (l : list (key * pval))
  : option (list pval) :=
  if all_comparable (map fst l)
  then Some (map snd ((if desc then stable_sort_desc else stable_sort)
                        (fun a b => key_lt (fst a) (fst b)) l))
  else None.

(** Warnings of the key function (execution.py:1303-1311, 3573-3581). *)
Definition key_warnings (w : warning) (l : list pval) : list warning :=
  flat_map (fun v => match v with
                     | PPat _ _ | PBlock _ _ | PNil | PRange _ None => [w]
                     | _ => []
                     end) l.

(** SORTNUM (execution.py:3571-3595), DESCENDINGNUM (1303-1327) *)
Definition op_sort_num (w : warning) (desc : bool) (iterable : pval) : pm pval :=
  if is_iterable iterable
  then do l <- lift (p_list iterable);
       do _ <- (key_warnings w l, Val tt);
       match sorted_by desc (map (fun v => (p_to_number v, v)) l) with
       | Some r => ret (PList r)
       | None => reject w
       end
  else reject w.
Definition op_SORTNUM := op_sort_num "SORTNUM" false.
Definition op_DESCENDINGNUM := op_sort_num "DESCENDINGNUM" true.

(** SORTSTRING (execution.py:3597-3607), DESCENDINGSTRING (1329-1342) *)
Definition op_sort_str (w : warning) (desc : bool) (fmt : ofmt) (v : pval)
  : pm pval :=
  match v with
  | PScal s =>
    ret (PScal ((if desc then stable_sort_desc else stable_sort) N.ltb s))
  | PList _ | PRange _ _ =>
    do l <- lift (p_list v);
    ret (PList (map snd
                  ((if desc then stable_sort_desc else stable_sort)
                     (fun a b => str_ltb (fst a) (fst b))
                     (map (fun x => (p_str fmt x, x)) l))))
  | _ => reject w
  end.
Definition op_SORTSTRING := op_sort_str "SORTSTRING" false.
Definition op_DESCENDINGSTRING := op_sort_str "DESCENDINGSTRING" true.

(** MAX (execution.py:2352-2370), MIN (2372-2390): Python's [max] keeps the
    first of several maximal items. *)
Fixpoint best_from (better : key -> key -> option bool) (best : pval)
         (l : list pval) : option pval :=
  match l with
  | [] => Some best
  | x :: l' => match better (p_to_number x) (p_to_number best) with
               | None => None
               | Some true => best_from better x l'
               | Some false => best_from better best l'
               end
  end.
Definition op_best (w : warning) (better : key -> key -> option bool) (v : pval)
  : pm pval :=
  if is_iterable v
  then do l <- lift (p_iter v);
       match l with
       | [] => reject w
       | x :: l' => match best_from better x l' with
                    | Some r => ret r
                    | None => reject w
                    end
       end
  else reject w.
Definition op_MAX := op_best "MAX" key_gtb.
Definition op_MIN := op_best "MIN" key_ltb.

(** ** Indexing operators on values (rvalues) *)

(** TRANSLITERATE (execution.py:4010-4069).  [zip] stops at the shorter side. *)
Definition tr_items (n : nat) (v : pval) : list (pval + char) :=
  match v with
  | PScal s => map inr s
  | _ => map inl (iter_upto n v)
  end.
Definition tr_size (v : pval) : option nat :=
  if infinite v then None else Some (length (iter_upto 0 v)).
Fixpoint tr_mapping (l : list ((pval + char) * (pval + char)))
  : pm (list (num * option num)) :=
  match l with
  | [] => ret []
  | (o, n) :: l' =>
    let from := match o with
                | inr c => Some (NI (Z.of_N c))
                | inl (PScal s) => Some (to_number s)
                | inl _ => None
                end in
    let to := match n with
              | inr c => Some (Some (NI (Z.of_N c)))
              | inl (PScal s) => Some (Some (to_number s))
              | inl PNil => Some None
              | inl _ => None
              end in
    match from, to with
    | Some f, Some t => do m <- tr_mapping l'; ret ((f, t) :: m)
    | _, _ => warn "TRANSLITERATE: item" (tr_mapping l')
    end
  end.
(** Later entries overwrite earlier ones; keys are equal as numbers. *)
Definition tr_lookup (m : list (num * option num)) (c : char)
  : option (option num) :=
  fold_left (fun acc p => if num_eqb (fst p) (NI (Z.of_N c)) then Some (snd p)
                          else acc) m None.
Definition tr_char (m : list (num * option num)) (c : char) : res str :=
  match tr_lookup m c with
  | None => Val [c]
  | Some None => Val []
  | Some (Some (NI z)) => if (0 <=? z) && (z <=? 1114111)
                          then Val [Z.to_N z] else Exn ValueError
  | Some (Some (NF _)) => Exn TypeError
  end.
Definition translit1 (s : str) (old new : pval) : pm pval :=
  match tr_size old, tr_size new with
  | None, None => reject "TRANSLITERATE: infinite"
  | a, b =>
    let n := match a, b with
             | Some x, Some y => Nat.min x y
             | Some x, None => x
             | None, Some y => y
             | None, None => O
             end in
    do m <- tr_mapping (combine (tr_items n old) (tr_items n new));
    do r <- lift (mapR (tr_char m) s);
    ret (PScal (concat r))
  end.
Fixpoint op_TRANSLITERATE (old new lhs : pval) {struct lhs} : pm pval :=
  let one s := if is_iterable old && is_iterable new then translit1 s old new
               else reject "TRANSLITERATE" in
  match lhs with
  | PList l => do r <- mapM (op_TRANSLITERATE old new) l; ret (PList r)
  | PRange lo (Some u) =>
    do r <- mapM (fun z => one (str_of_Z z)) (range_ints lo u); ret (PList r)
  | PRange _ None => raise Hang
  | PScal s => one s
  | _ => reject "TRANSLITERATE"
  end.

(** Python's [list.__setitem__] with a slice: [stop < start] inserts at
    [start]. *)
Definition set_slice {A} (l : list A) (a b : option Z) (new : list A) : list A :=
  let n := zlen l in
  let i := match a with Some z => clamp_bound n z | None => 0 end in
  let j := match b with Some z => clamp_bound n z | None => n end in
  let j := Z.max i j in
  firstn (Z.to_nat i) l ++ new ++ skipn (Z.to_nat j) l.
Definition set_nth {A} (l : list A) (i : nat) (x : A) : list A :=
  firstn i l ++ x :: skipn (S i) l.

(** [result[index] = new] on a copy (ptypes.py:144-150, 435-438); a Range has
    no [__setitem__]. *)
Definition p_setitem (fmt : ofmt) (v : pval) (i : idx) (new : pval) : res pval :=
  match v, i with
  | PScal s, IInt z =>
    match s with
    | [] => Exn ZeroDivisionError
    | _ => let k := Z.to_nat (z mod zlen s) in
           Val (PScal (firstn k s ++ p_str fmt new ++ skipn (S k) s))
    end
  | PScal s, ISlice a b => Val (PScal (set_slice s a b (p_str fmt new)))
  | PList l, IInt z =>
    match l with
    | [] => Exn ZeroDivisionError
    | _ => Val (PList (set_nth l (Z.to_nat (z mod zlen l)) new))
    end
  | PList l, ISlice a b =>
    rbind (p_list new) (fun items => Val (PList (set_slice l a b items)))
  | _, _ => Exn TypeError
  end.

(** REPLACEAT (execution.py:3245-3276) *)
Fixpoint op_REPLACEAT (fmt : ofmt) (index lhs new : pval) {struct index}
  : pm pval :=
  if is_iterable lhs
  then
    match index with
    | PList is_ =>
      match new with
      | PList ns =>
        (fix go (i : Z) (is_ : list pval) (acc : pval) : pm pval :=
           match is_ with
           | [] => ret acc
           | x :: is' =>
             do n <- lift (of_option IndexError (seq_index ns i));
             do acc' <- op_REPLACEAT fmt x acc n; go (i + 1) is' acc'
           end) 0 is_ lhs
      | _ => (fix go (is_ : list pval) (acc : pval) : pm pval :=
                match is_ with
                | [] => ret acc
                | x :: is' => do acc' <- op_REPLACEAT fmt x acc new; go is' acc'
                end) is_ lhs
      end
    | PScal s => lift (p_setitem fmt lhs (IInt (scalar_int s)) new)
    | PRange lo hi => lift (p_setitem fmt lhs (ISlice lo hi) new)
    | PNil => ret lhs
    | _ => reject "REPLACEAT"
    end
  else match index with
       | PNil => ret lhs
       | _ => reject "REPLACEAT"
       end.

(** ** Unary filters (execution.py:1430-1440, 1478-1489, 1508-1518, 1531-1551) *)

Definition op_FILTER1 (v : pval) : pm pval :=
  if is_iterable v
  then do l <- lift (p_iter v); ret (PList (filter p_bool l))
  else reject "FILTER".
Definition op_FILTERNOT1 (v : pval) : pm pval :=
  if is_iterable v
  then do l <- lift (p_iter v); ret (PList (filter (fun x => negb (p_bool x)) l))
  else reject "FILTERNOT".
Definition op_FILTERINDEXES1 (v : pval) : pm pval :=
  if is_iterable v
  then do l <- lift (p_iter v);
       ret (PList (map (fun p => scal_Z (fst p))
                       (filter (fun p => p_bool (snd p)) (number_items l))))
  else reject "FILTERINDEXES".
Definition op_FILTERUNPACK1 (v : pval) : pm pval :=
  if is_iterable v
  then do l <- lift (p_iter v);
       do ll <- mapM (fun x =>
                        if is_iterable x
                        then match p_getitem x (IInt 0) with
                             | Val y => ret (if p_bool y then [x] else [])
                             | Exn IndexError => ret []
                             | Exn e => raise e
                             end
                        else warn "FILTERUNPACK: item" (ret [])) l;
       ret (PList (concat ll))
  else reject "FILTERUNPACK".
Definition op_FILTERJOIN1 (v : pval) : pm pval :=
  do r <- op_FILTER1 v; op_JOIN r None.

(** ** Rounding to nearest, angles *)

(** [math.remainder] on finite floats: exact, quotient rounded half to even. *)
Definition float_remainder (x y : float) : res float :=
  match x, y with
  | S754_nan, _ => Val x
  | _, S754_nan => Val y
  | S754_infinity _, _ => Exn ValueError
  | _, S754_zero _ => Exn ValueError
  | _, S754_infinity _ => Val x
  | S754_zero _, _ => Val x
  | S754_finite sx mx ex, S754_finite _ my ey =>
    let e := Z.min ex ey in
    let a := Zpos mx * 2 ^ (ex - e) in
    let b := Zpos my * 2 ^ (ey - e) in
    let q := a / b in
    let r := a mod b in
    let r := match Z.compare (2 * r) b with
             | Lt => r
             | Gt => r - b
             | Eq => if Z.even q then r else r - b
             end in
    if r =? 0 then Val (S754_zero sx)
    else Val (set_sign sx (binary_normalize prec53 emax1024 r e false))
  end.
Definition num_remainder (x y : num) : res num :=
  rbind (to_float x) (fun a => rbind (to_float y) (fun b =>
    rbind (float_remainder a b) (fun r => Val (NF r)))).

(** ROUNDNEAREST (execution.py:3370-3397) *)
Definition op_ROUNDNEAREST (lhs : pval) (rhs : option pval) : pm pval :=
  let precision := match rhs with
                   | None => Some (NI 1)
                   | Some (PScal p) => Some (num_abs (to_number p))
                   | Some _ => None
                   end in
  match lhs, precision with
  | PScal s, Some p =>
    let x := to_number s in
    if num_eqb p (NI 0) then ret lhs
    else if num_eqb p (NI 1)
         then lift (rbind (num_remainder x (NI 1)) (fun r =>
                    rbind (if num_gtb r (NI 0) then num_floor x else num_ceil x)
                          (fun z => Val (scal_Z z))))
         else lift (rbind (num_remainder x p) (fun r =>
                    rbind (num_sub x r) (fun n => Val (scal_num n))))
  | _, _ => reject "ROUNDNEAREST"
  end.

(** math.pi *)
Definition float_pi : float := S754_finite false 7074237752028440 (-51).

(** DEGREES (execution.py:1217-1224), RADIANS (3067-3074) *)
Definition op_DEGREES : pval -> pm pval :=
  on_num "DEGREES" (fun n => rbind (num_truediv n (NF float_pi))
                                   (fun q => num_mul q (NI 180))).
Definition op_RADIANS : pval -> pm pval :=
  on_num "RADIANS" (fun n => rbind (num_truediv n (NI 180))
                                   (fun q => num_mul q (NF float_pi))).
