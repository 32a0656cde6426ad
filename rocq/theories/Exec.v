(** * execution.py: the evaluator

    Evaluating expressions, executing statements and calling functions.  The
    functions are mutually recursive without a structural bound; [interp]
    packs them, [step] builds each of them from the others, and [run n]
    unfolds the recursion [n] times ([Fuel] when that is not enough). *)

From Coq Require Import String List NArith ZArith Bool Arith.
From Verif Require Import PyStr PyRe PyNum Tokens OpFun OpTable Scan Parse
                          PTypes Ops UserRe OpsSeq Apply Heap.
Import ListNotations.
Local Open Scope string_scope.
Local Open Scope list_scope.
Local Open Scope Z_scope.

(** An argument of an operator: a parse tree, or an already evaluated value
    that Python puts into the expression list. *)
Inductive arg : Type :=
| ATree (t : tree hval)
| AVal (x : xval).

Record interp : Type := mkinterp
  { i_eval : tree hval -> M xval;                 (* evaluate *)
    i_op : oper -> list arg -> M xval;            (* evaluate([op, ...]) *)
    i_fun : opfun -> list arg -> M xval;          (* self.FUNCTION(...) *)
    i_stmt : tree hval -> M (option hval);        (* executeStatement *)
    i_call : hval -> list hval -> M hval;         (* functionCall *)
    i_while : bool -> tree hval -> list (tree hval) -> M unit }.

(** SCALAR_ONE and the other shared constants (execution.py:18-20) are the
    first cells of the heap. *)
Definition loc_empty : loc := 0%nat.
Definition loc_one : loc := 1%nat.
Definition loc_two : loc := 2%nat.
Definition scalar_one : hval := HScal loc_one.

Definition xnil : xval := XR HNil.
Definition xret (v : hval) : M xval := mret (XR v).
Definition xwarn (w : warning) : M xval := mwarn w;; mret xnil.

(** A result used as an item of a List.  Operators that return the variable
    they assigned to (YANK) could put an Lval there; that is not modelled. *)
Definition to_r (x : xval) : M hval :=
  match x with XR v => mret v | _ => fail (EPy Unmodelled) end.

(** [getRval] on an evaluated expression (execution.py:252-306). *)
Definition rval_x (x : xval) : M xval :=
  match x with
  | XL lv => v <- get_lval lv;; xret v
  | _ => mret x
  end.
Definition rval_h (x : xval) : M hval :=
  match x with
  | XR v => mret v
  | XL lv => get_lval lv
  | XO _ => fail (EPy Unmodelled)
  end.

(** [bool(x)]; an Lval object is true. *)
Definition truth_x (x : xval) : M bool :=
  match x with XR v => truth v | _ => mret true end.

(** Operators without one of their modifiers (operators.py:41-58). *)
Definition clear_assign (o : oper) : oper :=
  mkoper (o_text o) (o_fun o) (o_arity o) (o_prec o) (o_assoc o) (o_default o)
         (o_flags o) false (o_map o) (o_fold o) (o_scan o).
Definition clear_map (o : oper) : oper :=
  mkoper (o_text o) (o_fun o) (o_arity o) (o_prec o) (o_assoc o) (o_default o)
         (o_flags o) (o_assign o) false (o_fold o) (o_scan o).
Definition clear_fold (o : oper) : oper :=
  mkoper (o_text o) (o_fun o) (o_arity o) (o_prec o) (o_assoc o) (o_default o)
         (o_flags o) (o_assign o) (o_map o) false (o_scan o).
Definition clear_scan (o : oper) : oper :=
  mkoper (o_text o) (o_fun o) (o_arity o) (o_prec o) (o_assoc o) (o_default o)
         (o_flags o) (o_assign o) (o_map o) (o_fold o) false.

(** [toPipType(operator.default)]. *)
Definition default_val (d : opdefault) : pval :=
  match d with
  | DNone => PNil
  | DInt z => scal_Z z
  | DStr s => PScal s
  | DList => PList []
  end.

Definition op_plus : oper :=
  Eval vm_compute in
  match op_by_arity 2 (s_ "+") with Some o => o | None => op_chain end.
Definition op_minus : oper :=
  Eval vm_compute in
  match op_by_arity 2 (s_ "-") with Some o => o | None => op_chain end.

(** [parsing.isExpr] (parsing.py:108-115). *)
Definition tree_is_expr (t : tree hval) : bool :=
  match t with
  | TApp _ _ => true
  | TTok k => match t_kind k with
              | KName => true
              | k => is_literal k
              end
  | _ => false
  end.

(** BLOCK (execution.py:996-1004). *)
Definition mk_block (stmts : list (tree hval)) : hval :=
  match rev stmts with
  | last :: front => if tree_is_expr last then HBlock (rev front) last
                     else HBlock stmts (TVal HNil)
  | [] => HBlock [] (TVal HNil)
  end.

(** ** Lambdas (execution.py:155-189) *)
Definition x_block (x : xval) : bool :=
  match x with XR (HBlock _ _) => true | _ => false end.
Definition x_stmts (x : xval) : list (tree hval) :=
  match x with XR (HBlock sts _) => sts | _ => [] end.
Definition x_expr (x : xval) : tree hval :=
  match x with
  | XR (HBlock _ r) => r
  | XR v => TVal v
  | XO o => TOpr o
  | XL _ => TVal HNil
  end.
Definition lambda_x (o : oper) (xs : list xval) : hval :=
  HBlock (flat_map x_stmts xs) (TApp o (map x_expr xs)).

(** An argument to be expanded (execution.py:140-145). *)
Definition expands_x (fl : flags) (x : xval) : bool :=
  match x with
  | XR (HRange _ _) => f_range_each fl
  | XR (HList _) => f_list_each fl
  | _ => false
  end.

(** [zip(a, b)] on the items. *)
Definition h_size (v : hval) : M (option nat) :=
  match v with
  | HRange _ None => mret None
  | HBlock _ _ => fail (EPy TypeError)
  | _ => items <- h_iter v;; mret (Some (length items))
  end.
Definition h_zip (a b : hval) : M (list (hval * hval)) :=
  na <- h_size a;;
  nb <- h_size b;;
  match na, nb with
  | None, None => diverge
  | Some n, _ => la <- h_iter a;; lb <- h_take n b;; mret (combine la lb)
  | None, Some n => la <- h_take n a;; lb <- h_iter b;; mret (combine la lb)
  end.

(** Sort keys (execution.py:1276-1294, 3546-3559). *)
Definition key_of (w : warning) (p : pval) : M key :=
  mfor mwarn (key_warnings w [p]);; mret (p_to_number p).
Definition sorted_h (desc : bool) (l : list (key * hval)) : option (list hval) :=
  if all_comparable (map fst l)
  then Some (map snd ((if desc then stable_sort_desc else stable_sort)
                        (fun a b => key_lt (fst a) (fst b)) l))
  else None.

(** WIPEGLOBALS (execution.py:572-623). *)
Definition text_range (a b : Z) : str := map Z.to_N (zseq a b).
Definition name_tree (x : str) : tree pval := TTok (Tok KName x).
Definition global_table : list (str * pval) :=
  [(s_ "_", PBlock [] (name_tree (s_ "a")));
   (s_ "h", PScal (s_ "100"));
   (s_ "i", PScal (s_ "0"));
   (s_ "k", PScal (s_ ", "));
   (s_ "l", PList []);
   (s_ "m", PScal (s_ "1000"));
   (s_ "n", PScal [c_nl]);
   (s_ "o", PScal (s_ "1"));
   (s_ "p", PScal (s_ "()"));
   (s_ "s", PScal (s_ " "));
   (s_ "t", PScal (s_ "10"));
   (s_ "u", PNil);
   (s_ "v", PScal (s_ "-1"));
   (s_ "w", PPat (s_ "\s+") 0);
   (s_ "x", PScal []);
   (s_ "y", PScal []);
   (s_ "z", PScal (s_ "abcdefghijklmnopqrstuvwxyz"));
   (s_ "B", PBlock [] (name_tree (s_ "b")));
   (s_ "G", PBlock [] (name_tree (s_ "g")));
   (s_ "AZ", PScal (s_ "ABCDEFGHIJKLMNOPQRSTUVWXYZ"));
   (s_ "CZ", PScal (s_ "bcdfghjklmnpqrstvwxyz"));
   (s_ "PA", PScal (text_range 32 127));
   (s_ "PI", PScal (str_of_float float_pi));
   (s_ "VD", PScal (s_ "2024-03-30"));
   (s_ "VN", PScal (s_ "1.2.0"));
   (s_ "VW", PScal (s_ "aeiou"));
   (s_ "VY", PScal (s_ "aeiouy"));
   (s_ "XA", PPat (s_ "[a-z]") flag_ignorecase);
   (s_ "XC", PPat (s_ "[bcdfghjklmnpqrstvwxyz]") 0);
   (s_ "XD", PPat (s_ "\d") 0);
   (s_ "XI", PPat (s_ "-?\d+") 0);
   (s_ "XL", PPat (s_ "[a-z]") 0);
   (s_ "XN", PPat (s_ "-?\d+(?:\.\d+)?") 0);
   (s_ "XU", PPat (s_ "[A-Z]") 0);
   (s_ "XV", PPat (s_ "[aeiou]") 0);
   (s_ "XW", PPat (s_ "\w") 0);
   (s_ "XX", PPat (s_ ".") 0);
   (s_ "XY", PPat (s_ "[aeiouy]") 0)].
Definition wipe_globals : M unit :=
  consts <- mmap (fun '(x, p) => v <- fresh p;; mret (x, v)) global_table;;
  args <- get_args;;
  all_args <- copies args;;
  g <- new_list all_args;;
  main <- get_main;;
  let named := combine (map (fun c => [c_backslash; c]) (s_ "abcde")) args in
  reset_vars (consts ++ [(s_ "\g", g)] ++ named
              ++ [(s_ "\f", match main with Some f => f | None => HNil end)]).

(** [assignRegexVars] (execution.py:442-471).  Group 1 is the one that
    [asRegex] puts around the whole Pattern.  All these variables are global
    and none is special, so [assign] is [set_var]. *)
Definition group_value (h : hit) (k : nat) : M hval :=
  match group_text (ht_text h) (ht_found h) k with
  | Some t => fresh (PScal t)
  | None => mret HNil
  end.
Definition group_bound (pick : nat * nat -> nat) (h : hit) (k : nat) : pval :=
  match cap k (fd_caps (ht_found h)) with
  | Some p => scal_Z (Z.of_nat (pick p))
  | None => scal_Z (-1)
  end.
Definition digit_vars : list str := map (fun c => [36%N; c]) (s_ "0123456789").
Definition assign_match (h : hit) : M (list hval) :=
  let m := ht_found h in
  let t := ht_text h in
  gs <- mmap (group_value h) (seq 1 (ht_groups h));;
  l <- new_list (tl gs);;
  set_var (s_ "$$") l;;
  mfor (fun p => set_var (fst p) (snd p))
       (combine digit_vars (gs ++ repeat HNil 10));;
  a <- fresh (scal_Z (Z.of_nat (fd_start m)));; set_var (s_ "$(") a;;
  b <- fresh (scal_Z (Z.of_nat (fd_end m)));; set_var (s_ "$)") b;;
  c <- fresh (PScal (firstn (fd_start m) t));; set_var (s_ "$`") c;;
  d <- fresh (PScal (skipn (fd_end m) t));; set_var (s_ "$'") d;;
  let rest := seq 2 (ht_groups h - 1) in
  x <- fresh (PList (map (group_bound fst h) rest));; set_var (s_ "$[") x;;
  y <- fresh (PList (map (group_bound snd h) rest));; set_var (s_ "$]") y;;
  mret gs.
Definition assign_hit (h : hit) : M unit := assign_match h;; mret tt.

Definition unmodelled {A} : M A := fail (EPy Unmodelled).

Section Step.
  Variable R : interp.

  (** ** Arguments *)

  (** [self.evaluate(arg)]. *)
  Definition eval_arg (a : arg) : M xval :=
    match a with ATree t => i_eval R t | AVal x => mret x end.
  (** [self.getRval(arg)]; an operator stays itself. *)
  Definition rval_arg (a : arg) : M xval :=
    match a with
    | ATree (TOpr o) => mret (XO o)
    | ATree t => x <- i_eval R t;; rval_x x
    | AVal x => rval_x x
    end.
  Definition rval_arg_h (a : arg) : M hval := x <- rval_arg a;; rval_h x.
  Definition rval_tree (t : tree hval) : M hval := rval_arg_h (ATree t).

  Definition args_r (l : list arg) : M (list hval) :=
    mmap (fun a => match a with
                   | AVal (XR v) => mret v
                   | _ => unmodelled
                   end) l.

  (** ** Indexing (execution.py:866-937) *)
  Definition at_index (lhs : xval) (i : idx) : M xval :=
    match lhs with
    | XL (LList items sl) =>
      match i with
      | IInt z => match seq_index items z with
                  | Some lv => mret (XL lv)
                  | None => xwarn "AT: index"
                  end
      | ISlice a b =>
        match items with
        | [] => mret (XL (LList [] []))
        | _ => match seq_slice items a b with
               | Some part => part' <- mmap (fun lv => lval_extend lv []) part;;
                              mret (XL (LList part' []))
               | None => diverge
               end
        end
      end
    | XL lv => lv' <- lval_extend lv [i];; mret (XL lv')
    | XR v =>
      if h_iterable v
      then n <- h_len v;;
           if match n with Some n => n =? 0 | None => false end
           then xwarn "AT: empty"
           else r <- h_index v i;;
                match r with
                | Some v' => xret v'
                | None => xwarn "AT: index"
                end
      else xwarn "AT"
    | XO _ => unmodelled
    end.
  Definition AT (lhs : xval) (rhs : option xval) : M xval :=
    match rhs with
    | None => at_index lhs (IInt 0)
    | Some rhs =>
      r <- rval_h rhs;;
      match r with
      | HScal l => s <- load_str l;; at_index lhs (IInt (scalar_int s))
      | HRange lo hi => at_index lhs (ISlice lo hi)
      | HList l =>
        lhs <- rval_h lhs;;
        if h_iterable lhs
        then items <- load_list l;;
             rs <- mmap (fun it => x <- i_fun R F_AT [AVal (XR lhs);
                                                      AVal (XR it)];;
                                   to_r x) items;;
             v <- new_list rs;; xret v
        else xwarn "AT"
      | HPat re fl =>
        lhs <- rval_h lhs;;
        match lhs with
        | HScal l =>
          s <- load_str l;;
          o <- of_pm (of_re (re_finditer re fl s));;
          rs <- mmap (fun m => gs <- assign_match (mkhit s m (snd o));;
                               mret (hd HNil gs)) (fst o);;
          v <- new_list rs;; xret v
        | HList _ | HRange _ _ =>
          items <- h_iter lhs;;
          rs <- mmap (fun it => x <- i_fun R F_AT [AVal (XR it); AVal (XR r)];;
                                to_r x) items;;
          v <- new_list rs;; xret v
        | _ => xwarn "AT"
        end
      | HBlock _ _ | HNil => xwarn "AT: index type"
      end
    end.

  (** LEFTOF, RIGHTOF, PREFIX, SUFFIX (execution.py:2009-2028, 3326-3345,
      2966-2989, 3876-3903). *)
  Definition slice_op (f : opfun) (w : warning) (mk : Z -> idx)
             (lhs : xval) (rhs : option xval) (default : Z) : M xval :=
    let with_int (lhs : xval) (z : Z) : M xval :=
      match lhs with
      | XL lv => lv' <- lval_extend lv [mk z];; mret (XL lv')
      | XR v => if h_iterable v
                then r <- h_index v (mk z);;
                     match r with
                     | Some v' => xret v'
                     | None => fail (EPy IndexError)
                     end
                else xwarn w
      | XO _ => unmodelled
      end in
    match rhs with
    | None => with_int lhs default
    | Some rhs =>
      r <- rval_h rhs;;
      match r with
      | HScal l => s <- load_str l;; with_int lhs (scalar_int s)
      | HList _ | HRange _ _ =>
        lhs <- rval_h lhs;;
        items <- h_iter r;;
        rs <- mmap (fun it => x <- i_fun R f [AVal (XR lhs); AVal (XR it)];;
                              to_r x) items;;
        v <- new_list rs;; xret v
      | _ => xwarn w
      end
    end.

  (** ** Functions over iterables *)

  (** The arguments in either order: a Block may come second. *)
  Definition swap_if_block (f it : hval) : hval * hval :=
    if h_block it && h_iterable f then (it, f) else (f, it).

  (** MAP (execution.py:2158-2180) *)
  Definition MAP (lhs iterable : hval) : M xval :=
    let '(lhs, iterable) := swap_if_block lhs iterable in
    if h_iterable iterable
    then
      rs <- (match lhs with
             | HBlock _ _ => items <- h_iter iterable;;
                             mmap (fun it => i_call R lhs [it]) items
             | HList l => fs <- load_list l;;
                          mmap (fun f => x <- i_fun R F_MAP
                                             [AVal (XR f); AVal (XR iterable)];;
                                         to_r x) fs
             | _ => items <- h_iter iterable;; mret (map (fun _ => lhs) items)
             end);;
      v <- new_list rs;; xret v
    else xwarn "MAP".

  (** MAPZIP (execution.py:2338-2352) *)
  Definition MAPZIP (lhs it1 it2 : hval) : M xval :=
    let '(lhs, it1) := swap_if_block lhs it1 in
    if h_iterable it1 && h_iterable it2 && h_block lhs
    then pairs <- h_zip it1 it2;;
         rs <- mmap (fun '(a, b) => i_call R lhs [a; b]) pairs;;
         v <- new_list rs;; xret v
    else xwarn "MAPZIP".

  (** MAPCOORDS (execution.py:2182-2222) *)
  Definition grid_of (f : hval) (rows cols : Z) : M xval :=
    rs <- mmap (fun r =>
                  row <- mmap (fun c =>
                                 if h_block f
                                 then a <- fresh (scal_Z r);;
                                      b <- fresh (scal_Z c);;
                                      i_call R f [a; b]
                                 else mret f) (zseq 0 cols);;
                  new_list row) (zseq 0 rows);;
    v <- new_list rs;; xret v.
  Definition MAPCOORDS (lhs rhs : hval) : M xval :=
    match rhs with
    | HScal l => s <- load_str l;;
                 grid_of lhs (scalar_int s) (scalar_int s)
    | HList _ | HRange _ _ =>
      n <- h_len rhs;;
      if match n with Some n => n =? 0 | None => false end
      then xwarn "MAPCOORDS: empty"
      else a <- h_index rhs (IInt 0);;
           b <- h_index rhs (IInt 1);;
           match a, b with
           | Some (HScal la), Some (HScal lb) =>
             sa <- load_str la;; sb <- load_str lb;;
             grid_of lhs (scalar_int sa) (scalar_int sb)
           | Some _, Some _ => xwarn "MAPCOORDS"
           | _, _ => fail (EPy IndexError)
           end
    | _ => xwarn "MAPCOORDS"
    end.

  (** MAPENUMERATE (execution.py:2224-2235) *)
  Definition MAPENUMERATE (f it : hval) : M xval :=
    let '(f, it) := swap_if_block f it in
    if h_block f && h_iterable it
    then n <- h_len it;;
         match n with
         | Some n => MAPZIP f (HRange None (Some n)) it
         | None => fail (EPy ValueError)
         end
    else xwarn "MAPENUMERATE".

  (** MAPMAP (execution.py:2248-2260); the warning refers to an undefined
      variable. *)
  Definition MAPMAP (lhs it : hval) : M xval :=
    let '(lhs, it) := swap_if_block lhs it in
    if h_iterable it
    then items <- h_iter it;;
         rs <- mmap (fun x => r <- i_fun R F_MAP [AVal (XR lhs); AVal (XR x)];;
                              to_r r) items;;
         v <- new_list rs;; xret v
    else fail (EPy NameError).

  (** MAPPAIRS (execution.py:2262-2273) *)
  Definition MAPPAIRS (f it : hval) : M xval :=
    let '(f, it) := swap_if_block f it in
    if h_block f && h_iterable it
    then r <- h_index it (ISlice (Some 1) None);;
         match r with
         | Some rest => MAPZIP f it rest
         | None => fail (EPy IndexError)
         end
    else xwarn "MAPPAIRS".

  (** MAPSUM (execution.py:2299-2309) *)
  Definition MAPSUM (f it : hval) : M xval :=
    zero <- fresh (scal_Z 0);;
    l <- MAP f it;;
    l <- to_r l;;
    items <- h_iter l;;
    mfold (fun acc x => i_op R op_plus [AVal acc; AVal (XR x)]) (XR zero) items.

  (** MAPUNPACK (execution.py:2311-2336) *)
  Definition unpack (w : warning) (item : hval) : M (list hval) :=
    match item with
    | HRange _ None | HBlock _ _ => mwarn w;; mret []
    | _ => h_list item
    end.
  Definition MAPUNPACK (f it : hval) : M xval :=
    let '(f, it) := swap_if_block f it in
    if h_iterable it && h_block f
    then items <- h_iter it;;
         rs <- mmap (fun x => args <- unpack "MAPUNPACK" x;; i_call R f args)
                    items;;
         v <- new_list rs;; xret v
    else xwarn "MAPUNPACK".

  (** MAPREGEX (execution.py:2275-2297) *)
  (** The matches of a Pattern and a Scalar in either order; without a Pattern
      the first Scalar becomes one (also execution.py:538-546). *)
  Definition regex_pair (r s : hval) : M (option (list hit)) :=
    let iter re fl l :=
      t <- load_str l;;
      o <- of_pm (of_re (re_finditer re fl t));;
      mret (Some (map (fun m => mkhit t m (snd o)) (fst o))) in
    match r, s with
    | HScal l, HPat re fl | HPat re fl, HScal l => iter re fl l
    | HScal l, HScal l' => x <- load_str l;; iter (literal_regex x) 0%N l'
    | _, _ => mret None
    end.
  Definition MAPREGEX (a b c : hval) : M xval :=
    let '(f, r, s) := if h_block b then (b, a, c)
                      else if h_block c then (c, b, a) else (a, b, c) in
    if h_block f
    then o <- regex_pair r s;;
         match o with
         | Some hits =>
           rs <- mmap (fun h => gs <- assign_match h;; i_call R f gs) hits;;
           v <- new_list rs;; xret v
         | None => xwarn "MAPREGEX"
         end
    else xwarn "MAPREGEX".

  (** REPLACE with a Block for the new text (execution.py:3181-3243): the Block
      is called for each match of the old Pattern.  The other arguments are
      read before the first call. *)
  Fixpoint sub_calls (blk : hval) (t : str) (pos : nat) (hits : list hit) : M str :=
    match hits with
    | [] => mret (skipn pos t)
    | h :: hits' =>
      gs <- assign_match h;;
      v <- i_call R blk gs;;
      p <- dread v;;
      fmt <- get_fmt;;
      rest <- sub_calls blk t (fd_end (ht_found h)) hits';;
      mret (span t pos (fd_start (ht_found h)) ++ p_str fmt p ++ rest)
    end.
  Definition sub_call (blk : hval) (re : str) (fl : N) (t : str) : M pval :=
    o <- of_pm (of_re (re_finditer re fl t));;
    u <- sub_calls blk t 0 (map (fun m => mkhit t m (snd o)) (fst o));;
    mret (PScal u).
  Definition replace_fails : M pval := mwarn "REPLACE";; mret PNil.
  Fixpoint replace_call1 (blk : hval) (old lhs : pval) {struct old} : M pval :=
    match lhs with
    | PScal s =>
      match old with
      | PPat re fl => sub_call blk re fl s
      | PScal o => sub_call blk (literal_regex o) 0 s
      | PList os => mfold (fun acc o => replace_call1 blk o acc) lhs os
      | PRange lo (Some u) =>
        mfold (fun acc z => match acc with
                            | PScal t => sub_call blk (literal_regex (str_of_Z z)) 0 t
                            | _ => replace_fails
                            end) lhs (range_ints lo u)
      | PRange _ None => diverge
      | PBlock _ _ | PNil => replace_fails
      end
    | _ => match old with PRange _ None => diverge | _ => replace_fails end
    end.
  Fixpoint replace_call (blk : hval) (old lhs : pval) {struct lhs} : M pval :=
    match lhs with
    | PList l =>
      match old with
      | PBlock _ _ | PNil => replace_fails
      | PRange _ None => diverge
      | _ => rs <- mmap (replace_call blk old) l;; mret (PList rs)
      end
    | PRange lo (Some u) =>
      match old with
      | PBlock _ _ | PNil => replace_fails
      | PRange _ None => diverge
      | _ => rs <- mmap (fun z => replace_call1 blk old (scal_Z z))
                        (range_ints lo u);;
             mret (PList rs)
      end
    | PRange _ None => diverge
    | _ => replace_call1 blk old lhs
    end.
  Definition REPLACE_CALL (lhs old blk : hval) : M xval :=
    a <- dread lhs;;
    b <- dread old;;
    p <- replace_call blk b a;;
    v <- fresh p;; xret v.

  (** FILTER and its variants (execution.py:1430-1576) with a function: [args]
      gives the arguments for an item, [result] what is kept. *)
  Definition filter_with (w : warning) (neg : bool)
             (args : Z * hval -> M (list hval))
             (result : Z * hval -> M hval) (f it : hval) : M xval :=
    let '(f, it) := swap_if_block f it in
    if h_block f && h_iterable it
    then items <- h_iter it;;
         rs <- mmap (fun p => a <- args p;;
                              v <- i_call R f a;;
                              b <- truth v;;
                              if xorb neg b then r <- result p;; mret [r]
                              else mret [])
                    (combine (zseq 0 (zlen items)) items);;
         v <- new_list (concat rs);; xret v
    else xwarn w.
  Definition arg_item (p : Z * hval) : M (list hval) := mret [snd p].
  Definition arg_indexed (p : Z * hval) : M (list hval) :=
    i <- fresh (scal_Z (fst p));; mret [i; snd p].
  Definition arg_unpacked (p : Z * hval) : M (list hval) :=
    match snd p with
    | HScal _ | HList _ | HRange _ (Some _) => h_list (snd p)
    | _ => mwarn "FILTERUNPACK";; mret []
    end.
  Definition kept_item (p : Z * hval) : M hval := mret (snd p).
  Definition kept_index (p : Z * hval) : M hval := fresh (scal_Z (fst p)).

  (** SORTKEYED, DESCENDINGKEYED (execution.py:3535-3569, 1265-1301).  The
      try block includes the calls of the key function. *)
  Definition SORT (w : warning) (desc : bool) (f it : hval) : M xval :=
    let '(f, it) := if negb (h_block f) && h_block it then (it, f)
                    else (f, it) in
    if h_block f && h_iterable it
    then swallow_type
           (items <- h_list it;;
            keyed <- mmap (fun x => k <- i_call R f [x];;
                                    p <- dread k;;
                                    k <- key_of w p;; mret (k, x)) items;;
            match sorted_h desc keyed with
            | Some l => l' <- copies l;; v <- new_list l';; xret v
            | None => xwarn w
            end)
           (xwarn w)
    else xwarn w.

  (** ** Variables *)

  (** ASSIGN (execution.py:855-864) *)
  Definition ASSIGN (lhs rhs : xval) : M xval :=
    match lhs with
    | XL lv => v <- rval_h rhs;; assign lv v;; mret lhs
    | _ => mwarn "ASSIGN";; mret rhs
    end.

  (** SWAP (execution.py:3905-3919) *)
  Definition SWAP (a b : xval) : M xval :=
    va <- rval_h a;;
    vb <- rval_h b;;
    (match a with XL lv => assign lv vb | _ => mwarn "SWAP" end);;
    (match b with XL lv => assign lv va | _ => mwarn "SWAP" end);;
    mret a.

  (** INC, DEC (execution.py:1882-1892, 1179-1189) *)
  Definition INC (w : warning) (o : oper) (x : xval) : M xval :=
    v <- rval_h x;;
    r <- i_op R o [AVal (XR v); AVal (XR scalar_one)];;
    match x with
    | XL lv => v' <- rval_h r;; assign lv v';; mret x
    | _ => mwarn w;; mret r
    end.

  (** The end of POP, DEQUEUE and PICK (execution.py:2903-2908): assign what
      is left, return the item. *)
  Definition put_back (w : warning) (x : xval) (rest : hval) (item : hval)
    : M xval :=
    (match x with
     | XL (LName _ _ _ as lv) => assign lv rest
     | XL (LList _ _) => mret tt
     | _ => mwarn w
     end);;
    xret item.
  Definition some_item (o : option hval) : M hval :=
    match o with Some v => mret v | None => fail (EPy IndexError) end.

  (** POP (execution.py:2874-2908), DEQUEUE (1226-1263): the item at one end
      of a List or Scalar and the slice without it. *)
  Definition take_end (w : warning) (x : xval) (v : hval) (i rest : idx)
    : M xval :=
    n <- h_len v;;
    if match n with Some n => n =? 0 | None => true end
    then xwarn w
    else item <- h_index v i;;
         item <- some_item item;;
         r <- h_index v rest;;
         r <- some_item r;;
         put_back w x r item.
  Definition POP (x : xval) : M xval :=
    v <- rval_h x;;
    match v with
    | HList _ | HScal _ =>
      take_end "POP" x v (IInt 0) (ISlice (Some 1) None)
    | HRange lo hi =>
      let lower := lower0 lo in
      if range_is_empty lo hi then xwarn "POP"
      else item <- fresh (scal_Z lower);;
           put_back "POP" x (HRange (Some (lower + 1)) hi) item
    | _ => xwarn "POP"
    end.
  Definition DEQUEUE (x : xval) : M xval :=
    v <- rval_h x;;
    match v with
    | HList _ | HScal _ =>
      take_end "DEQUEUE" x v (IInt (-1)) (ISlice None (Some (-1)))
    | HRange lo hi =>
      match hi with
      | None => xwarn "DEQUEUE"
      | Some u => if range_is_empty lo hi then xwarn "DEQUEUE"
                  else item <- fresh (scal_Z (u - 1));;
                       put_back "DEQUEUE" x (HRange lo (Some (u - 1))) item
      end
    | _ => xwarn "DEQUEUE"
    end.

  (** PICK (execution.py:2810-2872) *)
  Definition pick_list (x : xval) (items : list hval) (i : Z) : M xval :=
    let k := Z.to_nat (i mod zlen items) in
    match nth_error items k with
    | Some item =>
      rest <- copies (firstn k items ++ skipn (S k) items);;
      r <- new_list rest;; put_back "PICK" x r item
    | None => fail (EPy IndexError)
    end.
  Definition PICK (x y : xval) : M xval :=
    iv <- rval_h y;;
    match iv with
    | HScal li =>
      si <- load_str li;;
      let i := scalar_int si in
      v <- rval_h x;;
      match v with
      | HList l =>
        items <- load_list l;;
        match items with
        | [] => xwarn "PICK"
        | _ => pick_list x items i
        end
      | HRange lo None =>
        if i =? 0
        then item <- fresh (scal_Z (lower0 lo));;
             put_back "PICK" x (HRange (Some (lower0 lo + 1)) None) item
        else xwarn "PICK"
      | HRange lo (Some u) =>
        let len := Z.max 0 (u - lower0 lo) in
        if len =? 0 then xwarn "PICK"
        else if i mod len =? 0
        then item <- fresh (scal_Z (lower0 lo));;
             put_back "PICK" x (HRange (Some (lower0 lo + 1)) (Some u)) item
        else items <- h_iter v;; pick_list x items i
      | HScal l =>
        s <- load_str l;;
        match s with
        | [] => xwarn "PICK"
        | _ =>
          let k := Z.to_nat (i mod zlen s) in
          match nth_error s k with
          | Some c => item <- fresh (PScal [c]);;
                      r <- fresh (PScal (firstn k s ++ skipn (S k) s));;
                      put_back "PICK" x r item
          | None => fail (EPy IndexError)
          end
        end
      | _ => xwarn "PICK"
      end
    | _ => xwarn "PICK"
    end.

  (** PUSH, PUSHBACK (execution.py:3011-3049).  PREPENDELEM, APPENDELEM and
      CAT build new objects here. *)
  Definition PUSH_with (w : warning) (back : bool) (x y : xval) : M xval :=
    item <- rval_h y;;
    v <- rval_h x;;
    pi <- dread item;;
    pv <- dread v;;
    fmt <- get_fmt;;
    v' <- (match v with
           | HList _ | HRange _ _ =>
             p <- of_pm (if back then op_APPENDELEM pv pi
                         else op_PREPENDELEM pv pi);; fresh p
           | HScal _ | HPat _ _ =>
             let text := PScal (p_str fmt pi) in
             p <- of_pm (if back then op_CAT pv text else op_CAT text pv);;
             fresh p
           | HNil => item' <- copy item;; new_list [item']
           | HBlock _ _ => mret v
           end);;
    match x with
    | XL (LName _ _ _ as lv) => assign lv v';; mret x
    | XL (LList _ _) => xret v'
    | _ => mwarn w;; xret v'
    end.

  (** YANK (execution.py:4245-4249) *)
  Definition YANK (v : hval) : M xval :=
    lv <- mk_lval (s_ "y");; assign lv v;; mret (XL lv).

  (** RANDRANGE, RANDRANGETO (execution.py:3085-3105); [random.randrange] *)
  Definition randrange (lo hi : Z) : M Z :=
    if hi <=? lo then fail (EPy ValueError)
    else k <- draw (hi - lo);; mret (lo + k).
  Definition random_int (lo hi : Z) : M xval :=
    k <- randrange lo hi;; v <- fresh (scal_Z k);; xret v.
  Definition RANDRANGE (a b : hval) : M xval :=
    match a, b with
    | HNil, HScal lb => sb <- load_str lb;; random_int 0 (scalar_int sb)
    | HScal la, HScal lb =>
      sa <- load_str la;; sb <- load_str lb;;
      random_int (scalar_int sa) (scalar_int sb)
    | _, _ => xwarn "RANDRANGE"
    end.
  Definition RANDRANGETO (b : hval) : M xval :=
    match b with
    | HScal lb => sb <- load_str lb;; random_int 0 (scalar_int sb)
    | _ => xwarn "RANDRANGETO"
    end.

  (** RANDCHOICE (execution.py:3076-3083) *)
  Definition RANDCHOICE (it : hval) : M xval :=
    if h_iterable it
    then n <- h_len it;;
         match n with
         | Some n => k <- randrange 0 n;;
                     o <- h_index it (IInt k);;
                     item <- some_item o;;
                     xret item
         | None => fail (EPy ValueError)
         end
    else xwarn "RANDCHOICE".

  (** SHUFFLE (execution.py:3501-3513).  [random.shuffle] swaps each item,
      from the last to the second, with one that is not after it. *)
  Definition swap_items {A} (l : list A) (i j : nat) : list A :=
    match nth_error l i, nth_error l j with
    | Some x, Some y => set_nth (set_nth l i y) j x
    | _, _ => l
    end.
  Fixpoint shuffle {A} (i : nat) (l : list A) : M (list A) :=
    match i with
    | O | S O => mret l
    | S i' => k <- draw (Z.of_nat i);; shuffle i' (swap_items l i' (Z.to_nat k))
    end.
  Definition SHUFFLE (it : hval) : M xval :=
    if h_iterable it
    then items <- h_iter it;;
         items' <- shuffle (length items) items;;
         match it with
         | HScal _ => ps <- mmap dread items';;
                      p <- of_pm (op_JOIN (PList ps) None);;
                      v <- fresh p;; xret v
         | _ => v <- new_list items';; xret v
         end
    else xwarn "SHUFFLE".

  (** OUTPUT, PRINT (execution.py:2758-2764, 3002-3009) *)
  Definition OUTPUT (v : hval) : M unit :=
    match v with
    | HNil => mret tt
    | _ => fmt <- get_fmt;; p <- dread v;; put_out (p_str fmt p)
    end.
  Definition PRINT (v : hval) : M unit :=
    match v with
    | HNil => mret tt
    | _ => fmt <- get_fmt;; p <- dread v;; put_out (p_str fmt p ++ [c_nl])
    end.

  (** ** Control *)

  (** CHAIN (execution.py:1064-1082).  A chain of one operand would return
      Python's True; the parser does not build it. *)
  Fixpoint chain_links (lhs : hval) (rest : list xval) : M xval :=
    match rest with
    | XO o :: XR rhs :: rest' =>
      r <- i_op R o [AVal (XR lhs); AVal (XR rhs)];;
      match rest' with
      | [] => mret r
      | _ => b <- truth_x r;;
             if b then chain_links rhs rest' else mret r
      end
    | [] => unmodelled
    | _ => fail EFatal
    end.
  Definition CHAIN (xs : list xval) : M xval :=
    if Nat.even (length xs) then fail EFatal
    else match xs with
         | XR v :: rest => chain_links v rest
         | _ => unmodelled
         end.

  (** EVAL (execution.py:1387-1418).  Scanning and parsing errors are fatal. *)
  Definition tree_of_text (text : str) : M (list (tree hval)) :=
    match scan (text ++ [c_nl]) with
    | ScanOk ts _ =>
      match parse_program (V := hval) ts with
      | POk sts _ => mret sts
      | PErr PIndexError => fail (EPy IndexError)
      | PErr _ => fail EFatal
      end
    | _ => fail EFatal
    end.
  Definition EVAL (code : hval) (args : option hval) : M xval :=
    let '(code, args) := match args with
                         | Some (HBlock _ _ as b) => (b, Some code)
                         | _ => (code, args)
                         end in
    code <- (match code with
             | HScal l => s <- load_str l;;
                          sts <- tree_of_text s;; mret (mk_block sts)
             | _ => mret code
             end);;
    match code, args with
    | HBlock sts ret, Some args =>
      argl <- h_iter args;; v <- i_call R code argl;; xret v
    | HBlock sts ret, None =>
      mfor (i_stmt R) sts;; i_eval R ret
    | _, _ => xwarn "EVAL"
    end.

  (** SEND (execution.py:3479-3497) *)
  Definition SEND (head : xval) (tail : list xval) : M xval :=
    f <- (match head with
          | XL lv => v <- get_lval lv;;
                     mret (if h_block v then Some v else None)
          | XR v => mret (if h_block v then Some v else None)
          | XO _ => unmodelled
          end);;
    match f with
    | Some f => args <- mmap rval_h tail;;
                v <- i_call R f args;; xret v
    | None =>
      match head with
      | XR v => if h_iterable v
                then mfold (fun x i => i_fun R F_AT [AVal x; AVal i]) head tail
                else xwarn "SEND"
      | _ => mfold (fun x i => i_fun R F_AT [AVal x; AVal i]) head tail
      end
    end.

  (** LIST (execution.py:2100-2109) *)
  Fixpoint all_lvals (xs : list xval) : option (list lval) :=
    match xs with
    | [] => Some []
    | XL lv :: xs' => option_map (cons lv) (all_lvals xs')
    | _ :: _ => None
    end.
  Definition LIST (xs : list xval) : M xval :=
    match xs, all_lvals xs with
    | _ :: _, Some lvs => mret (XL (LList lvs []))
    | _, _ => vs <- mmap rval_h xs;; v <- new_list vs;; xret v
    end.

  (** Operators that only depend on the values of their arguments (Ops.v,
      OpsSeq.v): read the values, compute, make new objects for the result.
      The regex variables are assigned once the value is known. *)
  Definition pure_call (f : opfun) (args : list arg) : M xval :=
    vs <- args_r args;;
    ps <- mmap dread vs;;
    fmt <- get_fmt;;
    match pure_fun fmt f ps with
    | Some m => p <- of_pm m;;
                mfor assign_hit (regex_hits f ps);;
                v <- fresh p;; xret v
    | None => fail (EPy TypeError)
    end.

  (** [getattr(self, fnName)(...args)] (execution.py:221-226). *)
  Definition call_fun (f : opfun) (args : list arg) : M xval :=
    match f, args with
    | F_ASSIGN, [AVal a; AVal b] => ASSIGN a b
    | F_SWAP, [AVal a; AVal b] => SWAP a b
    | F_AND, [a; b] =>
      v <- rval_arg_h a;; t <- truth v;;
      if t then v' <- rval_arg_h b;; xret v' else xret v
    | F_OR, [a; b] =>
      v <- rval_arg_h a;; t <- truth v;;
      if t then xret v else v' <- rval_arg_h b;; xret v'
    | F_IFTE, [c; a; b] =>
      v <- rval_arg_h c;; t <- truth v;;
      if t then eval_arg a else eval_arg b
    | F_BLOCK, [ATree (TBlk sts)] => xret (mk_block sts)
    | F_PARENTHESIZE, [AVal x] => mret x
    | F_LIST, _ =>
      xs <- mmap eval_arg args;; LIST xs
    | F_SEND, AVal x :: rest =>
      xs <- mmap eval_arg rest;; SEND x xs
    | F_CHAIN, _ =>
      xs <- mmap eval_arg args;; CHAIN xs
    | F_AT, [AVal x] => AT x None
    | F_AT, [AVal x; AVal i] => AT x (Some i)
    | F_LEFTOF, [AVal x] =>
      slice_op F_LEFTOF "LEFTOF" (fun z => ISlice None (Some z)) x None (-1)
    | F_LEFTOF, [AVal x; AVal i] =>
      slice_op F_LEFTOF "LEFTOF" (fun z => ISlice None (Some z)) x (Some i) (-1)
    | F_RIGHTOF, [AVal x] =>
      slice_op F_RIGHTOF "RIGHTOF" (fun z => ISlice (Some z) None) x
               (Some (XR scalar_one)) 1
    | F_RIGHTOF, [AVal x; AVal i] =>
      slice_op F_RIGHTOF "RIGHTOF" (fun z => ISlice (Some z) None) x (Some i) 1
    | F_PREFIX, [AVal x] =>
      slice_op F_PREFIX "PREFIX" (fun z => ISlice None (Some z)) x None (-1)
    | F_PREFIX, [AVal x; AVal i] =>
      slice_op F_PREFIX "PREFIX" (fun z => ISlice None (Some z)) x (Some i) (-1)
    | F_SUFFIX, [AVal x] =>
      slice_op F_SUFFIX "SUFFIX" suffix_slice x None (-1)
    | F_SUFFIX, [AVal x; AVal i] =>
      slice_op F_SUFFIX "SUFFIX" suffix_slice x (Some i) (-1)
    | F_INC, [AVal x] => INC "INC" op_plus x
    | F_DEC, [AVal x] => INC "DEC" op_minus x
    | F_PUSH, [AVal x; AVal y] => PUSH_with "PUSH" false x y
    | F_PUSHBACK, [AVal x; AVal y] => PUSH_with "PUSHBACK" true x y
    | F_POP, [AVal x] => POP x
    | F_DEQUEUE, [AVal x] => DEQUEUE x
    | F_PICK, [AVal x; AVal y] => PICK x y
    | F_YANK, [AVal (XR v)] => YANK v
    | F_YANKOUTPUT, [AVal (XR v)] => OUTPUT v;; YANK v
    | F_YANKPRINT, [AVal (XR v)] => PRINT v;; YANK v
    | F_OUTPUT, [AVal (XR v)] => OUTPUT v;; xret v
    | F_PRINT, [AVal (XR v)] => PRINT v;; xret v
    | F_RECURSE, [AVal (XR v)] =>
      f <- current_fun;;
      match f with
      | Some f => r <- i_call R f [v];; xret r
      | None => fail (EPy AttributeError)
      end
    | F_EVAL, [AVal (XR v)] => EVAL v None
    | F_EVAL, [AVal (XR v); AVal (XR w)] => EVAL v (Some w)
    | F_MAP, [AVal (XR a); AVal (XR b)] => MAP a b
    | F_MAPCOORDS, [AVal (XR a); AVal (XR b)] => MAPCOORDS a b
    | F_MAPENUMERATE, [AVal (XR a); AVal (XR b)] => MAPENUMERATE a b
    | F_MAPFLATTEN, [AVal (XR a); AVal (XR b)] =>
      x <- MAP a b;; i_fun R F_FLATTEN [AVal x]
    | F_MAPJOIN, [AVal (XR a); AVal (XR b)] =>
      x <- MAP a b;; i_fun R F_JOIN [AVal x]
    | F_MAPMAP, [AVal (XR a); AVal (XR b)] => MAPMAP a b
    | F_MAPPAIRS, [AVal (XR a); AVal (XR b)] => MAPPAIRS a b
    | F_MAPSUM, [AVal (XR a); AVal (XR b)] => MAPSUM a b
    | F_MAPUNPACK, [AVal (XR a); AVal (XR b)] => MAPUNPACK a b
    | F_MAPZIP, [AVal (XR a); AVal (XR b); AVal (XR c)] => MAPZIP a b c
    | F_MAPREGEX, [AVal (XR a); AVal (XR b); AVal (XR c)] => MAPREGEX a b c
    | F_REPLACE, [AVal (XR a); AVal (XR b); AVal (XR (HBlock _ _ as c))] =>
      REPLACE_CALL a b c
    | F_FILTER, [AVal (XR a); AVal (XR b)] =>
      filter_with "FILTER" false arg_item kept_item a b
    | F_FILTERNOT, [AVal (XR a); AVal (XR b)] =>
      filter_with "FILTERNOT" true arg_item kept_item a b
    | F_FILTERENUMERATE, [AVal (XR a); AVal (XR b)] =>
      filter_with "FILTERENUMERATE" false arg_indexed kept_item a b
    | F_FILTERINDEXES, [AVal (XR a); AVal (XR b)] =>
      filter_with "FILTERINDEXES" false arg_indexed kept_index a b
    | F_FILTERUNPACK, [AVal (XR a); AVal (XR b)] =>
      filter_with "FILTERUNPACK" false arg_unpacked kept_item a b
    | F_FILTERJOIN, [AVal (XR a); AVal (XR b)] =>
      x <- filter_with "FILTER" false arg_item kept_item a b;;
      i_fun R F_JOIN [AVal x]
    | F_SORTKEYED, [AVal (XR a); AVal (XR b)] => SORT "SORTKEYED" false a b
    | F_DESCENDINGKEYED, [AVal (XR a); AVal (XR b)] =>
      SORT "DESCENDINGKEYED" true a b
    | F_RANDRANGE, [AVal (XR a); AVal (XR b)] => RANDRANGE a b
    | F_RANDRANGETO, [AVal (XR a)] => RANDRANGETO a
    | F_RANDCHOICE, [AVal (XR a)] => RANDCHOICE a
    | F_SHUFFLE, [AVal (XR a)] => SHUFFLE a
    | _, _ => pure_call f args
    end.

  (** ** Meta-operators (execution.py:629-747) *)

  (** The operator applied to a Block gives a Block. *)
  Definition meta_block (o : oper) (sts : list (tree hval)) (r : tree hval)
    : M xval :=
    xret (HBlock sts (TApp o [r])).

  Definition MAPMETA (o : oper) (a : arg) : M xval :=
    v <- rval_arg_h a;;
    let o' := clear_map o in
    match v with
    | HBlock sts r => meta_block o sts r
    | HNil => mret xnil
    | HPat _ _ => xwarn "MAPMETA"
    | _ => items <- h_iter v;;
           rs <- mmap (fun x => r <- i_op R o' [AVal (XR x)];; to_r r) items;;
           l <- new_list rs;; xret l
    end.

  Definition links (o : oper) (l : list hval) : list arg :=
    flat_map (fun v => [ATree (TOpr o); AVal (XR v)]) l.

  Definition fold_items (o : oper) (l : list hval) : M xval :=
    match o_assoc o with
    | ALeft =>
      match l with
      | x :: l' => mfold (fun acc v => i_op R o [AVal acc; AVal (XR v)])
                         (XR x) l'
      | [] => unmodelled
      end
    | ARight =>
      match rev l with
      | x :: l' => mfold (fun acc v => i_op R o [AVal (XR v); AVal acc])
                         (XR x) l'
      | [] => unmodelled
      end
    | AChain =>
      match l with
      | [x] => xret scalar_one
      | x :: l' => i_op R op_chain (AVal (XR x) :: links o l')
      | [] => unmodelled
      end
    | ANone => fail EFatal
    end.
  Definition FOLDMETA (o : oper) (a : arg) : M xval :=
    v <- rval_arg_h a;;
    let o' := clear_fold o in
    match v with
    | HBlock sts r => meta_block o sts r
    | HNil => mret xnil
    | HPat _ _ => xwarn "FOLDMETA"
    | HRange _ None => xwarn "FOLDMETA: infinite"
    | _ => items <- h_list v;;
           match items with
           | [] => d <- fresh (default_val (o_default o));; xret d
           | _ => fold_items o' items
           end
    end.

  (** All intermediate results of a fold, in order. *)
  Section Scanl.
    Variable f : xval -> hval -> M xval.
    Fixpoint mscan (acc : xval) (l : list hval) : M (list xval) :=
      match l with
      | [] => mret [acc]
      | x :: l' => acc' <- f acc x;; rest <- mscan acc' l';; mret (acc :: rest)
      end.
  End Scanl.
  Definition scan_items (o : oper) (l : list hval) : M (list xval) :=
    match o_assoc o with
    | ALeft =>
      match l with
      | x :: l' => mscan (fun acc v => i_op R o [AVal acc; AVal (XR v)])
                         (XR x) l'
      | [] => unmodelled
      end
    | ARight =>
      match rev l with
      | x :: l' =>
        rs <- mscan (fun acc v => i_op R o [AVal (XR v); AVal acc]) (XR x) l';;
        mret (rev rs)
      | [] => unmodelled
      end
    | AChain =>
      match l with
      | x :: l' =>
        rs <- mmap (fun n => i_op R op_chain
                                  (AVal (XR x) :: links o (firstn n l')))
                   (seq 1 (length l'));;
        mret (XR scalar_one :: rs)
      | [] => unmodelled
      end
    | ANone => fail EFatal
    end.
  Definition SCANMETA (o : oper) (a : arg) : M xval :=
    v <- rval_arg_h a;;
    let o' := clear_scan o in
    match v with
    | HBlock sts r => meta_block o sts r
    | HNil => mret xnil
    | HPat _ _ => xwarn "SCANMETA"
    | HRange _ None => xwarn "SCANMETA: infinite"
    | _ => items <- h_list v;;
           match items with
           | [] => l <- new_list [];; xret l
           | _ => rs <- scan_items o' items;;
                  rs <- mmap to_r rs;;
                  rs <- copies rs;;
                  l <- new_list rs;; xret l
           end
    end.

  (** ** evaluate (execution.py:93-233) *)

  (** Preparing one argument: its value and whether it is, or names, a
      Block. *)
  Definition prepare (fl : flags) (a : arg) : M (arg * bool) :=
    if f_rvals fl || f_vals fl
    then x <- (if f_rvals fl then rval_arg a else eval_arg a);;
         if expands_x fl x then mret (AVal x, false)
         else if f_in_lambda fl
         then match x with
              | XL lv => v <- get_lval lv;; mret (AVal x, h_block v)
              | _ => mret (AVal x, x_block x)
              end
         else mret (AVal x, false)
    else mret (a, false).

  Definition each_result (o : oper) (args : hval -> list arg)
             (items : list hval) : M xval :=
    rs <- mmap (fun it => r <- i_op R o (args it);; to_r r) items;;
    v <- new_list rs;; xret v.

  (** The branch after preparation (execution.py:191-230). *)
  Definition apply_x (o : oper) (args : list arg) : M xval :=
    let ex a := match a with AVal x => expands_x (o_flags o) x | _ => false end in
    match args with
    | [a] =>
      match a with
      | AVal (XR v) =>
        if ex a then items <- h_iter v;;
                     each_result o (fun it => [AVal (XR it)]) items
        else call_fun (o_fun o) args
      | _ => call_fun (o_fun o) args
      end
    | [a; b] =>
      match a, b with
      | AVal (XR v), AVal (XR w) =>
        if ex a && ex b
        then
          pairs <- h_zip v w;;
          rs <- mmap (fun '(x, y) => r <- i_op R o [AVal (XR x); AVal (XR y)];;
                                     to_r r) pairs;;
          nv <- h_len v;;
          nw <- h_len w;;
          match nv, nw with
          | Some nv, Some nw =>
            lv <- h_iter v;;
            lw <- h_iter w;;
            all <- copies (rs ++ skipn (Z.to_nat nw) lv
                              ++ skipn (Z.to_nat nv) lw);;
            l <- new_list all;; xret l
          | _, _ => fail (EPy ValueError)
          end
        else if ex a
        then items <- h_iter v;;
             each_result o (fun it => [AVal (XR it); b]) items
        else if ex b
        then items <- h_iter w;;
             each_result o (fun it => [a; AVal (XR it)]) items
        else call_fun (o_fun o) args
      | AVal (XR v), _ =>
        if ex a
        then items <- h_iter v;;
             each_result o (fun it => [AVal (XR it); b]) items
        else call_fun (o_fun o) args
      | _, AVal (XR w) =>
        if ex b
        then items <- h_iter w;;
             each_result o (fun it => [a; AVal (XR it)]) items
        else call_fun (o_fun o) args
      | _, _ => call_fun (o_fun o) args
      end
    | _ => call_fun (o_fun o) args
    end.

  Definition eval_op (o : oper) (args : list arg) : M xval :=
    if o_assign o
    then match args with
         | a :: rest =>
           lv <- eval_arg a;;
           r <- i_op R (clear_assign o) (AVal lv :: rest);;
           ASSIGN lv r
         | [] => unmodelled
         end
    else if o_map o
    then match args with a :: _ => MAPMETA o a | [] => unmodelled end
    else if o_fold o
    then match args with a :: _ => FOLDMETA o a | [] => unmodelled end
    else if o_scan o
    then match args with a :: _ => SCANMETA o a | [] => unmodelled end
    else
      prepared <- mmap (prepare (o_flags o)) args;;
      let args' := map fst prepared in
      if existsb snd prepared
      then xs <- mmap rval_arg args';; xret (lambda_x o xs)
      else catch_type (apply_x o args').

  Definition eval_tree (t : tree hval) : M xval :=
    match t with
    | TTok k =>
      match t_kind k with
      | KName => lv <- mk_lval (t_text k);; mret (XL lv)
      | kind =>
        if is_literal kind
        then p <- of_res (of_token k);; v <- fresh p;; xret v
        else fail EFatal
      end
    | TVal v => xret v
    | TApp o args => i_op R o (map ATree args)
    | TOpr _ | TBlk _ | TCmd _ _ => fail EFatal
    end.

  (** ** Statements (execution.py:72-91, 495-570) *)

  Definition body (t : tree hval) : list (tree hval) :=
    match t with TBlk sts => sts | _ => [] end.
  Definition run_body (sts : list (tree hval)) : M unit := mfor (i_stmt R) sts.

  Definition exec_cmd (c : command) (args : list (tree hval)) : M unit :=
    match c_fun c, args with
    | C_FOR, [var; it; code] =>
      x <- i_eval R var;;
      v <- rval_tree it;;
      match x with
      | XL lv =>
        match v with
        | HBlock _ _ => mwarn "FOR"
        | _ => items <- h_iter v;;
               mfor (fun item => assign lv item;; run_body (body code)) items
        end
      | _ => fail (EPy AttributeError)
      end
    | C_IF, [cond; code; else_] =>
      v <- rval_tree cond;;
      b <- truth v;;
      run_body (body (if b then code else else_))
    | C_LOOP, [count; code] =>
      v <- rval_tree count;;
      match v with
      | HNil => mret tt
      | HScal l => s <- load_str l;;
                   mrepeat (Z.to_nat (scalar_int s)) (run_body (body code))
      | HList _ | HRange _ _ =>
        n <- h_len v;;
        match n with
        | Some n => mrepeat (Z.to_nat n) (run_body (body code))
        | None => fail (EPy ValueError)
        end
      | _ => mwarn "LOOP"
      end
    | C_LOOPREGEX, [regex; string; code] =>
      r <- rval_tree regex;;
      s <- rval_tree string;;
      o <- regex_pair r s;;
      match o with
      | Some hits => mfor (fun h => assign_match h;; run_body (body code)) hits
      | None => mwarn "LOOPREGEX"
      end
    | C_TILL, [cond; code] => i_while R false cond (body code)
    | C_WHILE, [cond; code] => i_while R true cond (body code)
    | C_WIPEGLOBALS, [] => wipe_globals
    | _, _ => fail (EPy TypeError)
    end.

  (** [i_while true]: WHILE, [i_while false]: TILL. *)
  Definition while_loop (sense : bool) (cond : tree hval)
             (code : list (tree hval)) : M unit :=
    v <- rval_tree cond;;
    b <- truth v;;
    if eqb b sense
    then run_body code;; i_while R sense cond code
    else mret tt.

  Definition exec_stmt (t : tree hval) : M (option hval) :=
    match t with
    | TCmd c args => exec_cmd c args;; mret None
    | TBlk _ => fail EFatal
    | _ => v <- rval_tree t;; mret (Some v)
    end.

  (** [updateHistoryVars] (execution.py:434-440) *)
  Definition hist1 : str := s_ "$_".
  Definition hist2 : str := s_ "$__".
  Definition hist3 : str := s_ "$___".
  Definition update_history (v : hval) : M unit :=
    o1 <- get_var hist1;;
    (match o1 with
     | Some _ =>
       o2 <- get_var hist2;;
       (match o2 with
        | Some _ => w <- get_lval (LName hist2 [] None);;
                    assign (LName hist3 [] None) w
        | None => mret tt
        end);;
       w <- get_lval (LName hist1 [] None);;
       assign (LName hist2 [] None) w
     | None => mret tt
     end);;
    assign (LName hist1 [] None) v.

  (** [functionCall] (execution.py:400-418); its arguments are rvalues
      here. *)
  Definition new_scope (f : hval) (args : list hval) : M scope :=
    copied <- copies args;;
    g <- new_list copied;;
    mret (mkscope (Some f)
                  ([(s_ "f", f); (s_ "g", g)]
                   ++ combine (map (fun c => [c]) (s_ "abcde")) args)).
  Definition run_stmts (sts : list (tree hval)) : M unit :=
    mfor (fun st => r <- i_stmt R st;;
                    match r with
                    | Some v => update_history v
                    | None => mret tt
                    end) sts.
  Definition in_scope (sc : scope) (m : M hval) : M hval :=
    push_scope sc;;
    v <- m;;
    pop_scope;;
    mret v.
  Definition call (f : hval) (args : list hval) : M hval :=
    sc <- new_scope f args;;
    in_scope sc (match f with
                 | HBlock sts ret => run_stmts sts;; rval_tree ret
                 | _ => fail (EPy AttributeError)
                 end).

  Definition step : interp :=
    mkinterp eval_tree eval_op call_fun exec_stmt call while_loop.
End Step.

Definition out_of_fuel : interp :=
  mkinterp (fun _ => diverge) (fun _ _ => diverge) (fun _ _ => diverge)
           (fun _ => diverge) (fun _ _ => diverge) (fun _ _ _ => diverge).
Fixpoint run (n : nat) : interp :=
  match n with
  | O => out_of_fuel
  | S n' => step (run n')
  end.

(** ** Whole programs *)

(** What comes from outside: the lines of standard input and the generator of
    the random module. *)
Record world : Type := mkworld { w_in : list str; w_rand : rng }.
Definition lines (l : list str) : world :=
  mkworld l (mkrng (fun _ => 0) (fun _ _ => 0)).

(** [ProgramState(listFormat, showWarnings)] (execution.py:27-51). *)
Definition blank_state (fmt : ofmt) (warn_ : bool) (input : world)
           (tao : option str) : state :=
  mkst [OS []; OS (s_ "1"); OS (s_ "2")] [] [mkscope None []] (-1) [] None
       (w_in input) [] [] warn_ fmt tao 0 (w_rand input).
Definition init_state (fmt : ofmt) (warn_ : bool) (input : world)
           (tao : option str) : outcome unit :=
  wipe_globals (blank_state fmt warn_ input tao).

(** [executeProgram] (execution.py:53-70). *)
Definition exec_program (n : nat) (prog : list (tree hval)) (args : list hval)
  : M unit :=
  match prog with
  | [] => mret tt
  | _ =>
    let main := mk_block prog in
    (fun s => Ok tt (set_program args (Some main) s));;
    wipe_globals;;
    v <- i_call (run n) main args;;
    PRINT v
  end.

(** Running program text: scan, parse, execute (pip.py:225-262), with the
    given argument strings. *)
Definition run_text (n : nat) (fmt : ofmt) (warn_ : bool) (input : world)
           (text : str) (args : list str) : outcome unit :=
  match scan text with
  | ScanOk ts _ =>
    match parse_program (V := hval) ts with
    | POk sts _ =>
      (wipe_globals;;
       vs <- fresh_all (map PScal args);;
       exec_program n sts vs) (blank_state fmt warn_ input None)
    | PErr _ => Err EFatal (blank_state fmt warn_ input None)
    end
  | _ => Err EFatal (blank_state fmt warn_ input None)
  end.
