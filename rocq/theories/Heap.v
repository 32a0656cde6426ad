(** * Mutable Pip objects, interpreter state and effects

    Scalars and Lists are mutable Python objects which variables, Lists and
    function bodies refer to.  Here they are cells of a heap, so that sharing
    and in-place modification can be observed. *)

From Coq Require Import String List NArith ZArith Bool Arith.
From Coq Require Floats.SpecFloat.
From Verif Require Import PyStr PyRe PyNum Tokens OpFun OpTable PTypes
                          Ops OpsSeq.
Import ListNotations.
Local Open Scope string_scope.
Local Open Scope list_scope.
Local Open Scope Z_scope.

Definition loc : Set := nat.

(** A reference to a Pip object (ptypes.py:31-774).  Scalars and Lists have
    [__setitem__] and live in the heap; the other types are immutable.  Lambda
    building puts references into parse trees (execution.py:161-176), so a
    Block can refer to heap objects. *)
Inductive hval : Type :=
| HScal (l : loc)
| HPat (raw : str) (flags : N)
| HList (l : loc)
| HRange (lo hi : option Z)
| HBlock (sts : list (tree hval)) (ret : tree hval)
| HNil.

(** Heap cells: a Scalar's [_value], a List's [_value], and the [evaluated]
    field of an Lval naming a special variable (execution.py:4348-4356). *)
Inductive cell : Type :=
| OS (s : str)
| OL (items : list hval)
| OC (cached : option hval).

Definition heap : Type := list cell.

(** A variable table (a Python dict): the first binding of a name counts. *)
Definition env : Type := list (str * hval).
Fixpoint lookup (e : env) (x : str) : option hval :=
  match e with
  | [] => None
  | (y, v) :: e' => if str_eqb x y then Some v else lookup e' x
  end.

(** [LocalScope] (execution.py:4380-4389). *)
Record scope : Type := mkscope { sc_fun : option hval; sc_vars : env }.

(** Python's random module.  A generator answers requests for a number below a
    bound; its answers may depend on all bounds asked for.  [rng_pick] is the
    answer to the last of a list of requests made from now on, [rng_seed] the
    same after seeding with a text. *)
Record rng : Type := mkrng
  { rng_pick : list Z -> Z; rng_seed : str -> list Z -> Z }.

(** [ProgramState] (execution.py:24-51) and the process around it: standard
    input (its lines), standard output, standard error (the warnings printed,
    by kind).  The first scope of [st_scopes] is the current one.
    [st_tao] is the content of the text file that reading the variable PIP
    looks for (execution.py:262-267), if it exists.  [st_swallowed] is not
    part of the program: it counts the TypeErrors raised by key functions that
    SORTKEYED and DESCENDINGKEYED catch.  [st_rand] is the generator of the
    random module. *)
Record state : Type := mkst
  { st_heap : heap;
    st_vars : env;
    st_scopes : list scope;
    st_depth : Z;
    st_args : list hval;
    st_main : option hval;
    st_in : list str;
    st_out : str;
    st_diag : list warning;
    st_warn : bool;
    st_fmt : ofmt;
    st_tao : option str;
    st_swallowed : nat;
    st_rand : rng }.

Definition set_heap (h : heap) (s : state) : state :=
  mkst h (st_vars s) (st_scopes s) (st_depth s) (st_args s) (st_main s)
       (st_in s) (st_out s) (st_diag s) (st_warn s) (st_fmt s) (st_tao s)
       (st_swallowed s) (st_rand s).
Definition set_vars (e : env) (s : state) : state :=
  mkst (st_heap s) e (st_scopes s) (st_depth s) (st_args s) (st_main s)
       (st_in s) (st_out s) (st_diag s) (st_warn s) (st_fmt s) (st_tao s)
       (st_swallowed s) (st_rand s).
Definition set_scopes (l : list scope) (d : Z) (s : state) : state :=
  mkst (st_heap s) (st_vars s) l d (st_args s) (st_main s)
       (st_in s) (st_out s) (st_diag s) (st_warn s) (st_fmt s) (st_tao s)
       (st_swallowed s) (st_rand s).
Definition set_program (args : list hval) (main : option hval) (s : state)
  : state :=
  mkst (st_heap s) (st_vars s) (st_scopes s) (st_depth s) args main
       (st_in s) (st_out s) (st_diag s) (st_warn s) (st_fmt s) (st_tao s)
       (st_swallowed s) (st_rand s).
Definition set_in (l : list str) (s : state) : state :=
  mkst (st_heap s) (st_vars s) (st_scopes s) (st_depth s) (st_args s)
       (st_main s) l (st_out s) (st_diag s) (st_warn s) (st_fmt s) (st_tao s)
       (st_swallowed s) (st_rand s).
Definition set_out (o : str) (s : state) : state :=
  mkst (st_heap s) (st_vars s) (st_scopes s) (st_depth s) (st_args s)
       (st_main s) (st_in s) o (st_diag s) (st_warn s) (st_fmt s) (st_tao s)
       (st_swallowed s) (st_rand s).
Definition set_diag (d : list warning) (s : state) : state :=
  mkst (st_heap s) (st_vars s) (st_scopes s) (st_depth s) (st_args s)
       (st_main s) (st_in s) (st_out s) d (st_warn s) (st_fmt s) (st_tao s)
       (st_swallowed s) (st_rand s).
Definition set_swallowed (n : nat) (s : state) : state :=
  mkst (st_heap s) (st_vars s) (st_scopes s) (st_depth s) (st_args s)
       (st_main s) (st_in s) (st_out s) (st_diag s) (st_warn s) (st_fmt s)
       (st_tao s) n (st_rand s).
Definition set_rand (g : rng) (s : state) : state :=
  mkst (st_heap s) (st_vars s) (st_scopes s) (st_depth s) (st_args s)
       (st_main s) (st_in s) (st_out s) (st_diag s) (st_warn s) (st_fmt s)
       (st_tao s) (st_swallowed s) g.

(** ** Computations

    A computation ends normally, or with an exception (keeping the state it
    was raised in), or does not end within the given fuel.  [EFatal] is the
    FatalError of [err.die] (errors.py:31-33); [EBad] would be a reference
    to a missing or wrong heap cell. *)
Inductive err : Set := EFatal | EPy (e : exn) | EBad.
Inductive outcome (A : Type) : Type :=
| Ok (a : A) (s : state)
| Err (e : err) (s : state)
| Fuel.
Arguments Ok {A} a s.
Arguments Err {A} e s.
Arguments Fuel {A}.

Definition M (A : Type) : Type := state -> outcome A.

Definition mret {A} (a : A) : M A := fun s => Ok a s.
Definition mbind {A B} (m : M A) (f : A -> M B) : M B :=
  fun s => match m s with
           | Ok a s' => f a s'
           | Err e s' => Err e s'
           | Fuel => Fuel
           end.
Definition fail {A} (e : err) : M A := fun s => Err e s.
Definition diverge {A} : M A := fun _ => Fuel.

Declare Scope exec_scope.
Delimit Scope exec_scope with exec.
Notation "x <- m ;; k" := (mbind m (fun x => k))
  (at level 61, m at next level, right associativity) : exec_scope.
Notation "m ;; k" := (mbind m (fun _ => k))
  (at level 61, right associativity) : exec_scope.
Open Scope exec_scope.

Section Loops.
  Context {A B : Type}.
  Variable f : A -> M B.
  (** [f(x) for x in l], collected. *)
  Fixpoint mmap (l : list A) : M (list B) :=
    match l with
    | [] => mret []
    | x :: l' => y <- f x;; ys <- mmap l';; mret (y :: ys)
    end.
  (** [for x in l: f(x)]. *)
  Fixpoint mfor (l : list A) : M unit :=
    match l with
    | [] => mret tt
    | x :: l' => f x;; mfor l'
    end.
End Loops.

Section MFold.
  Context {A B : Type}.
  Variable f : B -> A -> M B.
  Fixpoint mfold (acc : B) (l : list A) : M B :=
    match l with
    | [] => mret acc
    | x :: l' => acc' <- f acc x;; mfold acc' l'
    end.
End MFold.

Fixpoint mrepeat {A} (n : nat) (m : M A) : M unit :=
  match n with
  | O => mret tt
  | S n' => m;; mrepeat n' m
  end.

(** ** Primitive effects *)

Definition hset (h : heap) (l : loc) (c : cell) : heap := set_nth h l c.

Definition alloc (c : cell) : M loc :=
  fun s => Ok (length (st_heap s)) (set_heap (st_heap s ++ [c]) s).
Definition load (l : loc) : M cell :=
  fun s => match nth_error (st_heap s) l with
           | Some c => Ok c s
           | None => Err EBad s
           end.
Definition store (l : loc) (c : cell) : M unit :=
  fun s => match nth_error (st_heap s) l with
           | Some _ => Ok tt (set_heap (hset (st_heap s) l c) s)
           | None => Err EBad s
           end.
Definition load_str (l : loc) : M str :=
  c <- load l;; match c with OS s => mret s | _ => fail EBad end.
Definition load_list (l : loc) : M (list hval) :=
  c <- load l;; match c with OL l => mret l | _ => fail EBad end.

(** One request to the generator for a number below [n], and seeding it. *)
Definition draw (n : Z) : M Z :=
  fun s => let g := st_rand s in
           Ok (rng_pick g [n] mod n)
              (set_rand (mkrng (fun l => rng_pick g (n :: l)) (rng_seed g)) s).
Definition reseed (t : str) : M unit :=
  fun s => let g := st_rand s in
           Ok tt (set_rand (mkrng (rng_seed g t) (rng_seed g)) s).

(** A part of the state that no computation changes. *)
Definition get_fmt : M ofmt := fun s => Ok (st_fmt s) s.
Definition get_tao : M (option str) := fun s => Ok (st_tao s) s.
Definition get_args : M (list hval) := fun s => Ok (st_args s) s.
Definition get_main : M (option hval) := fun s => Ok (st_main s) s.

(** [err.warn] (errors.py:26-29): prints only if warnings are on.  Only the
    kind of the message is modelled. *)
Definition mwarn (w : warning) : M unit :=
  fun s => Ok tt (if st_warn s then set_diag (st_diag s ++ [w]) s else s).

(** [print(text, end="")]. *)
Definition put_out (text : str) : M unit :=
  fun s => Ok tt (set_out (st_out s ++ text) s).

(** [input()]; [None] is EOFError. *)
Definition read_line : M (option str) :=
  fun s => match st_in s with
           | [] => Ok None s
           | l :: rest => Ok (Some l) (set_in rest s)
           end.

(** [varTable] (execution.py:235-242): which names are local.
    [varName in "abcdefg"] is a substring test. *)
Definition local_name (x : str) : bool :=
  str_contains x (s_ "abcdefg")
  || match x with
     | 36%N :: 95%N :: rest => forallb (N.eqb 95) rest
     | _ => false
     end.

(** [self.varTable(x).get(x)]; without a current scope: AttributeError. *)
Definition get_var (x : str) : M (option hval) :=
  fun s =>
    if local_name x
    then match st_scopes s with
         | sc :: _ => Ok (lookup (sc_vars sc) x) s
         | [] => Err (EPy AttributeError) s
         end
    else Ok (lookup (st_vars s) x) s.

(** [self.varTable(x)[x] = v]. *)
Definition set_var (x : str) (v : hval) : M unit :=
  fun s =>
    if local_name x
    then match st_scopes s with
         | sc :: rest =>
           Ok tt (set_scopes (mkscope (sc_fun sc) ((x, v) :: sc_vars sc) :: rest)
                             (st_depth s) s)
         | [] => Err (EPy AttributeError) s
         end
    else Ok tt (set_vars ((x, v) :: st_vars s) s).

(** [self.vars = {...}]. *)
Definition reset_vars (e : env) : M unit := fun s => Ok tt (set_vars e s).

(** [openScope] and [closeScope] (execution.py:420-432). *)
Definition push_scope (sc : scope) : M unit :=
  fun s => Ok tt (set_scopes (sc :: st_scopes s) (st_depth s + 1) s).
Definition pop_scope : M unit :=
  fun s => match st_scopes s with
           | _ :: rest => Ok tt (set_scopes rest (st_depth s - 1) s)
           | [] => Err (EPy IndexError) s
           end.
(** [self.localScope.function]. *)
Definition current_fun : M (option hval) :=
  fun s => match st_scopes s with
           | sc :: _ => Ok (sc_fun sc) s
           | [] => Err (EPy AttributeError) s
           end.

(** [try: m except TypeError: die] (execution.py:191-230). *)
Definition catch_type {A} (m : M A) : M A :=
  fun s => match m s with
           | Err (EPy TypeError) s' => Err EFatal s'
           | r => r
           end.
(** [try: m except TypeError: handler] around calls of a key function. *)
Definition swallow_type {A} (m handler : M A) : M A :=
  fun s => match m s with
           | Err (EPy TypeError) s' =>
             handler (set_swallowed (S (st_swallowed s')) s')
           | r => r
           end.

(** Results of the operators of Ops.v and OpsSeq.v as computations: the
    warnings are issued, an endless Python loop does not end. *)
Definition of_res {A} (r : res A) : M A :=
  match r with
  | Val a => mret a
  | Exn Hang => diverge
  | Exn e => fail (EPy e)
  end.
Definition of_pm {A} (m : pm A) : M A := mfor mwarn (fst m);; of_res (snd m).

(** ** From references to values and back *)

Section TreeMaps.
  Context {V W : Type}.
  Variable f : V -> option W.
  Fixpoint tree_opt (t : tree V) : option (tree W) :=
    let all := fix all (l : list (tree V)) : option (list (tree W)) :=
      match l with
      | [] => Some []
      | x :: l' => match tree_opt x, all l' with
                   | Some y, Some ys => Some (y :: ys)
                   | _, _ => None
                   end
      end in
    match t with
    | TTok k => Some (TTok k)
    | TVal v => option_map TVal (f v)
    | TOpr o => Some (TOpr o)
    | TApp o l => option_map (TApp o) (all l)
    | TBlk l => option_map TBlk (all l)
    | TCmd c l => option_map (TCmd c) (all l)
    end.
End TreeMaps.

Section OptMap.
  Context {A B : Type}.
  Variable f : A -> option B.
  Fixpoint opt_map (l : list A) : option (list B) :=
    match l with
    | [] => Some []
    | x :: l' => match f x, opt_map l' with
                 | Some y, Some ys => Some (y :: ys)
                 | _, _ => None
                 end
    end.
End OptMap.

(** The value an object stands for; [None] for a dangling or cyclic
    reference.  The fuel counts List nesting. *)
Fixpoint read_val (n : nat) (h : heap) : hval -> option pval :=
  fix go (v : hval) : option pval :=
    match v with
    | HScal l => match nth_error h l with
                 | Some (OS s) => Some (PScal s)
                 | _ => None
                 end
    | HPat r fl => Some (PPat r fl)
    | HList l =>
      match n with
      | O => None
      | S m => match nth_error h l with
               | Some (OL items) => option_map PList (opt_map (read_val m h) items)
               | _ => None
               end
      end
    | HRange lo hi => Some (PRange lo hi)
    | HBlock sts r =>
      match opt_map (tree_opt go) sts, tree_opt go r with
      | Some sts', Some r' => Some (PBlock sts' r')
      | _, _ => None
      end
    | HNil => Some PNil
    end.
Definition dread (v : hval) : M pval :=
  fun s => match read_val (S (length (st_heap s))) (st_heap s) v with
           | Some p => Ok p s
           | None => Err (EPy RecursionError) s
           end.

(** Fresh objects for a value. *)
Section TreeAlloc.
  Context {V W : Type}.
  Variable f : V -> heap -> W * heap.
  Fixpoint tree_alloc (t : tree V) (h : heap) : tree W * heap :=
    let all := fix all (l : list (tree V)) (h : heap) : list (tree W) * heap :=
      match l with
      | [] => ([], h)
      | x :: l' => let '(y, h1) := tree_alloc x h in
                   let '(ys, h2) := all l' h1 in (y :: ys, h2)
      end in
    match t with
    | TTok k => (TTok k, h)
    | TVal v => let '(w, h1) := f v h in (TVal w, h1)
    | TOpr o => (TOpr o, h)
    | TApp o l => let '(l', h1) := all l h in (TApp o l', h1)
    | TBlk l => let '(l', h1) := all l h in (TBlk l', h1)
    | TCmd c l => let '(l', h1) := all l h in (TCmd c l', h1)
    end.
End TreeAlloc.

Section AllocAll.
  Context {A B : Type}.
  Variable f : A -> heap -> B * heap.
  Fixpoint alloc_all (l : list A) (h : heap) : list B * heap :=
    match l with
    | [] => ([], h)
    | x :: l' => let '(y, h1) := f x h in
                 let '(ys, h2) := alloc_all l' h1 in (y :: ys, h2)
    end.
End AllocAll.

Definition hnew (h : heap) (c : cell) : loc * heap := (length h, h ++ [c]).
Fixpoint alloc_val (p : pval) (h : heap) : hval * heap :=
  match p with
  | PScal s => let '(l, h1) := hnew h (OS s) in (HScal l, h1)
  | PPat r fl => (HPat r fl, h)
  | PList items =>
    let '(items', h1) := alloc_all alloc_val items h in
    let '(l, h2) := hnew h1 (OL items') in (HList l, h2)
  | PRange lo hi => (HRange lo hi, h)
  | PBlock sts r =>
    let '(sts', h1) := alloc_all (tree_alloc alloc_val) sts h in
    let '(r', h2) := tree_alloc alloc_val r h1 in (HBlock sts' r', h2)
  | PNil => (HNil, h)
  end.
Definition fresh (p : pval) : M hval :=
  fun s => let '(v, h) := alloc_val p (st_heap s) in Ok v (set_heap h s).

(** [copy()] (ptypes.py:43, 222, 336, 509, 691, 743): Lists copy their items;
    the copy of a Block shares its parse trees.  [None]: dangling or cyclic. *)
Section CopyAll.
  Variable f : hval -> heap -> option (hval * heap).
  Fixpoint copy_all (l : list hval) (h : heap) : option (list hval * heap) :=
    match l with
    | [] => Some ([], h)
    | x :: l' => match f x h with
                 | Some (y, h1) => match copy_all l' h1 with
                                   | Some (ys, h2) => Some (y :: ys, h2)
                                   | None => None
                                   end
                 | None => None
                 end
    end.
End CopyAll.
Fixpoint copy_val (n : nat) (v : hval) (h : heap) : option (hval * heap) :=
  match v with
  | HScal l => match nth_error h l with
               | Some (OS s) => let '(l', h1) := hnew h (OS s) in
                                Some (HScal l', h1)
               | _ => None
               end
  | HList l =>
    match n with
    | O => None
    | S m =>
      match nth_error h l with
      | Some (OL items) =>
        match copy_all (copy_val m) items h with
        | Some (items', h1) => let '(l', h2) := hnew h1 (OL items') in
                               Some (HList l', h2)
        | None => None
        end
      | _ => None
      end
    end
  | _ => Some (v, h)
  end.
Definition copy (v : hval) : M hval :=
  fun s => match copy_val (S (length (st_heap s))) v (st_heap s) with
           | Some (v', h) => Ok v' (set_heap h s)
           | None => Err (EPy RecursionError) s
           end.
Definition copies (l : list hval) : M (list hval) := mmap copy l.

(** [List(items)] without copying. *)
Definition new_list (items : list hval) : M hval :=
  l <- alloc (OL items);; mret (HList l).

(** ** Basic operations on objects *)

Definition h_iterable (v : hval) : bool :=        (* PipIterable *)
  match v with HScal _ | HList _ | HRange _ _ => true | _ => false end.
Definition h_block (v : hval) : bool :=
  match v with HBlock _ _ => true | _ => false end.

(** [__bool__] (ptypes.py:78, 279, 379, 539, 717, 759). *)
Definition truth (v : hval) : M bool :=
  match v with
  | HScal l => s <- load_str l;; mret (scalar_bool s)
  | HPat r _ => mret (match r with [] => false | _ => true end)
  | HList l => items <- load_list l;;
               mret (match items with [] => false | _ => true end)
  | HRange lo hi => mret (negb (range_is_empty lo hi))
  | HBlock sts ret => mret (negb (match sts, ret with
                                  | [], TVal HNil => true
                                  | _, _ => false
                                  end))
  | HNil => mret false
  end.

Definition fresh_all (l : list pval) : M (list hval) := mmap fresh l.

(** The items of [for item in v]; iterating an infinite Range does not end.
    Python fetches the items of a List one by one; here they are fetched
    before the loop starts. *)
Definition h_iter (v : hval) : M (list hval) :=
  match v with
  | HScal l => s <- load_str l;; fresh_all (chars s)
  | HPat r _ => fresh_all (chars r)
  | HList l => load_list l
  | HRange lo (Some u) => fresh_all (map scal_Z (range_ints lo u))
  | HRange _ None => diverge
  | HBlock _ _ => fail (EPy TypeError)
  | HNil => mret []
  end.

(** [list(v)]. *)
Definition h_list (v : hval) : M (list hval) :=
  match v with
  | HRange _ None => fail (EPy ValueError)
  | _ => h_iter v
  end.

(** The first [n] items at most, when only so many are needed. *)
Definition h_take (n : nat) (v : hval) : M (list hval) :=
  match v with
  | HRange lo None =>
    fresh_all (map scal_Z (zseq (lower0 lo) (lower0 lo + Z.of_nat n)))
  | _ => items <- h_iter v;; mret (firstn n items)
  end.

(** [len(v)]; [None] is the ValueError of an infinite Range. *)
Definition h_len (v : hval) : M (option Z) :=
  match v with
  | HScal l => s <- load_str l;; mret (Some (zlen s))
  | HPat r _ => mret (Some (zlen r))
  | HList l => items <- load_list l;; mret (Some (zlen items))
  | HRange lo (Some u) => mret (Some (Z.max 0 (u - lower0 lo)))
  | HRange _ None => mret None
  | HBlock _ _ | HNil => fail (EPy TypeError)
  end.

(** [v[index]] (ptypes.py:106-142, 397-433, 600-659, 773); [None] is
    IndexError.  Scalars and Ranges make new objects; an item of a List is the
    object itself; a slice of a List copies the items. *)
Definition index_new (p : pval) (i : idx) : M (option hval) :=
  match p_getitem p i with
  | Val q => v <- fresh q;; mret (Some v)
  | Exn IndexError => mret None
  | Exn e => of_res (Exn e)
  end.
Definition h_index (v : hval) (i : idx) : M (option hval) :=
  match v with
  | HScal l => s <- load_str l;; index_new (PScal s) i
  | HRange lo hi => index_new (PRange lo hi) i
  | HList l =>
    items <- load_list l;;
    match i with
    | IInt z => mret (seq_index items z)
    | ISlice a b =>
      match items with
      | [] => mret (Some v)
      | _ => match seq_slice items a b with
             | Some part => part' <- copies part;; r <- new_list part';;
                            mret (Some r)
             | None => diverge
             end
      end
    end
  | HNil => mret (Some HNil)
  | HPat _ _ | HBlock _ _ => fail (EPy TypeError)
  end.

(** [v[index] = new] (ptypes.py:144-150, 435-438); [false] is the
    ZeroDivisionError of an empty sequence. *)
Definition h_setitem (v : hval) (i : idx) (new : hval) : M bool :=
  match v with
  | HScal l =>
    s <- load_str l;;
    fmt <- get_fmt;;
    match i, s with
    | IInt _, [] => mret false
    | _, _ =>
      p <- dread new;;
      match i with
      | IInt z =>
        let k := Z.to_nat (z mod zlen s) in
        store l (OS (firstn k s ++ p_str fmt p ++ skipn (S k) s));; mret true
      | ISlice a b =>
        store l (OS (set_slice s a b (p_str fmt p)));; mret true
      end
    end
  | HList l =>
    items <- load_list l;;
    match i with
    | IInt z =>
      match items with
      | [] => mret false
      | _ => store l (OL (set_nth items (Z.to_nat (z mod zlen items)) new));;
             mret true
      end
    | ISlice a b =>
      part <- h_list new;;
      store l (OL (set_slice items a b part));; mret true
    end
  | _ => fail (EPy TypeError)
  end.

(** ** Lvalues (execution.py:4341-4377)

    A name with a list of indices, or a List of lvalues (whose indices have no
    effect).  Lvals of special variables remember the value they were
    evaluated to in a heap cell. *)
Inductive lval : Type :=
| LName (name : str) (sl : list idx) (cache : option loc)
| LList (items : list lval) (sl : list idx).

(** What evaluating an expression can give: an rvalue, an lvalue, or (inside
    comparison chains) an operator. *)
Inductive xval : Type :=
| XR (v : hval)
| XL (l : lval)
| XO (o : oper).

(** [specialVars] (execution.py:42-45). *)
Definition special (x : str) : bool := str_eqb x (s_ "q") || str_eqb x (s_ "r").

(** [Lval(name)]. *)
Definition mk_lval (x : str) : M lval :=
  if special x
  then l <- alloc (OC None);; mret (LName x [] (Some l))
  else mret (LName x [] None).

(** [Lval(lval, index)] and [lval.copy()] (execution.py:4342-4359). *)
Definition lval_extend (lv : lval) (i : list idx) : M lval :=
  match lv with
  | LName x sl (Some l) =>
    c <- load l;; l' <- alloc c;; mret (LName x (sl ++ i) (Some l'))
  | LName x sl None => mret (LName x (sl ++ i) None)
  | LList items sl => mret (LList items (sl ++ i))
  end.

(** Following the indices of an lvalue; [None]: not possible, with a warning
    (execution.py:293-302). *)
Fixpoint follow (v : hval) (sl : list idx) : M (option hval) :=
  match sl with
  | [] => mret (Some v)
  | i :: sl' =>
    if h_iterable v
    then r <- h_index v i;;
         match r with
         | Some v' => follow v' sl'
         | None => mwarn "getRval: index";; mret None
         end
    else mwarn "getRval: not indexable";; mret None
  end.

(** [for index in lval.sliceList[:-1]: currentVal = currentVal[index]]
    (execution.py:373-380); the handler of IndexError refers to an undefined
    variable. *)
Fixpoint dig (v : hval) (sl : list idx) : M hval :=
  match sl with
  | [] => mret v
  | i :: sl' => r <- h_index v i;;
                match r with
                | Some v' => dig v' sl'
                | None => fail (EPy NameError)
                end
  end.

(** [assign] for a name (execution.py:341-398); [setr] (488-489) *)
Definition assign_name (x : str) (sl : list idx) (rval : hval) : M unit :=
  if special x
  then match sl with
       | [] => if str_eqb x (s_ "r")
               then p <- dread rval;; fmt <- get_fmt;; reseed (p_str fmt p)
               else mwarn "assign: special"
       | _ => mwarn "assign: special index"
       end
  else
    match rev sl with
    | [] => set_var x rval
    | last :: front =>
      o <- get_var x;;
      match o with
      | None => mwarn "assign: nonexistent"
      | Some v =>
        v <- (match v with
              | HRange _ _ => items <- h_iter v;; v' <- new_list items;;
                              set_var x v';; mret v'
              | _ => mret v
              end);;
        match v with
        | HList _ | HScal _ =>
          cur <- dig v (rev front);;
          ok <- h_setitem cur last rval;;
          if ok then mret tt else mwarn "assign: index"
        | _ => mwarn "assign: not indexable"
        end
      end
    end.

(** Names of three letters: reading PIP assigns the content of a text file to
    it if that file exists (execution.py:261-267). *)
Definition three_letters (x : str) : bool :=
  (length x =? 3)%nat && forallb (fun c => is_upper c || is_lower c) x.

(** [random.random()]: a multiple of 2^-53 below 1. *)
Definition random_float (k : Z) : float :=
  SpecFloat.binary_normalize prec53 emax1024 k (-53) false.

(** Reading a special variable (execution.py:272-285, 478-486). *)
Definition get_special (x : str) (cache : option loc) : M hval :=
  let get := if str_eqb x (s_ "q")
             then o <- read_line;;
                  match o with
                  | Some line => fresh (PScal line)
                  | None => mret HNil
                  end
             else k <- draw (2 ^ 53);; fresh (scal_num (NF (random_float k))) in
  match cache with
  | Some l =>
    c <- load l;;
    match c with
    | OC (Some v) => mret v
    | _ => v <- get;; store l (OC (Some v));; mret v
    end
  | None => get
  end.

(** [getRval] on an Lval (execution.py:259-303). *)
Fixpoint get_lval (lv : lval) : M hval :=
  match lv with
  | LList items _ => vs <- mmap get_lval items;; new_list vs
  | LName x sl cache =>
    (if three_letters x
     then t <- get_tao;;
          match t with
          | Some text => v <- fresh (PScal text);; assign_name x sl v
          | None => mret tt
          end
     else mret tt);;
    o <- (if special x
          then v <- get_special x cache;; mret (Some v)
          else get_var x);;
    match o with
    | None => mwarn "getRval: uninitialized";; mret HNil
    | Some v =>
      r <- follow v sl;;
      match r with
      | Some v' => copy v'
      | None => mret HNil
      end
    end
  end.

(** [assign] (execution.py:308-398). *)
Fixpoint assign (lv : lval) (rval : hval) {struct lv} : M unit :=
  match lv with
  | LName x sl _ => assign_name x sl rval
  | LList items _ =>
    match rval with
    | HBlock _ _ => mwarn "assign: not iterable"
    | _ =>
      vals <- h_take (S (length items)) rval;;
      (fix go (items : list lval) (vals : list hval) : M unit :=
         match items, vals with
         | [], [] => mret tt
         | [], _ :: _ => mwarn "assign: unused values"
         | lv :: items', [] =>
           mwarn "assign: missing value";; assign lv HNil;; go items' []
         | lv :: items', v :: vals' => assign lv v;; go items' vals'
         end) items vals
    end
  end.
