(** * The value of an object

    [den h v p]: in the heap [h], the object [v] stands for the value [p].
    Defined without the functions of the model that read or copy objects. *)

From Coq Require Import String List NArith ZArith Bool.
From Verif Require Import PyStr PyNum Tokens PTypes Heap.
Import ListNotations.

Inductive den (h : heap) : hval -> pval -> Prop :=
| den_scal l s : nth_error h l = Some (OS s) -> den h (HScal l) (PScal s)
| den_pat r fl : den h (HPat r fl) (PPat r fl)
| den_list l items ps :
    nth_error h l = Some (OL items) -> dens h items ps ->
    den h (HList l) (PList ps)
| den_range lo hi : den h (HRange lo hi) (PRange lo hi)
| den_block sts r sts' r' :
    dents h sts sts' -> dent h r r' -> den h (HBlock sts r) (PBlock sts' r')
| den_nil : den h HNil PNil
with dens (h : heap) : list hval -> list pval -> Prop :=
| dens_nil : dens h [] []
| dens_cons v p vs ps : den h v p -> dens h vs ps -> dens h (v :: vs) (p :: ps)
with dent (h : heap) : tree hval -> tree pval -> Prop :=
| dent_tok k : dent h (TTok k) (TTok k)
| dent_val v p : den h v p -> dent h (TVal v) (TVal p)
| dent_opr o : dent h (TOpr o) (TOpr o)
| dent_app o l l' : dents h l l' -> dent h (TApp o l) (TApp o l')
| dent_blk l l' : dents h l l' -> dent h (TBlk l) (TBlk l')
| dent_cmd c l l' : dents h l l' -> dent h (TCmd c l) (TCmd c l')
with dents (h : heap) : list (tree hval) -> list (tree pval) -> Prop :=
| dents_nil : dents h [] []
| dents_cons t t' l l' : dent h t t' -> dents h l l' -> dents h (t :: l) (t' :: l').

(** The cells an object is made of: those its value depends on. *)
Inductive reach (h : heap) : hval -> loc -> Prop :=
| reach_scal l : reach h (HScal l) l
| reach_list l : reach h (HList l) l
| reach_item l items v l' :
    nth_error h l = Some (OL items) -> In v items -> reach h v l' ->
    reach h (HList l) l'
| reach_st sts r t l : In t sts -> reach_tree h t l -> reach h (HBlock sts r) l
| reach_ret sts r l : reach_tree h r l -> reach h (HBlock sts r) l
with reach_tree (h : heap) : tree hval -> loc -> Prop :=
| reach_val v l : reach h v l -> reach_tree h (TVal v) l
| reach_app o args t l :
    In t args -> reach_tree h t l -> reach_tree h (TApp o args) l
| reach_blk sts t l :
    In t sts -> reach_tree h t l -> reach_tree h (TBlk sts) l
| reach_cmd c args t l :
    In t args -> reach_tree h t l -> reach_tree h (TCmd c args) l.

(** The cells that can be changed through an index: not those inside a
    Block. *)
Inductive part (h : heap) : hval -> loc -> Prop :=
| part_scal l : part h (HScal l) l
| part_list l : part h (HList l) l
| part_item l items v l' :
    nth_error h l = Some (OL items) -> In v items -> part h v l' ->
    part h (HList l) l'.

Definition defined (h : heap) (v : hval) : Prop := exists p, den h v p.
