(** * Value semantics of assignments: the state of a new interpreter *)

From Coq Require Import String List NArith ZArith Bool Arith Lia.
From Verif Require Import PyStr Tokens OpFun OpTable PTypes Ops Apply Spec StrFacts Heap Exec
                          SpecHeap HeapProof SpecScan SpecVars VarProof SpecAlias AliasProof.
Import ListNotations.
Local Open Scope string_scope.
Local Open Scope list_scope.
Local Open Scope Z_scope.

(** ** The first state *)

(** The cell of an object that contains no others. *)
Definition foot (h : heap) (v : hval) : option (list loc) :=
  match v with
  | HScal l => match nth_error h l with Some (OS _) => Some [l] | _ => None end
  | HList l => match nth_error h l with Some (OL []) => Some [l] | _ => None end
  | HBlock [] (TTok _) => Some []
  | HBlock _ _ => None
  | _ => Some []
  end.
Lemma foot_owns h v fp : foot h v = Some fp -> owns h v fp.
Proof.
  destruct v as [l| |l| |sts r|]; cbn [foot]; intros E; try (injection E as <-; constructor; fail).
  - destruct (nth_error h l) as [[]|] eqn:N; try discriminate. injection E as <-.
    econstructor. exact N.
  - destruct (nth_error h l) as [[|[]|]|] eqn:N; try discriminate. injection E as <-.
    econstructor; [exact N|constructor].
  - destruct sts; [|discriminate]. destruct r; try discriminate. injection E as <-. constructor.
Qed.
Lemma foot_reach h v fp l : foot h v = Some fp -> reach h v l -> In l fp.
Proof.
  intros E R. inversion R; subst; cbn [foot] in E.
  - destruct (nth_error h l) as [[]|]; try discriminate. injection E as <-. now left.
  - destruct (nth_error h l) as [[|[]|]|]; try discriminate. injection E as <-. now left.
  - rewrite H in E. destruct items; [contradiction|discriminate].
  - destruct sts; [contradiction|discriminate].
  - destruct sts; [|discriminate]. destruct r; try discriminate. inversion H.
Qed.

Fixpoint distinct (l : list nat) : bool :=
  match l with [] => true | x :: r => negb (existsb (Nat.eqb x) r) && distinct r end.
Lemma distinct_ok l : distinct l = true -> NoDup l.
Proof.
  induction l as [|x l IH]; cbn [distinct]; intros E; constructor; apply andb_prop in E; destruct E as [E1 E2].
  - intros I. rewrite (proj2 (existsb_exists (Nat.eqb x) l)) in E1; [discriminate|].
    exists x. split; [exact I|apply Nat.eqb_refl].
  - exact (IH E2).
Qed.

(** The variables with their cells. *)
Fixpoint feet (h : heap) (e : env) : option (list loc) :=
  match e with
  | [] => Some []
  | (_, v) :: e' =>
    match foot h v, feet h e' with Some f, Some g => Some (f ++ g) | _, _ => None end
  end.
Lemma feet_lookup h e x v g : feet h e = Some g -> lookup e x = Some v -> exists f, foot h v = Some f /\ incl f g.
Proof.
  revert g. induction e as [|[y w] e IH]; cbn [feet lookup]; intros g E L; [discriminate|].
  destruct (foot h w) as [f|] eqn:F; [|discriminate]. destruct (feet h e) as [g'|]; [|discriminate].
  injection E as <-. destruct (str_eqb x y).
  - injection L as <-. exists f. split; [exact F|]. intros k I. rewrite in_app_iff. auto.
  - destruct (IH _ eq_refl L) as (f' & F' & I). exists f'. split; [exact F'|].
    intros k J. rewrite in_app_iff. auto.
Qed.
Lemma feet_apart h e g : feet h e = Some g -> NoDup g -> forall x y v w f f',
  x <> y -> lookup e x = Some v -> lookup e y = Some w ->
  foot h v = Some f -> foot h w = Some f' -> forall l, In l f -> ~ In l f'.
Proof.
  revert g. induction e as [|[z u] e IH]; cbn [feet lookup]; intros g E N x y v w f f' Nxy Lx Ly F F' l I I';
    [discriminate|].
  destruct (foot h u) as [f0|] eqn:F0; [|discriminate].
  destruct (feet h e) as [g'|] eqn:G; [|discriminate]. injection E as <-.
  apply NoDup_append_inv in N. destruct N as (N1 & N2 & Dj).
  destruct (str_eqb x z) eqn:X, (str_eqb y z) eqn:Y.
  - apply str_eqb_eq in X, Y. congruence.
  - injection Lx as ->. rewrite F in F0. injection F0 as ->.
    destruct (feet_lookup _ _ _ _ _ G Ly) as (f1 & F1 & J). rewrite F' in F1. injection F1 as <-.
    exact (Dj l I (J l I')).
  - injection Ly as ->. rewrite F' in F0. injection F0 as ->.
    destruct (feet_lookup _ _ _ _ _ G Lx) as (f1 & F1 & J). rewrite F in F1. injection F1 as <-.
    exact (Dj l I' (J l I)).
  - exact (IH _ eq_refl N2 x y v w f f' Nxy Lx Ly F F' l I I').
Qed.
Lemma foot_nodup h v f : foot h v = Some f -> NoDup f.
Proof.
  destruct v as [l| |l| |sts r|]; cbn [foot]; intros E; try (injection E as <-; constructor; fail).
  - destruct (nth_error h l) as [[]|]; try discriminate. injection E as <-.
    constructor; [intros []|constructor].
  - destruct (nth_error h l) as [[|[]|]|]; try discriminate. injection E as <-.
    constructor; [intros []|constructor].
  - destruct sts; [|discriminate]. destruct r; try discriminate. injection E as <-. constructor.
Qed.

Lemma simple_state s sc g :
  st_scopes s = [sc] -> sc_vars sc = [] -> sc_fun sc = None ->
  st_args s = [] -> st_main s = None ->
  feet (st_heap s) (st_vars s) = Some g -> NoDup g ->
  (forall l, In l [loc_empty; loc_one; loc_two] -> ~ In l g /\ (l < length (st_heap s))%nat) ->
  sound s /\ forall x v, lookup (st_vars s) x = Some v -> isolated s (PGlobal x).
Proof.
  intros Sc Sv Sf Ar Mn G N K.
  assert (P : forall pl w, at_place s pl w ->
            (exists x, pl = PGlobal x /\ lookup (st_vars s) x = Some w) \/
            (exists l, pl = PConst l /\ w = HScal l /\ In l [loc_empty; loc_one; loc_two])).
  { intros pl w A. inversion A; subst; eauto.
    - rewrite Sc in H. destruct k as [|[|k]]; cbn [nth_error] in H; try discriminate.
      injection H as ->. rewrite Sv in H0. discriminate.
    - rewrite Sc in H. destruct k as [|[|k]]; cbn [nth_error] in H; try discriminate.
      injection H as ->. congruence.
    - rewrite Ar in H. destruct i; discriminate.
    - congruence. }
  split.
  - intros pl w l A R. destruct (P _ _ A) as [(x & -> & L)|(k & -> & -> & I)].
    + destruct (feet_lookup _ _ _ _ _ G L) as (f & F & _).
      exact (owns_lt _ _ _ _ (foot_owns _ _ _ F) (foot_reach _ _ _ _ F R)).
    + inversion R; subst. apply K. exact I.
  - intros x v L. destruct (feet_lookup _ _ _ _ _ G L) as (f & F & J). exists v, f.
    split; [constructor; exact L|]. split; [exact (foot_owns _ _ _ F)|].
    split; [exact (foot_nodup _ _ _ F)|].
    intros pl w l Np A R I. destruct (P _ _ A) as [(y & -> & L')|(k & -> & -> & I')].
    + destruct (feet_lookup _ _ _ _ _ G L') as (f' & F' & _).
      apply (feet_apart _ _ _ G N x y v w f f') with (l := l); try assumption; [congruence|].
      exact (foot_reach _ _ _ _ F' R).
    + inversion R; subst. apply (proj1 (K _ I')). apply J. exact I.
Qed.

(** A new interpreter, without a text file for PIP. *)
Definition first fmt wn input : state :=
  match init_state fmt wn input None with Ok _ s => s | _ => blank_state fmt wn input None end.
Definition first_cells fmt wn input : list loc :=
  match feet (st_heap (first fmt wn input)) (st_vars (first fmt wn input)) with
  | Some g => g
  | None => []
  end.

Lemma first_ok fmt wn input : init_state fmt wn input None = Ok tt (first fmt wn input).
Proof. vm_compute. reflexivity. Qed.
Lemma first_feet fmt wn input :
  feet (st_heap (first fmt wn input)) (st_vars (first fmt wn input))
  = Some (first_cells fmt wn input).
Proof. vm_compute. reflexivity. Qed.
Lemma first_distinct fmt wn input : distinct (first_cells fmt wn input) = true.
Proof. vm_compute. reflexivity. Qed.
Lemma first_consts fmt wn input :
  forallb (fun l => negb (existsb (Nat.eqb l) (first_cells fmt wn input)) &&
                    (l <? length (st_heap (first fmt wn input)))%nat)
          [loc_empty; loc_one; loc_two] = true.
Proof. vm_compute. reflexivity. Qed.
Lemma first_rest fmt wn input :
  st_scopes (first fmt wn input) = [mkscope None []] /\
  st_args (first fmt wn input) = [] /\ st_main (first fmt wn input) = None /\
  st_fmt (first fmt wn input) = fmt /\ st_tao (first fmt wn input) = None /\
  st_in (first fmt wn input) = w_in input /\ st_out (first fmt wn input) = [].
Proof. vm_compute. repeat split. Qed.
Lemma first_values fmt wn input :
  map (fun e => match lookup (st_vars (first fmt wn input)) (s_ (fst e)) with
                | Some v => match dread v (first fmt wn input) with Ok p _ => Some p | _ => None end
                | None => None
                end) start_table
  = map (fun e => Some (snd e)) start_table.
Proof. vm_compute. reflexivity. Qed.
Lemma start_names :
  Forall (fun e => name_text (s_ (fst e)) /\ local_name (s_ (fst e)) = false /\
                   special (s_ (fst e)) = false /\ plain (snd e) = true) start_table.
Proof.
  unfold start_table. repeat apply Forall_cons; try apply Forall_nil; cbn [fst snd];
    (split; [|split; [reflexivity|split; reflexivity]]);
    first [apply name_lower; [reflexivity|discriminate]
          |apply name_upper; [discriminate|repeat constructor|left; vm_compute; lia]].
Qed.
Lemma map_in {A B} (f g : A -> B) l x : map f l = map g l -> In x l -> f x = g x.
Proof.
  induction l as [|y l IH]; cbn [map In]; intros E I; [contradiction|].
  injection E as E1 E2. destruct I as [<-|I]; auto.
Qed.

Lemma ok_same {A} (a : A) s s' : Ok a s = Ok a s' -> s = s'.
Proof. intros E. injection E as <-. reflexivity. Qed.

Theorem start_agrees fmt wn input s :
  init_state fmt wn input None = Ok tt s ->
  sound s /\ agrees s start_values /\ st_scopes s <> [] /\ st_fmt s = fmt /\ st_tao s = None.
Proof.
  intros E. rewrite first_ok in E. apply ok_same in E. destruct E.
  pose proof (first_feet fmt wn input) as G. pose proof (first_distinct fmt wn input) as N.
  pose proof (first_consts fmt wn input) as C. pose proof (first_values fmt wn input) as V.
  destruct (first_rest fmt wn input) as (Sc & Ar & Mn & Fm & Tao & _).
  revert G N C V Sc Ar Mn Fm Tao. generalize (first_cells fmt wn input) as g.
  generalize (first fmt wn input) as s. intros s g G N C V Sc Ar Mn Fm Tao.
  destruct (simple_state s (mkscope None []) g Sc eq_refl eq_refl Ar Mn G (distinct_ok _ N))
    as [Sd Iso].
  { intros l I. rewrite forallb_forall in C. specialize (C l I). apply andb_prop in C.
    destruct C as [C1 C2]. split; [|apply Nat.ltb_lt; exact C2].
    intros J. rewrite (proj2 (existsb_exists (Nat.eqb l) g)) in C1; [discriminate|].
    exists l. split; [exact J|apply Nat.eqb_refl]. }
  split; [exact Sd|]. split; [|split; [rewrite Sc; discriminate|split; assumption]].
  intros x p Ex. unfold start_values in Ex.
  destruct (find _ start_table) as [[y q]|] eqn:F; [|discriminate]. injection Ex as ->.
  apply find_some in F. destruct F as [I F]. cbn [fst] in F. apply str_eqb_eq in F. subst x.
  pose proof (map_in _ _ _ _ V I) as H. cbn [fst snd] in H.
  pose proof start_names as Nms. rewrite Forall_forall in Nms. specialize (Nms _ I).
  cbn [fst snd] in Nms. destruct Nms as (Nm & Lc & Sp & Pl).
  assert (NL : ~ is_local (s_ y)) by (rewrite <- (local_spec _ Nm); congruence).
  destruct (lookup (st_vars s) (s_ y)) as [v|] eqn:Lv; [|discriminate].
  destruct (dread v s) as [p' s'| |] eqn:Dr; try discriminate. injection H as ->.
  apply dread_inv in Dr. destruct Dr as [_ Dv].
  split; [|split; [|split; [exact Pl|]]].
  - split; [exact Nm|]. split; [intros Eq; rewrite Eq in Sp; discriminate|].
    split; [intros Eq; rewrite Eq in Sp; discriminate|auto].
  - exists (Some v). split; [|exact Dv]. rewrite <- Lv. apply binding_global. exact NL.
  - intros pl Hp. destruct Hp; [contradiction|]. exact (Iso _ _ Lv).
Qed.
