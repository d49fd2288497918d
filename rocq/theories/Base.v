(** Shared vocabulary of the model: Python exceptions as values, dictionaries
    in insertion order, strings, slices.  Nothing here is specific to
    qiskit-ignis; it fixes how Python constructs are rendered in Gallina. *)
From Coq Require Export Ascii String.
From Coq Require Export List Arith ZArith NArith Bool Lia Permutation.
From Coq Require Export ZifyBool ZifyNat ZifyN.
Export ListNotations.
Ltac Zify.zify_post_hook ::= Z.div_mod_to_equations.
Open Scope list_scope.

(** Python exception classes that the modelled code can raise. *)
Inductive pyerr : Set :=
| QiskitError | ValueError | KeyError | IndexError | TypeError
| ZeroDivisionError | StopIteration | AttributeError | AssertionError
| RecursionError | CircuitError | RuntimeError | LinAlgError | NotImplementedError.

(** A call either returns or raises. *)
Inductive result (A : Type) : Type :=
| Ok : A -> result A
| Err : pyerr -> result A.
Arguments Ok {A} _.
Arguments Err {A} _.

Definition bind {A B} (r : result A) (f : A -> result B) : result B :=
  match r with Ok a => f a | Err e => Err e end.
Notation "'do' x <- r ; k" := (bind r (fun x => k))
  (at level 200, x pattern, r at level 100, k at level 200, right associativity).

Fixpoint mapM {A B} (f : A -> result B) (l : list A) : result (list B) :=
  match l with
  | [] => Ok []
  | a :: l' => do b <- f a; do bs <- mapM f l'; Ok (b :: bs)
  end.

Fixpoint foldM {A B} (f : B -> A -> result B) (l : list A) (b : B) : result B :=
  match l with
  | [] => Ok b
  | a :: l' => do b' <- f b a; foldM f l' b'
  end.

(** Decidable equality, Python's [==]. *)
Class Eqb (A : Type) := {
  eqb : A -> A -> bool;
  eqb_spec : forall x y, reflect (x = y) (eqb x y)
}.
Arguments eqb {A Eqb} _ _ : simpl never.

#[export] Instance Eqb_nat : Eqb nat := {| eqb := Nat.eqb; eqb_spec := Nat.eqb_spec |}.
#[export] Instance Eqb_N : Eqb N := {| eqb := N.eqb; eqb_spec := N.eqb_spec |}.
#[export] Instance Eqb_Z : Eqb Z := {| eqb := Z.eqb; eqb_spec := Z.eqb_spec |}.
#[export] Instance Eqb_bool : Eqb bool := {| eqb := Bool.eqb; eqb_spec := Bool.eqb_spec |}.
#[export] Instance Eqb_ascii : Eqb ascii := {| eqb := Ascii.eqb; eqb_spec := Ascii.eqb_spec |}.

Fixpoint list_eqb {A} `{Eqb A} (l l' : list A) : bool :=
  match l, l' with
  | [], [] => true
  | a :: m, a' :: m' => eqb a a' && list_eqb m m'
  | _, _ => false
  end.

Lemma list_eqb_spec {A} `{Eqb A} (l l' : list A) : reflect (l = l') (list_eqb l l').
Proof.
  revert l'; induction l as [|a l IH]; intros [|a' l']; cbn; try (constructor; congruence).
  destruct (eqb_spec a a') as [->|Hn]; cbn.
  - destruct (IH l') as [->|Hn]; constructor; congruence.
  - constructor; congruence.
Qed.

#[export] Instance Eqb_list {A} `{Eqb A} : Eqb (list A) :=
  {| eqb := list_eqb; eqb_spec := list_eqb_spec |}.

Definition prod_eqb {A B} `{Eqb A} `{Eqb B} (p q : A * B) : bool :=
  eqb (fst p) (fst q) && eqb (snd p) (snd q).

Lemma prod_eqb_spec {A B} `{Eqb A} `{Eqb B} (p q : A * B) : reflect (p = q) (prod_eqb p q).
Proof.
  destruct p as [a b], q as [a' b']; unfold prod_eqb; cbn.
  destruct (eqb_spec a a') as [->|?]; cbn; [|constructor; congruence].
  destruct (eqb_spec b b') as [->|?]; constructor; congruence.
Qed.

#[export] Instance Eqb_prod {A B} `{Eqb A} `{Eqb B} : Eqb (A * B) :=
  {| eqb := prod_eqb; eqb_spec := prod_eqb_spec |}.

Lemma eqb_refl {A} `{Eqb A} (x : A) : eqb x x = true.
Proof. destruct (eqb_spec x x); congruence. Qed.

Lemma eqb_eq {A} `{Eqb A} (x y : A) : eqb x y = true <-> x = y.
Proof. destruct (eqb_spec x y); split; congruence. Qed.

Lemma eqb_true {A} `{Eqb A} (x y : A) : eqb x y = true -> x = y.
Proof. apply eqb_eq. Qed.

Lemma eqb_neq {A} `{Eqb A} (x y : A) : eqb x y = false <-> x <> y.
Proof. destruct (eqb_spec x y); split; congruence. Qed.

(** Python's [x in l] for a list. *)
Lemma eqb_sym {A} `{Eqb A} (x y : A) : eqb x y = eqb y x.
Proof. destruct (eqb_spec x y), (eqb_spec y x); congruence. Qed.

Definition mem {A} `{Eqb A} (x : A) (l : list A) : bool := existsb (eqb x) l.

Lemma mem_In {A} `{Eqb A} (x : A) l : mem x l = true <-> In x l.
Proof.
  unfold mem; rewrite existsb_exists; split.
  - intros [y [Hy He]]; apply eqb_true in He; subst; exact Hy.
  - intros Hx; exists x; split; [assumption | apply eqb_refl].
Qed.

Lemma mem_not_In {A} `{Eqb A} (x : A) l : mem x l = false <-> ~ In x l.
Proof. rewrite <- mem_In; destruct (mem x l); split; congruence. Qed.

(** Python strings: lists of characters, so that [s[i]] is [nth_error]. *)
Notation pystr := (list ascii).
Definition str (s : string) : pystr := list_ascii_of_string s.
Coercion str : string >-> list.

(** Python dictionaries, in insertion order. *)
Definition dict (K V : Type) := list (K * V).

Section Dict.
  Context {K V : Type} `{Eqb K}.

  (** [d.get(k)] *)
  Fixpoint dget (d : dict K V) (k : K) : option V :=
    match d with
    | [] => None
    | (k', v) :: d' => if eqb k k' then Some v else dget d' k
    end.

  (** [d[k] = v]: an existing key keeps its position, a new key goes last. *)
  Fixpoint dset (d : dict K V) (k : K) (v : V) : dict K V :=
    match d with
    | [] => [(k, v)]
    | (k', v') :: d' => if eqb k k' then (k', v) :: d' else (k', v') :: dset d' k v
    end.

  Definition dkeys (d : dict K V) : list K := map fst d.
  Definition dvals (d : dict K V) : list V := map snd d.
  Definition dmem (d : dict K V) (k : K) : bool := mem k (dkeys d).

  (** [d[k]] raising [KeyError]. *)
  Definition dget_e (d : dict K V) (k : K) : result V :=
    match dget d k with Some v => Ok v | None => Err KeyError end.
End Dict.

(** [d.get(k, 0)] for integer-valued dictionaries. *)
Definition dget0 {K} `{Eqb K} (d : dict K Z) (k : K) : Z :=
  match dget d k with Some v => v | None => 0%Z end.

Fixpoint zsum (l : list Z) : Z :=
  match l with [] => 0%Z | z :: l' => (z + zsum l')%Z end.

(** [l[i:j]] for non-negative bounds. *)
Definition slice {A} (l : list A) (i j : nat) : list A := firstn (j - i) (skipn i l).

(** [l[i]] raising [IndexError]. *)
Definition index_e {A} (l : list A) (i : nat) : result A :=
  match nth_error l i with Some a => Ok a | None => Err IndexError end.

(** [l.index(x)]: position of the first occurrence. *)
Fixpoint list_index {A} `{Eqb A} (l : list A) (x : A) : option nat :=
  match l with
  | [] => None
  | a :: l' => if eqb a x then Some 0 else option_map S (list_index l' x)
  end.

(** * Dictionary lemmas *)
Arguments dkeys : simpl never.
Arguments dvals : simpl never.

Section DictLemmas.
  Context {K V : Type} `{Eqb K}.

  Lemma dkeys_cons (k : K) (v : V) d : dkeys ((k, v) :: d) = k :: dkeys d.
  Proof. reflexivity. Qed.

  Lemma dvals_cons (k : K) (v : V) d : dvals ((k, v) :: d) = v :: dvals d.
  Proof. reflexivity. Qed.

  Lemma dget_dset (d : dict K V) k v k' :
    dget (dset d k v) k' = if eqb k' k then Some v else dget d k'.
  Proof.
    induction d as [|[k0 v0] d IH]; cbn.
    - destruct (eqb_spec k' k); reflexivity.
    - destruct (eqb_spec k k0) as [->|Hn]; cbn.
      + destruct (eqb_spec k' k0); reflexivity.
      + destruct (eqb_spec k' k0) as [->|Hn'].
        * destruct (eqb_spec k0 k); congruence.
        * exact IH.
  Qed.

  Lemma dget_None (d : dict K V) k : dget d k = None <-> ~ In k (dkeys d).
  Proof.
    induction d as [|[k0 v0] d IH]; cbn; [tauto|]. rewrite dkeys_cons; cbn.
    destruct (eqb_spec k k0) as [->|Hn].
    - split; [discriminate|]. intros Hc; exfalso; apply Hc; left; reflexivity.
    - rewrite IH; intuition congruence.
  Qed.

  Lemma dget_Some_In (d : dict K V) k v : dget d k = Some v -> In (k, v) d.
  Proof.
    induction d as [|[k0 v0] d IH]; cbn; [discriminate|].
    destruct (eqb_spec k k0) as [->|Hn]; [intros [= ->]; left; reflexivity | intros Hg; right; auto].
  Qed.

  Lemma In_dkeys (d : dict K V) k v : In (k, v) d -> In k (dkeys d).
  Proof. intros Hi; apply (in_map fst) in Hi; exact Hi. Qed.

  Lemma dget_In_NoDup (d : dict K V) k v :
    NoDup (dkeys d) -> In (k, v) d -> dget d k = Some v.
  Proof.
    induction d as [|[k0 v0] d IH]; cbn; [tauto|]. rewrite dkeys_cons.
    intros Hnd [He|Hi]; inversion Hnd as [|? ? Hni Hnd']; subst.
    - injection He as -> ->. rewrite eqb_refl; reflexivity.
    - destruct (eqb_spec k k0) as [->|Hn]; [|auto].
      exfalso; apply Hni; eapply In_dkeys; exact Hi.
  Qed.

  Lemma dkeys_dset_In (d : dict K V) k v :
    In k (dkeys d) -> dkeys (dset d k v) = dkeys d.
  Proof.
    induction d as [|[k0 v0] d IH]; cbn; [intros []|]. rewrite dkeys_cons.
    destruct (eqb_spec k k0) as [->|Hn]; cbn; [reflexivity|].
    intros [He|Hi]; [congruence | rewrite dkeys_cons, IH by exact Hi; reflexivity].
  Qed.

  Lemma dkeys_dset_notIn (d : dict K V) k v :
    ~ In k (dkeys d) -> dset d k v = d ++ [(k, v)].
  Proof.
    induction d as [|[k0 v0] d IH]; cbn; [reflexivity|]. rewrite dkeys_cons; cbn.
    destruct (eqb_spec k k0) as [->|Hn]; cbn; [tauto|].
    intros Hc; rewrite IH by tauto; reflexivity.
  Qed.

  Lemma In_dkeys_dset (d : dict K V) k v k' :
    In k' (dkeys (dset d k v)) <-> k' = k \/ In k' (dkeys d).
  Proof.
    induction d as [|[k0 v0] d IH]; cbn.
    - unfold dkeys; cbn; intuition congruence.
    - destruct (eqb_spec k k0) as [->|Hn]; rewrite !dkeys_cons; cbn; [intuition congruence|].
      rewrite IH; intuition congruence.
  Qed.

  Lemma NoDup_dset (d : dict K V) k v : NoDup (dkeys d) -> NoDup (dkeys (dset d k v)).
  Proof.
    induction d as [|[k0 v0] d IH]; cbn.
    - intros _; constructor; [intros [] | constructor].
    - intros Hnd; rewrite dkeys_cons in Hnd; inversion Hnd as [|? ? Hni Hnd']; subst.
      destruct (eqb_spec k k0) as [->|Hn]; rewrite dkeys_cons; constructor; auto.
      rewrite In_dkeys_dset; intros [He|Hi]; [congruence | tauto].
  Qed.

  Lemma dget_app (d1 d2 : dict K V) k :
    dget (d1 ++ d2) k = match dget d1 k with Some v => Some v | None => dget d2 k end.
  Proof.
    induction d1 as [|[k0 v0] d1 IH]; cbn; [reflexivity|].
    destruct (eqb k k0); [reflexivity | exact IH].
  Qed.

  Lemma dmem_spec (d : dict K V) k : dmem d k = true <-> In k (dkeys d).
  Proof. apply mem_In. Qed.

  Lemma dmem_dget (d : dict K V) k : dmem d k = match dget d k with Some _ => true | None => false end.
  Proof.
    destruct (dget d k) as [v|] eqn:E.
    - apply dmem_spec. apply dget_Some_In in E. eapply In_dkeys; exact E.
    - apply dget_None in E. apply mem_not_In; exact E.
  Qed.

  Lemma dset_same_notmem (d : dict K V) k v k' :
    k' <> k -> dget (dset d k v) k' = dget d k'.
  Proof. intros Hn; rewrite dget_dset. destruct (eqb_spec k' k); congruence. Qed.
End DictLemmas.

Lemma dget0_dset {K} `{Eqb K} (d : dict K Z) k v k' :
  dget0 (dset d k v) k' = if eqb k' k then v else dget0 d k'.
Proof. unfold dget0; rewrite dget_dset; destruct (eqb k' k); reflexivity. Qed.

(** * Sums *)
Lemma zsum_app l l' : zsum (l ++ l') = (zsum l + zsum l')%Z.
Proof. induction l; cbn; [reflexivity | rewrite IHl; lia]. Qed.

Lemma zsum_perm l l' : Permutation l l' -> zsum l = zsum l'.
Proof. induction 1; cbn; lia. Qed.

Lemma zsum_map_add {A} (f g : A -> Z) l :
  zsum (map (fun a => f a + g a)%Z l) = (zsum (map f l) + zsum (map g l))%Z.
Proof. induction l; cbn; [reflexivity | rewrite IHl; lia]. Qed.

Lemma zsum_map_mul {A} (c : Z) (f : A -> Z) l :
  zsum (map (fun a => c * f a)%Z l) = (c * zsum (map f l))%Z.
Proof. induction l; cbn; [lia | rewrite IHl; lia]. Qed.

Lemma zsum_map_ext {A} (f g : A -> Z) l :
  (forall a, In a l -> f a = g a) -> zsum (map f l) = zsum (map g l).
Proof.
  induction l as [|a l IH]; cbn; intros Hext; [reflexivity|].
  rewrite Hext by (left; reflexivity). rewrite IH; [reflexivity | auto].
Qed.

Lemma zsum_map_zero {A} (l : list A) : zsum (map (fun _ => 0%Z) l) = 0%Z.
Proof. induction l; cbn; auto. Qed.

Lemma zsum_swap {A B} (f : A -> B -> Z) (la : list A) (lb : list B) :
  zsum (map (fun a => zsum (map (fun b => f a b) lb)) la) =
  zsum (map (fun b => zsum (map (fun a => f a b) la)) lb).
Proof.
  induction la as [|a la IH]; cbn.
  - rewrite zsum_map_zero; reflexivity.
  - rewrite IH, <- zsum_map_add; reflexivity.
Qed.

(** Exactly one key of a duplicate-free list equals [k]. *)
Lemma zsum_pick {A} `{Eqb A} (l : list A) (k : A) (f : A -> Z) :
  NoDup l -> In k l -> zsum (map (fun a => if eqb k a then f a else 0%Z) l) = f k.
Proof.
  induction l as [|a l IH]; cbn; [tauto|].
  intros Hnd [->|Hi]; inversion Hnd as [|? ? Hni Hnd']; subst.
  - rewrite eqb_refl.
    rewrite (zsum_map_ext _ (fun _ => 0%Z)).
    + rewrite zsum_map_zero; lia.
    + intros b Hb; destruct (eqb_spec k b); [subst; tauto | reflexivity].
  - destruct (eqb_spec k a) as [->|Hn]; [tauto|]. rewrite IH; auto.
Qed.

Lemma zsum_nonneg l : (forall z, In z l -> (0 <= z)%Z) -> (0 <= zsum l)%Z.
Proof.
  induction l as [|a l IH]; cbn; intros Hl; [lia|].
  specialize (IH (fun z Hz => Hl z (or_intror Hz))). specialize (Hl a (or_introl eq_refl)). lia.
Qed.

(** * List helpers *)
Lemma list_index_nth {A} `{Eqb A} (l : list A) x i :
  list_index l x = Some i -> nth_error l i = Some x.
Proof.
  revert i; induction l as [|a l IH]; cbn; [discriminate|]. intros i.
  destruct (eqb_spec a x) as [->|Hn].
  - intros [= <-]; reflexivity.
  - destruct (list_index l x) as [j|]; cbn; [|discriminate]. intros [= <-]; cbn; auto.
Qed.

Lemma list_index_None {A} `{Eqb A} (l : list A) x :
  list_index l x = None <-> ~ In x l.
Proof.
  induction l as [|a l IH]; cbn; [tauto|].
  destruct (eqb_spec a x) as [->|Hn].
  - split; [discriminate | intros Hc; exfalso; apply Hc; left; reflexivity].
  - destruct (list_index l x) as [j|]; cbn.
    + split; [discriminate|]. intros Hc. exfalso. destruct IH as [_ IH]. discriminate IH. tauto.
    + split; [intros _ [He|Hi]; [congruence|]; apply IH; auto | reflexivity].
Qed.

Lemma list_index_Some {A} `{Eqb A} (l : list A) x :
  In x l -> exists i, list_index l x = Some i /\ nth_error l i = Some x /\ i < length l.
Proof.
  intros Hx. destruct (list_index l x) as [i|] eqn:E.
  - exists i; split; [reflexivity|]. pose proof (list_index_nth _ _ _ E) as Hn. split; [exact Hn|].
    apply nth_error_Some; congruence.
  - apply list_index_None in E; contradiction.
Qed.

Lemma list_index_NoDup {A} `{Eqb A} (l : list A) x i :
  NoDup l -> nth_error l i = Some x -> list_index l x = Some i.
Proof.
  intros Hnd Hi. destruct (list_index_Some l x) as (j & Hj & Hjn & Hlt).
  { eapply nth_error_In; eauto. }
  rewrite Hj; f_equal. symmetry. eapply NoDup_nth_error; eauto; [|congruence].
  apply nth_error_Some; congruence.
Qed.
