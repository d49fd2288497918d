(** Independent meaning of the entanglement module, for C40, C41 and C60. *)
From Coq Require Import QArith Reals.
From Coquelicot Require Import Coquelicot.
From Verif Require Import LinAlg Base CountsModel QSem DihedralModel RBSeqModel RBSeqSpec StdGates AccSpec.
Open Scope nat_scope.

(** ** States *)
Definition zeros (n : nat) : bits := repeat false n.
Definition ones (n : nat) : bits := repeat true n.
Section States.
Context {F : Type} {HF : Fld F}.
(** (|0..0> + |1..1>) times [r]. *)
Definition ghz (r : F) (n : nat) : amp F := fun x => if mem x [zeros n; ones n] then r else f0.
(** |10..0>, the first qubit set. *)
Definition first_one (n : nat) : bits := set1 (zeros n) 0 true.
Fixpoint fpow (a : F) (n : nat) : F := match n with 0 => f1 | S k => fmul a (fpow a k) end.
Definition weight (x : bits) : nat := length (filter (fun b => b) x).

(** The gates u1 and u2 for the angles used, by the phase [e = exp(i delta)]. *)
Variable gmat : pystr -> list Q -> bits -> bits -> F.
Record u1_phase (delta : Q) (e : F) : Prop := {
  u1p : forall a b, gmat (str "u1") [delta] [a] [b] = if xorb a b then f0 else if b then e else f1 }.
Record u2_phase (r : F) (ps : list Q) (e e' : F) : Prop := {
  u2p_inv : fmul e e' = f1;
  u2p : forall a b, gmat (str "u2") ps [a] [b] =
    fmul r (match a, b with false, false => f1 | false, true => fopp e' | true, false => e | true, true => fmul e e' end) }.
End States.

(** ** Complex numbers *)
Definition C_eqb (x y : C) : bool := if Ceq_dec x y then true else false.
Lemma C_eqb_ok x y : reflect (x = y) (C_eqb x y).
Proof. unfold C_eqb. destruct (Ceq_dec x y); constructor; assumption. Qed.
Global Instance Fld_C : Fld C :=
  {| f0 := RtoC 0; f1 := RtoC 1; fadd := Cplus; fmul := Cmult; fsub := Cminus; fopp := Copp;
     fdiv := Cdiv; finv := Cinv; fth := C_field_theory; feqb := C_eqb; feqb_ok := C_eqb_ok |}.
Definition sqmod (z : C) : R := (fst z * fst z + snd z * snd z)%R.
Definition expi (t : R) : C := (cos t, sin t).

(** ** Coupling maps *)
Definition coupled (cmap : list (nat * nat)) (a b : nat) : Prop := In (a, b) cmap \/ In (b, a) cmap.
Inductive walk (cmap : list (nat * nat)) : nat -> nat -> nat -> Prop :=
| walk_nil a : walk cmap 0 a a
| walk_snoc k a b c : walk cmap k a b -> coupled cmap b c -> walk cmap (S k) a c.
Definition touched (e : nat * nat) : list nat := [fst e; snd e].

(** Pairs (control, target) that grow a tree from qubit 0: each control is in the
    tree, each target is not. *)
Fixpoint grows (tree : list nat) (edges : list (nat * nat)) : Prop :=
  match edges with
  | [] => True
  | (c, t) :: edges' => In c tree /\ ~ In t tree /\ grows (tree ++ [t]) edges'
  end.

(** ** Parities *)
(** +1 or -1, by the number of ones of the outcome. *)
Definition sign_of_key (s : pystr) : Z := if Nat.even (count_occ Ascii.ascii_dec s "1"%char) then 1%Z else (-1)%Z.

(** ** Tiers *)
Definition neighbours (cmap : list (nat * nat)) (v : nat) (l : list nat) : Prop := NoDup l /\ forall b, In b l <-> coupled cmap v b.
Definition edges_of (td : list (nat * list (nat * nat))) : list (nat * nat) := concat (map snd td).
(** A schedule of controlled-not gates that spreads from [root]. *)
Record schedule (cmap : list (nat * nat)) (root : nat) (td : list (nat * list (nat * nat))) : Prop := {
  (* the tiers are numbered in increasing order and none is empty *)
  sc_order : forall i j a b, nth_error (map fst td) i = Some a -> nth_error (map fst td) j = Some b -> i < j -> a < b;
  sc_nonempty : forall j t, In (j, t) td -> t <> [];
  (* no qubit is a target twice, and the root never *)
  sc_targets : NoDup (root :: map snd (edges_of td));
  (* controls are coupled to their targets, and are the root or targets of a strictly earlier tier *)
  sc_edges : forall j t c v, In (j, t) td -> In (c, v) t -> coupled cmap c v /\
    (c = root \/ exists j' t' c', In (j', t') td /\ j' < j /\ In (c', c) t');
  (* the gates of a tier act on different qubits *)
  sc_disjoint : forall j t, In (j, t) td -> NoDup (flat_map touched t) }.
