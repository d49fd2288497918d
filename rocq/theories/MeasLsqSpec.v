(** Specification of least squares corrections: what a physical correction is
    and how far it is from the data. *)
From Coq Require Import Reals.
From Verif Require Import LinAlg Base CountsSpec CountsProofs CtmpSpec MeasCalModel MeasCalSpec MeasLsqModel.
Local Open Scope list_scope.
Local Open Scope R_scope.

(** Entry [i] of what a device with the confusion matrix [A] shows, on average,
    for the true counts [x]. *)
Definition shown {I} (dom : list I) (A : I -> I -> R) (x : I -> R) (i : I) : R :=
  fsum (map (fun j => A i j * x j) dom).

(** Squared distance of two families of numbers. *)
Definition dist2 {I} (dom : list I) (v w : I -> R) : R :=
  fsum (map (fun i => (v i - w i) * (v i - w i)) dom).

(** Counts that can be true counts of [total] shots. *)
Definition physical {I} (dom : list I) (total : R) (x : I -> R) : Prop :=
  (forall i, In i dom -> 0 <= x i) /\ fsum (map x dom) = total.

(** [x] is physical, for as many shots as the data has, and no other physical
    vector explains the data better. *)
Definition best_physical {I} (dom : list I) (A : I -> I -> R) (v x : I -> R) : Prop :=
  physical dom (fsum (map v dom)) x /\
  forall y, physical dom (fsum (map v dom)) y -> dist2 dom v (shown dom A x) <= dist2 dom v (shown dom A y).

(** Sum of the squares of the entries of a matrix. *)
Definition frob2 {I} (dom : list I) (P : I -> I -> R) : R :=
  fsum (map (fun i => fsum (map (fun j => P i j * P i j) dom)) dom).

(** [P] undoes [A] on the family. *)
Definition undoes {I} `{Eqb I} (dom : list I) (P A : I -> I -> R) : Prop :=
  forall i j, In i dom -> In j dom ->
  fsum (map (fun k => P i k * A k j) dom) = if eqb i j then 1 else 0.

Definition stochastic {I} (dom : list I) (A : I -> I -> R) : Prop :=
  forall j, In j dom -> fsum (map (fun i => A i j) dom) = 1.

(** ** The contract of the minimiser, for one problem *)
(** Points meeting the constraint and the bounds. *)
Definition feasible (p : problem) (x : list R) : Prop :=
  length x = length (p_bounds p) /\ p_con p x = 0 /\
  Forall2 (fun xi b => fst b <= xi <= snd b) x (p_bounds p).

(** [x] is feasible and the objective is not smaller at any feasible point. *)
Definition solves (p : problem) (x : list R) : Prop :=
  feasible p x /\
  forall y fx fy, feasible p y -> p_fun p x = Ok fx -> p_fun p y = Ok fy -> fx <= fy.

(** What the random start and the minimiser return for an objective solves the
    problem. *)
Definition minimises (minimize : problem -> list R -> list R) (f : list R -> result R) (raw rand : list R) : Prop :=
  solves (lsq_problem f raw (start rand)) (minimize (lsq_problem f raw (start rand)) (start rand)).

(** ** Groups of qubits *)
(** The confusion matrix of all the qubits: the product of those of the groups. *)
Definition groups_kron (gs : list (cal_group R)) : pystr -> pystr -> R :=
  kron (map (fun g => (cg_size g, cg_named g)) gs).

(** The objective that TensoredFilter minimises for the data [v]. *)
Definition tf_objective (gs : list (cal_group R)) (v : pystr -> R) : list R -> result R :=
  tf_fun (map cg_size gs) (map indices_of (map cg_labels gs)) (map cg_matrix gs) (groups_width gs)
         (map v (all_bits (groups_width gs))).
