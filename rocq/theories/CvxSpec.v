(** Specifications for the convex fit (C72). *)
From Coq Require Import Reals NArith.
From Coquelicot Require Import Coquelicot.
From Verif Require Import LinAlg Base CtmpSpec EntSpec TomoModel TomoFitModel TomoFitSpec TomoPsdSpec TomoPtrSpec CvxModel.
Local Open Scope list_scope.
Local Open Scope nat_scope.

(** Hermitian matrices. *)
Definition hermitian (dim : nat) (m : nat -> nat -> C) : Prop := forall i j, i < dim -> j < dim -> m i j = Cconj (m j i).
(** The matrices among which the best is sought: Hermitian, positive if asked, of the
    trace asked, and, for the Choi matrix of a channel that keeps traces, with the
    identity as the trace over the second factor of two equal ones. *)
Definition physical (dim : nat) (positive : bool) (trace : option R) (tp : bool) (m : nat -> nat -> C) : Prop :=
  hermitian dim m /\ (positive = true -> psd dim m) /\ (forall t, trace = Some t -> ctrace dim m = RtoC t) /\
  (tp = true -> forall s, s * s = dim -> forall r c, r < s -> c < s -> trace_second s m r c = if r =? c then RtoC 1 else RtoC 0).

(** The squares of the real parts of the residual of a linear system. *)
Definition residual_re (a : list (list C)) (b x : list C) : R :=
  fsum (HF:=Fld_R) (map (fun p => (Re (fsub (dot (fst p) x) (snd p))) ^ 2)%R (combine a b)).
(** Rows that are the vectors of Hermitian operators: expectation values. *)
Definition expectation_rows (dim : nat) (rows : list (list C)) : Prop :=
  Forall (fun r => exists B, m_rows B = dim /\ m_cols B = dim /\ hermitian dim (m_at B) /\ r = vec_conj B) rows.

(** Values that satisfy the constraints, and those that are best. *)
Definition admissible (p : cvx_problem) (x : variables) : Prop := Forall (fun c => c x) (p_cons p).
Definition optimum (p : cvx_problem) (x : variables) : Prop := admissible p x /\ forall y, admissible p y -> (p_obj p x <= p_obj p y)%R.
Definition matrix_of (x : variables) (i j : nat) : C := (rho_r x i j, rho_i x i j).
Definition vars_of (m : nat -> nat -> C) : variables := {| rho_r := fun i j => Re (m i j); rho_i := fun i j => Im (m i j) |}.
(** A status that is accepted; asked of a solver: for the problem, the values of an
    accepted status are an optimum. *)
Definition accepted (s : status) : Prop := s = Optimal \/ s = OptimalInaccurate.
Definition solves (solve : cvx_problem -> option pystr -> N -> result (status * variables)) (p : cvx_problem) : Prop :=
  forall solver iters s x, solve p solver iters = Ok (s, x) -> accepted s -> optimum p x.
(** Shapes that fit: a square number of columns. *)
Definition fits (dim : nat) (data : list R) (rows : list (list C)) (w : option (list R)) : Prop :=
  rows <> [] /\ Forall (fun r => length r = dim * dim) rows /\ length data = length rows /\ good_weights rows w.
