(** Model of verification/tomography/fitters/cvx_fit.py: the convex problem that is
    handed to CVXPY, and the loop that calls its solver.

    Simplifications: CVXPY is installed (otherwise ImportError); a solver is a
    function of the problem, the name of the solver and the number of iterations;
    other keyword arguments of the solver are left out; floating point is replaced by
    real numbers, so that weights that are all zero (nan in the code) are outside the
    model; arrays of one element, which numpy would broadcast, have the wrong shape
    here.  The values of the variables are read by their indices. *)
From Coq Require Import QArith Reals NArith.
From Coquelicot Require Import Coquelicot.
From Verif Require Import LinAlg Base CountsModel DihedralModel RBSeqModel TomoModel TomoFitModel.
Local Open Scope list_scope.
Local Open Scope string_scope.
Local Open Scope nat_scope.

(** [rho_r] and [rho_i], cvx_fit.py:118-119. *)
Record variables := { rho_r : nat -> nat -> R; rho_i : nat -> nat -> R }.
(** A CVXPY problem: constraints and an objective that is minimised. *)
Record cvx_problem := { p_cons : list (variables -> Prop); p_obj : variables -> R }.

(** A product of a real row with [cvxpy.vec] of a matrix, which is column by column. *)
Definition row_vec (dim : nat) (row : nat -> R) (m : nat -> nat -> R) : R :=
  rsum (map (fun k => row k * m (k mod dim)%nat (k / dim)%nat)%R (seq 0 (dim * dim))).

(** [symmetric=True], 118. *)
Definition symmetric_cons (dim : nat) (x : variables) : Prop := forall i j, i < dim -> j < dim -> rho_r x i j = rho_r x j i.
(** [rho_i == -rho_i.T], 128. *)
Definition antisymmetric_cons (dim : nat) (x : variables) : Prop := forall i j, i < dim -> j < dim -> rho_i x i j = (- rho_i x j i)%R.
(** [cvxpy.trace(rho_r) == trace], 133-134. *)
Definition trace_cons (dim : nat) (t : R) (x : variables) : Prop := rsum (map (fun i => rho_r x i i) (seq 0 dim)) = t.
(** [cvxpy.bmat([[rho_r, -rho_i], [rho_i, rho_r]])], 141. *)
Definition bmat (dim : nat) (x : variables) (a b : nat) : R :=
  if a <? dim then (if b <? dim then rho_r x a b else - rho_i x a (b - dim))%R
  else (if b <? dim then rho_i x (a - dim) b else rho_r x (a - dim) (b - dim))%R.
(** [rho >> 0], 142: the quadratic form is not negative. *)
Definition psd_cons (dim : nat) (x : variables) : Prop :=
  forall z : nat -> R, (0 <= rsum (map (fun a => rsum (map (fun b => z a * bmat dim x a b * z b)%R (seq 0 (2 * dim)))) (seq 0 (2 * dim))))%R.
(** [ptr @ cvxpy.vec(rho_r) == np.identity(sdim).ravel()] and
    [ptr @ cvxpy.vec(rho_i) == np.zeros(sdim*sdim)], 150-154. *)
Definition ptr_row (sdim k : nat) (j : nat) : R := Re (m_at (partial_trace_super sdim sdim) k j).
Definition tp_cons_r (dim sdim : nat) (x : variables) : Prop :=
  forall k, k < sdim * sdim -> row_vec dim (ptr_row sdim k) (rho_r x) = (if k / sdim =? k mod sdim then 1 else 0)%R.
Definition tp_cons_i (dim sdim : nat) (x : variables) : Prop :=
  forall k, k < sdim * sdim -> row_vec dim (ptr_row sdim k) (rho_i x) = 0%R.

(** [w = w / np.sqrt(sum(w**2))], the weighted matrix and the weighted data, 157-161. *)
Definition unit_weights (w : list R) : list R :=
  let s := sqrt (rsum (map (fun x => x ^ 2)%R w)) in map (fun x => x / s)%R w.
Definition weighted_rows (w : option (list R)) (rows : list (list C)) : list (list C) :=
  match w with None => rows | Some w => map (fun wr => map (Cmult (RtoC (fst wr))) (snd wr)) (combine (unit_weights w) rows) end.
Definition weighted_data (w : option (list R)) (data : list R) : list R :=
  match w with None => data | Some w => map (fun wy => fst wy * snd wy)%R (combine (unit_weights w) data) end.

(** [cvxpy.norm(bm_r @ cvxpy.vec(rho_r) - bm_i @ cvxpy.vec(rho_i) - data, p=2)], 174-187. *)
Definition arg_entry (dim : nat) (row : list C) (y : R) (x : variables) : R :=
  (row_vec dim (fun k => Re (nth k row (RtoC 0))) (rho_r x) - row_vec dim (fun k => Im (nth k row (RtoC 0))) (rho_i x) - y)%R.
Definition objective (dim : nat) (rows : list (list C)) (data : list R) (x : variables) : R :=
  sqrt (rsum (map (fun ry => arg_entry dim (fst ry) (snd ry) x ^ 2)%R (combine rows data))).

(** The problem, 113-190. *)
Definition cvx_problem_of (dim : nat) (data : list R) (rows : list (list C)) (w : option (list R)) (psd : bool) (trace : option R) (tp : bool) : cvx_problem :=
  let sdim := Nat.sqrt dim in
  {| p_cons := [symmetric_cons dim; antisymmetric_cons dim] ++
               match trace with Some t => [trace_cons dim t] | None => [] end ++
               (if psd then [psd_cons dim] else []) ++
               (if tp then [tp_cons_r dim sdim; tp_cons_i dim sdim] else []);
     p_obj := objective dim (weighted_rows w rows) (weighted_data w data) |}.

(** [prob.status]. *)
Inductive status := Optimal | OptimalInaccurate | UnboundedInaccurate | Infeasible | Unbounded | OtherStatus.

Section Solve.
  (** [prob.solve(solver=..., max_iters=...)]: the status and the values. *)
  Variable solve : cvx_problem -> option pystr -> N -> result (status * variables).

  (** The loop, 201-219; the number of rounds is bounded by the number of doublings. *)
  Fixpoint attempts (fuel : nat) (p : cvx_problem) (solver : option pystr) (max_iters iters : N) : result variables :=
    match fuel with
    | O => Err RecursionError
    | S fuel' =>
        do sx <- solve p solver iters;
        match fst sx with
        | Optimal | OptimalInaccurate => Ok (snd sx)
        | UnboundedInaccurate => if (iters <? max_iters)%N then attempts fuel' p solver max_iters (iters * 2)%N else Err RuntimeError
        | _ => Err RuntimeError
        end
    end.

  (** [kwargs['solver']] and its default, 194-198. *)
  Definition pick_solver (kw : option pystr) (installed : list pystr) : option pystr :=
    match kw with
    | Some s => Some s
    | None => if mem (str "CVXOPT") installed then Some (str "CVXOPT") else if mem (str "MOSEK") installed then Some (str "MOSEK") else None
    end.

  (** [cvx_fit], cvx_fit.py:32-221: matrices of the wrong shape are refused by numpy
      or CVXPY. *)
  Definition cvx_fit (installed : list pystr) (solver_kw : option pystr) (max_kw : option N)
      (data : list R) (rows : list (list C)) (w : option (list R)) (psd : bool) (trace : option R) (tp : bool) : result cmat :=
    let cols := length (nth 0 rows []) in
    let dim := Nat.sqrt cols in
    let sdim := Nat.sqrt dim in
    if negb ((dim * dim =? cols) && forallb (fun r => length r =? cols) rows && (length data =? length rows) &&
             match w with Some w => length w =? length rows | None => true end && (if tp then sdim * sdim =? dim else true))
    then Err ValueError
    else
      let max_iters := match max_kw with Some m => m | None => 20000%N end in
      do x <- attempts (S (N.size_nat max_iters)) (cvx_problem_of dim data rows w psd trace tp) (pick_solver solver_kw installed) max_iters 5000%N;
      Ok {| m_rows := dim; m_cols := dim; m_at := fun i j => (rho_r x i j, rho_i x i j) |}.
End Solve.
