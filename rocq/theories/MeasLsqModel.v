(** Model of the least squares correction of the measurement filters and of
    the Result form of their input: mitigation/measurement/filters.py. *)
From Coq Require Import Reals.
From Verif Require Import LinAlg Base CountsModel CtmpSpec MeasCalModel.
Local Open Scope list_scope.
Local Open Scope nat_scope.

(** * What is handed to [scipy.optimize.minimize] *)
(** Objective, the function of the equality constraint and the bounds of the
    entries (filters.py:161-170 and 366-409).  The objective may raise. *)
Record problem := {
  p_fun : list R -> result R;
  p_con : list R -> R;
  p_bounds : list (R * R) }.

(** [sum((raw - w)**2)] *)
Definition sum_sq_diff (raw w : list R) : R :=
  fsum (map (fun ab => ((fst ab - snd ab) * (fst ab - snd ab))%R) (combine raw w)).

(** filters.py:166-168 and 405-408: the constraint and the bounds, one pair for
    every entry of the starting point. *)
Definition lsq_problem (f : list R -> result R) (raw x0 : list R) : problem :=
  let nshots := fsum raw in
  {| p_fun := f;
     p_con := fun x => (nshots - fsum x)%R;
     p_bounds := map (fun _ => (0%R, nshots)) x0 |}.

(** filters.py:164-165 and 403-404: the random vector divided by its sum. *)
Definition start (rand : list R) : list R := map (fun r => (r / fsum rand)%R) rand.

Section Filters.
(** [scipy.optimize.minimize(..., method='SLSQP').x] for the problem and the
    starting point: external. *)
Variable minimize : problem -> list R -> list R.
(** [scipy.linalg.pinv]: external. *)
Variable pinv : (nat -> nat -> R) -> nat -> nat -> R.

(** * MeasurementFilter *)
(** filters.py:158-171: one block of data; [rand] is [np.random.rand(n)]. *)
Definition mf_fun (n : nat) (cal : nat -> nat -> R) (raw : list R) : list R -> result R :=
  fun x => Ok (sum_sq_diff raw (dot n cal x)).

Definition mf_lsq (n : nat) (rand : list R) (cal : nat -> nat -> R) (raw : list R) : list R :=
  let x0 := start rand in minimize (lsq_problem (mf_fun n cal raw) raw x0) x0.

(** filters.py:104-115, 150-178, 184-191: a counts dictionary. *)
Definition mf_dict_lsq (labels : list pystr) (cal : nat -> nat -> R) (rand : list R)
  (d : dict pystr R) : result (dict pystr R) :=
  mf_apply_dict pinv (mf_lsq (length labels) rand) labels cal d LeastSquares.

(** filters.py:117-134, 150-182, 193-196: a list of counts.  Every block draws
    a starting point of its own: [rands]. *)
Definition mf_list_lsq (labels : list pystr) (cal : nat -> nat -> R) (rands : nat -> list R)
  (data : list R) : result (list R) :=
  let n := length labels in
  if n =? 0 then Err ZeroDivisionError
  else if length data =? n then Ok (mf_lsq n (rands 0) cal data)
  else if length data mod n =? 0 then
    let blocks := chunks n (length data / n) data in
    Ok (concat (map (fun ib => mf_lsq n (rands (fst ib)) cal (snd ib)) (combine (seq 0 (length blocks)) blocks)))
  else Err QiskitError.

(** * TensoredFilter *)
(** filters.py:366-401: the objective, skipping the entries of [x] that are
    zero and leaving the product when it becomes zero. *)
Definition tf_fun (sizes : list nat) (indices : list (dict pystr nat)) (cals : list (nat -> nat -> R))
  (n : nat) (raw : list R) : list R -> result R :=
  fun x =>
  do w <- mapM (fun s1 =>
       foldM (fun acc sx => if eqb (snd sx) f0 then Ok acc
                else do p <- group_product sizes indices cals s1 (fst sx) n f1;
                     Ok (fadd acc (fmul p (snd sx))))
             (combine (count_keys n) x) f0) (count_keys n);
  Ok (sum_sq_diff raw w).

(** filters.py:282-430 [TensoredFilter.apply] with a counts dictionary and
    method ['least_squares'].  The minimiser evaluates the objective at the
    starting point first, and an exception of it is raised.
    Simplification: the starting point is not clipped to the bounds before that
    first evaluation. *)
Definition tf_dict_lsq (labels : list (list pystr)) (cals : list (nat -> nat -> R)) (rand : list R)
  (d : dict pystr R) : result (dict pystr R) :=
  let sizes := map (fun l => Nat.log2 (length l)) labels in
  let n := fold_right Nat.add 0 sizes in
  do raw <- raw_vector n d;
  let x0 := start rand in
  let f := tf_fun sizes (map indices_of labels) cals n raw in
  do _ <- f x0;
  let out := minimize (lsq_problem f raw x0) x0 in
  Ok (fold_left (fun acc sx => if eqb (snd sx) f0 then acc else dset acc (fst sx) (snd sx))
                (combine (count_keys n) out) []).

End Filters.

(** * The Result form *)
Section Results.
(** Everything else an experiment holds: name, header, shots, other data. *)
Context {X : Type}.

(** One experiment of a Result, as far as the filters see it: its counts, if
    it has any, and the rest. *)
Record expt := { x_counts : option (dict pystr R); x_rest : X }.

(** [Result.get_counts(index)] on keys that are bit strings: an index out of
    range and an experiment without counts are errors. *)
Definition counts_of (r : list expt) (i : nat) : result (dict pystr R) :=
  match nth_error r i with
  | None => Err QiskitError
  | Some e => match x_counts e with Some c => Ok c | None => Err QiskitError end
  end.

(** [new_result.results[i].data.counts = c] *)
Definition set_counts (r : list expt) (i : nat) (c : dict pystr R) : result (list expt) :=
  match nth_error r i with
  | None => Err IndexError
  | Some e => Ok (firstn i r ++ {| x_counts := Some c; x_rest := x_rest e |} :: skipn (i + 1) r)
  end.

(** filters.py:136-150, 205-209 and 317-332, 432-436 (both filters): correct
    the counts of every experiment by the dictionary form, [apply i] for the
    call made for experiment [i], and put them into a copy of the result.
    Simplification: [parallel_map] is a map in order of the experiments. *)
Definition apply_result (apply : nat -> dict pystr R -> result (dict pystr R)) (r : list expt)
  : result (list expt) :=
  do new <- mapM (fun i => do c <- counts_of r i; do c' <- apply i c; Ok (i, c')) (seq 0 (length r));
  foldM (fun acc ic => set_counts acc (fst ic) (snd ic)) new r.
End Results.
Arguments expt : clear implicits.
