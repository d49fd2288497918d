(** Model of the fits of qiskit/ignis/characterization/fitters.py and of the
    estimates of coherence/fitters.py, hamiltonian/fitters.py and
    gates/fitters.py that are read off them.

    Simplifications.  scipy's curve_fit is a parameter; its result is the list of
    parameters and the diagonal of the covariance matrix.  A parameter list whose
    length does not suit the fit function (TypeError) gives 0.  [qid] is a natural
    number or [None] for -1. *)
From Coq Require Import QArith Reals.
From Verif Require Import Base PyStr CountsModel MeasCalModel CharModel.
Local Open Scope string_scope.
Local Open Scope list_scope.
Local Open Scope nat_scope.

(** [_params] and [_params_err]: for every series, the parameters of the qubits. *)
Record fitted := { g_params : dict pystr (list (list R)); g_errs : dict pystr (list (list R)) }.
(** fitters.py:97-103. *)
Definition no_fit (series : list pystr) (nq : nat) : fitted :=
  let empty := map (fun s => (s, repeat [] nq)) series in {| g_params := empty; g_errs := empty |}.

(** [d[s][q]] and [d[s][q] = v]. *)
Definition get_at {A} (d : dict pystr (list A)) (s : pystr) (q : nat) : result A :=
  match dget d s with None => Err KeyError | Some l => index_e l q end.
Fixpoint list_set {A} (l : list A) (i : nat) (v : A) : list A :=
  match l, i with [], _ => [] | _ :: l', O => v :: l' | a :: l', S i' => a :: list_set l' i' v end.
Definition set_at {A} (d : dict pystr (list A)) (s : pystr) (q : nat) (v : A) : result (dict pystr (list A)) :=
  match dget d s with
  | None => Err KeyError
  | Some l => if q <? length l then Ok (dset d s (list_set l q v)) else Err IndexError
  end.

Section Fit.
(** [X] and [Y] are the types of the numbers on the two axes. *)
Context {X Y : Type} (curve_fit : (R -> list R -> R) -> list X -> list Y -> list R -> list R -> list R * list R -> result (list R * list R)).
Context (fit_fun : R -> list R -> R) (xdata : list X) (defaultp0 : list R) (default_bounds : list R * list R).
(** 319-331: one series and qubit. *)
Definition fit_one (ydata : dict pystr (list (list (Y * R)))) (p0 : list R) (bounds : list R * list R) (st : fitted) (sq : pystr * nat) : result fitted :=
  let (s, q) := sq in
  do pts <- get_at ydata s q;
  do pc <- curve_fit fit_fun xdata (map fst pts) (map snd pts) p0 bounds;
  do ps <- set_at (g_params st) s q (fst pc);
  do es <- set_at (g_errs st) s q (map sqrt (snd pc));
  Ok {| g_params := ps; g_errs := es |}.
(** 288-331 [fit_data]. *)
Definition fit_data (series : list pystr) (nq : nat) (ydata : dict pystr (list (list (Y * R)))) (st : fitted)
  (qid : option nat) (p0 : option (list R)) (bounds : option (list R * list R)) (which : option (list pystr)) : result fitted :=
  let ss := match which with None => series | Some l => l end in
  let qfit := match qid with None => seq 0 nq | Some q => [q] end in
  let b := match bounds with None => default_bounds | Some b => b end in
  let p := match p0 with None => defaultp0 | Some p => p end in
  foldM (fit_one ydata p b) (flat_map (fun s => map (fun q => (s, q)) qfit) ss) st.
End Fit.
Section New.
Context (curve_fit : (R -> list R -> R) -> list Q -> list Q -> list R -> list R -> list R * list R -> result (list R * list R)).
Context (fit_fun : R -> list R -> R) (xdata : list Q) (defaultp0 : list R) (default_bounds : list R * list R).
(** The constructor on results, 104-106, and [add_data] (214-241): data and fit anew. *)
Definition data_and_fit (f : fitter) (st : fitted) : result (dict pystr (list (list (Q * R))) * fitted) :=
  do ys <- calc_data f;
  do st' <- fit_data curve_fit fit_fun xdata defaultp0 default_bounds (f_series f) (f_nq f) ys st None None None None;
  Ok (ys, st').
Definition new_fit (f : fitter) : result (dict pystr (list (list (Q * R))) * fitted) := data_and_fit f (no_fit (f_series f) (f_nq f)).
End New.

(** 178-212 [_get_param], for one qubit and for all. *)
Definition get_param (st : fitted) (ind q : nat) (s : pystr) (err : bool) : result R :=
  do ps <- get_at (if err then g_errs st else g_params st) s q;
  index_e ps ind.
Definition get_params (st : fitted) (nq ind : nat) (s : pystr) (err : bool) : result (list R) := mapM (fun q => get_param st ind q s err) (seq 0 nq).
(** 588-634: [time] and [time_err] of the coherence fitters, whose time index is 1. *)
Definition fit_time (st : fitted) (q : nat) (s : pystr) : result R := get_param st 1 q s false.
Definition fit_time_err (st : fitted) (q : nat) (s : pystr) : result R := get_param st 1 q s true.
(** hamiltonian/fitters.py:55-70 [ZZ_rate], of one qubit. *)
Definition zz_rate (st : fitted) (q : nat) : result R :=
  do f0 <- get_param st 1 q (str "0") false;
  do f1 <- get_param st 1 q (str "1") false;
  Ok (f1 - f0)%R.

(** The fit functions as functions of a list of parameters. *)
Definition exp_fun (x : R) (ps : list R) : R := match ps with [a; tau; c] => exp_fit x a tau c | _ => 0%R end.
Definition osc_fun (x : R) (ps : list R) : R := match ps with [a; tau; f; phi; c] => osc_fit x a tau f phi c | _ => 0%R end.
Definition osc_nodecay_fun (x : R) (ps : list R) : R := match ps with [a; f; phi; c] => osc_nodecay_fit x a f phi c | _ => 0%R end.
