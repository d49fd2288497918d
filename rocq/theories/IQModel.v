(** Model of the fitters of IQ data: [IQFitter] of
    qiskit/ignis/characterization/fitters.py, and [RabiFitter] and [DragFitter] of
    calibrations/fitters.py.

    Simplifications.  Numbers are exact: IQ points are complex numbers, the rest
    real; a zero number of shots gives the total division of R instead of a nan.
    [None] stands for a list of nans.  numpy's broadcasting of lists of length 1 is
    not modelled: lists of different lengths are a ValueError, and so is averaged
    memory that is two-dimensional or the reverse.  The infinite bounds that stand
    for no bounds, the plots, and the guesses of the parameters are not modelled. *)
From Coq Require Import QArith Reals.
From Coquelicot Require Import Coquelicot.
From Verif Require Import Base PyStr CountsModel MeasCalModel CharModel CharEstModel.
Local Open Scope string_scope.
Local Open Scope list_scope.
Local Open Scope nat_scope.

(** One experiment of a result: its name, the number of its memory slots, its
    [meas_return] and [meas_level], the number of shots, and the memory: one point
    for every slot, or for every shot and slot. *)
Inductive iqmem := Averaged (l : list C) | PerShot (l : list (list C)).
Record iqexp := { q_name : pystr; q_slots : nat; q_return : pystr; q_level : nat; q_shots : nat; q_memory : iqmem }.
Definition iqresult : Type := list iqexp.
(** [single_result.get_memory(sname)]: the first experiment with this name. *)
Definition get_memory (r : iqresult) (name : pystr) : result iqmem :=
  match find (fun e => eqb (q_name e) name) r with Some e => Ok (q_memory e) | None => Err QiskitError end.

(** [shots * memory + before]. *)
Definition vadd (l l' : list C) : result (list C) :=
  if length l =? length l' then Ok (map (fun ab => Cplus (fst ab) (snd ab)) (combine l l')) else Err ValueError.
Definition vscale (k : nat) (l : list C) : list C := map (Cmult (RtoC (INR k))) l.
Definition mem_add (k : nat) (m m' : iqmem) : result iqmem :=
  match m, m' with
  | Averaged l, Averaged l' => do s <- vadd (vscale k l) l'; Ok (Averaged s)
  | PerShot l, PerShot l' =>
      if length l =? length l' then (do rows <- mapM (fun ab => vadd (vscale k (fst ab)) (snd ab)) (combine l l'); Ok (PerShot rows)) else Err ValueError
  | _, _ => Err ValueError
  end.
Definition zeros (n : nat) : list C := repeat (RtoC 0) n.

(** fitters.py:409-455: the loop over the experiments; the state is [meas_ret],
    [iq_list] and [shots_list]. *)
Record iqacc := { a_ret : pystr; a_iq : dict pystr iqmem; a_shots : dict pystr nat }.
Definition add_exp (r : iqresult) (st : iqacc) (e : iqexp) : result iqacc :=
  let ret := if eqb (a_ret st) (str "") then (if eqb (q_return e) (str "avg") then str "avg" else str "single") else a_ret st in
  if negb (q_level e =? 1) then Err QiskitError else
  if negb (eqb ret (q_return e)) then Err QiskitError else
  let shots := dset (a_shots st) (q_name e) (q_shots e + match dget (a_shots st) (q_name e) with Some n => n | None => 0 end) in
  do m <- get_memory r (q_name e);
  let before := match dget (a_iq st) (q_name e) with Some m => m | None =>
    if eqb ret (str "avg") then Averaged (zeros (q_slots e)) else PerShot (repeat (zeros (q_slots e)) (q_shots e)) end in
  do s <- mem_add (q_shots e) m before;
  Ok {| a_ret := ret; a_iq := dset (a_iq st) (q_name e) s; a_shots := shots |}.
Definition add_all (rs : list iqresult) : result iqacc :=
  foldM (fun st r => foldM (add_exp r) r st) rs {| a_ret := str ""; a_iq := []; a_shots := [] |}.

(** 457-464: the means.  In the single-shot case [np.sum] is one number, so that
    the mean is not a list: [None]. *)
Definition mean_of (n : nat) (m : iqmem) : option (list C) :=
  match m with Averaged l => Some (map (fun z => Cdiv z (RtoC (INR n))) l) | PerShot _ => None end.
Definition iq_means (st : iqacc) : dict pystr (option (list C)) :=
  map (fun nm => (fst nm, mean_of (match dget (a_shots st) (fst nm) with Some n => n | None => 0 end) (snd nm))) (a_iq st).
(** [iq_list_mean[circname][qind]]; a number has no elements. *)
Definition mean_at (means : dict pystr (option (list C))) (name : pystr) (q : nat) : result C :=
  match dget means name with None => Err KeyError | Some None => Err IndexError | Some (Some l) => index_e l q end.

(** 496-505: the projection on a line through the mean. *)
Definition csum (l : list C) : C := fold_right Cplus (RtoC 0) l.
Definition rsum (l : list R) : R := fold_right Rplus 0%R l.
Definition project (l : list C) : option (list R) :=
  match l with
  | [] => Some []
  | _ =>
      let n := INR (length l) in
      let mean := Cdiv (csum l) (RtoC n) in
      let d := map (fun z => Cminus z mean) l in
      let real_ext := (rsum (map (fun z => Rabs (Re z)) d) / n)%R in
      let imag_ext := (rsum (map (fun z => Rabs (Im z)) d) / n)%R in
      let norm := sqrt (real_ext ^ 2 + imag_ext ^ 2) in
      if Req_EM_T norm 0 then None else
      Some (map (fun z => (real_ext / norm * Re z + imag_ext / norm * Im z)%R) d)
  end.
(** 468-505 [_calc_data]: for every series and qubit, the projected points (or
    nans) and their error bars. *)
Definition iq_data (names : list pystr) (series : list pystr) (nq : nat) (rs : list iqresult) : result (dict pystr (list (option (list R) * list R))) :=
  do st <- add_all rs;
  mapM (fun s =>
    do qs <- mapM (fun q =>
      do l <- mapM (fun name => mean_at (iq_means st) (name ++ s) q) names;
      Ok (project l, map (fun _ => (1 / 10000)%R) l)) (seq 0 nq);
    Ok (s, qs)) series.

(** The fit (288-331).  curve_fit refuses nans with a ValueError, when it comes to
    them; here it is raised before the other fits. *)
Definition finite_points (d : dict pystr (list (option (list R) * list R))) : result (dict pystr (list (list (R * R)))) :=
  mapM (fun sq => do qs <- mapM (fun p => match fst p with None => Err ValueError | Some m => Ok (combine m (snd p)) end) (snd sq); Ok (fst sq, qs)) d.
Section Fit.
Context (curve_fit : (R -> list R -> R) -> list R -> list R -> list R -> list R -> list R * list R -> result (list R * list R)).
(** The names of the circuits: calibrations/fitters.py:40-42 and 151-153. *)
Definition sched_names (base : string) (n : nat) : list pystr := map (fun i => str base ++ dec i ++ str "_") (seq 0 n).
Definition iq_fit (base : string) (f : R -> list R -> R) (rs : list iqresult) (xdata : list R) (nq : nat) (p0 : list R) (bounds : list R * list R) : result fitted :=
  do d <- iq_data (sched_names base (length xdata)) [str "0"] nq rs;
  do pts <- finite_points d;
  fit_data curve_fit f xdata p0 bounds [str "0"] nq pts (no_fit [str "0"] nq) None None None None.
(** fitters.py:366-372. *)
Definition quadratic (x a x0 c : R) : R := (a * (x - x0) ^ 2 + c)%R.
Definition quadratic_fun (x : R) (ps : list R) : R := match ps with [a; x0; c] => quadratic x a x0 c | _ => 0%R end.
(** calibrations/fitters.py:25-49 [RabiFitter] and 136-164 [DragFitter], on results. *)
Definition rabi_fit := iq_fit "rabisched_" osc_nodecay_fun.
Definition drag_fit := iq_fit "dragsched_" quadratic_fun.
End Fit.
(** 78-109 [pi_amplitude] and [pi2_amplitude], of one qubit. *)
Definition pi_amplitude (st : fitted) (nq q : nat) : result R :=
  do l <- get_params st nq 1 (str "0") false;
  do f <- index_e l q;
  Ok (1 / f / 2)%R.
Definition pi2_amplitude (st : fitted) (nq q : nat) : result R := do a <- pi_amplitude st nq q; Ok (a / 2)%R.
(** 195-206 [drag_amplitude]. *)
Definition drag_amplitude (st : fitted) (q : nat) : result R := get_param st 1 q (str "0") false.
