(** Model of the fits of qiskit/ignis/verification/randomized_benchmarking/fitters.py:
    [fit_data] of [RBFitter], [InterleavedRBFitter], [PurityRBFitter] and
    [CNOTDihedralRBFitter].  The data come from RBFitModel.

    scipy's [curve_fit] is a parameter, but its check that the initial values are
    finite and within the bounds (a ValueError) is part of the model.  The initial
    values are numpy floats, which can be infinite or nan; everything after the fit is
    a real number, and a division by a fitted value of zero is outside the model. The
    lengths are Python numbers, so two equal ones are a ZeroDivisionError. *)
From Coq Require Import QArith Qreals Reals.
From Verif Require Import Base PyStr CountsModel MeasCalModel RBSeqModel RBFitModel.
Local Open Scope list_scope.
Local Open Scope nat_scope.

(** Floats. *)
Inductive fl := Fin (x : R) | PInf | NInf | Nan.
Definition is_neg (x : R) : bool := if Rlt_dec x 0 then true else false.
Definition is_zero (x : R) : bool := if Req_EM_T x 0 then true else false.
Definition fdiv (x y : fl) : fl :=
  match x, y with
  | Fin a, Fin b => if is_zero b then (if is_zero a then Nan else if is_neg a then NInf else PInf) else Fin (a / b)
  | Fin _, PInf => Fin 0
  | Fin _, NInf => Fin 0
  | _, _ => Nan
  end.
(** [b ** e] for an exact exponent. *)
Definition integral (e : Q) : bool := (Qden (Qred e) =? 1)%positive.
Definition odd (e : Q) : bool := integral e && Z.odd (Qnum (Qred e)).
Definition fpow (b : fl) (e : Q) : fl :=
  match Qcompare e 0 with
  | Eq => Fin 1
  | c =>
      let up := match c with Gt => true | _ => false end in
      match b with
      | Fin x =>
          if is_zero x then (if up then Fin 0 else PInf) else
          if is_neg x then (if integral e then Fin ((if odd e then -1 else 1) * Rpower (- x) (Q2R e)) else Nan)
          else Fin (Rpower x (Q2R e))
      | PInf => if up then PInf else Fin 0
      | NInf => if up then (if odd e then NInf else PInf) else Fin 0
      | Nan => Nan
      end
  end.
Definition below_one (x : fl) : bool := match x with Fin a => (if Rlt_dec a 1 then true else false) | NInf => true | _ => false end.
(** [a * alpha ** x + b] (256-260), for [alpha] not negative. *)
Definition rpow (a x : R) : R := if Req_EM_T x 0 then 1%R else if Req_EM_T a 0 then 0%R else Rpower a x.
Definition rb_fit_fun (x : R) (ps : list R) : R := match ps with [a; alpha; b] => (a * rpow alpha x + b)%R | _ => 0%R end.
(** [np.std] over the seeds, 340-348. *)
Definition qstd (l : list Q) : R := sqrt (Q2R (qmean (map (fun x => (x - qmean l) * (x - qmean l))%Q l))).
Definition column_std (rows : list (list Q)) : option (list R) :=
  match rows with
  | [_] => None
  | _ => Some (map (fun k => qstd (map (fun row => nth k row 0%Q) rows)) (seq 0 (length (hd [] rows))))
  end.
(** 370-377. *)
Definition sigma_of (std : option (list R)) : option (list R) :=
  match std with None => None | Some l => if existsb is_zero l then None else Some l end.
Definition bounds : list R * list R := ([0; 0; 0], [1; 1; 1])%R.
(** scipy: "x0 is infeasible". *)
Definition feasible (p0 : list fl) : result (list R) :=
  mapM (fun x => match x with Fin a => if Rle_dec 0 a then if Rle_dec a 1 then Ok a else Err ValueError else Err ValueError | _ => Err ValueError end) p0.

Record rbfit := { t_params : list R; t_errs : list R; t_epc : R; t_epc_err : R }.
Definition dim (qubits : list nat) : R := (2 ^ length qubits)%R.
Section Fit.
Context (curve_fit : (R -> list R -> R) -> list R -> list R -> option (list R) -> list R -> list R * list R -> result (list R * list R)).

(** 350-392 [fit_data_pattern]. *)
Definition fit_pattern (f : rbfitter) (i : nat) (guess : list fl) : result rbfit :=
  do lens <- index_e (f_lengths f) i;
  do qubits <- index_e (f_pattern f) i;
  do mean <- index_e (f_mean f) i;
  do raw <- index_e (f_raw f) i;
  do p0 <- feasible guess;
  do pc <- curve_fit rb_fit_fun (map Q2R lens) (map Q2R mean) (sigma_of (column_std raw)) p0 bounds;
  let errs := map sqrt (snd pc) in
  do alpha <- index_e (fst pc) 1;
  do alpha_err <- index_e errs 1;
  let nrb := dim qubits in
  Ok {| t_params := fst pc; t_errs := errs; t_epc := (nrb - 1) / nrb * (1 - alpha); t_epc_err := (nrb - 1) / nrb * alpha_err / alpha |}.
(** 410-432: the guess of the parameters. *)
Definition guess_of (n : nat) (lens mean : list Q) : result (list fl) :=
  let g := (/ 2 ^ n)%R in
  do y0 <- index_e mean 0;
  do y1 <- index_e mean 1;
  do m1 <- index_e lens 1;
  do m0 <- index_e lens 0;
  let dcliff := (m1 - m0)%Q in
  let dy := fdiv (Fin (Q2R y1 - g)) (Fin (Q2R y0 - g)) in
  if Qeq_bool dcliff 0 then Err ZeroDivisionError else
  let alpha_guess := fpow dy (/ dcliff) in
  let g1 := if below_one alpha_guess then alpha_guess else Fin (99 / 100) in
  let g0 := if Rlt_dec g (Q2R y0) then fdiv (Fin (Q2R y0 - g)) (fpow g1 m0) else Fin (95 / 100) in
  Ok [g0; g1; Fin g].
(** 394-432 [fit_data]. *)
Definition fit_data (f : rbfitter) : result (list rbfit) :=
  mapM (fun i =>
    do qubits <- index_e (f_pattern f) i;
    do mean <- index_e (f_mean f) i;
    do lens <- index_e (f_lengths f) i;
    do g <- guess_of (length qubits) lens mean;
    fit_pattern f i g) (seq 0 (length (f_pattern f))).

(** 640-704 [InterleavedRBFitter.fit_data]. *)
Record intfit := { i_alpha : R; i_alpha_err : R; i_alpha_c : R; i_alpha_c_err : R; i_epc_est : R; i_epc_est_err : R; i_sys : R; i_sys_l : R; i_sys_r : R }.
Definition interleaved (nrb alpha alpha_err alpha_c alpha_c_err : R) : intfit :=
  (let epc_est := (nrb - 1) * (1 - alpha_c / alpha) / nrb in
   let sys1 := (nrb - 1) * (Rabs (alpha - alpha_c / alpha) + (1 - alpha)) / nrb in
   let sys2 := 2 * (nrb * nrb - 1) * (1 - alpha) / (alpha * nrb * nrb) + 4 * sqrt (1 - alpha) * sqrt (nrb * nrb - 1) / alpha in
   let sys := Rmin sys1 sys2 in
   let alpha_err_sq := (alpha_err / alpha) * (alpha_err / alpha) in
   let alpha_c_err_sq := (alpha_c_err / alpha_c) * (alpha_c_err / alpha_c) in
   {| i_alpha := alpha; i_alpha_err := alpha_err; i_alpha_c := alpha_c; i_alpha_c_err := alpha_c_err; i_epc_est := epc_est;
      i_epc_est_err := (nrb - 1) / nrb * (alpha_c / alpha) * sqrt (alpha_err_sq + alpha_c_err_sq);
      i_sys := sys; i_sys_l := epc_est - sys; i_sys_r := epc_est + sys |})%R.
Definition second (l : list R) : result R := index_e l 1.
Definition interleaved_fit (fs : rbfitter * rbfitter) : result (list rbfit * list rbfit * list intfit) :=
  do l <- fit_data (fst fs);
  do l' <- fit_data (snd fs);
  do r <- mapM (fun iq =>
    do t <- index_e l (fst iq);
    do t' <- index_e l' (fst iq);
    do alpha <- second (t_params t);
    do alpha_c <- second (t_params t');
    do alpha_err <- second (t_errs t);
    do alpha_c_err <- second (t_errs t');
    Ok (interleaved (dim (snd iq)) alpha alpha_err alpha_c alpha_c_err))
    (combine (seq 0 (length (f_lengths (fst fs)))) (f_pattern (fst fs)));
  Ok (l, l', r).

(** 1063-1102 [PurityRBFitter.fit_data]; the middle parameters are replaced. *)
Record purfit := { u_fit : rbfit; u_pepc : R; u_pepc_err : R }.
Definition set_second (l : list R) (x : R) : list R := match l with a :: _ :: l' => a :: x :: l' | _ => l end.
Definition purity_fit (f : rbfitter) : result (list purfit) :=
  do l <- fit_data f;
  do q0 <- index_e (f_pattern f) 0;
  mapM (fun i =>
    do t <- index_e l i;
    do alpha <- second (t_params t);
    let alpha_pur := sqrt alpha in
    do alpha_err <- second (t_errs t);
    let alpha_pur_err := (alpha_err / (2 * sqrt alpha_pur))%R in
    let nrb := dim q0 in
    Ok {| u_fit := {| t_params := set_second (t_params t) alpha_pur; t_errs := set_second (t_errs t) alpha_pur_err; t_epc := t_epc t; t_epc_err := t_epc_err t |};
          u_pepc := (nrb - 1) / nrb * (1 - alpha_pur); u_pepc_err := (nrb - 1) / nrb * alpha_pur_err / alpha_pur |})
    (seq 0 (Nat.min (length (f_lengths f)) (length (f_pattern f)))).

(** 1301-1357 [CNOTDihedralRBFitter.fit_data]. *)
Record dihfit := { d_alpha : R; d_alpha_err : R; d_epg : R; d_epg_err : R }.
Definition dihedral (nrb z z_err r r_err : R) : dihfit :=
  (let alpha := (z + nrb * r) / (nrb + 1) in
   let alpha_err := sqrt ((z_err / z / (nrb + 1)) ^ 2 + (nrb * r_err / r / (nrb + 1)) ^ 2) in
   {| d_alpha := alpha; d_alpha_err := alpha_err; d_epg := (nrb - 1) * (1 - alpha) / nrb; d_epg_err := (nrb - 1) / nrb * alpha_err / alpha |})%R.
Definition dihedral_fit (fs : rbfitter * rbfitter) : result (list rbfit * list rbfit * list dihfit) :=
  do l <- fit_data (fst fs);
  do l' <- fit_data (snd fs);
  do r <- mapM (fun iq =>
    do t <- index_e l (fst iq);
    do t' <- index_e l' (fst iq);
    do z <- second (t_params t);
    do x <- second (t_params t');
    do z_err <- second (t_errs t);
    do x_err <- second (t_errs t');
    Ok (dihedral (dim (snd iq)) z z_err x x_err))
    (combine (seq 0 (length (f_lengths (fst fs)))) (f_pattern (fst fs)));
  Ok (l, l', r).
End Fit.
