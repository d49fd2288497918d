(** Model of the fidelity estimates of
    qiskit/ignis/verification/entanglement/analysis.py: [Plotter.get_fourier_info]
    and [rho_to_fidelity].  Numbers are exact.  Matplotlib is taken to be
    installed; what is drawn and printed is left out, except that drawing
    series of different lengths raises. *)
From Coq Require Import Reals.
From Coquelicot Require Import Coquelicot.
From Verif Require Import LinAlg Base TomoModel EntSpec.
Local Open Scope string_scope. Local Open Scope list_scope. Local Open Scope nat_scope.

(** [np.fft.fft] (numpy): entry [k] is the sum over [j] of
    [y[j] * exp(-2 pi i j k / len(y))]; an empty series raises. *)
Definition np_fft (ys : list R) : result (list C) :=
  if length ys =? 0 then Err ValueError else
  Ok (map (fun k => fsum (map (fun jy => fmul (RtoC (snd jy)) (expi (- (2 * PI * INR (fst jy) * INR k / INR (length ys)))%R)) (combine (seq 0 (length ys)) ys))) (seq 0 (length ys))).
(** [fft[n]] *)
Definition item (l : list C) (n : nat) : result C := match nth_error l n with Some z => Ok z | None => Err IndexError end.

(** analysis.py:198-201: what is returned for 'mqc', and 212 for 'po'. *)
Record mqc_info := { m_I0 : C; m_In : C; m_I0_m : C; m_In_m : C; m_LB : R; m_UB : R; m_LB_m : R; m_UB_m : R; m_F : R; m_F_m : R }.
Record po_info := { p_In : C; p_In_m : C; p_F : R; p_F_m : R }.
Inductive fourier_info := MqcInfo (_ : mqc_info) | PoInfo (_ : po_info) | NoInfo.

(** analysis.py:130-214 [get_fourier_info].  The plain [Exception]s of lines
    158 and 161 are [RuntimeError] here.  [1/norm] raises for an empty [x]. *)
Definition get_fourier_info (label : pystr) (qn : nat) (x y : list R) (y_m : option (list R)) (p_dict : option (list (pystr * R))) : result fourier_info :=
  let norm := length x in
  match y_m with None => Err RuntimeError | Some y_m =>
  match p_dict with None => Err RuntimeError | Some p_dict =>
  do P0 <- dget_e p_dict (str "P0");
  do P1 <- dget_e p_dict (str "P1");
  do P0_m <- dget_e p_dict (str "P0_m");
  do P1_m <- dget_e p_dict (str "P1_m");
  if norm =? 0 then Err ZeroDivisionError else
  do fft <- np_fft y;
  let fft := map (fmul (RtoC (1 / INR norm))) fft in
  do fft_m <- np_fft y_m;
  let fft_m := map (fmul (RtoC (1 / INR norm))) fft_m in
  if negb (length y =? norm) || negb (length y_m =? norm) then Err ValueError else
  if eqb label (str "mqc") then
    do I0 <- item fft 0;
    do In <- item fft qn;
    do I0_m <- item fft_m 0;
    do In_m <- item fft_m qn;
    let LB := (2 * sqrt (Cmod In))%R in
    let UB := (sqrt (Cmod In) + sqrt (Cmod I0 / 2))%R in
    let LB_m := (2 * sqrt (Cmod In_m))%R in
    let UB_m := (sqrt (Cmod In_m) + sqrt (Cmod I0_m / 2))%R in
    do In' <- item fft qn;
    do In_m' <- item fft_m qn;
    let F := ((/ 2) * (P0_m + P1_m) + sqrt (Cmod In'))%R in
    let F_m := ((/ 2) * (P0_m + P1_m) + sqrt (Cmod In_m'))%R in
    Ok (MqcInfo {| m_I0 := I0; m_In := In; m_I0_m := I0_m; m_In_m := In_m; m_LB := LB; m_UB := UB; m_LB_m := LB_m; m_UB_m := UB_m; m_F := F; m_F_m := F_m |})
  else if eqb label (str "po") then
    do In <- item fft qn;
    do In_m <- item fft_m qn;
    let C_ := (2 * Cmod In)%R in
    let C_m := (2 * Cmod In_m)%R in
    Ok (PoInfo {| p_In := In; p_In_m := In_m; p_F := ((/ 2) * (P0 + P1 + C_))%R; p_F_m := ((/ 2) * (P0_m + P1_m + C_m))%R |})
  else Ok NoInfo
  end end.

(** analysis.py:217-226 [rho_to_fidelity] *)
Definition rho_to_fidelity (rho : cmat) : result R :=
  if (m_rows rho =? 0) || (m_cols rho =? 0) then Err IndexError else
  let a := m_at rho 0 0 in
  let b := m_at rho (m_rows rho - 1) (m_cols rho - 1) in
  let c := RtoC (Cmod (m_at rho 0 (m_cols rho - 1))) in
  let d := RtoC (Cmod (m_at rho (m_rows rho - 1) 0)) in
  Ok (Cmod (fdiv (fadd (fadd (fadd a b) c) d) (RtoC 2))).
