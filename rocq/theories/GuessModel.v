(** Model of the initial guesses that the characterization fitters offer, and of
    the conversion of times to numbers of gates:
    [T2StarFitter.guess_params] (characterization/coherence/fitters.py),
    [RabiFitter.guess_params] and [DragFitter.guess_params]
    (characterization/calibrations/fitters.py), [AmpCalFitter.guess_params]
    (characterization/gates/fitters.py) and [time_to_ngates]
    (characterization/characterization_utils.py).  Numbers are exact.  The data of
    the chosen qubit, [self.ydata['0'][qind]['mean']], are the argument [ys]; the
    swept values, [self.xdata], are [xs].  Where numpy would divide by zero and go
    on with infinities, a ZeroDivisionError is raised here. *)
From Coq Require Import Reals.
From Coquelicot Require Import Coquelicot.
From Verif Require Import LinAlg Base EntSpec EntFidModel.
Local Open Scope list_scope. Local Open Scope nat_scope.

(** [np.argmax] (numpy): the first of the greatest; [np.max]; both raise on an
    empty array. *)
Fixpoint max_from (l : list R) (i bi : nat) (b : R) : nat * R :=
  match l with
  | [] => (bi, b)
  | x :: l' => if Rlt_dec b x then max_from l' (S i) i x else max_from l' (S i) bi b
  end.
Definition np_argmax (l : list R) : result nat := match l with [] => Err ValueError | x :: l' => Ok (fst (max_from l' 1 0 x)) end.
Definition np_max (l : list R) : result R := match l with [] => Err ValueError | x :: l' => Ok (snd (max_from l' 1 0 x)) end.
(** [np.argmin] and [np.min]. *)
Definition np_argmin (l : list R) : result nat := np_argmax (map Ropp l).
Definition np_min (l : list R) : result R := do m <- np_max (map Ropp l); Ok (- m)%R.
(** [np.mean] of a non-empty array. *)
Definition np_mean (l : list R) : R := (fold_right Rplus 0 l / INR (length l))%R.
(** [np.angle] (numpy): the argument, in (-pi, pi], and 0 for 0. *)
Definition np_angle (z : C) : R :=
  if Req_EM_T (Cmod z) 0 then 0%R else
  if Rle_dec 0 (Im z) then acos (Re z / Cmod z) else (- acos (Re z / Cmod z))%R.
(** [np.fft.fftfreq(n, d)] (numpy): 0, 1, ..., (n-1)//2, -(n//2), ..., -1, each
    divided by [n * d]. *)
Definition fftfreq (n : nat) (d : R) : result (list R) :=
  if Req_EM_T d 0 then Err ZeroDivisionError else
  Ok (map (fun i => (INR i / (INR n * d))%R) (seq 0 ((n - 1) / 2 + 1)) ++
      map (fun i => (- INR (n / 2 - i) / (INR n * d))%R) (seq 0 (n / 2))).

(** coherence/fitters.py:181-207 [T2StarFitter.guess_params]: amplitude, decay
    time, frequency, phase and offset.  The constant term of the Fourier transform
    is left out of the search. *)
Definition t2star_guess (xs ys : list R) : result (list R) :=
  do a_val <- np_max ys;
  let c := np_mean ys in
  do fft_data <- np_fft ys;
  do x1 <- index_e xs 1;
  do x0 <- index_e xs 0;
  do fft_freqs <- fftfreq (length xs) (x1 - x0);
  do main_freq <- np_argmax (tl (map Cmod fft_data));
  do f_guess <- index_e (tl fft_freqs) main_freq;
  do x_last <- index_e xs (length xs - 1);
  do z <- index_e (tl fft_data) main_freq;
  Ok [a_val; (x_last * 10)%R; f_guess; np_angle z; c].

(** calibrations/fitters.py:51-76 [RabiFitter.guess_params]: amplitude, frequency,
    phase and offset.  The search includes the constant term. *)
Definition rabi_guess (xs ys : list R) : result (list R) :=
  do a_out <- np_max ys;
  let c_out := np_mean ys in
  do fft_data <- np_fft ys;
  do x1 <- index_e xs 1;
  do x0 <- index_e xs 0;
  do fft_freqs <- fftfreq (length xs) (x1 - x0);
  do main_freq <- np_argmax (map Cmod fft_data);
  do f_guess <- index_e fft_freqs main_freq;
  do z <- index_e fft_data main_freq;
  Ok [a_out; f_guess; np_angle z; c_out].

(** calibrations/fitters.py:166-193 [DragFitter.guess_params]: curvature, place and
    value of the extremum. *)
Definition drag_guess (xs ys : list R) : result (list R) :=
  do hi <- np_max ys;
  do lo <- np_min ys;
  let a := (hi - lo)%R in
  do i1 <- np_argmax ys;
  do i2 <- np_argmin ys;
  do x1 <- index_e xs i1;
  do x2 <- index_e xs i2;
  do axc <- (if Rlt_dec (Rabs x1) (Rabs x2)
             then do c <- index_e ys i1; Ok ((- a)%R, x1, c)
             else do c <- index_e ys i2; Ok (a, x2, c));
  let '(a, x0, c) := axc in
  do xm <- np_max xs;
  if Req_EM_T xm 0 then Err ZeroDivisionError else
  Ok [(a / xm ^ 2)%R; x0; c].

(** gates/fitters.py:51-67 [AmpCalFitter.guess_params]: angle error and offset. *)
Definition ampcal_guess (ys : list R) : result (list R) :=
  do y0 <- index_e ys 0;
  do y1 <- index_e ys 1;
  Ok [((y0 - y1) / 2)%R; y0].

(** [np.round] (numpy): the nearest integer, the even one of two. *)
Definition np_round (x : R) : Z :=
  let k := Int_part x in
  let r := (x - IZR k)%R in
  if Rlt_dec r (/ 2) then k else if Rlt_dec (/ 2) r then (k + 1)%Z else if Z.even k then k else (k + 1)%Z.
(** characterization_utils.py:49-62 [time_to_ngates]. *)
Definition time_to_ngates (times : list R) (gate_time : R) : result (list Z) :=
  if Req_EM_T gate_time 0 then Err ZeroDivisionError else Ok (map (fun t => np_round (t / gate_time)) times).
