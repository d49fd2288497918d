(** Model of qiskit/ignis/verification/randomized_benchmarking/rb_utils.py:
    errors per Clifford and per gate, coherence limit.  Numbers are reals in
    place of floats; deprecation warnings are not modelled. *)
From Coq Require Import Reals.
From Verif Require Import Base.
Open Scope R_scope.

(** Python's [b ** n].  A negative base is not modelled (Python gives a complex
    number unless the exponent is integral); [Err TypeError] stands for it. *)
Definition pypow (b n : R) : result R :=
  if Rlt_dec 0 b then Ok (Rpower b n)
  else if Req_EM_T b 0 then
    if Req_EM_T n 0 then Ok 1 else if Rlt_dec 0 n then Ok 0 else Err ZeroDivisionError
  else Err TypeError.
(** Division of Python floats. *)
Definition pydiv (x y : R) : result R := if Req_EM_T y 0 then Err ZeroDivisionError else Ok (x / y).

Definition gates := dict pystr R.
(** [d.get(name, 0)]. *)
Definition get0 (d : gates) (name : pystr) : R := match dget d name with Some x => x | None => 0 end.

(** [coherence_limit], rb_utils.py:168-223, for lists of nonzero times.  The
    sums are in the order of the code. *)
Definition nthR (l : list R) (i : nat) : R := nth i l 0.
Definition coherence_limit (nQ : nat) (T1 : list R) (T2_list : option (list R)) (gatelen : R) : result R :=
  let T2 := match T2_list with Some l => l | None => map (fun x => 2 * x) T1 end in
  if negb (length T1 =? nQ)%nat || negb (length T2 =? nQ)%nat then Err ValueError else
  match nQ with
  | 1%nat => Ok (/ 2 * (1 - 2 / 3 * exp (- gatelen / nthR T2 0) - 1 / 3 * exp (- gatelen / nthR T1 0)))
  | 2%nat =>
      let T1factor i := 1 / 15 * exp (- gatelen / nthR T1 i) in
      let T2factor i := 2 / 15 * (exp (- gatelen / nthR T2 i) + exp (- gatelen * (1 / nthR T2 i + 1 / nthR T1 (1 - i)))) in
      let t1 := T1factor 0%nat + T1factor 1%nat + 1 / 15 * exp (- gatelen * (1 / nthR T1 0 + 1 / nthR T1 1)) in
      let t2 := T2factor 0%nat + T2factor 1%nat + 4 / 15 * exp (- gatelen * (1 / nthR T2 0 + 1 / nthR T2 1)) in
      Ok (3 / 4 * (1 - t1 - t2))
  | _ => Err ValueError
  end.

(** [twoQ_clifford_error], rb_utils.py:226-288. *)
Definition sorted2 (d : dict nat gates) : list (nat * gates) :=
  match d with
  | [a; b] => if (fst a <=? fst b)%nat then [a; b] else [b; a]
  | _ => d
  end.
Definition seven (g0 g1 : gates) : list R :=
  [get0 g0 (str "u1"); get0 g0 (str "u2"); get0 g0 (str "u3"); get0 g1 (str "u1"); get0 g1 (str "u2"); get0 g1 (str "u3"); get0 g0 (str "cx")].
Definition acc_gate (gate_qubit : list Z) (gate_err : list R) (s : R * R * R) (p : nat * R) : result (R * R * R) :=
  let '(a0, a1, a2) := s in
  do q <- index_e gate_qubit (fst p);
  do e <- index_e gate_err (fst p);
  if (q =? -1)%Z then do v <- pypow (1 - 4 / 3 * e) (snd p); Ok (a0, a1, a2 * v)
  else do v <- pypow (1 - 2 * e) (snd p);
    if (q =? 0)%Z || (q =? -2)%Z then Ok (a0 * v, a1, a2)
    else if (q =? 1)%Z then Ok (a0, a1 * v, a2) else Err IndexError.
Definition twoQ_clifford_error (ngates : dict nat gates) (gate_qubit : list Z) (gate_err : list R) : result R :=
  match sorted2 ngates with
  | [(_, g0); (_, g1)] =>
      do s <- foldM (acc_gate gate_qubit gate_err) (combine (seq 0 7) (seven g0 g1)) (1, 1, 1);
      let '(a0, a1, a2) := s in
      Ok ((1 - 1 / 5 * (a0 + a1 + 3 * (a0 * a1)) * a2) * 3 / 4)
  | _ => Err QiskitError
  end.

(** [calculate_1q_epg], rb_utils.py:291-372. *)
Definition calculate_1q_epg (gpc : dict nat gates) (epc : R) (qubit : nat) : result gates :=
  match dget gpc qubit with
  | None => Err QiskitError
  | Some row =>
    match dget row (str "u3"), dget row (str "u2") with
    | Some n3, Some n2 =>
        if Rlt_dec 0 (get0 row (str "cx")) then Err QiskitError else
        do e2 <- pydiv epc (n2 + 2 * n3);
        do e3 <- pydiv (2 * epc) (n2 + 2 * n3);
        Ok [(str "u1", 0); (str "u2", e2); (str "u3", e3)]
    | _, _ => Err QiskitError
    end
  end.

(** The loops over the gates, rb_utils.py:473-475, 553-555, 630-632: the product
    of [(1 - c * epg) ** n]. *)
Definition alphas (c : R) (row epgs : gates) : result R :=
  foldM (fun acc p => do v <- pypow (1 - c * snd p) (get0 row (fst p)); Ok (acc * v)) epgs 1.
(** The loops over the two qubits, rb_utils.py:468-475, 626-632. *)
Definition alpha_qubit (gpc : dict nat gates) (p : nat * gates) : result R :=
  match dget gpc (fst p) with None => Err QiskitError | Some row => alphas 2 row (snd p) end.
Definition alpha_1q (gpc : dict nat gates) (pair : list nat) (epgs : list gates) : result (R * R) :=
  match combine pair epgs with
  | [] => Ok (1, 1)
  | [p] => do a <- alpha_qubit gpc p; Ok (a, 1)
  | p :: p' :: _ => do a <- alpha_qubit gpc p; do b <- alpha_qubit gpc p'; Ok (a, b)
  end.

(** [calculate_2q_epg], rb_utils.py:375-486 ([list_epgs_1q=None] is []). *)
Definition calculate_2q_epg (gpc : dict nat gates) (epc : R) (pair : list nat) (epgs : list gates) (name : pystr) : result R :=
  if negb (length pair =? 2)%nat then Err QiskitError else
  do ab <- alpha_1q gpc pair epgs;
  let '(a, b) := ab in
  do c <- pydiv (1 - 4 / 3 * epc) (1 / 5 * (a + b + 3 * a * b));
  do q0 <- index_e pair 0;
  do row <- dget_e gpc q0;
  let n := get0 row name in
  if Rlt_dec 0 n then pydiv (3 / 4 * (1 - c)) n else Err QiskitError.

(** [calculate_1q_epc], rb_utils.py:489-543. *)
Definition calculate_1q_epc (gpc : dict nat gates) (epgs : gates) (qubit : nat) : result R :=
  match dget gpc qubit with
  | None => Err QiskitError
  | Some row => do f <- alphas 1 row epgs; Ok (1 - f)
  end.

(** [calculate_2q_epc], rb_utils.py:546-635. *)
Definition calculate_2q_epc (gpc : dict nat gates) (epg : R) (pair : list nat) (epgs : list gates) (name : pystr) : result R :=
  if negb (length pair =? 2)%nat then Err QiskitError else
  do q0 <- index_e pair 0;
  do row <- dget_e gpc q0;
  let n := get0 row name in
  if Req_EM_T n 0 then Err QiskitError else
  do a2 <- pypow (1 - 4 / 3 * epg) n;
  do ab <- alpha_1q gpc pair epgs;
  let '(a, b) := ab in
  Ok (3 / 4 * (1 - 1 / 5 * (a + b + 3 * a * b) * a2)).
