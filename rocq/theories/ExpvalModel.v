(** Model of [qiskit/ignis/mitigation/expval]: [utils.py], [fitter.py],
    [circuits.py], [base_meas_mitigator.py] (without plotting),
    [tensored_mitigator.py] and [complete_mitigator.py].  The CTMP method is
    modelled in [CtmpModel.v].

    Simplifications.  Floating-point numbers are exact rationals ([Qc]).  A
    result that numpy leaves as [nan] or [inf] is [None].  A standard deviation
    is represented by its square, [sqrt] being irrational.  A Boolean array
    index is a bit: [true] is 1.  The caches of computed matrices only avoid
    recomputation and are omitted.  Log messages are omitted. *)
From Coq Require Import QArith QArith.Qcanon Qround.
From Verif Require Import LinAlg Base CountsModel BasisSem.
Open Scope nat_scope.

(** An integer as a rational number. *)
Definition qz (z : Z) : Qc := Q2Qc (inject_Z z).

Definition Qc_ltb (x y : Qc) : bool := if Qclt_le_dec x y then true else false.
Definition Qc_abs (x : Qc) : Qc := if Qclt_le_dec x 0%Qc then (- x)%Qc else x.
Definition Qc_max (x y : Qc) : Qc := if Qclt_le_dec x y then y else x.

(** [int(key, 2)] on a string of binary digits; anything else raises
    [ValueError].  (Python also accepts underscores, signs and surrounding
    blanks, which never occur in counts.) *)
Definition int2 (s : pystr) : result nat :=
  match s with
  | [] => Err ValueError
  | _ => foldM (fun acc c => if eqb c ch1 then Ok (2 * acc + 1)
                             else if eqb c ch0 then Ok (2 * acc) else Err ValueError) s 0
  end.

(** [key.count('1')]. *)
Definition ones (s : pystr) : nat := length (filter (fun c => eqb c ch1) s).

(** [(-1) ** (key.count('1') % 2)]. *)
Definition sign_of (k : nat) : Qc := if Nat.even k then 1%Qc else Qcopp 1.

(** [a.dot(b)] of two vectors. *)
Definition dotp (a b : list Qc) : result Qc :=
  if length a =? length b then Ok (fsum (map (fun xy => (fst xy * snd xy)%Qc) (combine a b)))
  else Err ValueError.

(** * utils.py *)

(** utils.py:228-254 [_expval_with_stddev].  [probs = None] stands for a vector
    of [nan]: the expectation value is then [nan] and, as [nan > 0] is false,
    the standard deviation is 0.  When there are no outcomes at all, [0 / 0] is
    [nan] in numpy and 0 here; both give the standard deviation 0. *)
Definition expval_with_stddev (coeffs : list Qc) (probs : option (list Qc)) (shots : Z)
  : result (option Qc * Qc) :=
  match probs with
  | None => Ok (None, 0%Qc)
  | Some p =>
      do expval <- dotp coeffs p;
      do sq_expval <- dotp (map (fun c => (c * c)%Qc) coeffs) p;
      let variance := ((sq_expval - expval * expval) / qz shots)%Qc in
      Ok (Some expval, if Qc_ltb 0 variance then variance else 0%Qc)
  end.

(** [values / shots]: every element is [nan] (or infinite) when [shots] is 0. *)
Definition normalise (values : list Z) (shots : Z) : option (list Qc) :=
  match values with
  | [] => Some []
  | _ => if (shots =? 0)%Z then None else Some (map (fun v => (qz v / qz shots)%Qc) values)
  end.

(** utils.py:77-79 and 124-126. *)
Definition marginalised (c : counts) (clbits : option (list nat)) : result counts :=
  match clbits with
  | None => Ok c
  | Some l => marginal_counts c (Some l) false
  end.

(** utils.py:31-98 [expectation_value], without a mitigator. *)
Definition expectation_value (c : counts) (diagonal : option (list Qc)) (clbits : option (list nat))
  : result (option Qc * Qc) :=
  do c <- marginalised c clbits;
  let shots := zsum (dvals c) in
  let probs := normalise (dvals c) shots in
  do coeffs <- match diagonal with
               | None => Ok (map (fun k => sign_of (ones k)) (dkeys c))
               | Some d => do keys <- mapM int2 (dkeys c); mapM (index_e d) keys
               end;
  expval_with_stddev coeffs probs shots.

(** [np.argsort(qubits)]: positions in the order of increasing value (equal
    values, which numpy orders arbitrarily, in order of position). *)
Fixpoint insert_pos (x : nat * nat) (l : list (nat * nat)) : list (nat * nat) :=
  match l with
  | [] => [x]
  | a :: l' => if fst x <=? fst a then x :: a :: l' else a :: insert_pos x l'
  end.
Definition argsort (qs : list nat) : list nat :=
  map snd (fold_right insert_pos [] (combine qs (seq 0 (length qs)))).

(** [sorted(qubits)]. *)
Definition sort_asc (l : list nat) : list nat := rev (sort_desc l).

(** The index in a vector of [2 ** n] elements, viewed as an array of [n]
    two-element axes (axis 0 being the most significant bit), at which
    [reshape(n * [2]).transpose(axes)] finds its element [i]. *)
Definition transpose_index (n : nat) (axes : list nat) (i : nat) : nat :=
  fold_left Nat.add
    (map (fun k => if Nat.testbit i (n - 1 - k) then 2 ^ (n - 1 - nth k axes 0) else 0) (seq 0 n)) 0.

Definition transpose_vec (n : nat) (axes : list nat) (v : list Qc) : list Qc :=
  map (fun i => nth (transpose_index n axes i) v 0%Qc) (seq 0 (2 ^ n)).

(** The vector computed by [counts_probability_vector]: number of qubits,
    elements and shots. *)
Record pvec := { pv_n : nat; pv_vec : option (list Qc); pv_shots : Z }.

Definition set_at {A} (l : list A) (i : nat) (v : A) : list A := firstn i l ++ v :: skipn (S i) l.

(** utils.py:101-147 [counts_probability_vector]. *)
Definition counts_probability_vector (c : counts) (qubits clbits : option (list nat))
  (num_qubits : option nat) : result pvec :=
  do c <- marginalised c clbits;
  do n <- match num_qubits with
          | Some n => Ok n
          | None => match c with [] => Err StopIteration | (k, _) :: _ => Ok (length k) end
          end;
  do vec <- foldM (fun vec kv =>
              do i <- int2 (fst kv);
              if i <? 2 ^ n then Ok (set_at vec i (snd kv)) else Err IndexError)
            c (repeat 0%Z (2 ^ n));
  let shots := zsum (dvals c) in
  let probs := normalise vec shots in
  match qubits with
  | None => Ok {| pv_n := n; pv_vec := probs; pv_shots := shots |}
  | Some qs =>
      if length qs =? n then
        let axes := map (fun i => n - 1 - i) (rev (argsort qs)) in
        Ok {| pv_n := n; pv_vec := option_map (transpose_vec n axes) probs; pv_shots := shots |}
      else Err QiskitError
  end.

(** Calibration data: prepared basis state to counts of measured basis states,
    both as integers. *)
Definition cal_data := list (nat * list (nat * Z)).

(** One entry of the metadata: ['experiment'], ['cal'] and ['method'] (absent
    keys are [None]). *)
Record meta := { mt_experiment : option pystr; mt_cal : pystr; mt_method : option pystr }.

(** data.py:119-141 [combine_counts], on integer keys. *)
Definition combine_int (c1 c2 : list (nat * Z)) : list (nat * Z) :=
  fold_left (fun r kv => match dget r (fst kv) with
                         | Some v => dset r (fst kv) (v + snd kv)%Z
                         | None => dset r (fst kv) (snd kv)
                         end) c2 c1.

(** utils.py:150-178 [calibration_data].  [counts i] is
    [result.get_counts(i).int_outcomes()]. *)
Definition calibration_step (counts : nat -> result (list (nat * Z)))
  (st : cal_data * option nat * option pystr) (im : nat * meta)
  : result (cal_data * option nat * option pystr) :=
  let '(d, nq, method) := st in
  let '(i, m) := im in
  if match mt_experiment m with Some e => eqb e (str "meas_mit") | None => false end then
    let nq := match nq with None => Some (length (mt_cal m)) | Some _ => nq end in
    let method := match method with None => mt_method m | Some _ => method end in
    do key <- int2 (mt_cal m);
    do c <- counts i;
    match dget d key with
    | None => Ok (dset d key c, nq, method)
    | Some c0 => Ok (dset d key (combine_int c0 c), nq, method)
    end
  else Ok st.
Definition calibration_data (counts : nat -> result (list (nat * Z))) (ms : list meta)
  : result (cal_data * option nat * option pystr) :=
  foldM (calibration_step counts) (combine (seq 0 (length ms)) ms) ([], None, None).

(** utils.py:257-264 [_amat_mask]. *)
Definition amat_mask (qubits : list nat) (n : nat) : nat :=
  fold_left (fun mask i => if mem i qubits then mask else mask + 2 ^ i) (seq 0 n) 0.

(** utils.py:267-273 [_amat_index]. *)
Definition amat_index (i : nat) (qubits : list nat) : nat :=
  let size := length qubits in
  fold_left Nat.add
    (map (fun jq => Nat.shiftl (Nat.shiftr (Nat.land i (Nat.shiftl 1 (snd jq))) (snd jq)) (size - 1 - fst jq))
         (combine (seq 0 size) qubits)) 0.

Definition zmat := nat -> nat -> Z.
Definition zmat_add (m : zmat) (i j : nat) (v : Z) : zmat :=
  fun i' j' => if (i' =? i) && (j' =? j) then (m i' j' + v)%Z else m i' j'.

(** utils.py:276-285 [_amat_accum_local]. *)
Definition amat_accum_local (qubits : list nat) (mask : nat) (m : zmat) (cal : nat)
  (c : list (nat * Z)) : zmat :=
  let x_out := Nat.land cal mask in
  let x_ind := amat_index cal qubits in
  fold_left (fun m kv =>
    if x_out =? Nat.land (fst kv) mask then zmat_add m (amat_index (fst kv) qubits) x_ind (snd kv) else m)
    c m.

(** utils.py:288-292 [_amat_accum_full]; an index out of range raises. *)
Definition amat_accum_full (dim : nat) (m : zmat) (cal : nat) (c : list (nat * Z)) : result zmat :=
  foldM (fun m kv => if (fst kv <? dim) && (cal <? dim) then Ok (zmat_add m (fst kv) cal (snd kv))
                     else Err IndexError) c m.

Definition qmat := nat -> nat -> Qc.

(** utils.py:181-225 [assignment_matrix]; the result with its dimension. *)
Definition assignment_matrix (data : cal_data) (num_qubits : nat) (qubits : option (list nat))
  : result (nat * qmat) :=
  let zero : zmat := fun _ _ => 0%Z in
  do da <- match qubits with
           | Some qs =>
               let mask := amat_mask qs num_qubits in
               Ok (2 ^ length qs,
                   fold_left (fun m cc => amat_accum_local qs mask m (fst cc) (snd cc)) data zero)
           | None =>
               let dim := 2 ^ num_qubits in
               do m <- foldM (fun m cc => amat_accum_full dim m (fst cc) (snd cc)) data zero;
               Ok (dim, m)
           end;
  let '(dim, amat) := da in
  let renorm := fun x => zsum (map (fun y => amat y x) (seq 0 dim)) in
  if existsb (fun x => (renorm x =? 0)%Z) (seq 0 dim) then Err QiskitError
  else Ok (dim, fun y x => (qz (amat y x) / qz (renorm x))%Qc).

(** * base_meas_mitigator.py *)

(** base_meas_mitigator.py [_z_diagonal]. *)
Definition z_diagonal (dim : nat) : list Qc :=
  map (fun i => sign_of (ones (bin_str (N.of_nat i)))) (seq 0 dim).

(** base_meas_mitigator.py [mitigation_overhead], from gamma: [int(ceil(gamma ** 2))]. *)
Definition overhead_of (gamma : Qc) : Z := Qceiling (this (gamma * gamma)%Qc).

(** base_meas_mitigator.py [required_shots], from gamma. *)
Definition shots_for (gamma delta : Qc) : Z := Qceiling (this (qz 4 * (gamma * gamma) / (delta * delta))%Qc).

(** base_meas_mitigator.py [stddev_upper_bound] is [gamma / sqrt(shots)]; here
    its sign and its square. *)
Definition stddev_bound_sq (gamma : Qc) (shots : Z) : Qc := (gamma * gamma / qz shots)%Qc.

(** * tensored_mitigator.py *)

(** A 2x2 matrix, indexed by row and column. *)
Notation mat2 := (bool -> bool -> Qc) (only parsing).

Definition det2 (a : mat2) : Qc := (a false false * a true true - a false true * a true false)%Qc.

(** [np.linalg.inv] of a 2x2 matrix; [None] is [LinAlgError]. *)
Definition inv2 (a : mat2) : option mat2 :=
  if Qc_eqb (det2 a) 0 then None
  else Some (fun i j =>
    match i, j with
    | false, false => a true true / det2 a
    | false, true => - a false true / det2 a
    | true, false => - a true false / det2 a
    | true, true => a false false / det2 a
    end)%Qc.

Record tensored := { tm_amats : list mat2; tm_mats : list mat2; tm_gammas : list (option Qc) }.

Section Tensored.
(** [np.linalg.pinv] of a singular 2x2 matrix. *)
Variable pinv2 : mat2 -> mat2.

(** tensored_mitigator.py:40-65 [__init__].  Division by zero gives an infinite
    gamma. *)
Definition gamma2 (a : mat2) : option Qc :=
  let error0 := a true false in
  let error1 := a false true in
  if Qc_eqb (1 - error0 - error1) 0 then None
  else Some ((1 + Qc_abs (error0 - error1)) / (1 - error0 - error1))%Qc.
Definition mitigation2 (a : mat2) : mat2 := match inv2 a with Some b => b | None => pinv2 a end.
Definition tensored_init (amats : list mat2) : tensored :=
  {| tm_amats := amats; tm_mats := map mitigation2 amats; tm_gammas := map gamma2 amats |}.

(** All lists of [n] bits, in the order of [ravel]. *)
Fixpoint bools (n : nat) : list (list bool) :=
  match n with
  | 0 => [[]]
  | S n' => map (cons false) (bools n') ++ map (cons true) (bools n')
  end.
(** The position of an array element with the given axis indices. *)
Definition bval (l : list bool) : nat := fold_left (fun acc b => 2 * acc + Nat.b2n b) l 0.

(** tensored_mitigator.py:110-116: the call of [np.einsum].  The observable has
    the axis labels [0 .. n-1]; the [k]-th matrix of [reversed(ainvs)],
    transposed, has the labels [n+k] and [k]; the result has the labels
    [n .. 2n-1].  Labels of the result must occur in an argument.  With more
    matrices than axes the surplus labels are summed over. *)
Definition einsum_entry (n : nat) (mats : list mat2) (diag : list Qc) (out : list bool) : Qc :=
  let m := length mats in
  fsum (map (fun xs =>
    fsum (map (fun zs =>
      let lab := fun k => nth k (xs ++ out ++ zs) false in
      (nth (bval xs) diag 0 *
       fprod (map (fun k => nth k (rev mats) (fun _ _ => 0) (lab k) (lab (n + k)%nat)) (seq 0 m)))%Qc)
      (bools (m - n)))) (bools n)).
Definition einsum (n : nat) (mats : list mat2) (diag : list Qc) : result (list Qc) :=
  if length diag =? 2 ^ n then
    if length mats <? n then Err ValueError
    else Ok (map (einsum_entry n mats diag) (bools n))
  else Err ValueError.

(** tensored_mitigator.py:67-118 [expectation_value]. *)
Definition tensored_expectation (tm : tensored) (c : counts) (diagonal : option (list Qc))
  (qubits clbits : option (list nat)) : result (option Qc * Qc) :=
  do pv <- counts_probability_vector c None clbits None;
  let n := pv_n pv in
  do ainvs <- match qubits with
              | Some qs => mapM (index_e (tm_mats tm)) qs
              | None => Ok (tm_mats tm)
              end;
  let diagonal := match diagonal with Some d => d | None => z_diagonal (2 ^ n) end in
  do coeffs <- einsum n ainvs diagonal;
  expval_with_stddev coeffs (pv_vec pv) (pv_shots pv).

(** [np.kron(a, m)] for a 2x2 matrix [a] and a matrix of dimension [d]. *)
Definition kron2 (a : mat2) (dm : nat * qmat) : nat * qmat :=
  let '(d, m) := dm in
  (2 * d, fun i j => (a (Nat.odd (i / d)) (Nat.odd (j / d)) * m (i mod d) (j mod d))%Qc).
Definition mat_of2 (a : mat2) : nat * qmat := (2, fun i j => a (Nat.odd i) (Nat.odd j)).

(** tensored_mitigator.py:120-164 [mitigation_matrix] and [assignment_matrix]:
    the loop variable is used as an index into [qubits] once more. *)
Definition tensored_matrix (mats : list mat2) (qubits : option (list nat)) : result (nat * qmat) :=
  let qs := match qubits with Some qs => qs | None => seq 0 (length mats) end in
  do q0 <- index_e qs 0;
  do a0 <- index_e mats q0;
  foldM (fun m i => do q <- index_e qs i; do a <- index_e mats q; Ok (kron2 a m))
        (tl qs) (mat_of2 a0).

(** tensored_mitigator.py:166-189 [assignment_fidelity]. *)
Definition tensored_fidelity (tm : tensored) (qubits : option (list nat)) : result Qc :=
  let qs := match qubits with Some qs => qs | None => seq 0 (length (tm_amats tm)) end in
  foldM (fun fid i => do a <- index_e (tm_amats tm) i;
                      Ok (fid * ((a false false + a true true) / qz 2))%Qc) qs 1%Qc.

(** tensored_mitigator.py:191-197 [_compute_gamma]. *)
Definition tensored_gamma (tm : tensored) (qubits : option (list nat)) : result (option Qc) :=
  do gs <- match qubits with
           | Some qs => mapM (index_e (tm_gammas tm)) qs
           | None => Ok (tm_gammas tm)
           end;
  Ok (fold_left (fun acc g => match acc, g with Some x, Some y => Some (x * y)%Qc | _, _ => None end)
                gs (Some 1%Qc)).
End Tensored.

(** * complete_mitigator.py *)

Section Complete.
(** [np.linalg.inv] ([None] is [LinAlgError]) and [np.linalg.pinv]. *)
Variable inv : nat -> qmat -> option qmat.
Variable pinv : nat -> qmat -> qmat.

(** The mitigator: number of qubits and assignment matrix. *)
Record complete := { cm_n : nat; cm_amat : qmat }.

(** complete_mitigator.py:191-196 [_keep_indexes]. *)
Definition keep_indexes (qubits : list nat) : list nat :=
  fold_left (fun idx i => idx ++ map (fun x => x + 2 ^ i) idx) (sort_asc qubits) [0].

(** The index formed by the bits of [i] at the positions [rem], the first of
    them least significant. *)
Fixpoint gather (rem : list nat) (i : nat) : nat :=
  match rem with
  | [] => 0
  | q :: rem' => Nat.b2n (Nat.testbit i q) + 2 * gather rem' i
  end.

(** [np.reshape(col, n * [2]).sum(axis=axis).reshape([2 ** k])], where [axis]
    are the axes of the qubits outside [rem] and [rem] is increasing. *)
Definition sum_axes (n : nat) (rem : list nat) (col : nat -> Qc) (r : nat) : Qc :=
  fsum (map (fun i => if gather rem i =? r then col i else 0%Qc) (seq 0 (2 ^ n))).

(** complete_mitigator.py:156-189 [assignment_matrix]. *)
Definition complete_assignment (cm : complete) (qubits : option (list nat)) : result (nat * qmat) :=
  match qubits with
  | None => Ok (2 ^ cm_n cm, cm_amat cm)
  | Some qs =>
      let n := cm_n cm in
      let rem := filter (fun q => mem q qs) (seq 0 n) in
      let keep := keep_indexes qs in
      if forallb (fun i => i <? 2 ^ n) keep then
        if length rem =? length qs then
          Ok (2 ^ length qs,
              fun r i => sum_axes n rem (fun y => cm_amat cm y (nth i keep 0)) r)
        else Err ValueError
      else Err IndexError
  end.

(** complete_mitigator.py:110-140 [mitigation_matrix]. *)
Definition complete_mitigation (cm : complete) (qubits : option (list nat)) : result (nat * qmat) :=
  let qs := match qubits with None => seq 0 (cm_n cm) | Some qs => sort_asc qs end in
  do dm <- complete_assignment cm (Some qs);
  let '(d, m) := dm in
  Ok (d, match inv d m with Some b => b | None => pinv d m end).

(** complete_mitigator.py:52-108 [expectation_value]. *)
Definition complete_expectation (cm : complete) (c : counts) (diagonal : option (list Qc))
  (qubits clbits : option (list nat)) : result (option Qc * Qc) :=
  do pv <- counts_probability_vector c qubits clbits None;
  let n := pv_n pv in
  let qs := match qubits with Some qs => qs | None => seq 0 n end in
  if length qs =? n then
    do dm <- complete_mitigation cm (Some qs);
    let '(d, m) := dm in
    let diagonal := match diagonal with Some x => x | None => z_diagonal (2 ^ n) end in
    do coeffs <- mapM (fun j => dotp (map (fun i => m i j) (seq 0 d)) diagonal) (seq 0 d);
    expval_with_stddev coeffs (pv_vec pv) (pv_shots pv)
  else Err QiskitError.

(** complete_mitigator.py:198-201 [_compute_gamma]. *)
Definition complete_gamma (cm : complete) (qubits : option (list nat)) : result Qc :=
  do dm <- complete_mitigation cm qubits;
  let '(d, m) := dm in
  let col := fun j => fsum (map (fun i => Qc_abs (m i j)) (seq 0 d)) in
  Ok (fold_left Qc_max (map col (seq 1 (d - 1))) (col 0)).
End Complete.

(** * circuits.py *)

(** circuits.py:139-162 [_method_labels]. *)
Definition method_labels (n : nat) (method : pystr) : result (list pystr) :=
  if eqb method (str "tensored") then Ok [repeat ch0 n; repeat ch1 n]
  else if eqb method (str "CTMP") || eqb method (str "ctmp") then
    Ok ([repeat ch0 n; repeat ch1 n] ++
        map (fun i => repeat ch0 (n - i - 1) ++ [ch1] ++ repeat ch0 i) (seq 0 n))
  else if eqb method (str "complete") then
    Ok (map (fun i => let bits := bin_str (N.of_nat i) in repeat ch0 (n - length bits) ++ bits)
            (seq 0 (2 ^ n)))
  else Err QiskitError.

(** circuits.py:176-193 [_calibration_circuit]; [circ.x(i)] on a missing qubit
    raises. *)
Definition calibration_circuit (n : nat) (label : pystr) : result circuit :=
  do gates <- mapM (fun iv => if eqb (snd iv) ch1 then
                                if fst iv <? n then Ok [IX (fst iv)] else Err CircuitError
                              else Ok [])
                   (combine (seq 0 (length label)) (rev label));
  Ok {| c_name := str "meas_mit_cal_" ++ label; c_nq := n; c_ncl := n;
        c_body := concat gates ++ [IBarrier] ++ map (fun i => IMeasure i i) (seq 0 n) |}.

(** circuits.py:25-113 and 119-137: circuits and metadata. *)
Definition meas_mitigator_circuits (n : nat) (method : pystr) (labels : option (list pystr))
  : result (list circuit * list meta) :=
  do ls <- match labels with Some l => Ok l | None => method_labels n method end;
  do cs <- mapM (calibration_circuit n) ls;
  Ok (cs, map (fun l => {| mt_experiment := Some (str "meas_mit"); mt_cal := l;
                           mt_method := Some method |}) ls).

(** * fitter.py (the CTMP branch is in [CtmpModel.v]) *)

(** fitter.py:61-89 [fit], methods 'complete' and 'tensored'.  [mat2_of] reads a
    2x2 array. *)
Definition mat2_of (m : qmat) : mat2 := fun i j => m (Nat.b2n i) (Nat.b2n j).
Definition fit_complete (data : cal_data) (n : nat) : result complete :=
  do dm <- assignment_matrix data n None;
  Ok {| cm_n := n; cm_amat := snd dm |}.
Definition fit_tensored (pinv2 : mat2 -> mat2) (data : cal_data) (n : nat) : result tensored :=
  do ms <- mapM (fun q => do dm <- assignment_matrix data n (Some [q]); Ok (mat2_of (snd dm))) (seq 0 n);
  Ok (tensored_init pinv2 ms).
