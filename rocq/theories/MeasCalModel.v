(** Model of [qiskit/ignis/mitigation/measurement]: [circuits.py] (whole file),
    [fitters.py] (everything except plotting) and [filters.py] (everything
    except the [Result] form, which applies the dictionary form to each
    experiment).

    Simplifications.  A register is represented by its size.  Counts are
    integers; calibration matrices hold rationals [Q] in the fitters and
    elements of an arbitrary field in the filters, instead of floats. *)
From Coq Require Import QArith.
From Verif Require Import LinAlg Base CountsModel BasisSem.
Open Scope nat_scope.

(** * circuits.py *)

(** circuits.py:150-156: collect the qubits, rejecting a repeated one. *)
Definition pattern_qubits (pat : list (list nat)) : result (list nat) :=
  foldM (fun seen q => if mem q seen then Err QiskitError else Ok (seen ++ [q])) (concat pat) [].

(** [max(l)]; raises [ValueError] on an empty sequence. *)
Definition max_e (l : list nat) : result nat :=
  match l with [] => Err ValueError | a :: l' => Ok (fold_left Nat.max l' a) end.

(** circuits.py:178-183: the label of a circuit, from the label of the largest
    group. *)
Definition group_label (sizes : list nat) (largest_state : pystr) : pystr :=
  fold_left (fun basis_state list_size => firstn list_size largest_state ++ basis_state) sizes [].

(** [qr[i]] and [cr[i]]: indexing a register out of range raises. *)
Definition reg_index (size i : nat) : result nat :=
  if i <? size then Ok i else Err CircuitError.

(** circuits.py:190-201: X gates preparing [basis_state]. *)
Fixpoint prep_gates (qr : nat) (basis_state : pystr) (end_index : nat) (pat : list (list nat))
  : result (list instr) :=
  match pat with
  | [] => Ok []
  | qubit_list :: pat' =>
      let list_size := length qubit_list in
      let start_index := end_index - list_size in
      let substate := slice basis_state start_index end_index in
      do here <- mapM (fun qind =>
           if eqb (nth (list_size - qind - 1) substate "?"%char) ch1
           then do q <- reg_index qr (nth qind qubit_list 0); Ok [IX q]
           else Ok []) (seq 0 list_size);
      do rest <- prep_gates qr basis_state start_index pat';
      Ok (concat here ++ rest)
  end.

(** circuits.py:205-213: measurements. *)
Fixpoint meas_gates (qr cr nqubits end_index : nat) (pat : list (list nat)) : result (list instr) :=
  match pat with
  | [] => Ok []
  | qubit_list :: pat' =>
      let list_size := length qubit_list in
      do here <- mapM (fun qind =>
           do q <- reg_index qr (nth qind qubit_list 0);
           do c <- reg_index cr (nqubits - (end_index - qind));
           Ok (IMeasure q c)) (seq 0 list_size);
      do rest <- meas_gates qr cr nqubits (end_index - list_size) pat';
      Ok (here ++ rest)
  end.

(** circuits.py:185-215: one calibration circuit. *)
Definition cal_circuit (qr cr : nat) (circlabel : pystr) (pat : list (list nat)) (basis_state : pystr)
  : result circuit :=
  let nqubits := length (concat pat) in
  do g1 <- prep_gates qr basis_state nqubits pat;
  do g2 <- meas_gates qr cr nqubits nqubits pat;
  Ok {| c_name := circlabel ++ str "cal_" ++ basis_state; c_nq := qr; c_ncl := cr;
        c_body := g1 ++ [IBarrier] ++ g2 |}.

(** circuits.py:97-217 [tensored_meas_cal].  [sum(sizes)] and the number of
    qubits in the pattern are the same number, computed here once. *)
Definition tensored_meas_cal (mit_pattern : option (list (list nat))) (qr cr : option nat)
  (circlabel : pystr) : result (list circuit * list (list nat)) :=
  match mit_pattern, qr with
  | None, None => Err QiskitError
  | _, _ =>
      do r <- match mit_pattern with
              | Some pat =>
                  do qs <- pattern_qubits pat;
                  match qr with
                  | Some q => Ok (pat, q)
                  | None => do m <- max_e qs; Ok (pat, m + 1)
                  end
              | None => let n := match qr with Some q => q | None => 0 end in Ok ([seq 0 n], n)
              end;
      let '(pat, q) := r in
      let c := match cr with Some c => c | None => length (concat pat) end in
      let sizes := map (@length nat) pat in
      do m <- max_e sizes;
      do circs <- mapM (cal_circuit q c circlabel pat) (map (group_label sizes) (count_keys m));
      Ok (circs, pat)
  end.

(** circuits.py:25-94 [complete_meas_cal]. *)
Definition complete_meas_cal (qubit_list : option (list nat)) (qr cr : option nat)
  (circlabel : pystr) : result (list circuit * list pystr) :=
  match qubit_list, qr with
  | None, None => Err QiskitError
  | _, _ =>
      do q <- match qr with
              | Some q => Ok q
              | None => do m <- max_e (match qubit_list with Some l => l | None => [] end); Ok (m + 1)
              end;
      let ql := match qubit_list with Some l => l | None => seq 0 q end in
      do r <- tensored_meas_cal (Some [ql]) (Some q) cr circlabel;
      Ok (fst r, count_keys (length ql))
  end.

(** * fitters.py *)

(** One experiment of a [Result]: circuit name and counts. *)
Record experiment := { e_name : pystr; e_counts : counts }.
Definition qresult := list experiment.

(** [result.get_counts(name)] of Qiskit Terra: the first experiment of that
    name. *)
Definition get_counts (r : qresult) (name : pystr) : result counts :=
  match find (fun e => eqb (e_name e) name) r with
  | Some e => Ok (e_counts e)
  | None => Err QiskitError
  end.

(** [\w] restricted to ASCII. *)
Definition is_word (c : ascii) : bool :=
  let n := N_of_ascii c in
  is_digit c || ((65 <=? n)%N && (n <=? 90)%N) || ((97 <=? n)%N && (n <=? 122)%N) || (n =? 95)%N.

Fixpoint starts_with (p s : pystr) : bool :=
  match p, s with
  | [], _ => true
  | a :: p', b :: s' => eqb a b && starts_with p' s'
  | _ :: _, [] => false
  end.

Fixpoint take_while (f : ascii -> bool) (s : pystr) : pystr :=
  match s with
  | [] => []
  | c :: s' => if f c then c :: take_while f s' else []
  end.

(** fitters.py:406-408: [re.search('(?<=' + circlabel + 'cal_)\\w+', name)],
    with the circuit label taken literally (no regular-expression operators).
    [before] is the text already passed, last character first. *)
Fixpoint search_label (lookbehind_rev before s : pystr) : option pystr :=
  match s with
  | [] => None
  | c :: s' =>
      if starts_with lookbehind_rev before && is_word c
      then Some (take_while is_word s)
      else search_label lookbehind_rev (c :: before) s'
  end.
Definition prepared_state (circlabel name : pystr) : option pystr :=
  search_label (rev (circlabel ++ str "cal_")) [] name.

(** A square matrix of integers under construction. *)
Definition zmat := nat -> nat -> Z.
Definition zmat_add (m : zmat) (i j : nat) (v : Z) : zmat :=
  fun i' j' => if (i' =? i) && (j' =? j) then (m i' j' + v)%Z else m i' j'.

(** [{lab: ind for ind, lab in enumerate(sub_labels)}], fitters.py:279-281;
    filters.py:266-269. *)
Definition indices_of (labels : list pystr) : dict pystr nat :=
  fold_left (fun d li => dset d (fst li) (snd li)) (combine labels (seq 0 (length labels))) [].

(** fitters.py:418-434: add one measured state to the matrix of every group.
    A matrix has [2^size] rows and columns; larger indices raise. *)
Fixpoint accum_groups (sizes : list nat) (indices : list (dict pystr nat)) (mats : list zmat)
  (state measured : pystr) (cnt : Z) (end_index : nat) : result (list zmat) :=
  match sizes, indices, mats with
  | size :: sizes', ind :: indices', m :: mats' =>
      let start_index := end_index - size in
      do j <- dget_e ind (slice state start_index end_index);
      do i <- dget_e ind (slice measured start_index end_index);
      if (i <? 2 ^ size) && (j <? 2 ^ size) then
        do rest <- accum_groups sizes' indices' mats' state measured cnt start_index;
        Ok (zmat_add m i j cnt :: rest)
      else Err IndexError
  | _, _, _ => Ok []
  end.

(** fitters.py:402-434: one experiment. *)
Definition accum_experiment (circlabel : pystr) (sizes : list nat) (indices : list (dict pystr nat))
  (r : qresult) (mats : list zmat) (e : experiment) : result (list zmat) :=
  match prepared_state circlabel (e_name e) with
  | None => Ok mats
  | Some state =>
      do cnts <- get_counts r (e_name e);
      foldM (fun ms kv => accum_groups sizes indices ms state (fst kv) (snd kv)
                            (fold_right Nat.add 0 sizes)) cnts mats
  end.

(** Sum of a column over the [n] rows. *)
Definition zcol_sum (n : nat) (m : zmat) (j : nat) : Z := zsum (map (fun i => m i j) (seq 0 n)).

(** fitters.py:436-442: divide every column by its sum, or leave zeros. *)
Definition normalise (size : nat) (m : zmat) : nat -> nat -> Q :=
  fun i j => let s := zcol_sum (2 ^ size) m j in
    if (s =? 0)%Z then 0%Q else (inject_Z (m i j) / inject_Z s)%Q.

Record fitter := {
  ft_label : pystr;
  ft_sizes : list nat;
  ft_labels : list (list pystr);          (* _substate_labels_list *)
  ft_results : list qresult;              (* _result_list *)
  ft_cal : option (list (nat -> nat -> Q)) (* _cal_matrices *)
}.

(** fitters.py:390-442 [_build_calibration_matrices]. *)
Definition build_matrices (circlabel : pystr) (sizes : list nat) (labels : list (list pystr))
  (results : list qresult) : result (list (nat -> nat -> Q)) :=
  let indices := map indices_of labels in
  do ms <- foldM (fun ms r => foldM (accum_experiment circlabel sizes indices r) r ms)
                 results (map (fun _ => (fun _ _ => 0%Z) : zmat) sizes);
  Ok (map (fun sm => normalise (fst sm) (snd sm)) (combine sizes ms)).

(** fitters.py:308-328 [add_data]. *)
Definition add_data (f : fitter) (new : option (list qresult)) (rebuild : bool) : result fitter :=
  match new with
  | None => Ok f
  | Some rs =>
      let results := ft_results f ++ rs in
      if rebuild then
        do ms <- build_matrices (ft_label f) (ft_sizes f) (ft_labels f) results;
        Ok {| ft_label := ft_label f; ft_sizes := ft_sizes f; ft_labels := ft_labels f;
              ft_results := results; ft_cal := Some ms |}
      else
        Ok {| ft_label := ft_label f; ft_sizes := ft_sizes f; ft_labels := ft_labels f;
              ft_results := results; ft_cal := ft_cal f |}
  end.

(** fitters.py:228-283 [TensoredMeasFitter.__init__]. *)
Definition tensored_fitter (results : option (list qresult)) (mit_pattern : list (list nat))
  (substate_labels : option (list (list pystr))) (circlabel : pystr) : result fitter :=
  let sizes := map (@length nat) mit_pattern in
  do labels <- match substate_labels with
               | None => Ok (map count_keys sizes)
               | Some l => if length sizes =? length l then Ok l else Err ValueError
               end;
  add_data {| ft_label := circlabel; ft_sizes := sizes; ft_labels := labels;
              ft_results := []; ft_cal := None |} results true.

(** fitters.py:43-77 [CompleteMeasFitter.__init__]. *)
Definition complete_fitter (results : option (list qresult)) (state_labels : list pystr)
  (qubit_list : option (list nat)) (circlabel : pystr) : result fitter :=
  do ql <- match qubit_list with
           | Some l => Ok l
           | None => do l0 <- index_e state_labels 0; Ok (seq 0 (length l0))
           end;
  tensored_fitter results [ql] (Some [state_labels]) circlabel.

Definition qsum (l : list Q) : Q := fold_right Qplus 0%Q l.

(** fitters.py:362-374: positions of the given labels among the state labels
    (every position whose label is equal). *)
Definition label_positions (state_labels sub : list pystr) : list nat :=
  flat_map (fun l => map snd (filter (fun li => eqb l (fst li))
                       (combine state_labels (seq 0 (length state_labels))))) sub.

(** fitters.py:330-388 [readout_fidelity]; [0 / 0] raises, and the mean of an
    empty list is not a number (here an error). *)
Definition readout_fidelity (f : fitter) (cal_index : nat) (label_list : option (list (list pystr)))
  : result Q :=
  match ft_cal f with
  | None => Err QiskitError
  | Some ms =>
      do state_labels <- index_e (ft_labels f) cal_index;
      let groups := match label_list with
                    | None => map (fun l => [l]) state_labels
                    | Some g => g
                    end in
      do m <- index_e ms cal_index;
      do fids <- mapM (fun sub =>
           let idx := label_positions state_labels sub in
           match idx with
           | [] => Err ZeroDivisionError
           | _ => Ok (qsum (map (fun i => qsum (map (m i) idx)) idx)
                      / inject_Z (Z.of_nat (length idx)))%Q
           end) groups;
      match fids with
      | [] => Err ValueError
      | _ => Ok (qsum fids / inject_Z (Z.of_nat (length fids)))%Q
      end
  end.

(** fitters.py:117-188 [CompleteMeasFitter.subset_fitter]: new labels and new
    matrix.  The entries are in an arbitrary field. *)
Section Subset.
Context {F : Type} {HF : Fld F}.

(** 143-148: index in [qubit_list] of every requested qubit. *)
Definition sublist_indices (qubit_list sub : list nat) : list nat :=
  flat_map (fun sqb => map snd (filter (fun qi => eqb (fst qi) sqb)
             (combine qubit_list (seq 0 (length qubit_list))))) sub.

Definition fnat (n : nat) : F := fsum (repeat f1 n).

Definition subset_matrix (qubit_list : list nat) (state_labels : list pystr)
  (cal : nat -> nat -> F) (sub : list nat) : result (list pystr * (nat -> nat -> F)) :=
  if forallb (fun q => mem q qubit_list) sub then
    let new_labels := count_keys (length sub) in
    let ind := sublist_indices qubit_list sub in
    (* 154-156 *)
    do reduced <- mapM (fun label => mapM (index_e label) ind) state_labels;
    (* 158-162 *)
    let mapping := map (fun l => map snd (filter (fun li => eqb (fst li) l)
                         (combine reduced (seq 0 (length reduced))))) new_labels in
    (* 172-181 *)
    Ok (new_labels, fun i j =>
      fdiv (fsum (map (fun a => fsum (map (fun b => cal a b) (nth j mapping []))) (nth i mapping [])))
           (fnat (length (nth i mapping []))))
  else Err QiskitError.
End Subset.

(** * filters.py *)
Section Filters.
Context {F : Type} {HF : Fld F}.

Inductive method := PseudoInverse | LeastSquares | OtherMethod.

(** [scipy.linalg.pinv] and the SLSQP minimiser are external; the latter gets
    the matrix and the data vector. *)
Variable pinv : (nat -> nat -> F) -> (nat -> nat -> F).
Variable lsq : (nat -> nat -> F) -> list F -> list F.

Definition dot (n : nat) (m : nat -> nat -> F) (v : list F) : list F :=
  map (fun i => fsum (map (fun k => fmul (m i k) (nth k v f0)) (seq 0 n))) (seq 0 n).

(** filters.py:150-178: correct every block. *)
Definition correct_blocks (n : nat) (cal : nat -> nat -> F) (meth : method) (blocks : list (list F))
  : result (list (list F)) :=
  mapM (fun v => match meth with
                 | PseudoInverse => Ok (dot n (pinv cal) v)
                 | LeastSquares => Ok (lsq cal v)
                 | OtherMethod => Err QiskitError
                 end) blocks.

(** filters.py:104-115, 184-191: dictionary input of [MeasurementFilter.apply]. *)
Definition mf_apply_dict (labels : list pystr) (cal : nat -> nat -> F) (d : dict pystr F)
  (meth : method) : result (dict pystr F) :=
  if forallb (fun k => mem k labels) (dkeys d) then
    let v := map (fun l => match dget d l with Some x => x | None => f0 end) labels in
    do vs <- correct_blocks (length labels) cal meth [v];
    let v' := nth 0 vs [] in
    Ok (fold_left (fun acc lx => if eqb (snd lx) f0 then acc else dset acc (fst lx) (snd lx))
                  (combine labels v') [])
  else Err QiskitError.

(** Consecutive blocks of [n] entries, filters.py:128-131. *)
Fixpoint chunks (n count : nat) (l : list F) : list (list F) :=
  match count with
  | 0 => []
  | S c => firstn n l :: chunks n c (skipn n l)
  end.

(** filters.py:117-134, 180-182, 193-196: list input.  No state label at all
    divides by zero. *)
Definition mf_apply_list (labels : list pystr) (cal : nat -> nat -> F) (data : list F)
  (meth : method) : result (list F) :=
  let n := length labels in
  if n =? 0 then Err ZeroDivisionError
  else if length data =? n then
    do vs <- correct_blocks n cal meth [data]; Ok (nth 0 vs [])
  else if length data mod n =? 0 then
    do vs <- correct_blocks n cal meth (chunks n (length data / n) data); Ok (concat vs)
  else Err QiskitError.

(** [int(state, 2)], restricted to non-empty strings of binary digits. *)
Fixpoint int2_acc (acc : nat) (s : pystr) : result nat :=
  match s with
  | [] => Ok acc
  | c :: s' => if eqb c ch0 then int2_acc (2 * acc) s'
               else if eqb c ch1 then int2_acc (2 * acc + 1) s' else Err ValueError
  end.
Definition int2 (s : pystr) : result nat :=
  match s with [] => Err ValueError | _ => int2_acc 0 s end.

(** filters.py:343-363: product of one entry of every pseudo-inverse, leaving
    the loop when it becomes zero. *)
Fixpoint group_product (sizes : list nat) (indices : list (dict pystr nat))
  (mats : list (nat -> nat -> F)) (s1 s2 : pystr) (end_index : nat) (product : F) : result F :=
  match sizes, indices, mats with
  | size :: sizes', ind :: indices', m :: mats' =>
      let start_index := end_index - size in
      do i1 <- dget_e ind (slice s1 start_index end_index);
      do i2 <- dget_e ind (slice s2 start_index end_index);
      let product := fmul product (m i1 i2) in
      if eqb product f0 then Ok product
      else group_product sizes' indices' mats' s1 s2 start_index product
  | _, _, _ => Ok product
  end.

(** filters.py:308-314: the counts as a vector of [2^n] entries. *)
Definition raw_vector (n : nat) (d : dict pystr F) : result (list F) :=
  foldM (fun v kv => do i <- int2 (fst kv);
                     if i <? 2 ^ n
                     then Ok (firstn i v ++ snd kv :: skipn (i + 1) v)
                     else Err IndexError)
        d (repeat f0 (2 ^ n)).

(** filters.py:282-430 [TensoredFilter.apply] with a counts dictionary and
    method ['pseudo_inverse'].  [_qubit_list_sizes] comes from the label lists
    (filters.py:258-262). *)
Definition tf_apply_pinv (labels : list (list pystr)) (cals : list (nat -> nat -> F))
  (d : dict pystr F) : result (dict pystr F) :=
  let sizes := map (fun l => Nat.log2 (length l)) labels in
  let n := fold_right Nat.add 0 sizes in
  let indices := map indices_of labels in
  let all_states := count_keys n in
  do raw <- raw_vector n d;
  do out <- mapM (fun s1 =>
       foldM (fun acc sx => if eqb (snd sx) f0 then Ok acc
                else do p <- group_product sizes indices (map pinv cals) s1 (fst sx) n f1;
                     Ok (fadd acc (fmul p (snd sx))))
             (combine all_states raw) f0) all_states;
  Ok (fold_left (fun acc sx => if eqb (snd sx) f0 then acc else dset acc (fst sx) (snd sx))
                (combine all_states out) []).
End Filters.
