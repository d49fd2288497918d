(** Model of [qiskit/ignis/mitigation/expval/ctmp_mitigator.py],
    [ctmp_generator_set.py] and [ctmp_fitter.py].

    Simplifications.  Floating-point numbers are exact rationals ([Qc]) except
    where an exponential occurs; those results are reals.  Sparse matrices are
    functions of row and column together with the dimension.  The caches only
    avoid recomputation and are omitted.  [scipy.linalg.logm] is a parameter;
    the random draws are arguments. *)
From Coq Require Import QArith QArith.Qcanon Qreals Reals.
From Verif Require Import LinAlg Base CountsModel ExpvalModel.
Open Scope nat_scope.

(** ctmp_generator_set.py:20: [Tuple[str, str, Tuple[int]]]. *)
Record gen := { g_b : pystr; g_a : pystr; g_q : list nat }.
Definition gen_eqb (g h : gen) : bool := eqb (g_b g) (g_b h) && eqb (g_a g) (g_a h) && eqb (g_q g) (g_q h).
Lemma gen_eqb_ok g h : reflect (g = h) (gen_eqb g h).
Proof.
  destruct g as [b a q], h as [b' a' q']. unfold gen_eqb. cbn [g_b g_a g_q].
  destruct (eqb_spec b b') as [->|Hb]; [|constructor; congruence].
  destruct (eqb_spec a a') as [->|Ha]; [|constructor; congruence].
  destruct (eqb_spec q q') as [->|Hq]; constructor; congruence.
Qed.
Global Instance gen_Eqb : Eqb gen := {| eqb := gen_eqb; eqb_spec := gen_eqb_ok |}.

(** * ctmp_generator_set.py *)

(** [list(combinations(range(n), r=2))]. *)
Definition combs2 (n : nat) : list (nat * nat) :=
  flat_map (fun i => map (fun j => (i, j)) (seq (i + 1) (n - (i + 1)))) (seq 0 n).

(** ctmp_generator_set.py:59-67 [single_qubit_bitstrings]; the length check
    cannot fail. *)
Definition single_qubit_bitstrings (n : nat) : list gen :=
  map (fun i => {| g_b := str "1"; g_a := str "0"; g_q := [i] |}) (seq 0 n)
  ++ map (fun i => {| g_b := str "0"; g_a := str "1"; g_q := [i] |}) (seq 0 n).

(** ctmp_generator_set.py:70-79 [two_qubit_bitstrings_symmetric]. *)
Definition two_qubit_symmetric (n : nat) (pairs : option (list (nat * nat))) : result (list gen) :=
  let pairs := match pairs with Some p => p | None => combs2 n end in
  let sel := filter (fun ij => fst ij <? snd ij) pairs in
  let res := map (fun ij => {| g_b := str "11"; g_a := str "00"; g_q := [fst ij; snd ij] |}) sel
          ++ map (fun ij => {| g_b := str "00"; g_a := str "11"; g_q := [fst ij; snd ij] |}) sel in
  if length res =? n * (n - 1) then Ok res else Err ValueError.

(** ctmp_generator_set.py:82-91 [two_qubit_bitstrings_asymmetric]. *)
Definition two_qubit_asymmetric (n : nat) (pairs : option (list (nat * nat))) : result (list gen) :=
  let pairs := match pairs with Some p => p | None => combs2 n end in
  let res := map (fun ij => {| g_b := str "10"; g_a := str "01"; g_q := [fst ij; snd ij] |}) pairs
          ++ map (fun ij => {| g_b := str "10"; g_a := str "01"; g_q := [snd ij; fst ij] |}) pairs in
  if length res =? n * (n - 1) then Ok res else Err ValueError.

(** ctmp_generator_set.py:23-56 [standard_generator_set]; [n] is an int. *)
Definition standard_generator_set (n : nat) (pairs : option (list (nat * nat))) : result (list gen) :=
  if n =? 0 then Err ValueError else
  let gens := single_qubit_bitstrings n in
  if 1 <? n then
    do s <- two_qubit_symmetric n pairs;
    do a <- two_qubit_asymmetric n pairs;
    let gens := gens ++ s ++ a in
    if length gens =? 2 * (n * n) then Ok gens else Err ValueError
  else Ok gens.

(** * ctmp_mitigator.py *)

(** The mitigator object: number of qubits, generators with their rates. *)
Record ctmp := { ct_n : nat; ct_gens : list (gen * Qc) }.

(** ctmp_mitigator.py:61: the threshold 1e-5. *)
Definition threshold : Qc := qc 1 100000.

(** [max] of a list; [ValueError] if it is empty. *)
Definition max_e (l : list nat) : result nat :=
  match l with [] => Err ValueError | x :: l' => Ok (fold_left Nat.max l' x) end.

(** ctmp_mitigator.py:48-75 [__init__].  A rate [None] is [nan], for which the
    comparison with the threshold is false. *)
Definition ctmp_init (gens : list gen) (rates : list (option Qc)) (num_qubits : option nat) : result ctmp :=
  do n <- match num_qubits with
          | Some n => Ok n
          | None => do ms <- mapM (fun g => max_e (g_q g)) gens; do m <- max_e ms; Ok (1 + m)
          end;
  let kept := flat_map (fun rg => match fst rg with
                                  | Some r => if Qc_ltb threshold r then [(snd rg, r)] else []
                                  | None => [] end) (combine rates gens) in
  Ok {| ct_n := n; ct_gens := kept |}.

(** ctmp_mitigator.py:338-343: [ket_bra_dict[x + y]] is [|x><y|]. *)
Definition bit_of (c : ascii) : result bool :=
  if eqb c ch0 then Ok false else if eqb c ch1 then Ok true else Err KeyError.
Definition ket_bra (x y : ascii) : result (bool -> bool -> Qc) :=
  do i <- bit_of x; do j <- bit_of y;
  Ok (fun r c => if Bool.eqb r i && Bool.eqb c j then 1%Qc else 0%Qc).
Definition eye2 : bool -> bool -> Qc := fun r c => if Bool.eqb r c then 1%Qc else 0%Qc.

(** [sps.kron(res, mat)] with a 2x2 matrix [mat]. *)
Definition kron_r (dm : nat * qmat) (a : bool -> bool -> Qc) : nat * qmat :=
  let '(d, m) := dm in (2 * d, fun i j => (m (i / 2)%nat (j / 2)%nat * a (Nat.odd i) (Nat.odd j))%Qc).

(** ctmp_mitigator.py:315-321 [_tensor_list]. *)
Definition tensor_list (parts : list (bool -> bool -> Qc)) : result (nat * qmat) :=
  match parts with
  | [] => Err IndexError
  | p :: ps => Ok (fold_left kron_r ps (mat_of2 p))
  end.

(** ctmp_mitigator.py:323-360 [_generator_to_coo_matrix]. *)
Definition generator_to_matrix (g : gen) (qubits : list nat) : result qmat :=
  let chars := combine (combine (g_q g) (combine (g_b g) (g_a g))) (g_a g) in
  do mats <- foldM (fun mats qc =>
      let '((q, (cb, ca)), _) := qc in
      match list_index qubits q with
      | None => Err ValueError
      | Some idx =>
          do ba <- ket_bra cb ca; do aa <- ket_bra ca ca;
          Ok (set_at (fst mats) idx ba, set_at (snd mats) idx aa)
      end) chars (repeat eye2 (length qubits), repeat eye2 (length qubits));
  do ba <- tensor_list (rev (fst mats));
  do aa <- tensor_list (rev (snd mats));
  Ok (fun i j => (snd ba i j - snd aa i j)%Qc).

(** The sorted tuple of qubits used as a cache key. *)
Definition the_qubits (ct : ctmp) (qubits : option (list nat)) : list nat :=
  match qubits with None => seq 0 (ct_n ct) | Some qs => sort_asc qs end.

(** ctmp_mitigator.py:163-191 [generator_matrix]. *)
Definition generator_matrix (ct : ctmp) (qubits : option (list nat)) : result qmat :=
  let qs := the_qubits ct qubits in
  foldM (fun m gr =>
    if forallb (fun q => mem q qs) (g_q (fst gr)) then
      do t <- generator_to_matrix (fst gr) qs;
      Ok (fun i j => (m i j + snd gr * t i j)%Qc)
    else Ok m) (ct_gens ct) (fun _ _ => 0%Qc).

(** ctmp_mitigator.py:233-253 [noise_strength]: the largest [-data] among the
    stored (non-zero) diagonal elements; 0 if no element is stored. *)
Definition noise_strength (ct : ctmp) (qubits : option (list nat)) : result Qc :=
  do g <- generator_matrix ct qubits;
  let d := 2 ^ length (the_qubits ct qubits) in
  let stored := filter (fun ij => negb (Qc_eqb (g (fst ij) (snd ij)) 0)) (list_prod (seq 0 d) (seq 0 d)) in
  do gamma <- match stored with
              | [] => Ok 0%Qc
              | _ => match filter (fun ij => fst ij =? snd ij) stored with
                     | [] => Err ValueError
                     | ij :: l => Ok (fold_left (fun acc ij => Qc_max acc (- g (fst ij) (snd ij))%Qc) l (- g (fst ij) (snd ij))%Qc)
                     end
              end;
  if Qc_ltb gamma 0 then Err QiskitError else Ok gamma.

(** ctmp_mitigator.py:295-313 [_sampling_matrix]. *)
Definition sampling_matrix (ct : ctmp) (qubits : option (list nat)) : result qmat :=
  do g <- generator_matrix ct qubits;
  do gamma <- noise_strength ct qubits;
  Ok (fun i j =>
    let e := if i =? j then 1%Qc else 0%Qc in
    if Qc_eqb gamma 0 then e else (e + g i j / gamma)%Qc).

(** The arrays of the CSC format: for every column, rows and values of the
    non-zero elements by increasing row. *)
Definition csc_columns (d : nat) (b : qmat) : list (list (nat * Qc)) :=
  map (fun j => flat_map (fun i => if Qc_eqb (b i j) 0 then [] else [(i, b i j)]) (seq 0 d)) (seq 0 d).

(** ctmp_mitigator.py:363-385 [_choice]. *)
Fixpoint choice_loop (acc : Qc) (col : list (nat * Qc)) (r : Qc) : option nat :=
  match col with
  | [] => None
  | (i, p) :: col' => if Qc_ltb r (acc + p) then Some i else choice_loop (acc + p)%Qc col' r
  end.
Definition choice (col : list (nat * Qc)) (r : Qc) : result nat :=
  match choice_loop 0 col r with
  | Some i => Ok i
  | None => match rev col with [] => Err IndexError | (i, _) :: _ => Ok i end
  end.

(** ctmp_mitigator.py:388-417 [_markov_chain_compiled]: the state is the
    position in [r_vals]. *)
Fixpoint chain_steps (cols : list (list (nat * Qc))) (rs : list Qc) (alpha : nat) (y : nat) (pos : nat)
  : result (nat * nat) :=
  match alpha with
  | 0 => Ok (y, pos)
  | S alpha' =>
      do col <- index_e cols y;
      do r <- index_e rs pos;
      do y' <- choice col r;
      chain_steps cols rs alpha' y' (pos + 1)
  end.
Fixpoint markov_chain (cols : list (list (nat * Qc))) (rs : list Qc) (xas : list (nat * nat)) (pos : nat)
  : result (list nat) :=
  match xas with
  | [] => Ok []
  | (x, alpha) :: xas' =>
      do ypos <- chain_steps cols rs alpha x pos;
      do ys <- markov_chain cols rs xas' (snd ypos);
      Ok (fst ypos :: ys)
  end.

(** Random draws of one batch: Poisson numbers of steps, initial outcomes and
    uniform numbers (ctmp_mitigator.py:279-285). *)
Record draws := { dr_alphas : list nat; dr_x : list nat; dr_r : list Qc }.

(** ctmp_mitigator.py:263-293 [_ctmp_inverse]. *)
Definition ctmp_inverse (dr : draws) (cols : list (list (nat * Qc))) : result (list nat * list nat) :=
  do ys <- markov_chain cols (dr_r dr) (combine (dr_x dr) (dr_alphas dr)) 0;
  Ok (ys, map (fun a => Nat.modulo a 2) (dr_alphas dr)).

(** ctmp_mitigator.py:145-154: the contribution of one batch. *)
Definition batch_value (diagonal : list Qc) (dr : draws) (cols : list (list (nat * Qc))) : result Qc :=
  do ys <- ctmp_inverse dr cols;
  do plus <- mapM (index_e diagonal) (map fst (filter (fun yz => snd yz =? 0) (combine (fst ys) (snd ys))));
  do minus <- mapM (index_e diagonal) (map fst (filter (fun yz => snd yz =? 1) (combine (fst ys) (snd ys))));
  Ok (fsum plus - fsum minus)%Qc.

(** A rational as a real number. *)
Definition toR (q : Qc) : R := Q2R (this q).

(** [int(np.ceil(x))]. *)
Definition ceilR (x : R) : Z := (- Int_part (- x))%Z.

(** ctmp_mitigator.py:133-136: the number of samples. *)
Definition num_samples (shots : Z) (gamma : Qc) : nat :=
  Z.to_nat (ceilR (IZR (Z.max 1600 shots) * exp (2 * toR gamma))%R).

(** ctmp_mitigator.py:141-143: the batch sizes. *)
Definition batch_size : nat := Z.to_nat 50000.
Definition samples_set (n : nat) : list nat := repeat batch_size (n / batch_size) ++ [n mod batch_size].

(** ctmp_mitigator.py:77-161 [expectation_value]: value and standard deviation.
    [draw k size probs gamma] are the random numbers of batch [k]. *)
Definition ctmp_expectation (draw : nat -> nat -> list Qc -> Qc -> draws) (ct : ctmp) (c : counts)
  (diagonal : option (list Qc)) (qubits clbits : option (list nat)) : result (R * R) :=
  let qs := match qubits with None => seq 0 (ct_n ct) | Some qs => qs end in
  do pv <- counts_probability_vector c (Some qs) clbits (Some (length qs));
  let diagonal := match diagonal with Some d => d | None => z_diagonal (2 ^ length qs) end in
  do gamma <- noise_strength ct (Some qs);
  do bmat <- sampling_matrix ct (Some qs);
  let cols := csc_columns (2 ^ length qs) bmat in
  let shots := zsum (dvals c) in
  let n := num_samples shots gamma in
  match pv_vec pv with
  | None => Err ValueError (* rng.choice refuses nan probabilities *)
  | Some probs =>
      do vals <- mapM (fun ks => batch_value diagonal (draw (fst ks) (snd ks) probs gamma) cols)
                   (combine (seq 0 (length (samples_set n))) (samples_set n));
      Ok ((exp (2 * toR gamma) / INR n * toR (fsum vals))%R, (exp (2 * toR gamma) / sqrt (IZR shots))%R)
  end.

(** ctmp_mitigator.py:193-231: the argument of [la.expm] in
    [assignment_matrix]; in [mitigation_matrix] its negative. *)
Definition reported_generator (ct : ctmp) (qubits : option (list nat)) : result qmat :=
  do g <- generator_matrix ct qubits;
  let d := 2 ^ length (the_qubits ct qubits) in
  Ok (fun i j => g (d - 1 - i) (d - 1 - j)).

(** * ctmp_fitter.py *)
Section Fitter.
(** [scipy.linalg.logm] of a 4x4 matrix: the real part, or [None] when the
    imaginary part exceeds the tolerance. *)
Variable logm : qmat -> option qmat.

(** ctmp_fitter.py:124-142 [_local_g_matrix]. *)
Definition local_g_matrix (g : gen) (data : cal_data) (n : nat) : result qmat :=
  match g_q g with
  | [j; k] =>
      do a <- assignment_matrix data n (Some [j; k]);
      match logm (snd a) with
      | None => Err QiskitError
      | Some m => Ok (fun i j => if (i =? j) then m i j else if Qc_ltb (m i j) 0 then 0%Qc else m i j)
      end
  | _ => Err ValueError
  end.

(** ctmp_fitter.py:145-162 [_supplementary_generators]; the set of tuples is
    visited in the order of the list (the order does not matter: the keys are
    distinct). *)
Definition supplementary (gens : list gen) : list gen :=
  flat_map (fun q => [ {| g_b := str "10"; g_a := str "00"; g_q := q |};
                       {| g_b := str "00"; g_a := str "10"; g_q := q |};
                       {| g_b := str "11"; g_a := str "01"; g_q := q |};
                       {| g_b := str "01"; g_a := str "11"; g_q := q |} ])
    (fold_right (fun q l => if mem q l then l else q :: l) [] (map g_q gens)).

(** ctmp_fitter.py:91-97 [_ctmp_err_rate_2_q]; the matrix is 4x4. *)
Definition err_rate_2q (g : gen) (mats : list (gen * qmat)) : result Qc :=
  do m <- dget_e mats g;
  do i <- int2 (g_b g);
  do j <- int2 (g_a g);
  if (i <? 4) && (j <? 4) then Ok (m i j) else Err IndexError.

(** ctmp_fitter.py:62-88 [_ctmp_err_rate_1_q]; the mean of an empty list is
    [nan]. *)
Definition err_rate_1q (a b : pystr) (j : nat) (mats : list (gen * qmat)) (n : nat) : result (option Qc) :=
  do gs <- (if eqb a (str "0") && eqb b (str "1") then Ok [(str "00", str "10"); (str "01", str "11")]
            else if eqb a (str "1") && eqb b (str "0") then Ok [(str "10", str "00"); (str "11", str "01")]
            else Err ValueError);
  do rates <- mapM (fun kg => err_rate_2q {| g_b := fst (snd kg); g_a := snd (snd kg); g_q := [j; fst kg] |} mats)
                (flat_map (fun k => if k =? j then [] else map (fun g => (k, g)) gs) (seq 0 n));
  if Z.eqb (Z.of_nat (length rates)) (2 * (Z.of_nat n - 1)) then
    Ok (match rates with [] => None | _ => Some (fsum rates / qz (Z.of_nat (length rates)))%Qc end)
  else Err ValueError.

(** ctmp_fitter.py:100-121 [_get_ctmp_error_rate].  For other lengths the
    variable [rate] is unbound; the resulting [UnboundLocalError] is
    represented by [AttributeError]. *)
Definition get_error_rate (g : gen) (mats : list (gen * qmat)) (n : nat) : result (option Qc) :=
  if length (g_b g) =? 1 then
    do j <- index_e (g_q g) 0; err_rate_1q (g_a g) (g_b g) j mats n
  else if length (g_b g) =? 2 then do r <- err_rate_2q g mats; Ok (Some r)
  else Err AttributeError.

(** ctmp_fitter.py:47-57: the dictionary of local matrices and the rates. *)
Definition gen_mats (data : cal_data) (n : nat) (gens : list gen) : result (list (gen * qmat)) :=
  foldM (fun mats g =>
      if 1 <? length (g_q g) then do m <- local_g_matrix g data n; Ok (dset mats g m) else Ok mats)
    (gens ++ supplementary gens) [].
Definition fitted_rates (data : cal_data) (n : nat) (gens : list gen) : result (list (option Qc)) :=
  do mats <- gen_mats data n gens;
  mapM (fun g => get_error_rate g mats n) gens.

(** ctmp_fitter.py:30-57 [fit_ctmp_meas_mitigator]. *)
Definition fit_ctmp (data : cal_data) (n : nat) (generators : option (list gen)) : result ctmp :=
  do gens <- match generators with Some g => Ok g | None => standard_generator_set n None end;
  do rates <- fitted_rates data n gens;
  ctmp_init gens rates None.
End Fitter.
