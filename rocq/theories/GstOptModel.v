(** Model of the optimisations of gate-set tomography:
    fitters/gateset_fitter.py:149-693 and [spam_matrix] of basis/gatesetbasis.py.

    Simplifications: numbers are real and complex numbers; [scipy]'s optimisers,
    [schur] and [np.linalg.inv] are parameters; a gate set is a record, so that a
    gate called 'E' or 'rho' is not confused with the effect and the state; the
    conversions between [PTM] and [Choi] are qiskit-terra's formulas for square
    matrices. *)
From Coq Require Import QArith Reals.
From Coquelicot Require Import Coquelicot.
From Verif Require Import Base LinAlg PyStr CtmpSpec EntSpec TomoModel TomoFitModel GstModel.
Local Open Scope string_scope.
Local Open Scope list_scope.
Local Open Scope nat_scope.

(** A dictionary built from items in order. *)
Definition dict_of {V} (l : list (pystr * V)) : dict pystr V := fold_left (fun d kv => dset d (fst kv) (snd kv)) l [].
Notation rmat := (mat (F:=R) nat).
Notation rgates := (gst_estimate (F:=R)).

(** * Gauge optimisation *)
Section Gauge.
  Variable np_inv : nat -> rmat -> option rmat.
  (** [opt.minimize(f, x0).x]. *)
  Variable minimize : (rmat -> result R) -> rmat -> rmat.

  (** [spam_matrix], gatesetbasis.py:209-225; [reduce] of an empty list raises TypeError. *)
  Definition spam_matrix (d : nat) (mats : dict pystr rmat) (spec : dict pystr (list pystr)) (label : pystr) : result rmat :=
    do ops <- dget_e spec label;
    do l <- mapM (dget_e mats) ops;
    match l with
    | [] => Err TypeError
    | a :: l' => Ok (fold_left (mmul (seq 0 d)) l' a)
    end.

  (** [_default_init_state], [_default_measurement_op] and [_ideal_gateset],
      gateset_fitter.py:149-166. *)
  Definition default_vec (i : nat) : R := match i with 0 | 3 => sqrt (1 / 2) | _ => 0%R end.
  Definition ideal_gateset (gate_labels : list pystr) (mats : dict pystr rmat) (size : nat) : result rgates :=
    do gs <- mapM (fun l => do m <- dget_e mats l; Ok (l, m)) gate_labels;
    if size =? 4 then Ok {| ge_gates := dict_of gs; ge_E := default_vec; ge_rho := default_vec |}
    else Err RuntimeError.

  (** [np.linalg.norm] of a difference of two matrices, and of two vectors. *)
  Definition norm_mat (d : nat) (A B : rmat) : R :=
    sqrt (rsum (map (fun i => rsum (map (fun j => ((A i j - B i j) * (A i j - B i j))%R) (seq 0 d))) (seq 0 d))).
  Definition norm_vec (d : nat) (u v : nat -> R) : R := sqrt (rsum (map (fun i => ((u i - v i) * (u i - v i))%R) (seq 0 d))).

  (** [GaugeOptimize._obj_fn], gateset_fitter.py:261-278; [_x_to_gateset] gives None
      for a singular gauge, which cannot be subscripted. *)
  Definition gauge_obj (d : nat) (gate_labels : list pystr) (ideal initial : rgates) (x : rmat) : result R :=
    match x_to_gateset np_inv d (ge_gates initial) (ge_E initial) (ge_rho initial) x with
    | None => Err TypeError
    | Some g =>
        do l <- mapM (fun label => do a <- dget_e (ge_gates g) label; do b <- dget_e (ge_gates ideal) label; Ok (norm_mat d a b)) gate_labels;
        Ok (rsum l + norm_vec d (ge_E g) (ge_E ideal) + norm_vec d (ge_rho g) (ge_rho ideal))%R
    end.

  (** The starting point: the columns [F @ rho], gateset_fitter.py:285. *)
  Definition gauge_start (d : nat) (Fs : list rmat) (rho : nat -> R) : rmat :=
    fun i j => mapply (seq 0 d) (nth j Fs (fun _ _ => 0%R)) rho i.
  (** [GaugeOptimize.__init__] and [optimize], gateset_fitter.py:199-234 and 280-287. *)
  Definition gauge_optimize (d : nat) (gate_labels spam_labels : list pystr) (mats : dict pystr rmat) (spec : dict pystr (list pystr))
      (ideal initial : rgates) : result (option rgates) :=
    do Fs <- mapM (spam_matrix d mats spec) spam_labels;
    if negb (length Fs =? d) then Err ValueError
    else
      let x0 := gauge_start d Fs (ge_rho ideal) in
      let f := gauge_obj d gate_labels ideal initial in
      do _ <- f x0;
      Ok (x_to_gateset np_inv d (ge_gates initial) (ge_E initial) (ge_rho initial) (minimize f x0)).
End Gauge.

(** * PTM and Choi matrices *)

(** The Pauli matrices, and the Pauli operators of [n] qubits in the order of the
    labels I..I, I..X, ... *)
Definition sigma (p r c : nat) : C :=
  match p, r, c with
  | 0, 0, 0 | 0, 1, 1 => RtoC 1
  | 1, 0, 1 | 1, 1, 0 => RtoC 1
  | 2, 0, 1 => Copp Ci
  | 2, 1, 0 => Ci
  | 3, 0, 0 => RtoC 1
  | 3, 1, 1 => RtoC (-1)
  | _, _, _ => RtoC 0
  end.
Fixpoint pauli (n i r c : nat) : C :=
  match n with
  | 0 => RtoC 1
  | S m => Cmult (sigma (i / 4 ^ m) (r / 2 ^ m) (c / 2 ^ m)) (pauli m (i mod 4 ^ m) (r mod 2 ^ m) (c mod 2 ^ m))
  end.
Definition sum_to (n : nat) (f : nat -> C) : C := csum (map f (seq 0 n)).
(** The number of qubits of a [4^n] by [4^n] matrix; other shapes raise QiskitError. *)
Definition qubits_of (m : cmat) : result nat :=
  let n := Nat.log2 (m_rows m) / 2 in
  if (4 ^ n =? m_rows m) && (m_cols m =? m_rows m) then Ok n else Err QiskitError.
(** [Choi(PTM(G)).data]: the image of |a><b| is the block (a, b). *)
Definition choi_of_ptm (m : cmat) : result cmat :=
  do n <- qubits_of m;
  let d := 2 ^ n in
  Ok {| m_rows := m_rows m; m_cols := m_cols m;
        m_at := fun x y => Cmult (Cinv (RtoC (INR d)))
          (sum_to (4 ^ n) (fun i => sum_to (4 ^ n) (fun j =>
             Cmult (m_at m i j) (Cmult (pauli n i (x mod d) (y mod d)) (pauli n j (y / d) (x / d)))))) |}.
(** [PTM(Choi(K)).data]. *)
Definition ptm_of_choi (m : cmat) : result cmat :=
  do n <- qubits_of m;
  let d := 2 ^ n in
  Ok {| m_rows := m_rows m; m_cols := m_cols m;
        m_at := fun i j => Cmult (Cinv (RtoC (INR d)))
          (sum_to d (fun a => sum_to d (fun b => sum_to d (fun c => sum_to d (fun e =>
             Cmult (m_at m (a * d + c) (b * d + e)) (Cmult (pauli n i e c) (pauli n j a b))))))) |}.

(** * Maximum likelihood *)
(** [T @ np.conj(T.T)]. *)
Definition times_adj (t : cmat) : cmat :=
  {| m_rows := m_rows t; m_cols := m_rows t;
     m_at := fun i j => sum_to (m_cols t) (fun k => Cmult (m_at t i k) (Cconj (m_at t j k))) |}.
(** The entries row by row; [reshape] of a list of entries. *)
Definition flat (m : cmat) : list C := flat_map (fun i => map (m_at m i) (seq 0 (m_cols m))) (seq 0 (m_rows m)).
Definition reshape (l : list C) (r c : nat) : result cmat :=
  if length l =? r * c then Ok {| m_rows := r; m_cols := c; m_at := fun i j => nth (i * c + j) l (RtoC 0) |}
  else Err ValueError.

(** [_split_list], gateset_fitter.py:331-355. *)
Definition split_list {A} (l : list A) (sizes : list nat) : result (list (list A)) :=
  if negb (list_sum sizes =? length l) then Err RuntimeError
  else Ok (snd (fold_left (fun acc s => (fst acc + s, snd acc ++ [firstn s (skipn (fst acc) l)])) sizes (0, []))).
(** [_vec_to_complex_matrix], gateset_fitter.py:357-364. *)
Definition vec_to_complex_matrix (v : list R) : result cmat :=
  let n := Nat.sqrt (length v / 2) in
  if negb (2 * n * n =? length v) then Err RuntimeError
  else
    let size := n * n in
    Ok {| m_rows := n; m_cols := n; m_at := fun i j => (nth (i * n + j) v 0%R, nth (size + (i * n + j)) v 0%R) |}.
(** [_complex_matrix_to_vec], gateset_fitter.py:366-369. *)
Definition complex_matrix_to_vec (m : cmat) : list R := map fst (flat m) ++ map snd (flat m).

(** [z < 0] and [np.sqrt(z)] of complex numbers. *)
Definition c_neg (z : C) : bool :=
  if Rlt_dec (fst z) 0 then true else if Req_EM_T (fst z) 0 then if Rlt_dec (snd z) 0 then true else false else false.
Definition np_csqrt (z : C) : C :=
  let r := sqrt (fst z * fst z + snd z * snd z) in
  (sqrt ((r + fst z) / 2), if Rlt_dec (snd z) 0 then (- sqrt ((r - fst z) / 2))%R else sqrt ((r - fst z) / 2)).

Section Mle.
  (** [scipy.linalg.schur(m, output='complex')]. *)
  Variable schur : cmat -> (nat -> nat -> C) * (nat -> nat -> C).

  (** [get_cholesky_like_decomposition], gateset_fitter.py:290-303. *)
  Definition cholesky_like (m : cmat) : cmat :=
    let '(decomposition, unitary) := schur m in
    let ev j := let z := decomposition j j in if c_neg z then RtoC 0 else z in
    {| m_rows := m_rows m; m_cols := m_rows m; m_at := fun i j => Cmult (unitary i j) (np_csqrt (ev j)) |}.

  (** A vector decoded: effect, state and gates. *)
  Definition mle_data := (list C * list C * list cmat)%type.
  (** [_split_input_vector], gateset_fitter.py:399-436. *)
  Definition split_input_vector (qubits n : nat) (x : list R) : result mle_data :=
    let d := 2 ^ qubits in
    let ds := d ^ 2 in
    let d_t := 2 * d ^ 2 in
    let ds_t := 2 * ds ^ 2 in
    do t_vars <- split_list x ([d_t; d_t] ++ repeat ds_t n);
    do v0 <- index_e t_vars 0; do e_t <- vec_to_complex_matrix v0;
    do v1 <- index_e t_vars 1; do rho_t <- vec_to_complex_matrix v1;
    do gs_t <- mapM (fun i => do v <- index_e t_vars (2 + i); vec_to_complex_matrix v) (seq 0 n);
    do E <- reshape (flat (times_adj e_t)) 1 ds;
    do rho <- reshape (flat (times_adj rho_t)) ds 1;
    do Gs <- mapM (fun t => ptm_of_choi (times_adj t)) gs_t;
    Ok (flat E, flat rho, Gs).
  (** [_join_input_vector], gateset_fitter.py:438-467. *)
  Definition join_input_vector (qubits : nat) (E rho : list C) (Gs : list cmat) : result (list R) :=
    let d := 2 ^ qubits in
    do e <- reshape E d d;
    do r <- reshape rho d d;
    do chois <- mapM choi_of_ptm Gs;
    Ok (fold_left (fun acc k => acc ++ complex_matrix_to_vec (cholesky_like k)) chois
          (complex_matrix_to_vec (cholesky_like e) ++ complex_matrix_to_vec (cholesky_like r))).

  (** [_obj_fn], gateset_fitter.py:469-500. *)
  Definition cmat_apply (g : cmat) (v : nat -> C) : nat -> C := fun i => sum_to (m_cols g) (fun j => Cmult (m_at g i j) (v j)).
  Definition mle_obj (qubits n : nat) (terms : list (list nat * R)) (x : list R) : result R :=
    do p <- split_input_vector qubits n x;
    let '(E, rho, Gs) := p in
    foldM (fun val term =>
        do v <- foldM (fun v g => do G <- index_e Gs g; Ok (cmat_apply G v)) (fst term) (fun i => nth i rho (RtoC 0));
        let t := (fst (sum_to ((2 ^ qubits) ^ 2) (fun i => Cmult (nth i E (RtoC 0)) (v i))) - snd term)%R in
        Ok (val + t ^ 2)%R) terms 0%R.

  (** [_ptm_matrix_values], gateset_fitter.py:502-522. *)
  Definition ptm_matrix_values (qubits n : nat) (x : list R) : result (list R) :=
    do p <- split_input_vector qubits n x;
    Ok (flat_map complex_matrix_to_vec (snd p)).
  (** Inner loops of the constraints: [k] values of [vals] from the index on, each
      adding [f v]. *)
  Definition push (vals : list R) (k : nat) (f : R -> list R) (st : nat * list R) : result (nat * list R) :=
    foldM (fun st _ => do v <- index_e vals (fst st); Ok (S (fst st), snd st ++ f v)) (seq 0 k) st.
  Definition skip (k : nat) (st : nat * list R) : nat * list R := (fst st + k, snd st).
  (** [_bounds_eq_constraint], gateset_fitter.py:538-574. *)
  Definition bounds_eq_constraint (qubits n : nat) (x : list R) : result (list R) :=
    do vals <- ptm_matrix_values qubits n x;
    let ds := (2 ^ qubits) ^ 2 in
    do st <- foldM (fun st _ =>
        do st <- push vals 1 (fun v => [v - 1]%R) st;
        do st <- push vals (ds - 1) (fun v => [v - 0]%R) st;
        push vals (ds ^ 2) (fun v => [v - 0]%R) (skip ((ds - 1) * ds) st)) (seq 0 n) (0, []);
    Ok (snd st).
  (** [_bounds_ineq_constraint], gateset_fitter.py:576-611. *)
  Definition bounds_ineq_constraint (qubits n : nat) (x : list R) : result (list R) :=
    do vals <- ptm_matrix_values qubits n x;
    let ds := (2 ^ qubits) ^ 2 in
    do st <- foldM (fun st _ =>
        do st <- push vals ((ds - 1) * ds) (fun v => [v + 1; - v + 1]%R) (skip (ds - 1) (skip 1 st));
        Ok (skip (ds ^ 2) st)) (seq 0 n) (0, []);
    Ok (snd st).
  (** [_convert_from_ptm], gateset_fitter.py:645-652: the entry (r, c). *)
  Definition convert_from_ptm (v : list C) : result cmat :=
    do m <- reshape v 4 1;
    Ok {| m_rows := 2; m_cols := 2;
          m_at := fun r c => sum_to 4 (fun p => Cmult (m_at m p 0) (Cmult (RtoC (sqrt (1 / 2))) (sigma p r c))) |}.
  (** [_rho_trace] and [_rho_trace_constraint], gateset_fitter.py:524-536 and 613-625. *)
  Definition rho_trace (qubits n : nat) (x : list R) : result (R * R) :=
    do p <- split_input_vector qubits n x;
    let '(_, rho, _) := p in
    do m <- reshape rho (2 ^ qubits) (2 ^ qubits);
    do r <- convert_from_ptm (flat m);
    do l <- mapM (fun i => if i <? m_rows r then Ok (m_at r i i) else Err IndexError) (seq 0 (2 ^ qubits));
    let trace := csum l in
    Ok (fst trace, snd trace).
  Definition rho_trace_constraint (qubits n : nat) (x : list R) : result (list R) :=
    do t <- rho_trace qubits n x; Ok [fst t - 1; snd t]%R.

  (** [_constraints], gateset_fitter.py:627-643: the values that must be zero and those
      that must not be negative. *)
  Record mle_problem := { mp_obj : list R -> result R; mp_eq : list (list R -> result (list R)); mp_ineq : list (list R -> result (list R)) }.
  Definition mle_problem_of (qubits n : nat) (terms : list (list nat * R)) : mle_problem :=
    {| mp_obj := mle_obj qubits n terms;
       mp_eq := [rho_trace_constraint qubits n; bounds_eq_constraint qubits n];
       mp_ineq := [bounds_ineq_constraint qubits n] |}.

  (** The result, [_process_result], gateset_fitter.py:654-668. *)
  Record gst_result := { gr_E : cmat; gr_rho : cmat; gr_gates : dict pystr cmat }.
  Definition process_result (qubits : nat) (Gs : list pystr) (x : list R) : result gst_result :=
    do p <- split_input_vector qubits (length Gs) x;
    let '(E, rho, ms) := p in
    do e <- convert_from_ptm E;
    do r <- convert_from_ptm rho;
    do gs <- mapM (fun i => do g <- index_e Gs i; do m <- index_e ms i; Ok (g, m)) (seq 0 (length Gs));
    Ok {| gr_E := e; gr_rho := r; gr_gates := dict_of gs |}.
  (** [set_initial_value], gateset_fitter.py:670-678; the arrays have [size] rows. *)
  Definition cmat_of (size : nat) (m : rmat) : cmat := {| m_rows := size; m_cols := size; m_at := fun i j => RtoC (m i j) |}.
  Definition set_initial_value (qubits size : nat) (Gs : list pystr) (g : rgates) : result (list R) :=
    do ms <- mapM (fun l => do m <- dget_e (ge_gates g) l; Ok (cmat_of size m)) Gs;
    join_input_vector qubits (map (fun i => RtoC (ge_E g i)) (seq 0 size)) (map (fun i => RtoC (ge_rho g i)) (seq 0 size)) ms.

  Variable np_inv : nat -> rmat -> option rmat.
  Variable gauge_minimize : (rmat -> result R) -> rmat -> rmat.
  (** [opt.minimize(f, x0, method='SLSQP', constraints=cons).x]. *)
  Variable mle_minimize : mle_problem -> list R -> list R.
  (** [GatesetTomographyFitter.fit], gateset_fitter.py:168-196 (with [optimize], 680-693), from the gate set's
      labels, matrices and SPAM circuits and the probabilities. *)
  Definition gst_fit (gate_labels spam_labels : list pystr) (mats : dict pystr rmat) (spec : dict pystr (list pystr))
      (probs : pyval -> option R) : result gst_result :=
    do li <- linear_inversion np_inv spam_labels gate_labels probs;
    let n := length spam_labels in
    do ideal <- ideal_gateset gate_labels mats n;
    do past <- gauge_optimize np_inv gauge_minimize n gate_labels spam_labels mats spec ideal li;
    do terms <- obj_terms gate_labels spam_labels spec probs;
    match past with
    | None => Err TypeError
    | Some g =>
        do x0 <- set_initial_value 1 n gate_labels g;
        let problem := mle_problem_of 1 (length gate_labels) terms in
        do _ <- mp_obj problem x0;
        process_result 1 gate_labels (mle_minimize problem x0)
    end.
End Mle.
