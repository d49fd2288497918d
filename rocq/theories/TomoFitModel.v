(** Model of tomography/fitters: base_fitter.py, lstsq_fit.py, state_fitter.py,
    process_fitter.py, and partial_trace_super of cvx_fit.py.

    Simplifications: numpy arrays of floats are exact real or complex numbers;
    counts are exact integers; a division of zero counts by zero shots (nan in
    numpy) is Coq's total division and the theorems ask for at least one shot;
    [scipy.linalg.lstsq], [numpy.linalg.eigh] and the function [cvx_fit] are
    parameters.  Circuits are given as circuits or names, not as tuples. *)
From Coq Require Import QArith Reals.
From Coquelicot Require Import Coquelicot.
From Verif Require Import Base LinAlg PyStr CountsModel MeasCalModel DihedralModel RBSeqModel TomoModel.
Local Open Scope string_scope.
Local Open Scope list_scope.
Local Open Scope nat_scope.

(** Equality of Python values, for dictionary keys. *)
Fixpoint pyval_eqb (a b : pyval) : bool :=
  match a, b with
  | VNone, VNone => true
  | VStr s, VStr t => eqb s t
  | VTup l, VTup m =>
      (fix go (l m : list pyval) : bool :=
         match l, m with
         | [], [] => true
         | a :: l', b :: m' => pyval_eqb a b && go l' m'
         | _, _ => false
         end) l m
  | _, _ => false
  end.
Lemma pyval_eqb_ok : forall a b, reflect (a = b) (pyval_eqb a b).
Proof.
  fix IH 1. intros [|s|l] [|t|m]; try (right; discriminate); cbn [pyval_eqb].
  - left; reflexivity.
  - destruct (eqb_spec s t) as [->|N]; [left; reflexivity|right; congruence].
  - assert (H : reflect (l = m) ((fix go (l m : list pyval) : bool := match l, m with [], [] => true | a :: l', b :: m' => pyval_eqb a b && go l' m' | _, _ => false end) l m)).
    { revert m. induction l as [|a l IHl]; intros [|b m]; try (right; discriminate); [left; reflexivity|].
      destruct (IH a b) as [->|N]; [|right; congruence]. destruct (IHl m) as [->|N]; [left; reflexivity|right; congruence]. }
    destruct H as [->|N]; [left; reflexivity|right; congruence].
Qed.
Global Instance Eqb_pyval : Eqb pyval := {| eqb := pyval_eqb; eqb_spec := pyval_eqb_ok |}.

(** * numpy on matrices *)
Definition csum (l : list C) : C := fold_right Cplus (RtoC 0) l.
Definition eye1 : cmat := {| m_rows := 1; m_cols := 1; m_at := fun _ _ => RtoC 1 |}.
(** [np.kron]. *)
Definition kron (a b : cmat) : cmat :=
  {| m_rows := m_rows a * m_rows b; m_cols := m_cols a * m_cols b;
     m_at := fun i j => Cmult (m_at a (i / m_rows b) (j / m_cols b)) (m_at b (i mod m_rows b) (j mod m_cols b)) |}.
(** [a.T]. *)
Definition transp (a : cmat) : cmat := {| m_rows := m_cols a; m_cols := m_rows a; m_at := fun i j => m_at a j i |}.
(** [np.array(b).reshape((1, size), order='F').conj()]. *)
Definition vec_conj (b : cmat) : list C :=
  map (fun k => Cconj (m_at b (k mod m_rows b) (k / m_rows b))) (seq 0 (m_rows b * m_cols b)).

(** * base_fitter.py *)
Record fitter := { ft_meas : option tbasis; ft_prep : option tbasis; ft_data : dict pyval counts }.

(** [set_measure_basis] and [set_preparation_basis], base_fitter.py:73-99. *)
Definition set_measure_basis (a : basis_arg) : result (option tbasis) :=
  do b <- default_basis a;
  match b with Some b' => match tb_meas b' with Some _ => Ok b | None => Err QiskitError end | None => Ok None end.
Definition set_preparation_basis (a : basis_arg) : result (option tbasis) :=
  do b <- default_basis a;
  match b with Some b' => match tb_prep b' with Some _ => Ok b | None => Err QiskitError end | None => Ok None end.

(** A circuit given by name, or as a circuit. *)
Inductive circ_arg := CName (s : pystr) | CCirc (c : tcirc).
Definition arg_name (a : circ_arg) : pystr := match a with CName s => s | CCirc c => t_name c end.
(** [len] and the elements of a value. *)
Definition elements (v : pyval) : result (list pyval) :=
  match v with VNone => Err TypeError | VStr s => Ok (map (fun c => VStr [c]) s) | VTup l => Ok l end.

(** base_fitter.py:263-271: the counts of one circuit, from the last result that
    has it. *)
Definition find_counts (results : list qresult) (a : circ_arg) : result counts :=
  match fold_left (fun acc r => match get_counts r (arg_name a) with Ok c => Some c | Err _ => acc end) results None with
  | Some c => Ok c
  | None => match a with CName _ => Err AttributeError | CCirc _ => Err QiskitError end
  end.
(** base_fitter.py:262-284: one circuit. *)
Definition add_circuit (results : list qresult) (marginalize : bool) (d : dict pyval counts) (a : circ_arg) : result (dict pyval counts) :=
  do c <- find_counts results a;
  do tup <- literal_eval (arg_name a);
  do c <- (if marginalize then do l <- elements tup; do f <- index_e l 0; do fl <- elements f; marginal_counts c (Some (seq 0 (length fl))) false else Ok c);
  Ok (match dget d tup with Some old => dset d tup (combine_counts old c) | None => dset d tup c end).
(** [add_data], base_fitter.py:237-284. *)
Definition add_data (f : fitter) (results : list qresult) (circuits : list circ_arg) : result fitter :=
  match circuits with
  | [] => Err QiskitError
  | c0 :: _ =>
      let marginalize := match c0 with CName _ => false | CCirc c => negb (length (t_cregs c) =? 1) end in
      do d <- foldM (add_circuit results marginalize) circuits (ft_data f);
      Ok {| ft_meas := ft_meas f; ft_prep := ft_prep f; ft_data := d |}
  end.
(** [__init__], base_fitter.py:45-71, for a list of results. *)
Definition new_fitter (results : list qresult) (circuits : list circ_arg) (meas prep : basis_arg) : result fitter :=
  do m <- set_measure_basis meas;
  do p <- set_preparation_basis prep;
  add_data {| ft_meas := m; ft_prep := p; ft_data := [] |} results circuits.

(** [_preparation_op], base_fitter.py:447-481. *)
Definition preparation_op (label : list pyval) (prep : option tbasis) : result cmat :=
  foldM (fun op l =>
    match prep with
    | None => Err TypeError
    | Some b => match l with VStr s => do p <- preparation_matrix b s; Ok (kron p op) | _ => Err ValueError end
    end) label eye1.
(** [sorted(it.product((0, 1), repeat=n))]. *)
Fixpoint outcome_tuples (n : nat) : list (list bool) :=
  match n with
  | O => [[]]
  | S n' => map (cons false) (outcome_tuples n') ++ map (cons true) (outcome_tuples n')
  end.
(** [_measurement_ops], base_fitter.py:483-523. *)
Definition measurement_op (meas : option tbasis) (label : list pyval) (outcomes : list bool) : result cmat :=
  foldM (fun op lo =>
    match meas with
    | None => Err TypeError
    | Some b => match fst lo with VStr s => do m <- measurement_matrix b s (snd lo); Ok (kron op m) | _ => Err ValueError end
    end) (combine (rev label) outcomes) eye1.
Definition measurement_ops (label : list pyval) (meas : option tbasis) : result (list cmat) :=
  mapM (measurement_op meas label) (outcome_tuples (length label)).

(** [_basis_operator_matrix], base_fitter.py:425-445: the rows. *)
Definition basis_operator_matrix (basis : list cmat) : result (list (list C)) :=
  do b0 <- index_e basis 0;
  mapM (fun b => if m_rows b * m_cols b =? m_rows b0 * m_cols b0 then Ok (vec_conj b) else Err ValueError) basis.

Definition rsum (l : list R) : R := fold_right Rplus 0%R l.
(** [_binomial_weights], base_fitter.py:372-423, of a list of counts. *)
Definition binomial_weights (cts : list Z) (beta : R) : result (list R) :=
  if Rlt_dec beta 0 then Err ValueError
  else
    let shots := fold_right Z.add 0%Z cts in
    let beta := if Req_EM_T beta 0 then (if mem shots cts || mem 0%Z cts then (1 / 2)%R else beta) else beta in
    let k := INR (length cts) in
    Ok (map (fun c => let f := ((IZR c + beta) / (IZR shots + k * beta))%R in sqrt (IZR shots / (f * (1 - f)))) cts).

(** [_fitter_data], base_fitter.py:286-370. *)
Definition is_tup (v : pyval) : bool := match v with VTup _ => true | _ => false end.
Definition is_qpt (label : pyval) : bool := match label with VTup [a; b] => is_tup a && is_tup b | _ => false end.
Definition fitter_block (f : fitter) (weighted : bool) (beta : R) (qpt : bool) (ctkeys : list pystr) (label : pyval) (cts : counts)
    : result (list R * list (list C) * list R) :=
  let cs := map (fun k => match dget cts k with Some v => v | None => 0%Z end) ctkeys in
  let shots := fold_right Z.add 0%Z cs in
  let probs := map (fun c => (IZR c / IZR shots)%R) cs in
  do wts <- (if weighted then binomial_weights cs beta else Ok []);
  do pm <- (if qpt then
              do l <- elements label; do p <- index_e l 0; do m <- index_e l 1;
              do p <- elements p; do op <- preparation_op p (ft_prep f); Ok (op, m)
            else Ok (eye1, label));
  do ml <- elements (snd pm);
  do ops <- measurement_ops ml (ft_meas f);
  do block <- basis_operator_matrix (map (kron (transp (fst pm))) ops);
  Ok (probs, block, wts).
Definition fitter_data (f : fitter) (weighted : bool) (beta : R) : result (list R * list (list C) * option (list R)) :=
  match ft_data f with
  | [] => Err StopIteration
  | (label0, _) :: _ =>
      let qpt := is_qpt label0 in
      do l0 <- elements label0;
      do ctkeys <- (if qpt then do m <- index_e l0 1; do m <- elements m; Ok (count_keys (length m)) else Ok (count_keys (length l0)));
      do blocks <- mapM (fun lc => fitter_block f weighted beta qpt ctkeys (fst lc) (snd lc)) (ft_data f);
      let rows := flat_map (fun b => snd (fst b)) blocks in
      (* np.vstack *)
      if forallb (fun r => length r =? length (nth 0 rows [])) rows
      then Ok (flat_map (fun b => fst (fst b)) blocks, rows, if weighted then Some (flat_map snd blocks) else None)
      else Err ValueError
  end.

(** * lstsq_fit.py *)
Section Fit.
  (** [scipy.linalg.lstsq(a, b)[0]]. *)
  Variable lstsq : list (list C) -> list C -> list C.
  (** [la.eigh]: eigenvalues and the matrix whose columns are eigenvectors. *)
  Variable eigh : cmat -> (nat -> R) * (nat -> nat -> C).

  (** The loop of [make_positive_semidefinite], lstsq_fit.py:151-160. *)
  Definition psd_step (eps : R) (dim : nat) (v : nat -> R) (j : nat) : nat -> R :=
    if Rlt_dec (v j) eps
    then fun k => if k =? j then 0%R else if (j <? k) && (k <? dim) then (v k + v j / INR (dim - (j + 1)))%R else v k
    else v.
  Definition psd_values (eps : R) (dim : nat) (v : nat -> R) : nat -> R := fold_left (psd_step eps dim) (seq 0 dim) v.
  (** [make_positive_semidefinite], lstsq_fit.py:121-170. *)
  Definition make_positive_semidefinite (m : cmat) (eps : R) : result cmat :=
    if Rlt_dec eps 0 then Err ValueError
    else
      let dim := m_rows m in
      let '(v, w) := eigh m in
      let v' := psd_values eps dim v in
      Ok {| m_rows := dim; m_cols := dim;
            m_at := fun a b => csum (map (fun j => Cmult (RtoC (v' j)) (Cmult (w a j) (Cconj (w b j)))) (seq 0 dim)) |}.

  Definition trace_of (m : cmat) : C := csum (map (fun i => m_at m i i) (seq 0 (m_rows m))).
  (** [lstsq_fit], lstsq_fit.py:25-114. *)
  Definition lstsq_fit (data : list R) (rows : list (list C)) (weights : option (list R)) (psd : bool) (trace : option R) : result cmat :=
    let b := map RtoC data in
    let '(a, b) := match weights with
                   | None => (rows, b)
                   | Some w => (map (fun wr => map (Cmult (RtoC (fst wr))) (snd wr)) (combine w rows), map (fun wb => Cmult (RtoC (fst wb)) (snd wb)) (combine w b))
                   end in
    let x := lstsq a b in
    let size := length x in
    let dim := Nat.sqrt size in
    if negb (dim * dim =? size) then Err ValueError
    else
      let rho := {| m_rows := dim; m_cols := dim; m_at := fun i j => nth (i + j * dim) x (RtoC 0) |} in
      do rho <- (if psd then make_positive_semidefinite rho 0 else Ok rho);
      match trace with
      | None => Ok rho
      | Some t => let k := Cdiv (RtoC t) (trace_of rho) in Ok {| m_rows := m_rows rho; m_cols := m_cols rho; m_at := fun i j => Cmult (m_at rho i j) k |}
      end.

  (** [cvx_fit], and which solvers are installed. *)
  Variable cvx_fit : list R -> list (list C) -> option (list R) -> bool -> option R -> bool -> result cmat.
  Variables has_sdp_solver has_sdp_solver_not_scs : bool.
  Inductive fit_method := MAuto | MLstsq | MCvx | MOther.
  (** [TomographyFitter.fit], base_fitter.py:111-229. *)
  Definition tomography_fit (f : fitter) (method : fit_method) (weighted : bool) (beta : R) (psd : bool) (trace : option R) (tp : bool) : result cmat :=
    do p <- fitter_data f weighted beta;
    let '(data, rows, w) := p in
    let method := match method with MAuto => if has_sdp_solver_not_scs then MCvx else MLstsq | m => m end in
    match method with
    | MLstsq => lstsq_fit data rows w psd trace
    | MCvx => cvx_fit data rows w psd trace tp
    | _ => Err QiskitError
    end.
  (** [StateTomographyFitter.fit], state_fitter.py:46-139. *)
  Definition state_fit (f : fitter) (method : fit_method) (weighted : bool) (beta : R) : result cmat :=
    tomography_fit f method weighted beta true (Some 1%R) false.
  (** [ProcessTomographyFitter.fit], process_fitter.py:28-145: the matrix of the
      returned [Choi]. *)
  Definition process_fit (f : fitter) (method : fit_method) (weighted : bool) (beta : R) : result cmat :=
    do p <- fitter_data f weighted beta;
    let '(data, rows, w) := p in
    let cols := length (nth 0 rows []) in
    let dim := Nat.sqrt (Nat.sqrt cols) in
    if negb (dim ^ 4 =? cols) then Err ValueError
    else
      let method := match method with MAuto => if has_sdp_solver then MCvx else MLstsq | m => m end in
      match method with
      | MLstsq => lstsq_fit data rows w true (Some (INR dim))
      | MCvx => cvx_fit data rows w true (Some (INR dim)) true
      | _ => Err QiskitError
      end.
End Fit.

(** [partial_trace_super], cvx_fit.py:232-256. *)
Definition partial_trace_super (dim1 dim2 : nat) : cmat :=
  let iden := {| m_rows := dim1; m_cols := dim1; m_at := fun i j => if i =? j then RtoC 1 else RtoC 0 |} in
  let v j := {| m_rows := 1; m_cols := dim2; m_at := fun _ k => if k =? j then RtoC 1 else RtoC 0 |} in
  fold_left (fun ptr j => let tmp := kron iden (v j) in
      {| m_rows := m_rows ptr; m_cols := m_cols ptr; m_at := fun a b => Cplus (m_at ptr a b) (m_at (kron tmp tmp) a b) |})
    (seq 0 dim2) {| m_rows := dim1 * dim1; m_cols := dim1 * dim2 * dim1 * dim2; m_at := fun _ _ => RtoC 0 |}.
