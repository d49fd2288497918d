(** Model of qiskit/ignis/verification/tomography/basis: tomographybasis.py,
    paulibasis.py, sicbasis.py and circuits.py (state and process tomography).

    Simplifications: the circuit has one quantum register, so that qubits are
    their indices; measured and prepared qubits are lists of indices; the basis
    is [None], a name or a [TomographyBasis], not a bare function; the warnings
    are left out; labels contain no quotes, backslashes or control characters,
    so that [repr] puts them between single quotes. *)
From Coq Require Import QArith Reals.
From Coquelicot Require Import Coquelicot.
From Verif Require Import Base LinAlg PyStr DihedralModel RBSeqModel.
Local Open Scope string_scope.
Local Open Scope list_scope.
Local Open Scope nat_scope.

(** * Python literals *)

(** [None], strings and tuples. *)
Inductive pyval := VNone | VStr (s : pystr) | VTup (l : list pyval).
Definition quote : ascii := "'"%char.

Fixpoint join (sep : pystr) (l : list pystr) : pystr :=
  match l with
  | [] => []
  | [a] => a
  | a :: l' => a ++ sep ++ join sep l'
  end.
(** [str] of a value inside a tuple, that is [repr]. *)
Fixpoint repr (v : pyval) : pystr :=
  match v with
  | VNone => str "None"
  | VStr s => [quote] ++ s ++ [quote]
  | VTup [a] => str "(" ++ repr a ++ str ",)"
  | VTup l => str "(" ++ join (str ", ") (map repr l) ++ str ")"
  end.
(** [str] of a value. *)
Definition py_str (v : pyval) : pystr := match v with VStr s => s | _ => repr v end.

(** [ast.literal_eval], for these values; a malformed string is a ValueError (or
    a SyntaxError). *)
Fixpoint upto (c : ascii) (s : pystr) : result (pystr * pystr) :=
  match s with
  | [] => Err ValueError
  | a :: s' => if Ascii.eqb a c then Ok ([], s') else do p <- upto c s'; Ok (a :: fst p, snd p)
  end.
Fixpoint skip_spaces (s : pystr) : pystr :=
  match s with
  | a :: s' => if Ascii.eqb a " " then skip_spaces s' else s
  | [] => []
  end.
Fixpoint parse (fuel : nat) (s : pystr) : result (pyval * pystr) :=
  match fuel with
  | O => Err ValueError
  | S fuel =>
      if starts (str "None") s then Ok (VNone, skipn 4 s)
      else match s with
      | a :: s' =>
          if Ascii.eqb a quote then do p <- upto quote s'; Ok (VStr (fst p), snd p)
          else if Ascii.eqb a "(" then
            do p <- parse_items fuel s';
            let '(l, comma, r) := p in
            match l, comma with
            | [v], false => Ok (v, r)
            | _, _ => Ok (VTup l, r)
            end
          else Err ValueError
      | [] => Err ValueError
      end
  end
(** The values up to the closing parenthesis, and whether there was a comma. *)
with parse_items (fuel : nat) (s : pystr) : result (list pyval * bool * pystr) :=
  match fuel with
  | O => Err ValueError
  | S fuel =>
      match s with
      | a :: s' =>
          if Ascii.eqb a ")" then Ok ([], false, s')
          else
            do p <- parse fuel s;
            match snd p with
            | b :: r =>
                if Ascii.eqb b ")" then Ok ([fst p], false, r)
                else if Ascii.eqb b "," then
                  do q <- parse_items fuel (skip_spaces r);
                  let '(l, _, r') := q in Ok (fst p :: l, true, r')
                else Err ValueError
            | [] => Err ValueError
            end
      | [] => Err ValueError
      end
  end.
Definition literal_eval (s : pystr) : result pyval :=
  do p <- parse (2 * length s) s;
  match snd p with [] => Ok (fst p) | _ => Err ValueError end.

(** * tomographybasis.py *)

(** A numpy array of two dimensions. *)
Record cmat := { m_rows : nat; m_cols : nat; m_at : nat -> nat -> C }.
Definition mat22 (a b c d : C) : cmat :=
  {| m_rows := 2; m_cols := 2;
     m_at := fun i j => match i, j with 0, 0 => a | 0, _ => b | _, 0 => c | _, _ => d end |}.
(** [np.array([])]. *)
Definition no_mat : cmat := {| m_rows := 0; m_cols := 0; m_at := fun _ _ => RtoC 0 |}.

(** [TomographyBasis], tomographybasis.py:23-75. *)
Record meas_data := { md_labels : list pystr; md_circuit : pystr -> nat -> nat -> list cinstr; md_matrix : pystr -> bool -> cmat }.
Record prep_data := { pd_labels : list pystr; pd_circuit : pystr -> nat -> list cinstr; pd_matrix : pystr -> cmat }.
Record tbasis := { tb_name : pystr; tb_meas : option meas_data; tb_prep : option prep_data }.

(** [measurement_circuit], tomographybasis.py:106-141. *)
Definition measurement_circuit (b : tbasis) (op : pystr) (q c : nat) : result (list cinstr) :=
  match tb_meas b with
  | None => Err QiskitError
  | Some d => if mem op (md_labels d) then Ok (md_circuit d op q c) else Err ValueError
  end.
(** [preparation_circuit], tomographybasis.py:143-171. *)
Definition preparation_circuit (b : tbasis) (op : pystr) (q : nat) : result (list cinstr) :=
  match tb_prep b with
  | None => Err QiskitError
  | Some d => if mem op (pd_labels d) then Ok (pd_circuit d op q) else Err ValueError
  end.
(** [measurement_matrix], tomographybasis.py:173-200; the outcome is 0 or 1. *)
Definition measurement_matrix (b : tbasis) (label : pystr) (outcome : bool) : result cmat :=
  match tb_meas b with
  | None => Err QiskitError
  | Some d => if mem label (md_labels d) then Ok (md_matrix d label outcome) else Err ValueError
  end.
(** [preparation_matrix], tomographybasis.py:202-224. *)
Definition preparation_matrix (b : tbasis) (label : pystr) : result cmat :=
  match tb_prep b with
  | None => Err QiskitError
  | Some d => if mem label (pd_labels d) then Ok (pd_matrix d label) else Err ValueError
  end.

(** * paulibasis.py *)
Definition g1 (name : string) (ps : list Q) (q : nat) : cinstr := CGate {| gname := str name; gparams := ps; gqubits := [q] |}.
Definition isl (op : pystr) (s : string) : bool := eqb op (str s).

(** [pauli_measurement_circuit], paulibasis.py:30-56. *)
Definition pauli_measurement_circuit (op : pystr) (q c : nat) : list cinstr :=
  (if isl op "X" then [g1 "h" [] q; CMeasure q c] else []) ++
  (if isl op "Y" then [g1 "sdg" [] q; g1 "h" [] q; CMeasure q c] else []) ++
  (if isl op "Z" then [CMeasure q c] else []).
(** [pauli_preparation_circuit], paulibasis.py:59-91. *)
Definition pauli_preparation_circuit (op : pystr) (q : nat) : list cinstr :=
  (if isl op "Xp" then [g1 "h" [] q] else []) ++
  (if isl op "Xm" then [g1 "x" [] q; g1 "h" [] q] else []) ++
  (if isl op "Yp" then [g1 "h" [] q; g1 "s" [] q] else []) ++
  (if isl op "Ym" then [g1 "x" [] q; g1 "h" [] q; g1 "s" [] q] else []) ++
  (if isl op "Zm" then [g1 "x" [] q] else []).

(** [pauli_preparation_matrix], paulibasis.py:98-139. *)
Definition pauli_preparation_matrix (label : pystr) : cmat :=
  let h := RtoC (1 / 2) in
  if isl label "Zm" then mat22 (RtoC 0) (RtoC 0) (RtoC 0) (RtoC 1)
  else if isl label "Zp" then mat22 (RtoC 1) (RtoC 0) (RtoC 0) (RtoC 0)
  else if isl label "Ym" then mat22 h (Cmult h Ci) (Copp (Cmult h Ci)) h
  else if isl label "Yp" then mat22 h (Copp (Cmult h Ci)) (Cmult h Ci) h
  else if isl label "Xm" then mat22 h (Copp h) (Copp h) h
  else if isl label "Xp" then mat22 h h h h
  else no_mat.
(** [pauli_measurement_matrix], paulibasis.py:142-187. *)
Definition pauli_measurement_matrix (label : pystr) (outcome : bool) : cmat :=
  if isl label "Z" then pauli_preparation_matrix (str (if outcome then "Zm" else "Zp"))
  else if isl label "Y" then pauli_preparation_matrix (str (if outcome then "Ym" else "Yp"))
  else if isl label "X" then pauli_preparation_matrix (str (if outcome then "Xm" else "Xp"))
  else no_mat.

(** [PauliBasis], paulibasis.py:194-202. *)
Definition PauliBasis : tbasis :=
  {| tb_name := str "Pauli";
     tb_meas := Some {| md_labels := [str "X"; str "Y"; str "Z"];
                        md_circuit := pauli_measurement_circuit; md_matrix := pauli_measurement_matrix |};
     tb_prep := Some {| pd_labels := [str "Xp"; str "Xm"; str "Yp"; str "Ym"; str "Zp"; str "Zm"];
                        pd_circuit := pauli_preparation_circuit; pd_matrix := pauli_preparation_matrix |} |}.

(** * sicbasis.py *)

(** [sicpovm_preparation_circuit], sicbasis.py:32-57.  The angles of the U3 gate
    are written in units: the first is a multiple of [-2 arctan (sqrt 2)], the
    others are multiples of [pi/3]. *)
Definition sicpovm_preparation_circuit (op : pystr) (q : nat) : list cinstr :=
  (if isl op "S1" then [g1 "u3" [1%Q; 3%Q; 0%Q] q] else []) ++
  (if isl op "S2" then [g1 "u3" [1%Q; 1%Q; 0%Q] q] else []) ++
  (if isl op "S3" then [g1 "u3" [1%Q; (-1)%Q; 0%Q] q] else []).
(** [np.exp(1j * t)]. *)
Definition np_expi (t : R) : C := (cos t, sin t).
(** [sicpovm_preparation_matrix], sicbasis.py:64-100. *)
Definition sicpovm_preparation_matrix (label : pystr) : cmat :=
  let third (x : C) : C := Cdiv x (RtoC 3) in
  if isl label "S3" then mat22 (third (RtoC 1)) (third (Cmult (np_expi (- PI * 2 / 3)%R) (RtoC (sqrt 2)))) (third (Cmult (np_expi (PI * 2 / 3)%R) (RtoC (sqrt 2)))) (third (RtoC 2))
  else if isl label "S2" then mat22 (third (RtoC 1)) (third (Cmult (np_expi (PI * 2 / 3)%R) (RtoC (sqrt 2)))) (third (Cmult (np_expi (- PI * 2 / 3)%R) (RtoC (sqrt 2)))) (third (RtoC 2))
  else if isl label "S1" then mat22 (third (RtoC 1)) (third (RtoC (sqrt 2))) (third (RtoC (sqrt 2))) (third (RtoC 2))
  else if isl label "S0" then mat22 (RtoC 1) (RtoC 0) (RtoC 0) (RtoC 0)
  else no_mat.
(** [SICBasis], sicbasis.py:106-110. *)
Definition SICBasis : tbasis :=
  {| tb_name := str "SIC"; tb_meas := None;
     tb_prep := Some {| pd_labels := [str "S0"; str "S1"; str "S2"; str "S3"];
                        pd_circuit := sicpovm_preparation_circuit; pd_matrix := sicpovm_preparation_matrix |} |}.

(** * circuits.py *)

(** The argument [meas_basis] or [prep_basis]. *)
Inductive basis_arg := BNone | BName (s : pystr) | BObj (b : tbasis).
(** [default_basis], circuits.py:497-521. *)
Definition default_basis (a : basis_arg) : result (option tbasis) :=
  match a with
  | BNone => Ok None
  | BName s => if isl s "Pauli" then Ok (Some PauliBasis) else if isl s "SIC" then Ok (Some SICBasis) else Err ValueError
  | BObj b => Ok (Some b)
  end.
(** [_default_measurement_labels], circuits.py:524-537, of a name. *)
Definition default_measurement_labels (s : pystr) : result (list pystr) :=
  if isl s "Pauli" then Ok [str "X"; str "Y"; str "Z"] else Err ValueError.
(** [_default_preparation_labels], circuits.py:540-558, of a name. *)
Definition default_preparation_labels (s : pystr) : result (list pystr) :=
  if isl s "Pauli" then Ok [str "Zp"; str "Zm"; str "Xp"; str "Yp"]
  else if isl s "SIC" then Ok [str "S0"; str "S1"; str "S2"; str "S3"]
  else Err ValueError.

(** [_operator_tuples], circuits.py:657-679: [it.product(labels, repeat=n)]. *)
Fixpoint operator_tuples (labels : list pystr) (n : nat) : list (list pystr) :=
  match n with
  | O => [[]]
  | S n' => flat_map (fun a => map (cons a) (operator_tuples labels n')) labels
  end.
(** The argument [meas_labels] or [prep_labels]. *)
Inductive labels_arg := LNone | LName (s : pystr) | LTuple (l : list pystr) | LList (l : list (list pystr)).
(** [_generate_labels], circuits.py:594-626, after the names are replaced. *)
Definition generate_labels (l : labels_arg) (n : nat) : list (option (list pystr)) :=
  match l with
  | LNone | LName _ => [None]
  | LTuple l => map Some (operator_tuples l n)
  | LList l => map Some l
  end.
Definition named_labels (default : pystr -> result (list pystr)) (l : labels_arg) : result labels_arg :=
  match l with LName s => do t <- default s; Ok (LTuple t) | _ => Ok l end.

(** A circuit: name, number of qubits, sizes of the classical registers,
    instructions. *)
Record tcirc := { t_name : pystr; t_width : nat; t_cregs : list nat; t_body : list cinstr }.

(** [circuit.qubits[i]] and [_format_registers], circuits.py:629-654. *)
Fixpoint distinctb (l : list nat) : bool := match l with [] => true | a :: l' => negb (mem a l') && distinctb l' end.
Definition format_qubits (width : nat) (qs : list nat) : result (list nat) :=
  do _ <- index_e qs 0;
  do qs <- mapM (fun q => if q <? width then Ok q else Err IndexError) qs;
  if distinctb qs then Ok qs else Err QiskitError.

(** The instructions of a circuit to which a register of [m] bits is put first. *)
Definition shift_clbits (m : nat) (i : cinstr) : cinstr := match i with CMeasure q c => CMeasure q (c + m) | _ => i end.

Definition label_val (l : list pystr) : pyval := VTup (map VStr l).
Definition opt_val (l : option (list pystr)) : pyval := match l with Some l => label_val l | None => VNone end.
(** circuits.py:481-487: the name of a circuit. *)
Definition circuit_name (p m : option (list pystr)) : pystr :=
  match p with
  | None => py_str (opt_val m)
  | Some p => py_str (VTup [label_val p; opt_val m])
  end.

(** circuits.py:459-488: one circuit. *)
Definition prep_part (width n : nat) (preparation : option tbasis) (qs : list nat) (p : option (list pystr)) : result (list cinstr) :=
  match p, preparation with
  | None, _ => Ok []
  | Some p, Some b =>
      do cs <- mapM (fun j => do op <- index_e p j; do q <- index_e qs j; preparation_circuit b op q) (seq 0 n);
      Ok (concat cs ++ [CBarrier (seq 0 width)])
  | Some _, None => Err TypeError
  end.
Definition meas_part (width n : nat) (measurement : option tbasis) (qs : list nat) (m : option (list pystr)) : result (list cinstr) :=
  match m, measurement with
  | None, _ => Ok []
  | Some m, Some b =>
      do cs <- mapM (fun j => do op <- index_e m j; do q <- index_e qs j; measurement_circuit b op q j) (seq 0 n);
      Ok (CBarrier (seq 0 width) :: concat cs)
  | Some _, None => Err TypeError
  end.

(** [_tomography_circuits], circuits.py:256-490. *)
Definition tomography_circuits (circuit : tcirc) (measured : list nat) (prepared : option (list nat))
    (meas_labels : labels_arg) (meas_basis : basis_arg) (prep_labels : labels_arg) (prep_basis : basis_arg) : result (list tcirc) :=
  let width := t_width circuit in
  let prepared := match prepared with Some p => p | None => measured end in
  do mqs <- format_qubits width measured;
  do pqs <- format_qubits width prepared;
  if negb (length pqs =? length mqs) then Err QiskitError
  else
    let n := length mqs in
    do measurement <- default_basis meas_basis;
    do _ <- match measurement with Some b => match tb_meas b with Some _ => Ok tt | None => Err QiskitError end | None => Ok tt end;
    do preparation <- default_basis prep_basis;
    do _ <- match preparation with Some b => match tb_prep b with Some _ => Ok tt | None => Err QiskitError end | None => Ok tt end;
    do _ <- match measurement, meas_labels with None, LNone => Ok tt | None, _ => Err ValueError | _, _ => Ok tt end;
    do _ <- match preparation, prep_labels with None, LNone => Ok tt | None, _ => Err ValueError | _, _ => Ok tt end;
    do ml <- named_labels default_measurement_labels meas_labels;
    do pl <- named_labels default_preparation_labels prep_labels;
    let new_bits := match measurement with Some _ => [n] | None => [] end in
    do cs <- mapM (fun p =>
        do before <- prep_part width n preparation pqs p;
        mapM (fun m =>
          do after <- meas_part width n measurement mqs m;
          Ok {| t_name := circuit_name p m; t_width := width; t_cregs := new_bits ++ t_cregs circuit;
                t_body := before ++ map (shift_clbits (fold_right Nat.add 0 new_bits)) (t_body circuit) ++ after |})
          (generate_labels ml n))
      (generate_labels pl n);
    Ok (concat cs).

(** [state_tomography_circuits], circuits.py:45-79. *)
Definition state_tomography_circuits (circuit : tcirc) (measured : list nat) (meas_labels : labels_arg) (meas_basis : basis_arg) : result (list tcirc) :=
  tomography_circuits circuit measured None meas_labels meas_basis LNone BNone.
(** [process_tomography_circuits], circuits.py:86-132. *)
Definition process_tomography_circuits (circuit : tcirc) (measured : list nat) (prepared : option (list nat))
    (meas_labels : labels_arg) (meas_basis : basis_arg) (prep_labels : labels_arg) (prep_basis : basis_arg) : result (list tcirc) :=
  tomography_circuits circuit measured prepared meas_labels meas_basis prep_labels prep_basis.

(** [tomography_circuit_tuples], circuits.py:565-591, for a number of qubits: the
    two loop variables are swapped and swapped back. *)
Definition tomography_circuit_tuples (n : nat) (meas_labels prep_labels : labels_arg) : result (list (option (list pystr) * option (list pystr))) :=
  do ml <- named_labels default_measurement_labels meas_labels;
  do pl <- named_labels default_preparation_labels prep_labels;
  Ok (flat_map (fun pl' => map (fun ml' => (ml', pl')) (generate_labels pl n)) (generate_labels ml n)).
