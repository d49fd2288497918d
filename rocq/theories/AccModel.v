(** Model of [qiskit/ignis/verification/accreditation/]: [qotp.py],
    [circuits.py] and [fitters.py].

    Simplifications.  Circuits have one quantum and one classical register and
    are lists of instructions.  [transpile] is a parameter: [layer_parser]
    receives the elements of the transpiled circuit in the order of
    [dag.layers()], and [tp] stands for the later transpilations of layers of
    single-qubit gates.  [rng.randint(2, ...)] reads the next bits of an
    arbitrary stream [rnd]. *)
From Coq Require Import QArith Qreals Reals.
From Verif Require Import Base CountsModel QSem DihedralModel RBSeqModel.
Open Scope nat_scope.

Definition gate2 (name : string) (q0 q1 : nat) : cinstr := CGate {| gname := str name; gparams := []; gqubits := [q0; q1] |}.
Definition instr_qubits (i : cinstr) : list nat :=
  match i with CGate g => gqubits g | CBarrier qs => qs | CMeasure q _ => [q] end.

(** The dictionary returned by [layer_parser] (qotp.py:121-126); both registers
    are represented by the number of qubits. *)
Record layers := {
  ly_single : list (list cinstr);
  ly_two : list (list cinstr);
  ly_meas : list cinstr;
  ly_gate : pystr;
  ly_n : nat
}.

(** * qotp.py *)

(** The state of the loop of [layer_parser]: [singlequbitlayers] is
    [map fst p_done ++ [p_pre; p_post]] and [twoqubitlayers] is
    [map snd p_done ++ [p_two]]. *)
Record pstate := {
  p_done : list (list cinstr * list cinstr);
  p_pre : list cinstr;
  p_two : list cinstr;
  p_post : list cinstr;
  p_cur : list nat;
  p_meas : list cinstr
}.
Definition p_init : pstate := {| p_done := []; p_pre := []; p_two := []; p_post := []; p_cur := []; p_meas := [] |}.

(** qotp.py:74-77, 92-95: a new pair of layers. *)
Definition new_layer (s : pstate) : pstate :=
  {| p_done := p_done s ++ [(p_pre s, p_two s)]; p_pre := p_post s; p_two := []; p_post := []; p_cur := []; p_meas := p_meas s |}.
Definition add_pre (s : pstate) (i : cinstr) : pstate :=
  {| p_done := p_done s; p_pre := p_pre s ++ [i]; p_two := p_two s; p_post := p_post s; p_cur := p_cur s; p_meas := p_meas s |}.
Definition add_post (s : pstate) (i : cinstr) : pstate :=
  {| p_done := p_done s; p_pre := p_pre s; p_two := p_two s; p_post := p_post s ++ [i]; p_cur := p_cur s; p_meas := p_meas s |}.
Definition add_two (s : pstate) (i : cinstr) : pstate :=
  {| p_done := p_done s; p_pre := p_pre s; p_two := p_two s ++ [i]; p_post := p_post s; p_cur := p_cur s; p_meas := p_meas s |}.
Definition add_meas (s : pstate) (i : cinstr) : pstate :=
  {| p_done := p_done s; p_pre := p_pre s; p_two := p_two s; p_post := p_post s; p_cur := p_cur s; p_meas := p_meas s ++ [i] |}.
Definition add_cur (s : pstate) (qs : list nat) : pstate :=
  {| p_done := p_done s; p_pre := p_pre s; p_two := p_two s; p_post := p_post s; p_cur := p_cur s ++ qs; p_meas := p_meas s |}.

(** qotp.py:68-112: one circuit element. *)
Definition parse_step (g2 : pystr) (s : pstate) (i : cinstr) : result pstate :=
  match i with
  | CBarrier _ =>
      let s := match p_cur s with [] => s | _ => new_layer s end in
      Ok (add_pre s i)
  | CMeasure _ _ => Ok (add_meas s i)
  | CGate g =>
      if eqb (gname g) (str "u1") || eqb (gname g) (str "u2") || eqb (gname g) (str "u3") then
        do q <- index_e (gqubits g) 0;
        Ok (if mem q (p_cur s) then add_post s i else add_pre s i)
      else if eqb (gname g) (str "cx") then
        do q0 <- index_e (gqubits g) 0;
        do q1 <- index_e (gqubits g) 1;
        let s := if mem q0 (p_cur s) || mem q1 (p_cur s) then new_layer s else s in
        do s <- (if eqb g2 (str "cx") then Ok (add_two s (gate2 "cx" q0 q1))
                 else if eqb g2 (str "cz") then
                   Ok (add_pre (add_post (add_two s (gate2 "cz" q0 q1)) (had q1)) (had q1))
                 else Err QiskitError);
        Ok (add_cur s [q0; q1])
      else Err QiskitError
  end.

Section Qotp.
(** [transpile(circ, basis_gates=['u1', 'u2', 'u3'])]. *)
Variable tp : list cinstr -> list cinstr.

(** qotp.py:29-127 [layer_parser] after the first transpilation. *)
Definition layer_parser (g2 : pystr) (n : nat) (ops : list cinstr) : result layers :=
  do s <- foldM (parse_step g2) ops p_init;
  let singles := map fst (p_done s) ++ [p_pre s] ++ match p_cur s with [] => [] | _ => [p_post s] end in
  let twos := map snd (p_done s) ++ match p_cur s with [] => [] | _ => [p_two s] end in
  Ok {| ly_single := map tp singles; ly_two := twos; ly_meas := p_meas s; ly_gate := g2; ly_n := n |}.

(** [rng.randint(2, size=n)] at position [pos] of the stream. *)
Definition draw (rnd : nat -> bool) (pos n : nat) : list bool := map rnd (seq pos n).
Definition bit (l : list bool) (q : nat) : bool := nth q l false.
Definition z_gate (q : nat) : cinstr := gate1 "z" [] q.
Definition x_gate (q : nat) : cinstr := gate1 "x" [] q.

(** qotp.py:156-158; 166-170 and 208-212; 199-203. *)
Definition zs_gates (n : nat) (zs : list bool) : list cinstr :=
  flat_map (fun q => if bit zs q then [z_gate q] else []) (seq 0 n).
Definition zx_gates (n : nat) (zs xs : list bool) : list cinstr :=
  flat_map (fun q => (if bit zs q then [z_gate q] else []) ++ (if bit xs q then [x_gate q] else [])) (seq 0 n).
Definition xz_gates (n : nat) (zs xs : list bool) : list cinstr :=
  flat_map (fun q => (if bit xs q then [x_gate q] else []) ++ (if bit zs q then [z_gate q] else [])) (seq 0 n).

(** qotp.py:180-198: the Paulis after one two-qubit gate. *)
Definition pauli_step (g2 : pystr) (p : list bool * list bool) (i : cinstr) : result (list bool * list bool) :=
  do c <- index_e (instr_qubits i) 0;
  do t <- index_e (instr_qubits i) 1;
  let '(zs, xs) := p in
  if eqb g2 (str "cx") then
    let zs := set1 zs c (xorb (bit zs c) (bit zs t)) in
    let xs := set1 xs t (xorb (bit xs t) (bit xs c)) in
    Ok (zs, xs)
  else if eqb g2 (str "cz") then
    let zs := set1 zs c (xorb (bit zs c) (bit xs t)) in
    let zs := set1 zs t (xorb (bit zs t) (bit xs c)) in
    Ok (zs, xs)
  else Err QiskitError.

(** qotp.py:159-203: one layer; the state is [qotp_circ], [temp_circ] and the
    position in the stream. *)
Definition qotp_step (rnd : nat -> bool) (L : layers) (s : list cinstr * list cinstr * nat) (l : nat * list cinstr)
  : result (list cinstr * list cinstr * nat) :=
  let '(circ, temp, pos) := s in
  do single <- index_e (ly_single L) (fst l);
  let zs := draw rnd pos (ly_n L) in
  let xs := draw rnd (pos + ly_n L) (ly_n L) in
  let temp := temp ++ single ++ zx_gates (ly_n L) zs xs in
  let circ := circ ++ tp temp ++ [CBarrier (seq 0 (ly_n L))] ++ snd l ++ [CBarrier (seq 0 (ly_n L))] in
  do p <- foldM (pauli_step (ly_gate L)) (snd l) (zs, xs);
  Ok (circ, xz_gates (ly_n L) (fst p) (snd p), pos + 2 * ly_n L).

(** qotp.py:130-220 [QOTP_fromlayers]; also the new position in the stream. *)
Definition qotp_fromlayers (rnd : nat -> bool) (pos : nat) (L : layers) : result (list cinstr * list bool * nat) :=
  do s <- foldM (qotp_step rnd L) (combine (seq 0 (length (ly_two L))) (ly_two L))
            ([], zs_gates (ly_n L) (draw rnd pos (ly_n L)), pos + ly_n L);
  let '(circ, temp, pos) := s in
  do single <- (match ly_single L with [] => Err IndexError | _ => Ok (last (ly_single L) []) end);
  let zs := draw rnd pos (ly_n L) in
  let xs := draw rnd (pos + ly_n L) (ly_n L) in
  let circ := circ ++ tp (temp ++ single ++ zx_gates (ly_n L) zs xs) ++ ly_meas L in
  Ok (circ, rev xs, pos + 2 * ly_n L).

(** qotp.py:223-259 [QOTP]. *)
Fixpoint qotp_loop (num : nat) (rnd : nat -> bool) (pos : nat) (L : layers) : result (list (list cinstr * list bool)) :=
  match num with
  | 0 => Ok []
  | S num' =>
      do r <- qotp_fromlayers rnd pos L;
      let '(circ, postp, pos') := r in
      do rest <- qotp_loop num' rnd pos' L;
      Ok ((circ, postp) :: rest)
  end.
Definition qotp (g2 : pystr) (n : nat) (ops : list cinstr) (num : nat) (rnd : nat -> bool) : result (list (list cinstr * list bool)) :=
  do L <- layer_parser g2 n ops;
  qotp_loop num rnd 0 L.

(** * circuits.py *)

(** circuits.py:131-160: the gates before and after one two-qubit gate. *)
Definition trap_pair (g2 : pystr) (b : bool) (q0 q1 : nat) : result (list cinstr * list cinstr) :=
  let s := gate1 "s" [] in let sdg := gate1 "sdg" [] in
  if eqb g2 (str "cx") then
    Ok (if b then ([had q0; s q1; had q1], [had q0; had q1; sdg q1]) else ([s q0], [sdg q0]))
  else if eqb g2 (str "cz") then
    Ok (if b then ([had q0; s q1], [had q0; sdg q1]) else ([s q0; had q1], [sdg q0; had q1]))
  else Err QiskitError.
(** circuits.py:165-172: a qubit without two-qubit gate. *)
Definition trap_idle (b : bool) (q : nat) : list cinstr * list cinstr :=
  if b then ([had q], [had q]) else ([gate1 "s" [] q], [gate1 "sdg" [] q]).

(** circuits.py:128-172: one two-qubit layer; the state is
    [gate_trap[layer]], [gate_trap[layer+1]], [regs2q] and the position. *)
Definition trap_gate (g2 : pystr) (rnd : nat -> bool) (s : list cinstr * list cinstr * list nat * nat) (i : cinstr)
  : result (list cinstr * list cinstr * list nat * nat) :=
  let '(own, inv, regs, pos) := s in
  do q0 <- index_e (instr_qubits i) 0;
  do q1 <- index_e (instr_qubits i) 1;
  do p <- trap_pair g2 (rnd pos) q0 q1;
  Ok (own ++ fst p, inv ++ snd p, regs ++ instr_qubits i, pos + 1).
Definition trap_rest (rnd : nat -> bool) (regs : list nat) (s : list cinstr * list cinstr * nat) (q : nat) : list cinstr * list cinstr * nat :=
  let '(own, inv, pos) := s in
  if mem q regs then s else (own ++ fst (trap_idle (rnd pos) q), inv ++ snd (trap_idle (rnd pos) q), pos + 1).
Definition trap_layer (L : layers) (rnd : nat -> bool) (s : list (list cinstr) * list cinstr * nat) (gates2q : list cinstr)
  : result (list (list cinstr) * list cinstr * nat) :=
  let '(done, cur, pos) := s in
  do r <- foldM (trap_gate (ly_gate L) rnd) gates2q (cur, [], [], pos);
  let '(own, inv, regs, pos) := r in
  let '(own, inv, pos) := fold_left (trap_rest rnd regs) (seq 0 (ly_n L)) (own, inv, pos) in
  Ok (done ++ [own], inv, pos).

(** circuits.py:104-176 [_routine_two]. *)
Definition routine_two (L : layers) (rnd : nat -> bool) (pos : nat) : result (list (list cinstr) * nat) :=
  let basis := rnd pos in
  let hs := if basis then map had (seq 0 (ly_n L)) else [] in
  do s <- foldM (trap_layer L rnd) (ly_two L) ([], hs, pos + 1);
  let '(done, cur, pos) := s in
  Ok (done ++ [cur ++ hs], pos).

(** circuits.py:70-102 [generate_circuits]; [v_zero] is the draw from
    [randint(0, num_trap+1)]. *)
Definition trap_layers (L : layers) (singles : list (list cinstr)) : layers :=
  {| ly_single := singles; ly_two := ly_two L; ly_meas := ly_meas L; ly_gate := ly_gate L; ly_n := ly_n L |}.
Definition one_circuit (L : layers) (rnd : nat -> bool) (v_zero : nat) (s : list (list cinstr * list bool) * nat) (k : nat)
  : result (list (list cinstr * list bool) * nat) :=
  let '(out, pos) := s in
  do t <- (if k =? v_zero then Ok (L, pos)
           else do r <- routine_two L rnd pos; Ok (trap_layers L (fst r), snd r));
  do r <- qotp_fromlayers rnd (snd t) (fst t);
  let '(circ, postp, pos) := r in
  Ok (out ++ [(circ, postp)], pos).
Definition generate_circuits (L : layers) (rnd : nat -> bool) (num_trap v_zero : nat) : result (list (list cinstr * list bool) * nat) :=
  foldM (one_circuit L rnd v_zero) (seq 0 (num_trap + 1)) ([], 0).
End Qotp.

(** qotp.py:262-279 [QOTPCorrectCounts]. *)
Definition shift_key (key : pystr) (postp : list bool) : pystr :=
  map (fun ks => if xorb (eqb (fst ks) ch1) (snd ks) then ch1 else ch0) (combine key postp).
Definition qotp_correct_counts (c : list (pystr * Z)) (postp : list bool) : list (pystr * Z) :=
  fold_left (fun out kv => dset out (shift_key (fst kv) postp) (snd kv)) c [].

(** * fitters.py *)

(** The attributes of an [AccreditationFitter] (fitters.py:42-50) that live in
    the instance once assigned; [outputs] is a list of the class, shared by all
    instances, and is kept separately. *)
Record fitter := { f_acc : nat; f_runs : nat; f_flag : bool; f_traps : Z; f_bound : Q; f_conf : R }.
Definition fitter_new : fitter := {| f_acc := 0; f_runs := 0; f_flag := true; f_traps := 0; f_bound := 1; f_conf := 1 |}.
Definition outputs := list (option pystr).

(** fitters.py:79-90: the string left by the loop over the counts. *)
Definition last_key (c : list (pystr * Z)) : option pystr := last (map (fun kv => Some (fst kv)) c) None.

(** fitters.py:91-97: the flag, and the target's string when it was reached;
    [len(None)] raises [TypeError]. *)
Fixpoint check_traps (k v_zero : nat) (all : list (option pystr)) (flag : bool) (target : option (option pystr))
  : (bool * option (option pystr)) * option pyerr :=
  match all with
  | [] => (flag, target, None)
  | s :: all' =>
      if k =? v_zero then check_traps (S k) v_zero all' flag (Some s)
      else match s with
           | None => (flag, target, Some TypeError)
           | Some s => check_traps (S k) v_zero all' (flag && eqb s (repeat ch0 (length s))) target
           end
  end.

(** fitters.py:52-100 [single_protocol_run].  The [QiskitError]s are only
    constructed, not raised.  A missing target leaves the local variable
    unbound; its exception is represented by [AttributeError]. *)
Definition single_protocol_run (get_counts : nat -> result (list (pystr * Z))) (postp_list : list (list bool)) (v_zero : nat)
  (w : outputs) (f : fitter) : outputs * fitter * option pyerr :=
  let runs := f_runs f + 1 in
  let traps := if runs =? 1 then (Z.of_nat (length postp_list) - 1)%Z else f_traps f in
  let with_flag := fun acc b => {| f_acc := acc; f_runs := runs; f_flag := b; f_traps := traps; f_bound := f_bound f; f_conf := f_conf f |} in
  match mapM (fun ip => do c <- get_counts (fst ip); Ok (last_key (qotp_correct_counts c (snd ip))))
          (combine (seq 0 (length postp_list)) postp_list) with
  | Err e => (w, with_flag (f_acc f) true, Some e)
  | Ok all =>
      let '(flag, target, err) := check_traps 0 v_zero all true None in
      match err with
      | Some e => (w, with_flag (f_acc f) flag, Some e)
      | None =>
          if flag then
            match target with
            | None => (w, with_flag (f_acc f + 1) flag, Some AttributeError)
            | Some s => (w ++ [s], with_flag (f_acc f + 1) flag, None)
            end
          else (w, with_flag (f_acc f) flag, None)
      end
  end.

(** fitters.py:102-115 [bound_variation_distance]. *)
Definition bound_variation_distance (theta : Q) (f : fitter) : result fitter :=
  if f_runs f =? 0 then Err ZeroDivisionError else
  let ratio := (inject_Z (Z.of_nat (f_acc f)) / inject_Z (Z.of_nat (f_runs f)))%Q in
  let cap := fun b => if Qle_bool b 1 then b else 1%Q in
  if Qle_bool ratio theta then
    Ok {| f_acc := f_acc f; f_runs := f_runs f; f_flag := f_flag f; f_traps := f_traps f; f_bound := cap (f_bound f); f_conf := f_conf f |}
  else if (f_traps f + 1 =? 0)%Z then Err ZeroDivisionError
  else
    let b := ((17 # 10) / inject_Z (f_traps f + 1) / (ratio - theta))%Q in
    let n := INR (f_runs f) in
    Ok {| f_acc := f_acc f; f_runs := f_runs f; f_flag := f_flag f; f_traps := f_traps f; f_bound := cap b;
          f_conf := (1 - 2 * exp (- (2) * Q2R theta * n * n))%R |}.
