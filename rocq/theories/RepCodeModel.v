(** Model of [qiskit/ignis/verification/topological_codes]: [circuits.py]
    (whole file) and [fitters.py] (everything except
    [weight_syndrome_graph]).

    Qubits of a code of distance [d]: link qubits are [0 .. d-2], code qubits
    [d-1 .. 2d-2] (the order in which the registers are given to the circuit).
    Classical bits: [round_t_link_bit[j]] is [t*(d-1)+j] and [code_bit[j]] comes
    after all rounds.  [d >= 1] is assumed (a register of negative size cannot
    be created). *)
From Verif Require Import Base BasisSem.

Definition linkq (j : nat) : nat := j.
Definition codeq (d j : nat) : nat := d - 1 + j.

(** * circuits.py *)

(** circuits.py:29-68: the attributes [d], [T], the two circuits and the sizes
    of the classical registers in the order they are added. *)
Record repcode := {
  rc_d : nat; rc_T : nat;
  rc_circ0 : list instr; rc_circ1 : list instr;
  rc_cregs : list nat
}.

Definition rc_circ (c : repcode) (log : bool) : list instr := if log then rc_circ1 c else rc_circ0 c.

(** circuits.py:81-96 [x]; [barrier] is modelled as one [IBarrier]. *)
Definition x_gates (d : nat) (barrier : bool) : list instr :=
  map (fun j => IX (codeq d j)) (seq 0 d) ++ (if barrier then [IBarrier] else []).
Definition rc_x (c : repcode) (log0 log1 barrier : bool) : repcode :=
  {| rc_d := rc_d c; rc_T := rc_T c;
     rc_circ0 := rc_circ0 c ++ (if log0 then x_gates (rc_d c) barrier else []);
     rc_circ1 := rc_circ1 c ++ (if log1 then x_gates (rc_d c) barrier else []);
     rc_cregs := rc_cregs c |}.

(** circuits.py:118-134: the gates of one syndrome measurement round. *)
Definition round_gates (d t : nat) (reset barrier : bool) : list instr :=
  map (fun j => ICX (codeq d j) (linkq j)) (seq 0 (d - 1)) ++
  map (fun j => ICX (codeq d (j + 1)) (linkq j)) (seq 0 (d - 1)) ++
  flat_map (fun j => IMeasure (linkq j) (t * (d - 1) + j) :: (if reset then [IReset (linkq j)] else []))
           (seq 0 (d - 1)) ++
  (if barrier then [IBarrier] else []).

(** circuits.py:105-136 [syndrome_measurement]. *)
Definition rc_syndrome (c : repcode) (reset barrier : bool) : repcode :=
  let g := round_gates (rc_d c) (rc_T c) reset barrier in
  {| rc_d := rc_d c; rc_T := rc_T c + 1;
     rc_circ0 := rc_circ0 c ++ g; rc_circ1 := rc_circ1 c ++ g;
     rc_cregs := rc_cregs c ++ [rc_d c - 1] |}.

(** circuits.py:138-145 [readout]. *)
Definition readout_gates (d t : nat) : list instr :=
  map (fun j => IMeasure (codeq d j) (t * (d - 1) + j)) (seq 0 d).
Definition rc_readout (c : repcode) : repcode :=
  let g := readout_gates (rc_d c) (rc_T c) in
  {| rc_d := rc_d c; rc_T := rc_T c; rc_circ0 := rc_circ0 c ++ g; rc_circ1 := rc_circ1 c ++ g;
     rc_cregs := rc_cregs c ++ [rc_d c] |}.

(** circuits.py:29-68, 98-103 [__init__]. *)
Definition repetition_code (d T : nat) : repcode :=
  let c := {| rc_d := d; rc_T := 0; rc_circ0 := []; rc_circ1 := []; rc_cregs := [] |} in
  let c := rc_x c false true false in
  let c := Nat.iter (T - 1) (fun c => rc_syndrome c true false) c in
  if T =? 0 then c else rc_readout (rc_syndrome c false false).

(** The counts key of a run: registers separated by a space, the register
    added last leftmost, bit 0 of a register rightmost (Qiskit Terra). *)
Definition bit_char (b : bool) : ascii := if b then "1"%char else "0"%char.
Definition sp : ascii := " "%char.
Fixpoint join (sep : pystr) (l : list pystr) : pystr :=
  match l with [] => [] | [s] => s | s :: l' => s ++ sep ++ join sep l' end.
Fixpoint reg_strings (offset : nat) (sizes : list nat) (bits : nat -> bool) : list pystr :=
  match sizes with
  | [] => []
  | n :: sizes' => rev (map (fun i => bit_char (bits (offset + i))) (seq 0 n)) :: reg_strings (offset + n) sizes' bits
  end.
Definition run_string (cregs : list nat) (body : list instr) : pystr :=
  join [sp] (rev (reg_strings 0 cregs (cb (exec body all_zero)))).

(** [s.split(' ')]. *)
Fixpoint split1 (cur s : pystr) : list pystr :=
  match s with
  | [] => [rev cur]
  | c :: s' => if eqb c sp then rev cur :: split1 [] s' else split1 (c :: cur) s'
  end.
Definition split_sp (s : pystr) : list pystr := split1 [] s.

(** [s.split('  ')] (two spaces). *)
Fixpoint split2 (cur s : pystr) : list pystr :=
  match s with
  | [] => [rev cur]
  | c :: s' =>
      match s' with
      | c' :: s'' => if eqb c sp && eqb c' sp then rev cur :: split2 [] s'' else split2 (c :: cur) s'
      | [] => [rev (c :: cur)]
      end
  end.
Definition split_dsp (s : pystr) : list pystr := split2 [] s.

(** [l[-k]] for [k >= 1]. *)
Definition index_back {A} (l : list A) (k : nat) : result A :=
  if (1 <=? k) && (k <=? length l) then index_e l (length l - k) else Err IndexError.

(** circuits.py:170-199: one string of [process_results]. *)
Definition process_string (d T : nat) (string : pystr) : result pystr :=
  do a <- index_e string 0;
  do b <- index_e string (d - 1);
  let measured_log := [a; sp; b] in
  do final <- mapM (fun j =>
       do x <- index_e string j; do y <- index_e string (j + 1);
       Ok (if eqb x y then "0"%char else "1"%char)) (seq 0 (d - 1));
  let full_syndrome := final ++ skipn d string in
  let syndrome_list := split_sp full_syndrome in
  do changes <- mapM (fun t =>
       mapM (fun j =>
         if t =? 0 then
           do r <- index_back syndrome_list 1; do x <- index_e r j;
           Ok (if eqb x "0"%char then "0"%char else "1"%char)
         else
           do r <- index_back syndrome_list t; do x <- index_e r j;
           do r' <- index_back syndrome_list (t + 1); do x' <- index_e r' j;
           Ok (if eqb x x' then "0"%char else "1"%char)) (seq 0 (d - 1))) (seq 0 (T + 1));
  let syndrome_changes := flat_map (fun s => s ++ [sp]) changes in
  Ok (measured_log ++ [sp; sp] ++ removelast syndrome_changes).

(** circuits.py:147-203 [process_results], for one logical value ... *)
Definition process_counts (d T : nat) (raw : dict pystr Z) : result (dict pystr Z) :=
  foldM (fun acc kv => do s <- process_string d T (fst kv); Ok (dset acc s (snd kv))) raw [].
(** ... and for all of them. *)
Definition process_results (d T : nat) (raw : dict pystr (dict pystr Z))
  : result (dict pystr (dict pystr Z)) :=
  foldM (fun acc lr => do r <- process_counts d T (snd lr); Ok (dset acc (fst lr) r)) raw [].

(** * fitters.py *)

(** A node of the syndrome graph: the tuple of its coordinates. *)
Definition node := list nat.

(** fitters.py:66-71 [_separate_string]. *)
Definition separate_string (s : pystr) : list (list pystr) := map split_sp (split_dsp s).

(** fitters.py:73-88 [_string2nodes], 226-236: the elements of a string, in
    reading order, that satisfy a condition on type and character. *)
Definition enum {A} (l : list A) : list (nat * A) := combine (seq 0 (length l)) l.
Definition select_nodes (keep : nat -> ascii -> bool) (s : pystr) : list node :=
  flat_map (fun '(ty, rounds) =>
    flat_map (fun '(r, elements) =>
      flat_map (fun '(e, c) => if keep ty c then [[ty; r; e]] else []) (enum elements))
      (enum rounds)) (enum (separate_string s)).
Definition string2nodes (s : pystr) : list node := select_nodes (fun _ c => eqb c "1"%char) s.

(** fitters.py:115-124: the injected errors.  On computational basis states
    [Z] only changes a phase and [Y] acts as [X] up to a phase. *)
Inductive pauli := PX | PY | PZ.
Definition pauli_instrs (p : pauli) (q : nat) : list instr :=
  match p with PZ => [] | _ => [IX q] end.
(** [qc.data[j][1]].  (A barrier acts on all qubits; the constructor adds
    none.) *)
Definition instr_qubits (i : instr) : list nat :=
  match i with
  | IX q => [q] | ICX c t => [c; t] | IBarrier => [] | IMeasure q _ => [q] | IReset q => [q]
  end.
Definition error_circuit (body : list instr) (j q : nat) (p : pauli) : list instr :=
  firstn j body ++ pauli_instrs p q ++ skipn j body.

(** fitters.py:135-160: the edges contributed by one injected error.  The
    simulator returns one outcome with all [shots]. *)
Definition error_edges (c : repcode) (shots : Z) (j q : nat) (p : pauli) : result (list (node * node)) :=
  do results <- process_counts (rc_d c) (rc_T c)
        [(run_string (rc_cregs c) (error_circuit (rc_circ0 c) j q p), shots)];
  do es <- mapM (fun string =>
       let nodes := string2nodes string in
       if (length nodes =? 0) || (length nodes =? 2) then
         Ok (flat_map (fun source => flat_map (fun target =>
               if eqb source target then [] else [(source, target)]) nodes) nodes)
       else Err AssertionError) (dkeys results);
  Ok (concat es).

(** fitters.py:90-162 [_make_syndrome_graph]: the list of edges, all of
    distance 1.  Every node belongs to an edge. *)
Definition make_syndrome_graph (c : repcode) (shots : Z) : result (list (node * node)) :=
  do es <- mapM (fun ji : nat * instr => let '(j, i) := ji in
       do es <- mapM (fun q =>
            do es <- mapM (fun p => error_edges c shots j q p) [PX; PY; PZ]; Ok (concat es))
          (instr_qubits i);
       Ok (concat es)) (enum (rc_circ0 c));
  Ok (concat es).

Section Decoder.
(** [nx.shortest_path_length] on the graph with the given edges ([None] when
    it raises), and [nx.max_weight_matching(maxcardinality=True)]: external. *)
Variable shortest_path_length : list (node * node) -> node -> node -> option nat.
Variable max_weight_matching : list (node * node * Z) -> list (node * node).

(** fitters.py:202-248 [make_error_graph] with [subgraphs=None]: nodes, and
    the weights of all ordered pairs. *)
Definition make_error_graph (S : list (node * node)) (string : pystr)
  : result (list node * dict (node * node) Z) :=
  let nodes := select_nodes (fun ty c => eqb c "1"%char || (ty =? 0)) string in
  do ws <- mapM (fun source =>
       mapM (fun target =>
         match shortest_path_length S source target with
         | Some n => Ok ((source, target), (- Z.of_nat n)%Z)
         | None => Err ValueError
         end) (filter (fun t => negb (eqb t source)) nodes)) nodes;
  Ok (nodes, concat ws).

(** [max(d, key=d.get)]: first key of largest value. *)
Fixpoint argmax (d : list (node * Z)) : result (node * Z) :=
  match d with
  | [] => Err ValueError
  | kv :: d' => match argmax d' with
                | Ok kv' => if (snd kv <? snd kv')%Z then Ok kv' else Ok kv
                | Err _ => Ok kv
                end
  end.

Definition is_logical (n : node) : bool := match n with 0 :: _ => true | _ => false end.

(** fitters.py:266-296: the edges of [E_matching]. *)
Definition matching_graph (nodes : list node) (w : dict (node * node) Z)
  : result (list (node * node * Z)) :=
  let logical_nodes := filter is_logical nodes in
  let syndrome_nodes := filter (fun n => negb (is_logical n)) nodes in
  do parts <- mapM (fun source =>
       do syn <- mapM (fun target => do x <- dget_e w (source, target); Ok (source, target, x))
                      (filter (fun t => negb (eqb t source)) syndrome_nodes);
       do pot <- mapM (fun target => do x <- dget_e w (source, target); Ok (target, x)) logical_nodes;
       do best <- argmax pot;
       Ok (syn ++ [(source, fst best ++ source, snd best)], fst best ++ source)) syndrome_nodes;
  let neighbours := map snd parts in
  Ok (concat (map fst parts) ++
      flat_map (fun s => flat_map (fun t => if eqb t s then [] else [(s, t, 0%Z)]) neighbours) neighbours).

(** [str((int(x) + 1) % 2)] on one-digit strings. *)
Definition flip_digit (s : pystr) : result pystr :=
  match s with
  | [c] => if eqb c "0"%char then Ok ["1"%char]
           else if eqb c "1"%char then Ok ["0"%char] else Err ValueError
  | _ => Err ValueError
  end.
Definition flip_at (l : list pystr) (i : nat) : result (list pystr) :=
  do x <- index_e l i; do y <- flip_digit x; Ok (firstn i l ++ y :: skipn (i + 1) l).

(** fitters.py:250-314 [matching]. *)
Definition matching (S : list (node * node)) (string : pystr) : result pystr :=
  do (nodes, w) <- make_error_graph S string;
  do edges <- matching_graph nodes w;
  let matches := max_weight_matching edges in
  do logicals <- index_e (separate_string string) 0;
  do logicals <- foldM (fun logs '(source, target) =>
       do logs <- (if is_logical source && negb (is_logical target)
                   then flip_at logs (nth 1 source 0) else Ok logs);
       if is_logical target && negb (is_logical source)
       then flip_at logs (nth 1 target 0) else Ok logs) matches logicals;
  Ok (removelast (flat_map (fun l => l ++ [sp]) logicals)).
End Decoder.

(** [incorrect_shots / shots] as a fraction. *)
Definition ratio (incorrect shots : Z) : result (Z * Z) :=
  if (shots =? 0)%Z then Err ZeroDivisionError else Ok (incorrect, shots).

(** [string[0] != log]; an empty string raises. *)
Definition first_differs (string log : pystr) : result bool :=
  do c <- index_e string 0; Ok (negb (eqb [c] log)).

(** fitters.py:346-351, 392-397: count shots and wrong shots. *)
Definition tally (log : pystr) (d : dict pystr Z) : result (Z * Z) :=
  foldM (fun '(incorrect, shots) kv =>
    do wrong <- first_differs (fst kv) log;
    Ok ((if wrong then incorrect + snd kv else incorrect)%Z, (shots + snd kv)%Z)) d (0%Z, 0%Z).

(** fitters.py:316-356 [get_logical_prob]; [decode] is [self.matching], or
    [None] for an unknown algorithm (a warning, and nothing is decoded). *)
Definition get_logical_prob (decode : option (pystr -> result pystr))
  (results : dict pystr (dict pystr Z)) : result (dict pystr (Z * Z)) :=
  foldM (fun acc '(log, cnts) =>
    do corrected <- match decode with
      | Some f => foldM (fun d kv => do s <- f (fst kv); Ok (dset d s (dget0 d s + snd kv)%Z)) cnts []
      | None => Ok []
      end;
    do (i, s) <- tally log corrected;
    do p <- ratio i s;
    Ok (dset acc log p)) results [].

(** fitters.py:378-388: does the string have a trivial syndrome? *)
Definition error_free (string : pystr) : bool :=
  forallb (fun c => eqb c "0"%char || eqb c sp) (join [sp; sp] (tl (split_dsp string))).

(** fitters.py:359-401 [postselection_decoding]. *)
Definition postselection_decoding (results : dict pystr (dict pystr Z)) : result (dict pystr (Z * Z)) :=
  foldM (fun acc '(log, cnts) =>
    let post := fold_left (fun d kv => if error_free (fst kv) then dset d (fst kv) (snd kv) else d) cnts [] in
    do (i, s) <- tally log post;
    do p <- ratio i s;
    Ok (dset acc log p)) results [].

(** fitters.py:404-448 [lookuptable_decoding].  [p] has the keys '0' and '1',
    so any other logical value raises [KeyError]. *)
Definition lookuptable_decoding (training real : dict pystr (dict pystr Z))
  : result (dict pystr (Z * Z)) :=
  foldM (fun acc '(log, cnts) =>
    do (i, s) <- foldM (fun '(incorrect, shots) kv =>
         do t0 <- dget_e training (str "0");
         do t1 <- dget_e training (str "1");
         let p := [(str "0", dget0 t0 (fst kv)); (str "1", dget0 t1 (fst kv))] in
         let other := (if eqb log (str "0") then str "1" else []) ++ (if eqb log (str "1") then str "0" else []) in
         do po <- dget_e p other; do pl <- dget_e p log;
         Ok ((if po >? pl then incorrect + snd kv else incorrect)%Z, (shots + snd kv)%Z)) cnts (0%Z, 0%Z);
    do p <- ratio i s;
    Ok (dset acc log p)) real [].
