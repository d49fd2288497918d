(** Model of qiskit/ignis/verification/entanglement: linear.py,
    parallelize.py (BConfig up to transpilation) and the count functions of
    analysis.py.  Circuits are lists of instructions on one quantum register
    'q' of [n] qubits.  The free parameters of the [_para] functions are
    arguments: the circuit with these values bound. *)
From Coq Require Import QArith Qcanon.
From Verif Require Import LinAlg Base CountsModel DihedralModel RBSeqModel.
Open Scope nat_scope.

Definition cx_i (c t : nat) : cinstr := CGate {| gname := str "cx"; gparams := []; gqubits := [c; t] |}.
(** [circ.x(q)], [circ.append(gate, [q])] on a register: once per qubit. *)
Definition on_all (n : nat) (name : string) (ps : list Q) : list cinstr := map (gate1 name ps) (seq 0 n).
Definition bar (n : nat) : cinstr := CBarrier (seq 0 n).
(** [QuantumRegister(n)]: not of size 0. *)
Definition register (n : nat) : result unit := if n =? 0 then Err CircuitError else Ok tt.

(** linear.py:26-58 [get_measurement_circ]; parallelize.py:241-277. *)
Definition get_measurement_circ (n : nat) (full : bool) : result (list cinstr) :=
  do _ <- register n;
  if full then Ok (bar n :: map (fun q => CMeasure q q) (seq 0 n))
  else Ok [bar n; CMeasure 0 0].

(** linear.py:61-87 [get_ghz_simple]. *)
Definition ghz_linear (n : nat) : list cinstr := had 0 :: map (fun i => cx_i (i - 1) i) (seq 1 (n - 1)).
Definition get_ghz_simple (n : nat) (measure full : bool) : result (list cinstr) :=
  do _ <- register n;
  if measure then do m <- get_measurement_circ n full; Ok (ghz_linear n ++ m)
  else Ok (ghz_linear n).

(** [QuantumCircuit.inverse] (terra) for circuits of h and cx, which are their
    own inverses. *)
Definition inverse (c : list cinstr) : list cinstr := rev c.

(** linear.py:90-118 [get_ghz_mqc]; 121-149 [get_ghz_mqc_para]. *)
Definition get_ghz_mqc (n : nat) (delta : Q) (full : bool) : result (list cinstr) :=
  do circ <- get_ghz_simple n false true;
  let circinv := inverse circ in
  do meas <- get_measurement_circ n full;
  Ok (circ ++ [bar n] ++ on_all n "u1" [delta] ++ on_all n "x" [] ++ [bar n] ++ circinv ++ meas).

(** linear.py:152-174 [get_ghz_po]; 177-202 [get_ghz_po_para], which has no
    barrier after the rotations. *)
Definition get_ghz_po (n : nat) (delta : Q) : result (list cinstr) :=
  do circ <- get_ghz_simple n false true;
  do meas <- get_measurement_circ n true;
  Ok (circ ++ [bar n] ++ on_all n "u2" [delta; (- delta)%Q] ++ [bar n] ++ meas).
Definition get_ghz_po_para (n : nat) (t minus_t : Q) : result (list cinstr) :=
  do circ <- get_ghz_simple n false true;
  do meas <- get_measurement_circ n true;
  Ok (circ ++ [bar n] ++ on_all n "u2" [t; minus_t] ++ meas).

(** * analysis.py *)

(** analysis.py:20-41 [ordered_list_generator]: the binary string of width [qn]
    of each number. *)
Definition ordered_list_generator (counts : list (pystr * Z)) (qn : nat) : list Z :=
  map (fun a => match dget counts (zfill qn (bin_str (N.of_nat a))) with Some v => v | None => 0%Z end) (seq 0 (2 ^ qn)).
(** analysis.py:44-58 [composite_pauli_z]: the diagonal of the Kronecker power,
    which is the only part used (and is diag(1,-1) for [qn = 0]). *)
Fixpoint pauli_z_diag (qn : nat) : list Z :=
  match qn with 0 => [1; -1]%Z | 1 => [1; -1]%Z | S k => flat_map (fun a => [a; - a]%Z) (pauli_z_diag k) end.
(** analysis.py:61-74 [composite_pauli_z_expvalue]; numpy's dot of different
    lengths raises. *)
Definition composite_pauli_z_expvalue (counts : list (pystr * Z)) (qn : nat) : result Z :=
  let v := ordered_list_generator counts qn in
  let d := pauli_z_diag qn in
  if length v =? length d then Ok (zsum (map (fun p => (fst p * snd p)%Z) (combine v d))) else Err ValueError.

(** * parallelize.py *)

(** parallelize.py:63-73 [_cmap_calib]: reversed pairs are added, and the list
    sorted (stably) by its first entries. *)
Section Sorting.
Context {A : Type}.
Variable le : A -> A -> bool.
Fixpoint insert_stable (a : A) (l : list A) : list A :=
  match l with [] => [a] | b :: l' => if le a b then a :: l else b :: insert_stable a l' end.
Definition stable_sort (l : list A) : list A := fold_right insert_stable [] l.
End Sorting.
Definition cmap_calib (cmap : list (nat * nat)) : list (nat * nat) :=
  stable_sort (fun a b => fst a <=? fst b)
    (cmap ++ flat_map (fun a => if mem (snd a, fst a) cmap then [] else [(snd a, fst a)]) cmap).

(** parallelize.py:52-61 [_initialize_nodes]. *)
Definition nodes_of (cmap : list (nat * nat)) : list (nat * list nat) :=
  let cal := cmap_calib cmap in
  let empty := fold_left (fun d a => dset d (fst a) []) cal [] in
  fold_left (fun d a => dset d (fst a) (match dget d (fst a) with Some l => l ++ [snd a] | None => [snd a] end)) cal empty.

(** parallelize.py:75-87 [_get_best_node]. *)
Definition get_best_node (nodes : list (nat * list nat)) : result nat :=
  foldM (fun best i => do li <- dget_e nodes i; do lb <- dget_e nodes best; Ok (if length lb <? length li then i else best)) (dkeys nodes) 0.

(** parallelize.py:103-123 [_get_cx_error]; a gate of the backend's properties is
    given by its qubits and the value of its first parameter. *)
Definition get_cx_error (gates : list (list nat * Q)) : list ((nat * nat) * Q) :=
  fold_left (fun d g => match fst g with
    | [a; b] => let d := dset d (a, b) (snd g) in if dmem d (b, a) then d else dset d (b, a) (snd g)
    | _ => d end) gates [].
(** parallelize.py:148-153 [_child_sorter]. *)
Definition child_sorter (err : list ((nat * nat) * Q)) (children : list nat) (parent : nat) : result (list nat) :=
  do ks <- mapM (fun child => do e <- dget_e err (child, parent); Ok (e, child)) children;
  Ok (map snd (stable_sort (fun a b => Qle_bool (fst a) (fst b)) ks)).

(** parallelize.py:155-220 [get_tier_dict].  A tier is the list of its pairs;
    the placeholder [[]] of every tier, removed at the end, is left out.  The state is
    the tiers, [tier_DM] and [trashlist]. *)
Record tstate := { t_tier : list (list (nat * nat)); t_dm : list (nat * nat); t_trash : list nat }.
Fixpoint add_edge (tiers : list (list (nat * nat))) (j : nat) (e : nat * nat) : result (list (list (nat * nat))) :=
  match tiers, j with
  | [], _ => Err KeyError
  | t :: ts, 0 => Ok ((t ++ [e]) :: ts)
  | t :: ts, S j' => do ts' <- add_edge ts j' e; Ok (t :: ts')
  end.
(** 194-198: one new child; [j] is also updated. *)
Definition add_child (parent : nat) (sj : tstate * nat) (child : nat) : result (tstate * nat) :=
  let '(s, j) := sj in
  do tiers <- add_edge (t_tier s) j (parent, child);
  Ok ({| t_tier := tiers; t_dm := dset (t_dm s) child (j + 1); t_trash := t_trash s ++ [child] |}, j + 1).

Section Tiers.
Variable nodes : list (nat * list nat).
Variable sorter : list nat -> nat -> result (list nat).
(** 186-199: one parent; the children are also added to [totalchildren]. *)
Definition one_parent (st : tstate * list nat) (parent : nat) : result (tstate * list nat) :=
  let '(s, total) := st in
  do children <- dget_e nodes parent;
  do children <- sorter children parent;
  let total := total ++ children in
  let new := filter (fun a => negb (mem a (t_trash s))) children in
  do j <- dget_e (t_dm s) parent;
  do sj <- foldM (add_child parent) new (s, j);
  Ok (fst sj, total).
(** 184-206: the loop, at most 51 times. *)
Fixpoint tier_loop (fuel : nat) (s : tstate) (parents : list nat) : result tstate :=
  do r <- foldM one_parent parents (s, []);
  let '(s', total) := r in
  if length (t_trash s') =? length (dkeys nodes) then Ok s'
  else match fuel with 0 => Ok s' | S f => tier_loop f s' total end.
Definition tiers_from (best : nat) : result (list (list (nat * nat))) :=
  let length_ := length (dkeys nodes) in
  do s <- tier_loop 50 {| t_tier := repeat [] length_; t_dm := [(best, 0)]; t_trash := [best] |} [best];
  Ok (t_tier s).
End Tiers.

(** A backend: coupling map and gate errors; [indicator] switches sorting on. *)
Record bconfig := { b_cmap : list (nat * nat); b_gates : list (list nat * Q); b_indicator : bool }.
Definition get_tiers (b : bconfig) : result (list (list (nat * nat))) :=
  let nodes := nodes_of (b_cmap b) in
  do best <- get_best_node nodes;
  tiers_from nodes (fun ch p => if b_indicator b then child_sorter (get_cx_error (b_gates b)) ch p else Ok ch) best.
(** 208-219: the tiers that are not empty, with their numbers. *)
Definition get_tier_dict (b : bconfig) : result (list (nat * list (nat * nat))) :=
  do tiers <- get_tiers b;
  Ok (filter (fun kt => match snd kt with [] => false | _ => true end) (combine (seq 0 (length tiers)) tiers)).

(** 222-282 [get_ghz_layout] without the transpilation; the layout is the list
    [trashlist]: entry [i] is the physical qubit of [q[i]]. *)
Definition layout_add (trash : list nat) (v : nat) : list nat := if mem v trash then trash else trash ++ [v].
Definition qubit_e (n : nat) (trash : list nat) (v : nat) : result nat :=
  match list_index trash v with Some i => if i <? n then Ok i else Err IndexError | None => Err ValueError end.
(** 248-265; the assignment [initial_layout[q[trashindex]]] raises first when the
    register is too small. *)
Fixpoint layout_edges (n : nat) (edges : list (nat * nat)) (circ : list cinstr) (trash : list nat) : result (list cinstr * list nat) :=
  match edges with
  | [] => Ok (circ, trash)
  | e :: edges' =>
      let trash := layout_add trash (fst e) in
      do _ <- qubit_e n trash (fst e);
      let trash := layout_add trash (snd e) in
      do c <- qubit_e n trash (fst e);
      do t <- qubit_e n trash (snd e);
      let circ := circ ++ [cx_i c t] in
      if length trash =? n then Ok (circ, trash) else layout_edges n edges' circ trash
  end.
Fixpoint layout_tiers (n : nat) (barriered : bool) (tiers : list (list (nat * nat))) (circ : list cinstr) (trash : list nat) : result (list cinstr * list nat) :=
  match tiers with
  | [] => Ok (circ, trash)
  | t :: tiers' =>
      do r <- layout_edges n t circ trash;
      let '(circ, trash) := r in
      let circ := if barriered then circ ++ [bar n] else circ in
      if length trash =? n then Ok (circ, trash) else layout_tiers n barriered tiers' circ trash
  end.
Definition get_ghz_layout (b : bconfig) (n : nat) (barriered : bool) : result (list cinstr * list nat) :=
  do tierdict <- get_tier_dict b;
  do _ <- register n;
  layout_tiers n barriered (map snd tierdict) [had 0] [].
