(** Independent meaning of a whole benchmark: the matrices of the parts of the
    returned circuits, and the data measured when every part is followed by
    depolarising noise, for property C79. *)
From Coq Require Import QArith Qreals Reals Lra.
From Coquelicot Require Import Coquelicot.
From Verif Require Import LinAlg Base PyStr QSem DihedralModel RBSeqModel RBSeqSpec RBFitModel CtmpSpec EntSpec GstOptSpec IQSpec RBEstSpec.
Local Open Scope list_scope.
Local Open Scope nat_scope.

(** Qubit [q] is the bit of weight [2^q] of an index. *)
Definition bits_at (n i : nat) : bits := map (Nat.testbit i) (seq 0 n).
Definition basis (n j : nat) : amp C := fun x => if eqb x (bits_at n j) then f1 else f0.
Section Gates.
Variable gmat : pystr -> list Q -> bits -> bits -> C.
(** The matrix of a circuit on [n] qubits. *)
Definition circuit_matrix (n : nat) (c : list ginstr) : op := fun i j => QSem.run (map (op_of gmat) c) (basis n j) (bits_at n i).
(** A gate whose matrix is unitary. *)
Definition unitary_gate (g : ginstr) : Prop := let k := length (gqubits g) in let m := gmat (gname g) (gparams g) in
  forall b b', length b = k -> length b' = k ->
    fsum (map (fun a => fmul (Cconj (m a b)) (m a b')) (cube k)) = (if eqb b b' then f1 else f0) /\
    fsum (map (fun a => fmul (m b a) (Cconj (m b' a))) (cube k)) = (if eqb b b' then f1 else f0).

(** The parts of a circuit on pattern [p]: the circuits of the elements, and the
    circuit that undoes their product. *)
Definition parts (G : group) (pattern : list (list nat)) (inter : option (list (elem G))) (p : nat) (steps : list (list (event G))) : list (list ginstr) :=
  map (circ_of G) (elements G inter p steps) ++
  [match RBSeqSpec.product G pattern inter p steps with Ok e => inv_of G e | Err _ => [] end].
(** Their matrices, each with its noise. *)
Definition with_noise (n : nat) (cs : list (list ginstr)) (noise : list R) : list (op * R) := combine (map (circuit_matrix n) cs) noise.
End Gates.

(** The data of pattern [p] are the averages over the seeds of what is measured:
    [value k log] for the [k]-th length. *)
Definition averaged {L : Type} (f : rbfitter) (p : nat) (ms : list nat) (logs : list L) (value : nat -> L -> C) : Prop :=
  exists rows ys, nth_error (f_raw f) p = Some rows /\ length (hd [] rows) = length ms /\ nth_error (f_mean f) p = Some ys /\
  nth_error (f_lengths f) p = Some (map (fun m => inject_Z (Z.of_nat m)) ms) /\ length ys = length ms /\
  forall k, k < length ms -> RtoC (Q2R (nth k ys 0%Q) * INR (length logs)) = fsum (map (value k) logs).
(** The numbers of elements reported for pattern [p]. *)
Definition reported (out : seq_out) (p : nat) (ms : list nat) : Prop :=
  nth_error (xdata_of out) p = Some (map (fun m => NInt (Z.of_nat m)) ms).

(** ** A run of [randomized_benchmarking_seq]
    on patterns of qubits, with a group that meets its contract, unitary gates,
    ascending lengths and at least one seed; [logs] are the elements drawn (they
    exist by C23). *)
Record run_of (gmat : pystr -> list Q -> bits -> bits -> C) (grp : group_type -> group) (a : seq_args grp) (out : seq_out) (t : group_type) (mult : list num)
    (inter : option (list (elem (grp t)))) (logs : list (list (list (event (grp t))))) (valid : nat -> elem (grp t) -> Prop) : Prop := {
  ro_run : randomized_benchmarking_seq grp a = Ok out;
  ro_group : rb_group_of (a_group _ a) = Ok t;
  ro_mult : handle_length_multiplier (a_mult _ a) (length (default_pattern (a_pat _ a))) (a_pur _ a) = Ok mult;
  ro_inter : handle_interleaved_elem grp t (a_inter _ a) = Ok inter;
  ro_logs : explained grp a out t mult inter logs;
  ro_contract : contract gmat grp a t valid;
  ro_unitary : forall pat e g, In pat (default_pattern (a_pat _ a)) -> valid (length pat) e -> In g (circ_of (grp t) e ++ inv_of (grp t) e) -> unitary_gate gmat g;
  ro_lengths : ascending (default_lv (a_lv _ a));
  ro_seeds : 0 < a_nseeds _ a
}.
(** The steps up to the [k]-th length. *)
Definition log_at {grp} (a : seq_args grp) {E} (k : nat) (log : list E) : list E := firstn (nth k (default_lv (a_lv _ a)) 0) log.
(** The noisy operations on pattern [p] of the circuit of length number [k]. *)
Definition operations gmat {grp} (a : seq_args grp) t (it : option (list (elem (grp t)))) (p : nat) (noise : nat -> list R) (k : nat) (log : list (list (event (grp t)))) : list (op * R) :=
  with_noise gmat (length (qubits_of (default_pattern (a_pat _ a)) p)) (parts (grp t) (default_pattern (a_pat _ a)) it p (log_at a k log)) (noise k).
