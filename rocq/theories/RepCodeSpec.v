(** Independent vocabulary for properties C13-C16. *)
From Verif Require Import Base BasisSem RepCodeModel.

(** ** Faults

    A fault [(j, q, P)]: Pauli [P] hits qubit [q] immediately before
    instruction [j] of the circuit. *)
Definition fault : Type := nat * nat * pauli.

(** The gate that starts at position [j] uses the qubit that is hit. *)
Definition fault_ok (body : list instr) (f : fault) : Prop :=
  let '(j, q, _) := f in exists g, nth_error body j = Some g /\ In q (instr_qubits g).

(** What Pauli [P] does to qubit [q] of a computational basis state: [X] and
    [Y] flip it, [Z] changes only the phase. *)
Definition flips (p : pauli) : bool := match p with PZ => false | _ => true end.

(** The circuit with all faults inserted. *)
Fixpoint with_faults (fs : list fault) (pos : nat) (body : list instr) : list instr :=
  match body with
  | [] => []
  | g :: body' =>
      flat_map (fun '(j, q, p) => if (j =? pos) && flips p then [IX q] else []) fs
      ++ g :: with_faults fs (S pos) body'
  end.

(** The outcome string of the code's circuit for logical value [b] when the
    faults [fs] occur, and the string given to the decoder. *)
Definition faulty_outcome (c : repcode) (b : bool) (fs : list fault) : pystr :=
  run_string (rc_cregs c) (with_faults fs 0 (rc_circ c b)).

(** The processed string of a run without detected errors. *)
Definition trivial_string (d T : nat) (b : bool) : pystr :=
  [bit_char b; sp; bit_char b; sp] ++ concat (repeat (sp :: repeat "0"%char (d - 1)) (T + 1)).

(** ** Graphs *)
Fixpoint path {A} (E : list (A * A)) (u v : A) (n : nat) : Prop :=
  match n with
  | 0 => u = v
  | S k => exists w, (In (u, w) E \/ In (w, u) E) /\ path E w v k
  end.

(** [networkx] contract: shortest number of edges, [None] when unreachable. *)
Definition is_shortest_path {A} (spl : list (A * A) -> A -> A -> option nat) : Prop :=
  forall E u v, match spl E u v with
                | Some n => path E u v n /\ forall k, path E u v k -> n <= k
                | None => forall k, ~ path E u v k
                end.

(** A matching of a weighted graph: pairs joined by an edge, no vertex used
    twice. *)
Definition edge_weight {A} (E : list (A * A * Z)) (e : A * A) (w : Z) : Prop :=
  In (fst e, snd e, w) E \/ In (snd e, fst e, w) E.
Fixpoint endpoints {A} (M : list (A * A)) : list A :=
  match M with [] => [] | (u, v) :: M' => u :: v :: endpoints M' end.
Definition is_matching {A} (E : list (A * A * Z)) (M : list (A * A)) : Prop :=
  NoDup (endpoints M) /\ forall e, In e M -> exists w, edge_weight E e w.
Definition total_weight {A} (E : list (A * A * Z)) (M : list (A * A)) (W : Z) : Prop :=
  exists ws, Forall2 (edge_weight E) M ws /\ W = zsum ws.

(** [networkx] contract of [max_weight_matching(maxcardinality=True)], on
    graphs without contradictory weights. *)
Definition functional_weights {A} (E : list (A * A * Z)) : Prop :=
  forall e w w', edge_weight E e w -> edge_weight E e w' -> w = w'.
Definition is_max_weight_matching {A} (mwm : list (A * A * Z) -> list (A * A)) : Prop :=
  forall E, functional_weights E ->
    is_matching E (mwm E) /\
    forall M', is_matching E M' ->
      length M' <= length (mwm E) /\
      (length M' = length (mwm E) ->
       forall W W', total_weight E (mwm E) W -> total_weight E M' W' -> (W' <= W)%Z).

(** ** Statistics of the decoders *)
Definition shots_of (d : dict pystr Z) (P : pystr -> bool) : Z :=
  zsum (map (fun kv => if P (fst kv) then snd kv else 0%Z) d).

(** Every shot has a first character different from the logical value. *)
Definition differs (log t : pystr) : bool := negb (eqb (firstn 1 t) log).

(** A processed string: two logical digits, two spaces, and the syndrome part. *)
Definition decoder_string (s : pystr) (a b : ascii) (syndrome : pystr) : Prop :=
  a <> sp /\ b <> sp /\ s = [a; sp; b; sp; sp] ++ syndrome.

(** A counts key of the code's circuits: [d] code digits, then [T] groups of
    [d-1] digits, separated by spaces. *)
Definition bitstring (n : nat) (s : pystr) : Prop :=
  length s = n /\ forall c, In c s -> c = "0"%char \/ c = "1"%char.
Definition code_key (d T : nat) (s : pystr) : Prop :=
  exists code rounds, bitstring d code /\ length rounds = T /\ Forall (bitstring (d - 1)) rounds /\
    s = join [sp] (code :: rounds).

(** Frequency or division by zero. *)
Definition freq (i s : Z) : result (Z * Z) := if (s =? 0)%Z then Err ZeroDivisionError else Ok (i, s).

(** One entry per logical value, in order; the call fails as soon as one entry
    does. *)
Fixpoint per_log {A B} (h : pystr -> A -> result B) (results : dict pystr A) : result (dict pystr B) :=
  match results with
  | [] => Ok []
  | (log, c) :: rest => do p <- h log c; do ps <- per_log h rest; Ok ((log, p) :: ps)
  end.
