(** Independent meaning of randomized benchmarking circuits, for properties
    C22-C25 and C58. *)
From Coq Require Import QArith.
From Verif Require Import Base LinAlg QSem PyStr DihedralModel RBSeqModel.
Open Scope nat_scope.

(** The gates of a circuit, without barriers and measurements. *)
Definition gates (body : list cinstr) : list ginstr :=
  flat_map (fun i => match i with CGate g => [g] | _ => [] end) body.

(** A gate moved to the qubits [pat] (qubit [q] becomes [pat[q]]). *)
Definition on (pat : list nat) (g : ginstr) : ginstr :=
  {| gname := gname g; gparams := gparams g; gqubits := place pat (gqubits g) |}.

(** The gates acting within the qubits [pat]. *)
Definition within (pat : list nat) (gs : list ginstr) : list ginstr :=
  filter (fun g => forallb (fun q => mem q pat) (gqubits g)) gs.

(** Gates with at least one, and only distinct qubits below [n]. *)
Definition fits (n : nat) (c : list ginstr) : Prop :=
  Forall (fun g => gqubits g <> [] /\ NoDup (gqubits g) /\ forall q, In q (gqubits g) -> q < n) c.

Section Actions.
Context {F : Type} {HF : Fld F}.
(** The matrix of a gate, given its name and parameters. *)
Variable gmat : pystr -> list Q -> bits -> bits -> F.
Definition op_of (g : ginstr) : op F := {| o_mat := gmat (gname g) (gparams g); o_qs := gqubits g |}.

(** Same action on [n] qubits up to a non-zero factor. *)
Definition same_action (n : nat) (c c' : list ginstr) : Prop := equiv n (map op_of c) (map op_of c').
Definition identity_on (n : nat) (c : list ginstr) : Prop := same_action n c [].

(** The ground state of [n] qubits. *)
Definition ground (n : nat) : amp F := fun x => if eqb x (repeat false n) then f1 else f0.

(** ** The contract of a group of operators on [n] qubits
    [valid] are the elements in use; composition is "first [a], then [b]". *)
Record lawful (G : group) (n : nat) (valid : elem G -> Prop) : Prop := {
  l_circuit : forall a, valid a -> exists c, g_circuit G a = Ok c /\ fits n c;
  l_iden : exists e, g_iden G n = Ok e /\ valid e /\ forall c, g_circuit G e = Ok c -> identity_on n c;
  l_compose : forall a b, valid a -> valid b -> exists e, g_compose G a b = Ok e /\ valid e /\
      forall ca cb ce, g_circuit G a = Ok ca -> g_circuit G b = Ok cb -> g_circuit G e = Ok ce -> same_action n ce (ca ++ cb);
  l_inverse : forall a, valid a -> exists i, g_inverse G a = Ok i /\ fits n i /\
      forall c, g_circuit G a = Ok c -> identity_on n (c ++ i)
}.
(** The random elements are elements in use. *)
Definition draws_valid (G : group) (n : nat) (valid : elem G -> Prop) : Prop :=
  forall rs k, exists e, g_random G n rs k = Ok e /\ valid e.

(** The gate h is its own inverse. *)
Definition h_involution : Prop :=
  identity_on 1 [{| gname := str "h"; gparams := []; gqubits := [0] |}; {| gname := str "h"; gparams := []; gqubits := [0] |}].
End Actions.

(** The circuits of a returned value, purity circuits aside. *)
Definition circuits_of (o : seq_out) : list circ :=
  match o with
  | OPurity _ _ _ => []
  | ODihInt a _ b c d => concat a ++ concat b ++ concat c ++ concat d
  | OInt a _ b => concat a ++ concat b
  | ODih a _ b => concat a ++ concat b
  | OStd a _ => concat a
  end.

(** ** What was drawn
    An element drawn for pattern [ev_p], with the seed given to the generator
    and the number of earlier draws. *)
Record event (G : group) := Event { ev_p : nat; ev_rs : option Z; ev_k : nat; ev_e : elem G }.
Arguments Event {G}. Arguments ev_p {G}. Arguments ev_rs {G}. Arguments ev_k {G}. Arguments ev_e {G}.

Section Logs.
Variable G : group.
Variable pattern : list (list nat).

(** Circuits of an element and of its inverse. *)
Definition circ_of (e : elem G) : list ginstr := match g_circuit G e with Ok c => c | Err _ => [] end.
Definition inv_of (e : elem G) : list ginstr := match g_inverse G e with Ok c => c | Err _ => [] end.
Definition qubits_of (p : nat) : list nat := nth p pattern [].
Definition placed (p : nat) (c : list ginstr) : list cinstr := map (fun g => CGate (on (qubits_of p) g)) c.

(** The drawn element came from the generator. *)
Definition drawn (ev : event G) : Prop :=
  g_random G (length (qubits_of (ev_p ev))) (ev_rs ev) (ev_k ev) = Ok (ev_e ev).

(** The part of the circuit due to one drawn element: its circuit on the
    qubits of the pattern and a barrier; with an interleaved element, also that
    element and a barrier. *)
Definition ev_body (inter : option (list (elem G))) (ev : event G) : list cinstr :=
  placed (ev_p ev) (circ_of (ev_e ev)) ++ [CBarrier (qubits_of (ev_p ev))] ++
  match inter with
  | None => []
  | Some ies => match nth_error ies (ev_p ev) with
                | Some ie => placed (ev_p ev) (circ_of ie) ++ [CBarrier (qubits_of (ev_p ev))]
                | None => []
                end
  end.
(** One step of the sequence, and the whole sequence. *)
Definition step_body (inter : option (list (elem G))) (align : bool) (evs : list (event G)) : list cinstr :=
  flat_map (ev_body inter) evs ++ (if align then [CBarrier (concat pattern)] else []).
Definition seq_body (inter : option (list (elem G))) (align : bool) (steps : list (list (event G))) : list cinstr :=
  flat_map (step_body inter align) steps.

(** How many elements were drawn for pattern [p]. *)
Definition drawn_for (p : nat) (steps : list (list (event G))) : nat :=
  length (filter (fun ev => ev_p ev =? p) (concat steps)).
End Logs.

(** Measurements: the i-th qubit of the flat pattern into classical bit i. *)
Definition measured (body : list cinstr) (qs : list nat) (c : circ) : Prop :=
  cbody c = body ++ map (fun i => CMeasure (nth i qs 0) i) (seq 0 (length qs)).

(** Strictly increasing, starting at one or more. *)
Fixpoint ascending_from (m : nat) (l : list nat) : Prop :=
  match l with [] => True | x :: l' => m < x /\ ascending_from x l' end.
Definition ascending (l : list nat) : Prop := ascending_from 0 l.

(** [m] is the largest entry. *)
Definition is_max (m : nat) (l : list nat) : Prop := In m l /\ forall x, In x l -> x <= m.

(** ** The five kinds of circuits
    Standard, interleaved, the same two started and ended in the X basis (for
    the CNOT-dihedral group), and the purity circuits number [d]. *)
Inductive kind := KStd | KInt | KX | KIntX | KPur (d : nat).

(** The lists of circuits returned, per seed and length. *)
Definition returned (o : seq_out) (k : kind) : option (list (list circ)) :=
  match o, k with
  | OStd a _, KStd | OInt a _ _, KStd | ODih a _ _, KStd | ODihInt a _ _ _ _, KStd => Some a
  | OInt _ _ b, KInt | ODihInt _ _ _ b _, KInt => Some b
  | ODih _ _ b, KX | ODihInt _ _ b _ _, KX => Some b
  | ODihInt _ _ _ _ b, KIntX => Some b
  | OPurity a _ n, KPur d => if d <? n then Some (map (fun per_seed => nth d per_seed []) a) else None
  | _, _ => None
  end.
Definition xdata_of (o : seq_out) : list (list num) :=
  match o with OPurity _ x _ | ODihInt _ x _ _ _ | OInt _ x _ | ODih _ x _ | OStd _ x => x end.

(** Base-3 digits of [d], their letters and rotations: 0 nothing (Z), 1
    rx(pi/2) (X), 2 ry(pi/2) (Y); digit [k] is for the [k]-th qubit of every
    pattern. *)
Definition digit (d k : nat) : nat := (d / 3 ^ k) mod 3.
Definition letter (x : nat) : ascii := match x with 0 => "Z" | 1 => "X" | _ => "Y" end%char.
Definition letters (dim d : nat) : pystr := map (fun k => letter (digit d k)) (seq 0 dim).
Definition rotation (x q : nat) : list cinstr :=
  match x with
  | 0 => []
  | 1 => [CGate {| gname := str "rx"; gparams := [2%Q]; gqubits := [q] |}]
  | _ => [CGate {| gname := str "ry"; gparams := [2%Q]; gqubits := [q] |}]
  end.
Definition rotations (pattern : list (list nat)) (dim d : nat) : list cinstr :=
  flat_map (fun k => flat_map (fun pat => rotation (digit d k) (nth k pat 0)) pattern) (seq 0 dim).

(** Hadamard gates on all the qubits, before and after. *)
Definition h_on (q : nat) : cinstr := CGate {| gname := str "h"; gparams := []; gqubits := [q] |}.
Definition in_x_basis (qs : list nat) (body : list cinstr) : list cinstr :=
  flat_map (fun q => [h_on q; CBarrier [q]]) qs ++ body ++ flat_map (fun q => [CBarrier [q]; h_on q]) qs.

Section Expected.
Variable G : group.
Variable pattern : list (list nat).
(** The elements applied on pattern [p], their product, and the circuits that
    undo the products. *)
Definition elements (inter : option (list (elem G))) (p : nat) (steps : list (list (event G))) : list (elem G) :=
  flat_map (fun ev => ev_e ev ::
              match inter with
              | None => []
              | Some ies => match nth_error ies p with Some ie => [ie] | None => [] end
              end) (filter (fun ev => ev_p ev =? p) (concat steps)).
Definition product (inter : option (list (elem G))) (p : nat) (steps : list (list (event G))) : result (elem G) :=
  do e <- g_iden G (length (qubits_of pattern p)); foldM (g_compose G) (elements inter p steps) e.
Definition recovery (inter : option (list (elem G))) (steps : list (list (event G))) : list cinstr :=
  flat_map (fun p => match product inter p steps with Ok e => placed pattern p (inv_of G e) | Err _ => [] end)
    (seq 0 (length pattern)).

(** Before the measurements. *)
Definition expected_body (inter : option (list (elem G))) (align : bool) (k : kind) (steps : list (list (event G))) : list cinstr :=
  let std := seq_body G pattern None align steps ++ recovery None steps in
  let int := seq_body G pattern inter align steps ++ recovery inter steps in
  match k with
  | KStd => std
  | KInt => int
  | KX => in_x_basis (concat pattern) std
  | KIntX => in_x_basis (concat pattern) int
  | KPur d => std ++ rotations pattern (length (qubits_of pattern 0)) d
  end.
End Expected.

(** Names: 'rb_length_2_seed_0', 'rb_interleaved_length_2_seed_0',
    'rb_cnotdihedral_Z_length_2_seed_0', 'rb_purity_ZX_length_2_seed_0' and so
    on. *)
Definition expected_name (t : group_type) (dim : nat) (k : kind) (length_index : nat) (seed : Z) : pystr :=
  (match t with TClifford => str "rb" | TDihedral => str "rb_cnotdihedral" end) ++
  (match k, t with
   | KStd, TClifford => []
   | KStd, TDihedral => str "_Z"
   | KInt, TClifford => str "_interleaved"
   | KInt, TDihedral => str "_interleaved_Z"
   | KX, _ => str "_X"
   | KIntX, _ => str "_interleaved_X"
   | KPur d, _ => str "_purity_" ++ letters dim d
   end) ++ str "_length_" ++ dec length_index ++ str "_seed_" ++ zdec seed.

(** ** The contract of a call
    For the group named by the caller: it is lawful on as many qubits as there
    are in each pattern, its random elements and the interleaved elements are in
    use, and, for the CNOT-dihedral group, h is its own inverse. *)
Record contract {F : Type} {HF : Fld F} (gmat : pystr -> list Q -> bits -> bits -> F) (grp : group_type -> group)
    (a : seq_args grp) (t : group_type) (valid : nat -> elem (grp t) -> Prop) : Prop := {
  ct_lawful : forall pat, In pat (default_pattern (a_pat _ a)) -> lawful gmat (grp t) (length pat) (valid (length pat));
  ct_draws : forall pat, In pat (default_pattern (a_pat _ a)) -> draws_valid (grp t) (length pat) (valid (length pat));
  ct_inter : forall ies p pat ie, handle_interleaved_elem grp t (a_inter _ a) = Ok (Some ies) ->
      nth_error (default_pattern (a_pat _ a)) p = Some pat -> nth_error ies p = Some ie -> valid (length pat) ie;
  ct_h : t = TDihedral -> h_involution gmat
}.

(** In one step: the patterns in order, each as often as its multiplier says. *)
Definition turns (pattern : list (list nat)) (mult : list num) : list nat :=
  flat_map (fun p => repeat p (match nth_error mult p with Some (NInt z) => Z.to_nat z | _ => 0 end)) (seq 0 (length pattern)).

(** ** The returned circuits explained by a log of draws
    [logs] has an entry for every seed: the elements drawn in every step. *)
Record explained (grp : group_type -> group) (a : seq_args grp) (out : seq_out) (t : group_type) (mult : list num)
    (inter : option (list (elem (grp t)))) (logs : list (list (list (event (grp t))))) : Prop := {
  (* one log for every seed, as many steps as the last length *)
  ex_seeds : length logs = a_nseeds _ a;
  ex_steps : forall s steps, nth_error logs s = Some steps -> exists lv', default_lv (a_lv _ a) = lv' ++ [length steps];
  (* all the elements come from the generator, and every draw is used once *)
  ex_drawn : Forall (drawn (grp t) (default_pattern (a_pat _ a))) (concat (concat logs));
  ex_once : map ev_k (concat (concat logs)) = seq 0 (length (concat (concat logs)));
  (* order of the patterns in every step *)
  ex_turns : Forall (fun evs => map ev_p evs = turns (default_pattern (a_pat _ a)) mult) (concat logs);
  (* the circuits *)
  ex_circuits : forall k css, returned out k = Some css -> length css = a_nseeds _ a /\
    forall s cs, nth_error css s = Some cs -> exists steps, nth_error logs s = Some steps /\
      length cs <= length (default_lv (a_lv _ a)) /\
      (ascending (default_lv (a_lv _ a)) -> length cs = length (default_lv (a_lv _ a))) /\
      forall i c, nth_error cs i = Some c -> exists r, nth_error (default_lv (a_lv _ a)) i = Some r /\ r <= length steps /\
        cname c = expected_name t (length (qubits_of (default_pattern (a_pat _ a)) 0)) k i (Z.of_nat s + a_off _ a) /\
        measured (expected_body (grp t) (default_pattern (a_pat _ a)) inter (a_align _ a) k (firstn r steps))
                 (concat (default_pattern (a_pat _ a))) c
}.

(** The rotations of a kind of circuits, and the measurements. *)
Definition rots_of (pattern : list (list nat)) (k : kind) : list cinstr :=
  match k with KPur d => rotations pattern (length (qubits_of pattern 0)) d | _ => [] end.
Definition measurements (qs : list nat) : list cinstr := map (fun i => CMeasure (nth i qs 0) i) (seq 0 (length qs)).

(** The seeds given to the generator, in order; order of seeds. *)
Definition seeds_of {G} (logs : list (list (list (event G)))) : list (option Z) := map ev_rs (concat (concat logs)).
Definition above (z : Z) (o : option Z) : Prop := exists y, o = Some y /\ (z < y)%Z.
Definition olt (a b : option Z) : Prop := match a, b with Some x, Some y => (x < y)%Z | _, _ => False end.

(** Letters of the bases; a gate on qubit 0. *)
Definition zxy (c : ascii) : Prop := c = "Z"%char \/ c = "X"%char \/ c = "Y"%char.
Definition g1 (name : string) (ps : list Q) : ginstr := {| gname := str name; gparams := ps; gqubits := [0] |}.
