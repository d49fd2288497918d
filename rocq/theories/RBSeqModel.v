(** Model of randomized benchmarking sequence generation:
    qiskit/ignis/verification/randomized_benchmarking/circuits.py and
    rb_groups.py.

    Gates are the [ginstr] of DihedralModel (name, parameters in units of pi/4,
    qubits).  The group operations of Terra (Clifford, random_clifford) and of
    dihedral.py are parameters; dihedral.py itself is modelled in
    DihedralModel.  A [rand_seed] that is a RandomState object, deprecation
    warnings, negative qubit indices and negative lengths are not modelled. *)
From Coq Require Import QArith.
From Verif Require Import Base PyStr DihedralModel.
Open Scope nat_scope.

(** Instructions of a circuit on one quantum and one classical register. *)
Inductive cinstr :=
| CGate (g : ginstr)
| CBarrier (qs : list nat)
| CMeasure (q c : nat).
Record circ := { cname : pystr; cbody : list cinstr }.

(** Python and numpy scalars. *)
Inductive num := NInt (z : Z) | NFloat (q : Q).
Definition is_int (x : num) : bool := match x with NInt _ => true | _ => false end.
Definition num_q (x : num) : Q := match x with NInt z => inject_Z z | NFloat q => q end.
(** [a * x] for a python int [a] and a numpy scalar [x]. *)
Definition num_mul (a : Z) (x : num) : num :=
  match x with NInt z => NInt (a * z)%Z | NFloat q => NFloat (inject_Z a * q) end.
(** [range(x)]: a numpy float is refused, a negative integer gives nothing. *)
Definition range_len (x : num) : result nat :=
  match x with NInt z => Ok (Z.to_nat z) | NFloat _ => Err TypeError end.

(** The [length_multiplier] argument: None, a scalar, or a sequence. *)
Inductive mult_arg := MNone | MScalar (x : num) | MSeq (l : list num).

(** [handle_length_multiplier], circuits.py:33-68.  The dtype of an array is
    'int' when it is non-empty and all its entries are ints; multiplying an
    integer array by None raises TypeError. *)
Definition handle_length_multiplier (m : mult_arg) (len_pattern : nat) (is_purity : bool) : result (list num) :=
  match m with
  | MSeq l =>
      if is_purity then Err ValueError
      else if negb (length l =? len_pattern) then Err ValueError
      else if negb (forallb is_int l && (0 <? length l)) then Err ValueError
      else if existsb (fun x => negb (Qle_bool 1 (num_q x))) l then Err ValueError
      else Ok l
  | MScalar x => Ok (repeat x len_pattern)
  | MNone => Err TypeError
  end.

(** [np.unique(..., return_counts=True)] and [(counts > 1).any()]. *)
Definition occurrences (q : nat) (l : list nat) : nat := length (filter (Nat.eqb q) l).
Definition has_duplicate (l : list nat) : bool := existsb (fun q => 1 <? occurrences q l) l.
Definition distinct (l : list nat) : list nat := nodup Nat.eq_dec l.
(** [np.max] of a non-empty list; ValueError otherwise. *)
Definition np_max (l : list nat) : result nat :=
  match l with [] => Err ValueError | _ => Ok (fold_right Nat.max 0 l) end.

(** [check_pattern], circuits.py:71-121; [inter] are the numbers of qubits of
    the interleaved elements. *)
Definition check_pattern (pattern : list (list nat)) (is_purity : bool) (inter : option (list nat))
  : result (list nat * nat * nat) :=
  let pattern_flat := concat pattern in
  let pattern_dim := map (@length nat) pattern in
  if has_duplicate pattern_flat then Err ValueError
  else if is_purity && (1 <? length (distinct pattern_dim)) then Err ValueError
  else if match inter with Some dims => negb (eqb pattern_dim dims) | None => false end then Err ValueError
  else
    do m <- np_max pattern_flat;
    do d <- np_max pattern_dim;
    Ok (pattern_flat, m, d).

(** [calc_xdata], circuits.py:172-189. *)
Definition calc_xdata (length_vector : list nat) (mult : list num) : list (list num) :=
  map (fun m => map (fun l => num_mul (Z.of_nat l) m) length_vector) mult.

(** [RBgroup.__init__], rb_groups.py:28-50: group type and circuit type.  The
    two adjacent literals 'NonClifford' 'CNOTDihedral' are one string. *)
Inductive group_type := TClifford | TDihedral.
Definition rb_group_of (g : option pystr) : result group_type :=
  match g with
  | None => Ok TClifford
  | Some s =>
      if mem s (map str ["0"; "Clifford"; "clifford"]%string) then Ok TClifford
      else if mem s (map str ["1"; "Non-Clifford"; "NonCliffordCNOTDihedral"; "CNOT-Dihedral"]%string) then Ok TDihedral
      else Err QiskitError
  end.
Definition rb_circ_type (t : group_type) : pystr :=
  match t with TClifford => str "rb" | TDihedral => str "rb_cnotdihedral" end.

(** The operations of a group, rb_groups.py:52-93: [iden(num_qubits)],
    [random(num_qubits, rand_seed)] (the last argument of [g_random] counts the
    draws already made: the state of the global generator), [compose(elem,
    other)], [to_circuit(elem)], [inverse(elem)] (the inverse of the circuit of
    the element), and [from_circuit] of the element class. *)
Record group := {
  elem : Type;
  g_iden : nat -> result elem;
  g_random : nat -> option Z -> nat -> result elem;
  g_compose : elem -> elem -> result elem;
  g_circuit : elem -> result (list ginstr);
  g_inverse : elem -> result (list ginstr);
  g_from_circuit : nat -> pystr -> list ginstr -> result elem
}.

(** [replace_q_indices], circuits.py:636-656. *)
Definition replace_q_indices (c : list ginstr) (q_nums : list nat) : result (list cinstr) :=
  mapM (fun g => do qs <- mapM (index_e q_nums) (gqubits g);
                 Ok (CGate {| gname := gname g; gparams := gparams g; gqubits := qs |})) c.

Definition gate1 (name : string) (params : list Q) (q : nat) : cinstr :=
  CGate {| gname := str name; gparams := params; gqubits := [q] |}.
(** [rx(np.pi / 2, q)], [ry(np.pi / 2, q)], [h(q)]; the angle pi/2 is 2 pi/4. *)
Definition rx_half (q : nat) : cinstr := gate1 "rx" [2%Q] q.
Definition ry_half (q : nat) : cinstr := gate1 "ry" [2%Q] q.
Definition had (q : nat) : cinstr := gate1 "h" [] q.

(** The loop over the base-3 digits of [d], circuits.py:533-559: rotations and
    letters.  [k] is purity_qubit_num; the fuel exceeds the number of digits. *)
Fixpoint purity_loop (fuel : nat) (pattern : list (list nat)) (d k : nat) : result (list cinstr * pystr * nat) :=
  match fuel with
  | O => Ok ([], [], k)
  | S fuel' =>
      do rot <- match d mod 3 with
                | 0 => Ok ([], "Z"%char)
                | 1 => do qs <- mapM (fun pat => index_e pat k) pattern; Ok (map rx_half qs, "X"%char)
                | _ => do qs <- mapM (fun pat => index_e pat k) pattern; Ok (map ry_half qs, "Y"%char)
                end;
      let d' := d / 3 in
      if d' =? 0 then Ok (fst rot, [snd rot], S k)
      else
        do rest <- purity_loop fuel' pattern d' (S k);
        let '(c, name, k') := rest in
        Ok (fst rot ++ c, snd rot :: name, k')
  end.

(** [circ.measure(qr[qb], cr[qind])] for every qubit, circuits.py:562-563. *)
Definition measures (qlist : list nat) : list cinstr :=
  map (fun p => CMeasure (snd p) (fst p)) (combine (seq 0 (length qlist)) qlist).

(** '_length_%d_seed_%d'. *)
Definition len_seed (length_index : nat) (seed : Z) : pystr :=
  str "_length_" ++ dec length_index ++ str "_seed_" ++ zdec seed.

(** [circ_purity[d]], circuits.py:526-566. *)
Definition purity_circuit (t : group_type) (pattern : list (list nat)) (qlist : list nat) (max_dim : nat)
    (body : list cinstr) (length_index : nat) (seed : Z) (d : nat) : result circ :=
  do r <- purity_loop (S d) pattern d 0;
  let '(rots, letters, k) := r in
  Ok {| cname := rb_circ_type t ++ str "_purity_" ++ letters ++ repeat "Z"%char (max_dim - k) ++ len_seed length_index seed;
        cbody := body ++ rots ++ measures qlist |}.

Section Seq.
Variable grp : group_type -> group.

(** An interleaved element: an object of one of the two classes, with its
    number of qubits, or a circuit (or instruction); [IOther]: anything else. *)
Inductive ielem :=
| IElem (t : group_type) (nq : nat) (e : elem (grp t))
| ICircuit (nq : nat) (name : pystr) (body : list ginstr)
| IOther (nq : nat).
Definition ielem_qubits (e : ielem) : nat :=
  match e with IElem _ nq _ | ICircuit nq _ _ | IOther nq => nq end.

(** [handle_interleaved_elem], circuits.py:124-169. *)
Definition handle_one (t : group_type) (e : ielem) : result (elem (grp t)) :=
  match e with
  | ICircuit nq name body => g_from_circuit (grp t) nq name body
  | IElem TClifford _ x => match t return result (elem (grp t)) with TClifford => Ok x | TDihedral => Err ValueError end
  | IElem TDihedral _ x => match t return result (elem (grp t)) with TDihedral => Ok x | TClifford => Err ValueError end
  | IOther _ => Err ValueError
  end.
Definition handle_interleaved_elem (t : group_type) (inter : option (list ielem)) : result (option (list (elem (grp t)))) :=
  match inter with
  | None => Ok None
  | Some l => do es <- mapM (handle_one t) l; Ok (Some es)
  end.

Section Loop.
Variable t : group_type.
Variable pattern : list (list nat).
Variable qlist : list nat.                       (* qlist_flat *)
Variable max_dim : nat.
Variable mult : list num.
Variable align : bool.                           (* align_cliffs *)
Variable inter : option (list (elem (grp t))).   (* interleaved_elem *)
Variable lv : list nat.                          (* length_vector *)
Variable is_purity : bool.
Variable offset : Z.                             (* seed_offset *)

(** Loop state: rand_seed, number of draws, Elmnts, Elmnts_interleaved,
    general_circ, interleaved_circ. *)
Record st := {
  s_rs : option Z; s_cnt : nat;
  s_el : list (elem (grp t)); s_eli : list (elem (grp t));
  s_gc : list cinstr; s_ic : list cinstr
}.

(** [if rand_seed: rand_seed += (seed + 1)], circuits.py:447-448. *)
Definition next_seed (seed : nat) (rs : option Z) : option Z :=
  match rs with
  | Some z => if (z =? 0)%Z then Some z else Some (z + Z.of_nat seed + 1)%Z
  | None => None
  end.

(** One group element on pattern [p], circuits.py:446-482. *)
Definition one_elem (seed p : nat) (s : st) : result st :=
  let pat := nth p pattern [] in
  let rs := next_seed seed (s_rs s) in
  do new <- g_random (grp t) (length pat) rs (s_cnt s);
  do e0 <- index_e (s_el s) p;
  do e1 <- g_compose (grp t) e0 new;
  do c <- g_circuit (grp t) new;
  do placed <- replace_q_indices c pat;
  let gc := s_gc s ++ placed ++ [CBarrier pat] in
  match inter with
  | None => Ok {| s_rs := rs; s_cnt := S (s_cnt s); s_el := set_nth (s_el s) p e1; s_eli := s_eli s; s_gc := gc; s_ic := s_ic s |}
  | Some ies =>
      do i0 <- index_e (s_eli s) p;
      do i1 <- g_compose (grp t) i0 new;
      do ie <- index_e ies p;
      do i2 <- g_compose (grp t) i1 ie;
      do ci <- g_circuit (grp t) ie;
      do placed_i <- replace_q_indices ci pat;
      Ok {| s_rs := rs; s_cnt := S (s_cnt s); s_el := set_nth (s_el s) p e1; s_eli := set_nth (s_eli s) p i2; s_gc := gc;
            s_ic := s_ic s ++ placed ++ [CBarrier pat] ++ placed_i ++ [CBarrier pat] |}
  end.

(** One step of the sequence: every pattern, every multiplier, then the
    aligning barrier, circuits.py:441-491. *)
Definition one_pattern (seed p : nat) (s : st) : result st :=
  do m <- index_e mult p;
  do reps <- range_len m;
  foldM (fun s _ => one_elem seed p s) (seq 0 reps) s.
Definition one_step (seed : nat) (s : st) : result st :=
  do s' <- foldM (fun s p => one_pattern seed p s) (seq 0 (length pattern)) s;
  if align then
    Ok {| s_rs := s_rs s'; s_cnt := s_cnt s'; s_el := s_el s'; s_eli := s_eli s'; s_gc := s_gc s' ++ [CBarrier qlist];
          s_ic := match inter with Some _ => s_ic s' ++ [CBarrier qlist] | None => s_ic s' end |}
  else Ok s'.

(** The circuits of one length and one seed. *)
Record outs := { o_std : circ; o_int : circ; o_dih : circ; o_dihint : circ; o_pur : list circ }.

(** The inverses, circuits.py:504-517. *)
Definition inverses (els : list (elem (grp t))) : result (list cinstr) :=
  do cs <- mapM (fun p => do e <- index_e els p; do c <- g_inverse (grp t) e; replace_q_indices c (nth p pattern []))
             (seq 0 (length pattern));
  Ok (concat cs).

(** [h] and barrier on every qubit, and barrier and [h], circuits.py:575-586. *)
Definition h_before : list cinstr := flat_map (fun q => [had q; CBarrier [q]]) qlist.
Definition h_after : list cinstr := flat_map (fun q => [CBarrier [q]; had q]) qlist.

(** circuits.py:493-628. *)
Definition emit (seed length_index : nat) (s : st) : result outs :=
  do inv <- inverses (s_el s);
  do invi <- match inter with Some _ => inverses (s_eli s) | None => Ok [] end;
  let body := s_gc s ++ inv in
  let body_i := s_ic s ++ invi in
  let sd := (Z.of_nat seed + offset)%Z in
  do pur <- if is_purity then mapM (purity_circuit t pattern qlist max_dim body length_index sd) (seq 0 (3 ^ max_dim)) else Ok [];
  let dih := match t with TDihedral => h_before ++ body ++ h_after ++ measures qlist | TClifford => [] end in
  let dihi := match t with TDihedral => h_before ++ body_i ++ h_after ++ measures qlist | TClifford => [] end in
  let ty := rb_circ_type t in
  let z := match t with TDihedral => str "_Z" | TClifford => [] end in
  (* circuits_cnotdihedral is only returned for the second group *)
  Ok {| o_std := {| cname := ty ++ z ++ len_seed length_index sd; cbody := body ++ measures qlist |};
        o_int := {| cname := ty ++ str "_interleaved" ++ z ++ len_seed length_index sd; cbody := body_i ++ measures qlist |};
        o_dih := {| cname := ty ++ str "_X" ++ len_seed length_index sd; cbody := dih |};
        o_dihint := {| cname := ty ++ str "_interleaved_X" ++ len_seed length_index sd; cbody := dihi |};
        o_pur := pur |}.

(** One seed, circuits.py:421-630. *)
Definition seed_step (seed : nat) (acc : st * nat * list outs) (elmnts_index : nat) : result (st * nat * list outs) :=
  let '(s, li, os) := acc in
  do s' <- one_step seed s;
  do target <- index_e lv li;
  if elmnts_index + 1 =? target then
    do o <- emit seed li s';
    Ok (s', S li, os ++ [o])
  else Ok (s', li, os).
Definition one_seed (rs : option Z) (cnt seed : nat) : result (option Z * nat * list outs) :=
  do els <- mapM (fun pat => g_iden (grp t) (length pat)) pattern;
  do last <- match rev lv with l :: _ => Ok l | [] => Err IndexError end;
  do r <- foldM (seed_step seed) (seq 0 last)
            ({| s_rs := rs; s_cnt := cnt; s_el := els; s_eli := els; s_gc := []; s_ic := [] |}, 0, []);
  let '(s, _, os) := r in Ok (s_rs s, s_cnt s, os).

(** All the seeds: rand_seed and the global generator carry over. *)
Definition all_seeds (rs : option Z) (nseeds : nat) : result (list (list outs)) :=
  do r <- foldM (fun acc seed => let '(rs, cnt, os) := acc in
                   do o <- one_seed rs cnt seed;
                   let '(rs', cnt', outs) := o in Ok (rs', cnt', os ++ [outs]))
            (seq 0 nseeds) (rs, 0, []);
  Ok (snd r).
End Loop.

(** Arguments of [randomized_benchmarking_seq]. *)
Record seq_args := {
  a_nseeds : nat; a_lv : option (list nat); a_pat : option (list (list nat)); a_mult : mult_arg; a_off : Z;
  a_align : bool; a_inter : option (list ielem); a_pur : bool; a_group : option pystr; a_rs : option Z
}.

(** What it returns. *)
Inductive seq_out :=
| OPurity (circuits_purity : list (list (list circ))) (xdata : list (list num)) (npurity : nat)
| ODihInt (circuits : list (list circ)) (xdata : list (list num)) (circuits_cnotdihedral circuits_interleaved circuits_cnotdihedral_interleaved : list (list circ))
| OInt (circuits : list (list circ)) (xdata : list (list num)) (circuits_interleaved : list (list circ))
| ODih (circuits : list (list circ)) (xdata : list (list num)) (circuits_cnotdihedral : list (list circ))
| OStd (circuits : list (list circ)) (xdata : list (list num)).

Definition default_pattern (p : option (list (list nat))) : list (list nat) := match p with Some l => l | None => [[0]] end.
Definition default_lv (l : option (list nat)) : list nat := match l with Some v => v | None => [1; 10; 20] end.
Definition select (f : outs -> circ) (os : list (list outs)) : list (list circ) := map (map f) os.
(** circuits_purity[seed][d]: the circuits of all the lengths. *)
Definition select_purity (npurity : nat) (os : list (list outs)) : list (list (list circ)) :=
  map (fun per_seed => map (fun d => map (fun o => nth d (o_pur o) {| cname := []; cbody := [] |}) per_seed) (seq 0 npurity)) os.

(** [randomized_benchmarking_seq], circuits.py:192-633. *)
Definition randomized_benchmarking_seq (a : seq_args) : result seq_out :=
  let pattern := default_pattern (a_pat a) in
  let lv := default_lv (a_lv a) in
  do cp <- check_pattern pattern (a_pur a) (option_map (map ielem_qubits) (a_inter a));
  let '(qlist, n_q_max, max_dim) := cp in
  do mult <- handle_length_multiplier (a_mult a) (length pattern) (a_pur a);
  let npurity := 3 ^ max_dim in
  let xdata := calc_xdata lv mult in
  do t <- rb_group_of (a_group a);
  do inter <- handle_interleaved_elem t (a_inter a);
  do os <- all_seeds t pattern qlist max_dim mult (a_align a) inter lv (a_pur a) (a_off a) (a_rs a) (a_nseeds a);
  if a_pur a then Ok (OPurity (select_purity npurity os) xdata npurity)
  else
    match inter, t with
    | Some _, TDihedral => Ok (ODihInt (select o_std os) xdata (select o_dih os) (select o_int os) (select o_dihint os))
    | Some _, TClifford => Ok (OInt (select o_std os) xdata (select o_int os))
    | None, TDihedral => Ok (ODih (select o_std os) xdata (select o_dih os))
    | None, TClifford => Ok (OStd (select o_std os) xdata)
    end.
End Seq.
