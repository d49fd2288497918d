(** Model of gate-set tomography: tomography/basis/gatesetbasis.py,
    gateset_tomography_circuits in basis/circuits.py and the linear inversion of
    fitters/gateset_fitter.py.

    Simplifications: a gate of the set, whether a [Gate] or a function, is what it
    appends to a circuit at a qubit; probabilities and matrices are over an
    arbitrary field. *)
From Coq Require Import QArith Reals.
From Verif Require Import Base LinAlg PyStr DihedralModel RBSeqModel TomoModel.
Local Open Scope string_scope.
Local Open Scope list_scope.
Local Open Scope nat_scope.

(** * gatesetbasis.py *)

(** [sorted] of strings. *)
Fixpoint str_le (a b : pystr) : bool :=
  match a, b with
  | [], _ => true
  | _ :: _, [] => false
  | x :: a', y :: b' =>
      let m := nat_of_ascii x in let n := nat_of_ascii y in
      (m <? n) || ((m =? n) && str_le a' b')
  end.
Fixpoint str_insert (a : pystr) (l : list pystr) : list pystr :=
  match l with [] => [a] | b :: l' => if str_le a b then a :: l else b :: str_insert a l' end.
Definition str_sorted (l : list pystr) : list pystr := fold_right str_insert [] l.

(** [GateSetBasis], gatesetbasis.py:48-67; the PTM matrices are left out. *)
Record gateset := { gs_name : pystr; gs_gate_labels : list pystr; gs_gates : dict pystr (nat -> list cinstr);
                    gs_spam_labels : list pystr; gs_spam : dict pystr (list pystr) }.
Definition GateSetBasis (name : pystr) (gates : dict pystr (nat -> list cinstr)) (spam : dict pystr (list pystr)) : gateset :=
  {| gs_name := name; gs_gate_labels := dkeys gates; gs_gates := gates;
     gs_spam_labels := str_sorted (dkeys spam); gs_spam := spam |}.
(** [add_gate], gatesetbasis.py:79-98. *)
Definition gs_add_gate (b : gateset) (gate : nat -> list cinstr) (gate_name : option pystr) (name : option pystr) : result gateset :=
  match match name with Some n => Some n | None => gate_name end with
  | None => Err RuntimeError
  | Some n => Ok {| gs_name := gs_name b; gs_gate_labels := gs_gate_labels b ++ [n]; gs_gates := dset (gs_gates b) n gate;
                    gs_spam_labels := gs_spam_labels b; gs_spam := gs_spam b |}
  end.
(** [add_gate_to_circuit], gatesetbasis.py:100-121: what it appends. *)
Definition gate_circuit (b : gateset) (q : nat) (op : pystr) : result (list cinstr) :=
  match dget (gs_gates b) op with Some g => Ok (g q) | None => Err RuntimeError end.
(** [add_spam_to_circuit], gatesetbasis.py:123-143. *)
Definition spam_circuit (b : gateset) (q : nat) (op : pystr) : result (list cinstr) :=
  match dget (gs_spam b) op with
  | None => Err RuntimeError
  | Some ops => do cs <- mapM (gate_circuit b q) ops; Ok (concat cs)
  end.
Definition spam_body (b : gateset) (op : pystr) (q : nat) : list cinstr := match spam_circuit b q op with Ok c => c | Err _ => [] end.
(** [get_tomography_basis], gatesetbasis.py:223-244, with [measurement_circuit] and
    [preparation_circuit], gatesetbasis.py:145-197.  A SPAM circuit with an unknown
    gate raises when it is built: see [check_spam]. *)
Definition get_tomography_basis (b : gateset) : tbasis :=
  {| tb_name := gs_name b;
     tb_meas := Some {| md_labels := gs_spam_labels b;
                        md_circuit := fun op q c => spam_body b op q ++ [CMeasure q c];
                        md_matrix := fun _ _ => no_mat |};
     tb_prep := Some {| pd_labels := gs_spam_labels b; pd_circuit := spam_body b; pd_matrix := fun _ => no_mat |} |}.
Definition check_spam (b : gateset) (q : nat) : result unit :=
  do _ <- mapM (spam_circuit b q) (gs_spam_labels b); Ok tt.

(** [default_gateset_basis], gatesetbasis.py:247-265; the angles of U2 are in units
    of [pi/2]. *)
Definition default_gateset_basis : gateset :=
  GateSetBasis (str "Default GST")
    [(str "Id", fun _ => []);
     (str "X_Rot_90", fun q => [g1 "u2" [(-1)%Q; 1%Q] q]);
     (str "Y_Rot_90", fun q => [g1 "u2" [2%Q; 2%Q] q])]
    [(str "F0", [str "Id"]); (str "F1", [str "X_Rot_90"]); (str "F2", [str "Y_Rot_90"]); (str "F3", [str "X_Rot_90"; str "X_Rot_90"])].

(** * basis/circuits.py:136-250 *)

(** The pieces of a string between its quotes. *)
Definition pieces (s : pystr) : list pystr := split quote s.
(** The search for two quoted groups, circuits.py:215 and 230: the first group runs from the first quote
    to the third from the end, the second lies between the last two. *)
Definition two_groups (s : pystr) : result (pystr * pystr) :=
  let ps := pieces s in
  let n := length ps in
  if n <? 5 then Err AttributeError
  else Ok (join [quote] (firstn (n - 4) (skipn 1 ps)), nth (n - 2) ps []).
(** The search for one quoted group, circuits.py:244: from the first quote to the last. *)
Definition one_group (s : pystr) : result pystr :=
  let ps := pieces s in
  let n := length ps in
  if n <? 3 then Err AttributeError else Ok (join [quote] (firstn (n - 2) (skipn 1 ps))).

Definition renamed (k : tcirc) (name : pystr) : tcirc :=
  {| t_name := name; t_width := t_width k; t_cregs := t_cregs k; t_body := t_body k |}.

Definition gateset_tomography_circuits (measured : option (list nat)) (gateset_basis : option gateset) : result (list tcirc) :=
  let measured := match measured with Some l => l | None => [0] end in
  if 1 <? length measured then Err QiskitError
  else match measured with
  | [] => Err ValueError
  | q :: _ =>
      let width := 1 + q in
      let gb := match gateset_basis with Some b => b | None => default_gateset_basis end in
      let tb := get_tomography_basis gb in
      let labels := LTuple (gs_spam_labels gb) in
      let empty := {| t_name := []; t_width := width; t_cregs := []; t_body := [] |} in
      do c1 <- mapM (fun gate =>
          do body <- gate_circuit gb q gate;
          do _ <- check_spam gb q;
          do cs <- tomography_circuits (renamed {| t_name := []; t_width := width; t_cregs := []; t_body := body |} []) [q] (Some [q]) labels (BObj tb) labels (BObj tb);
          mapM (fun k => do g <- two_groups (t_name k); Ok (renamed k (py_str (VTup [VStr (fst g); VStr gate; VStr (snd g)])))) cs)
        (gs_gate_labels gb);
      do _ <- check_spam gb q;
      do cs2 <- tomography_circuits empty [q] (Some [q]) labels (BObj tb) labels (BObj tb);
      do c2 <- mapM (fun k => do g <- two_groups (t_name k); Ok (renamed k (py_str (VTup [VStr (fst g); VStr (snd g)])))) cs2;
      do cs3 <- tomography_circuits empty [q] (Some [q]) labels (BObj tb) LNone BNone;
      do c3 <- mapM (fun k => do g <- one_group (t_name k); Ok (renamed k (py_str (VTup [VStr g])))) cs3;
      Ok (concat c1 ++ c2 ++ c3)
  end.

(** * fitters/gateset_fitter.py *)
Section Inversion.
  Context {F : Type} {HF : Fld F}.
  (** [np.linalg.inv], which raises LinAlgError for a singular matrix. *)
  Variable np_inv : nat -> mat (F:=F) nat -> option (mat (F:=F) nat).

  (** gateset_fitter.py:77-79: [vals.get('0', 0) / sum(vals.values())]; a key with
      no shots at all raises. *)
  Definition gst_prob (vals : dict pystr Z) : result F :=
    let s := fold_right Z.add 0%Z (map snd vals) in
    if Z.eqb s 0 then Err ZeroDivisionError
    else Ok (fdiv (fZ (match dget vals (str "0") with Some v => v | None => 0%Z end)) (fZ s)).

  (** The estimate: gates, E and rho. *)
  Record gst_estimate := { ge_gates : dict pystr (mat (F:=F) nat); ge_E : nat -> F; ge_rho : nat -> F }.
  Definition key1 (a : pystr) : pyval := VTup [VStr a].
  Definition key2 (a b : pystr) : pyval := VTup [VStr a; VStr b].
  Definition key3 (a b c : pystr) : pyval := VTup [VStr a; VStr b; VStr c].
  (** An array filled from the probabilities; a missing key raises KeyError. *)
  Definition table1 (probs : pyval -> option F) (n : nat) (key : nat -> pyval) : result (nat -> F) :=
    do l <- mapM (fun i => match probs (key i) with Some p => Ok p | None => Err KeyError end) (seq 0 n);
    Ok (fun i => nth i l f0).
  Definition table2 (probs : pyval -> option F) (n : nat) (key : nat -> nat -> pyval) : result (mat (F:=F) nat) :=
    do l <- mapM (fun i => table1 probs n (key i)) (seq 0 n);
    Ok (fun i j => nth i l (fun _ => f0) j).
  (** [linear_inversion], gateset_fitter.py:84-147. *)
  Definition linear_inversion (spam_labels gate_labels : list pystr) (probs : pyval -> option F) : result gst_estimate :=
    let n := length spam_labels in
    let fl i := nth i spam_labels [] in
    do E <- table1 probs n (fun i => key1 (fl i));
    do rho <- table1 probs n (fun i => key1 (fl i));
    do gram <- table2 probs n (fun i j => key2 (fl j) (fl i));
    do gate_matrices <- mapM (fun g => table2 probs n (fun i j => key3 (fl j) g (fl i))) gate_labels;
    match np_inv n gram with
    | None => Err LinAlgError
    | Some gi =>
        Ok {| ge_gates := fold_left (fun d gm => dset d (fst gm) (mmul (seq 0 n) gi (snd gm))) (combine gate_labels gate_matrices) [];
              ge_E := E; ge_rho := mapply (seq 0 n) gi rho |}
    end.

  (** [GaugeOptimize._x_to_gateset], gateset_fitter.py:236-259, for an invertible
      gauge matrix; [None] is returned for a singular one. *)
  Definition x_to_gateset (d : nat) (gs : dict pystr (mat (F:=F) nat)) (E rho : nat -> F) (B : mat (F:=F) nat) : option gst_estimate :=
    match np_inv d B with
    | None => None
    | Some BB =>
        Some {| ge_gates := map (fun kv => (fst kv, mmul (seq 0 d) (mmul (seq 0 d) BB (snd kv)) B)) gs;
                ge_E := fun j => fsum (map (fun i => fmul (E i) (B i j)) (seq 0 d));
                ge_rho := mapply (seq 0 d) BB rho |}
    end.

  (** [GST_Optimize._obj_fn], gateset_fitter.py:469-500, of the matrices that the
      vector stands for: the indices of [_compute_objective_function_data],
      gateset_fitter.py:371-397, are applied from left to right. *)
  Definition obj_terms (Gs Fs_names : list pystr) (Fs : dict pystr (list pystr)) (probs : pyval -> option F) : result (list (list nat * F)) :=
    let m := length Fs in
    let idx g := match list_index Gs g with Some i => Ok i | None => Err ValueError end in
    do l <- mapM (fun i => mapM (fun j => mapM (fun k =>
        do Fi <- index_e Fs_names i; do Fj <- index_e Fs_names j; do G <- index_e Gs k;
        do p <- match probs (key3 Fj G Fi) with Some p => Ok p | None => Err KeyError end;
        do fi <- dget_e Fs Fi; do fi <- mapM idx fi;
        do fj <- dget_e Fs Fj; do fj <- mapM idx fj;
        Ok (fj ++ [k] ++ fi, p)) (seq 0 (length Gs))) (seq 0 m)) (seq 0 m);
    Ok (concat (map (@concat _) l)).
  Definition obj_fn (d : nat) (terms : list (list nat * F)) (E rho : nat -> F) (Gs : list (mat (F:=F) nat)) : F :=
    fold_left (fun val term =>
        let v := fold_left (fun v g => mapply (seq 0 d) (nth g Gs (fun _ _ => f0)) v) (fst term) rho in
        let x := fsub (fsum (map (fun i => fmul (E i) (v i)) (seq 0 d))) (snd term) in
        fadd val (fmul x x)) terms f0.
End Inversion.
