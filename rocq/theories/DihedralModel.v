(** Model of [qiskit/ignis/verification/randomized_benchmarking/dihedral.py]:
    the CNOT-dihedral group, all of the file except the [__str__] methods,
    [to_matrix]/[to_operator] and the construction from Terra objects other
    than circuits.

    Coefficients are integers (the code stores them as numpy [int8]; the values
    are below 64 in absolute value between reductions modulo 8).  Binary
    matrices and vectors are lists of booleans.  Indices are natural numbers, so
    the tests for negative indices are omitted. *)
From Coq Require Import QArith.
From Verif Require Import Base.
Open Scope nat_scope.

(** * Polynomials *)

(** dihedral.py:54-75: the fields of a [SpecialPolynomial]. *)
Record poly := { pn : nat; w0 : Z; w1 : list Z; w2 : list Z; w3 : list Z }.

(** dihedral.py:70-71 [nc2], [nc3]. *)
Definition nc2 (n : nat) : nat := n * (n - 1) / 2.
Definition nc3 (n : nat) : nat := n * (n - 1) * (n - 2) / 6.

(** dihedral.py:60-75 [__init__]; [zeros] is the part after the check. *)
Definition zeros (n : nat) : poly :=
  {| pn := n; w0 := 0; w1 := repeat 0%Z n; w2 := repeat 0%Z (nc2 n); w3 := repeat 0%Z (nc3 n) |}.
Definition special_polynomial (n : nat) : result poly :=
  if n <? 1 then Err QiskitError else Ok (zeros n).

(** [itertools.combinations(l, r)]. *)
Fixpoint combs {A} (l : list A) (r : nat) : list (list A) :=
  match r with
  | 0 => [[]]
  | S r' => match l with
            | [] => []
            | a :: l' => map (cons a) (combs l' r') ++ combs l' r
            end
  end.

(** [terms0 + terms1 + terms2 + terms3], as in dihedral.py:94-97. *)
Definition terms (n : nat) : list (list nat) :=
  [[]] ++ combs (seq 0 n) 1 ++ combs (seq 0 n) 2 ++ combs (seq 0 n) 3.

(** [(np.diff(indices) <= 0).any()] is false. *)
Fixpoint increasing (l : list nat) : bool :=
  match l with
  | a :: (b :: _) as l' => (a <? b) && increasing l'
  | _ => true
  end.

(** dihedral.py:239-244, 284-289: position of [x_i x_j]. *)
Definition slot2 (n i j : nat) : nat := (i * n - (i + 1) * i / 2) + (j - i - 1).
(** dihedral.py:246-255, 290-298: position of [x_i x_j x_k]. *)
Definition slot3 (n i j k : nat) : nat :=
  let t1 := n - i in
  let o1 := (t1 - 3) * (t1 - 2) * (t1 - 1) / 6 in
  let t2 := n - j in
  let o2 := (t2 - 2) * (t2 - 1) / 2 in
  let o3 := n - k in
  n * (n - 1) * (n - 2) / 6 - o1 - o2 - o3.

(** dihedral.py:229-233, 273-277: the checks on the indices. *)
Definition bad_indices (n : nat) (I : list nat) : bool :=
  existsb (fun i => n <=? i) I || ((1 <? length I) && negb (increasing I)).

(** dihedral.py:214-255 [get_term]. *)
Definition get_term (p : poly) (I : list nat) : result Z :=
  if 4 <=? length I then Ok 0%Z
  else if bad_indices (pn p) I then Err QiskitError
  else match I with
       | [] => Ok (w0 p)
       | [i] => index_e (w1 p) i
       | [i; j] => index_e (w2 p) (slot2 (pn p) i j)
       | [i; j; k] => index_e (w3 p) (slot3 (pn p) i j k)
       | _ => Ok 0%Z
       end.

(** [l[i] = v]. *)
Definition assign {A} (l : list A) (i : nat) (v : A) : result (list A) :=
  if i <? length l then Ok (firstn i l ++ v :: skipn (S i) l) else Err IndexError.

(** dihedral.py:257-298 [set_term]. *)
Definition set_term (p : poly) (I : list nat) (value : Z) : result poly :=
  if 4 <=? length I then Ok p
  else if bad_indices (pn p) I then Err QiskitError
  else let v := (value mod 8)%Z in
       match I with
       | [] => Ok {| pn := pn p; w0 := v; w1 := w1 p; w2 := w2 p; w3 := w3 p |}
       | [i] => do l <- assign (w1 p) i v;
                Ok {| pn := pn p; w0 := w0 p; w1 := l; w2 := w2 p; w3 := w3 p |}
       | [i; j] => do l <- assign (w2 p) (slot2 (pn p) i j) v;
                Ok {| pn := pn p; w0 := w0 p; w1 := w1 p; w2 := l; w3 := w3 p |}
       | [i; j; k] => do l <- assign (w3 p) (slot3 (pn p) i j k) v;
                Ok {| pn := pn p; w0 := w0 p; w1 := w1 p; w2 := w2 p; w3 := l |}
       | _ => Ok p
       end.

(** [value = p.get_term(I); p.set_term(I, (value + v) % 8)]. *)
Definition add_term (p : poly) (I : list nat) (v : Z) : result poly :=
  do old <- get_term p I; set_term p I ((old + v) mod 8)%Z.

(** dihedral.py:104-113: multiplication by an integer. *)
Definition smul (c : Z) (p : poly) : poly :=
  let f := fun x => ((x * c) mod 8)%Z in
  {| pn := pn p; w0 := f (w0 p); w1 := map f (w1 p); w2 := map f (w2 p); w3 := map f (w3 p) |}.

Fixpoint map2 {A B C} (f : A -> B -> C) (l : list A) (m : list B) : list C :=
  match l, m with a :: l', b :: m' => f a b :: map2 f l' m' | _, _ => [] end.

(** dihedral.py:137-148 [__add__]. *)
Definition padd (p q : poly) : result poly :=
  if pn p =? pn q then
    let f := fun x y => ((x + y) mod 8)%Z in
    Ok {| pn := pn p; w0 := f (w0 p) (w0 q); w1 := map2 f (w1 p) (w1 q);
          w2 := map2 f (w2 p) (w2 q); w3 := map2 f (w3 p) (w3 q) |}
  else Err QiskitError.

Section SetOrder.
(** [list(set(t).union(set(I)))]: the order in which Python iterates over the
    union is a parameter. *)
Variable set_list : list nat -> list nat -> list nat.

(** dihedral.py:77-102 [mul_monomial].  (The bounds test at line 86 joins its
    two halves with [and] and never fires.) *)
Definition mul_monomial (p : poly) (I : list nat) : result poly :=
  if 4 <=? length I then Err QiskitError
  else if (1 <? length I) && negb (increasing I) then Err QiskitError
  else match I with
       | [] => Ok p
       | _ => foldM (fun r t =>
                do value <- get_term p t;
                add_term r (set_list t I) value) (terms (pn p)) (zeros (pn p))
       end.

(** dihedral.py:104-128 [__mul__] for two polynomials. *)
Definition pmul (p q : poly) : result poly :=
  if pn p =? pn q then
    foldM (fun r t =>
      do value <- get_term q t;
      if (value =? 0)%Z then Ok r
      else do tmp <- mul_monomial p t; padd r (smul value tmp)) (terms (pn p)) (zeros (pn p))
  else Err QiskitError.

(** dihedral.py:150-190 [evaluate] on a vector of polynomials. *)
Definition one (n : nat) : poly :=
  {| pn := n; w0 := 1; w1 := w1 (zeros n); w2 := w2 (zeros n); w3 := w3 (zeros n) |}.
Definition evaluate (p : poly) (xs : list poly) : result poly :=
  if negb (length xs =? pn p) then Err QiskitError
  else if negb (forallb (fun q => pn q =? pn p) xs) then Err QiskitError
  else foldM (fun r t =>
         do value <- get_term p t;
         if (value =? 0)%Z then Ok r
         else do vars <- mapM (index_e xs) t;
              do newterm <- foldM pmul vars (one (pn p));
              padd r (smul value newterm)) (terms (pn p)) (zeros (pn p)).
End SetOrder.

(** dihedral.py:150-168 [evaluate] on a list of Python integers: after the
    type checks, [xval % 2] is applied to a list. *)
Definition evaluate_ints (p : poly) (xs : list Z) : result Z :=
  if negb (length xs =? pn p) then Err QiskitError else Err TypeError.

(** [sorted]. *)
Fixpoint insert_sorted (a : nat) (l : list nat) : list nat :=
  match l with [] => [a] | b :: l' => if a <=? b then a :: l else b :: insert_sorted a l' end.
Definition sorted (l : list nat) : list nat := fold_right insert_sorted [] l.

(** dihedral.py:192-212 [set_pj]. *)
Definition set_pj (n : nat) (I : list nat) : result poly :=
  if existsb (fun i => n <=? i) I then Err QiskitError
  else let I := sorted I in
       do p <- foldM (fun p i => set_term p [i] 1) I (zeros n);
       do p <- foldM (fun p t => set_term p t 6) (combs I 2) p;
       foldM (fun p t => set_term p t 4) (combs I 3) p.

(** dihedral.py:300-309 [__eq__]: equality of all coefficients (the keys are
    their printed forms). *)
Definition poly_eqb (p q : poly) : bool :=
  (w0 p =? w0 q)%Z && eqb (w1 p) (w1 q) && eqb (w2 p) (w2 q) && eqb (w3 p) (w3 q).

(** * Group elements *)

(** dihedral.py:342-395: an element.  [linear] and [shift] have entries 0 and 1. *)
Record cdi := { dn : nat; dpoly : poly; dlin : list (list bool); dshift : list bool }.

(** [np.eye(n)]. *)
Definition eye (n : nat) : list (list bool) :=
  map (fun i => map (fun j => i =? j) (seq 0 n)) (seq 0 n).

(** dihedral.py:388-395: the identity. *)
Definition cdi_id (n : nat) : result cdi :=
  do p <- special_polynomial n;
  Ok {| dn := n; dpoly := p; dlin := eye n; dshift := repeat false n |}.

(** dihedral.py:410-418 [_z2matmul], [_z2matvecmul]. *)
Definition dotb (r v : list bool) : bool := fold_right xorb false (map2 andb r v).
Definition column (m : list (list bool)) (j : nat) : list bool := map (fun r => nth j r false) m.
Definition z2matvec (m : list (list bool)) (v : list bool) : list bool := map (fun r => dotb r v) m.
Definition z2matmul (n : nat) (a b : list (list bool)) : list (list bool) :=
  map (fun r => map (fun j => dotb r (column b j)) (seq 0 n)) a.

(** [np.arange(n)[np.nonzero(row)]]. *)
Definition support (n : nat) (row : list bool) : list nat := filter (fun j => nth j row false) (seq 0 n).

(** dihedral.py:431-438: one entry of [new_vars]. *)
Definition new_var (n : nat) (row : list bool) (s : bool) : result poly :=
  do p <- set_pj n (support n row);
  if s then let p := smul (-1) p in
            Ok {| pn := pn p; w0 := ((w0 p + 1) mod 8)%Z; w1 := w1 p; w2 := w2 p; w3 := w3 p |}
  else Ok p.

Section Group.
Variable set_list : list nat -> list nat -> list nat.

(** dihedral.py:420-440 [__mul__]. *)
Definition cmul (a b : cdi) : result cdi :=
  if dn a =? dn b then
    do vars <- mapM (fun i => new_var (dn a) (nth i (dlin b) []) (nth i (dshift b) false)) (seq 0 (dn a));
    do q <- evaluate set_list (dpoly a) vars;
    do p <- padd (dpoly b) q;
    Ok {| dn := dn a; dpoly := p; dlin := z2matmul (dn a) (dlin a) (dlin b);
          dshift := map2 xorb (z2matvec (dlin a) (dshift b)) (dshift a) |}
  else Err QiskitError.

(** dihedral.py:442-464 [__rmul__]: [other * self], called as
    [self.__rmul__(other)]. *)
Definition crmul (self other : cdi) : result cdi :=
  if dn self =? dn other then
    do vars <- mapM (fun i => new_var (dn self) (nth i (dlin self) []) (nth i (dshift other) false)) (seq 0 (dn self));
    do q <- evaluate set_list (dpoly other) vars;
    do p <- padd (dpoly self) q;
    Ok {| dn := dn self; dpoly := p; dlin := z2matmul (dn self) (dlin other) (dlin self);
          dshift := map2 xorb (z2matvec (dlin other) (dshift self)) (dshift other) |}
  else Err QiskitError.

(** dihedral.py:605-655 [compose] (without [qargs]) and [dot]. *)
Definition drop_global (e : cdi) : cdi :=
  let p := dpoly e in
  {| dn := dn e; dpoly := {| pn := pn p; w0 := 0; w1 := w1 p; w2 := w2 p; w3 := w3 p |};
     dlin := dlin e; dshift := dshift e |}.
Definition compose (self other : cdi) (front : bool) : result cdi :=
  if dn self =? dn other then
    do r <- (if front then cmul self other else cmul other self); Ok (drop_global r)
  else Err QiskitError.
Definition dot (self other : cdi) : result cdi :=
  if dn self =? dn other then do r <- cmul self other; Ok (drop_global r) else Err QiskitError.
End Group.

(** dihedral.py:466-475 [key], [__eq__]. *)
Definition cdi_eqb (a b : cdi) : bool :=
  poly_eqb (dpoly a) (dpoly b) && eqb (dlin a) (dlin b) && eqb (dshift a) (dshift b).

(** dihedral.py:477-485 [cnot]. *)
Definition set_nth {A} (l : list A) (i : nat) (v : A) : list A := firstn i l ++ v :: skipn (S i) l.
Definition cnot (e : cdi) (i j : nat) : result cdi :=
  if (i <? dn e) && (j <? dn e) then
    Ok {| dn := dn e; dpoly := dpoly e;
          dlin := set_nth (dlin e) j (map2 xorb (nth i (dlin e) []) (nth j (dlin e) []));
          dshift := set_nth (dshift e) j (xorb (nth i (dshift e) false) (nth j (dshift e) false)) |}
  else Err QiskitError.

(** dihedral.py:487-510 [phase]. *)
Definition phase (e : cdi) (k : Z) (i : nat) : result cdi :=
  if i <? dn e then
    let k := if nth i (dshift e) false then ((7 * k) mod 8)%Z else k in
    let s := support (dn e) (nth i (dlin e) []) in
    do p <- foldM (fun p j => add_term p [j] k) s (dpoly e);
    do p <- foldM (fun p t => add_term p t (-2 * k)) (combs s 2) p;
    do p <- foldM (fun p t => add_term p t (4 * k)) (combs s 3) p;
    Ok {| dn := dn e; dpoly := p; dlin := dlin e; dshift := dshift e |}
  else Err QiskitError.

(** dihedral.py:512-518 [flip]. *)
Definition flip (e : cdi) (i : nat) : result cdi :=
  if i <? dn e then
    Ok {| dn := dn e; dpoly := dpoly e; dlin := dlin e;
          dshift := set_nth (dshift e) i (negb (nth i (dshift e) false)) |}
  else Err QiskitError.

(** dihedral.py:657-732 [_tensor]; [tensor] passes [reverse=True] and
    [expand] passes [reverse=False]. *)
Definition copy_terms (src dst : poly) (off : nat) : result poly :=
  foldM (fun dst i =>
    do v <- get_term src [i];
    do dst <- set_term dst [i + off] v;
    foldM (fun dst j =>
      do v <- get_term src [j; i];
      do dst <- set_term dst [j + off; i + off] v;
      foldM (fun dst k =>
        do v <- get_term src [k; j; i];
        set_term dst [k + off; j + off; i + off] v) (seq 0 j) dst) (seq 0 i) dst) (seq 0 (pn src)) dst.
Definition tensor_ (self other : cdi) (reverse : bool) : result cdi :=
  let e0 := if reverse then self else other in
  let e1 := if reverse then other else self in
  do r <- cdi_id (dn e0 + dn e1);
  do p <- copy_terms (dpoly e0) (dpoly r) 0;
  do p <- copy_terms (dpoly e1) p (dn e0);
  Ok {| dn := dn r; dpoly := p;
        dlin := map (fun row => row ++ repeat false (dn e1)) (dlin e0)
             ++ map (fun row => repeat false (dn e0) ++ row) (dlin e1);
        dshift := dshift e0 ++ dshift e1 |}.
Definition tensor (self other : cdi) : result cdi := tensor_ self other true.
Definition expand (self other : cdi) : result cdi := tensor_ self other false.

(** * Circuits *)

(** One instruction of a circuit: name, parameters (angles in units of
    [pi/4]), qubits. *)
Record ginstr := { gname : pystr; gparams : list Q; gqubits : list nat }.

(** Python's [int] on a number: truncation towards zero. *)
Definition trunc (q : Q) : Z := Z.quot (Qnum q) (Zpos (Qden q)).

(** dihedral.py:846-928 [append_circuit], for a gate or circuit called
    [cname] whose definition is [body]. *)
Definition append_circuit (e : cdi) (cname : pystr) (body : list ginstr) (qargs : list nat) : result cdi :=
  if eqb cname (str "cx") then
    match qargs with [c; t] => cnot e c t | _ => Err QiskitError end
  else
    foldM (fun e (g : ginstr) =>
      do qs <- mapM (index_e qargs) (gqubits g);
      let is := fun s => eqb (gname g) (str s) || eqb cname (str s) in
      if is "x"%string then match qs with [q] => flip e q | _ => Err QiskitError end
      else if is "z"%string then match qs with [q] => phase e 4 q | _ => Err QiskitError end
      else if is "y"%string then
        match qs with [q] => do e <- flip e q; phase e 4 q | _ => Err QiskitError end
      else if is "u1"%string then
        match qs, gparams g with [q], [a] => phase e (trunc a) q | _, _ => Err QiskitError end
      else if is "cx"%string then match qs with [c; t] => cnot e c t | _ => Err QiskitError end
      else if is "cz"%string then
        match qs with
        | [a; b] =>
            do e <- phase e 7 b; do e <- phase e 7 a; do e <- cnot e b a; do e <- phase e 2 a;
            do e <- cnot e b a; do e <- phase e 7 b; phase e 7 a
        | _ => Err QiskitError
        end
      else if is "id"%string then Ok e
      else Err QiskitError) body e.

(** dihedral.py:573-595 [from_circuit]. *)
Definition from_circuit (n : nat) (cname : pystr) (body : list ginstr) : result cdi :=
  do e <- cdi_id n; append_circuit e cname body (seq 0 n).

(** dihedral.py:764-784 [is_cnotdihedral]; [np.linalg.det(m) % 2] is an
    external computation. *)
Section Det.
Variable det_odd : list (list bool) -> bool.

Definition is_cnotdihedral (e : cdi) : bool :=
  let p := dpoly e in
  (w0 p =? 0)%Z && (length (w1 p) =? dn e) && (length (w2 p) =? nc2 (dn e)) && (length (w3 p) =? nc3 (dn e)) &&
  (length (dlin e) =? dn e) && forallb (fun r => length r =? dn e) (dlin e) && (length (dshift e) =? dn e) &&
  det_odd (dlin e) &&
  forallb (fun w => existsb (Z.eqb w) [0; 1; 2; 3; 4; 5; 6; 7]%Z) (w1 p) &&
  forallb (fun w => existsb (Z.eqb w) [0; 2; 4; 6]%Z) (w2 p) &&
  forallb (fun w => existsb (Z.eqb w) [0; 4]%Z) (w3 p).

(** Gates with angles that are multiples of [pi/4]. *)
Definition gu1 (k : Z) (q : nat) : ginstr := {| gname := str "u1"; gparams := [inject_Z k]; gqubits := [q] |}.
Definition gx (q : nat) : ginstr := {| gname := str "x"; gparams := []; gqubits := [q] |}.
Definition gid (q : nat) : ginstr := {| gname := str "id"; gparams := []; gqubits := [q] |}.
Definition gcx (c t : nat) : ginstr := {| gname := str "cx"; gparams := []; gqubits := [c; t] |}.
Definition gcz (c t : nat) : ginstr := {| gname := str "cz"; gparams := []; gqubits := [c; t] |}.
Definition opt (b : bool) (g : ginstr) : list ginstr := if b then [g] else [].

(** The four gates common to all two-qubit cases, e.g. dihedral.py:1009-1016. *)
Definition head2 (t0 : Z) (x0 : bool) (t1 : Z) (x1 : bool) : list ginstr :=
  opt (0 <? t0)%Z (gu1 t0 0) ++ opt x0 (gx 0) ++ opt (0 <? t1)%Z (gu1 t1 1) ++ opt x1 (gx 1).

(** dihedral.py:1080-1087 and four times more: [m], [tpow0], [tpow1].  The
    division by two is exact for valid elements. *)
Definition mt (a b c : Z) (same : bool) : Z * Z * Z :=
  if same then let m := (((8 - c) / 2) mod 4)%Z in (m, ((a - m) mod 8)%Z, ((b - m) mod 8)%Z)
  else let m := ((c / 2) mod 4)%Z in (m, ((a + m) mod 8)%Z, ((b + m) mod 8)%Z).

Definition z_of (b : bool) : Z := if b then 1 else 0.

(** dihedral.py:955-1200 [decompose_cnotdihedral_2_qubits]. *)
Definition decompose2 (e : cdi) : result (list ginstr) :=
  if 2 <? dn e then Err QiskitError
  else if dn e =? 1 then
    if negb (w0 (dpoly e) =? 0)%Z || negb (eqb (dlin e) [[true]]) then Err QiskitError
    else
      do t0 <- index_e (w1 (dpoly e)) 0; do x0 <- index_e (dshift e) 0;
      Ok (opt (0 <? t0)%Z (gu1 t0 0) ++ opt x0 (gx 0) ++ opt ((t0 =? 0)%Z && negb x0) (gid 0))
  else
    if negb (w0 (dpoly e) =? 0)%Z then Err QiskitError
    else
      do a <- index_e (w1 (dpoly e)) 0; do b <- index_e (w1 (dpoly e)) 1;
      do c <- index_e (w2 (dpoly e)) 0;
      do s0 <- index_e (dshift e) 0; do s1 <- index_e (dshift e) 1;
      let lin := fun x y z w => eqb (dlin e) [[x; y]; [z; w]] in
      let t := true in let f := false in
      let case_cs :=
        if lin t f f t then
          (if (c =? 0)%Z then
             head2 a s0 b s1 ++ (if (a =? 0)%Z && (b =? 0)%Z && negb s0 && negb s1 then [gid 0; gid 1] else [])
           else []) ++
          (if ((c =? 2)%Z && Bool.eqb s0 s1) || ((c =? 6)%Z && negb (Bool.eqb s0 s1)) then
             head2 ((a - 2 * z_of s1 - 4 * z_of s0 * z_of s1) mod 8) s0
                   ((b - 2 * z_of s0 - 4 * z_of s0 * z_of s1) mod 8) s1
             ++ [gu1 1 0; gu1 1 1; gcx 0 1; gu1 7 1; gcx 0 1]
           else []) ++
          (if ((c =? 6)%Z && Bool.eqb s0 s1) || ((c =? 2)%Z && negb (Bool.eqb s0 s1)) then
             head2 ((a - 6 * z_of s1 - 4 * z_of s0 * z_of s1) mod 8) s0
                   ((b - 6 * z_of s0 - 4 * z_of s0 * z_of s1) mod 8) s1
             ++ [gu1 7 0; gu1 7 1; gcx 0 1; gu1 1 1; gcx 0 1]
           else []) ++
          (if (c =? 4)%Z then
             head2 ((a - 4 * z_of s1) mod 8) s0 ((b - 4 * z_of s0) mod 8) s1 ++ [gcz 1 0]
           else [])
        else [] in
      let case_cx01 :=
        if lin t f t t then
          let x0 := s0 in let x1 := xorb s1 x0 in
          let '(m, t0, t1) := mt a b c (Bool.eqb x0 x1) in
          head2 t0 x0 t1 x1 ++ [gcx 0 1] ++ opt (0 <? m)%Z (gu1 m 1)
        else [] in
      let case_cx10 :=
        if lin t t f t then
          let x1 := s1 in let x0 := xorb s0 x1 in
          let '(m, t0, t1) := mt a b c (Bool.eqb x0 x1) in
          head2 t0 x0 t1 x1 ++ [gcx 1 0] ++ opt (0 <? m)%Z (gu1 m 0)
        else [] in
      let case_cx01_cx10 :=
        if lin f t t t then
          let x1 := s0 in let x0 := xorb s1 x1 in
          let '(m, t0, t1) := mt a b c (Bool.eqb x0 x1) in
          head2 t0 x0 t1 x1 ++ [gcx 0 1; gcx 1 0] ++ opt (0 <? m)%Z (gu1 m 1)
        else [] in
      let case_cx10_cx01 :=
        if lin t t t f then
          let x0 := s1 in let x1 := xorb s0 x0 in
          let '(m, t0, t1) := mt a b c (Bool.eqb x0 x1) in
          head2 t0 x0 t1 x1 ++ [gcx 1 0; gcx 0 1] ++ opt (0 <? m)%Z (gu1 m 0)
        else [] in
      let case_swap :=
        if lin f t t f then
          let x0 := s1 in let x1 := s0 in
          let '(m, t0, t1) := mt a b c (Bool.eqb x0 x1) in
          head2 t0 x0 t1 x1 ++ [gcx 0 1; gcx 1 0] ++ opt (0 <? m)%Z (gu1 m 1) ++ [gcx 0 1]
        else [] in
      Ok (case_cs ++ case_cx01 ++ case_cx10 ++ case_cx01_cx10 ++ case_cx10_cx01 ++ case_swap).

(** A circuit under construction together with the element it is applied to:
    [circuit.cx(i, j); elem.cnot(i, j)] and so on. *)
Definition acc : Type := cdi * list ginstr.
Definition do_cx (a : acc) (i j : nat) : result acc :=
  do e <- cnot (fst a) i j; Ok (e, snd a ++ [gcx i j]).
Definition do_x (a : acc) (i : nat) : result acc :=
  do e <- flip (fst a) i; Ok (e, snd a ++ [gx i]).
Definition do_u1 (a : acc) (k : Z) (i : nat) : result acc :=
  do e <- phase (fst a) k i; Ok (e, snd a ++ [gu1 k i]).

Definition entry (e : cdi) (i j : nat) : bool := nth j (nth i (dlin e) []) false.

(** dihedral.py:1238-1257: Gauss elimination, one column ... *)
Definition gauss_column (n : nat) (a : acc) (i : nat) : result acc :=
  do a <- (if entry (fst a) i i then Ok a
           else match find (fun j => entry (fst a) j i) (seq (i + 1) (n - (i + 1))) with
                | Some j => do a <- do_cx a j i; do a <- do_cx a i j; do_cx a j i
                | None => Ok a
                end);
  foldM (fun a j => if negb (j =? i) && entry (fst a) j i then do_cx a i j else Ok a) (seq 0 n) a.
(** ... and dihedral.py:1232-1257 with the X gates. *)
Definition reduce_affine (e : cdi) : result acc :=
  do a <- foldM (fun a i => if nth i (dshift e) false then do_x a i else Ok a) (seq 0 (dn e)) (e, []);
  foldM (gauss_column (dn e)) (seq 0 (dn e)) a.

(** dihedral.py:1263-1302: the phase polynomial. *)
Definition build3 (target : poly) (a : acc) (t : list nat) : result acc :=
  match t with
  | [i; j; k] =>
      do v <- get_term target t;
      if (v =? 0)%Z then Ok a
      else do a <- do_cx a i k; do a <- do_cx a j k; do a <- do_u1 a 1 k; do a <- do_cx a i k; do_cx a j k
  | _ => Ok a
  end.
Definition build2 (target : poly) (a : acc) (t : list nat) : result acc :=
  match t with
  | [i; j] =>
      do v1 <- get_term target t; do v2 <- get_term (dpoly (fst a)) t;
      let tpow := (((v2 - v1) / 2) mod 4)%Z in
      if (tpow =? 0)%Z then Ok a
      else do a <- do_cx a i j; do a <- do_u1 a tpow j; do_cx a i j
  | _ => Ok a
  end.
Definition build1 (target : poly) (a : acc) (i : nat) : result acc :=
  do v1 <- get_term target [i]; do v2 <- get_term (dpoly (fst a)) [i];
  let tpow := ((v1 - v2) mod 8)%Z in
  if (tpow =? 0)%Z then Ok a else do_u1 a tpow i.
Definition build_poly (n : nat) (target : poly) : result acc :=
  do e <- cdi_id n;
  do a <- foldM (build3 target) (combs (seq 0 n) 3) (e, []);
  do a <- foldM (build2 target) (combs (seq 0 n) 2) a;
  foldM (build1 target) (seq 0 n) a.

(** [circuit.inverse()] for the gates used here. *)
Definition ginv (g : ginstr) : ginstr :=
  if eqb (gname g) (str "u1") then {| gname := gname g; gparams := map Qopp (gparams g); gqubits := gqubits g |} else g.
Definition circ_inverse (c : list ginstr) : list ginstr := rev (map ginv c).

(** dihedral.py:1203-1308 [decompose_cnotdihedral_general]. *)
Definition decompose_general (e : cdi) : result (list ginstr) :=
  if negb (det_odd (dlin e)) then Err QiskitError
  else
    do (ec, circuit) <- reduce_affine e;
    if negb (eqb (dshift ec) (repeat false (dn e))) || negb (eqb (dlin ec) (eye (dn e))) then Err QiskitError
    else
      do (ne, new_circuit) <- build_poly (dn e) (dpoly ec);
      if negb (poly_eqb (dpoly e) (dpoly ne)) then Err QiskitError
      else Ok (new_circuit ++ circ_inverse circuit).

(** dihedral.py:931-952 [decompose_cnotdihedral]. *)
Definition decompose (e : cdi) : result (list ginstr) :=
  if dn e <? 3 then decompose2 e else decompose_general e.

(** The name Terra gives to an unnamed circuit. *)
Definition auto_name : pystr := str "circuit0".

(** dihedral.py:734-739 [adjoint]. *)
Definition adjoint (e : cdi) : result cdi :=
  do c <- decompose e; from_circuit (dn e) auto_name (circ_inverse c).
(** dihedral.py:741-755 [conjugate]: the angle becomes [2 pi - angle]. *)
Definition gconj (g : ginstr) : ginstr :=
  if eqb (gname g) (str "u1")
  then {| gname := gname g; gparams := map (fun a => inject_Z 8 - a)%Q (gparams g); gqubits := gqubits g |} else g.
Definition conjugate (e : cdi) : result cdi :=
  do c <- decompose e; from_circuit (dn e) auto_name (map gconj c).
(** dihedral.py:757-762 [transpose]. *)
Definition transpose (e : cdi) : result cdi :=
  do c <- decompose e; from_circuit (dn e) auto_name (rev c).

(** dihedral.py:1311-1352 [random_cnotdihedral]: the random draws are
    arguments; [linears] is the sequence of matrices drawn. *)
Definition random_cnotdihedral (n : nat) (r1 r2 r3 : list Z) (linears : list (list (list bool))) (rs : list bool)
  : option (result cdi) :=
  match find det_odd linears with
  | None => None
  | Some l => Some (do e <- cdi_id n;
      Ok {| dn := n; dpoly := {| pn := n; w0 := w0 (dpoly e); w1 := r1; w2 := map (Z.mul 2) r2; w3 := map (Z.mul 4) r3 |};
            dlin := l; dshift := rs |})
  end.
End Det.

(** dihedral.py:787-812 [make_dict_0]: element and gate list number [i]; the
    gates are written as circuit instructions. *)
Definition dict0_entry (n i : nat) : result acc :=
  do e <- cdi_id n;
  do r <- foldM (fun (s : acc * nat) j =>
       let '(a, num) := s in
       let xpower := num mod 2 in let tpower := (num / 2) mod 8 in
       do a <- (if 0 <? tpower then do_u1 a (Z.of_nat tpower) j else Ok a);
       do a <- (if xpower =? 1 then do_x a j else Ok a);
       Ok (a, num / 16)) (seq 0 n) ((e, []), i);
  Ok (fst r).

(** A dictionary keyed by element. *)
Definition elem_dict := list acc.
Definition dict_mem (d : elem_dict) (e : cdi) : bool := existsb (fun a => cdi_eqb (fst a) e) d.
Definition dict_set (d : elem_dict) (a : acc) : elem_dict :=
  if dict_mem d (fst a) then map (fun b => if cdi_eqb (fst b) (fst a) then a else b) d else d ++ [a].
Definition make_dict_0 (n : nat) : result elem_dict :=
  foldM (fun d i => do a <- dict0_entry n i; Ok (dict_set d a)) (seq 0 (16 ^ n)) [].

(** dihedral.py:815-843 [make_dict_next]. *)
Definition make_dict_next (n : nat) (prior : list elem_dict) : result elem_dict :=
  foldM (fun d '(a, i, j, tp) =>
    if i =? j then Ok d
    else
      do a' <- do_cx a i j;
      do a' <- (if 0 <? tp then do_u1 a' (Z.of_nat tp) j else Ok a');
      if existsb (fun d => dict_mem d (fst a')) prior || dict_mem d (fst a') then Ok d else Ok (d ++ [a']))
    (flat_map (fun a => flat_map (fun i => flat_map (fun j => map (fun tp => (a, i, j, tp)) (seq 0 4)) (seq 0 n)) (seq 0 n))
              (last prior [])) [].

(** * The order in which CPython iterates over a set of small integers

    [Objects/setobject.c]: open addressing; the hash of a small non-negative
    integer is itself; iteration follows the table.  Probing from slot
    [hash & mask]: first the 9 following slots if they exist
    ([LINEAR_PROBES]), then [perturb >>= 5; i = (i * 5 + 1 + perturb) & mask].
    Sets of at most three elements keep the initial table of 8 slots. *)
Definition slot_free (tb : list (option nat)) (key i : nat) : bool :=
  match nth i tb None with None => true | Some k => k =? key end.
Fixpoint set_probe (fuel : nat) (mask : nat) (tb : list (option nat)) (key perturb i : nat) : option nat :=
  match fuel with
  | 0 => None
  | S f =>
      let near := i :: (if i + 9 <=? mask then seq (i + 1) 9 else []) in
      match find (slot_free tb key) near with
      | Some j => Some j
      | None => let p := Nat.shiftr perturb 5 in
                set_probe f mask tb key p (Nat.land (i * 5 + 1 + p) mask)
      end
  end.
Definition set_insert (tb : list (option nat)) (key : nat) : list (option nat) :=
  let mask := length tb - 1 in
  match set_probe (2 * length tb + key) mask tb key key (Nat.land key mask) with
  | Some j => set_nth tb j (Some key)
  | None => tb
  end.
Definition set_items (tb : list (option nat)) : list nat :=
  flat_map (fun s => match s with Some k => [k] | None => [] end) tb.
Definition set_of (size : nat) (l : list nat) : list (option nat) :=
  fold_left set_insert l (repeat None size).
(** [list(set(t).union(set(I)))]: [set_merge] first enlarges the table (to 16
    slots) if the number of elements of both sets together reaches 5. *)
Definition cpython_union (t I : list nat) : list nat :=
  let a := set_of 8 t in
  let b := set_items (set_of 8 I) in
  let used := length (set_items a) + length b in
  let a' := if 5 <=? used then set_of 16 (set_items a) else a in
  set_items (fold_left set_insert b a').
