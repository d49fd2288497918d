(** Model of the string forms of dihedral.py: [key] and [__str__] of
    [SpecialPolynomial] and [CNOTDihedral].

    Simplification.  The numbers are Python or numpy integers, which print alike. *)
From Coq Require Import QArith.
From Verif Require Import Base PyStr DihedralModel RepCodeModel.
Local Open Scope string_scope. Local Open Scope list_scope. Local Open Scope nat_scope.

(** [str] of a tuple, given the strings of the items. *)
Definition tuple_str (items : list pystr) : pystr :=
  str "(" ++ match items with [a] => a ++ str "," | _ => join (str ", ") items end ++ str ")".
(** [SpecialPolynomial.key], dihedral.py:300-305. *)
Definition poly_key (p : poly) : pystr :=
  tuple_str [zdec (w0 p); tuple_str (map zdec (w1 p)); tuple_str (map zdec (w2 p)); tuple_str (map zdec (w3 p))].
(** [CNOTDihedral.key], dihedral.py:466-471.  The key of the polynomial is a string, of
    which the tuple prints the [repr]. *)
Definition bit_str (b : bool) : pystr := if b then str "1" else str "0".
Definition cdi_key (e : cdi) : pystr :=
  tuple_str [str "'" ++ poly_key (dpoly e) ++ str "'"; tuple_str (map (fun row => tuple_str (map bit_str row)) (dlin e)); tuple_str (map bit_str (dshift e))].

(** One term, dihedral.py:315-319, 323-327 and 332-337. *)
Definition term_str (v : Z) (I : list nat) : pystr :=
  str " + " ++ (if (v =? 1)%Z then [] else zdec v ++ str "*") ++ join (str "*") (map (fun i => str "x_" ++ dec i) I).
Definition add_term (p : poly) (out : pystr) (I : list nat) : result pystr :=
  do v <- get_term p I; Ok (if (v =? 0)%Z then out else out ++ term_str v I).
(** [SpecialPolynomial.__str__], dihedral.py:311-338. *)
Definition poly_str (p : poly) : result pystr :=
  let n := pn p in
  do out <- foldM (add_term p) (map (fun i => [i]) (seq 0 n)) (zdec (w0 p));
  do out <- foldM (add_term p) (flat_map (fun i => map (fun j => [i; j]) (seq (i + 1) (n - (i + 1)))) (seq 0 (n - 1))) out;
  foldM (add_term p) (flat_map (fun i => flat_map (fun j => map (fun k => [i; j; k]) (seq (j + 1) (n - (j + 1)))) (seq (i + 1) (n - 1 - (i + 1)))) (seq 0 (n - 2))) out.

(** [CNOTDihedral.__str__], dihedral.py:520-540. *)
Definition nl : ascii := "010"%char.
Definition write_col (row : list bool) (st : pystr * bool) (col : nat) : result (pystr * bool) :=
  let '(out, wrote) := st in
  do b <- index_e row col;
  Ok (if b then if wrote then (out ++ str " + x_" ++ dec col, wrote) else (out ++ str "x_" ++ dec col, true) else (out, wrote)).
Definition write_row (e : cdi) (out : pystr) (r : nat) : result pystr :=
  do row <- index_e (dlin e) r;
  do st <- foldM (write_col row) (seq 0 (dn e)) (out, false);
  do s <- index_e (dshift e) r;
  let out := if s then fst st ++ str " + 1" else fst st in
  Ok (if r =? dn e - 1 then out else out ++ str ",").
Definition cdi_str (e : cdi) : result pystr :=
  do ps <- poly_str (dpoly e);
  do out <- foldM (write_row e) (seq 0 (dn e)) (str "phase polynomial = " ++ [nl] ++ ps ++ [nl] ++ str "affine function = " ++ [nl] ++ str " (");
  Ok (out ++ str ")" ++ [nl]).
