(** What the printed forms say, for property C80: sums of products of numbers and
    variables, read with the usual rules. *)
From Coq Require Import QArith.
From Verif Require Import Base PyStr DihedralModel DihedralSpec.
Local Open Scope string_scope. Local Open Scope list_scope. Local Open Scope nat_scope.

(** [x_12] is a variable, anything else a number. *)
Definition factor_value (x : point) (f : pystr) : result Z :=
  match f with
  | "x"%char :: "_"%char :: d => do j <- undec d; Ok (bit (x (Z.to_nat j)))
  | _ => undec f
  end.
Definition product_value (x : point) (t : pystr) : result Z :=
  do vs <- mapM (factor_value x) (split "*"%char t); Ok (fold_right Z.mul 1%Z vs).
Definition without (cs : list ascii) (s : pystr) : pystr := filter (fun c => negb (mem c cs)) s.
(** The value of a sum at [x]. *)
Definition sum_value (x : point) (s : pystr) : result Z :=
  do vs <- mapM (product_value x) (split "+"%char (without [" "%char] s)); Ok (zsum vs).
(** A printed element: the phase of the basis state [x], and the bits of the basis state
    to which it is sent. *)
Definition newline : ascii := "010"%char.
Definition described (s : pystr) (x : point) : result (Z * list bool) :=
  match split newline s with
  | [h; p; h'; a; []] =>
      if eqb h (str "phase polynomial = ") && eqb h' (str "affine function = ") then
        do v <- sum_value x p;
        do rows <- mapM (sum_value x) (split ","%char (without ["("%char; ")"%char] a));
        Ok (v, map Z.odd rows)
      else Err ValueError
  | _ => Err ValueError
  end.
