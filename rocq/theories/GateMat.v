(** The standard matrices of the gates used, over the field Q(zeta_8) (module
    Cyc, [omega k = exp(i pi k / 4)]): entry of row [o] and column [i], both
    given as the bits of the qubits in the order of the arguments.  Angles are
    in units of pi/4. *)
From Coq Require Import QArith Qcanon.
From Verif Require Import Base LinAlg Cyc.
Open Scope nat_scope.

Definition unit_if (b : bool) : cyc := if b then cy1 else cy0.
(** An integer angle, if the parameter is one. *)
Definition angle (params : list Q) : option Z :=
  match params with [a] => if (Zpos (Qden a) =? 1)%Z then Some (Qnum a) else None | _ => None end.

Definition gate_mat (name : pystr) (params : list Q) (o i : list bool) : cyc :=
  if eqb name (str "id") then unit_if (eqb o i)
  else match o, i with
  | [a], [b] =>
      if eqb name (str "x") then unit_if (xorb a b)
      else if eqb name (str "y") then if xorb a b then (if b then omega 6 else omega 2) else cy0
      else if eqb name (str "z") then if xorb a b then cy0 else if b then omega 4 else cy1
      else if eqb name (str "s") then if xorb a b then cy0 else if b then omega 2 else cy1
      else if eqb name (str "sdg") then if xorb a b then cy0 else if b then omega 6 else cy1
      else if eqb name (str "t") then if xorb a b then cy0 else if b then omega 1 else cy1
      else if eqb name (str "u1") then
        match angle params with Some k => if xorb a b then cy0 else if b then omega k else cy1 | None => cy0 end
      else if eqb name (str "h") then if a && b then cyopp rsqrt2 else rsqrt2
      (* rx and ry for the angle pi/2 only *)
      else if eqb name (str "rx") then
        match angle params with Some 2%Z => if xorb a b then cymul (omega 6) rsqrt2 else rsqrt2 | _ => cy0 end
      else if eqb name (str "ry") then
        match angle params with Some 2%Z => if negb a && b then cyopp rsqrt2 else rsqrt2 | _ => cy0 end
      else cy0
  | [a; a'], [b; b'] =>
      if eqb name (str "cx") then unit_if (eqb a b && eqb a' (xorb b b'))
      else if eqb name (str "cz") then if eqb a b && eqb a' b' then (if b && b' then omega 4 else cy1) else cy0
      else cy0
  | _, _ => cy0
  end.
