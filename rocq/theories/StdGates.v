(** The usual matrices of the gates x, z, s, sdg, h, cx and cz over an arbitrary
    field with a square root of 1/2 and a square root of -1, and how these gates
    act on amplitudes.  Independent of qiskit-ignis. *)
From Coq Require Import QArith.
From Verif Require Import Base LinAlg QSem DihedralModel RBSeqSpec.
Open Scope nat_scope.

Definition gq (name : string) (qs : list nat) : ginstr := {| gname := str name; gparams := []; gqubits := qs |}.

Section Std.
Context {F : Type} {HF : Fld F}.
Add Field FldFieldS : fth.
Local Open Scope fld_scope.
Variable gmat : pystr -> list Q -> bits -> bits -> F.

Definition sgn (b : bool) : F := if b then - (1) else 1.
Definition ifb (b : bool) : F := if b then 1 else 0.

Record std_gates (r i : F) : Prop := {
  sg_r : (1 + 1) * (r * r) = 1;
  sg_i : i * i = - (1);
  sg_x : forall a b, gmat (str "x") [] [a] [b] = ifb (xorb a b);
  sg_z : forall a b, gmat (str "z") [] [a] [b] = if xorb a b then 0 else sgn b;
  sg_s : forall a b, gmat (str "s") [] [a] [b] = if xorb a b then 0 else if b then i else 1;
  sg_sdg : forall a b, gmat (str "sdg") [] [a] [b] = if xorb a b then 0 else if b then - i else 1;
  sg_h : forall a b, gmat (str "h") [] [a] [b] = r * sgn (a && b);
  sg_cx : forall a a' b b', gmat (str "cx") [] [a; a'] [b; b'] = ifb (Bool.eqb a b && Bool.eqb a' (xorb b b'));
  sg_cz : forall a a' b b', gmat (str "cz") [] [a; a'] [b; b'] = if Bool.eqb a b && Bool.eqb a' b' then sgn (b && b') else 0
}.

Lemma sgn_xor a b : sgn (xorb a b) = sgn a * sgn b.
Proof. destruct a, b; cbn; ring. Qed.
Lemma sgn_sq a : sgn a * sgn a = 1.
Proof. destruct a; cbn; ring. Qed.
Lemma sgn_neq0 a : sgn a <> 0.
Proof. intros E. apply (f1_neq_0 (F:=F)). rewrite <- (sgn_sq a), E. ring. Qed.

Lemma set1_same x q : set1 x q (nth q x false) = x.
Proof. revert q; induction x as [|a x IH]; intros [|q]; cbn; auto. f_equal. apply IH. Qed.
Lemma set1_set1 x q a b : set1 (set1 x q a) q b = set1 x q b.
Proof. revert q; induction x as [|c x IH]; intros [|q]; cbn; auto. f_equal. apply IH. Qed.
Lemma set1_comm x q q' a b : q <> q' -> set1 (set1 x q a) q' b = set1 (set1 x q' b) q a.
Proof. revert q q'; induction x as [|c x IH]; intros [|q] [|q'] H; cbn; auto; [congruence|]. f_equal. apply IH. congruence. Qed.
Lemma nth_set1_eq x q b : q < length x -> nth q (set1 x q b) false = b.
Proof. intros H. rewrite nth_set1, Nat.eqb_refl. destruct (Nat.ltb_spec q (length x)); [reflexivity|lia]. Qed.
Lemma nth_set1_ne x q q' b : q <> q' -> nth q' (set1 x q b) false = nth q' x false.
Proof. intros H. rewrite nth_set1. destruct (Nat.eqb_spec q' q); [congruence|reflexivity]. Qed.

(** A gate on one or two qubits, spelled out. *)
Lemma apply1 name ps q psi x :
  apply (op_of gmat {| gname := name; gparams := ps; gqubits := [q] |}) psi x =
  gmat name ps [nth q x false] [false] * psi (set1 x q false) + gmat name ps [nth q x false] [true] * psi (set1 x q true).
Proof. unfold apply. cbn [op_of o_qs o_mat gname gparams gqubits length cube map app rd wr]. rewrite !fsum_cons, fsum_nil. ring. Qed.
Lemma apply2 name ps q q' psi x :
  let o := [nth q x false; nth q' x false] in
  apply (op_of gmat {| gname := name; gparams := ps; gqubits := [q; q'] |}) psi x =
  gmat name ps o [false; false] * psi (set1 (set1 x q' false) q false) + gmat name ps o [false; true] * psi (set1 (set1 x q' true) q false) +
  gmat name ps o [true; false] * psi (set1 (set1 x q' false) q true) + gmat name ps o [true; true] * psi (set1 (set1 x q' true) q true).
Proof. cbv zeta. unfold apply. cbn [op_of o_qs o_mat gname gparams gqubits length cube map app rd wr]. rewrite !fsum_cons, fsum_nil. ring. Qed.

Section Rules.
Variables r i : F.
Hypothesis H : std_gates r i.

Lemma two_neq0 : (1 + 1 : F) <> 0.
Proof. intros E. apply (f1_neq_0 (F:=F)). rewrite <- (sg_r _ _ H), E. ring. Qed.
Lemma r_neq0 : r <> 0.
Proof. intros E. apply (f1_neq_0 (F:=F)). rewrite <- (sg_r _ _ H), E. ring. Qed.

Lemma apply_x q psi x : apply (op_of gmat (gq "x" [q])) psi x = psi (set1 x q (negb (nth q x false))).
Proof. unfold gq. rewrite apply1, !(sg_x _ _ H). destruct (nth q x false); cbn; ring. Qed.
Lemma apply_z q psi x : apply (op_of gmat (gq "z" [q])) psi x = sgn (nth q x false) * psi x.
Proof.
  unfold gq. rewrite apply1, !(sg_z _ _ H). replace (psi x) with (psi (set1 x q (nth q x false))) by (rewrite set1_same; reflexivity).
  destruct (nth q x false); cbn [xorb]; ring.
Qed.
Lemma apply_s q psi x : apply (op_of gmat (gq "s" [q])) psi x = (if nth q x false then i else 1) * psi x.
Proof.
  unfold gq. rewrite apply1, !(sg_s _ _ H). replace (psi x) with (psi (set1 x q (nth q x false))) by (rewrite set1_same; reflexivity).
  destruct (nth q x false); cbn [xorb]; ring.
Qed.
Lemma apply_sdg q psi x : apply (op_of gmat (gq "sdg" [q])) psi x = (if nth q x false then - i else 1) * psi x.
Proof.
  unfold gq. rewrite apply1, !(sg_sdg _ _ H). replace (psi x) with (psi (set1 x q (nth q x false))) by (rewrite set1_same; reflexivity).
  destruct (nth q x false); cbn [xorb]; ring.
Qed.
Lemma apply_h q psi x : apply (op_of gmat (gq "h" [q])) psi x =
  r * (psi (set1 x q false) + sgn (nth q x false) * psi (set1 x q true)).
Proof. unfold gq. rewrite apply1, !(sg_h _ _ H). rewrite andb_false_r, andb_true_r. cbn [sgn]. ring. Qed.
Lemma apply_cx c t psi x : c <> t -> apply (op_of gmat (gq "cx" [c; t])) psi x =
  psi (set1 x t (xorb (nth t x false) (nth c x false))).
Proof.
  intros Hct. unfold gq. rewrite apply2, !(sg_cx _ _ H).
  assert (E : forall b, psi (set1 x t b) = psi (set1 (set1 x t b) c (nth c x false))).
  { intros b. rewrite <- (nth_set1_ne x t c b) by congruence. rewrite set1_same. reflexivity. }
  rewrite E. destruct (nth c x false), (nth t x false); cbn; ring.
Qed.
Lemma apply_cz c t psi x : c <> t -> apply (op_of gmat (gq "cz" [c; t])) psi x =
  sgn (nth c x false && nth t x false) * psi x.
Proof.
  intros Hct. unfold gq. rewrite apply2, !(sg_cz _ _ H).
  assert (E : psi x = psi (set1 (set1 x t (nth t x false)) c (nth c x false))) by (rewrite !set1_same; reflexivity).
  rewrite E. destruct (nth c x false), (nth t x false); cbn; ring.
Qed.
End Rules.
End Std.
