(** C78: the matrix of a CNOT-dihedral element. *)
From Coq Require Import QArith.
From Verif Require Import Base LinAlg Cyc DihedralModel DihedralSpec DihedralPolyProofs DihedralValueProofs DihedralGroupProofs DihedralAlgebraProofs DihedralSetProofs DihedralAnyProofs DihedralProperties DihedralAnyProperties DihedralMatModel DihedralMatSpec DihedralMatProofs.
Open Scope nat_scope.

(** Column [j] has one entry that is not zero, the phase of the basis state [j], in
    the row of its image: up to one global phase. *)
Theorem C78_entries_partial det_odd n e : decides_invertible det_odd -> wf_cdi n e -> w0 (dpoly e) = 0%Z ->
  exists M g, to_matrix det_odd e = Ok M /\
    forall i j, i < 2 ^ n -> j < 2 ^ n ->
      (same n (Nat.testbit i) (image e (Nat.testbit j)) -> M i j = omega (g + phase_at e (Nat.testbit j))) /\
      (~ same n (Nat.testbit i) (image e (Nat.testbit j)) -> M i j = cy0).
Proof.
  intros Hd W Z. destruct (to_matrix_spec det_odd Hd n e W Z) as (M & g & E & HM & _). exists M, g. split; [exact E|]. intros i j Hi Hj. rewrite (HM i j Hi Hj).
  destruct (Nat.eqb_spec i (tgt n e j)) as [K|K]; unfold tgt in K; rewrite (enc_eq n _ i Hi) in K; split; intros S; try contradiction; reflexivity.
Qed.
Print Assumptions C78_entries_partial.

Theorem C78_unitary_partial det_odd n e : decides_invertible det_odd -> wf_cdi n e -> w0 (dpoly e) = 0%Z ->
  exists M, to_matrix det_odd e = Ok M /\ meq n (mmul n (mconj (mtr M)) M) mid /\ meq n (mmul n M (mconj (mtr M))) mid.
Proof. intros Hd W Z. destruct (to_matrix_spec det_odd Hd n e W Z) as (M & g & E & HM & Ho). exists M. split; [exact E|]. exact (unitary n e g M W HM Ho). Qed.
Print Assumptions C78_unitary_partial.

(** The matrix of a composition is the product of the matrices, on any number of
    qubits on which the composition does not raise. *)
Theorem C78_compose_partial det_odd n a b (front : bool) c : decides_invertible det_odd -> wf_cdi n a -> wf_cdi n b -> w0 (dpoly a) = 0%Z -> w0 (dpoly b) = 0%Z ->
  compose cpython_union a b front = Ok c ->
  exists A B M, to_matrix det_odd a = Ok A /\ to_matrix det_odd b = Ok B /\ to_matrix det_odd c = Ok M /\
    up_to_phase n M (if front then mmul n A B else mmul n B A).
Proof.
  intros Hd Wa Wb Za Zb E. destruct (C21_compose_never_wrong n a b front Wa Wb) as [K|(c' & K & Wc & Zc & Ic & g & Pc)]; rewrite E in K; [discriminate|]. injection K as <-.
  destruct (to_matrix_spec det_odd Hd n a Wa Za) as (A & ga & EA & HA & _). destruct (to_matrix_spec det_odd Hd n b Wb Zb) as (B & gb & EB & HB & _). destruct (to_matrix_spec det_odd Hd n c Wc Zc) as (M & gc & EM & HM & _).
  exists A, B, M. split; [exact EA|]. split; [exact EB|]. split; [exact EM|]. destruct front; cbn in Ic, Pc.
  - apply (compose_matrix n b a c gb ga gc B A M g); assumption.
  - apply (compose_matrix n a b c ga gb gc A B M g); assumption.
Qed.
Print Assumptions C78_compose_partial.

Theorem C78_adjoint_partial det_odd n e : decides_invertible det_odd -> wf_cdi n e -> w0 (dpoly e) = 0%Z ->
  exists e' M M', adjoint det_odd e = Ok e' /\ to_matrix det_odd e = Ok M /\ to_matrix det_odd e' = Ok M' /\ up_to_phase n M' (mconj (mtr M)).
Proof.
  intros Hd W Z. destruct (adjoint_spec det_odd Hd n e W Z) as (e' & E & W' & Z' & I & g & P). destruct (to_matrix_spec det_odd Hd n e W Z) as (M & g0 & EM & HM & Ho). destruct (to_matrix_spec det_odd Hd n e' W' Z') as (M' & g' & EM' & HM' & _).
  exists e', M, M'. repeat (split; [assumption|]). apply (adjoint_matrix n e e' g0 g' M M' g); assumption.
Qed.
Print Assumptions C78_adjoint_partial.

Theorem C78_transpose_partial det_odd n e : decides_invertible det_odd -> wf_cdi n e -> w0 (dpoly e) = 0%Z ->
  exists e' M M', transpose det_odd e = Ok e' /\ to_matrix det_odd e = Ok M /\ to_matrix det_odd e' = Ok M' /\ up_to_phase n M' (mtr M).
Proof.
  intros Hd W Z. destruct (transpose_spec det_odd Hd n e W Z) as (e' & E & W' & Z' & I & g & P). destruct (to_matrix_spec det_odd Hd n e W Z) as (M & g0 & EM & HM & Ho). destruct (to_matrix_spec det_odd Hd n e' W' Z') as (M' & g' & EM' & HM' & _).
  exists e', M, M'. repeat (split; [assumption|]). apply (transpose_matrix n e e' g0 g' M M' g); assumption.
Qed.
Print Assumptions C78_transpose_partial.

Theorem C78_conjugate_partial det_odd n e : decides_invertible det_odd -> wf_cdi n e -> w0 (dpoly e) = 0%Z ->
  exists e' M M', conjugate det_odd e = Ok e' /\ to_matrix det_odd e = Ok M /\ to_matrix det_odd e' = Ok M' /\ up_to_phase n M' (mconj M).
Proof.
  intros Hd W Z. destruct (conjugate_spec det_odd Hd n e W Z) as (e' & E & W' & Z' & I & g & P). destruct (to_matrix_spec det_odd Hd n e W Z) as (M & g0 & EM & HM & _). destruct (to_matrix_spec det_odd Hd n e' W' Z') as (M' & g' & EM' & HM' & _).
  exists e', M, M'. repeat (split; [assumption|]). apply (conjugate_matrix n e e' g0 g' M M' g); assumption.
Qed.
Print Assumptions C78_conjugate_partial.

(** [expand] gives the Kronecker product of [self] and [other], which is what
    [tensor] should give; [tensor] gives that of [other] and [self]. *)
Theorem C78_expand_partial det_odd n0 n1 self other : decides_invertible det_odd -> wf_cdi n0 other -> wf_cdi n1 self -> w0 (dpoly other) = 0%Z -> w0 (dpoly self) = 0%Z ->
  exists e A B M, expand self other = Ok e /\ to_matrix det_odd self = Ok A /\ to_matrix det_odd other = Ok B /\ to_matrix det_odd e = Ok M /\ up_to_phase (n0 + n1) M (kron n0 A B).
Proof.
  intros Hd W0 W1 Z0 Z1. destruct (C21_expand_partial n0 n1 self other W0 W1) as (e & E & W & Z & I0 & I1 & P).
  destruct (to_matrix_spec det_odd Hd n1 self W1 Z1) as (A & ga & EA & HA & _). destruct (to_matrix_spec det_odd Hd n0 other W0 Z0) as (B & gb & EB & HB & _). destruct (to_matrix_spec det_odd Hd _ e W Z) as (M & g & EM & HM & _).
  exists e, A, B, M. repeat (split; [assumption|]). exact (tensor_matrix n0 n1 other self e gb ga g B A M _ W0 W1 W HB HA HM I0 I1 P).
Qed.
Print Assumptions C78_expand_partial.
Theorem C78_tensor_partial det_odd n0 n1 self other : decides_invertible det_odd -> wf_cdi n0 self -> wf_cdi n1 other -> w0 (dpoly self) = 0%Z -> w0 (dpoly other) = 0%Z ->
  exists e A B M, tensor self other = Ok e /\ to_matrix det_odd self = Ok A /\ to_matrix det_odd other = Ok B /\ to_matrix det_odd e = Ok M /\ up_to_phase (n0 + n1) M (kron n0 B A).
Proof.
  intros Hd W0 W1 Z0 Z1. destruct (C21_tensor_partial n0 n1 self other W0 W1) as (e & E & W & Z & I0 & I1 & P).
  destruct (to_matrix_spec det_odd Hd n0 self W0 Z0) as (A & ga & EA & HA & _). destruct (to_matrix_spec det_odd Hd n1 other W1 Z1) as (B & gb & EB & HB & _). destruct (to_matrix_spec det_odd Hd _ e W Z) as (M & g & EM & HM & _).
  exists e, A, B, M. repeat (split; [assumption|]). exact (tensor_matrix n0 n1 self other e ga gb g A B M _ W0 W1 W HA HB HM I0 I1 P).
Qed.
Print Assumptions C78_tensor_partial.
(** X and the identity: the matrix of their tensor product is not the Kronecker
    product of X and the identity, whatever the phase. *)
Lemma matrix_of det_odd e c : decompose det_odd e = Ok c -> to_matrix det_odd e = Ok (operator (dn e) c).
Proof. intros E. unfold to_matrix. rewrite E. reflexivity. Qed.
Theorem C78_tensor_refuted : exists A B M e,
  tensor x1 (elem1 0 true false) = Ok e /\ to_matrix brute_force x1 = Ok A /\ to_matrix brute_force (elem1 0 true false) = Ok B /\ to_matrix brute_force e = Ok M /\
  ~ up_to_phase 2 M (kron 1 A B).
Proof.
  eexists. eexists. eexists. eexists. split; [vm_compute; reflexivity|]. split; [apply matrix_of; vm_compute; reflexivity|]. split; [apply matrix_of; vm_compute; reflexivity|]. split; [apply matrix_of; vm_compute; reflexivity|].
  intros (k & H). specialize (H 1 0 ltac:(cbn; lia) ltac:(cbn; lia)). revert H. generalize (omega k). intros w H.
  match type of H with ?l = cymul w ?r => assert (L : l = cy1) by (vm_compute; reflexivity); assert (R : r = cy0) by (vm_compute; reflexivity); rewrite L, R in H end.
  assert (Z : cymul w cy0 = cy0) by ring. rewrite Z in H. discriminate H.
Qed.
Print Assumptions C78_tensor_refuted.

(** Elements with the same matrix, up to phase, are equal. *)
Theorem C78_faithful_partial det_odd n a b A B : decides_invertible det_odd -> wf_cdi n a -> wf_cdi n b -> w0 (dpoly a) = 0%Z -> w0 (dpoly b) = 0%Z ->
  to_matrix det_odd a = Ok A -> to_matrix det_odd b = Ok B -> up_to_phase n A B -> a = b.
Proof.
  intros Hd Wa Wb Za Zb EA EB H. destruct (to_matrix_spec det_odd Hd n a Wa Za) as (A' & ga & EA' & HA & _). destruct (to_matrix_spec det_odd Hd n b Wb Zb) as (B' & gb & EB' & HB & _).
  rewrite EA in EA'. rewrite EB in EB'. apply ok_eq in EA', EB'. subst A' B'. exact (faithful n a b ga gb A B Wa Wb Za Zb HA HB H).
Qed.
Print Assumptions C78_faithful_partial.

(** The product of T and X has a global phase, and no matrix. *)
Theorem C78_product_refuted : exists p, cmul cpython_union t1 x1 = Ok p /\ wf_cdi 1 p /\ to_matrix brute_force p = Err QiskitError.
Proof.
  destruct (C17_product_is_composition_partial 1 t1 x1 ltac:(lia)) as (c & E & W & _); [apply wf1; unfold reduced; lia|apply wf1; unfold reduced; lia|]. exists c. split; [exact E|]. split; [exact W|]. clear W.
  assert (D : (do p <- cmul cpython_union t1 x1; decompose brute_force p) = Err QiskitError) by (vm_compute; reflexivity). rewrite E in D. cbn [bind] in D. unfold to_matrix. rewrite D. reflexivity.
Qed.
Print Assumptions C78_product_refuted.

(** An element of two qubits: its matrix, by the exponents of exp(i pi / 4). *)
Example C78_example : wf_cdi 2 ex2 /\ w0 (dpoly ex2) = 0%Z /\ decides_invertible brute_force /\
  (do M <- to_matrix brute_force ex2; Ok (map (fun i => map (fun j => filter (fun k => cyc_eqb (M i j) (omega (Z.of_nat k))) (seq 0 8)) (seq 0 4)) (seq 0 4))) =
  Ok [[[]; [4]; []; []]; [[1]; []; []; []]; [[]; []; [2]; []]; [[]; []; []; [7]]].
Proof. split; [exact ex2_wf|]. split; [reflexivity|]. split; [exact brute_force_decides|]. vm_compute. reflexivity. Qed.
(** Compositions and products with [expand] to which the theorems apply. *)
Example C78_compose_example : exists c e, compose cpython_union ex2 ex2 true = Ok c /\ c <> ex2 /\ expand x1 ex2 = Ok e /\ dn e = 3.
Proof. eexists. eexists. split; [vm_compute; reflexivity|]. split; [discriminate|]. split; [vm_compute; reflexivity|reflexivity]. Qed.
