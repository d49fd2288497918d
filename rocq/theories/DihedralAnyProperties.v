(** C17, C19, C21 on any number of qubits: products never are wrong. *)
From Coq Require Import List ZArith.
From Verif Require Import Base DihedralModel DihedralSpec DihedralPolyProofs DihedralValueProofs DihedralGroupProofs DihedralAlgebraProofs DihedralSetProofs DihedralAnyProofs DihedralProperties.
Import ListNotations.
Open Scope nat_scope.

(** CPython's sets of at most three integers each: the items of the union come once
    each, in some order. *)
Theorem C19_union n t I : In t (terms n) -> In I (terms n) ->
  NoDup (cpython_union t I) /\ forall j, In j (cpython_union t I) <-> In j t \/ In j I.
Proof. exact (cpython_lists n t I). Qed.
Print Assumptions C19_union.
(** In the order of the hash table, not of the integers. *)
Example C19_union_example : cpython_union [1; 8] [] = [8; 1] /\ cpython_union [1; 2; 8] [3; 9; 17] = [1; 2; 3; 17; 8; 9] /\ cpython_union [5; 37] [21; 69] = [21; 37; 69; 5].
Proof. vm_compute. auto. Qed.

(** A product of polynomials raises [QiskitError] or is right. *)
Theorem C19_never_wrong n p q : wf_poly n p -> wf_poly n q ->
  pmul cpython_union p q = Err QiskitError \/
  exists r, pmul cpython_union p q = Ok r /\ wf_poly n r /\ forall x, low n x -> eq8 (value r x) (value p x * value q x).
Proof.
  intros Wp Wq. destruct (pmul_spec _ n (sorting_sorted _ n cpython_lists) p q Wp Wq) as (r & E & H). destruct (pmul_any cpython_union p q) as [K|K]; [|left; exact K]. right. exists r. rewrite K. auto.
Qed.
Print Assumptions C19_never_wrong.

(** On any number of qubits a product of elements raises [QiskitError] or is their
    composition. *)
Theorem C17_never_wrong n a b : wf_cdi n a -> wf_cdi n b ->
  cmul cpython_union a b = Err QiskitError \/
  exists c, cmul cpython_union a b = Ok c /\ wf_cdi n c /\
    forall x, eq8 (phase_at c x) (phase_at b x + phase_at a (image b x)) /\ same n (image c x) (image a (image b x)).
Proof.
  intros Wa Wb. destruct (cmul_spec _ n (sorting_sorted _ n cpython_lists) a b Wa Wb) as (c & E & H). destruct (cmul_any cpython_union a b) as [K|K]; [|left; exact K]. right. exists c. rewrite K. auto.
Qed.
Print Assumptions C17_never_wrong.

(** The same for any listing of sets without repetition: in particular, of another
    version of Python. *)
Theorem C17_never_wrong_any set_list n a b : lists_union set_list -> wf_cdi n a -> wf_cdi n b ->
  cmul set_list a b = Err QiskitError \/
  exists c, cmul set_list a b = Ok c /\ wf_cdi n c /\
    forall x, eq8 (phase_at c x) (phase_at b x + phase_at a (image b x)) /\ same n (image c x) (image a (image b x)).
Proof.
  intros HU Wa Wb. destruct (cmul_spec _ n (sorting_sorted _ n HU) a b Wa Wb) as (c & E & H). destruct (cmul_any set_list a b) as [K|K]; [|left; exact K]. right. exists c. rewrite K. auto.
Qed.
Print Assumptions C17_never_wrong_any.
Example C17_never_wrong_any_example : lists_union cpython_union /\ lists_union (sorting cpython_union).
Proof. split; [exact cpython_lists|]. intros n t I Ht HI. destruct (sorting_sorted _ n cpython_lists t I Ht HI) as [H1 H2]. split; [apply inc_nodup, H1|exact H2]. Qed.

Theorem C21_compose_never_wrong n a b (front : bool) : wf_cdi n a -> wf_cdi n b ->
  let first := if front then b else a in let second := if front then a else b in
  compose cpython_union a b front = Err QiskitError \/
  exists c, compose cpython_union a b front = Ok c /\ wf_cdi n c /\ w0 (dpoly c) = 0%Z /\
    (forall x, same n (image c x) (image second (image first x))) /\
    exists g, forall x, eq8 (phase_at c x) (g + phase_at first x + phase_at second (image first x)).
Proof.
  intros Wa Wb first second. destruct (compose_spec _ n (sorting_sorted _ n cpython_lists) a b front Wa Wb) as (c & E & H). destruct (compose_any cpython_union a b front) as [K|K]; [|left; exact K]. right. exists c. rewrite K. split; [exact E|exact H].
Qed.
Print Assumptions C21_compose_never_wrong.

Theorem C21_dot_never_wrong n a b : wf_cdi n a -> wf_cdi n b ->
  dot cpython_union a b = Err QiskitError \/
  exists c, dot cpython_union a b = Ok c /\ wf_cdi n c /\ w0 (dpoly c) = 0%Z /\
    (forall x, same n (image c x) (image a (image b x))) /\
    exists g, forall x, eq8 (phase_at c x) (g + phase_at b x + phase_at a (image b x)).
Proof. exact (C21_compose_never_wrong n a b true). Qed.
Print Assumptions C21_dot_never_wrong.

(** Ten qubits: a product that raises, and one that does not. *)
Definition ten : result (cdi * cdi) := do e0 <- cdi_id 10; do t1 <- phase e0 1 1; do x9 <- flip e0 9; Ok (t1, x9).
Example C17_never_wrong_example :
  (do p <- ten; do c <- cmul cpython_union (fst p) (snd p); Ok (phase_at c (fun _ => true))) = Err QiskitError /\
  (do p <- ten; do c <- cmul cpython_union (snd p) (fst p); Ok (phase_at c (fun _ => true), image c (fun _ => true) 9)) = Ok (1%Z, false).
Proof. vm_compute. auto. Qed.
