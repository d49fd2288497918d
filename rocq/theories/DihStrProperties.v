(** Property C80: the keys of CNOT-dihedral polynomials and elements tell them apart, and
    their printed forms say what they do. *)
From Coq Require Import QArith.
From Verif Require Import Base ResultFacts PyStr DihedralModel DihedralSpec DihedralPolyProofs DihedralValueProofs DihStrModel DihStrSpec DihStrProofs.
Local Open Scope string_scope. Local Open Scope list_scope. Local Open Scope nat_scope.

(** Two polynomials have the same key exactly when they have the same coefficients, which
    is when they compare equal. *)
Theorem C80_polynomial_key p q :
  (poly_key p = poly_key q <-> w0 p = w0 q /\ w1 p = w1 q /\ w2 p = w2 q /\ w3 p = w3 q) /\
  (poly_key p = poly_key q <-> poly_eqb p q = true).
Proof.
  assert (A : poly_key p = poly_key q <-> w0 p = w0 q /\ w1 p = w1 q /\ w2 p = w2 q /\ w3 p = w3 q).
  { split; [apply poly_key_inj|]. intros (E0 & E1 & E2 & E3). unfold poly_key. rewrite E0, E1, E2, E3. reflexivity. }
  split; [exact A|]. rewrite A. unfold poly_eqb. rewrite !Bool.andb_true_iff, Z.eqb_eq. rewrite (reflect_iff' (w1 p) (w1 q)), (reflect_iff' (w2 p) (w2 q)), (reflect_iff' (w3 p) (w3 q)). tauto.
Qed.
Print Assumptions C80_polynomial_key.

(** So do two elements. *)
Theorem C80_element_key a b :
  (cdi_key a = cdi_key b <-> (w0 (dpoly a) = w0 (dpoly b) /\ w1 (dpoly a) = w1 (dpoly b) /\ w2 (dpoly a) = w2 (dpoly b) /\ w3 (dpoly a) = w3 (dpoly b)) /\ dlin a = dlin b /\ dshift a = dshift b) /\
  (cdi_key a = cdi_key b <-> cdi_eqb a b = true).
Proof.
  assert (A : cdi_key a = cdi_key b <-> (w0 (dpoly a) = w0 (dpoly b) /\ w1 (dpoly a) = w1 (dpoly b) /\ w2 (dpoly a) = w2 (dpoly b) /\ w3 (dpoly a) = w3 (dpoly b)) /\ dlin a = dlin b /\ dshift a = dshift b).
  { split; [apply cdi_key_inj|]. intros (Ep & El & Es). unfold cdi_key. rewrite El, Es. rewrite (proj2 (proj1 (C80_polynomial_key (dpoly a) (dpoly b))) Ep). reflexivity. }
  split; [exact A|]. rewrite A. unfold cdi_eqb. rewrite !Bool.andb_true_iff, <- (proj2 (C80_polynomial_key (dpoly a) (dpoly b))), (proj1 (C80_polynomial_key (dpoly a) (dpoly b))).
  rewrite (reflect_iff' (dlin a) (dlin b)), (reflect_iff' (dshift a) (dshift b)). tauto.
Qed.
Print Assumptions C80_element_key.

(** Every polynomial prints, and the printed sum has the value of the polynomial at every
    point. *)
Theorem C80_polynomial_string n p : wf_poly n p -> exists s, poly_str p = Ok s /\ forall x, sum_value x s = Ok (value p x).
Proof. exact (poly_str_value n p). Qed.
Print Assumptions C80_polynomial_string.

(** Different polynomials in the same number of variables print differently. *)
Theorem C80_polynomial_string_distinct_partial n p q s : wf_poly n p -> wf_poly n q -> poly_str p = Ok s -> poly_str q = Ok s -> p = q.
Proof. exact (poly_str_inj n p q s). Qed.
Print Assumptions C80_polynomial_string_distinct_partial.

(** Polynomials in different numbers of variables, which never compare equal, may print
    alike. *)
Theorem C80_polynomial_string_distinct_refuted :
  ~ (forall n m p q s, wf_poly n p -> wf_poly m q -> poly_str p = Ok s -> poly_str q = Ok s -> poly_eqb p q = true).
Proof. intros H. specialize (H 2 3 (zeros 2) (zeros 3) (str "0") (zeros_wf 2) (zeros_wf 3) eq_refl eq_refl). discriminate. Qed.
Print Assumptions C80_polynomial_string_distinct_refuted.

(** Every element prints, and what is printed says the phase of every basis state and the
    basis state to which it is sent. *)
Theorem C80_element_string n e : wf_cdi n e -> exists s, cdi_str e = Ok s /\ forall x, described s x = Ok (phase_at e x, map (image e x) (seq 0 n)).
Proof. exact (described_ok n e). Qed.
Print Assumptions C80_element_string.

(** Different elements print differently, whatever their numbers of qubits. *)
Theorem C80_element_string_distinct n m a b s : wf_cdi n a -> wf_cdi m b -> cdi_str a = Ok s -> cdi_str b = Ok s -> a = b.
Proof. exact (cdi_str_inj n m a b s). Qed.
Print Assumptions C80_element_string_distinct.

(** A linear part with a row of zeros, which no element has, would print no such sum. *)
Theorem C80_zero_row n e r out : dn e = n -> r < n -> nth_error (dlin e) r = Some (repeat false n) -> nth_error (dshift e) r = Some true ->
  exists rest, write_row e out r = Ok (out ++ str " + 1" ++ rest).
Proof. exact (zero_row n e r out). Qed.
Print Assumptions C80_zero_row.

(** Beside the theorems: an element on two qubits. *)
Definition C80_poly : poly := {| pn := 2; w0 := 3; w1 := [1; 7]%Z; w2 := [6]%Z; w3 := [] |}.
Definition C80_elem : cdi := {| dn := 2; dpoly := C80_poly; dlin := [[true; false]; [true; true]]; dshift := [false; true] |}.
Example C80_keys : poly_key C80_poly = str "(3, (1, 7), (6,), ())" /\ cdi_key C80_elem = str "('(3, (1, 7), (6,), ())', ((1, 0), (1, 1)), (0, 1))".
Proof. split; vm_compute; reflexivity. Qed.
Example C80_poly_wf : wf_poly 2 C80_poly.
Proof. constructor; cbn; try reflexivity; try (unfold reduced; lia); repeat constructor; unfold reduced; lia. Qed.
Example C80_elem_wf : wf_cdi 2 C80_elem.
Proof.
  constructor; try reflexivity.
  - repeat constructor.
  - exact C80_poly_wf.
  - split; repeat constructor.
  - repeat constructor.
  - intros x y H. pose proof (H 0 ltac:(lia)) as H0. pose proof (H 1 ltac:(lia)) as H1. cbv in H0, H1. intros [|[|i]] Hi; [| |lia]; destruct (x 0), (y 0), (x 1), (y 1); congruence.
Qed.
Example C80_prints : poly_str C80_poly = Ok (str "3 + x_0 + 7*x_1 + 6*x_0*x_1") /\
  cdi_str C80_elem = Ok (str "phase polynomial = " ++ [nl] ++ str "3 + x_0 + 7*x_1 + 6*x_0*x_1" ++ [nl] ++ str "affine function = " ++ [nl] ++ str " (x_0,x_0 + x_1 + 1)" ++ [nl]).
Proof. split; vm_compute; reflexivity. Qed.
Example C80_says : match cdi_str C80_elem with Ok s => described s (fun _ => true) | Err x => Err x end = Ok (17%Z, [true; true]).
Proof. vm_compute. reflexivity. Qed.
