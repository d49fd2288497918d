(** Properties C17-C21, C56 and C57: the CNOT-dihedral group. *)
From Coq Require Import QArith.
From Verif Require Import Base DihedralModel DihedralSpec DihedralPolyProofs DihedralValueProofs DihedralGroupProofs DihedralGateProofs DihedralDecompProofs DihedralAlgebraProofs DihedralSetProofs DihedralDictProofs.
Open Scope nat_scope.

(** ** C17 *)

(** With CPython's sets, for up to eight qubits: the product exists, is a valid
    element and represents the composition exactly (global phase included). *)
Theorem C17_product_is_composition_partial n a b : n <= 8 -> wf_cdi n a -> wf_cdi n b ->
  exists c, cmul cpython_union a b = Ok c /\ wf_cdi n c /\
    forall x, eq8 (phase_at c x) (phase_at b x + phase_at a (image b x)) /\ same n (image c x) (image a (image b x)).
Proof. intros Hn. exact (cmul_spec cpython_union n (cpython_sorted n Hn) a b). Qed.
Print Assumptions C17_product_is_composition_partial.

(** For every number of qubits if sets of small integers are iterated in
    increasing order. *)
Theorem C17_product_is_composition_sorted_sets set_list n a b : iterates_sorted n set_list -> wf_cdi n a -> wf_cdi n b ->
  exists c, cmul set_list a b = Ok c /\ wf_cdi n c /\
    forall x, eq8 (phase_at c x) (phase_at b x + phase_at a (image b x)) /\ same n (image c x) (image a (image b x)).
Proof. intros Hs. exact (cmul_spec set_list n Hs a b). Qed.
Print Assumptions C17_product_is_composition_sorted_sets.

(** On nine or more qubits the product of the T gate on any of the qubits 1 to 8
    and the identity raises. *)
Theorem C17_product_refuted n j : 9 <= n -> 1 <= j <= 8 ->
  exists e0 e, cdi_id n = Ok e0 /\ wf_cdi n e0 /\ phase e0 1 j = Ok e /\ wf_cdi n e /\ forall r, cmul cpython_union e e0 <> Ok r.
Proof. exact (product_fails n j). Qed.
Print Assumptions C17_product_refuted.

(** Whether a product of monomials raises depends on the size of the hash
    table: x1 x2 x8 times x1 is read as x8 x1 x2, while x1 x2 x8 times x1 x2 is
    built in a larger table and read in order. *)
Theorem C17_union_order : cpython_union [1; 2; 8] [1] = [8; 1; 2] /\ cpython_union [1; 2; 8] [1; 2] = [1; 2; 8] /\
  increasing [8; 1; 2] = false /\ cpython_union [1; 2; 16] [1; 2] = [16; 1; 2].
Proof. vm_compute. auto. Qed.
Print Assumptions C17_union_order.

(** [__rmul__] agrees with [__mul__] if the shifts are equal, and not in general. *)
Theorem C17_rmul_partial set_list self other : dshift self = dshift other -> dn self = dn other ->
  crmul set_list self other = cmul set_list other self.
Proof. exact (rmul_same_shift set_list self other). Qed.
Print Assumptions C17_rmul_partial.

(** T composed with X, on one qubit. *)
Definition t1 : cdi := elem1 1 true false.
Definition x1 : cdi := elem1 0 true true.
Theorem C17_rmul_refuted :
  (do c <- crmul cpython_union x1 t1; Ok (phase_at c (pt [false]))) = Ok 0%Z /\
  (phase_at x1 (pt [false]) + phase_at t1 (image x1 (pt [false])) = 1)%Z.
Proof. vm_compute. auto. Qed.
Print Assumptions C17_rmul_refuted.

Lemma wf1 a s : reduced a -> wf_cdi 1 (elem1 a true s).
Proof.
  intros R. constructor; cbn [elem1 dn dpoly dlin dshift]; try reflexivity; try (constructor; [reflexivity | constructor]).
  - constructor; try reflexivity; cbn [w0 w1 w2 w3]; [unfold reduced; lia | constructor; [exact R | constructor] | constructor | constructor].
  - split; constructor.
  - intros x y H i Hi. specialize (H i Hi). assert (i = 0) by lia. subst i. unfold image, parity in H. cbn in H. destruct (x 0), (y 0), s; cbn in H; congruence.
Qed.
Example C17_example : wf_cdi 1 t1 /\ wf_cdi 1 x1 /\
  (do c <- cmul cpython_union t1 x1; Ok (phase_at c (pt [false]), phase_at c (pt [true]), image c (pt [true]) 0)) = Ok (1%Z, 8%Z, false).
Proof. split; [apply wf1; unfold reduced; lia|]. split; [apply wf1; unfold reduced; lia | vm_compute; reflexivity]. Qed.

(** ** C18 *)
Theorem C18_cnot n e i j : wf_cdi n e -> i < n -> j < n -> i <> j ->
  exists e', cnot e i j = Ok e' /\ wf_cdi n e' /\ tracks n e [gcx i j] e'.
Proof.
  intros W Hi Hj Hij. destruct (cnot_spec n e i j W Hi Hj Hij) as (e' & E & W' & P & H). exists e'. split; [exact E|]. split; [exact W'|].
  exists 0%Z. intros x. exists 0%Z, (upd (image e x) j (xorb (image e x i) (image e x j))). split; [|split].
  - exists 0%Z, (upd (image e x) j (xorb (image e x i) (image e x j))), 0%Z. split; [|split; [split; reflexivity | reflexivity]].
    unfold gate_action. cbn [gname gqubits gcx]. apply Nat.eqb_neq in Hij. rewrite Hij. reflexivity.
  - unfold phase_at. rewrite P. apply eq8_k with 0%Z. ring.
  - intros k Hk. symmetry. apply H, Hk.
Qed.
Print Assumptions C18_cnot.

Theorem C18_flip n e i : wf_cdi n e -> i < n ->
  exists e', flip e i = Ok e' /\ wf_cdi n e' /\ tracks n e [gx i] e'.
Proof.
  intros W Hi. destruct (flip_spec n e i W Hi) as (e' & E & W' & P & _ & _ & H). exists e'. split; [exact E|]. split; [exact W'|].
  exists 0%Z. intros x. exists 0%Z, (upd (image e x) i (negb (image e x i))). split; [|split].
  - exists 0%Z, (upd (image e x) i (negb (image e x i))), 0%Z. split; [reflexivity|]. split; [split; reflexivity | reflexivity].
  - unfold phase_at. rewrite P. apply eq8_k with 0%Z. ring.
  - intros k Hk. symmetry. apply H, Hk.
Qed.
Print Assumptions C18_flip.

Theorem C18_phase n e k i : wf_cdi n e -> i < n ->
  exists e', phase e k i = Ok e' /\ wf_cdi n e' /\ tracks n e [gu1 k i] e'.
Proof.
  intros W Hi. destruct (phase_spec n e k i W Hi) as (e' & E & W' & L & S & _ & _ & g & H). exists e'. split; [exact E|]. split; [exact W'|].
  exists g. intros x. exists (k * bit (image e x i))%Z, (image e x). split; [|split].
  - exists (k * bit (image e x i))%Z, (image e x), 0%Z. split; [reflexivity|]. split; [split; reflexivity | ring].
  - apply H.
  - intros j Hj. unfold image. rewrite L, S, (wd_n n e W), (wd_n n e' W'). reflexivity.
Qed.
Print Assumptions C18_phase.

(** A circuit appended on the qubits [qargs].  The circuit must not be called
    like a gate. *)
Theorem C18_append_circuit_partial n e cname body qargs : wf_cdi n e -> ~ In cname reserved ->
  (forall g q, In g body -> In q (gqubits g) -> q < length qargs) ->
  (forall g, In g body -> valid_gate n (regate qargs g)) ->
  exists e', append_circuit e cname body qargs = Ok e' /\ wf_cdi n e' /\ tracks n e (map (regate qargs) body) e'.
Proof.
  intros W Hc Hq Hv. destruct (append_circuit_spec n e cname body qargs W Hc Hq Hv) as (e' & E & W' & _ & T). exists e'. auto.
Qed.
Print Assumptions C18_append_circuit_partial.

Theorem C18_from_circuit_partial n cname body : 1 <= n -> ~ In cname reserved -> (forall g, In g body -> valid_gate n g) ->
  exists e, from_circuit n cname body = Ok e /\ wf_cdi n e /\ implements n body e.
Proof. intros Hn Hc Hv. destruct (from_circuit_spec n cname body Hn Hc Hv) as (e & E & W & _ & I). exists e. auto. Qed.
Print Assumptions C18_from_circuit_partial.

(** A circuit called [x] that applies two T gates is taken for two X gates;
    the identity is returned. *)
Theorem C18_circuit_name_refuted :
  from_circuit 1 (str "x") [gu1 1 0; gu1 1 0] = cdi_id 1 /\
  exists e, cdi_id 1 = Ok e /\ ~ implements 1 [gu1 1 0; gu1 1 0] e.
Proof.
  split; [vm_compute; reflexivity|]. eexists. split; [reflexivity|]. intros (g & H).
  assert (P : forall x k y, runs [gu1 1 0; gu1 1 0] x k y -> k = (2 * bit (x 0%nat))%Z).
  { intros x k y (k1 & z1 & k2 & E1 & (k3 & z2 & k4 & E2 & (-> & ->) & ->) & ->). cbn in E1. injection E1 as <- <-. cbn in E2. injection E2 as <- <-. destruct (x 0); reflexivity. }
  destruct (H (fun _ => false)) as (k & y & R & Ph & _). apply P in R. subst k. destruct (H (fun _ => true)) as (k & y' & R & Ph' & _). apply P in R. subst k.
  unfold eq8, phase_at, value in *. cbn in Ph, Ph'. rewrite Z.add_0_r in Ph. rewrite Z.add_mod, <- Ph in Ph' by lia. cbn in Ph'. discriminate.
Qed.
Print Assumptions C18_circuit_name_refuted.

(** The gates called t, s, tdg and sdg are refused, with whatever follows. *)
Theorem C18_t_s_refuted n e q rest nm : In nm (map str ["t"; "s"; "tdg"; "sdg"]%string) -> q < n ->
  append_circuit e auto_name ({| gname := nm; gparams := []; gqubits := [q] |} :: rest) (seq 0 n) = Err QiskitError.
Proof.
  intros Hn Hq. unfold append_circuit. change (eqb auto_name (str "cx")) with false. cbv iota. cbn [foldM gqubits mapM].
  assert (E : index_e (seq 0 n) q = Ok q). { rewrite (index_e_ok _ q 0) by (rewrite seq_length; exact Hq). rewrite seq_nth by exact Hq. reflexivity. }
  rewrite E. cbn [bind]. cbn in Hn. destruct Hn as [<-|[<-|[<-|[<-|[]]]]]; vm_compute; reflexivity.
Qed.
Print Assumptions C18_t_s_refuted.

(** An angle that is not a multiple of pi/4 is truncated, not refused. *)
Theorem C18_u1_truncated_refuted : from_circuit 1 auto_name [{| gname := str "u1"; gparams := [15 # 8]; gqubits := [0] |}] =
  from_circuit 1 auto_name [gu1 1 0].
Proof. vm_compute. reflexivity. Qed.
Print Assumptions C18_u1_truncated_refuted.

Example C18_example :
  let c := [gx 0; gcx 0 1; gu1 3 1; gcz 0 2; {| gname := str "y"; gparams := []; gqubits := [2] |}] in
  (forall g, In g c -> valid_gate 3 g) /\ exists e, from_circuit 3 auto_name c = Ok e /\
    map (fun l => (phase_at e (pt l) mod 8)%Z) (all_bits 3) = [0; 0; 5; 5; 5; 1; 0; 4]%Z /\ map (image e (pt [true; false; true])) (seq 0 3) = [false; false; false].
Proof.
  split.
  - intros g [<-|[<-|[<-|[<-|[<-|[]]]]]]; (split; [cbn; intros q Hq; lia | discriminate]).
  - eexists. split; [vm_compute; reflexivity | vm_compute; auto].
Qed.

(** ** C19 *)
Theorem C19_addition n p q : wf_poly n p -> wf_poly n q ->
  exists r, padd p q = Ok r /\ wf_poly n r /\ forall x, eq8 (value r x) (value p x + value q x).
Proof. intros Wp Wq. destruct (padd_spec n p q Wp Wq) as (r & E & W & _ & V). exists r. auto. Qed.
Print Assumptions C19_addition.

Theorem C19_scalar n c p : wf_poly n p -> wf_poly n (smul c p) /\ forall x, eq8 (value (smul c p) x) (c * value p x).
Proof. intros W. destruct (smul_spec n c p W) as (W' & _ & V). auto. Qed.
Print Assumptions C19_scalar.

(** Multiplication drops the monomials of degree four and more: it is exact at
    the points where these vanish, which include all points for [n <= 3]. *)
Theorem C19_multiplication_partial n p q : n <= 8 -> wf_poly n p -> wf_poly n q ->
  exists r, pmul cpython_union p q = Ok r /\ wf_poly n r /\ forall x, low n x -> eq8 (value r x) (value p x * value q x).
Proof. intros Hn. exact (pmul_spec cpython_union n (cpython_sorted n Hn) p q). Qed.
Print Assumptions C19_multiplication_partial.

Theorem C19_multiplication_sorted_sets_partial set_list n p q : iterates_sorted n set_list -> wf_poly n p -> wf_poly n q ->
  exists r, pmul set_list p q = Ok r /\ wf_poly n r /\ forall x, low n x -> eq8 (value r x) (value p x * value q x).
Proof. intros Hs. exact (pmul_spec set_list n Hs p q). Qed.
Print Assumptions C19_multiplication_sorted_sets_partial.

Theorem C19_low_small n x : n <= 3 -> low n x.
Proof.
  intros Hn S ND Hl Hr. exfalso. assert (length S <= length (seq 0 n)); [|rewrite seq_length in *; lia].
  apply NoDup_incl_length; [exact ND|]. intros j Hj. apply in_seq. specialize (Hr j Hj). lia.
Qed.
Print Assumptions C19_low_small.

(** [(x0 x1) (x2 x3) = 0]. *)
Definition x0x1 : poly := {| pn := 4; w0 := 0; w1 := [0; 0; 0; 0]; w2 := [1; 0; 0; 0; 0; 0]; w3 := [0; 0; 0; 0] |}%Z.
Definition x2x3 : poly := {| pn := 4; w0 := 0; w1 := [0; 0; 0; 0]; w2 := [0; 0; 0; 0; 0; 1]; w3 := [0; 0; 0; 0] |}%Z.
Theorem C19_multiplication_refuted :
  pmul cpython_union x0x1 x2x3 = Ok (zeros 4) /\
  value x0x1 (fun _ => true) = 1%Z /\ value x2x3 (fun _ => true) = 1%Z /\ value (zeros 4) (fun _ => true) = 0%Z.
Proof. vm_compute. auto. Qed.
Print Assumptions C19_multiplication_refuted.

(** Same values on all points, same coefficients. *)
Theorem C19_normal_form n p q : wf_poly n p -> wf_poly n q -> (forall x, eq8 (value p x) (value q x)) -> p = q.
Proof. intros Wp Wq H. apply (unique n); auto. Qed.
Print Assumptions C19_normal_form.

(** Every increasing list of at most three variables is a slot of its own. *)
Theorem C19_slots n p I v : wf_poly n p -> length I <= 3 -> increasing I = true -> (forall j, In j I -> j < n) ->
  exists p', set_term p I v = Ok p' /\ wf_poly n p' /\ get_term p' I = Ok (v mod 8)%Z /\
    forall J, length J <= 3 -> increasing J = true -> (forall j, In j J -> j < n) -> J <> I -> get_term p' J = get_term p J.
Proof.
  intros W Hl Hinc Hr. assert (Hin : In I (terms n)) by (apply terms_In; auto). destruct (set_term_spec n p I v W Hin) as (p' & E & W' & T).
  exists p'. split; [exact E|]. split; [exact W'|]. split.
  - rewrite (proj1 (get_term_tm n p' I W' Hin)), (T I Hin), eqb_refl. reflexivity.
  - intros J Hl' Hi' Hr' Hne. assert (HJ : In J (terms n)) by (apply terms_In; auto).
    rewrite (proj1 (get_term_tm n p' J W' HJ)), (proj1 (get_term_tm n p J W HJ)), (T J HJ). destruct (eqb_spec I J) as [E'|_]; [exfalso; apply Hne; auto | reflexivity].
Qed.
Print Assumptions C19_slots.

(** The value is the sum of the terms that [get_term] returns. *)
Theorem C19_value_of_terms n p x : wf_poly n p ->
  value p x = zsum (map (fun t => match get_term p t with Ok c => c * monomial t x | Err _ => 0 end)%Z (terms n)).
Proof.
  intros W. rewrite (value_tm n p x W). apply zsum_map_ext. intros t Ht. rewrite (proj1 (get_term_tm n p t W Ht)). reflexivity.
Qed.
Print Assumptions C19_value_of_terms.

(** Evaluation on a list of integers, as the documentation describes, raises. *)
Theorem C19_evaluate_integers_refuted p xs v : evaluate_ints p xs <> Ok v.
Proof. unfold evaluate_ints. destruct (negb _); discriminate. Qed.
Print Assumptions C19_evaluate_integers_refuted.

Example C19_example :
  let p := {| pn := 2; w0 := 0; w1 := [1; 1]; w2 := [6]; w3 := [] |}%Z in
  wf_poly 2 p /\ special p /\ map (fun l => (value p (pt l) mod 8)%Z) (all_bits 2) = [0; 1; 1; 0]%Z /\
  pmul cpython_union p p = Ok p.
Proof.
  split; [constructor; try reflexivity; cbn; repeat constructor; unfold reduced; lia|]. split; [split; repeat constructor|]. vm_compute. auto.
Qed.

(** ** C20 *)

(** Any element without global phase. *)
Theorem C20_decompose_partial det_odd n e : decides_invertible det_odd -> wf_cdi n e -> w0 (dpoly e) = 0%Z ->
  exists c, decompose det_odd e = Ok c /\ Forall (plain_gate n) c /\ implements n c e.
Proof. intros Hd. exact (decompose_spec det_odd Hd n e). Qed.
Print Assumptions C20_decompose_partial.

(** Some products have a global phase; they cannot be decomposed, on any number
    of qubits from one to three. *)
Definition t_after_x (n : nat) : result cdi :=
  do i <- cdi_id n; do a <- phase i 1 0; do b <- flip i 0; cmul cpython_union a b.
Theorem C20_global_phase_refuted :
  map (fun n => do c <- t_after_x n; Ok (w0 (dpoly c))) [1; 2; 3] = [Ok 1; Ok 1; Ok 1]%Z /\
  map (fun n => do c <- t_after_x n; decompose brute_force c) [1; 2; 3] = [Err QiskitError; Err QiskitError; Err QiskitError].
Proof. vm_compute. auto. Qed.
Print Assumptions C20_global_phase_refuted.

Definition ex2 : cdi := elem2 3 1 2 true true false true true false.
Lemma ex2_wf : wf_cdi 2 ex2.
Proof.
  constructor; cbn [ex2 elem2 dn dpoly dlin dshift]; try reflexivity; try lia.
  - constructor; try reflexivity; cbn [w0 w1 w2 w3]; repeat constructor; unfold reduced; lia.
  - split; repeat constructor.
  - repeat constructor.
  - intros x y H i Hi. pose proof (H 0 ltac:(lia)) as H0. pose proof (H 1 ltac:(lia)) as H1. unfold image, parity in H0, H1. cbn in H0, H1.
    destruct i as [|[|i]]; [| |lia]; destruct (x 0), (y 0), (x 1), (y 1); cbn in H0, H1; congruence.
Qed.
Example C20_example : decides_invertible brute_force /\ wf_cdi 2 ex2 /\ w0 (dpoly ex2) = 0%Z /\
  exists c, decompose brute_force ex2 = Ok c /\ c <> [].
Proof. split; [exact brute_force_decides|]. split; [exact ex2_wf|]. split; [reflexivity|]. eexists. split; [vm_compute; reflexivity | discriminate]. Qed.

(** ** C21 *)

(** [compose] and [dot], up to eight qubits: the composition up to a global
    phase, which is dropped. *)
Theorem C21_compose_partial n a b (front : bool) : n <= 8 -> wf_cdi n a -> wf_cdi n b ->
  let first := if front then b else a in let second := if front then a else b in
  exists c, compose cpython_union a b front = Ok c /\ wf_cdi n c /\ w0 (dpoly c) = 0%Z /\
    (forall x, same n (image c x) (image second (image first x))) /\
    exists g, forall x, eq8 (phase_at c x) (g + phase_at first x + phase_at second (image first x)).
Proof. intros Hn. exact (compose_spec cpython_union n (cpython_sorted n Hn) a b front). Qed.
Print Assumptions C21_compose_partial.

Theorem C21_dot_partial n a b : n <= 8 -> wf_cdi n a -> wf_cdi n b ->
  exists c, dot cpython_union a b = Ok c /\ wf_cdi n c /\ w0 (dpoly c) = 0%Z /\
    (forall x, same n (image c x) (image a (image b x))) /\
    exists g, forall x, eq8 (phase_at c x) (g + phase_at b x + phase_at a (image b x)).
Proof. intros Hn. exact (compose_spec cpython_union n (cpython_sorted n Hn) a b true). Qed.
Print Assumptions C21_dot_partial.

Theorem C21_compose_sorted_sets set_list n a b (front : bool) : iterates_sorted n set_list -> wf_cdi n a -> wf_cdi n b ->
  let first := if front then b else a in let second := if front then a else b in
  exists c, compose set_list a b front = Ok c /\ wf_cdi n c /\ w0 (dpoly c) = 0%Z /\
    (forall x, same n (image c x) (image second (image first x))) /\
    exists g, forall x, eq8 (phase_at c x) (g + phase_at first x + phase_at second (image first x)).
Proof. intros Hs. exact (compose_spec set_list n Hs a b front). Qed.
Print Assumptions C21_compose_sorted_sets.

(** [tensor]: [self] acts on the low qubits and [other] on those above. *)
Theorem C21_tensor_partial n0 n1 self other : wf_cdi n0 self -> wf_cdi n1 other ->
  exists e, tensor self other = Ok e /\ wf_cdi (n0 + n1) e /\ w0 (dpoly e) = 0%Z /\
    (forall x i, i < n0 -> image e x i = image self x i) /\
    (forall x i, i < n1 -> image e x (i + n0) = image other (fun j => x (j + n0)) i) /\
    forall x, eq8 (phase_at e x) (- w0 (dpoly self) - w0 (dpoly other) + phase_at self x + phase_at other (fun j => x (j + n0))).
Proof. intros W0 W1. exact (tensor_spec n0 n1 self other true self other W0 W1 eq_refl). Qed.
Print Assumptions C21_tensor_partial.

Theorem C21_expand_partial n0 n1 self other : wf_cdi n0 other -> wf_cdi n1 self ->
  exists e, expand self other = Ok e /\ wf_cdi (n0 + n1) e /\ w0 (dpoly e) = 0%Z /\
    (forall x i, i < n0 -> image e x i = image other x i) /\
    (forall x i, i < n1 -> image e x (i + n0) = image self (fun j => x (j + n0)) i) /\
    forall x, eq8 (phase_at e x) (- w0 (dpoly other) - w0 (dpoly self) + phase_at other x + phase_at self (fun j => x (j + n0))).
Proof. intros W0 W1. exact (tensor_spec n0 n1 other self false self other W0 W1 eq_refl). Qed.
Print Assumptions C21_expand_partial.

(** In the matrix of [self (x) other] the second factor acts on the low qubits
    (the least significant bits of the index).  The tensor product of X and the
    identity flips the low qubit instead. *)
Theorem C21_tensor_order_refuted :
  (do e <- tensor x1 (elem1 0 true false); Ok (image e (pt [false; false]) 0, image e (pt [false; false]) 1)) = Ok (true, false) /\
  image (elem1 0 true false) (pt [false]) 0 = false /\ image x1 (pt [false]) 0 = true.
Proof. vm_compute. auto. Qed.
Print Assumptions C21_tensor_order_refuted.

(** The adjoint of an element without global phase is its inverse. *)
Theorem C21_adjoint_partial det_odd n e : decides_invertible det_odd -> wf_cdi n e -> w0 (dpoly e) = 0%Z ->
  exists e', adjoint det_odd e = Ok e' /\ wf_cdi n e' /\ w0 (dpoly e') = 0%Z /\
    (forall x, same n (image e' (image e x)) x) /\ exists g, forall x, eq8 (phase_at e' (image e x) + phase_at e x) g.
Proof. intros Hd. exact (adjoint_spec det_odd Hd n e). Qed.
Print Assumptions C21_adjoint_partial.

(** So composing with the adjoint gives the identity element, on either side. *)
Theorem C21_adjoint_cancels_partial det_odd n e : n <= 8 -> decides_invertible det_odd -> wf_cdi n e -> w0 (dpoly e) = 0%Z ->
  exists e', adjoint det_odd e = Ok e' /\ compose cpython_union e e' false = cdi_id n /\ compose cpython_union e' e false = cdi_id n.
Proof. exact (adjoint_cancels det_odd n e). Qed.
Print Assumptions C21_adjoint_cancels_partial.

Theorem C21_conjugate_partial det_odd n e : decides_invertible det_odd -> wf_cdi n e -> w0 (dpoly e) = 0%Z ->
  exists e', conjugate det_odd e = Ok e' /\ wf_cdi n e' /\ w0 (dpoly e') = 0%Z /\
    (forall x, same n (image e' x) (image e x)) /\ exists g, forall x, eq8 (phase_at e' x) (g - phase_at e x).
Proof. intros Hd. exact (conjugate_spec det_odd Hd n e). Qed.
Print Assumptions C21_conjugate_partial.

(** The transpose sends the image of [x] back to [x], with the phase of [x]. *)
Theorem C21_transpose_partial det_odd n e : decides_invertible det_odd -> wf_cdi n e -> w0 (dpoly e) = 0%Z ->
  exists e', transpose det_odd e = Ok e' /\ wf_cdi n e' /\ w0 (dpoly e') = 0%Z /\
    (forall x, same n (image e' (image e x)) x) /\ exists g, forall x, eq8 (phase_at e' (image e x)) (g + phase_at e x).
Proof. intros Hd. exact (transpose_spec det_odd Hd n e). Qed.
Print Assumptions C21_transpose_partial.

(** A product with a global phase has no adjoint. *)
Theorem C21_adjoint_refuted :
  (do c <- cmul cpython_union t1 x1; adjoint brute_force c) = Err QiskitError.
Proof. vm_compute. reflexivity. Qed.
Print Assumptions C21_adjoint_refuted.

Example C21_example : exists e, adjoint brute_force ex2 = Ok e /\ e <> ex2 /\ compose cpython_union ex2 e false = cdi_id 2 /\
  exists f, tensor ex2 x1 = Ok f /\ dn f = 3.
Proof.
  eexists. split; [vm_compute; reflexivity|]. split; [discriminate|]. split; [vm_compute; reflexivity|]. eexists. split; [vm_compute; reflexivity | reflexivity].
Qed.

(** ** C56 *)
Theorem C56_random_element_valid det_odd n r1 r2 r3 linears rs : decides_invertible det_odd -> 1 <= n ->
  length r1 = n -> Forall (fun c => 0 <= c < 8)%Z r1 ->
  length r2 = length (pairs n) -> Forall (fun c => 0 <= c < 4)%Z r2 ->
  length r3 = length (triples n) -> Forall (fun c => 0 <= c < 2)%Z r3 ->
  (forall m, In m linears -> length m = n /\ Forall (fun r => length r = n) m) -> length rs = n ->
  (exists m, In m linears /\ det_odd m = true) ->
  exists e, random_cnotdihedral det_odd n r1 r2 r3 linears rs = Some (Ok e) /\ wf_cdi n e /\ w0 (dpoly e) = 0%Z.
Proof. exact (random_spec det_odd n r1 r2 r3 linears rs). Qed.
Print Assumptions C56_random_element_valid.

(** Conversely every valid element without global phase can be drawn. *)
Theorem C56_random_element_onto det_odd n e : decides_invertible det_odd -> wf_cdi n e -> w0 (dpoly e) = 0%Z ->
  exists r1 r2 r3, random_cnotdihedral det_odd n r1 r2 r3 [dlin e] (dshift e) = Some (Ok e) /\
    Forall (fun c => 0 <= c < 8)%Z r1 /\ Forall (fun c => 0 <= c < 4)%Z r2 /\ Forall (fun c => 0 <= c < 2)%Z r3.
Proof. exact (random_onto det_odd n e). Qed.
Print Assumptions C56_random_element_onto.

Example C56_example : exists e,
  random_cnotdihedral brute_force 2 [7; 1]%Z [3]%Z [] [[[true; true]; [true; true]]; [[true; true]; [true; false]]] [true; false] = Some (Ok e) /\
  dlin e = [[true; true]; [true; false]] /\ decompose brute_force e <> Err QiskitError.
Proof. eexists. split; [vm_compute; reflexivity|]. split; [reflexivity | vm_compute; discriminate]. Qed.

(** ** C57 *)
Theorem C57_zero_cnot_dictionary n : 1 <= n ->
  exists d, make_dict_0 n = Ok d /\ forall a, In a d ->
    wf_cdi n (fst a) /\ w0 (dpoly (fst a)) = 0%Z /\ Forall (plain_gate n) (snd a) /\ implements n (snd a) (fst a).
Proof. exact (make_dict_0_spec n). Qed.
Print Assumptions C57_zero_cnot_dictionary.

(** The next dictionary: every gate list generates its element, has one more cx
    than one of the dictionary before, and the element is in no earlier one. *)
Theorem C57_next_dictionary n prior : 1 <= n -> (forall a, In a (last prior []) -> entry_ok n a) ->
  exists d, make_dict_next n prior = Ok d /\ (forall a, In a d -> entry_ok n a) /\ fresh prior d /\
    (forall a, In a d -> exists b i j tp, In b (last prior []) /\ i < n /\ j < n /\ i <> j /\ tp < 4 /\
       snd a = snd b ++ [gcx i j] ++ (if 0 <? tp then [gu1 (Z.of_nat tp) j] else [])).
Proof. exact (make_dict_next_spec n prior). Qed.
Print Assumptions C57_next_dictionary.

Example C57_example : (do d <- make_dict_0 1; Ok (length d)) = Ok 16 /\ (do d <- make_dict_0 1; do d' <- make_dict_next 1 [d]; Ok (length d')) = Ok 0.
Proof. vm_compute. auto. Qed.
