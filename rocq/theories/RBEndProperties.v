(** C79: benchmarks from the circuits to the estimates. *)
From Coq Require Import QArith Qcanon Qreals Reals Lra Lia.
From Coquelicot Require Import Coquelicot.
From Verif Require Import LinAlg Base PyStr QSem Cyc GateMat DihedralModel DihedralSpec DihedralGateProofs DihedralAlgebraProofs DihedralSetProofs RBSeqDihProofs RBSeqModel RBSeqSpec ResultFacts RBSeqProofs RBSeqActProofs RBSeqTopProofs RBSeqIdProofs RBSeqFinalProofs RBFitModel RBEstModel CtmpSpec EntSpec GstOptSpec IQSpec RBEstSpec RBNoiseProofs RBEstProofs RBEst2Proofs RBEstProperties RBEndSpec RBEndProofs RBEndDihSpec RBEndDihProofs.
Local Open Scope list_scope.
Local Open Scope nat_scope.

(** A unitary gate is a unitary matrix on any number of qubits, and so is a circuit. *)
Theorem C79_circuits_unitary gmat n c : RBSeqSpec.fits n c -> Forall (unitary_gate gmat) c -> unitary (2 ^ n) (circuit_matrix gmat n c).
Proof.
  intros F U. apply (mx_unitary n (map (op_of gmat) c)); [apply fits_ok; exact F|]. apply Forall_map. eapply Forall_impl; [|exact U]. intros g Hg. exact Hg.
Qed.
Print Assumptions C79_circuits_unitary.
(** One circuit after another is a product of matrices. *)
Theorem C79_circuits_multiply gmat n c c' : same (2 ^ n) (circuit_matrix gmat n (c ++ c')) (RBEstSpec.product (2 ^ n) (circuit_matrix gmat n c') (circuit_matrix gmat n c)).
Proof. unfold circuit_matrix. rewrite map_app. apply (mx_app n (map (op_of gmat) c) (map (op_of gmat) c')). Qed.
Print Assumptions C79_circuits_multiply.

(** The gates that a returned circuit has on a pattern are those of the parts: of the
    elements drawn, of the interleaved elements in between, and of the last inverse. *)
Theorem C79_parts gmat grp a out t mult inter logs valid k css s cs i c p : run_of gmat grp a out t mult inter logs valid ->
  k = KStd \/ k = KInt -> returned out k = Some css -> nth_error css s = Some cs -> nth_error cs i = Some c -> p < length (default_pattern (a_pat _ a)) ->
  let pat := qubits_of (default_pattern (a_pat _ a)) p in
  exists log, nth_error logs s = Some log /\
    within pat (gates (cbody c)) = map (on pat) (concat (parts (grp t) (default_pattern (a_pat _ a)) (match k with KInt => inter | _ => None end) p (log_at a i log))).
Proof.
  intros H Hk Hr Hs Hc Hp pat. destruct (ex_circuits _ _ _ _ _ _ _ (ro_logs _ _ _ _ _ _ _ _ _ H) k css Hr) as [_ E]. destruct (E s cs Hs) as (log & Hl & _ & _ & Ec). destruct (Ec i c Hc) as (r & Hri & _ & _ & Hb).
  exists log. split; [exact Hl|]. unfold log_at. rewrite (nth_error_nth _ _ 0 Hri). unfold measured in Hb. rewrite Hb, gates_app, within_app, within_measures, app_nil_r.
  destruct (ro_contract _ _ _ _ _ _ _ _ _ H) as [L D _ _]. pose proof (logs_good _ _ _ _ _ _ _ s log r (ro_logs _ _ _ _ _ _ _ _ _ H) Hl) as Hg.
  destruct Hk as [-> | ->]; cbn [expected_body]; eapply (parts_within gmat grp t _ inter valid (run_nodup H) L D (run_inter H)); auto.
Qed.
Print Assumptions C79_parts.

(** The matrices of the parts are unitary and multiply to a phase; there are as many parts
    as elements reported, and the inverse. *)
Theorem C79_closes gmat grp a out t mult inter logs valid p ms k log noise : run_of gmat grp a out t mult inter logs valid ->
  p < length (default_pattern (a_pat _ a)) -> reported out p ms -> k < length ms -> In log logs -> length (noise k) = S (nth k ms 0) ->
  let ops := operations gmat a t None p noise k log in closes (2 ^ length (qubits_of (default_pattern (a_pat _ a)) p)) ops /\ strengths ops = noise k.
Proof.
  intros H Hp Hr Hk Hl Hn. apply (run_closes H None p noise k log (or_introl eq_refl) Hp Hl). rewrite (parts_standard H p ms k log Hr Hp Hk Hl). exact Hn.
Qed.
Print Assumptions C79_closes.

(** Standard benchmarking: if the data are what the returned circuits give when every
    element is followed by depolarising noise, the fitter reports the strength of the noise
    and its infidelity. *)
Theorem C79_standard gmat grp a out t mult inter logs valid cf f ms lam : run_of gmat grp a out t mult inter logs valid ->
  f_pattern f = default_pattern (a_pat _ a) ->
  (forall p, p < length (f_pattern f) -> let d := 2 ^ length (pattern f p) in pattern f p <> [] /\ reported out p (ms p) /\ enough (ms p) /\ (0 < lam p < 1)%R /\ RBEstSpec.fits cf f p /\
     averaged f p (ms p) logs (fun k log => prob0 d (operations gmat a t None p (fun k => standard (nth k (ms p) 0) (lam p)) k log))) ->
  exists l, fit_data cf f = Ok l /\ length l = length (f_pattern f) /\
  forall p psi, p < length (f_pattern f) -> let d := 2 ^ length (pattern f p) in normalised d psi -> exists r, nth_error l p = Some r /\
    nth 1 (t_params r) 0%R = lam p /\ RtoC (t_epc r) = infidelity d (depolarise d (lam p)) psi.
Proof.
  intros H Ef Hf. apply (C71_benchmark cf f ms lam). intros p Hp d. destruct (Hf p Hp) as (A & B & E & L & F & V). split; [exact A|]. split; [|auto].
  unfold d, pattern in *. rewrite Ef in *. apply (run_benchmarked H f None p (ms p) (prob0 _) (fun m => standard m (lam p)) (or_introl eq_refl) Hp); [|exact V].
  intros k log Hk Hl. rewrite standard_length. symmetry. apply (parts_standard H p (ms p) k log B Hp Hk Hl).
Qed.
Print Assumptions C79_standard.

(** Interleaved benchmarking, from the two lists of circuits of one run. *)
Theorem C79_interleaved gmat grp a out t mult inter logs valid cf f f' ms lam lamg : run_of gmat grp a out t mult inter logs valid -> inter <> None ->
  f_pattern f = default_pattern (a_pat _ a) -> f_pattern f' = f_pattern f ->
  (forall p, p < length (f_pattern f) -> let d := 2 ^ length (pattern f p) in pattern f p <> [] /\ reported out p (ms p) /\ enough (ms p) /\ (0 < lam p < 1)%R /\ (0 < lamg p <= 1)%R /\ RBEstSpec.fits cf f p /\ RBEstSpec.fits cf f' p /\
     averaged f p (ms p) logs (fun k log => prob0 d (operations gmat a t None p (fun k => standard (nth k (ms p) 0) (lam p)) k log)) /\
     averaged f' p (ms p) logs (fun k log => prob0 d (operations gmat a t inter p (fun k => interleaving (nth k (ms p) 0) (lam p) (lamg p)) k log))) ->
  exists l l' r, interleaved_fit cf (f, f') = Ok (l, l', r) /\ length r = length (f_pattern f) /\
  forall p psi, p < length (f_pattern f) -> let d := 2 ^ length (pattern f p) in normalised d psi -> exists v, nth_error r p = Some v /\
    i_alpha v = lam p /\ i_alpha_c v = (lam p * lamg p)%R /\ RtoC (i_epc_est v) = infidelity d (depolarise d (lamg p)) psi /\ (i_sys_l v <= i_epc_est v <= i_sys_r v)%R.
Proof.
  intros H Hn Ef Ef' Hf. destruct (C71_interleaved cf f f' ms ms lam lamg Ef') as (l & l' & r & E & L & R).
  - intros p Hp d. destruct (Hf p Hp) as (A & B & En & L & Lg & F & F' & V & V'). split; [exact A|].
    assert (B1 : benchmarked f p (ms p) d (prob0 d) (fun m => standard m (lam p))).
    { unfold d, pattern in *. rewrite Ef in *. apply (run_benchmarked H f None p (ms p) (prob0 _) (fun m => standard m (lam p)) (or_introl eq_refl) Hp); [|exact V].
      intros k log Hk Hl. rewrite standard_length. symmetry. apply (parts_standard H p (ms p) k log B Hp Hk Hl). }
    assert (B2 : benchmarked f' p (ms p) d (prob0 d) (fun m => interleaving m (lam p) (lamg p))).
    { unfold d, pattern in *. rewrite Ef in *. apply (run_benchmarked H f' inter p (ms p) (prob0 _) (fun m => interleaving m (lam p) (lamg p)) (or_intror eq_refl) Hp); [|exact V'].
      intros k log Hk Hl. rewrite interleaving_length. symmetry. apply (parts_interleaved H p (ms p) k log Hn B Hp Hk Hl). }
    repeat (split; [assumption|]). assumption.
  - exists l, l', r. split; [exact E|]. split; [exact L|]. intros p psi Hp d Hpsi. destruct (R p psi Hp Hpsi) as (v & Ev & R1 & R2 & R3 & R4 & _). exists v. auto.
Qed.
Print Assumptions C79_interleaved.

(** Purity benchmarking: the data are the purities of the states at the end. *)
Theorem C79_purity gmat grp a out t mult inter logs valid cf f ms lam : run_of gmat grp a out t mult inter logs valid -> a_pur _ a = true ->
  f_pattern f = default_pattern (a_pat _ a) ->
  (forall p, p < length (f_pattern f) -> let d := 2 ^ length (pattern f p) in pattern f p <> [] /\ reported out p (ms p) /\ enough (ms p) /\ (0 < lam p < 1)%R /\ RBEstSpec.fits cf f p /\
     averaged f p (ms p) logs (fun k log => final_purity d (operations gmat a t None p (fun k => standard (nth k (ms p) 0) (lam p)) k log))) ->
  exists l, purity_fit cf f = Ok l /\ length l = length (f_pattern f) /\
  forall p psi, p < length (f_pattern f) -> let d := 2 ^ length (pattern f p) in normalised d psi -> exists u, nth_error l p = Some u /\
    nth 1 (t_params (u_fit u)) 0%R = lam p /\ RtoC (u_pepc u) = infidelity d (depolarise d (lam p)) psi.
Proof.
  intros H Hpur Ef Hf. destruct (seq_inv grp a out (ro_run _ _ _ _ _ _ _ _ _ H)) as (m & dd & mu & tt & ii & os & Hcp & _). apply check_pattern_inv in Hcp. destruct Hcp as (_ & Hsize & _ & Hne & _).
  apply (C71_purity cf f ms lam).
  - rewrite Ef. intros E. rewrite E in Hne. apply Hne. reflexivity.
  - intros p Hp d. destruct (Hf p Hp) as (A & B & E & L & F & V). split; [exact A|]. split.
    + apply (Hsize Hpur); unfold pattern; rewrite Ef in *; apply nth_In; lia.
    + split; [|auto]. unfold d, pattern in *. rewrite Ef in *. apply (run_benchmarked H f None p (ms p) (final_purity _) (fun m => standard m (lam p)) (or_introl eq_refl) Hp); [|exact V].
      intros k log Hk Hl. rewrite standard_length. symmetry. apply (parts_standard H p (ms p) k log B Hp Hk Hl).
Qed.
Print Assumptions C79_purity.

(** With the CNOT-dihedral group of dihedral.py on patterns of at most eight qubits, and the
    complex matrices of its gates, every call that returns is such a run. *)
Theorem C79_dihedral {det_odd draw clifford} a out :
  let grp := fun t => match t with TClifford => clifford | TDihedral => dihedral_group det_odd draw end in
  decides_invertible det_odd ->
  (forall pat rs j, In pat (default_pattern (a_pat grp a)) -> exists e, draw (length pat) rs j = Ok e /\ wf_cdi (length pat) e /\ w0 (dpoly e) = 0%Z) ->
  rb_group_of (a_group grp a) = Ok TDihedral -> (forall pat, In pat (default_pattern (a_pat grp a)) -> 1 <= length pat <= 8) ->
  (forall l p pat ie, a_inter grp a = Some l -> nth_error (default_pattern (a_pat grp a)) p = Some pat -> nth_error l p = Some ie ->
     exists e, handle_one grp TDihedral ie = Ok e /\ wf_cdi (length pat) e /\ w0 (dpoly e) = 0%Z) ->
  ascending (default_lv (a_lv grp a)) -> 0 < a_nseeds grp a -> randomized_benchmarking_seq grp a = Ok out ->
  exists mult inter logs, run_of cgate grp a out TDihedral mult inter logs in_use.
Proof. exact (dihedral_run a out). Qed.
Print Assumptions C79_dihedral.
(** The matrices are those of the gates: [embed] is a homomorphism that takes [omega 1] to
    exp(i pi/4). *)
Theorem C79_embedding : (forall x y, embed (cyadd x y) = Cplus (embed x) (embed y)) /\ (forall x y, embed (cymul x y) = Cmult (embed x) (embed y)) /\
  embed cy1 = RtoC 1 /\ (forall x, embed (cconj x) = Cconj (embed x)) /\ (forall x, embed x = RtoC 0 -> x = cy0) /\ embed (omega 1) = (cos (PI / 4), sin (PI / 4)).
Proof.
  split; [exact embed_add|]. split; [exact embed_mul|]. split; [exact embed_1|]. split; [exact embed_conj|]. split.
  - intros x E. exact (embed_kernel x E).
  - rewrite cos_PI4, sin_PI4. unfold embed, omega. cbn [ca cb cc cd Z.modulo]. unfold w8. apply injective_projections; cbn; unfold real, Q2R; cbn; unfold Rdiv; pose proof half_sq as Hs; lra.
Qed.
Print Assumptions C79_embedding.

(** ** A whole benchmark on one qubit
    with noise 1/2: the circuits of lengths 1, 2, 3 of the CNOT-dihedral group, the data they
    give, and a fit. *)
Definition end_draw (n : nat) (rs : option Z) (k : nat) : result cdi := from_circuit n auto_name [gu1 (Z.of_nat k mod 8) 0; gx 0].
Definition end_grp : group_type -> group := fun t => match t with TClifford => dihedral_group brute_force end_draw | TDihedral => dihedral_group brute_force end_draw end.
Definition end_args : seq_args end_grp := {|
  a_nseeds := 2; a_lv := Some [1; 2; 3]; a_pat := Some [[0]]; a_mult := MScalar (NInt 1); a_off := 0%Z; a_align := false;
  a_inter := None; a_pur := false; a_group := Some (str "CNOT-Dihedral"); a_rs := None |}.
Lemma constant_sum {A} (l : list A) (f : A -> C) c : (forall x, In x l -> f x = RtoC c) -> fsum (map f l) = RtoC (c * INR (length l)).
Proof.
  induction l as [|x l IH]; intros H; [cbn; rewrite Rmult_0_r; reflexivity|]. cbn [map length]. rewrite fsum_cons, IH, (H x) by (cbn in *; auto). rewrite S_INR. toC. rewrite <- RtoC_plus. f_equal. ring.
Qed.
Example C79_example : exists out mult inter logs, run_of cgate end_grp end_args out TDihedral mult inter logs in_use /\ reported out 0 [1; 2; 3] /\ enough [1; 2; 3] /\
  averaged (data3 (5 # 8) (9 # 16) (17 # 32)) 0 [1; 2; 3] logs
    (fun k log => prob0 2 (operations cgate end_args TDihedral None 0 (fun k => standard (nth k [1; 2; 3] 0) (1 / 2)) k log)) /\
  RBEstSpec.fits (known [1 / 4; 1 / 2; 1 / 2]%R) (data3 (5 # 8) (9 # 16) (17 # 32)) 0.
Proof.
  assert (E : exists out, randomized_benchmarking_seq end_grp end_args = Ok out /\ reported out 0 [1; 2; 3]) by (eexists; split; [vm_compute; reflexivity|reflexivity]).
  destruct E as (out & E & R). destruct (@C79_dihedral brute_force end_draw (dihedral_group brute_force end_draw) end_args out) as (mult & inter & logs & H).
  - exact brute_force_decides.
  - intros pat rs j [<-|[]]. cbn [length]. destruct (from_circuit_spec 1 auto_name [gu1 (Z.of_nat j mod 8) 0; gx 0] ltac:(lia) auto_name_free) as (e & Ee & W & Z & _).
    + intros g [<-|[<-|[]]]; (split; [cbn; intros q Hq; intuition lia | cbn; discriminate]).
    + exists e. auto.
  - reflexivity.
  - intros pat [<-|[]]. cbn. lia.
  - discriminate.
  - cbn. lia.
  - cbn. lia.
  - exact E.
  - exists out, mult, inter, logs. split; [exact H|]. split; [exact R|]. destruct C71_case_benchmark as (_ & En & Fi). split; [exact En|]. split; [|exact Fi].
    exists [[5 # 8; 9 # 16; 17 # 32]]%Q, [5 # 8; 9 # 16; 17 # 32]%Q. repeat split. intros k Hk.
    assert (P : forall log, In log logs -> prob0 2 (operations cgate end_args TDihedral None 0 (fun k => standard (nth k [1; 2; 3] 0) (1 / 2)) k log) = RtoC (Q2R (nth k [5 # 8; 9 # 16; 17 # 32]%Q 0%Q))).
    { intros log Hl. destruct (C79_closes cgate end_grp end_args out TDihedral mult inter logs in_use 0 [1; 2; 3] k log (fun k => standard (nth k [1; 2; 3] 0) (1 / 2)) H ltac:(cbn; lia) R Hk Hl ltac:(apply standard_length)) as [Cl St].
      rewrite (prob0_standard 2 (1 / 2) (nth k [1; 2; 3] 0) _ ltac:(lia) Cl St). f_equal. cbn in Hk. destruct k as [|[|[|]]]; [| | |lia]; cbn [nth]; unfold Q2R; cbn; lra. }
    symmetry. apply constant_sum. exact P.
Qed.
