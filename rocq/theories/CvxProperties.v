(** Properties of the convex fit of tomography (C72). *)
From Coq Require Import QArith Qreals Reals Lra NArith.
From Coquelicot Require Import Coquelicot.
From Verif Require Import LinAlg Base ResultFacts PyStr CountsModel MeasCalModel QSem DihedralModel RBSeqModel RBSeqSpec CtmpSpec StdGates AccSpec EntSpec
  TomoModel TomoSpec TomoFitModel TomoFitSpec TomoLayerProofs TomoBasisProofs TomoBornProofs TomoDataProofs TomoCompleteProofs TomoPsdSpec TomoPtrSpec TomoFitProofs TomoPoolSpec TomoPoolProofs TomoExample.
From Verif Require Import CvxModel CvxSpec CvxProofs Cvx2Proofs.
Local Open Scope string_scope.
Local Open Scope list_scope.
Local Open Scope nat_scope.
Add Field FldFieldCvx3 : (fth (F:=C)).

(** * C72: what the convex fit returns *)
(** The real constraints handed to the solver mean that the complex matrix is
    Hermitian, of the trace asked, positive if asked, and the Choi matrix of a
    trace-preserving map if asked. *)
Theorem C72_problem : forall dim data rows w positive trace tp x, (tp = true -> exists s, s * s = dim) ->
  (admissible (cvx_problem_of dim data rows w positive trace tp) x <-> physical dim positive trace tp (matrix_of x)).
Proof. exact admissible_iff. Qed.
Print Assumptions C72_problem.

(** The objective orders the matrices by the weighted squares of what is left of the
    data, although the code divides the weights by their norm. *)
Theorem C72_objective : forall dim data rows w positive trace tp x y, fits dim data rows w ->
  let res m := residual_re (fst (fit_system rows data w)) (snd (fit_system rows data w)) (vec dim (matrix_of m)) in
  let P := cvx_problem_of dim data rows w positive trace tp in (p_obj P x <= p_obj P y <-> res x <= res y)%R.
Proof. intros dim data rows w positive trace tp x y (Hr & Hl & _ & Hw). cbn [p_obj cvx_problem_of]. rewrite !objective_re by exact Hl. apply residual_order; assumption. Qed.
Print Assumptions C72_objective.

(** Whatever is returned is such a matrix, and no such matrix is closer to the data;
    for rows of Hermitian operators the distance is that of the least squares fit. *)
Theorem C72_fit : forall solve installed kw mk dim data rows w positive trace tp m, fits dim data rows w -> (tp = true -> exists s, s * s = dim) ->
  solves solve (cvx_problem_of dim data rows w positive trace tp) -> cvx_fit solve installed kw mk data rows w positive trace tp = Ok m ->
  let a := fst (fit_system rows data w) in let b := snd (fit_system rows data w) in
  m_rows m = dim /\ m_cols m = dim /\ physical dim positive trace tp (m_at m) /\
  (forall m', physical dim positive trace tp m' -> (residual_re a b (vec dim (m_at m)) <= residual_re a b (vec dim m'))%R) /\
  (expectation_rows dim rows -> forall m', physical dim positive trace tp m' -> (residual a b (vec dim (m_at m)) <= residual a b (vec dim m'))%R).
Proof.
  intros solve installed kw mk dim data rows w positive trace tp m Hf Hs Hsol E. destruct (fit_best solve installed kw mk dim data rows w positive trace tp m Hf Hs Hsol E) as (A & B & C & D).
  split; [exact A|]. split; [exact B|]. split; [exact C|]. split; [exact D|]. intros He m' Hm'. rewrite <- !(residual_same dim rows data w) by (try exact He; first [apply C|apply Hm']). apply D. exact Hm'.
Qed.
Print Assumptions C72_fit.

(** State tomography by the convex fit, from the circuits to the matrix: if the
    frequencies are the probabilities, a solver that solves the problem, which has
    the state itself for an optimum, yields the state and nothing else. *)
Theorem C72_state : forall gmat lstsq eigh solve installed kw mk sdp c qs mb b d ls,
  some_qubits c qs -> t_cregs c = [] -> only_gates (t_body c) -> default_basis mb = Ok (Some b) -> tb_meas b = Some d -> sound_meas gmat d ->
  NoDup ls -> incl ls (md_labels d) -> Forall plain ls -> site_complete (list_prod ls [false; true]) (fun lo => at2 (md_matrix d (fst lo) (snd lo))) -> ls <> [] ->
  forall rs weighted beta method cs, state_tomography_circuits c qs (LTuple ls) mb = Ok cs -> wf_results rs -> (0 <= beta)%R ->
  method = MCvx \/ method = MAuto /\ sdp = true ->
  (forall k, In k cs -> exists cts, last_counts rs (t_name k) cts /\ exact_counts gmat (t_width c) (length qs) (t_body k) cts) ->
  norm2 (t_width c) (final gmat (t_width c) (t_body c)) <> 0%R ->
  let dim := 2 ^ length qs in let rho := state_of gmat (t_width c) (t_body c) qs in
  exists f data rows w, new_fitter rs (map CCirc cs) mb BNone = Ok f /\ fitter_data f weighted beta = Ok (data, rows, w) /\
  let P := cvx_problem_of dim data rows w true (Some 1%R) false in
  let fit := state_fit lstsq eigh (cvx_fit solve installed kw mk) sdp f method weighted beta in
  optimum P (vars_of rho) /\
  (solves solve P -> forall m, fit = Ok m -> m_rows m = dim /\ m_cols m = dim /\ same_entries dim (m_at m) rho) /\
  ((exists s x, solve P (pick_solver kw installed) 5000%N = Ok (s, x) /\ accepted s) -> exists m, fit = Ok m).
Proof.
  intros gmat lstsq eigh solve installed kw mk sdp c qs mb b d ls Hqs Hcr Hg Hmb Hb Hd Hls Hli Hlp HS Hne rs weighted beta method cs Ecs Hwf Hbeta Hmeth Hdata Hnz dim rho.
  destruct (state_new_data gmat c qs mb b d ls Hqs Hcr Hg Hmb Hb Hls Hli Hlp HS Hne rs cs Ecs Hwf Hdata) as (f & Ef & Fm & Hex & Hcov).
  assert (Q : qs <> [] /\ NoDup qs /\ Forall (fun q => q < t_width c) qs) by exact Hqs. destruct Q as (Q1 & Q2 & Q3).
  destruct (state_cvx gmat lstsq eigh solve installed kw mk sdp (t_width c) (t_body c) qs b d f Q1 Q2 Q3 Hg Fm Hb Hd weighted beta Hbeta ls HS Hli method Hmeth Hex Hcov Hnz) as (data & rows & w & Ed & Hfi & Efit & Hok).
  destruct (state_system gmat (t_width c) (t_body c) qs b d f Q1 Q2 Q3 Hg Fm Hb Hd weighted beta Hbeta Hex Hnz) as (data' & rows' & w' & Ed' & Hsys & _). rewrite Ed in Ed'. injection Ed' as <- <- <-.
  exists f, data, rows, w. split; [exact Ef|]. split; [exact Ed|]. cbv zeta. split; [|split; [exact Hok|]].
  - apply exact_optimum; [exact Hfi|discriminate|apply state_physical; assumption|exact Hsys].
  - intros Ha. rewrite Efit. apply (accepted_ok solve installed kw mk dim); [exact Hfi|discriminate|exact Ha].
Qed.
Print Assumptions C72_state.

(** Process tomography: the same of the Choi matrix of the channel. *)
Theorem C72_process : forall gmat lstsq eigh solve installed kw mk sdp c qs mb b d ls,
  some_qubits c qs -> t_cregs c = [] -> only_gates (t_body c) -> default_basis mb = Ok (Some b) -> tb_meas b = Some d -> sound_meas gmat d ->
  NoDup ls -> incl ls (md_labels d) -> Forall plain ls -> site_complete (list_prod ls [false; true]) (fun lo => at2 (md_matrix d (fst lo) (snd lo))) -> ls <> [] ->
  forall pqs pb p pd ps, some_qubits c pqs -> length pqs = length qs -> default_basis pb = Ok (Some p) -> tb_prep p = Some pd -> sound_prep gmat pd ->
  NoDup ps -> incl ps (pd_labels pd) -> Forall plain ps -> site_complete ps (fun l => at2 (pd_matrix pd l)) -> ps <> [] ->
  forall rs weighted beta method cs, process_tomography_circuits c qs (Some pqs) (LTuple ls) mb (LTuple ps) pb = Ok cs -> wf_results rs -> (0 <= beta)%R ->
  method = MCvx \/ method = MAuto /\ sdp = true ->
  (forall k, In k cs -> exists cts, last_counts rs (t_name k) cts /\ exact_counts gmat (t_width c) (length qs) (t_body k) cts) ->
  isometric gmat (t_width c) (t_body c) ->
  let dim := 2 ^ length qs * 2 ^ length qs in let choi := choi_of gmat (t_width c) (t_body c) pqs qs in
  exists f data rows w, new_fitter rs (map CCirc cs) mb pb = Ok f /\ fitter_data f weighted beta = Ok (data, rows, w) /\
  let P := cvx_problem_of dim data rows w true (Some (INR (2 ^ length qs))) true in
  let fit := process_fit lstsq eigh (cvx_fit solve installed kw mk) sdp f method weighted beta in
  optimum P (vars_of choi) /\
  (solves solve P -> forall m, fit = Ok m -> m_rows m = dim /\ m_cols m = dim /\ same_entries dim (m_at m) choi) /\
  ((exists s x, solve P (pick_solver kw installed) 5000%N = Ok (s, x) /\ accepted s) -> exists m, fit = Ok m).
Proof.
  intros gmat lstsq eigh solve installed kw mk sdp c qs mb b d ls Hqs Hcr Hg Hmb Hb Hd Hls Hli Hlp HS Hne pqs pb p pd ps Hpqs Hlen Hpb Hp Hpd Hps Hpi Hpp HP Hpne rs weighted beta method cs Ecs Hwf Hbeta Hmeth Hdata Hiso dim choi.
  destruct (process_new_data gmat c qs mb b d ls Hqs Hcr Hg Hmb Hb Hls Hli Hlp HS Hne pqs pb p pd ps Hpqs Hlen Hpb Hp Hps Hpi Hpp HP Hpne rs cs Ecs Hwf Hdata) as (f & Ef & Fm & Fp & Hex & Hcov).
  assert (Q : qs <> [] /\ NoDup qs /\ Forall (fun q => q < t_width c) qs) by exact Hqs. destruct Q as (Q1 & Q2 & Q3).
  assert (Q : pqs <> [] /\ NoDup pqs /\ Forall (fun q => q < t_width c) pqs) by exact Hpqs. destruct Q as (P1 & P2 & P3).
  destruct (process_cvx gmat lstsq eigh solve installed kw mk sdp (t_width c) (t_body c) qs b d f Q1 Q2 Q3 Hg Fm Hb Hd weighted beta Hbeta ls HS Hli pqs p pd P2 P3 Hlen Fp Hp Hpd ps HP Hpi method Hmeth Hex Hcov Hiso) as (data & rows & w & Ed & Hfi & Efit & Hok).
  destruct (process_system gmat (t_width c) (t_body c) qs b d f Q1 Q2 Q3 Hg Fm Hb Hd weighted beta Hbeta pqs p pd P2 P3 Hlen Fp Hp Hpd Hex Hiso) as (data' & rows' & w' & Ed' & Hsys & _). rewrite Ed in Ed'. injection Ed' as <- <- <-.
  exists f, data, rows, w. split; [exact Ef|]. split; [exact Ed|]. cbv zeta. split; [|split; [exact Hok|]].
  - apply exact_optimum; [exact Hfi|intros _; unfold dim; eauto|apply choi_physical; assumption|exact Hsys].
  - intros Ha. rewrite Efit. apply (accepted_ok solve installed kw mk dim); [exact Hfi|intros _; unfold dim; eauto|exact Ha].
Qed.
Print Assumptions C72_process.

(** The loop: the solver is asked with 5000 iterations, and again with twice as many
    as long as it answers that the problem seems unbounded and the number is below
    [max_iters]; the last answer decides.  An error of the solver is passed on, and
    any other status than optimal is refused. *)
Theorem C72_attempts : forall solve installed kw mk dim data rows w positive trace tp, fits dim data rows w -> (tp = true -> exists s, s * s = dim) ->
  let mx := match mk with Some m => m | None => 20000%N end in
  let call j := solve (cvx_problem_of dim data rows w positive trace tp) (pick_solver kw installed) (5000 * 2 ^ N.of_nat j)%N in
  let fit := cvx_fit solve installed kw mk data rows w positive trace tp in
  exists k, (forall j, j < k -> (exists x, call j = Ok (UnboundedInaccurate, x)) /\ (5000 * 2 ^ N.of_nat j < mx)%N) /\
  (forall e, call k = Err e -> fit = Err e) /\
  (forall s x, call k = Ok (s, x) ->
    (accepted s -> fit = Ok {| m_rows := dim; m_cols := dim; m_at := matrix_of x |}) /\
    (~ accepted s -> fit = Err RuntimeError /\ (s = UnboundedInaccurate -> (mx <= 5000 * 2 ^ N.of_nat k)%N))).
Proof.
  intros solve installed kw mk dim data rows w positive trace tp Hf Hs mx call fit.
  destruct (attempts_spec solve (cvx_problem_of dim data rows w positive trace tp) (pick_solver kw installed) mx (N.size_nat mx) 5000%N ltac:(lia) (size_enough mx)) as (k & A & B & C).
  exists k. unfold fit. rewrite (fit_loop solve installed kw mk dim) by assumption. split; [intros j Hj; destruct (A j Hj) as (x & E & L); split; [exists x; exact E|exact L]|].
  split; [intros e He; cbv zeta; fold mx; rewrite (B e He); reflexivity|]. intros s x E. destruct (C s x E) as [C1 C2]. cbv zeta. fold mx. split; [intros Ha; rewrite (C1 Ha); reflexivity|intros Ha; destruct (C2 Ha) as [-> C3]; split; [reflexivity|exact C3]].
Qed.
Print Assumptions C72_attempts.

(** The solver: the one named, or else CVXOPT or MOSEK, in this order, if they are
    installed, and otherwise the choice is that of CVXPY. *)
Theorem C72_solver : forall kw installed,
  (forall s, kw = Some s -> pick_solver kw installed = Some s) /\
  (kw = None -> In (str "CVXOPT") installed -> pick_solver kw installed = Some (str "CVXOPT")) /\
  (kw = None -> ~ In (str "CVXOPT") installed -> In (str "MOSEK") installed -> pick_solver kw installed = Some (str "MOSEK")) /\
  (kw = None -> ~ In (str "CVXOPT") installed -> ~ In (str "MOSEK") installed -> pick_solver kw installed = None).
Proof.
  intros kw installed. unfold pick_solver. split; [intros s ->; reflexivity|]. split; [intros -> H; apply mem_In in H; rewrite H; reflexivity|].
  split; intros -> H1 H2; apply mem_not_In in H1; rewrite H1; [apply mem_In in H2|apply mem_not_In in H2]; rewrite H2; reflexivity.
Qed.
Print Assumptions C72_solver.

(** [max_iters] does not bound the iterations: a solver that does its work in one
    iteration and fails on more is still asked for 5000 when [max_iters] is one. *)
Theorem C72_max_iters_refuted : exists solve data rows, fits 1 data rows None /\
  (forall p s it, (it <= 1)%N -> solve p s it = Ok (Optimal, vars_of (fun _ _ => RtoC 1))) /\
  cvx_fit solve [] None (Some 1%N) data rows None true (Some 1%R) false = Err RuntimeError.
Proof.
  exists (fun _ _ it => if (it <=? 1)%N then Ok (Optimal, vars_of (fun _ _ => RtoC 1)) else Err RuntimeError), [1%R], [[RtoC 1]].
  split; [split; [discriminate|]; split; [repeat constructor|]; split; [reflexivity|exact I]|]. split; [intros p s it H; apply N.leb_le in H; rewrite H; reflexivity|]. reflexivity.
Qed.
Print Assumptions C72_max_iters_refuted.

(** Arrays whose shapes do not fit are refused. *)
Theorem C72_shapes : forall solve installed kw mk data rows w positive trace (tp : bool), let cols := length (nth 0 rows []) in
  (~ exists dim, dim * dim = cols) \/ ~ Forall (fun r => length r = cols) rows \/ length data <> length rows \/
  (exists w', w = Some w' /\ length w' <> length rows) \/ (tp = true /\ ~ exists s, (s * s) * (s * s) = cols) ->
  cvx_fit solve installed kw mk data rows w positive trace tp = Err ValueError.
Proof. exact shapes_refused. Qed.
Print Assumptions C72_shapes.

(** A trace-preserving map with another trace than the dimension cannot be had. *)
Theorem C72_trace_conflict : forall solve installed kw mk s data rows w positive t, fits (s * s) data rows w -> t <> INR s ->
  solves solve (cvx_problem_of (s * s) data rows w positive (Some t) true) -> forall m, cvx_fit solve installed kw mk data rows w positive (Some t) true <> Ok m.
Proof. exact trace_conflict. Qed.
Print Assumptions C72_trace_conflict.

(** The Choi matrix of a circuit that keeps norms is one of the matrices sought, and
    so is the state of a circuit. *)
Theorem C72_physical : forall gmat N c qs, NoDup qs -> Forall (fun q => q < N) qs ->
  (norm2 N (final gmat N c) <> 0%R -> physical (2 ^ length qs) true (Some 1%R) false (state_of gmat N c qs)) /\
  (forall pqs, NoDup pqs -> Forall (fun q => q < N) pqs -> length pqs = length qs -> isometric gmat N c ->
   physical (2 ^ length qs * 2 ^ length qs) true (Some (INR (2 ^ length qs))) true (choi_of gmat N c pqs qs)).
Proof. intros gmat N c qs Hqs Hlt. split; [apply state_physical; assumption|intros pqs H1 H2 H3 H4; apply choi_physical; assumption]. Qed.
Print Assumptions C72_physical.

(** State tomography of |1> by the convex fit: a solver that finds the problem
    unbounded with fewer than 10000 iterations and then solves it. *)
Definition solve72 (p : cvx_problem) (s : option pystr) (it : N) : result (status * variables) :=
  if (it <? 10000)%N then Ok (UnboundedInaccurate, vars_of (fun _ _ => RtoC 0)) else Ok (Optimal, vars_of rho62).
Example C72_case : forall weighted, exists data rows w, fitter_data f62 weighted (1 / 2) = Ok (data, rows, w) /\ fits 2 data rows w /\
  solves solve72 (cvx_problem_of 2 data rows w true (Some 1%R) false) /\
  (exists m, state_fit lstsq62 eigh62 (cvx_fit solve72 [str "SCS"; str "CVXOPT"] None None) true f62 MAuto weighted (1 / 2) = Ok m /\ same_entries 2 (m_at m) rho62) /\
  state_fit lstsq62 eigh62 (cvx_fit solve72 [] (Some (str "SCS")) (Some 5000%N)) true f62 MCvx weighted (1 / 2) = Err RuntimeError.
Proof.
  intros weighted.
  assert (S1 : NoDup [0]) by (constructor; [intros []|constructor]). assert (S2 : Forall (fun q => q < 1) [0]) by repeat constructor. assert (S3 : only_gates [xg]) by repeat constructor.
  assert (Sd : sound_meas tgate d62) by (apply (pauli_meas_sound tgate tgate_ok); reflexivity). assert (Nz : norm2 1 (final tgate 1 [xg]) <> 0%R) by (rewrite norm62; lra).
  destruct (state_system tgate 1 [xg] [0] PauliBasis d62 f62 ltac:(discriminate) S1 S2 S3 eq_refl eq_refl Sd weighted (1 / 2)%R ltac:(lra) f62_exact Nz) as (data & rows & w & E & A & B & C & D & _).
  change (2 ^ length [0]) with 2 in *. exists data, rows, w. split; [exact E|].
  assert (Hf : fits 2 data rows w) by (split; [exact C|]; split; [exact B|]; split; [symmetry; exact (Forall2_length' _ _ _ A)|exact D]). split; [exact Hf|].
  assert (Hs : false = true -> exists s, s * s = 2) by discriminate. split.
  - intros s it st x Ex Ha. unfold solve72 in Ex. destruct (it <? 10000)%N; injection Ex as <- <-; [destruct Ha; discriminate|].
    apply exact_optimum; [exact Hf|discriminate|apply (state_physical tgate 1 [xg] [0]); assumption|exact A].
  - unfold state_fit, tomography_fit. rewrite E. cbn [bind]. rewrite !(fit_loop solve72 _ _ _ 2) by assumption. split; [|reflexivity].
    eexists. split; [reflexivity|]. intros i j _ _. cbn [m_at]. apply matrix_vars.
Qed.
(** A row of a Hermitian operator, Pauli's Y. *)
Definition y72 : cmat := {| m_rows := 2; m_cols := 2; m_at := fun i j => if i =? j then RtoC 0 else if i <? j then Copp Ci else Ci |}.
Example C72_case_rows : expectation_rows 2 [vec_conj y72].
Proof.
  constructor; [|constructor]. exists y72. split; [reflexivity|]. split; [reflexivity|]. split; [|reflexivity]. intros i j Hi Hj. cbn [m_at y72].
  destruct i as [|[|i]], j as [|[|j]]; try lia; unfold Cconj; apply injective_projections; cbn; ring.
Qed.
