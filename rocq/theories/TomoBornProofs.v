(** The rows of the fitter compute probabilities (C46). *)
From Coq Require Import QArith Reals Lra.
From Coquelicot Require Import Coquelicot.
From Verif Require Import LinAlg Base ResultFacts CountsModel QSem DihedralModel RBSeqModel RBSeqSpec CtmpSpec StdGates AccSpec AccProbProofs EntSpec EmbedProofs.
From Verif Require Import TomoModel TomoSpec TomoFitModel TomoFitSpec TomoCircProofs TomoLayerProofs TomoTensorProofs.
Local Open Scope list_scope.
Local Open Scope nat_scope.
Add Field FldFieldCC : (fth (F:=C)).

Lemma cj_add (a b : C) : Cconj (fadd a b) = fadd (Cconj a) (Cconj b). Proof. apply injective_projections; cbn; ring. Qed.
Lemma cj_mul (a b : C) : Cconj (fmul a b) = fmul (Cconj a) (Cconj b). Proof. apply injective_projections; cbn; ring. Qed.
Lemma cj_0 : Cconj f0 = f0. Proof. apply injective_projections; cbn; ring. Qed.
Lemma cj_1 : Cconj f1 = f1. Proof. apply injective_projections; cbn; ring. Qed.
Lemma cj_cj a : Cconj (Cconj a) = a. Proof. apply injective_projections; cbn; ring. Qed.
Lemma sq_cj (z : C) : RtoC (sqmod z) = fmul z (Cconj z). Proof. unfold sqmod. apply injective_projections; cbn; ring. Qed.
Lemma RtoC_fsum {A} (f : A -> R) l : RtoC (fsum (HF:=Fld_R) (map f l)) = fsum (map (fun a => RtoC (f a)) l).
Proof. induction l as [|a l IH]; [reflexivity|]. cbn [map]. rewrite !fsum_cons, <- IH. apply RtoC_plus. Qed.
Lemma norm2_C N psi : RtoC (norm2 N psi) = fsum (map (fun x => fmul (psi x) (Cconj (psi x))) (cube N)).
Proof. unfold norm2. rewrite RtoC_fsum. apply fsum_map_ext. intros x _. apply sq_cj. Qed.

(** * Dot products with vectorised matrices *)
Lemma combine_maps {A B D} (f : A -> B) (g : A -> D) l : combine (map f l) (map g l) = map (fun a => (f a, g a)) l.
Proof. induction l; cbn; f_equal; auto. Qed.
Lemma dot_vec B D rho : m_rows B = D -> m_cols B = D ->
  dot (vec_conj B) (vec D rho) = fsum (map (fun j => fsum (map (fun i => fmul (Cconj (m_at B i j)) (rho i j)) (seq 0 D))) (seq 0 D)).
Proof.
  intros Hr Hc. unfold dot, vec_conj, vec. rewrite Hr, Hc. rewrite combine_maps, map_map. cbn [fst snd].
  apply (fsum_divmod (fun i j => fmul (Cconj (m_at B i j)) (rho i j))).
Qed.
Lemma length_vec_conj B : length (vec_conj B) = m_rows B * m_cols B.
Proof. unfold vec_conj. now rewrite map_length, seq_length. Qed.

(** * Reading the outcome *)
Lemma reads_filter m ops x : reads m ops x = reads m (filter is_measure ops) x.
Proof.
  unfold reads. generalize (repeat false m) as cl. induction ops as [|i ops IH]; intros cl; [reflexivity|]. cbn [fold_left filter].
  destruct i; cbn [is_measure]; cbn [fold_left]; apply IH.
Qed.
Lemma filter_only_gates c : only_gates c -> filter is_measure c = [].
Proof. induction 1 as [|i c Hi _ IH]; [reflexivity|]. destruct i; cbn; auto. destruct Hi. Qed.
Lemma moved_only_gates n c : only_gates c -> moved n c = c.
Proof. induction 1 as [|i c Hi _ IH]; [reflexivity|]. destruct i; cbn in *; try (f_equal; exact IH). destruct Hi. Qed.
Lemma gates_app a b : gates (a ++ b) = gates a ++ gates b. Proof. apply flat_map_app. Qed.
Lemma gates_cgate gs : gates (map CGate gs) = gs.
Proof. induction gs; cbn; f_equal; auto. Qed.
Lemma filter_cgate gs : filter is_measure (map CGate gs) = [].
Proof. induction gs; cbn; auto. Qed.

Section Born.
Variable gmat : pystr -> list Q -> bits -> bits -> C.

(** The parts of a measurement layer. *)
Lemma meas_layer_parts d : sound_meas gmat d -> forall m qs k0, Forall (fun l => In l (md_labels d)) m -> length m = length qs ->
  exists gss Vs, length gss = length Vs /\ length Vs = length m /\
    gates (flat_map (fun '(j, (a, q)) => md_circuit d a q j) (combine (seq k0 (length qs)) (combine m qs))) = concat gss /\
    filter is_measure (flat_map (fun '(j, (a, q)) => md_circuit d a q j) (combine (seq k0 (length qs)) (combine m qs))) = map (fun qc => CMeasure (fst qc) (snd qc)) (combine qs (seq k0 (length qs))) /\
    Forall2 (fun q oV => acts (fst oV) q (snd oV)) qs (combine (map (map (op_of gmat)) gss) Vs) /\
    Forall (fun V => forall a b, fadd (fmul (V false a) (Cconj (V false b))) (fmul (V true a) (Cconj (V true b))) = if Bool.eqb a b then f1 else f0) Vs /\
    (forall os z z', length os = length m -> length z = length m -> length z' = length m ->
      Cconj (tensor (map (fun lo => at2 (md_matrix d (fst lo) (snd lo))) (combine m os)) z z') = fmul (tensor Vs os z) (Cconj (tensor Vs os z'))).
Proof.
  intros Hd. induction m as [|l m IH]; intros [|q qs] k0 Hm Hl; try discriminate.
  - exists [], []. split; [reflexivity|]. split; [reflexivity|]. split; [reflexivity|]. split; [reflexivity|]. split; [constructor|]. split; [constructor|]. intros [|] [|] [|] H1 H2 H3; try discriminate. cbn [combine map tensor]. rewrite cj_1. ring.
  - inversion Hm; subst. destruct (IH qs (S k0)) as (gss & Vs & L1 & L2 & G & M & A & U & T); [assumption|cbn in Hl; lia|].
    destruct (Hd l) as (V & Hc & Hu & Ho); [assumption|]. destruct (Hc q k0) as (gs & Egs & _ & Ha).
    exists (gs :: gss), (V :: Vs). cbn [length combine seq flat_map concat map]. split; [lia|]. split; [lia|]. rewrite Egs, gates_app, filter_app, G, M. split; [|split; [|split; [|split]]].
    + rewrite gates_app, gates_cgate. cbn. now rewrite app_nil_r.
    + rewrite filter_app, filter_cgate. reflexivity.
    + constructor; auto.
    + constructor; [|assumption]. intros a b. pose proof (Hu b a) as E. destruct (Ho false) as (_ & _ & E0). destruct (Ho true) as (_ & _ & E1). rewrite E0, E1 in E.
      replace (Bool.eqb a b) with (Bool.eqb b a) by (destruct a, b; reflexivity). change (Cplus (Cmult (V false a) (Cconj (V false b))) (Cmult (V true a) (Cconj (V true b))) = if Bool.eqb b a then RtoC 1 else RtoC 0).
      rewrite <- E. rewrite (Cmult_comm (V false a)), (Cmult_comm (V true a)). reflexivity.
    + intros [|o os] [|a z] [|b z'] H3 H4 H5; try discriminate. cbn [combine map tensor fst snd]. rewrite !cj_mul. rewrite T by (cbn in *; lia).
      destruct (Ho o) as (_ & _ & E). rewrite E. change (Cmult (Cconj (V o a)) (V o b)) with (fmul (Cconj (V o a)) (V o b)). rewrite cj_mul, cj_cj. ring.
Qed.
Lemma prep_layer_parts d : sound_prep gmat d -> forall p qs, Forall (fun l => In l (pd_labels d)) p -> length p = length qs ->
  exists gss Vs, length gss = length Vs /\ length Vs = length p /\
    gates (prep_layer d qs p) = concat gss /\ filter is_measure (prep_layer d qs p) = [] /\
    Forall2 (fun q oV => acts (fst oV) q (snd oV)) qs (combine (map (map (op_of gmat)) gss) Vs) /\
    fsum (map (fun z => fmul (tensor Vs z (repeat false (length p))) (Cconj (tensor Vs z (repeat false (length p))))) (cube (length p))) = f1 /\
    (forall z z', length z = length p -> length z' = length p ->
      tensor (map (fun l => at2 (pd_matrix d l)) p) z z' = fmul (tensor Vs z (repeat false (length p))) (Cconj (tensor Vs z' (repeat false (length p))))).
Proof.
  intros Hd. unfold prep_layer. induction p as [|l p IH]; intros [|q qs] Hm Hl; try discriminate.
  - exists [], []. split; [reflexivity|]. split; [reflexivity|]. split; [reflexivity|]. split; [reflexivity|]. split; [constructor|]. split; [|intros [|] [|] H1 H2; try discriminate]; cbn [length cube repeat map tensor]; rewrite ?fsum_cons, ?fsum_nil, cj_1; ring.
  - inversion Hm; subst. destruct (IH qs) as (gss & Vs & L1 & L2 & G & M & A & U & T); [assumption|cbn in Hl; lia|].
    destruct (Hd l) as (V & Hc & Hu & Hr & Hcl & Ho); [assumption|]. destruct (Hc q) as (gs & Egs & _ & Ha).
    exists (gs :: gss), (V :: Vs). cbn [length combine flat_map concat map]. split; [lia|]. split; [lia|]. rewrite Egs, gates_app, filter_app, G, M, gates_cgate, filter_cgate. split; [reflexivity|split; [reflexivity|split; [|split]]].
    + constructor; auto.
    + cbn [cube repeat]. rewrite map_app, fsum_app, !map_map. cbn [tensor].
      assert (K : forall c, fsum (map (fun x => fmul (fmul (V c false) (tensor Vs x (repeat false (length p)))) (Cconj (fmul (V c false) (tensor Vs x (repeat false (length p)))))) (cube (length p))) = fmul (V c false) (Cconj (V c false))).
      { intros c. transitivity (fmul (fmul (V c false) (Cconj (V c false))) f1); [|ring]. rewrite <- U, <- fsum_map_mul. apply fsum_map_ext. intros x _. rewrite cj_mul. ring. }
      rewrite !K. rewrite !Ho in Hu. exact Hu.
    + intros [|a z] [|b z'] H4 H5; try discriminate. cbn [map tensor repeat]. rewrite Ho, T by (cbn in *; lia). rewrite cj_mul. change (Cmult (V a false) (Cconj (V b false))) with (fmul (V a false) (Cconj (V b false))). ring.
Qed.

Variables (N : nat) (qs : list nat).
Hypothesis Hqs : NoDup qs.
Hypothesis Hlt : Forall (fun q => q < N) qs.
Notation n := (length qs).

Lemma key_eqb a b : eqb (key_of a) (key_of b) = eqb a b.
Proof. destruct (eqb_spec (key_of a) (key_of b)) as [E|E], (eqb_spec a b) as [E'|E']; try reflexivity; [apply key_inj in E; congruence|congruence]. Qed.

(** The probabilities of a circuit that ends with a measurement layer. *)
Lemma layer_prob d before m : sound_meas gmat d -> Forall (fun l => In l (md_labels d)) m -> length m = n -> filter is_measure before = [] ->
  let psi := final gmat N before in norm2 N psi <> 0%R ->
  forall os, length os = n ->
  RtoC (prob gmat (HK:=Fld_R) sqmod N n (before ++ meas_layer d qs m) (key_of os)) =
  fdiv (fsum (map (fun z => fsum (map (fun z' => fmul (Cconj (tensor (map (fun lo => at2 (md_matrix d (fst lo) (snd lo))) (combine m os)) z z')) (reduced Cconj N qs psi psi z z')) (cube n))) (cube n))) (RtoC (norm2 N psi)).
Proof.
  intros Hd Hm Hl Hb psi Hnz os Ho.
  destruct (meas_layer_parts d Hd m qs 0 Hm Hl) as (gss & Vs & L1 & L2 & G & M & A & U & T).
  set (opss := map (map (op_of gmat)) gss) in *.
  assert (Efin : forall x, final gmat N (before ++ meas_layer d qs m) x = run (concat opss) psi x).
  { intros x. unfold final. rewrite gates_app, map_app, run_app. unfold meas_layer. rewrite G. unfold opss. rewrite concat_map. reflexivity. }
  assert (Erun : forall x, length x = N -> run (concat opss) psi x = fsum (map (fun z => fmul (tensor Vs (rd qs x) z) (psi (wr qs z x))) (cube n))).
  { intros x Hx. apply (run_layer N qs opss Vs); auto. unfold opss. now rewrite map_length. }
  assert (Etot : total gmat (HK:=Fld_R) sqmod N (before ++ meas_layer d qs m) = norm2 N psi).
  { apply RtoC_inj. unfold total. rewrite RtoC_fsum, norm2_C.
    rewrite (fsum_map_ext _ (fun x => fmul (run (concat opss) psi x) (Cconj (run (concat opss) psi x)))); [|intros x _; rewrite Efin; apply sq_cj].
    apply (norm_gen Cconj cj_add cj_mul cj_0 N qs (tensor Vs)); auto.
    intros z z' Hz Hz'. rewrite <- Hl, <- L2 in *. apply (tensor_complete Cconj cj_mul cj_1); auto. }
  unfold prob. rewrite Etot. change (RtoC (?a / ?b)) with (RtoC (a / b)%R). rewrite RtoC_div by assumption. change (Cdiv ?a ?b) with (fdiv a b). f_equal.
  rewrite RtoC_fsum.
  rewrite (fsum_map_ext _ (fun x => if eqb (rd qs x) os then fmul (run (concat opss) psi x) (Cconj (run (concat opss) psi x)) else f0)).
  2:{ intros x _. rewrite key_eqb. rewrite reads_filter, filter_app, Hb. unfold meas_layer. rewrite M. cbn [app]. rewrite reads_pat. destruct (eqb (rd qs x) os); [|reflexivity]. rewrite Efin. apply sq_cj. }
  rewrite (born_gen Cconj cj_add cj_mul cj_0 N qs (tensor Vs) psi (run (concat opss) psi)); auto.
  apply fsum_map_ext. intros z Hz. apply fsum_map_ext. intros z' Hz'. apply in_cube in Hz, Hz'. rewrite T by lia. reflexivity.
Qed.

(** The sum of a row, over bits. *)
Lemma row_bits (g : bits -> bits -> C) : fsum (map (fun j => fsum (map (fun i => g (lebits n i) (lebits n j)) (seq 0 (2 ^ n)))) (seq 0 (2 ^ n))) = fsum (map (fun z => fsum (map (fun z' => g z z') (cube n))) (cube n)).
Proof.
  rewrite (fsum_map_ext _ (fun j => (fun z' => fsum (map (fun z => g z z') (cube n))) (lebits n j))).
  - rewrite (fsum_lebits n (fun z' => fsum (map (fun z => g z z') (cube n)))). apply fsum_swap.
  - intros j _. apply (fsum_lebits n (fun z => g z (lebits n j))).
Qed.

Lemma state_row d c m op os : sound_meas gmat d -> Forall (fun l => In l (md_labels d)) m -> length m = n -> only_gates c ->
  norm2 N (final gmat N c) <> 0%R -> length os = n ->
  is_tensor op (map (fun lo => at2 (md_matrix d (fst lo) (snd lo))) (combine m os)) ->
  dot (vec_conj (kron (transp eye1) op)) (vec (2 ^ n) (state_of gmat N c qs)) =
  RtoC (prob gmat (HK:=Fld_R) sqmod N n (c ++ CBarrier (seq 0 N) :: meas_layer d qs m) (key_of os)).
Proof.
  intros Hd Hm Hl Hc Hnz Ho (Tr & Tc & Ta). rewrite map_length, combine_length in Tr, Tc, Ta. replace (Nat.min (length m) (length os)) with n in * by lia.
  change (c ++ CBarrier (seq 0 N) :: meas_layer d qs m) with (c ++ [CBarrier (seq 0 N)] ++ meas_layer d qs m). rewrite app_assoc.
  assert (Ef : final gmat N (c ++ [CBarrier (seq 0 N)]) = final gmat N c) by (unfold final; rewrite gates_app; cbn; now rewrite app_nil_r).
  rewrite layer_prob; auto; [|rewrite filter_app, filter_only_gates by assumption; reflexivity|rewrite Ef; assumption].
  rewrite Ef. rewrite dot_vec by (cbn [kron transp eye1 m_rows m_cols]; lia).
  set (psi := final gmat N c) in *. set (nu := RtoC (norm2 N psi)).
  assert (Hnu : nu <> f0) by (intros E; apply Hnz; apply RtoC_inj; exact E).
  transitivity (fsum (map (fun j => fsum (map (fun i => (fun z z' => fdiv (fmul (Cconj (tensor (map (fun lo => at2 (md_matrix d (fst lo) (snd lo))) (combine m os)) z z')) (reduced Cconj N qs psi psi z z')) nu) (lebits n i) (lebits n j)) (seq 0 (2 ^ n)))) (seq 0 (2 ^ n)))).
  - apply fsum_map_ext. intros j Hj. apply fsum_map_ext. intros i Hi. apply in_seq in Hi, Hj. cbn [kron transp eye1 m_rows m_cols m_at].
    rewrite Tr, Tc. rewrite !Nat.mod_small by lia. rewrite Ta by lia. unfold state_of. fold psi nu.
    change (Cmult (RtoC 1) ?x) with (fmul f1 x). rewrite cj_mul, cj_1. field. assumption.
  - rewrite (row_bits (fun z z' => fdiv (fmul (Cconj (tensor (map (fun lo => at2 (md_matrix d (fst lo) (snd lo))) (combine m os)) z z')) (reduced Cconj N qs psi psi z z')) nu)).
    transitivity (fmul (fsum (map (fun z => fsum (map (fun z' => fmul (Cconj (tensor (map (fun lo => at2 (md_matrix d (fst lo) (snd lo))) (combine m os)) z z')) (reduced Cconj N qs psi psi z z')) (cube n))) (cube n))) (finv nu)); [|field; assumption].
    rewrite <- fsum_map_mul_r. apply fsum_map_ext. intros z _. rewrite <- fsum_map_mul_r. apply fsum_map_ext. intros z' _. field. assumption.
Qed.

(** * Processes *)
Variable pqs : list nat.
Hypothesis Hpqs : NoDup pqs.
Hypothesis Hplt : Forall (fun q => q < N) pqs.
Hypothesis Hlen : length pqs = n.

Lemma wr_zero z x : length x = N -> length z = length pqs -> wr pqs z x = repeat false N -> z = repeat false (length pqs).
Proof.
  intros Hx Hz E. rewrite <- (rd_wr pqs z x); auto; [|intros q Hq; rewrite Hx; rewrite Forall_forall in Hplt; auto]. rewrite E.
  apply bits_ext; [now rewrite length_rd, repeat_length|]. intros j Hj. rewrite length_rd in Hj. rewrite nth_rd by assumption. now rewrite !nth_repeat.
Qed.
(** What the preparation makes of the ground state. *)
Lemma prepared opss Vs : Forall2 (fun q oV => acts (fst oV) q (snd oV)) pqs (combine opss Vs) -> length opss = length Vs ->
  forall x, length x = N -> run (concat opss) (ground N) x = fsum (map (fun a => fmul (tensor Vs a (repeat false (length pqs))) (basis_state N pqs a x)) (cube (length pqs))).
Proof.
  intros A L x Hx. rewrite (run_layer N pqs opss Vs) by auto. unfold basis_state, ground.
  destruct (eqb_spec x (wr pqs (rd pqs x) (repeat false N))) as [E|E].
  - transitivity (tensor Vs (rd pqs x) (repeat false (length pqs))).
    + transitivity (fsum (map (fun z => if eqb (repeat false (length pqs)) z then tensor Vs (rd pqs x) z else f0) (cube (length pqs)))).
      * apply fsum_map_ext. intros z Hz. apply in_cube in Hz. destruct (eqb_spec (repeat false (length pqs)) z) as [<-|Nz].
        -- replace (eqb (wr pqs (repeat false (length pqs)) x) (repeat false N)) with true; [ring|]. symmetry. apply eqb_eq. rewrite E. rewrite (wr_wr_same N); auto; rewrite ?length_rd, ?repeat_length; auto.
           apply bits_ext; [rewrite length_wr; reflexivity|]. intros j Hj. rewrite length_wr, repeat_length in Hj. rewrite nth_repeat. destruct (in_dec Nat.eq_dec j pqs) as [Hi|Hi]; [|rewrite wr_out by assumption; apply nth_repeat].
           apply in_nth in Hi. destruct Hi as (k & Hk & <-). rewrite wr_in; auto; rewrite ?repeat_length; auto. apply nth_repeat.
        -- destruct (eqb_spec (wr pqs z x) (repeat false N)) as [E'|]; [|ring]. apply wr_zero in E'; congruence.
      * apply (fsum_pick (cube (length pqs)) (repeat false (length pqs)) (fun z => tensor Vs (rd pqs x) z)); [apply cube_NoDup|apply in_cube, repeat_length].
    + symmetry. transitivity (fsum (map (fun a => if eqb (rd pqs x) a then tensor Vs a (repeat false (length pqs)) else f0) (cube (length pqs)))).
      * apply fsum_map_ext. intros a Ha. apply in_cube in Ha. destruct (eqb_spec (rd pqs x) a) as [<-|Na].
        -- rewrite <- E, eqb_refl. ring.
        -- destruct (eqb_spec x (wr pqs a (repeat false N))) as [E'|]; [|ring]. exfalso. apply Na. rewrite E'. apply rd_wr; auto. intros q Hq. rewrite repeat_length. rewrite Forall_forall in Hplt. auto.
      * apply (fsum_pick (cube (length pqs)) (rd pqs x) (fun a => tensor Vs a (repeat false (length pqs)))); [apply cube_NoDup|apply in_cube, length_rd].
  - transitivity (f0 : C); [|symmetry].
    + apply fsum_map_zero'. intros z Hz. apply in_cube in Hz. destruct (eqb_spec (wr pqs z x) (repeat false N)) as [E'|]; [|ring]. exfalso. apply E.
      rewrite <- E'. rewrite (wr_wr_same N); auto; rewrite ?length_rd; auto. symmetry. apply wr_rd; auto. intros q Hq. rewrite Hx. rewrite Forall_forall in Hplt. auto.
    + apply fsum_map_zero'. intros a Ha. apply in_cube in Ha. destruct (eqb_spec x (wr pqs a (repeat false N))) as [E'|]; [|ring]. exfalso. apply E. rewrite E' at 2. rewrite rd_wr; auto.
      intros q Hq. rewrite repeat_length. rewrite Forall_forall in Hplt. auto.
Qed.
Lemma norm_ground : norm2 N (ground N) = 1%R.
Proof.
  unfold norm2, ground. transitivity (fsum (HF:=Fld_R) (map (fun x => if eqb (repeat false N) x then 1%R else 0%R) (cube N))).
  - apply fsum_map_ext. intros x _. destruct (eqb_spec x (repeat false N)) as [->|Nx].
    + rewrite eqb_refl. unfold sqmod. cbn. ring.
    + destruct (eqb_spec (repeat false N) x) as [E|]; [congruence|]. unfold sqmod. cbn. ring.
  - apply (fsum_pick (F:=R) (HF:=Fld_R) (cube N) (repeat false N) (fun _ => 1%R)); [apply cube_NoDup|apply in_cube, repeat_length].
Qed.
Lemma norm_basis_sum (c : bits -> C) : norm2 N (fun x => fsum (map (fun a => fmul (c a) (basis_state N pqs a x)) (cube (length pqs)))) = fsum (HF:=Fld_R) (map (fun a => sqmod (c a)) (cube (length pqs))).
Proof.
  apply RtoC_inj. rewrite norm2_C, RtoC_fsum.
  assert (W : forall a, length a = length pqs -> rd pqs (wr pqs a (repeat false N)) = a).
  { intros a Ha. apply rd_wr; auto. intros q Hq. rewrite repeat_length. rewrite Forall_forall in Hplt. auto. }
  assert (B : forall x, length x = N -> fsum (map (fun a => fmul (c a) (basis_state N pqs a x)) (cube (length pqs))) = if eqb x (wr pqs (rd pqs x) (repeat false N)) then c (rd pqs x) else f0).
  { intros x Hx. unfold basis_state. destruct (eqb_spec x (wr pqs (rd pqs x) (repeat false N))) as [E|E].
    - transitivity (fsum (map (fun a => if eqb (rd pqs x) a then c a else f0) (cube (length pqs)))); [|apply (fsum_pick (cube (length pqs)) (rd pqs x) c); [apply cube_NoDup|apply in_cube, length_rd]].
      apply fsum_map_ext. intros a Ha. apply in_cube in Ha. destruct (eqb_spec (rd pqs x) a) as [<-|Na].
      + rewrite <- E, eqb_refl. ring.
      + destruct (eqb_spec x (wr pqs a (repeat false N))) as [E'|]; [|ring]. exfalso. apply Na. rewrite E'. auto.
    - apply fsum_map_zero'. intros a Ha. apply in_cube in Ha. destruct (eqb_spec x (wr pqs a (repeat false N))) as [E'|]; [|ring]. exfalso. apply E. rewrite E' at 2. now rewrite W. }
  rewrite (fsum_map_ext _ (fun x => fsum (map (fun a => if eqb (wr pqs a (repeat false N)) x then fmul (c a) (Cconj (c a)) else f0) (cube (length pqs))))).
  - rewrite fsum_swap. apply fsum_map_ext. intros a Ha. apply in_cube in Ha. rewrite sq_cj.
    apply (fsum_pick (cube N) (wr pqs a (repeat false N)) (fun _ => fmul (c a) (Cconj (c a)))); [apply cube_NoDup|apply in_cube; rewrite length_wr; apply repeat_length].
  - intros x Hx. apply in_cube in Hx. rewrite B by assumption. destruct (eqb_spec x (wr pqs (rd pqs x) (repeat false N))) as [E|E].
    + symmetry. transitivity (fsum (map (fun a => if eqb (rd pqs x) a then fmul (c a) (Cconj (c a)) else f0) (cube (length pqs)))); [|apply (fsum_pick (cube (length pqs)) (rd pqs x) (fun a => fmul (c a) (Cconj (c a)))); [apply cube_NoDup|apply in_cube, length_rd]].
      apply fsum_map_ext. intros a Ha. apply in_cube in Ha. destruct (eqb_spec (rd pqs x) a) as [<-|Na].
      * rewrite <- E, eqb_refl. reflexivity.
      * destruct (eqb_spec (wr pqs a (repeat false N)) x) as [E'|]; [|reflexivity]. exfalso. apply Na. rewrite <- E'. auto.
    + rewrite cj_0. symmetry. transitivity (f0 : C); [|ring]. apply fsum_map_zero'. intros a Ha. apply in_cube in Ha. destruct (eqb_spec (wr pqs a (repeat false N)) x) as [E'|]; [|reflexivity]. exfalso. apply E. rewrite <- E'. now rewrite W.
Qed.
Lemma norm2_ext p q : (forall x, length x = N -> p x = q x) -> norm2 N p = norm2 N q.
Proof. intros E. unfold norm2. apply fsum_map_ext. intros x Hx. apply in_cube in Hx. now rewrite E. Qed.

Lemma process_row pd p d c m P op os : sound_prep gmat pd -> Forall (fun l => In l (pd_labels pd)) p -> length p = n ->
  sound_meas gmat d -> Forall (fun l => In l (md_labels d)) m -> length m = n -> only_gates c -> isometric gmat N c -> length os = n ->
  is_tensor P (map (fun l => at2 (pd_matrix pd l)) p) ->
  is_tensor op (map (fun lo => at2 (md_matrix d (fst lo) (snd lo))) (combine m os)) ->
  dot (vec_conj (kron (transp P) op)) (vec (2 ^ n * 2 ^ n) (choi_of gmat N c pqs qs)) =
  RtoC (prob gmat (HK:=Fld_R) sqmod N n (prep_layer pd pqs p ++ [CBarrier (seq 0 N)] ++ c ++ CBarrier (seq 0 N) :: meas_layer d qs m) (key_of os)).
Proof.
  intros Hpd Hp Hlp Hd Hm Hl Hc Hi Ho (Pr & Pc & Pa) (Tr & Tc & Ta).
  rewrite map_length in Pr, Pc, Pa. rewrite Hlp in Pr, Pc, Pa.
  rewrite map_length, combine_length in Tr, Tc, Ta. replace (Nat.min (length m) (length os)) with n in * by lia.
  destruct (prep_layer_parts pd Hpd p pqs Hp ltac:(lia)) as (gss & Vs & L1 & L2 & G & M & A & U & T).
  set (opss := map (map (op_of gmat)) gss) in *.
  replace (length p) with (length pqs) in * by lia.
  set (co := fun a => tensor Vs a (repeat false (length pqs))) in *.
  set (before := prep_layer pd pqs p ++ [CBarrier (seq 0 N)] ++ c ++ [CBarrier (seq 0 N)]).
  replace (prep_layer pd pqs p ++ [CBarrier (seq 0 N)] ++ c ++ CBarrier (seq 0 N) :: meas_layer d qs m) with (before ++ meas_layer d qs m) by (unfold before; rewrite <- !app_assoc; reflexivity).
  set (body := map (op_of gmat) (gates c)).
  set (out := fun a => run body (basis_state N pqs a)).
  assert (Eb : forall x, final gmat N before x = run body (run (concat opss) (ground N)) x).
  { intros x. unfold final, before. rewrite !gates_app. cbn [gates flat_map app]. rewrite app_nil_r, G. rewrite map_app, run_app. unfold opss. rewrite concat_map. reflexivity. }
  assert (Ep : forall x, length x = N -> run (concat opss) (ground N) x = fsum (map (fun a => fmul (co a) (basis_state N pqs a x)) (cube (length pqs)))).
  { intros x Hx. apply prepared; auto. unfold opss. now rewrite map_length. }
  assert (E : forall x, length x = N -> final gmat N before x = fsum (map (fun a => fmul (co a) (out a x)) (cube (length pqs)))).
  { intros x Hx. rewrite Eb. rewrite (run_ext N body _ _ Ep) by assumption. apply (run_sum body (cube (length pqs)) co (basis_state N pqs) N x Hx). }
  assert (Hnorm : norm2 N (final gmat N before) = 1%R).
  { rewrite (norm2_ext _ (run body (run (concat opss) (ground N)))) by (intros; apply Eb). unfold body. rewrite (Hi (run (concat opss) (ground N))).
    rewrite (norm2_ext _ _ Ep), norm_basis_sum. apply RtoC_inj. rewrite RtoC_fsum. transitivity (f1 : C); [|reflexivity]. rewrite <- U. apply fsum_map_ext. intros a _. apply sq_cj. }
  rewrite layer_prob; auto.
  2:{ unfold before. rewrite !filter_app, M. rewrite (filter_only_gates c) by assumption. reflexivity. }
  2:{ rewrite Hnorm. lra. }
  rewrite Hnorm. rewrite dot_vec by (cbn [kron transp m_rows m_cols]; rewrite ?Pr, ?Pc, ?Tr, ?Tc; reflexivity).
  set (Mt := tensor (map (fun lo => at2 (md_matrix d (fst lo) (snd lo))) (combine m os))) in *.
  transitivity (fsum (map (fun z => fsum (map (fun z' => fmul (Cconj (Mt z z')) (reduced Cconj N qs (final gmat N before) (final gmat N before) z z')) (cube n))) (cube n))); [|change (RtoC 1) with (@f1 C _); field; intros K; apply (f1_neq_0 (F:=C)); exact K].
  transitivity (fsum (map (fun z => fsum (map (fun z' => fsum (map (fun a => fsum (map (fun b => fmul (fmul (co a) (Cconj (co b))) (fmul (Cconj (Mt z z')) (reduced Cconj N qs (out a) (out b) z z'))) (cube n))) (cube n))) (cube n))) (cube n))).
  2:{ apply fsum_map_ext. intros z _. apply fsum_map_ext. intros z' _.
      rewrite (reduced_ext Cconj N qs _ (fun x => fsum (map (fun a => fmul (co a) (out a x)) (cube (length pqs)))) _ (fun x => fsum (map (fun a => fmul (co a) (out a x)) (cube (length pqs))))) by assumption.
      rewrite (reduced_sum Cconj cj_add cj_mul cj_0). rewrite Hlen. rewrite <- fsum_map_mul. apply fsum_map_ext. intros a _. rewrite <- fsum_map_mul. apply fsum_map_ext. intros b _. ring. }
  set (g := fun a b z z' => fmul (fmul (co a) (Cconj (co b))) (fmul (Cconj (Mt z z')) (reduced Cconj N qs (out a) (out b) z z'))).
  (* the left side, index by index *)
  transitivity (fsum (map (fun l => fsum (map (fun k => (fun kr ki => g (lebits n ki) (lebits n (l / 2 ^ n)) (lebits n kr) (lebits n (l mod 2 ^ n))) (k mod 2 ^ n) (k / 2 ^ n)) (seq 0 (2 ^ n * 2 ^ n)))) (seq 0 (2 ^ n * 2 ^ n)))).
  - apply fsum_map_ext. intros l Hl'. apply fsum_map_ext. intros k Hk. apply in_seq in Hk, Hl'. cbn [kron transp m_rows m_cols m_at]. rewrite Tr, Tc.
    assert (Hp2 : 2 ^ n <> 0) by (apply Nat.pow_nonzero; lia).
    rewrite Ta by (apply Nat.mod_upper_bound; assumption). rewrite Pa by (apply Nat.div_lt_upper_bound; lia).
    unfold choi_of. fold body. rewrite T by (rewrite length_lebits; lia). fold (co (lebits n (k / 2 ^ n))) (co (lebits n (l / 2 ^ n))). unfold g. fold Mt. fold (out (lebits n (k / 2 ^ n))) (out (lebits n (l / 2 ^ n))).
    change (Cmult ?a (Mt ?b ?c)) with (fmul a (Mt b c)). rewrite !cj_mul, cj_cj. ring.
  - transitivity (fsum (map (fun l => (fun lr li => fsum (map (fun a => fsum (map (fun z => g a (lebits n li) z (lebits n lr)) (cube n))) (cube n))) (l mod 2 ^ n) (l / 2 ^ n)) (seq 0 (2 ^ n * 2 ^ n)))).
    + apply fsum_map_ext. intros l _. rewrite (fsum_divmod (fun kr ki => g (lebits n ki) (lebits n (l / 2 ^ n)) (lebits n kr) (lebits n (l mod 2 ^ n)))).
      rewrite <- (fsum_lebits n (fun a => fsum (map (fun z => g a (lebits n (l / 2 ^ n)) z (lebits n (l mod 2 ^ n))) (cube n)))). apply fsum_map_ext. intros i _.
      rewrite <- (fsum_lebits n (fun z => g (lebits n i) (lebits n (l / 2 ^ n)) z (lebits n (l mod 2 ^ n)))). reflexivity.
    + rewrite (fsum_divmod (fun lr li => fsum (map (fun a => fsum (map (fun z => g a (lebits n li) z (lebits n lr)) (cube n))) (cube n)))).
      transitivity (fsum (map (fun b => fsum (map (fun z' => fsum (map (fun a => fsum (map (fun z => g a b z z') (cube n))) (cube n))) (cube n))) (cube n))).
      * rewrite <- (fsum_lebits n (fun b => fsum (map (fun z' => fsum (map (fun a => fsum (map (fun z => g a b z z') (cube n))) (cube n))) (cube n)))). apply fsum_map_ext. intros j _.
        rewrite <- (fsum_lebits n (fun z' => fsum (map (fun a => fsum (map (fun z => g a (lebits n j) z z') (cube n))) (cube n)))). reflexivity.
      * (* reorder the four sums: b z' a z -> z z' a b *)
        transitivity (fsum (map (fun b => fsum (map (fun z' => fsum (map (fun z => fsum (map (fun a => g a b z z') (cube n))) (cube n))) (cube n))) (cube n))).
        { apply fsum_map_ext. intros b _. apply fsum_map_ext. intros z' _. apply fsum_swap. }
        transitivity (fsum (map (fun b => fsum (map (fun z => fsum (map (fun z' => fsum (map (fun a => g a b z z') (cube n))) (cube n))) (cube n))) (cube n))).
        { apply fsum_map_ext. intros b _. apply fsum_swap. }
        rewrite fsum_swap. apply fsum_map_ext. intros z _. rewrite fsum_swap. apply fsum_map_ext. intros z' _. apply fsum_swap.
Qed.
End Born.
